(** Identifiers of vertices, and histories without rejected calls. *)
From Coq Require Import QArith Ascii String.
From Verif Require Import Base Graph Builder BuilderSpec BuilderProofs.
Open Scope Z_scope.

(** * Vertex identifiers *)
Definition vuniq (s : state) : Prop := uniq nonzero (map bv_id (s_vs s)).
(** Actions that change no vertex identifier. *)
Definition same_ids (s s' : state) : Prop := map bv_id (s_vs s') = map bv_id (s_vs s).
Definition keeps {A} (R : state -> state -> Prop) (m : M A) : Prop :=
  forall s, match m s with Done _ s' => R s s' | Raised s' => R s s' | Undef => True end.
Lemma keeps_pres (R : state -> state -> Prop) (P : state -> Prop) {A} (m : M A) : (forall s s', R s s' -> P s -> P s') -> keeps R m -> pres P m.
Proof. intros H Hm s Hs. specialize (Hm s). destruct (m s); eauto. Qed.
Lemma keeps_bind (R : state -> state -> Prop) {A B} (m : M A) (f : A -> M B) : (forall a b c, R a b -> R b c -> R a c) ->
  keeps R m -> (forall a, keeps R (f a)) -> keeps R (mbind m f).
Proof.
  intros T Hm Hf s. unfold mbind. specialize (Hm s). destruct (m s) as [a s'|s'|]; auto. specialize (Hf a s'). destruct (f a s'); eauto.
Qed.
Lemma vuniq_same s s' : same_ids s s' -> vuniq s -> vuniq s'.
Proof. unfold same_ids, vuniq. intros ->. auto. Qed.

Section Keeps.
Variable R : state -> state -> Prop.
Hypothesis R_refl : forall s, R s s.
Hypothesis R_trans : forall a b c, R a b -> R b c -> R a c.
Hypothesis R_flags : forall s a b c, R s (with_flags a b c s).
Lemma keeps_ret {A} (a : A) : keeps R (ret a). Proof. intros s. apply R_refl. Qed.
Lemma keeps_fail {A} : keeps R (@fail A). Proof. intros s. apply R_refl. Qed.
Lemma keeps_check b : keeps R (check b). Proof. intros s. destruct b; apply R_refl. Qed.
Lemma keeps_get : keeps R get. Proof. intros s. apply R_refl. Qed.
Lemma keeps_get_v v : keeps R (get_v v). Proof. intros s. unfold get_v. destruct (nth_error _ _); auto. Qed.
Lemma keeps_get_e h : keeps R (get_e h). Proof. intros s. unfold get_e. destruct (find_e _ _); auto. Qed.
Lemma keeps_writable : keeps R writable. Proof. intros s. unfold writable. destruct (s_readonly s); apply R_refl. Qed.
Lemma keeps_modify f : (forall s, R s (f s)) -> keeps R (modify f). Proof. intros H s. apply H. Qed.
Lemma keeps_begin : keeps R begin_change.
Proof. apply keeps_bind; [exact R_trans|apply keeps_writable|intros _; apply keeps_modify; intros s; apply R_flags]. Qed.
End Keeps.

(** Syntax-directed: one step of showing that an action relates its states by [R]. *)
Ltac keeps_step refl trans flags :=
  match goal with
  | |- forall _, _ => intro
  | |- keeps _ (mbind _ _) => apply keeps_bind; [exact trans| |]
  | |- keeps _ (ret _) => apply keeps_ret; exact refl
  | |- keeps _ fail => apply keeps_fail; exact refl
  | |- keeps _ (check _) => apply keeps_check; exact refl
  | |- keeps _ get => apply keeps_get; exact refl
  | |- keeps _ (get_v _) => apply keeps_get_v; exact refl
  | |- keeps _ (get_e _) => apply keeps_get_e; exact refl
  | |- keeps _ writable => apply keeps_writable; exact refl
  | |- keeps _ begin_change => apply keeps_begin; [exact refl|exact trans|exact flags]
  | |- keeps _ (set_init_phases _ _) => unfold set_init_phases
  | |- keeps _ (set_phases _ _) => unfold set_phases
  | |- keeps _ (set_Ni _ _) => unfold set_Ni
  | |- keeps _ (quiet _) => unfold quiet
  | |- keeps _ set_read_only => unfold set_read_only
  | |- keeps _ set_repetition_vector => unfold set_repetition_vector
  | |- keeps _ set_normalize => unfold set_normalize
  | |- keeps _ add_vertex_auto => unfold add_vertex_auto
  | |- keeps _ (add_vertex_id _) => unfold add_vertex_id
  end.

Lemma same_refl s : same_ids s s. Proof. reflexivity. Qed.
Lemma same_trans a b c : same_ids a b -> same_ids b c -> same_ids a c. Proof. unfold same_ids. congruence. Qed.
Lemma same_flags s a b c : same_ids s (with_flags a b c s). Proof. reflexivity. Qed.
Lemma same_put_v v f : (forall b, bv_id (f b) = bv_id b) -> keeps same_ids (put_v v f).
Proof.
  intros H. apply keeps_bind; [exact same_trans|apply keeps_get_v, same_refl|intros _]. apply keeps_modify. intros s. unfold same_ids. cbn.
  apply update_nth_map, H.
Qed.
Lemma same_put_e h f : keeps same_ids (put_e h f).
Proof. apply keeps_bind; [exact same_trans|apply keeps_get_e, same_refl|intros _]. apply keeps_modify. intros s. reflexivity. Qed.

Ltac same_auto :=
  repeat first
    [ keeps_step same_refl same_trans same_flags
    | match goal with
      | |- keeps _ (put_v _ _) => apply same_put_v; reflexivity
      | |- keeps _ (put_e _ _) => apply same_put_e
      | |- keeps _ (modify _) => apply keeps_modify; intros; reflexivity
      | |- keeps _ reset_computation => apply keeps_modify; intros; reflexivity
      end
    | progress cbn beta ].

Lemma pres_same {A} (m : M A) : keeps same_ids m -> pres vuniq m.
Proof. apply keeps_pres. exact vuniq_same. Qed.

Lemma vuniq_set_vertex_id v id : pres vuniq (set_vertex_id v id).
Proof.
  apply pres_bind; [apply pres_same; same_auto|intros _]. intros s Hs. unfold mbind at 1. cbn [get].
  destruct (vertex_by_id s id) as [o|] eqn:F; [apply pres_check; exact Hs|].
  unfold set_vertex_id_unsafe, begin_change, writable, put_v, mbind, get_v, modify. destruct (s_readonly s); cbn; [exact Hs|].
  destruct (nth_error (s_vs s) v) as [b|] eqn:E; [|exact I]. destruct (update_nth_split (bv_set_id id) _ _ _ E) as (l1 & l2 & Ev & _ & Eu).
  unfold vuniq in *. cbn. rewrite Eu. rewrite Ev, map_app in Hs. cbn [map] in Hs. rewrite map_app. cbn [map].
  apply uniq_insert; [eapply uniq_remove; exact Hs|]. intros _ Hin. cbn in Hin. rewrite <- map_app in Hin. apply in_map_iff in Hin as (x & Ex & Hx).
  assert (Hx' : In x (s_vs s)) by (rewrite Ev; apply in_app_or in Hx; apply in_or_app; cbn; tauto).
  apply (find_index_none _ _ F) in Hx'. rewrite Ex, Z.eqb_refl in Hx'. discriminate.
Qed.
Lemma vuniq_add_unsafe id : pres vuniq (add_unsafe_vertex id).
Proof.
  apply pres_bind; [apply pres_same; same_auto|intros _]. apply pres_bind; [apply pres_get|intros s0].
  apply pres_bind; [apply pres_modify|intros _].
  - intros s Hs. unfold vuniq in *. cbn. rewrite map_app. apply uniq_insert; [rewrite app_nil_r; exact Hs|discriminate].
  - apply pres_bind; [apply vuniq_set_vertex_id|intros _]. apply pres_same. same_auto.
Qed.
Lemma same_set_vertex_name v n : keeps same_ids (set_vertex_name v n).
Proof. unfold set_vertex_name. same_auto. destruct (vertex_by_name _ n); same_auto. Qed.
Lemma same_set_edge_id h id : keeps same_ids (set_edge_id h id).
Proof. unfold set_edge_id. same_auto. destruct (Builder.edge_by_id _ id); same_auto. Qed.
Lemma same_set_edge_name h n : keeps same_ids (set_edge_name h n).
Proof. unfold set_edge_name. same_auto. destruct (edge_by_name _ n); same_auto. Qed.
Lemma same_add_edge_unsafe f t id : keeps same_ids (add_edge_unsafe f t id).
Proof. unfold add_edge_unsafe. same_auto. apply same_set_edge_id. Qed.
Lemma same_add_edge_auto f t : keeps same_ids (add_edge_auto f t).
Proof. unfold add_edge_auto. same_auto. apply same_add_edge_unsafe. Qed.
Lemma same_set_all_Ni l : forall v, keeps same_ids (set_all_Ni v l).
Proof. induction l as [|n l IH]; intros v; cbn; [same_auto|]. unfold set_Ni. same_auto. apply IH. Qed.

Lemma vuniq_remove_vertex v s : inv s -> vuniq s ->
  match remove_vertex v s with Done _ s' => vuniq s' | Raised s' => vuniq s' | Undef => True end.
Proof.
  intros Hi Hs. rewrite remove_vertex_eq by apply Hi. destruct (s_readonly s); [exact Hs|]. destruct (nth_error (s_vs s) v) as [b|] eqn:E; [|exact I].
  destruct (nth_error_split _ _ E) as (l1 & l2 & Ev & L). unfold vuniq in *. cbn. rewrite Ev, <- L, delete_nth_split. rewrite Ev, map_app in Hs. cbn in Hs.
  apply uniq_remove in Hs. rewrite map_app. exact Hs.
Qed.


Lemma vuniq_exec_pres c s : checked_call s c -> (forall v, c <> RemoveVertex v) -> pres vuniq (exec c).
Proof.
  intros Hc Hr. destruct c; cbn [exec]; try contradiction; try apply pres_quiet.
  - apply pres_bind; [apply pres_same; same_auto|intros _]. apply pres_bind; [apply pres_get|intros s0].
    apply pres_bind; [apply pres_same; same_auto|intros _]. apply vuniq_add_unsafe.
  - apply pres_bind; [apply pres_get|intros s0]. apply pres_bind; [apply pres_check|intros _; apply vuniq_add_unsafe].
  - apply pres_bind; [|intros v; apply pres_same; unfold quiet; same_auto; apply same_set_vertex_name].
    apply pres_bind; [apply pres_get|intros s0]. apply pres_bind; [apply pres_check|intros _; apply vuniq_add_unsafe].
  - apply pres_bind; [|intros v; apply pres_same; same_auto; apply same_set_vertex_name].
    apply pres_bind; [apply pres_same; same_auto|intros _]. apply pres_bind; [apply pres_get|intros s0].
    apply pres_bind; [apply pres_same; same_auto|intros _]. apply vuniq_add_unsafe.
  - apply vuniq_add_unsafe.
  - apply pres_same. apply same_add_edge_auto.
  - apply pres_same. apply same_add_edge_unsafe.
  - apply pres_same. apply keeps_bind; [exact same_trans|apply same_add_edge_unsafe|intros h; same_auto; apply same_set_edge_name].
  - apply pres_same. apply keeps_bind; [exact same_trans|apply same_add_edge_auto|intros h; same_auto; apply same_set_edge_name].
  - exfalso. eapply Hr; reflexivity.
  - apply pres_same. unfold remove_edge. same_auto.
  - apply vuniq_set_vertex_id.
  - apply pres_same, same_set_edge_id.
  - apply pres_same, same_set_vertex_name.
  - apply pres_same, same_set_edge_name.
  - apply pres_same. unfold set_phases. same_auto.
  - apply pres_same. unfold set_init_phases. same_auto.
  - apply pres_same. unfold set_reentrancy. same_auto.
  - apply pres_same. unfold set_preload. same_auto.
  - apply pres_same. unfold set_tokensize. same_auto.
  - apply pres_same. unfold set_edge_in, set_phases. same_auto.
  - apply pres_same. unfold set_edge_out, set_phases. same_auto.
  - apply pres_same. unfold set_edge_in_init, set_init_phases. same_auto.
  - apply pres_same. unfold set_edge_out_init, set_init_phases. same_auto.
  - apply pres_same. unfold set_durations. same_auto.
  - apply pres_same. unfold set_init_durations. same_auto.
  - apply pres_same. unfold get_fine_gcd. same_auto. destruct (lookup_gcd _ _); [same_auto|]. destruct (compute_fine_gcd _); same_auto.
  - apply pres_same. unfold set_Ni. same_auto.
  - apply pres_same. unfold compute_repetition, set_read_only. same_auto. destruct (s_rep _); [same_auto|]. same_auto.
    destruct res; unfold set_repetition_vector; same_auto. apply same_set_all_Ni.
  - apply pres_same. unfold compute_normalization, set_read_only. same_auto. destruct (s_norm _); [same_auto|]. same_auto.
    destruct ok; unfold set_normalize; same_auto.
  - apply pres_same. unfold set_read_only. same_auto.
  - apply pres_same. unfold reset_computation. same_auto.
Qed.
Lemma vuniq_exec c s : checked_call s c -> inv s -> vuniq s ->
  match exec c s with Done _ s' => vuniq s' | Raised s' => vuniq s' | Undef => True end.
Proof.
  intros Hc Hi Hs. assert (D : (exists v, c = RemoveVertex v) \/ forall v, c <> RemoveVertex v) by (destruct c; eauto; right; discriminate).
  destruct D as [[v ->]|D]; [apply vuniq_remove_vertex; assumption|]. apply (vuniq_exec_pres c s Hc D s Hs).
Qed.
Lemma checked_vuniq r s : history_of checked_call r s -> vuniq s.
Proof.
  induction 1 as [|s c s' H IH Hc E|s c s' H IH Hc _ E]; [constructor| |];
    pose proof (vuniq_exec c s Hc (any_history_inv s (history_of_any _ _ _ H)) IH) as K; rewrite E in K; exact K.
Qed.

(** * Accepted calls only *)
Definition acc (P : state -> Prop) {A} (m : M A) : Prop := forall s, P s -> match m s with Done _ s' => P s' | _ => True end.
Lemma acc_bind P {A B} (m : M A) (f : A -> M B) : acc P m -> (forall a, acc P (f a)) -> acc P (mbind m f).
Proof. intros Hm Hf s Hs. unfold mbind. specialize (Hm s Hs). destruct (m s) as [a s'|s'|]; auto. apply (Hf a s' Hm). Qed.
Lemma pres_acc P {A} (m : M A) : pres P m -> acc P m.
Proof. intros H s Hs. specialize (H s Hs). destruct (m s); auto. Qed.

(** All the vertex identifiers are distinct, and edge identifiers positive. *)
Definition vdistinct (s : state) : Prop := NoDup (map bv_id (s_vs s)).
Lemma vdistinct_same s s' : same_ids s s' -> vdistinct s -> vdistinct s'.
Proof. unfold same_ids, vdistinct. intros ->. auto. Qed.
Lemma acc_same {A} (m : M A) : keeps same_ids m -> acc vdistinct m.
Proof. intros H. apply pres_acc. revert H. apply keeps_pres. exact vdistinct_same. Qed.

Lemma set_vertex_id_done v id s s' b : nth_error (s_vs s) v = Some b -> set_vertex_id v id s = Done tt s' ->
  (exists l1 l2, s_vs s = l1 ++ b :: l2 /\ length l1 = v /\ bv_id b = id /\ s_vs s' = s_vs s /\ forall x, In x l1 -> bv_id x <> id) \/
  (exists l1 l2, s_vs s = l1 ++ b :: l2 /\ length l1 = v /\ s_vs s' = l1 ++ bv_set_id id b :: l2 /\ forall x, In x (s_vs s) -> bv_id x <> id).
Proof.
  intros Eb E. unfold set_vertex_id, begin_change, writable, mbind in E. destruct (s_readonly s); [discriminate|]. cbn in E.
  unfold check in E. destruct (find_index (fun b0 : bvertex => bv_id b0 =? id) (s_vs s)) as [o|] eqn:F.
  - destruct (Nat.eqb_spec o v) as [->|]; cbn in E; [|discriminate]. injection E as <-. left.
    destruct (find_index_some _ _ _ F) as (k1 & x & k2 & Ek & Lk & Fx & Hk). rewrite Ek, <- Lk, nth_error_app2, Nat.sub_diag in Eb by lia.
    cbn in Eb. injection Eb as ->. exists k1, k2. apply Z.eqb_eq in Fx. repeat split; auto.
    intros y Hy Ey. specialize (Hk y Hy). rewrite Ey, Z.eqb_refl in Hk. discriminate.
  - right. unfold set_vertex_id_unsafe, begin_change, writable, put_v, mbind, get_v, modify in E. cbn in E. rewrite Eb in E. injection E as <-.
    destruct (update_nth_split (bv_set_id id) _ _ _ Eb) as (l1 & l2 & Ev & L & Eu). exists l1, l2. cbn. repeat split; auto.
    intros y Hy Ey. apply (find_index_none _ _ F) in Hy. rewrite Ey, Z.eqb_refl in Hy. discriminate.
Qed.
Lemma set_vertex_id_undef v id s : nth_error (s_vs s) v = None -> forall s', set_vertex_id v id s <> Done tt s'.
Proof.
  intros Eb s' E. unfold set_vertex_id, begin_change, writable, mbind in E. destruct (s_readonly s); [discriminate|]. cbn in E.
  unfold check in E. destruct (find_index (fun b0 : bvertex => bv_id b0 =? id) (s_vs s)) as [o|] eqn:F.
  - destruct (Nat.eqb_spec o v) as [->|]; cbn in E; [|discriminate]. destruct (find_index_some _ _ _ F) as (k1 & x & k2 & Ek & Lk & _).
    apply nth_error_None in Eb. rewrite Ek, app_length in Eb. cbn in Eb. lia.
  - unfold set_vertex_id_unsafe, begin_change, writable, put_v, mbind, get_v, modify in E. cbn in E. rewrite Eb in E. discriminate.
Qed.
Lemma vdistinct_set_vertex_id v id : acc vdistinct (set_vertex_id v id).
Proof.
  intros s Hs. destruct (set_vertex_id v id s) as [[] s'|s'|] eqn:E; auto.
  destruct (nth_error (s_vs s) v) as [b|] eqn:Eb; [|exfalso; eapply set_vertex_id_undef; eauto].
  unfold vdistinct in *. destruct (set_vertex_id_done _ _ _ _ _ Eb E) as [(l1 & l2 & _ & _ & _ & -> & _)|(l1 & l2 & Ev & _ & -> & Hf)]; [exact Hs|].
  apply (proj2 (NoDup_uniq _)). apply (proj1 (NoDup_uniq _)) in Hs. rewrite map_app. cbn [map]. rewrite Ev, map_app in Hs. cbn [map] in Hs.
  apply uniq_insert; [eapply uniq_remove; exact Hs|]. intros _ Hin. cbn in Hin. rewrite <- map_app in Hin. apply in_map_iff in Hin as (x & Ex & Hx).
  apply (Hf x); [|exact Ex]. rewrite Ev. apply in_app_or in Hx. apply in_or_app. cbn. tauto.
Qed.
Lemma vdistinct_add_unsafe id : acc vdistinct (add_unsafe_vertex id).
Proof.
  apply acc_bind; [apply acc_same; same_auto|intros _]. intros s Hs. unfold mbind at 1. cbn [get]. unfold mbind at 1. cbn [modify].
  set (s1 := with_vs (s_vs s ++ [new_vertex]) s). unfold mbind at 1.
  assert (Eb : nth_error (s_vs s1) (length (s_vs s)) = Some new_vertex).
  { unfold s1. cbn. rewrite nth_error_app2, Nat.sub_diag by lia. reflexivity. }
  destruct (set_vertex_id (length (s_vs s)) id s1) as [[] s2|s2|] eqn:E; auto.
  assert (H2 : vdistinct s2).
  { unfold vdistinct in *. destruct (set_vertex_id_done _ _ _ _ _ Eb E) as [(l1 & l2 & Ev & Ll & Ei & -> & Hf)|(l1 & l2 & Ev & Ll & -> & Hf)];
      unfold s1 in Ev; cbn in Ev.
    all: assert (Hl : l1 = s_vs s /\ l2 = []).
    1, 3: assert (length l2 = O) by (apply (f_equal (@length _)) in Ev; rewrite !app_length in Ev; cbn in Ev; lia);
      destruct l2; [|discriminate]; apply app_inj_tail in Ev as [-> _]; auto.
    all: destruct Hl as [-> ->].
    - unfold s1. cbn. rewrite map_app. cbn. apply (proj2 (NoDup_uniq _)), uniq_insert; [rewrite app_nil_r; apply (proj1 (NoDup_uniq _)), Hs|].
      intros _ Hi. rewrite app_nil_r in Hi. apply in_map_iff in Hi as (x & Ex & Hx). apply (Hf x Hx). rewrite Ex. exact Ei.
    - rewrite map_app. cbn. apply (proj2 (NoDup_uniq _)), uniq_insert; [rewrite app_nil_r; apply (proj1 (NoDup_uniq _)), Hs|].
      intros _ Hi. rewrite app_nil_r in Hi. apply in_map_iff in Hi as (x & Ex & Hx). apply (Hf x); [|exact Ex]. unfold s1. cbn. apply in_or_app. left; exact Hx. }
  clear -H2. revert s2 H2. apply acc_same. same_auto.
Qed.
Lemma vdistinct_exec c s : checked_call s c -> inv s -> vdistinct s -> match exec c s with Done _ s' => vdistinct s' | _ => True end.
Proof.
  intros Hc Hi Hs. assert (D : (exists v, c = RemoveVertex v) \/ forall v, c <> RemoveVertex v) by (destruct c; eauto; right; discriminate).
  destruct D as [[v ->]|D].
  { cbn [exec]. rewrite remove_vertex_eq by apply Hi. destruct (s_readonly s); [exact I|]. destruct (nth_error (s_vs s) v) as [b|] eqn:E; [|exact I].
    destruct (nth_error_split _ _ E) as (l1 & l2 & Ev & L). unfold vdistinct in *. cbn. rewrite Ev, <- L, delete_nth_split. rewrite Ev, map_app in Hs. cbn in Hs.
    apply NoDup_remove_1 in Hs. rewrite map_app. exact Hs. }
  revert s Hc Hi Hs. cut (acc vdistinct (exec c) \/ exists v id, c = SetVertexIdUnsafe v id).
  { intros [H|(v & id & ->)] s Hc _ Hs; [apply (H s Hs)|contradiction]. }
  destruct c; cbn [exec]; try (right; eauto; fail); left; unfold quiet.
  - apply acc_bind; [|intros; apply acc_same; same_auto]. apply acc_bind; [apply acc_same; same_auto|intros _]. apply acc_bind; [apply acc_same; same_auto|intros s0].
    apply acc_bind; [apply acc_same; same_auto|intros _]. apply vdistinct_add_unsafe.
  - apply acc_bind; [|intros; apply acc_same; same_auto]. apply acc_bind; [apply acc_same; same_auto|intros s0]. apply acc_bind; [apply acc_same; same_auto|intros _; apply vdistinct_add_unsafe].
  - apply acc_bind; [|intros; apply acc_same; same_auto]. apply acc_bind; [|intros v; apply acc_same; same_auto; apply same_set_vertex_name].
    apply acc_bind; [apply acc_same; same_auto|intros s0]. apply acc_bind; [apply acc_same; same_auto|intros _; apply vdistinct_add_unsafe].
  - apply acc_bind; [|intros; apply acc_same; same_auto]. apply acc_bind; [|intros v; apply acc_same; same_auto; apply same_set_vertex_name].
    apply acc_bind; [apply acc_same; same_auto|intros _]. apply acc_bind; [apply acc_same; same_auto|intros s0].
    apply acc_bind; [apply acc_same; same_auto|intros _]. apply vdistinct_add_unsafe.
  - apply acc_bind; [|intros; apply acc_same; same_auto]. apply vdistinct_add_unsafe.
  - apply acc_same. same_auto. apply same_add_edge_auto.
  - apply acc_same. same_auto. apply same_add_edge_unsafe.
  - apply acc_same. unfold add_edge_id_name. same_auto; [apply same_add_edge_unsafe|apply same_set_edge_name].
  - apply acc_same. unfold add_edge_name. same_auto; [apply same_add_edge_auto|apply same_set_edge_name].
  - exfalso. eapply D; reflexivity.
  - apply acc_same. unfold remove_edge. same_auto.
  - apply vdistinct_set_vertex_id.
  - apply acc_same, same_set_edge_id.
  - apply acc_same, same_set_vertex_name.
  - apply acc_same, same_set_edge_name.
  - apply acc_same. unfold set_phases. same_auto.
  - apply acc_same. unfold set_init_phases. same_auto.
  - apply acc_same. unfold set_reentrancy. same_auto.
  - apply acc_same. unfold set_preload. same_auto.
  - apply acc_same. unfold set_tokensize. same_auto.
  - apply acc_same. unfold set_edge_in, set_phases. same_auto.
  - apply acc_same. unfold set_edge_out, set_phases. same_auto.
  - apply acc_same. unfold set_edge_in_init, set_init_phases. same_auto.
  - apply acc_same. unfold set_edge_out_init, set_init_phases. same_auto.
  - apply acc_same. unfold set_durations. same_auto.
  - apply acc_same. unfold set_init_durations. same_auto.
  - apply acc_same. unfold get_fine_gcd. same_auto. destruct (lookup_gcd _ _); [same_auto|]. destruct (compute_fine_gcd _); same_auto.
  - apply acc_same. unfold set_Ni. same_auto.
  - apply acc_same. unfold compute_repetition, set_read_only. same_auto. destruct (s_rep _); [same_auto|]. same_auto.
    destruct res; unfold set_repetition_vector; same_auto. apply same_set_all_Ni.
  - apply acc_same. unfold compute_normalization, set_read_only. same_auto. destruct (s_norm _); [same_auto|]. same_auto.
    destruct ok; unfold set_normalize; same_auto.
  - apply acc_same. unfold set_read_only. same_auto.
  - apply acc_same. unfold reset_computation. same_auto.
Qed.
