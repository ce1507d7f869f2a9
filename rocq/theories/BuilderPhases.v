(** Edge identifiers, phase counts, flags and removal. *)
From Coq Require Import QArith Ascii String.
From Verif Require Import Base Graph Builder BuilderSpec BuilderProofs BuilderIds.
Open Scope Z_scope.

(** * Edge identifiers are positive *)
Definition epos (s : state) : Prop := forall e, In e (s_es s) -> 0 < be_id e.
Definition fewer_ids (s s' : state) : Prop := forall e, In e (s_es s') -> In (be_id e) (map be_id (s_es s)).
Lemma fewer_refl s : fewer_ids s s. Proof. intros e He. apply in_map, He. Qed.
Lemma fewer_trans a b c : fewer_ids a b -> fewer_ids b c -> fewer_ids a c.
Proof. intros H1 H2 e He. apply H2 in He. apply in_map_iff in He as (x & <- & Hx). apply H1, Hx. Qed.
Lemma fewer_flags s a b c : fewer_ids s (with_flags a b c s). Proof. exact (fewer_refl s). Qed.
Lemma fewer_epos s s' : fewer_ids s s' -> epos s -> epos s'.
Proof. intros H Hs e He. apply H in He. apply in_map_iff in He as (x & <- & Hx). apply Hs, Hx. Qed.
Lemma fewer_put_v v f : keeps fewer_ids (put_v v f).
Proof. apply keeps_bind; [exact fewer_trans|apply keeps_get_v, fewer_refl|intros _]. apply keeps_modify. intros s. exact (fewer_refl s). Qed.
Lemma fewer_put_e h f : (forall e, be_id (f e) = be_id e) -> keeps fewer_ids (put_e h f).
Proof.
  intros H. apply keeps_bind; [exact fewer_trans|apply keeps_get_e, fewer_refl|intros _]. apply keeps_modify. intros s e He. cbn in He.
  apply in_map_iff in He as (x & <- & Hx). destruct (_ =? _)%nat; rewrite ?H; apply in_map, Hx.
Qed.
Lemma fewer_with_es s p : fewer_ids s (with_es (filter p (s_es s)) s).
Proof. intros e He. cbn in He. apply filter_In in He as [He _]. apply in_map, He. Qed.

Ltac fewer_auto :=
  repeat first
    [ keeps_step fewer_refl fewer_trans fewer_flags
    | match goal with
      | |- keeps _ (put_v _ _) => apply fewer_put_v
      | |- keeps _ (put_e _ _) => apply fewer_put_e; reflexivity
      | |- keeps _ (modify _) => apply keeps_modify; intros; first [apply fewer_with_es|exact (fewer_refl _)]
      | |- keeps _ reset_computation => apply keeps_modify; intros; exact (fewer_refl _)
      end
    | progress cbn beta ].
Lemma acc_fewer {A} (m : M A) : keeps fewer_ids m -> acc epos m.
Proof. intros H. apply pres_acc. revert H. apply keeps_pres. exact fewer_epos. Qed.

Lemma epos_set_edge_id h id : acc epos (set_edge_id h id).
Proof.
  apply acc_bind; [apply acc_fewer; fewer_auto|intros _]. intros s Hs. unfold mbind at 1. unfold check. destruct (Z.ltb_spec 0 id) as [Z0|]; [|exact I].
  cbn [ret]. unfold mbind at 1. cbn [get]. destruct (Builder.edge_by_id s id) as [oc|]; [destruct (oc =? h)%nat; [exact Hs|exact I]|].
  unfold put_e, mbind, get_e, modify. destruct (find_e h (s_es s)); [|exact I]. intros e He. cbn in He. apply in_map_iff in He as (x & <- & Hx).
  destruct (_ =? _)%nat; cbn; auto.
Qed.
Lemma epos_add_edge_unsafe f t id s : inv s -> epos s -> match add_edge_unsafe f t id s with Done _ s' => epos s' | _ => True end.
Proof.
  intros Hi Hs. unfold add_edge_unsafe, begin_change, writable, mbind at 1 2. destruct (s_readonly s) eqn:R; [exact I|]. cbn [reset_computation modify].
  unfold mbind at 1, get_v at 1. cbn [with_flags s_vs]. destruct (nth_error (s_vs s) f); [|exact I]. unfold mbind at 1, get_v at 1. cbn [with_flags s_vs].
  destruct (nth_error (s_vs s) t); [|exact I]. unfold mbind at 1. cbn [get]. unfold mbind at 1. cbn [modify]. cbn [with_flags s_next s_es].
  set (s1 := with_next _ _). unfold mbind at 1. destruct (set_edge_id (s_next s) id s1) as [[] s2|s2|] eqn:E; auto.
  assert (H2 : epos s2).
  { unfold set_edge_id, begin_change, writable, mbind in E. cbn in E. unfold check in E. destruct (Z.ltb_spec 0 id) as [Z0|]; [|discriminate]. cbn in E.
    destruct (Builder.edge_by_id (with_flags false false false s1) id) as [oc|] eqn:F.
    - exfalso. unfold Builder.edge_by_id in F. cbn in F. destruct (find _ _) as [x|] eqn:Fx; [|discriminate]. injection F as <-.
      destruct (Nat.eqb_spec (be_handle x) (s_next s)) as [Ex|]; [|discriminate].
      apply find_some in Fx as [Fx Ei]. apply in_app_or in Fx. destruct Fx as [Fx|[<-|[]]].
      + apply (inv_next s Hi) in Fx. lia.
      + apply Z.eqb_eq in Ei. cbn in Ei. lia.
    - unfold put_e, mbind, get_e, modify in E. cbn in E. destruct (find (fun e : bedge => (be_handle e =? s_next s)%nat) _) as [x|]; [|discriminate]. injection E as <-.
      intros e He. cbn in He. apply in_map_iff in He as (y & <- & Hy). destruct (Nat.eqb_spec (be_handle y) (s_next s)) as [Ey|Ey]; [exact Z0|].
      apply in_app_or in Hy. destruct Hy as [Hy|[<-|[]]]; [apply Hs, Hy|cbn in Ey; congruence]. }
  clear -H2. revert s2 H2. apply acc_fewer. fewer_auto. apply (keeps_writable _ fewer_refl).
Qed.
Lemma epos_add_edge_auto f t s : inv s -> epos s -> match add_edge_auto f t s with Done _ s' => epos s' | _ => True end.
Proof.
  intros Hi Hs. unfold add_edge_auto. unfold mbind at 1. cbn [modify]. unfold mbind at 1. cbn [get]. apply epos_add_edge_unsafe; [|exact Hs].
  apply inv_with_auto_e; [exact Hi|apply bump_ge].
Qed.
Lemma acc_then {A B} (m : M A) (f : A -> M B) s : match m s with Done _ s' => epos s' | _ => True end -> (forall a, acc epos (f a)) ->
  match mbind m f s with Done _ s' => epos s' | _ => True end.
Proof. intros H Hf. unfold mbind. destruct (m s) as [a s'|s'|]; auto. apply (Hf a s' H). Qed.

Lemma fewer_set_vertex_id v id : keeps fewer_ids (set_vertex_id v id).
Proof. unfold set_vertex_id. fewer_auto. destruct (vertex_by_id _ id); unfold set_vertex_id_unsafe; fewer_auto. Qed.
Lemma fewer_add_unsafe id : keeps fewer_ids (add_unsafe_vertex id).
Proof. unfold add_unsafe_vertex. fewer_auto. apply fewer_set_vertex_id. Qed.
Lemma fewer_set_vertex_name v n : keeps fewer_ids (set_vertex_name v n).
Proof. unfold set_vertex_name. fewer_auto. destruct (vertex_by_name _ n); fewer_auto. Qed.
Lemma fewer_set_edge_name h n : keeps fewer_ids (set_edge_name h n).
Proof. unfold set_edge_name. fewer_auto. destruct (edge_by_name _ n); fewer_auto. Qed.
Lemma fewer_set_all_Ni l : forall v, keeps fewer_ids (set_all_Ni v l).
Proof. induction l as [|n l IH]; intros v; cbn; [fewer_auto|]. unfold set_Ni. fewer_auto. apply IH. Qed.
Lemma fewer_auto_vertex : keeps fewer_ids add_vertex_auto.
Proof. unfold add_vertex_auto. fewer_auto. apply fewer_add_unsafe. Qed.
Lemma fewer_vertex_id id : keeps fewer_ids (add_vertex_id id).
Proof. unfold add_vertex_id. fewer_auto. apply fewer_add_unsafe. Qed.

Lemma epos_exec c s : inv s -> epos s -> match exec c s with Done _ s' => epos s' | _ => True end.
Proof.
  intros Hi Hs. destruct c; cbn [exec]; unfold quiet.
  - revert s Hi Hs. intros s _. revert s. apply acc_fewer. fewer_auto. apply fewer_add_unsafe.
  - revert s Hi Hs. intros s _. revert s. apply acc_fewer. fewer_auto. apply fewer_add_unsafe.
  - revert s Hi Hs. intros s _. revert s. apply acc_fewer. unfold add_vertex_id_name. fewer_auto; [apply fewer_add_unsafe|apply fewer_set_vertex_name].
  - revert s Hi Hs. intros s _. revert s. apply acc_fewer. unfold add_vertex_name. fewer_auto; [apply fewer_add_unsafe|apply fewer_set_vertex_name].
  - revert s Hi Hs. intros s _. revert s. apply acc_fewer. fewer_auto. apply fewer_add_unsafe.
  - apply acc_then; [apply epos_add_edge_auto; assumption|intros; apply acc_fewer; fewer_auto].
  - apply acc_then; [apply epos_add_edge_unsafe; assumption|intros; apply acc_fewer; fewer_auto].
  - apply acc_then; [|intros; apply acc_fewer; fewer_auto]. apply acc_then; [apply epos_add_edge_unsafe; assumption|intros; apply acc_fewer; fewer_auto; apply fewer_set_edge_name].
  - apply acc_then; [|intros; apply acc_fewer; fewer_auto]. apply acc_then; [apply epos_add_edge_auto; assumption|intros; apply acc_fewer; fewer_auto; apply fewer_set_edge_name].
  - rewrite remove_vertex_eq by apply Hi. destruct (s_readonly s); [exact I|]. destruct (nth_error (s_vs s) v); [|exact I].
    intros e He. cbn in He. apply in_map_iff in He as (x & <- & Hx). apply filter_In in Hx as [Hx _]. apply (Hs x Hx).
  - revert s Hi Hs. intros s _. revert s. apply acc_fewer. unfold remove_edge. fewer_auto.
  - revert s Hi Hs. intros s _. revert s. apply acc_fewer, fewer_set_vertex_id.
  - revert s Hi Hs. intros s _. revert s. apply acc_fewer. unfold set_vertex_id_unsafe. fewer_auto.
  - apply epos_set_edge_id, Hs.
  - revert s Hi Hs. intros s _. revert s. apply acc_fewer, fewer_set_vertex_name.
  - revert s Hi Hs. intros s _. revert s. apply acc_fewer, fewer_set_edge_name.
  - revert s Hi Hs. intros s _. revert s. apply acc_fewer. unfold set_phases. fewer_auto.
  - revert s Hi Hs. intros s _. revert s. apply acc_fewer. unfold set_init_phases. fewer_auto.
  - revert s Hi Hs. intros s _. revert s. apply acc_fewer. unfold set_reentrancy. fewer_auto.
  - revert s Hi Hs. intros s _. revert s. apply acc_fewer. unfold set_preload. fewer_auto.
  - revert s Hi Hs. intros s _. revert s. apply acc_fewer. unfold set_tokensize. fewer_auto.
  - revert s Hi Hs. intros s _. revert s. apply acc_fewer. unfold set_edge_in, set_phases. fewer_auto.
  - revert s Hi Hs. intros s _. revert s. apply acc_fewer. unfold set_edge_out, set_phases. fewer_auto.
  - revert s Hi Hs. intros s _. revert s. apply acc_fewer. unfold set_edge_in_init, set_init_phases. fewer_auto.
  - revert s Hi Hs. intros s _. revert s. apply acc_fewer. unfold set_edge_out_init, set_init_phases. fewer_auto.
  - revert s Hi Hs. intros s _. revert s. apply acc_fewer. unfold set_durations. fewer_auto.
  - revert s Hi Hs. intros s _. revert s. apply acc_fewer. unfold set_init_durations. fewer_auto.
  - revert s Hi Hs. intros s _. revert s. apply acc_fewer. unfold get_fine_gcd. fewer_auto. destruct (lookup_gcd _ _); [fewer_auto|]. destruct (compute_fine_gcd _); fewer_auto.
  - revert s Hi Hs. intros s _. revert s. apply acc_fewer. unfold set_Ni. fewer_auto.
  - revert s Hi Hs. intros s _. revert s. apply acc_fewer. unfold compute_repetition, set_read_only. fewer_auto. destruct (s_rep _); [fewer_auto|]. fewer_auto.
    destruct res; unfold set_repetition_vector; fewer_auto. apply fewer_set_all_Ni.
  - revert s Hi Hs. intros s _. revert s. apply acc_fewer. unfold compute_normalization, set_read_only. fewer_auto. destruct (s_norm _); [fewer_auto|]. fewer_auto.
    destruct ok; unfold set_normalize; fewer_auto.
  - revert s Hi Hs. intros s _. revert s. apply acc_fewer. unfold set_read_only. fewer_auto.
  - revert s Hi Hs. intros s _. revert s. apply acc_fewer. unfold reset_computation. fewer_auto.
Qed.
Lemma accepted_epos s : accepted_history s -> epos s.
Proof.
  induction 1 as [|s c s' H IH E]; [intros e []|]. pose proof (epos_exec c s (any_history_inv s (accepted_any s H)) IH) as K. rewrite E in K. exact K.
Qed.

(** * Phase counts *)
Lemma nth_error_update {A} (f : A -> A) l : forall v i, nth_error (update_nth v f l) i = if (i =? v)%nat then option_map f (nth_error l i) else nth_error l i.
Proof. induction l as [|x l IH]; intros [|v] [|i]; cbn; try reflexivity; try (destruct (_ =? _)%nat; reflexivity). apply IH. Qed.
Lemma update_nth_in {A} (f : A -> A) l v x : In x (update_nth v f l) -> In x l \/ exists b, nth_error l v = Some b /\ x = f b.
Proof.
  intros H. apply In_nth_error in H as [i H]. rewrite nth_error_update in H. destruct (Nat.eqb_spec i v) as [Ev|Ev].
  - subst v. rename i into v. destruct (nth_error l v) as [b|]; [|discriminate]. injection H as <-. right. eauto.
  - left. eapply nth_error_In; eauto.
Qed.

(** A change of vertices that keeps every vector that was set well sized. *)
Lemma coherent_vertices s v f : coherent s ->
  (forall b, nth_error (s_vs s) v = Some b ->
     (bv_phases b = O \/ bv_phases (f b) = bv_phases b \/ no_rates s v) /\
     (bv_init_phases b = O \/ bv_init_phases (f b) = bv_init_phases b \/ no_init_rates s v) /\
     (bv_durations (f b) = bv_durations b \/ length (bv_durations (f b)) = bv_phases (f b)) /\
     (bv_init_durations (f b) = bv_init_durations b \/ length (bv_init_durations (f b)) = bv_init_phases (f b))) ->
  coherent (with_vs (update_nth v f (s_vs s)) s).
Proof.
  intros [He Hv] Hf. assert (Z0 : forall A (l : list A), sized l 0 -> l = []) by (intros A l [H|H]; [exact H|destruct l; [reflexivity|discriminate]]).
  split; cbn [with_vs s_es s_vs].
  - intros e Hin. destruct (He e Hin) as (bs & bd & E1 & E2 & S1 & S2 & S3 & S4). rewrite !nth_error_update, E1, E2.
    exists (if (be_src e =? v)%nat then f bs else bs), (if (be_dst e =? v)%nat then f bd else bd).
    split; [destruct (_ =? _)%nat; reflexivity|]. split; [destruct (_ =? _)%nat; reflexivity|].
    repeat split.
    + destruct (Nat.eqb_spec (be_src e) v) as [Ev|]; [|exact S1]. rewrite Ev in E1. destruct (Hf bs E1) as ([H|[H|H]] & _).
      * rewrite H in S1. left. apply Z0, S1.
      * rewrite H. exact S1.
      * left. apply (proj1 H e Hin), Ev.
    + destruct (Nat.eqb_spec (be_dst e) v) as [Ev|]; [|exact S2]. rewrite Ev in E2. destruct (Hf bd E2) as ([H|[H|H]] & _).
      * rewrite H in S2. left. apply Z0, S2.
      * rewrite H. exact S2.
      * left. apply (proj1 H e Hin), Ev.
    + destruct (Nat.eqb_spec (be_src e) v) as [Ev|]; [|exact S3]. rewrite Ev in E1. destruct (Hf bs E1) as (_ & [H|[H|H]] & _).
      * rewrite H in S3. left. apply Z0, S3.
      * rewrite H. exact S3.
      * left. apply (proj1 H e Hin), Ev.
    + destruct (Nat.eqb_spec (be_dst e) v) as [Ev|]; [|exact S4]. rewrite Ev in E2. destruct (Hf bd E2) as (_ & [H|[H|H]] & _).
      * rewrite H in S4. left. apply Z0, S4.
      * rewrite H. exact S4.
      * left. apply (proj1 H e Hin), Ev.
  - intros b Hb. destruct (update_nth_in _ _ _ _ Hb) as [Hb'|(b0 & E0 & ->)]; [apply Hv, Hb'|].
    destruct (Hf b0 E0) as (F1 & F2 & F3 & F4). destruct (Hv b0 (nth_error_In _ _ E0)) as [D1 D2]. split.
    + destruct F3 as [F3|F3]; [rewrite F3|right; exact F3]. destruct F1 as [F1|[F1|F1]].
      * rewrite F1 in D1. left. apply Z0, D1.
      * rewrite F1. exact D1.
      * left. apply (proj2 F1 b0 E0).
    + destruct F4 as [F4|F4]; [rewrite F4|right; exact F4]. destruct F2 as [F2|[F2|F2]].
      * rewrite F2 in D2. left. apply Z0, D2.
      * rewrite F2. exact D2.
      * left. apply (proj2 F2 b0 E0).
Qed.

(** The state under a change of edges. *)
Definition edge_sized (vs : list bvertex) (e : bedge) : Prop :=
  exists bs bd, nth_error vs (be_src e) = Some bs /\ nth_error vs (be_dst e) = Some bd /\
     sized (be_in e) (bv_phases bs) /\ sized (be_out e) (bv_phases bd) /\
     sized (be_in_init e) (bv_init_phases bs) /\ sized (be_out_init e) (bv_init_phases bd).
Lemma coherent_edges s es : coherent s -> (forall e, In e es -> edge_sized (s_vs s) e) -> coherent (with_es es s).
Proof. intros [_ Hv] H. split; [exact H|exact Hv]. Qed.
Lemma coherent_ext s s' : s_vs s' = s_vs s -> s_es s' = s_es s -> coherent s -> coherent s'.
Proof. intros E1 E2. unfold coherent. rewrite E1, E2. auto. Qed.

(** Actions that change neither rates, durations, phase counts nor ends. *)
Definition vcore (b : bvertex) := (bv_phases b, bv_init_phases b, bv_durations b, bv_init_durations b).
Definition ecore (e : bedge) := (be_src e, be_dst e, be_in e, be_out e, be_in_init e, be_out_init e).
Definition same_core (s s' : state) : Prop := map vcore (s_vs s') = map vcore (s_vs s) /\ map ecore (s_es s') = map ecore (s_es s).
Lemma core_refl s : same_core s s. Proof. split; reflexivity. Qed.
Lemma core_trans a b c : same_core a b -> same_core b c -> same_core a c. Proof. intros [] []. split; congruence. Qed.
Lemma core_flags s a b c : same_core s (with_flags a b c s). Proof. split; reflexivity. Qed.
Lemma map_nth_some {A B} (h : A -> B) l l' i x : map h l' = map h l -> nth_error l i = Some x -> exists y, nth_error l' i = Some y /\ h y = h x.
Proof.
  intros E H. apply (f_equal (fun k => nth_error k i)) in E. rewrite !nth_error_map, H in E. destruct (nth_error l' i) as [y|]; [|discriminate].
  exists y. cbn in E. split; congruence.
Qed.
Lemma core_coherent s s' : same_core s s' -> coherent s -> coherent s'.
Proof.
  intros [Ev Ee] [He Hv]. split.
  - intros e Hin. assert (I : In (ecore e) (map ecore (s_es s))) by (rewrite <- Ee; apply in_map, Hin). apply in_map_iff in I as (e0 & E0 & I0).
    unfold ecore in E0. injection E0 as <- <- <- <- <- <-. destruct (He e0 I0) as (bs & bd & E1 & E2 & S1 & S2 & S3 & S4).
    destruct (map_nth_some vcore _ _ _ _ Ev E1) as (bs' & F1 & G1). destruct (map_nth_some vcore _ _ _ _ Ev E2) as (bd' & F2 & G2).
    unfold vcore in G1, G2. injection G1 as G11 G12 _ _. injection G2 as G21 G22 _ _.
    exists bs', bd'. rewrite G11, G12, G21, G22. repeat split; auto.
  - intros b Hin. assert (I : In (vcore b) (map vcore (s_vs s))) by (rewrite <- Ev; apply in_map, Hin). apply in_map_iff in I as (b0 & E0 & I0).
    unfold vcore in E0. injection E0 as <- <- <- <-. apply Hv, I0.
Qed.
Lemma core_put_v v f : (forall b, vcore (f b) = vcore b) -> keeps same_core (put_v v f).
Proof.
  intros H. apply keeps_bind; [exact core_trans|apply keeps_get_v, core_refl|intros _]. apply keeps_modify. intros s. split; cbn; [|reflexivity].
  apply update_nth_map, H.
Qed.
Lemma core_put_e h f : (forall e, ecore (f e) = ecore e) -> keeps same_core (put_e h f).
Proof.
  intros H. apply keeps_bind; [exact core_trans|apply keeps_get_e, core_refl|intros _]. apply keeps_modify. intros s. split; cbn; [reflexivity|].
  rewrite map_map. apply map_ext. intros e. destruct (_ =? _)%nat; auto.
Qed.
Ltac core_auto :=
  repeat first
    [ keeps_step core_refl core_trans core_flags
    | match goal with
      | |- keeps _ (put_v _ _) => apply core_put_v; reflexivity
      | |- keeps _ (put_e _ _) => apply core_put_e; reflexivity
      | |- keeps _ (modify _) => apply keeps_modify; intros; split; reflexivity
      | |- keeps _ reset_computation => apply keeps_modify; intros; split; reflexivity
      end
    | progress cbn beta ].
Lemma acc_core {A} (m : M A) : keeps same_core m -> acc coherent m.
Proof. intros H. apply pres_acc. revert H. apply keeps_pres. exact core_coherent. Qed.

Lemma core_set_vertex_id v id : keeps same_core (set_vertex_id v id).
Proof. unfold set_vertex_id. core_auto. destruct (vertex_by_id _ id); unfold set_vertex_id_unsafe; core_auto. Qed.
Lemma core_set_edge_id h id : keeps same_core (set_edge_id h id).
Proof. unfold set_edge_id. core_auto. destruct (Builder.edge_by_id _ id); core_auto. Qed.
Lemma core_set_vertex_name v n : keeps same_core (set_vertex_name v n).
Proof. unfold set_vertex_name. core_auto. destruct (vertex_by_name _ n); core_auto. Qed.
Lemma core_set_edge_name h n : keeps same_core (set_edge_name h n).
Proof. unfold set_edge_name. core_auto. destruct (edge_by_name _ n); core_auto. Qed.
Lemma core_set_all_Ni l : forall v, keeps same_core (set_all_Ni v l).
Proof. induction l as [|n l IH]; intros v; cbn; [core_auto|]. unfold set_Ni. core_auto. apply IH. Qed.

(** A new vertex with no phases yet. *)
Lemma coherent_new_vertex s : coherent s -> coherent (with_vs (s_vs s ++ [new_vertex]) s).
Proof.
  intros [He Hv]. split; cbn [with_vs s_vs s_es].
  - intros e Hin. destruct (He e Hin) as (bs & bd & E1 & E2 & H). exists bs, bd.
    rewrite !nth_error_app1 by (apply nth_error_Some; congruence). auto.
  - intros b Hb. apply in_app_or in Hb. destruct Hb as [Hb|[<-|[]]]; [apply Hv, Hb|]. split; left; reflexivity.
Qed.
Lemma coherent_set_init_phases_0 v s : coherent s -> (forall b, nth_error (s_vs s) v = Some b -> bv_init_phases b = O) ->
  match set_init_phases v 0 s with Done _ s' => coherent s' | _ => True end.
Proof.
  intros Hs Hb. unfold set_init_phases, begin_change, writable, mbind, put_v, mbind, get_v, reset_computation, modify. destruct (s_readonly s); [exact I|].
  cbn [with_flags s_vs]. destruct (nth_error (s_vs s) v) as [b|] eqn:E; [|exact I].
  eapply coherent_ext with (s := with_vs (update_nth v (bv_set_init_phases 0) (s_vs s)) s); [reflexivity|reflexivity|].
  apply coherent_vertices; [exact Hs|]. intros b' E'. cbn. rewrite E in E'. specialize (Hb b' E'). repeat split; auto.
Qed.
Lemma coherent_add_unsafe id : acc coherent (add_unsafe_vertex id).
Proof.
  apply acc_bind; [apply acc_core; core_auto|intros _]. intros s Hs. unfold mbind at 1. cbn [get]. unfold mbind at 1. cbn [modify].
  set (s1 := with_vs (s_vs s ++ [new_vertex]) s). assert (H1 : coherent s1) by (apply coherent_new_vertex, Hs).
  unfold mbind at 1. pose proof (core_set_vertex_id (length (s_vs s)) id s1) as K. destruct (set_vertex_id (length (s_vs s)) id s1) as [[] s2|s2|]; auto.
  assert (H2 : coherent s2) by (eapply core_coherent; eauto).
  unfold mbind at 1. assert (H3 : match set_init_phases (length (s_vs s)) 0 s2 with Done _ s' => coherent s' | _ => True end).
  { apply coherent_set_init_phases_0; [exact H2|]. intros b Eb. destruct K as [K _]. symmetry in K.
    destruct (map_nth_some vcore _ _ _ _ K Eb) as (b0 & E0 & G). unfold s1 in E0. cbn in E0. rewrite nth_error_app2, Nat.sub_diag in E0 by lia.
    injection E0 as <-. unfold vcore in G. cbn in G. injection G as _ G _ _. congruence. }
  destruct (set_init_phases (length (s_vs s)) 0 s2) as [[] s3|s3|]; auto. clear -H3. revert s3 H3. apply acc_core. core_auto.
Qed.
Lemma coherent_add_edge_unsafe f t id : acc coherent (add_edge_unsafe f t id).
Proof.
  apply acc_bind; [apply acc_core; core_auto|intros _]. intros s Hs. unfold mbind at 1, get_v at 1. destruct (nth_error (s_vs s) f) as [bf|] eqn:Ef; [|exact I].
  unfold mbind at 1, get_v at 1. destruct (nth_error (s_vs s) t) as [bt|] eqn:Et; [|exact I]. unfold mbind at 1. cbn [get]. unfold mbind at 1. cbn [modify].
  assert (H1 : coherent (with_next (S (s_next s)) (with_es (s_es s ++ [new_edge (s_next s) f t]) s))).
  { eapply coherent_ext with (s := with_es (s_es s ++ [new_edge (s_next s) f t]) s); [reflexivity|reflexivity|]. apply coherent_edges; [exact Hs|].
    intros e He. apply in_app_or in He. destruct He as [He|[<-|[]]]; [apply (proj1 Hs e He)|]. exists bf, bt. cbn. repeat split; auto; left; reflexivity. }
  revert H1. generalize (with_next (S (s_next s)) (with_es (s_es s ++ [new_edge (s_next s) f t]) s)). intros s1 H1. revert s1 H1.
  apply acc_core. core_auto. apply core_set_edge_id.
Qed.
Lemma coherent_add_edge_auto f t : acc coherent (add_edge_auto f t).
Proof.
  apply acc_bind; [apply acc_core; core_auto|intros _]. apply acc_bind; [apply acc_core; core_auto|intros s0; apply coherent_add_edge_unsafe].
Qed.

(** Setting rates. *)
Definition endv (side : bool) (e : bedge) := if side then be_src e else be_dst e.
Definition setr (side : bool) (l : list Z) (t : Z) := if side then be_set_in l t else be_set_out l t.
Definition set_op (side : bool) (h : nat) (l : list Z) : M unit :=
  let! _ := begin_change in
  let! _ := put_e h (setr side l (accumulate_int l)) in
  let! e := get_e h in
  let! b := get_v (endv side e) in
  let! _ := check ((bv_phases b =? 0)%nat || (bv_phases b =? length l)%nat) in
  set_phases (endv side e) (length l).

Lemma setr_handle side l t e : be_handle (setr side l t e) = be_handle e. Proof. unfold setr. destruct side; reflexivity. Qed.
Lemma setr_ends side l t e : be_src (setr side l t e) = be_src e /\ be_dst (setr side l t e) = be_dst e. Proof. unfold setr. destruct side; auto. Qed.
Lemma coherent_set_rates side h l s : inv s -> coherent s -> match set_op side h l s with Done _ s' => coherent s' | _ => True end.
Proof.
  intros Hi Hs. unfold set_op, begin_change, writable, mbind at 1 2. destruct (s_readonly s); [exact I|]. cbn [reset_computation modify].
  unfold mbind at 1, put_e, mbind at 1, get_e at 1. cbn [with_flags s_es]. destruct (find_e h (s_es s)) as [e|] eqn:E; [|exact I]. cbn [modify].
  destruct (update_handle_split (setr side l (accumulate_int l)) _ _ _ (inv_handles s Hi) E) as (l1 & l2 & Ee & Eh & Eu & Hne).
  set (s1 := with_es _ _). unfold mbind at 1, get_e at 1.
  assert (F : find_e h (s_es s1) = Some (setr side l (accumulate_int l) e)).
  { unfold s1. cbn [with_es s_es]. cbn [with_flags s_es]. rewrite Eu. unfold find_e. apply find_here.
    - intros y Hy. apply Nat.eqb_neq. apply Hne, in_or_app. left; exact Hy.
    - rewrite setr_handle, Eh. apply Nat.eqb_refl. }
  rewrite F. assert (Een : endv side (setr side l (accumulate_int l) e) = endv side e) by (unfold endv; destruct side; apply setr_ends). rewrite Een.
  unfold mbind at 1, get_v at 1. change (s_vs s1) with (s_vs s). destruct (nth_error (s_vs s) (endv side e)) as [b|] eqn:Eb; [|exact I].
  unfold mbind at 1, check. destruct ((bv_phases b =? 0)%nat || (bv_phases b =? length l)%nat) eqn:C; [|exact I]. cbn [ret].
  unfold set_phases, begin_change, writable, mbind, put_v, mbind, get_v, reset_computation, modify. cbn [s1 with_es with_flags s_readonly s_vs]. rewrite Eb.
  set (vs' := update_nth (endv side e) (bv_set_phases (length l)) (s_vs s)).
  assert (Hv : coherent (with_vs vs' s)).
  { apply coherent_vertices; [exact Hs|]. intros b' Eb'. rewrite Eb in Eb'. injection Eb' as <-. cbn. apply orb_true_iff in C.
    destruct C as [C|C]; apply Nat.eqb_eq in C; repeat split; auto. }
  eapply coherent_ext with (s := with_es (l1 ++ setr side l (accumulate_int l) e :: l2) (with_vs vs' s)); [reflexivity|cbn; rewrite Eu; reflexivity|].
  apply coherent_edges; [exact Hv|]. destruct Hv as [Hve _]. cbn [with_vs s_vs s_es] in Hve |- *. intros x Hx.
  assert (Hx' : In x (s_es s) \/ x = setr side l (accumulate_int l) e).
  { rewrite Ee. apply in_app_or in Hx. destruct Hx as [Hx|[<-|Hx]]; auto; left; apply in_or_app; cbn; tauto. }
  destruct Hx' as [Hx'| ->]; [apply (Hve x Hx')|].
  assert (He : In e (s_es s)) by (rewrite Ee; apply in_or_app; right; left; reflexivity).
  destruct (Hve e He) as (bs & bd & E1 & E2 & S1 & S2 & S3 & S4). exists bs, bd. destruct (setr_ends side l (accumulate_int l) e) as [-> ->].
  split; [exact E1|]. split; [exact E2|].
  assert (En : nth_error vs' (endv side e) = Some (bv_set_phases (length l) b)) by (unfold vs'; rewrite nth_error_update, Nat.eqb_refl, Eb; reflexivity).
  unfold endv in En. unfold setr. destruct side; cbn; repeat split; auto; right.
  - rewrite E1 in En. injection En as ->. reflexivity.
  - rewrite E2 in En. injection En as ->. reflexivity.
Qed.

Definition endv_init (side : bool) (e : bedge) := if side then be_src e else be_dst e.
Definition setr_init (side : bool) (l : list Z) := if side then be_set_in_init l else be_set_out_init l.
Definition set_op_init (side : bool) (h : nat) (l : list Z) : M unit :=
  let! _ := begin_change in
  let! _ := put_e h (setr_init side l) in
  let! e := get_e h in
  let! b := get_v (endv_init side e) in
  let! _ := check ((bv_init_phases b =? 0)%nat || (bv_init_phases b =? length l)%nat) in
  set_init_phases (endv_init side e) (length l).

Lemma setr_init_handle side l e : be_handle (setr_init side l e) = be_handle e. Proof. unfold setr_init. destruct side; reflexivity. Qed.
Lemma setr_init_ends side l e : be_src (setr_init side l e) = be_src e /\ be_dst (setr_init side l e) = be_dst e. Proof. unfold setr_init. destruct side; auto. Qed.
Lemma coherent_set_init_rates side h l s : inv s -> coherent s -> match set_op_init side h l s with Done _ s' => coherent s' | _ => True end.
Proof.
  intros Hi Hs. unfold set_op_init, begin_change, writable, mbind at 1 2. destruct (s_readonly s); [exact I|]. cbn [reset_computation modify].
  unfold mbind at 1, put_e, mbind at 1, get_e at 1. cbn [with_flags s_es]. destruct (find_e h (s_es s)) as [e|] eqn:E; [|exact I]. cbn [modify].
  destruct (update_handle_split (setr_init side l) _ _ _ (inv_handles s Hi) E) as (l1 & l2 & Ee & Eh & Eu & Hne).
  set (s1 := with_es _ _). unfold mbind at 1, get_e at 1.
  assert (F : find_e h (s_es s1) = Some (setr_init side l e)).
  { unfold s1. cbn [with_es s_es]. cbn [with_flags s_es]. rewrite Eu. unfold find_e. apply find_here.
    - intros y Hy. apply Nat.eqb_neq. apply Hne, in_or_app. left; exact Hy.
    - rewrite setr_init_handle, Eh. apply Nat.eqb_refl. }
  rewrite F. assert (Een : endv_init side (setr_init side l e) = endv_init side e) by (unfold endv_init; destruct side; apply setr_init_ends). rewrite Een.
  unfold mbind at 1, get_v at 1. change (s_vs s1) with (s_vs s). destruct (nth_error (s_vs s) (endv_init side e)) as [b|] eqn:Eb; [|exact I].
  unfold mbind at 1, check. destruct ((bv_init_phases b =? 0)%nat || (bv_init_phases b =? length l)%nat) eqn:C; [|exact I]. cbn [ret].
  unfold set_init_phases, begin_change, writable, mbind, put_v, mbind, get_v, reset_computation, modify. cbn [s1 with_es with_flags s_readonly s_vs]. rewrite Eb.
  set (vs' := update_nth (endv_init side e) (bv_set_init_phases (length l)) (s_vs s)).
  assert (Hv : coherent (with_vs vs' s)).
  { apply coherent_vertices; [exact Hs|]. intros b' Eb'. rewrite Eb in Eb'. injection Eb' as <-. cbn. apply orb_true_iff in C.
    destruct C as [C|C]; apply Nat.eqb_eq in C; repeat split; auto. }
  eapply coherent_ext with (s := with_es (l1 ++ setr_init side l e :: l2) (with_vs vs' s)); [reflexivity|cbn; rewrite Eu; reflexivity|].
  apply coherent_edges; [exact Hv|]. destruct Hv as [Hve _]. cbn [with_vs s_vs s_es] in Hve |- *. intros x Hx.
  assert (Hx' : In x (s_es s) \/ x = setr_init side l e).
  { rewrite Ee. apply in_app_or in Hx. destruct Hx as [Hx|[<-|Hx]]; auto; left; apply in_or_app; cbn; tauto. }
  destruct Hx' as [Hx'| ->]; [apply (Hve x Hx')|].
  assert (He : In e (s_es s)) by (rewrite Ee; apply in_or_app; right; left; reflexivity).
  destruct (Hve e He) as (bs & bd & E1 & E2 & S1 & S2 & S3 & S4). exists bs, bd. destruct (setr_init_ends side l e) as [-> ->].
  split; [exact E1|]. split; [exact E2|].
  assert (En : nth_error vs' (endv_init side e) = Some (bv_set_init_phases (length l) b)) by (unfold vs'; rewrite nth_error_update, Nat.eqb_refl, Eb; reflexivity).
  unfold endv_init in En. unfold setr_init. destruct side; cbn; repeat split; auto; right.
  - rewrite E1 in En. injection En as ->. reflexivity.
  - rewrite E2 in En. injection En as ->. reflexivity.
Qed.

(** Vertex changes that follow begin_change. *)
Lemma coherent_put_v v f s : coherent s -> (forall b, nth_error (s_vs s) v = Some b ->
     (bv_phases b = O \/ bv_phases (f b) = bv_phases b \/ no_rates s v) /\
     (bv_init_phases b = O \/ bv_init_phases (f b) = bv_init_phases b \/ no_init_rates s v) /\
     (bv_durations (f b) = bv_durations b \/ length (bv_durations (f b)) = bv_phases (f b)) /\
     (bv_init_durations (f b) = bv_init_durations b \/ length (bv_init_durations (f b)) = bv_init_phases (f b))) ->
  match (let! _ := begin_change in put_v v f) s with Done _ s' => coherent s' | _ => True end.
Proof.
  intros Hs Hf. unfold begin_change, writable, mbind, put_v, mbind, get_v, reset_computation, modify. destruct (s_readonly s); [exact I|].
  cbn [with_flags s_vs]. destruct (nth_error (s_vs s) v) as [b|] eqn:E; [|exact I].
  eapply coherent_ext with (s := with_vs (update_nth v f (s_vs s)) s); [reflexivity|reflexivity|]. apply coherent_vertices; [exact Hs|].
  intros b' Eb. apply Hf. congruence.
Qed.

Lemma nth_error_delete {A} (l : list A) : forall v i, i <> v -> nth_error (delete_nth v l) (shift v i) = nth_error l i.
Proof.
  assert (N : forall k, nth_error (@nil A) k = None) by (intros [|]; reflexivity).
  induction l as [|x l IH]; intros v i H.
  - destruct v; cbn [delete_nth]; rewrite !N; reflexivity.
  - destruct v as [|v], i as [|i]; try congruence.
    + unfold shift. replace (0 <? S i)%nat with true by reflexivity. cbn. rewrite ?Nat.sub_0_r. reflexivity.
    + reflexivity.
    + specialize (IH v i ltac:(congruence)). unfold shift in *. change (S v <? S i)%nat with (v <? i)%nat. destruct (Nat.ltb_spec v i).
      * destruct i as [|i]; [lia|]. cbn in *. rewrite ?Nat.sub_0_r in *. exact IH.
      * cbn. exact IH.
Qed.
Lemma delete_nth_in {A} (l : list A) : forall v x, In x (delete_nth v l) -> In x l.
Proof. induction l as [|y l IH]; intros [|v] x H; cbn in *; auto. destruct H as [->|H]; [auto|]. right. eapply IH; eauto. Qed.

Lemma coherent_exec c s : announces_phases s c -> inv s -> coherent s -> match exec c s with Done _ s' => coherent s' | _ => True end.
Proof.
  intros Hc Hi Hs. destruct c; cbn [exec]; unfold quiet.
  - revert s Hc Hi Hs. intros s _ _. revert s. apply acc_bind; [|intros; apply acc_core; core_auto]. apply acc_bind; [apply acc_core; core_auto|intros _].
    apply acc_bind; [apply acc_core; core_auto|intros s0]. apply acc_bind; [apply acc_core; core_auto|intros _; apply coherent_add_unsafe].
  - revert s Hc Hi Hs. intros s _ _. revert s. apply acc_bind; [|intros; apply acc_core; core_auto]. apply acc_bind; [apply acc_core; core_auto|intros s0].
    apply acc_bind; [apply acc_core; core_auto|intros _; apply coherent_add_unsafe].
  - revert s Hc Hi Hs. intros s _ _. revert s. apply acc_bind; [|intros; apply acc_core; core_auto]. apply acc_bind; [|intros; apply acc_core; core_auto; apply core_set_vertex_name].
    apply acc_bind; [apply acc_core; core_auto|intros s0]. apply acc_bind; [apply acc_core; core_auto|intros _; apply coherent_add_unsafe].
  - revert s Hc Hi Hs. intros s _ _. revert s. apply acc_bind; [|intros; apply acc_core; core_auto]. apply acc_bind; [|intros; apply acc_core; core_auto; apply core_set_vertex_name].
    apply acc_bind; [apply acc_core; core_auto|intros _]. apply acc_bind; [apply acc_core; core_auto|intros s0]. apply acc_bind; [apply acc_core; core_auto|intros _; apply coherent_add_unsafe].
  - revert s Hc Hi Hs. intros s _ _. revert s. apply acc_bind; [|intros; apply acc_core; core_auto]. apply coherent_add_unsafe.
  - revert s Hc Hi Hs. intros s _ _. revert s. apply acc_bind; [|intros; apply acc_core; core_auto]. apply coherent_add_edge_auto.
  - revert s Hc Hi Hs. intros s _ _. revert s. apply acc_bind; [|intros; apply acc_core; core_auto]. apply coherent_add_edge_unsafe.
  - revert s Hc Hi Hs. intros s _ _. revert s. apply acc_bind; [|intros; apply acc_core; core_auto]. apply acc_bind; [apply coherent_add_edge_unsafe|intros; apply acc_core; core_auto; apply core_set_edge_name].
  - revert s Hc Hi Hs. intros s _ _. revert s. apply acc_bind; [|intros; apply acc_core; core_auto]. apply acc_bind; [apply coherent_add_edge_auto|intros; apply acc_core; core_auto; apply core_set_edge_name].
  - rewrite remove_vertex_eq by apply Hi. destruct (s_readonly s); [exact I|]. destruct (nth_error (s_vs s) v) as [bv|] eqn:E; [|exact I].
    destruct Hs as [He Hv]. split; cbn.
    + intros x Hx. apply in_map_iff in Hx as (e & <- & Hx). apply filter_In in Hx as [Hx O]. unfold off in O. apply andb_prop in O as [O1 O2].
      apply negb_true_iff, Nat.eqb_neq in O1, O2. destruct (He e Hx) as (bs & bd & E1 & E2 & H). exists bs, bd. cbn.
      rewrite !nth_error_delete by assumption. auto.
    + intros b Hb. apply Hv. eapply delete_nth_in; eauto.
  - clear Hc Hi. revert s Hs. apply acc_bind; [apply acc_core; core_auto|intros _]. apply acc_bind; [apply acc_core; core_auto|intros e].
    intros s Hs. apply coherent_edges; [exact Hs|]. intros x Hx. apply filter_In in Hx as [Hx _]. apply (proj1 Hs x Hx).
  - clear Hc Hi. revert s Hs. apply acc_core, core_set_vertex_id.
  - clear Hc Hi. revert s Hs. apply acc_core. unfold set_vertex_id_unsafe. core_auto.
  - clear Hc Hi. revert s Hs. apply acc_core, core_set_edge_id.
  - clear Hc Hi. revert s Hs. apply acc_core, core_set_vertex_name.
  - clear Hc Hi. revert s Hs. apply acc_core, core_set_edge_name.
  - apply coherent_put_v; [exact Hs|]. intros b Eb. cbn. cbn in Hc. repeat split; auto.
  - apply coherent_put_v; [exact Hs|]. intros b Eb. cbn. cbn in Hc. repeat split; auto.
  - clear Hc Hi. revert s Hs. apply acc_core. unfold set_reentrancy. core_auto.
  - clear Hc Hi. revert s Hs. apply acc_core. unfold set_preload. core_auto.
  - clear Hc Hi. revert s Hs. apply acc_core. unfold set_tokensize. core_auto.
  - apply (coherent_set_rates true); assumption.
  - apply (coherent_set_rates false); assumption.
  - apply (coherent_set_init_rates true); assumption.
  - apply (coherent_set_init_rates false); assumption.
  - unfold set_durations, begin_change, writable, mbind, get_v, check, put_v, mbind, get_v, reset_computation, modify. destruct (s_readonly s); [exact I|].
    cbn [with_flags s_vs]. destruct (nth_error (s_vs s) v) as [b|] eqn:E; [|exact I]. destruct (Nat.eqb_spec (bv_phases b) (length l)) as [El|]; [|exact I]. cbn. rewrite E.
    eapply coherent_ext with (s := with_vs (update_nth v (bv_set_durations l) (s_vs s)) s); [reflexivity|reflexivity|]. apply coherent_vertices; [exact Hs|].
    intros b' Eb. rewrite E in Eb. injection Eb as <-. cbn. repeat split; auto.
  - unfold set_init_durations, begin_change, writable, mbind, get_v, check, put_v, mbind, get_v, reset_computation, modify. destruct (s_readonly s); [exact I|].
    cbn [with_flags s_vs]. destruct (nth_error (s_vs s) v) as [b|] eqn:E; [|exact I]. destruct (Nat.eqb_spec (bv_init_phases b) (length l)) as [El|]; [|exact I]. cbn. rewrite E.
    eapply coherent_ext with (s := with_vs (update_nth v (bv_set_init_durations l) (s_vs s)) s); [reflexivity|reflexivity|]. apply coherent_vertices; [exact Hs|].
    intros b' Eb. rewrite E in Eb. injection Eb as <-. cbn. repeat split; auto.
  - clear Hc Hi. revert s Hs. apply acc_core. unfold get_fine_gcd. core_auto. destruct (lookup_gcd _ _); [core_auto|]. destruct (compute_fine_gcd _); core_auto.
  - clear Hc Hi. revert s Hs. apply acc_core. unfold set_Ni. core_auto.
  - clear Hc Hi. revert s Hs. apply acc_core. unfold compute_repetition, set_read_only. core_auto. destruct (s_rep _); [core_auto|]. core_auto.
    destruct res; unfold set_repetition_vector; core_auto. apply core_set_all_Ni.
  - clear Hc Hi. revert s Hs. apply acc_core. unfold compute_normalization, set_read_only. core_auto. destruct (s_norm _); [core_auto|]. core_auto.
    destruct ok; unfold set_normalize; core_auto.
  - clear Hc Hi. revert s Hs. apply acc_core. unfold set_read_only. core_auto.
  - clear Hc Hi. revert s Hs. apply acc_core. unfold reset_computation. core_auto.
Qed.
Lemma coherent_history s : history_of announces_phases false s -> coherent s.
Proof.
  induction 1 as [|s c s' H IH Hc E|s c s' H IH Hc R E]; [split; intros ? []| |discriminate].
  pose proof (coherent_exec c s Hc (any_history_inv s (history_of_any _ _ _ H)) IH) as K. rewrite E in K. exact K.
Qed.
