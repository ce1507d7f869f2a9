(** Effects of single calls, totals, flags and the gcd cache. *)
From Coq Require Import QArith Ascii String.
From Verif Require Import Base Graph ScheduleSpec KIterSpec Builder BuilderSpec BuilderProofs BuilderIds BuilderPhases.
Open Scope Z_scope.

(** * Lookups *)
Lemma find_index_app {A} (f : A -> bool) l1 x l2 : (forall y, In y l1 -> f y = false) -> f x = true -> find_index f (l1 ++ x :: l2) = Some (length l1).
Proof.
  intros H Hx. induction l1 as [|y l1 IH]; cbn; [rewrite Hx; reflexivity|]. rewrite (H y) by (left; reflexivity).
  rewrite IH; [reflexivity|]. intros z Hz. apply H. right; exact Hz.
Qed.
Lemma nodup_before {A B} (h : A -> B) l1 x l2 y : NoDup (map h (l1 ++ x :: l2)) -> In y l1 -> h y <> h x.
Proof.
  intros N Hy E. rewrite map_app in N. cbn in N. apply NoDup_remove_2 in N. apply N, in_or_app. left. rewrite <- E. apply in_map, Hy.
Qed.
Lemma vertex_lookup s v b : NoDup (map bv_id (s_vs s)) -> nth_error (s_vs s) v = Some b -> vertex_by_id s (bv_id b) = Some v.
Proof.
  intros N E. destruct (nth_error_split _ _ E) as (l1 & l2 & Ev & <-). unfold vertex_by_id. rewrite Ev in *. apply find_index_app; [|apply Z.eqb_refl].
  intros y Hy. apply Z.eqb_neq. eapply nodup_before; eauto.
Qed.
Lemma edge_lookup s e : NoDup (map be_id (s_es s)) -> In e (s_es s) -> Builder.edge_by_id s (be_id e) = Some (be_handle e).
Proof.
  intros N E. apply in_split in E as (l1 & l2 & Ev). unfold Builder.edge_by_id. rewrite Ev in *.
  erewrite find_here; [reflexivity| |apply Z.eqb_refl]. intros y Hy. apply Z.eqb_neq. eapply nodup_before; eauto.
Qed.
Lemma uniq_before {A B} (p : B -> bool) (h : A -> B) l1 x l2 y : uniq p (map h (l1 ++ x :: l2)) -> p (h x) = true -> In y l1 -> h y <> h x.
Proof.
  intros N Px Hy E. apply in_split in Hy as (k1 & k2 & ->). rewrite map_app in N. cbn in N. unfold uniq in N.
  rewrite filter_app in N. cbn [map filter] in N. rewrite Px in N. apply NoDup_remove_2 in N. apply N, in_or_app. left.
  apply filter_In. split; [|exact Px]. rewrite <- E. apply in_map. apply in_or_app. right; left; reflexivity.
Qed.
Lemma vertex_name_lookup s v b : uniq nonempty (map bv_name (s_vs s)) -> nth_error (s_vs s) v = Some b -> bv_name b <> ""%string -> vertex_by_name s (bv_name b) = Some v.
Proof.
  intros N E Hn. destruct (nth_error_split _ _ E) as (l1 & l2 & Ev & <-). unfold vertex_by_name. rewrite Ev in *. apply find_index_app; [|apply String.eqb_refl].
  intros y Hy. apply String.eqb_neq. eapply uniq_before; eauto. unfold nonempty. apply negb_true_iff, String.eqb_neq, Hn.
Qed.
Lemma edge_name_lookup s e : uniq nonempty (map be_name (s_es s)) -> In e (s_es s) -> be_name e <> ""%string -> edge_by_name s (be_name e) = Some (be_handle e).
Proof.
  intros N E Hn. apply in_split in E as (l1 & l2 & Ev). unfold edge_by_name. rewrite Ev in *.
  erewrite find_here; [reflexivity| |apply String.eqb_refl]. intros y Hy. apply String.eqb_neq. eapply uniq_before; eauto.
  unfold nonempty. apply negb_true_iff, String.eqb_neq, Hn.
Qed.

Lemma accepted_of P s : history_of P false s -> accepted_history s.
Proof. induction 1 as [|s c s' H IH _ E|]; [constructor|econstructor; eauto|discriminate]. Qed.
Lemma checked_vdistinct s : history_of checked_call false s -> vdistinct s.
Proof.
  induction 1 as [|s c s' H IH Hc E|s c s' H IH Hc R E]; [constructor| |discriminate].
  pose proof (vdistinct_exec c s Hc (any_history_inv s (history_of_any _ _ _ H)) IH) as K. rewrite E in K. exact K.
Qed.
Lemma edge_ids_nodup s : inv s -> epos s -> NoDup (map be_id (s_es s)).
Proof.
  intros Hi Hp. pose proof (inv_eids s Hi) as U. unfold uniq in U. erewrite filter_ext_in with (g := fun _ => true) in U.
  - assert (F : forall l : list Z, filter (fun _ => true) l = l) by (induction l as [|x l IH]; cbn; congruence). rewrite F in U. exact U.
  - intros x Hx. apply in_map_iff in Hx as (e & <- & He). apply Hp in He. unfold nonzero. destruct (Z.eqb_spec (be_id e) 0); [lia|reflexivity].
Qed.

Lemma ids_unique s : history_of checked_call false s ->
  NoDup (map bv_id (s_vs s)) /\ NoDup (map be_id (s_es s)) /\ (forall e, In e (s_es s) -> 0 < be_id e) /\
  (forall v b, nth_error (s_vs s) v = Some b -> vertex_by_id s (bv_id b) = Some v) /\
  (forall e, In e (s_es s) -> Builder.edge_by_id s (be_id e) = Some (be_handle e)).
Proof.
  intros H. pose proof (checked_vdistinct s H) as Hv. pose proof (accepted_epos s (accepted_of _ _ H)) as He.
  pose proof (edge_ids_nodup s (any_history_inv s (history_of_any _ _ _ H)) He) as Hn.
  split; [exact Hv|]. split; [exact Hn|]. split; [exact He|]. split; intros; [apply vertex_lookup|apply edge_lookup]; assumption.
Qed.

Lemma uniq_positions {A B} (p : B -> bool) (h : A -> B) l i j x y : uniq p (map h l) -> nth_error l i = Some x -> nth_error l j = Some y ->
  p (h x) = true -> h x = h y -> i = j.
Proof.
  intros U Ei Ej Hp E. destruct (Nat.lt_trichotomy i j) as [L|[L|L]]; [exfalso|exact L|exfalso].
  - destruct (nth_error_split _ _ Ej) as (l1 & l2 & El & Ll). apply (uniq_before p h l1 y l2 x).
    + rewrite <- El. exact U.
    + rewrite <- E. exact Hp.
    + rewrite El in Ei. rewrite nth_error_app1 in Ei by lia. eapply nth_error_In; eauto.
    + exact E.
  - destruct (nth_error_split _ _ Ei) as (l1 & l2 & El & Ll). apply (uniq_before p h l1 x l2 y).
    + rewrite <- El. exact U.
    + exact Hp.
    + rewrite El in Ej. rewrite nth_error_app1 in Ej by lia. eapply nth_error_In; eauto.
    + symmetry. exact E.
Qed.

Lemma find_none_intro {A} (f : A -> bool) l : (forall x, In x l -> f x = false) -> find f l = None.
Proof. induction l as [|x l IH]; intros H; cbn; [reflexivity|]. rewrite H by (cbn; auto). apply IH. intros; apply H; cbn; auto. Qed.

(** * One-step characterisations of the additions *)
Definition with_new_edge (f t : nat) (id : Z) (s : state) : state :=
  mkState false false false (s_vs s) (s_es s ++ [be_set_id id (new_edge (s_next s) f t)]) (s_auto_v s) (Z.max (s_auto_e s) (id + 1)) (s_gcd s) (S (s_next s)).
Lemma find_e_last s f t : inv s -> find_e (s_next s) (s_es s ++ [new_edge (s_next s) f t]) = Some (new_edge (s_next s) f t).
Proof.
  intros Hi. unfold find_e. apply find_here; [|apply Nat.eqb_refl]. intros y Hy. apply Nat.eqb_neq. apply (inv_next s Hi) in Hy. lia.
Qed.
Lemma map_other s (g : bedge -> bedge) f t : inv s ->
  map (fun e => if (be_handle e =? s_next s)%nat then g e else e) (s_es s ++ [new_edge (s_next s) f t]) = s_es s ++ [g (new_edge (s_next s) f t)].
Proof.
  intros Hi. rewrite map_app. cbn [map be_handle new_edge]. rewrite Nat.eqb_refl. f_equal. rewrite <- map_id. apply map_ext_in. intros e He.
  apply (inv_next s Hi) in He. destruct (Nat.eqb_spec (be_handle e) (s_next s)); [lia|reflexivity].
Qed.
Lemma add_edge_unsafe_ok f t id s : inv s -> s_readonly s = false -> (f < length (s_vs s))%nat -> (t < length (s_vs s))%nat -> 0 < id ->
  (forall e, In e (s_es s) -> be_id e <> id) -> add_edge_unsafe f t id s = Done (s_next s) (with_new_edge f t id s).
Proof.
  intros Hi R Hf Ht Hid Hn. unfold add_edge_unsafe, begin_change, writable, reset_computation, mbind, get_v, modify, get. rewrite R. cbn [with_flags s_vs].
  destruct (nth_error (s_vs s) f) eqn:Ef; [|apply nth_error_None in Ef; lia]. cbn [with_flags s_vs].
  destruct (nth_error (s_vs s) t) eqn:Et; [|apply nth_error_None in Et; lia]. cbn [with_flags s_next s_es].
  unfold set_edge_id, begin_change, writable, reset_computation, mbind, modify, get, check. cbn [with_next with_es with_flags s_readonly].
  destruct (Z.ltb_spec 0 id) as [_|]; [|lia]. cbn [ret].
  unfold Builder.edge_by_id. cbn [with_next with_es with_flags s_es].
  rewrite find_none_intro.
  2: { intros e He. apply Z.eqb_neq. apply in_app_or in He. destruct He as [He|[<-|[]]]; [apply Hn, He|cbn; lia]. }
  cbn [option_map]. unfold put_e, get_e, mbind, modify. cbn [with_next with_es with_flags s_es]. rewrite find_e_last by exact Hi.
  cbn. rewrite map_other by exact Hi. reflexivity.
Qed.
Lemma add_edge_unsafe_inv f t id s h s' : inv s -> add_edge_unsafe f t id s = Done h s' ->
  s_readonly s = false /\ (f < length (s_vs s))%nat /\ (t < length (s_vs s))%nat /\ 0 < id /\ (forall e, In e (s_es s) -> be_id e <> id) /\
  h = s_next s /\ s' = with_new_edge f t id s.
Proof.
  intros Hi E. assert (R : s_readonly s = false).
  { unfold add_edge_unsafe, begin_change, writable, mbind in E. destruct (s_readonly s); [discriminate|reflexivity]. }
  assert (Hf : (f < length (s_vs s))%nat /\ (t < length (s_vs s))%nat).
  { unfold add_edge_unsafe, begin_change, writable, reset_computation, mbind, get_v, modify in E. rewrite R in E. cbn [with_flags s_vs] in E.
    destruct (nth_error (s_vs s) f) eqn:Ef; [|discriminate]. cbn [with_flags s_vs] in E. destruct (nth_error (s_vs s) t) eqn:Et; [|discriminate].
    split; apply nth_error_Some; congruence. }
  destruct Hf as [Hf Ht].
  assert (Hx : 0 < id /\ forall e, In e (s_es s) -> be_id e <> id).
  { unfold add_edge_unsafe, begin_change, writable, reset_computation, mbind, get_v, modify, get in E. rewrite R in E. cbn [with_flags s_vs] in E.
    destruct (nth_error (s_vs s) f) eqn:Ef; [|discriminate]. cbn [with_flags s_vs] in E. destruct (nth_error (s_vs s) t) eqn:Et; [|discriminate].
    cbn [with_flags s_next s_es] in E. unfold set_edge_id, begin_change, writable, reset_computation, mbind, modify, get, check in E.
    cbn [with_next with_es with_flags s_readonly] in E. destruct (Z.ltb_spec 0 id) as [Hid|]; [|discriminate]. cbn [ret] in E. split; [exact Hid|].
    intros e He Ei. unfold Builder.edge_by_id in E. cbn [with_next with_es with_flags s_es] in E.
    destruct (find _ _) as [x|] eqn:Fx.
    - cbn [option_map] in E. destruct (Nat.eqb_spec (be_handle x) (s_next s)) as [Ex|]; [|discriminate]. apply find_some in Fx as [Fx Fi].
      apply in_app_or in Fx. destruct Fx as [Fx|[<-|[]]]; [apply (inv_next s Hi) in Fx; lia|]. apply Z.eqb_eq in Fi. cbn in Fi. lia.
    - apply find_none with (x := e) in Fx; [|apply in_or_app; left; exact He]. rewrite Ei, Z.eqb_refl in Fx. discriminate. }
  destruct Hx as [Hid Hn]. rewrite add_edge_unsafe_ok in E by assumption. injection E as <- <-. auto 10.
Qed.

Definition with_new_vertex (id : Z) (s : state) : state :=
  mkState false false false (s_vs s ++ [bv_set_id id new_vertex]) (s_es s) (Z.max (s_auto_v s) (id + 1)) (s_auto_e s) (s_gcd s) (s_next s).
Lemma update_nth_last {A} (f : A -> A) l x : update_nth (length l) f (l ++ [x]) = l ++ [f x].
Proof. induction l as [|y l IH]; cbn; [reflexivity|]. rewrite IH. reflexivity. Qed.
Lemma find_index_none_intro {A} (f : A -> bool) l : (forall x, In x l -> f x = false) -> find_index f l = None.
Proof. induction l as [|x l IH]; intros H; cbn; [reflexivity|]. rewrite H by (cbn; auto). rewrite IH; [reflexivity|]. intros; apply H; cbn; auto. Qed.
Lemma nth_error_last {A} (l : list A) x : nth_error (l ++ [x]) (length l) = Some x.
Proof. rewrite nth_error_app2, Nat.sub_diag by lia. reflexivity. Qed.
Lemma add_unsafe_vertex_ok id s : s_readonly s = false -> id <> 0 -> (forall b, In b (s_vs s) -> bv_id b <> id) ->
  add_unsafe_vertex id s = Done (length (s_vs s)) (with_new_vertex id s).
Proof.
  intros R Hid Hn. unfold add_unsafe_vertex, begin_change, writable, reset_computation, mbind, modify, get. rewrite R. cbn [with_flags s_vs].
  unfold set_vertex_id, begin_change, writable, reset_computation, mbind, modify, get. cbn [with_vs with_flags s_readonly].
  unfold vertex_by_id. cbn [with_vs with_flags s_vs]. rewrite find_index_none_intro.
  2: { intros b Hb. apply Z.eqb_neq. apply in_app_or in Hb. destruct Hb as [Hb|[<-|[]]]; [apply Hn, Hb|cbn; congruence]. }
  unfold set_vertex_id_unsafe, begin_change, writable, reset_computation, put_v, get_v, mbind, modify. cbn [with_vs with_flags s_readonly s_vs].
  rewrite nth_error_last. cbn [with_vs with_flags with_auto_v s_vs s_readonly]. rewrite update_nth_last.
  unfold set_init_phases, begin_change, writable, reset_computation, put_v, get_v, mbind, modify. cbn [with_vs with_flags with_auto_v s_readonly s_vs].
  rewrite nth_error_last. cbn [with_vs with_flags with_auto_v s_vs s_readonly s_auto_v]. rewrite update_nth_last. reflexivity.
Qed.
Lemma add_vertex_auto_ok s : inv s -> s_readonly s = false ->
  exists v s' b, add_vertex_auto s = Done v s' /\ v = length (s_vs s) /\ s_vs s' = s_vs s ++ [b] /\ s_es s' = s_es s /\
    bv_id b = s_auto_v s /\ (forall x, In x (s_vs s) -> bv_id x < bv_id b) /\ bv_id b < s_auto_v s' /\ s_auto_e s' = s_auto_e s.
Proof.
  intros Hi R. assert (B : bump (map bv_id (s_vs s)) (s_auto_v s) = s_auto_v s).
  { assert (H : forall l a, (forall x, In x l -> x < a) -> bump l a = a).
    { clear. unfold bump. induction l as [|x l IH]; intros a H; cbn; [reflexivity|]. destruct (Z.leb_spec a x) as [L|L].
      - specialize (H x (or_introl eq_refl)). lia.
      - apply IH. intros y Hy. apply H. right; exact Hy. }
    apply H. intros x Hx. apply in_map_iff in Hx as (b & <- & Hb). apply (inv_vs s Hi b Hb). }
  unfold add_vertex_auto, mbind, modify, get. rewrite B.
  set (s1 := with_auto_v _ (with_auto_v _ s)).
  pose proof (inv_av s Hi). assert (E : add_unsafe_vertex (s_auto_v (with_auto_v (s_auto_v s) s)) s1 = Done (length (s_vs s1)) (with_new_vertex (s_auto_v s) s1)).
  { apply add_unsafe_vertex_ok; [exact R|cbn; lia|]. intros b Hb. cbn in *. apply (inv_vs s Hi) in Hb. lia. }
  rewrite E. eexists _, _, _. split; [reflexivity|]. cbn. repeat split; auto; try lia. intros x Hx. apply (inv_vs s Hi x Hx). cbn. lia.
Qed.
Lemma add_vertex_id_cases s id : s_readonly s = false -> 0 < id ->
  ((exists x, In x (s_vs s) /\ id <= bv_id x) -> add_vertex_id id s = Raised s) /\
  ((forall x, In x (s_vs s) -> bv_id x < id) -> exists s' b, add_vertex_id id s = Done (length (s_vs s)) s' /\ s_vs s' = s_vs s ++ [b] /\ s_es s' = s_es s /\ bv_id b = id).
Proof.
  intros R P. unfold add_vertex_id, mbind, get, check. split.
  - intros (x & Hx & L). destruct (forallb _ (s_vs s)) eqn:F; [|reflexivity]. rewrite forallb_forall in F. apply F in Hx. lia.
  - intros H. destruct (forallb _ (s_vs s)) eqn:F.
    2:{ apply not_true_iff_false in F. exfalso. apply F. apply forallb_forall. intros x Hx. apply H in Hx. lia. }
    cbn. rewrite add_unsafe_vertex_ok; [|exact R|lia|intros b Hb; apply H in Hb; lia].
    eexists _, _. split; [reflexivity|]. cbn. auto.
Qed.
Lemma add_edge_auto_ok f t s : inv s -> s_readonly s = false -> (f < length (s_vs s))%nat -> (t < length (s_vs s))%nat ->
  exists h s' e, add_edge_auto f t s = Done h s' /\ s_es s' = s_es s ++ [e] /\ s_vs s' = s_vs s /\ be_handle e = h /\ be_src e = f /\ be_dst e = t /\
    0 < be_id e /\ (forall x, In x (s_es s) -> be_id x < be_id e) /\ be_id e < s_auto_e s' /\ s_auto_v s' = s_auto_v s.
Proof.
  intros Hi R Hf Ht. assert (B : bump (map be_id (s_es s)) (s_auto_e s) = s_auto_e s).
  { assert (H : forall l a, (forall x, In x l -> x < a) -> bump l a = a).
    { clear. unfold bump. induction l as [|x l IH]; intros a H; cbn; [reflexivity|]. destruct (Z.leb_spec a x) as [L|L].
      - specialize (H x (or_introl eq_refl)). lia.
      - apply IH. intros y Hy. apply H. right; exact Hy. }
    apply H. intros x Hx. apply in_map_iff in Hx as (b & <- & Hb). apply (inv_es s Hi b Hb). }
  unfold add_edge_auto, mbind, modify, get. rewrite B. pose proof (inv_ae s Hi).
  assert (Hi' : inv (with_auto_e (s_auto_e s) s)) by (apply inv_with_auto_e; [exact Hi|lia]).
  rewrite add_edge_unsafe_ok; try assumption; [| |].
  - eexists _, _, _. split; [reflexivity|]. cbn. repeat split; auto; cbn; try lia. intros x Hx. apply (inv_es s Hi x Hx).
  - cbn. lia.
  - intros e He. cbn in *. apply (inv_es s Hi) in He. lia.
Qed.

(** * Frozen graphs *)
Lemma frozen_refused s c : s_readonly s = true -> mutating c -> exists s', exec c s = Raised s' /\ same_graph s s'.
Proof.
  intros R Hm. assert (SG : same_graph s s) by (repeat split).
  destruct c; cbn in Hm; try contradiction; cbn [exec];
    unfold quiet, add_vertex_id_name, add_vertex_name, add_edge_id_name, add_edge_name, add_vertex_auto, add_vertex_id, add_edge_auto, add_unsafe_vertex, add_edge_unsafe,
      remove_vertex, remove_edge, set_vertex_id, set_vertex_id_unsafe, set_edge_id, set_vertex_name, set_edge_name, set_phases, set_init_phases, set_reentrancy,
      set_preload, set_tokensize, set_edge_in, set_edge_out, set_edge_in_init, set_edge_out_init, set_durations, set_init_durations, begin_change, writable, mbind, modify, get, check;
    cbn [with_auto_v with_auto_e s_readonly]; rewrite ?R.
  2, 3: destruct (forallb _ _); cbn [ret fail]; rewrite ?R; eexists; (split; [reflexivity|exact SG]).
  all: eexists; (split; [reflexivity|]); repeat split.
Qed.

Definition flags_ok (s : state) : Prop := s_readonly s = false -> s_rep s = false /\ s_norm s = false.
(** Either no flag changed or all of them are off. *)
Definition flags_step (s s' : state) : Prop :=
  (s_readonly s' = s_readonly s /\ s_norm s' = s_norm s /\ s_rep s' = s_rep s) \/ (s_readonly s' = false /\ s_norm s' = false /\ s_rep s' = false).
Lemma fs_refl s : flags_step s s. Proof. left. auto. Qed.
Lemma fs_trans a b c : flags_step a b -> flags_step b c -> flags_step a c.
Proof. unfold flags_step. intros [(A1 & A2 & A3)|(A1 & A2 & A3)] [(B1 & B2 & B3)|(B1 & B2 & B3)]; rewrite ?B1, ?B2, ?B3; auto. Qed.
Lemma fs_reset : keeps flags_step reset_computation. Proof. apply keeps_modify. intros s. right. auto. Qed.
Lemma fs_begin : keeps flags_step begin_change.
Proof. apply keeps_bind; [exact fs_trans|apply keeps_writable, fs_refl|intros _; apply fs_reset]. Qed.
Lemma fs_put_v v f : keeps flags_step (put_v v f).
Proof. apply keeps_bind; [exact fs_trans|apply keeps_get_v, fs_refl|intros _]. apply keeps_modify. intros s. left. auto. Qed.
Lemma fs_put_e v f : keeps flags_step (put_e v f).
Proof. apply keeps_bind; [exact fs_trans|apply keeps_get_e, fs_refl|intros _]. apply keeps_modify. intros s. left. auto. Qed.
Ltac fs_auto :=
  repeat first
    [ match goal with
      | |- keeps _ begin_change => apply fs_begin
      | |- keeps _ (put_v _ _) => apply fs_put_v
      | |- keeps _ (put_e _ _) => apply fs_put_e
      | |- keeps _ (modify _) => apply keeps_modify; intros; left; auto
      | |- keeps _ reset_computation => apply fs_reset
      | |- keeps _ (match ?x with _ => _ end) => destruct x
      end
    | keeps_step fs_refl fs_trans fs_refl
    | progress cbn beta ].
Lemma fs_remove_all n : forall sel, keeps flags_step (remove_all n sel).
Proof.
  induction n as [|n IH]; intros sel; cbn; (apply keeps_bind; [exact fs_trans|apply keeps_get, fs_refl|intros s]);
    destruct (find sel (s_es s)); try (apply keeps_ret, fs_refl).
  - intros s'. exact I.
  - unfold remove_edge. fs_auto. apply IH.
Qed.
Definition same_flags (s s' : state) : Prop := s_readonly s' = s_readonly s /\ s_norm s' = s_norm s /\ s_rep s' = s_rep s.
Lemma sf_refl s : same_flags s s. Proof. repeat split. Qed.
Lemma sf_trans a b c : same_flags a b -> same_flags b c -> same_flags a c. Proof. intros (? & ? & ?) (? & ? & ?). repeat split; congruence. Qed.
Lemma sf_all_Ni l : forall v, keeps same_flags (set_all_Ni v l).
Proof.
  induction l as [|n l IH]; intros v; cbn; [apply keeps_ret, sf_refl|]. apply keeps_bind; [exact sf_trans| |intros _; apply IH].
  unfold set_Ni. apply keeps_bind; [exact sf_trans|apply keeps_get, sf_refl|intros s]. apply keeps_bind; [exact sf_trans|apply keeps_check, sf_refl|intros _].
  apply keeps_bind; [exact sf_trans|apply keeps_get_v, sf_refl|intros _]. apply keeps_modify. intros s'. repeat split.
Qed.
Lemma mutation_flags c : mutating c -> keeps flags_step (exec c).
Proof.
  intros Hm. destruct c; cbn in Hm; try contradiction; cbn [exec];
    unfold quiet, add_vertex_id_name, add_vertex_name, add_edge_id_name, add_edge_name, add_vertex_auto, add_vertex_id, add_edge_auto, add_unsafe_vertex, add_edge_unsafe,
      remove_vertex, remove_edge, set_vertex_id, set_vertex_id_unsafe, set_edge_id, set_vertex_name, set_edge_name, set_phases, set_init_phases, set_reentrancy,
      set_preload, set_tokensize, set_edge_in, set_edge_out, set_edge_in_init, set_edge_out_init, set_durations, set_init_durations;
    fs_auto; try apply fs_remove_all.
Qed.
Lemma flags_exec c s : flags_ok s -> match exec c s with Done _ s' => flags_ok s' | Raised s' => flags_ok s' | Undef => True end.
Proof.
  intros Hs. assert (D : mutating c \/ ~ mutating c) by (destruct c; cbn; auto). destruct D as [D|D].
  - pose proof (mutation_flags c D s) as K. destruct (exec c s) as [a s'|s'|]; auto; intros R';
      (destruct K as [(K1 & K2 & K3)|(K1 & K2 & K3)]; [rewrite K2, K3; apply Hs; congruence|auto]).
  - destruct c; cbn in D; try (exfalso; apply D; exact I); cbn [exec].
    + assert (K : keeps flags_step (quiet (get_fine_gcd h))) by (unfold quiet, get_fine_gcd; fs_auto). specialize (K s).
      destruct (quiet _ s) as [a s'|s'|]; auto; intros R'; (destruct K as [(K1 & K2 & K3)|(K1 & K2 & K3)]; [rewrite K2, K3; apply Hs; congruence|auto]).
    + assert (K : keeps flags_step (set_Ni v n)) by (unfold set_Ni; fs_auto). specialize (K s).
      destruct (set_Ni _ _ s) as [a s'|s'|]; auto; intros R'; (destruct K as [(K1 & K2 & K3)|(K1 & K2 & K3)]; [rewrite K2, K3; apply Hs; congruence|auto]).
    + unfold quiet, compute_repetition, mbind, get, set_read_only, modify. destruct (s_rep s); [exact Hs|]. destruct res as [l|]; [|intros R'; discriminate].
      set (s1 := with_flags _ _ _ s). pose proof (sf_all_Ni l 0 s1) as K. destruct (set_all_Ni 0 l s1) as [[] s2|s2|]; auto; cbn; intros R'; cbn in R';
      destruct K as (K1 & K2 & K3); rewrite K1 in R'; discriminate.
    + unfold quiet, compute_normalization, mbind, get, set_read_only, modify. destruct (s_norm s); [exact Hs|]. destruct ok; intros R'; discriminate.
    + intros R'; discriminate.
    + intros _. auto.
Qed.
Lemma any_flags s : any_history s -> flags_ok s.
Proof.
  induction 1 as [|s c s' H IH E|s c s' H IH E]; [intros _; auto| |]; pose proof (flags_exec c s IH) as K; rewrite E in K; exact K.
Qed.

(** * Totals *)
Lemma wrap32_mod x : exists k, wrap32 x = x + k * 2 ^ 32.
Proof. unfold wrap32. exists (- ((x + 2 ^ 31) / 2 ^ 32)). pose proof (Z.div_mod (x + 2 ^ 31) (2 ^ 32) ltac:(lia)). lia. Qed.
Lemma wrap32_range x : - 2 ^ 31 <= wrap32 x < 2 ^ 31.
Proof. unfold wrap32. pose proof (Z.mod_pos_bound (x + 2 ^ 31) (2 ^ 32) ltac:(lia)). lia. Qed.
Lemma wrap32_add x y : wrap32 (wrap32 x + y) = wrap32 (x + y).
Proof.
  destruct (wrap32_mod x) as [k ->]. unfold wrap32. f_equal. replace (x + k * 2 ^ 32 + y + 2 ^ 31) with (x + y + 2 ^ 31 + k * 2 ^ 32) by lia.
  apply Z.mod_add. lia.
Qed.
Lemma wrap32_small x : - 2 ^ 31 <= x < 2 ^ 31 -> wrap32 x = x.
Proof. intros H. unfold wrap32. rewrite Z.mod_small by lia. lia. Qed.
Lemma accumulate_from l : forall a, fold_left (fun acc x => wrap32 (acc + x)) l (wrap32 a) = wrap32 (a + sumZ l).
Proof.
  induction l as [|x l IH]; intros a; cbn [fold_left]; [f_equal; change (sumZ []) with 0; lia|].
  rewrite wrap32_add, IH. f_equal. change (sumZ (x :: l)) with (x + sumZ l). lia.
Qed.
Lemma accumulate_wraps l : accumulate_int l = wrap32 (sumZ l).
Proof. unfold accumulate_int. change 0 with (wrap32 0) at 1. rewrite accumulate_from. f_equal. Qed.

Definition eok (e : bedge) : Prop := be_total_in e = wrap32 (sumZ (be_in e)) /\ be_total_out e = wrap32 (sumZ (be_out e)).
Definition tot_ok (s : state) : Prop := forall e, In e (s_es s) -> eok e.
Definition tot_step (s s' : state) : Prop := tot_ok s -> tot_ok s'.
Lemma ts_refl s : tot_step s s. Proof. intros H. exact H. Qed.
Lemma ts_trans a b c : tot_step a b -> tot_step b c -> tot_step a c. Proof. unfold tot_step. auto. Qed.
Lemma ts_flags s a b c : tot_step s (with_flags a b c s). Proof. exact (ts_refl s). Qed.
Lemma ts_put_v v f : keeps tot_step (put_v v f).
Proof. apply keeps_bind; [exact ts_trans|apply keeps_get_v, ts_refl|intros _]. apply keeps_modify. intros s. exact (ts_refl s). Qed.
Lemma ts_put_e h f : (forall e, eok e -> eok (f e)) -> keeps tot_step (put_e h f).
Proof.
  intros Hf. apply keeps_bind; [exact ts_trans|apply keeps_get_e, ts_refl|intros _]. apply keeps_modify. intros s Hs e He. cbn in He.
  apply in_map_iff in He as (x & <- & Hx). destruct (_ =? _)%nat; auto.
Qed.
Lemma ts_filter s p : tot_step s (with_es (filter p (s_es s)) s).
Proof. intros Hs e He. cbn in He. apply filter_In in He as [He _]. auto. Qed.
Lemma ts_new_edge s h f t : tot_step s (with_next (S h) (with_es (s_es s ++ [new_edge h f t]) s)).
Proof. intros Hs e He. cbn in He. apply in_app_or in He. destruct He as [He|[<-|[]]]; [auto|]. split; reflexivity. Qed.
Lemma ts_map s g vs : (forall e, eok e -> eok (g e)) -> tot_step s (with_es (map g (s_es s)) (with_vs vs s)).
Proof. intros Hg Hs e He. cbn in He. apply in_map_iff in He as (x & <- & Hx). auto. Qed.
Ltac ts_auto :=
  repeat first
    [ keeps_step ts_refl ts_trans ts_flags
    | match goal with
      | |- keeps _ (put_v _ _) => apply ts_put_v
      | |- keeps _ (put_e _ _) => apply ts_put_e; intros ? [? ?]; split; first [assumption|apply accumulate_wraps]
      | |- keeps _ (modify _) => apply keeps_modify; intros; first [apply ts_filter|apply ts_new_edge|apply ts_map; intros ? [? ?]; split; assumption|exact (ts_refl _)]
      | |- keeps _ reset_computation => apply keeps_modify; intros; exact (ts_refl _)
      | |- keeps _ (match ?x with _ => _ end) => destruct x
      end
    | progress cbn beta ].
Lemma ts_remove_all n : forall sel, keeps tot_step (remove_all n sel).
Proof.
  induction n as [|n IH]; intros sel; cbn; (apply keeps_bind; [exact ts_trans|apply keeps_get, ts_refl|intros s]);
    destruct (find sel (s_es s)); try (apply keeps_ret, ts_refl).
  - intros s'. exact I.
  - unfold remove_edge. ts_auto. apply IH.
Qed.
Lemma ts_all_Ni l : forall v, keeps tot_step (set_all_Ni v l).
Proof. induction l as [|n l IH]; intros v; cbn; ts_auto. apply IH. Qed.
Lemma ts_exec c : keeps tot_step (exec c).
Proof.
  destruct c; cbn [exec];
    unfold quiet, add_vertex_id_name, add_vertex_name, add_edge_id_name, add_edge_name, add_vertex_auto, add_vertex_id, add_edge_auto, add_unsafe_vertex, add_edge_unsafe,
      remove_vertex, remove_edge, set_vertex_id, set_vertex_id_unsafe, set_edge_id, set_vertex_name, set_edge_name, set_phases, set_init_phases, set_reentrancy,
      set_preload, set_tokensize, set_edge_in, set_edge_out, set_edge_in_init, set_edge_out_init, set_durations, set_init_durations, get_fine_gcd, compute_repetition, compute_normalization;
    ts_auto; try apply ts_remove_all; try apply ts_all_Ni.
Qed.
Lemma any_totals s : any_history s -> tot_ok s.
Proof.
  induction 1 as [|s c s' H IH E|s c s' H IH E]; [intros e []| |]; pose proof (ts_exec c s) as K; rewrite E in K; apply K, IH.
Qed.

(** * The gcd cache *)
Definition same_cache (s s' : state) : Prop := s_gcd s' = s_gcd s.
Lemma sc_refl s : same_cache s s. Proof. reflexivity. Qed.
Lemma sc_trans a b c : same_cache a b -> same_cache b c -> same_cache a c. Proof. unfold same_cache. congruence. Qed.
Lemma sc_flags s a b c : same_cache s (with_flags a b c s). Proof. reflexivity. Qed.
Ltac sc_auto :=
  repeat first
    [ keeps_step sc_refl sc_trans sc_flags
    | match goal with
      | |- keeps _ (put_v _ _) => unfold put_v
      | |- keeps _ (put_e _ _) => unfold put_e
      | |- keeps _ (modify _) => apply keeps_modify; intros; reflexivity
      | |- keeps _ reset_computation => apply keeps_modify; intros; reflexivity
      | |- keeps _ (match ?x with _ => _ end) => destruct x
      end
    | progress cbn beta ].
Lemma sc_remove_all n : forall sel, keeps same_cache (remove_all n sel).
Proof.
  induction n as [|n IH]; intros sel; cbn; (apply keeps_bind; [exact sc_trans|apply keeps_get, sc_refl|intros s]);
    destruct (find sel (s_es s)); try (apply keeps_ret, sc_refl).
  - intros s'. exact I.
  - unfold remove_edge. sc_auto. apply IH.
Qed.
Lemma sc_all_Ni l : forall v, keeps same_cache (set_all_Ni v l).
Proof. induction l as [|n l IH]; intros v; cbn; sc_auto. apply IH. Qed.
Definition is_query (c : call) : Prop := match c with GetFineGCD _ => True | _ => False end.
Lemma sc_exec c : ~ is_query c -> keeps same_cache (exec c).
Proof.
  intros Hq. destruct c; cbn [exec]; try (exfalso; apply Hq; exact I);
    unfold quiet, add_vertex_id_name, add_vertex_name, add_edge_id_name, add_edge_name, add_vertex_auto, add_vertex_id, add_edge_auto, add_unsafe_vertex, add_edge_unsafe,
      remove_vertex, remove_edge, set_vertex_id, set_vertex_id_unsafe, set_edge_id, set_vertex_name, set_edge_name, set_phases, set_init_phases, set_reentrancy,
      set_preload, set_tokensize, set_edge_in, set_edge_out, set_edge_in_init, set_edge_out_init, set_durations, set_init_durations, compute_repetition, compute_normalization;
    sc_auto; try apply sc_remove_all; try apply sc_all_Ni.
Qed.

(** No edge disappears or changes its identifier or rates. *)
Definition ekey (e : bedge) := (be_id e, be_in e, be_out e).
Definition more_edges (s s' : state) : Prop := incl (map ekey (s_es s)) (map ekey (s_es s')).
Lemma me_refl s : more_edges s s. Proof. apply incl_refl. Qed.
Lemma me_trans a b c : more_edges a b -> more_edges b c -> more_edges a c. Proof. apply incl_tran. Qed.
Lemma me_flags s a b c : more_edges s (with_flags a b c s). Proof. exact (me_refl s). Qed.
Lemma me_put_v v f : keeps more_edges (put_v v f).
Proof. apply keeps_bind; [exact me_trans|apply keeps_get_v, me_refl|intros _]. apply keeps_modify. intros s. exact (me_refl s). Qed.
Lemma me_put_e h f : (forall e, ekey (f e) = ekey e) -> keeps more_edges (put_e h f).
Proof.
  intros Hf. apply keeps_bind; [exact me_trans|apply keeps_get_e, me_refl|intros _]. apply keeps_modify. intros s x Hx. cbn. rewrite map_map.
  erewrite map_ext; [exact Hx|]. intros e. cbn. destruct (_ =? _)%nat; auto.
Qed.
Ltac me_auto :=
  repeat first
    [ keeps_step me_refl me_trans me_flags
    | match goal with
      | |- keeps _ (put_v _ _) => apply me_put_v
      | |- keeps _ (put_e _ _) => apply me_put_e; reflexivity
      | |- keeps _ (modify _) => apply keeps_modify; intros; exact (me_refl _)
      | |- keeps _ reset_computation => apply keeps_modify; intros; exact (me_refl _)
      | |- keeps _ (match ?x with _ => _ end) => destruct x
      end
    | progress cbn beta ].
Lemma me_all_Ni l : forall v, keeps more_edges (set_all_Ni v l).
Proof. induction l as [|n l IH]; intros v; cbn; me_auto. apply IH. Qed.
Lemma me_exec c s : keeps_rates c -> inv s -> match exec c s with Done _ s' => more_edges s s' | _ => True end.
Proof.
  intros Hc Hi.
  assert (K1 : forall f t id, match add_edge_unsafe f t id s with Done _ s' => more_edges s s' | _ => True end).
  { intros f t id. destruct (add_edge_unsafe f t id s) as [h s'|s'|] eqn:E; auto. apply add_edge_unsafe_inv in E; [|exact Hi]. destruct E as (_ & _ & _ & _ & _ & _ & ->).
    intros x Hx. cbn. rewrite map_app. apply in_or_app. left. exact Hx. }
  assert (K2 : forall f t, match add_edge_auto f t s with Done _ s' => more_edges s s' | _ => True end).
  { intros f t. unfold add_edge_auto, mbind, modify, get. set (s1 := with_auto_e _ s).
    destruct (add_edge_unsafe f t (s_auto_e s1) s1) as [h s'|s'|] eqn:E; auto. apply add_edge_unsafe_inv in E; [|apply inv_with_auto_e; [exact Hi|apply bump_ge]].
    destruct E as (_ & _ & _ & _ & _ & _ & ->). intros x Hx. cbn. rewrite map_app. apply in_or_app. left. exact Hx. }
  assert (P : forall A (m : M A), keeps more_edges m -> match m s with Done _ s' => more_edges s s' | _ => True end).
  { intros A m K. specialize (K s). destruct (m s); auto. }
  assert (K3 : forall h n, keeps more_edges (set_edge_name h n)) by (intros; unfold set_edge_name; me_auto).
  destruct c; cbn in Hc; try contradiction; cbn [exec]; unfold quiet.
  6: { unfold mbind. specialize (K2 from to). destruct (add_edge_auto from to s); auto. }
  6: { unfold mbind. specialize (K1 from to id). destruct (add_edge_unsafe from to id s); auto. }
  6: { unfold add_edge_id_name, mbind. specialize (K1 from to id). destruct (add_edge_unsafe from to id s) as [h s'|s'|]; auto. specialize (K3 h n s').
       destruct (set_edge_name h n s') as [a s''|s''|]; auto. eapply me_trans; eauto. }
  6: { unfold add_edge_name, mbind. specialize (K2 from to). destruct (add_edge_auto from to s) as [h s'|s'|]; auto. specialize (K3 h n s').
       destruct (set_edge_name h n s') as [a s''|s''|]; auto. eapply me_trans; eauto. }
  all: apply P.
  all: unfold quiet, add_vertex_id_name, add_vertex_name, add_vertex_auto, add_vertex_id, add_unsafe_vertex,
      set_vertex_id, set_vertex_id_unsafe, set_vertex_name, set_edge_name, set_phases, set_init_phases, set_reentrancy,
      set_preload, set_tokensize, set_edge_in_init, set_edge_out_init, set_durations, set_init_durations, get_fine_gcd, compute_repetition, compute_normalization;
    me_auto; try apply me_all_Ni.
Qed.

Definition cache_ok (s : state) : Prop := forall id r, In (id, r) (s_gcd s) -> exists e, In e (s_es s) /\ be_id e = id /\ compute_fine_gcd e = Some r.
Lemma cache_more s s' : more_edges s s' -> same_cache s s' -> cache_ok s -> cache_ok s'.
Proof.
  intros Hm Hc Hs id r Hin. rewrite Hc in Hin. destruct (Hs id r Hin) as (e & He & <- & Er).
  assert (I : In (ekey e) (map ekey (s_es s'))) by (apply Hm, in_map, He). apply in_map_iff in I as (e' & Ek & He'). unfold ekey in Ek. injection Ek as E1 E2 E3.
  exists e'. split; [exact He'|]. split; [exact E1|]. unfold compute_fine_gcd in *. rewrite E2, E3. exact Er.
Qed.
Lemma query_effect h s : match get_fine_gcd h s with
  | Done r s' => exists e, find_e h (s_es s) = Some e /\ s_es s' = s_es s /\
      ((lookup_gcd (be_id e) (s_gcd s) = Some r /\ s_gcd s' = s_gcd s) \/
       (lookup_gcd (be_id e) (s_gcd s) = None /\ compute_fine_gcd e = Some r /\ s_gcd s' = s_gcd s ++ [(be_id e, r)]))
  | _ => True end.
Proof.
  unfold get_fine_gcd, mbind, get_e, get. destruct (find_e h (s_es s)) as [e|] eqn:F; [|exact I]. destruct (lookup_gcd (be_id e) (s_gcd s)) as [r|] eqn:L.
  - exists e. cbn. repeat split; auto.
  - destruct (compute_fine_gcd e) as [r|] eqn:C; [|exact I]. cbn. exists e. repeat split; auto.
Qed.
Lemma cache_exec c s : rates_fixed_once_queried s c -> inv s -> cache_ok s -> match exec c s with Done _ s' => cache_ok s' | _ => True end.
Proof.
  intros Hc Hi Hs. assert (D : is_query c \/ ~ is_query c) by (destruct c; cbn; auto). destruct D as [D|D].
  - destruct c; cbn in D; try contradiction. cbn [exec]. unfold quiet, mbind. pose proof (query_effect h s) as K. destruct (get_fine_gcd h s) as [r s'|s'|]; auto. cbn.
    destruct K as (e & F & Ee & [(L & G)|(L & C & G)]); intros id r' Hin; rewrite G in Hin; rewrite Ee; [apply Hs, Hin|].
    apply in_app_or in Hin. destruct Hin as [Hin|[Hin|[]]]; [apply Hs, Hin|]. injection Hin as <- <-. unfold find_e in F. apply find_some in F as [F _]. eauto.
  - pose proof (sc_exec c D s) as K. destruct Hc as [Hc|Hc].
    + destruct (exec c s) as [a s'|s'|]; auto. intros id r Hin. rewrite K, Hc in Hin. destruct Hin.
    + pose proof (me_exec c s Hc Hi) as K'. destruct (exec c s) as [a s'|s'|]; auto. eapply cache_more; eauto.
Qed.
Lemma cache_history s : history_of rates_fixed_once_queried false s -> cache_ok s.
Proof.
  induction 1 as [|s c s' H IH Hc E|s c s' H IH Hc R E]; [intros ? ? []| |discriminate].
  pose proof (cache_exec c s Hc (any_history_inv s (history_of_any _ _ _ H)) IH) as K. rewrite E in K. exact K.
Qed.

(** [compute_fine_gcd] is the gcd of all the rates. *)
Lemma fold_gcd l : forall a, (fold_left Z.gcd l a | a) /\ (forall x, In x l -> (fold_left Z.gcd l a | x)) /\
  (forall d, (d | a) -> (forall x, In x l -> (d | x)) -> (d | fold_left Z.gcd l a)) /\ (l <> [] -> 0 <= fold_left Z.gcd l a) /\ (0 <= a -> 0 <= fold_left Z.gcd l a).
Proof.
  induction l as [|x l IH]; intros a; cbn [fold_left].
  - repeat split; [apply Z.divide_refl|intros ? []|auto|congruence|auto].
  - destruct (IH (Z.gcd a x)) as (D1 & D2 & D3 & D4 & D5). repeat split.
    + etransitivity; [exact D1|apply Z.gcd_divide_l].
    + intros y [<-|Hy]; [etransitivity; [exact D1|apply Z.gcd_divide_r]|auto].
    + intros d Ha Hd. apply D3; [apply Z.gcd_greatest; auto; apply Hd; left; reflexivity|]. intros y Hy. apply Hd. right; exact Hy.
    + intros _. apply D5, Z.gcd_nonneg.
    + intros _. apply D5, Z.gcd_nonneg.
Qed.
Lemma fine_gcd_spec e r : compute_fine_gcd e = Some r ->
  is_gcd r (be_in e ++ be_out e).
Proof.
  unfold compute_fine_gcd. destruct (be_in e) as [|x l] eqn:E; [discriminate|]. intros H. injection H as <-.
  change (fold_left Z.gcd l (Z.gcd x x)) with (fold_left Z.gcd (x :: l) x).
  destruct (fold_gcd (x :: l) x) as (A1 & A2 & A3 & A4 & _). set (m := fold_left Z.gcd (x :: l) x) in *. clearbody m.
  destruct (fold_gcd (be_out e) m) as (B1 & B2 & B3 & _ & B5). split; [apply B5, A4; discriminate|]. split.
  - intros y Hy. apply in_app_or in Hy. destruct Hy as [Hy|Hy]; [etransitivity; [exact B1|apply A2, Hy]|apply B2, Hy].
  - intros d Hd. apply B3; [apply A3|]; intros; apply Hd; apply in_or_app; cbn; auto.
Qed.

Lemma query_gcd s h r s' : history_of rates_fixed_once_queried false s -> get_fine_gcd h s = Done r s' ->
  exists e, find_e h (s_es s) = Some e /\ is_gcd r (be_in e ++ be_out e).
Proof.
  intros H E. pose proof (query_effect h s) as K. rewrite E in K. destruct K as (e & F & _ & [(L & _)|(_ & C & _)]); exists e; (split; [exact F|]); apply fine_gcd_spec; [|exact C].
  unfold lookup_gcd in L. destruct (find _ (s_gcd s)) as [[id r']|] eqn:Fg; [|discriminate]. cbn in L. injection L as ->. apply find_some in Fg as [Fg Ei]. cbn in Ei. apply Z.eqb_eq in Ei.
  destruct (cache_history s H id r Fg) as (e' & He' & Eid & C). unfold find_e in F. apply find_some in F as [F _].
  pose proof (edge_ids_nodup s (any_history_inv s (history_of_any _ _ _ H)) (accepted_epos s (accepted_of _ _ H))) as N.
  assert (e' = e); [|congruence]. apply in_split in F as (l1 & l2 & El). rewrite El in *. apply in_app_or in He'. rewrite map_app in N. cbn in N. apply NoDup_remove_2 in N.
  destruct He' as [He'|[He'|He']]; [exfalso|auto|exfalso]; apply N, in_or_app; [left|right]; rewrite <- Ei, <- Eid; apply in_map, He'.
Qed.
Lemma first_query s h r s' e : find_e h (s_es s) = Some e -> (forall r, ~ In (be_id e, r) (s_gcd s)) -> get_fine_gcd h s = Done r s' -> is_gcd r (be_in e ++ be_out e).
Proof.
  intros F N E. pose proof (query_effect h s) as K. rewrite E in K. destruct K as (e' & F' & _ & [(L & _)|(_ & C & _)]); rewrite F in F'; injection F' as <-.
  - exfalso. unfold lookup_gcd in L. destruct (find _ (s_gcd s)) as [[id r']|] eqn:Fg; [|discriminate]. apply find_some in Fg as [Fg Ei]. cbn in Ei. apply Z.eqb_eq in Ei. subst id. eapply N; eauto.
  - apply fine_gcd_spec, C.
Qed.

(** * Removal *)
Lemma remove_vertex_effect s v b : any_history s -> s_readonly s = false -> nth_error (s_vs s) v = Some b ->
  exists s' l1 l2, exec (RemoveVertex v) s = Done tt s' /\ s_vs s = l1 ++ b :: l2 /\ length l1 = v /\ s_vs s' = l1 ++ l2 /\
    Forall2 (same_channel s s') (filter (fun e => negb (incident v e)) (s_es s)) (s_es s').
Proof.
  intros H R E. pose proof (any_history_inv s H) as Hi. cbn [exec]. rewrite remove_vertex_eq by apply Hi. rewrite R, E.
  destruct (nth_error_split _ _ E) as (l1 & l2 & Ev & Ll). eexists _, l1, l2. split; [reflexivity|]. split; [exact Ev|]. split; [exact Ll|].
  split; [cbn; rewrite Ev, <- Ll; apply delete_nth_split|]. cbn [with_es s_es].
  rewrite (filter_ext (fun e => negb (incident v e)) (off v)) by (intros e; unfold incident, off; rewrite negb_orb; first [reflexivity|apply andb_comm]).
  assert (HF : forall e, In e (filter (off v) (s_es s)) -> In e (s_es s) /\ be_src e <> v /\ be_dst e <> v).
  { intros e He. apply filter_In in He as [He O]. unfold off in O. apply andb_prop in O as [O1 O2]. apply negb_true_iff, Nat.eqb_neq in O1, O2. auto. }
  match goal with |- Forall2 (same_channel s ?x) _ _ => set (s' := x); assert (Hvs : s_vs s' = delete_nth v (s_vs s)) by reflexivity; clearbody s' end.
  induction (filter (off v) (s_es s)) as [|e l IH]; cbn [map]; constructor.
  - destruct (HF e (or_introl eq_refl)) as (He & N1 & N2). destruct (inv_ends s Hi e He) as [B1 B2].
    unfold same_channel. cbn. repeat split.
    + destruct (nth_error (s_vs s) (be_src e)) as [x|] eqn:Ex; [|apply nth_error_None in Ex; lia]. exists x. split; [reflexivity|]. rewrite Hvs, nth_error_delete by exact N1. exact Ex.
    + destruct (nth_error (s_vs s) (be_dst e)) as [x|] eqn:Ex; [|apply nth_error_None in Ex; lia]. exists x. split; [reflexivity|]. rewrite Hvs, nth_error_delete by exact N2. exact Ex.
  - apply IH. intros x Hx. apply HF. right; exact Hx.
Qed.

(** * What the analyses see *)
Lemma history_weaken (P Q : state -> call -> Prop) r s : (forall s c, P s c -> Q s c) -> history_of P r s -> history_of Q r s.
Proof. intros HPQ. induction 1; [constructor|eapply ho_accepted; eauto|eapply ho_rejected; eauto]. Qed.
Lemma view_well_formed s : history_of (fun s c => announces_phases s c /\ checked_call s c) false s -> complete s -> graph_wf (view s) /\ edge_ids_ok (view s).
Proof.
  intros H [Cv Ce].
  assert (H1 : history_of announces_phases false s) by (eapply history_weaken; [|exact H]; intros ? ? []; assumption).
  assert (H2 : history_of checked_call false s) by (eapply history_weaken; [|exact H]; intros ? ? []; assumption).
  destruct (coherent_history s H1) as [He Hv]. destruct (ids_unique s H2) as (N1 & N2 & N3 & _).
  split; [split; [|split]|split]; cbn [view vertices edges].
  - intros v Hin. apply in_map_iff in Hin as (b & <- & Hb). destruct (Hv b Hb) as [S1 S2]. destruct (Cv b Hb) as (C1 & C2 & C3 & C4).
    split; [exact C1|]. split; [destruct S1; [contradiction|assumption]|]. split; [|exact C4]. cbn. destruct S2 as [S2|S2]; [|exact S2].
    rewrite S2. destruct (bv_init_phases b) as [|k]; [reflexivity|]. exfalso. apply C3; [discriminate|exact S2].
  - intros c Hin. apply in_map_iff in Hin as (e & <- & Hin). destruct (He e Hin) as (bs & bd & E1 & E2 & S1 & S2 & S3 & S4).
    destruct (Ce e bs bd Hin E1 E2) as (C1 & C2 & C3 & C4 & C5 & C6). exists (view_vertex bs), (view_vertex bd). cbn.
    split; [rewrite nth_error_map, E1; reflexivity|]. split; [rewrite nth_error_map, E2; reflexivity|].
    split; [destruct S1 as [S1|S1]; [rewrite S1 in C4; cbn in C4; lia|exact S1]|].
    split; [destruct S2 as [S2|S2]; [rewrite S2 in C5; cbn in C5; lia|exact S2]|].
    split; [destruct S3 as [S3|S3]; [|exact S3]; rewrite S3; destruct (bv_init_phases bs); [reflexivity|exfalso; apply C1; [discriminate|exact S3]]|].
    split; [destruct S4 as [S4|S4]; [|exact S4]; rewrite S4; destruct (bv_init_phases bd); [reflexivity|exfalso; apply C2; [discriminate|exact S4]]|].
    auto.
  - rewrite map_map. exact N1.
  - rewrite map_map. exact N2.
  - intros c Hin. apply in_map_iff in Hin as (e & <- & Hin). apply N3, Hin.
Qed.

(** * Remaining single-call facts *)
Lemma named_is_found s s' n : any_history s ->
  (forall v, exec (SetVertexName v n) s = Done tt s' -> vertex_by_name s' n = Some v) /\
  (forall h, exec (SetEdgeName h n) s = Done tt s' -> edge_by_name s' n = Some h).
Proof.
  intros H. split.
  - intros v E. assert (Hi' : inv s') by (apply any_history_inv; eapply any_accepted; eauto).
    cbn [exec] in E. unfold set_vertex_name, begin_change, writable, mbind, check in E. destruct (s_readonly s); [discriminate|]. cbn [reset_computation modify] in E.
    destruct (String.eqb_spec n "") as [->|Nn]; [discriminate|]. cbn [negb ret get] in E.
    assert (E' : put_v v (bv_set_name n) (with_flags false false false s) = Done tt s').
    { destruct (vertex_by_name _ n) as [o|]; [|exact E]. destruct (o =? v)%nat; [exact E|discriminate]. }
    clear E. unfold put_v, mbind, get_v, modify in E'. cbn [with_flags s_vs] in E'. destruct (nth_error (s_vs s) v) as [b|] eqn:Eb; [|discriminate].
    injection E' as <-. assert (Eb' : nth_error (update_nth v (bv_set_name n) (s_vs s)) v = Some (bv_set_name n b)) by (rewrite nth_error_update, Nat.eqb_refl, Eb; reflexivity).
    exact (vertex_name_lookup _ v (bv_set_name n b) (inv_vnames _ Hi') Eb' Nn).
  - intros h E. assert (Hi' : inv s') by (apply any_history_inv; eapply any_accepted; eauto).
    cbn [exec] in E. unfold set_edge_name, begin_change, writable, mbind, check in E. destruct (s_readonly s); [discriminate|]. cbn [reset_computation modify] in E.
    destruct (String.eqb_spec n "") as [->|Nn]; [discriminate|]. cbn [negb ret get] in E.
    assert (E' : put_e h (be_set_name n) (with_flags false false false s) = Done tt s').
    { destruct (edge_by_name _ n) as [o|]; [|exact E]. destruct (o =? h)%nat; [exact E|discriminate]. }
    clear E. unfold put_e, mbind, get_e, modify in E'. cbn [with_flags s_es] in E'. destruct (find_e h (s_es s)) as [e|] eqn:Ee; [|discriminate].
    injection E' as <-. unfold find_e in Ee. apply find_some in Ee as [Ee Eh].
    assert (Hin : In (be_set_name n e) (map (fun e0 => if (be_handle e0 =? h)%nat then be_set_name n e0 else e0) (s_es s))).
    { apply in_map_iff. exists e. rewrite Eh. auto. }
    apply Nat.eqb_eq in Eh. subst h. exact (edge_name_lookup _ (be_set_name n e) (inv_enames _ Hi') Hin Nn).
Qed.

Lemma totals_exact s e : any_history s -> In e (s_es s) ->
  ((forall x, In x (be_in e) -> 0 <= x) -> sumZ (be_in e) < 2 ^ 31 -> be_total_in e = sumZ (be_in e)) /\
  ((forall x, In x (be_out e) -> 0 <= x) -> sumZ (be_out e) < 2 ^ 31 -> be_total_out e = sumZ (be_out e)).
Proof.
  intros H He. destruct (any_totals s H e He) as [-> ->].
  assert (P : forall l, (forall x, In x l -> 0 <= x) -> 0 <= sumZ l).
  { induction l as [|x l IH]; intros Hl; cbn; [lia|]. pose proof (Hl x (or_introl eq_refl)). assert (0 <= sumZ l) by (apply IH; intros; apply Hl; right; assumption). unfold sumZ in *. lia. }
  split; intros Hp Hs; apply wrap32_small; specialize (P _ Hp); lia.
Qed.

Lemma find_e_map h f es e : (forall x, be_handle (f x) = be_handle x) -> find_e h es = Some e ->
  find_e h (map (fun x => if (be_handle x =? h)%nat then f x else x) es) = Some (f e).
Proof.
  intros Hf. unfold find_e. induction es as [|x es IH]; cbn; [discriminate|]. destruct (be_handle x =? h)%nat eqn:E; cbn.
  - intros H. injection H as <-. rewrite Hf, E. reflexivity.
  - rewrite E. exact IH.
Qed.
Lemma contradiction_refused s h v (l : list Z) (d : list Q) b :
  (forall e s', find_e h (s_es s) = Some e -> nth_error (s_vs s) (be_src e) = Some b -> bv_phases b <> O -> length l <> bv_phases b -> exec (SetEdgeIn h l) s <> Done tt s') /\
  (forall e s', find_e h (s_es s) = Some e -> nth_error (s_vs s) (be_dst e) = Some b -> bv_phases b <> O -> length l <> bv_phases b -> exec (SetEdgeOut h l) s <> Done tt s') /\
  (forall s', nth_error (s_vs s) v = Some b -> length d <> bv_phases b -> exec (SetDurations v d) s <> Done tt s').
Proof.
  repeat split; cbn [exec].
  - intros e s' F E N0 N. unfold set_edge_in, begin_change, writable, reset_computation, mbind, put_e, mbind, get_e, get_v, check, modify. destruct (s_readonly s); [discriminate|].
    cbn [with_flags s_es]. rewrite F. cbn [with_es with_flags s_es s_vs]. erewrite find_e_map by (reflexivity || exact F). cbn [be_set_in be_src s_vs with_es with_flags]. rewrite E.
    destruct (Nat.eqb_spec (bv_phases b) 0); [contradiction|]. destruct (Nat.eqb_spec (bv_phases b) (length l)); [congruence|discriminate].
  - intros e s' F E N0 N. unfold set_edge_out, begin_change, writable, reset_computation, mbind, put_e, mbind, get_e, get_v, check, modify. destruct (s_readonly s); [discriminate|].
    cbn [with_flags s_es]. rewrite F. cbn [with_es with_flags s_es s_vs]. erewrite find_e_map by (reflexivity || exact F). cbn [be_set_out be_dst s_vs with_es with_flags]. rewrite E.
    destruct (Nat.eqb_spec (bv_phases b) 0); [contradiction|]. destruct (Nat.eqb_spec (bv_phases b) (length l)); [congruence|discriminate].
  - intros s' E N. unfold set_durations, begin_change, writable, reset_computation, mbind, get_v, check, modify. destruct (s_readonly s); [discriminate|].
    cbn [with_flags s_vs]. rewrite E. destruct (Nat.eqb_spec (bv_phases b) (length d)); [congruence|discriminate].
Qed.

Lemma no_stale_result s c s' : any_history s -> mutating c -> exec c s = Done tt s' -> s_readonly s' = false /\ s_rep s' = false /\ s_norm s' = false.
Proof.
  intros H Hm E. assert (R : s_readonly s = false).
  { destruct (s_readonly s) eqn:R; [|reflexivity]. destruct (frozen_refused s c R Hm) as (s1 & E1 & _). congruence. }
  assert (R' : s_readonly s' = false).
  { pose proof (mutation_flags c Hm s) as K. rewrite E in K. destruct K as [(K & _)|(K & _)]; congruence. }
  split; [exact R'|]. exact (any_flags s' (any_accepted s c s' H E) R').
Qed.

Definition same_edges (s s' : state) : Prop := s_es s' = s_es s.
Lemma se_all_Ni l : forall v, keeps same_edges (set_all_Ni v l).
Proof.
  assert (T : forall a b c, same_edges a b -> same_edges b c -> same_edges a c) by (unfold same_edges; congruence).
  assert (Rf : forall s, same_edges s s) by reflexivity.
  induction l as [|n l IH]; intros v; cbn; [apply keeps_ret, Rf|]. apply keeps_bind; [exact T| |intros _; apply IH].
  unfold set_Ni. apply keeps_bind; [exact T|apply keeps_get, Rf|intros s]. apply keeps_bind; [exact T|apply keeps_check, Rf|intros _].
  apply keeps_bind; [exact T|apply keeps_get_v, Rf|intros _]. apply keeps_modify. intros s'. reflexivity.
Qed.
Lemma analysis_freezes s res r s' : s_rep s = false -> compute_repetition res s = Done r s' -> s_readonly s' = true /\ s_rep s' = r /\ s_es s' = s_es s.
Proof.
  intros R E. unfold compute_repetition, mbind, get, set_read_only, modify in E. rewrite R in E. destruct res as [l|].
  - set (s1 := with_flags true (s_norm s) (s_rep s) s) in E. pose proof (sf_all_Ni l 0 s1) as K. pose proof (se_all_Ni l 0 s1) as K'. destruct (set_all_Ni 0 l s1) as [[] s2|s2|]; try discriminate.
    unfold set_repetition_vector, modify, ret in E. cbn in E. injection E as <- <-. destruct K as (K1 & K2 & K3). cbn in *. auto.
  - cbn in E. injection E as <- <-. auto.
Qed.
