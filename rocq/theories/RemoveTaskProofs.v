(** Removing the tasks found by a list of tests, one after the other. *)
From Coq Require Import QArith Ascii String Permutation.
From Verif Require Import Base Commons Graph Builder BuilderSpec BuilderProofs BuilderPhases BuilderFinal RemoveTask RemoveTaskSpec.
Open Scope Z_scope.

Definition test := bvertex -> bool.
Definition once (p : test) (l : list bvertex) : Prop := (length (filter p l) <= 1)%nat.
Definition removed (s : state) (pick : test) (s' : state) : Prop :=
  s_vs s' = filter (fun b => negb (pick b)) (s_vs s) /\ Forall2 (same_channel s s') (filter (apart s pick) (s_es s)) (s_es s').

Lemma filter_comm {A} (p q : A -> bool) l : filter p (filter q l) = filter q (filter p l).
Proof. induction l as [|x l IH]; [reflexivity|]. cbn. destruct (q x) eqn:Q, (p x) eqn:P; cbn; rewrite ?Q, ?P, IH; reflexivity. Qed.
Lemma filter_filter {A} (p q : A -> bool) l : filter p (filter q l) = filter (fun x => q x && p x) l.
Proof. induction l as [|x l IH]; [reflexivity|]. cbn. destruct (q x); cbn; [destruct (p x)|]; rewrite IH; reflexivity. Qed.
Lemma filter_all {A} (p : A -> bool) l : (forall x, In x l -> p x = true) -> filter p l = l.
Proof. induction l as [|x l IH]; intros H; cbn; [reflexivity|]. rewrite (H x (or_introl eq_refl)), IH; [reflexivity|]. intros y Hy. apply H. right; exact Hy. Qed.
Lemma filter_none {A} (p : A -> bool) l : filter p l = [] -> forall x, In x l -> p x = false.
Proof. induction l as [|y l IH]; intros E x H; [destruct H|]. cbn in E. destruct (p y) eqn:P; [discriminate|]. destruct H as [<-|H]; auto. Qed.
Lemma once_filter p q l : once p l -> once p (filter q l).
Proof. unfold once. rewrite filter_comm. pose proof (filter_le q (filter p l)). lia. Qed.
Lemma once_split p l1 x l2 : once p (l1 ++ x :: l2) -> p x = true -> (forall y, In y l1 -> p y = false) -> l1 ++ l2 = filter (fun b => negb (p b)) (l1 ++ x :: l2).
Proof.
  unfold once. rewrite !filter_app, app_length. cbn [filter]. intros O Px H1. rewrite Px in O. cbn [length negb] in *. rewrite Px. cbn [negb].
  rewrite (filter_all _ l1) by (intros y Hy; rewrite (H1 y Hy); reflexivity). f_equal. symmetry. apply filter_all. intros y Hy.
  assert (E : filter p l2 = []) by (apply length_zero_iff_nil; lia). rewrite (filter_none p l2 E y Hy). reflexivity.
Qed.

Lemma Forall2_filter2 {A B} (R : A -> B -> Prop) (f : A -> bool) (g : B -> bool) l l' : (forall a b, R a b -> f a = g b) -> Forall2 R l l' -> Forall2 R (filter f l) (filter g l').
Proof. intros H. induction 1 as [|a b l l' r F IH]; cbn; [constructor|]. rewrite (H a b r). destruct (g b); [constructor; assumption|exact IH]. Qed.
Lemma Forall2_comp {A B C} (R : A -> B -> Prop) (S : B -> C -> Prop) (T : A -> C -> Prop) : (forall a b c, R a b -> S b c -> T a c) -> forall l1 l2, Forall2 R l1 l2 -> forall l3, Forall2 S l2 l3 -> Forall2 T l1 l3.
Proof. intros H l1 l2 F. induction F as [|a b l l' r F IH]; intros l3 G; inversion G; subst; constructor; eauto. Qed.
Lemma same_channel_trans s s1 s2 a b c : same_channel s s1 a b -> same_channel s1 s2 b c -> same_channel s s2 a c.
Proof.
  unfold same_channel. intros (A1 & A2 & A3 & A4 & A5 & A6 & A7 & A8 & A9 & A10 & A11 & (x & X1 & X2) & (y & Y1 & Y2)) (B1 & B2 & B3 & B4 & B5 & B6 & B7 & B8 & B9 & B10 & B11 & (x' & X1' & X2') & (y' & Y1' & Y2')).
  rewrite X2 in X1'. injection X1' as <-. rewrite Y2 in Y1'. injection Y1' as <-. repeat (split; [congruence|]). split; eauto.
Qed.
Lemma same_channel_apart s s' q a b : same_channel s s' a b -> apart s q a = apart s' q b.
Proof. intros H. unfold same_channel in H. do 11 (destruct H as [_ H]). destruct H as ((x & X1 & X2) & (y & Y1 & Y2)). unfold apart. rewrite X1, X2, Y1, Y2. reflexivity. Qed.

Lemma removed_ext s p q s' : (forall b, p b = q b) -> removed s p s' -> removed s q s'.
Proof.
  intros H [V E]. split; [rewrite V; apply filter_ext; intros b; rewrite H; reflexivity|].
  rewrite (filter_ext (apart s q) (apart s p)); [exact E|]. intros e. unfold apart. destruct (nth_error (s_vs s) (be_src e)); [|reflexivity]. destruct (nth_error (s_vs s) (be_dst e)); [|reflexivity]. rewrite !H. reflexivity.
Qed.
Lemma removed_comp s p s1 q s2 : removed s p s1 -> removed s1 q s2 -> removed s (fun b => p b || q b) s2.
Proof.
  intros [V E] [V' E']. split.
  - rewrite V', V, filter_filter. apply filter_ext. intros b. rewrite negb_orb. reflexivity.
  - rewrite (filter_ext (apart s (fun b => p b || q b)) (fun e => apart s p e && apart s q e)).
    + rewrite <- filter_filter. eapply Forall2_comp; [apply (same_channel_trans s s1 s2)| |exact E']. apply Forall2_filter2; [intros a b H; apply (same_channel_apart s s1 q a b H)|exact E].
    + intros e. unfold apart. destruct (nth_error (s_vs s) (be_src e)) as [a|]; [|reflexivity]. destruct (nth_error (s_vs s) (be_dst e)) as [b|]; [|reflexivity].
      destruct (p a), (p b), (q a), (q b); reflexivity.
Qed.
Lemma removed_none s : inv s -> removed s (fun _ => false) s.
Proof.
  intros I. split; [symmetry; apply filter_all; reflexivity|]. rewrite filter_all.
  - assert (H := inv_ends s I). induction (s_es s) as [|e l IH]; constructor.
    + destruct (H e (or_introl eq_refl)) as [H1 H2]. unfold same_channel. repeat (split; [reflexivity|]). apply nth_error_Some in H1, H2.
      destruct (nth_error (s_vs s) (be_src e)) as [a|]; [|congruence]. destruct (nth_error (s_vs s) (be_dst e)) as [b|]; [|congruence]. split; [exists a|exists b]; auto.
    + apply IH. intros x Hx. apply H. right; exact Hx.
  - intros e He. destruct (inv_ends s I e He) as [H1 H2]. apply nth_error_Some in H1, H2. unfold apart. destruct (nth_error (s_vs s) (be_src e)); [|congruence]. destruct (nth_error (s_vs s) (be_dst e)); [|congruence]. reflexivity.
Qed.

Definition on_test (f : nat -> M unit) (p : test) : M unit := with_task (fun s => find_index p (s_vs s)) f.
Fixpoint fine (ps : list test) (l : list bvertex) : Prop :=
  match ps with
  | [] => True
  | p :: ps' => (exists b, In b l /\ p b = true) /\ fine ps' (filter (fun b => negb (p b)) l)
  end.

Lemma remove_one p s : any_history s -> once p (s_vs s) ->
  match on_test remove_vertex p s with
  | Done _ s' => any_history s' /\ removed s p s' /\ s_readonly s = false /\ s_readonly s' = false /\ exists b, In b (s_vs s) /\ p b = true
  | Raised s' => s' = s /\ (s_readonly s = true \/ forall b, In b (s_vs s) -> p b = false)
  | Undef => False
  end.
Proof.
  intros A O. unfold on_test, with_task, mbind. cbn [get]. destruct (find_index p (s_vs s)) as [v|] eqn:F.
  2: { split; [reflexivity|]. right. exact (find_index_none _ _ F). }
  apply find_index_some in F as (l1 & x & l2 & Ev & L & Px & H1).
  assert (En : nth_error (s_vs s) v = Some x) by (rewrite Ev, <- L, nth_error_app2, Nat.sub_diag by lia; reflexivity).
  pose proof (any_history_inv s A) as I. pose proof (remove_vertex_eq v s (inv_handles s I)) as Eq. destruct (s_readonly s) eqn:R; [rewrite Eq; auto|].
  destruct (remove_vertex_effect s v x A R En) as (s' & k1 & k2 & Ex & Ek & Lk & V & Es). change (exec (RemoveVertex v) s) with (remove_vertex v s) in Ex. rewrite Ex.
  assert (A' : any_history s') by (apply (any_accepted s (RemoveVertex v) s' A Ex)).
  split; [exact A'|]. assert (Ek' : k1 = l1 /\ k2 = l2).
  { rewrite Ev in Ek. clear -Ek L Lk. revert k1 v Ek L Lk. induction l1 as [|y l1 IH]; intros [|z k1] v Ek L Lk; cbn in *; try lia.
    - injection Ek as <-. auto.
    - injection Ek as <- Ek. destruct v as [|v]; [lia|]. destruct (IH k1 v Ek ltac:(lia) ltac:(lia)) as [<- <-]. auto. }
  destruct Ek' as [-> ->]. split; [split|].
  - rewrite V, Ev. apply once_split; [rewrite <- Ev; exact O|exact Px|exact H1].
  - erewrite filter_ext_in; [exact Es|]. intros e He. destruct (inv_ends s I e He) as [B1 B2]. unfold apart, incident.
    assert (Pos : forall k, (k < length (s_vs s))%nat -> match nth_error (s_vs s) k with Some b => p b = (k =? v)%nat | None => False end).
    { intros k Hk. destruct (nth_error (s_vs s) k) as [b|] eqn:Eb; [|apply nth_error_None in Eb; lia]. destruct (Nat.eqb_spec k v) as [->|N]; [congruence|].
      assert (Hb : In b (l1 ++ l2)).
      { rewrite Ev in Eb. destruct (Nat.lt_ge_cases k (length l1)) as [Hl|Hl]; [rewrite nth_error_app1 in Eb by exact Hl; apply in_or_app; left; eapply nth_error_In; eauto|].
        rewrite nth_error_app2 in Eb by exact Hl. destruct (k - length l1)%nat eqn:D; [lia|]. cbn in Eb. apply in_or_app. right. eapply nth_error_In; eauto. }
      rewrite (once_split p l1 x l2) in Hb by (auto; rewrite <- Ev; exact O). apply filter_In in Hb as [_ Hb]. apply negb_true_iff, Hb. }
    pose proof (Pos _ B1) as P1. pose proof (Pos _ B2) as P2. destruct (nth_error (s_vs s) (be_src e)); [|destruct P1]. destruct (nth_error (s_vs s) (be_dst e)); [|destruct P2].
    rewrite P1, P2, negb_orb. reflexivity.
  - split; [reflexivity|]. split.
    + rewrite Ex, En in Eq. injection Eq as ->. reflexivity.
    + exists x. split; [rewrite Ev; apply in_elt|exact Px].
Qed.

Lemma remove_each ps : forall s, any_history s -> Forall (fun p => once p (s_vs s)) ps ->
  match each (on_test remove_vertex) ps s with
  | Done _ s' => any_history s' /\ removed s (fun b => existsb (fun p => p b) ps) s' /\ (ps <> [] -> s_readonly s = false) /\ s_readonly s' = s_readonly s /\ fine ps (s_vs s)
  | Raised s' => any_history s' /\ (s_readonly s = true \/ ~ fine ps (s_vs s))
  | Undef => False
  end.
Proof.
  induction ps as [|p ps IH]; intros s A O; cbn [each].
  { cbn. pose proof (any_history_inv s A) as I. split; [exact A|]. split; [apply removed_none, I|]. split; [congruence|auto]. }
  inversion O as [|? ? Op Ops]; subst. unfold mbind. pose proof (remove_one p s A Op) as K. destruct (on_test remove_vertex p s) as [[] s1|s1|]; [|destruct K as [-> K]; split; [exact A|]; destruct K as [K|K]; [left; exact K|right; intros [(b & Hb & Pb) _]; rewrite (K b Hb) in Pb; discriminate]|exact K].
  destruct K as (A1 & Rm & R & R1 & Ex). specialize (IH s1 A1). destruct Rm as [V E]. assert (O1 : Forall (fun p => once p (s_vs s1)) ps).
  { rewrite V. apply Forall_forall. intros q Hq. apply once_filter. apply (proj1 (Forall_forall _ _) Ops q Hq). }
  specialize (IH O1). destruct (each (on_test remove_vertex) ps s1) as [[] s2|s2|]; [| |exact IH].
  - destruct IH as (A2 & Rm2 & _ & R2 & Fi). split; [exact A2|]. split; [exact (removed_comp s p s1 _ s2 (conj V E) Rm2)|]. split; [auto|]. split; [congruence|]. cbn [fine]. rewrite <- V. auto.
  - destruct IH as (A2 & IH). split; [exact A2|]. right. intros [_ Fi]. rewrite <- V in Fi. destruct IH as [IH|IH]; [congruence|exact (IH Fi)].
Qed.

(** * Clearing *)
Definition clear_where (p : test) (l : list bvertex) : list bvertex := map (fun b => if p b then cleared b else b) l.
(** Tests that look only at what clearing keeps. *)
Definition steady (p : test) : Prop := forall b, p (cleared b) = p b.
Lemma update_where p l1 x l2 : once p (l1 ++ x :: l2) -> p x = true -> (forall y, In y l1 -> p y = false) -> update_nth (length l1) (bv_set_reentrancy 0) (l1 ++ x :: l2) = clear_where p (l1 ++ x :: l2).
Proof.
  intros O Px H1. unfold clear_where. rewrite map_app. cbn [map]. rewrite Px.
  assert (H2 : forall y, In y l2 -> p y = false).
  { apply filter_none, length_zero_iff_nil. unfold once in O. rewrite filter_app, app_length in O. cbn [filter] in O. rewrite Px in O. cbn [length] in O. lia. }
  assert (Id : forall l, (forall y, In y l -> p y = false) -> map (fun b => if p b then cleared b else b) l = l).
  { induction l as [|y l IH]; intros H; cbn; [reflexivity|]. rewrite (H y (or_introl eq_refl)), IH; [reflexivity|]. intros z Hz. apply H. right; exact Hz. }
  rewrite (Id l1 H1), (Id l2 H2). clear. induction l1 as [|y l1 IH]; cbn; [reflexivity|]. rewrite IH. reflexivity.
Qed.
Lemma set_zero v s : (v < length (s_vs s))%nat ->
  match set_reentrancy v 0 s with
  | Done _ s' => s_vs s' = update_nth v (bv_set_reentrancy 0) (s_vs s) /\ s_es s' = s_es s /\ s_readonly s = false /\ s_readonly s' = false
  | Raised s' => s' = s /\ s_readonly s = true
  | Undef => False
  end.
Proof.
  intros H. unfold set_reentrancy, begin_change, writable, mbind. destruct (s_readonly s) eqn:R; [auto|]. cbn [reset_computation modify]. unfold put_v, mbind, get_v, modify. cbn [with_flags s_vs].
  apply nth_error_Some in H. destruct (nth_error (s_vs s) v); [|congruence]. cbn. auto.
Qed.
Lemma clear_one p s : once p (s_vs s) ->
  match on_test (fun t => set_reentrancy t 0) p s with
  | Done _ s' => s_vs s' = clear_where p (s_vs s) /\ s_es s' = s_es s /\ s_readonly s = false /\ s_readonly s' = false /\ exists b, In b (s_vs s) /\ p b = true
  | Raised s' => s' = s /\ (s_readonly s = true \/ forall b, In b (s_vs s) -> p b = false)
  | Undef => False
  end.
Proof.
  intros O. unfold on_test, with_task, mbind. cbn [get]. destruct (find_index p (s_vs s)) as [v|] eqn:F.
  2: { split; [reflexivity|]. right. exact (find_index_none _ _ F). }
  apply find_index_some in F as (l1 & x & l2 & Ev & L & Px & H1). pose proof (set_zero v s) as K.
  assert (Hv : (v < length (s_vs s))%nat) by (rewrite Ev, app_length; cbn; lia). specialize (K Hv).
  destruct (set_reentrancy v 0 s) as [[] s'|s'|]; [|destruct K; auto|exact K]. destruct K as (V & E & R & R'). split; [|split; [exact E|split; [exact R|split; [exact R'|]]]].
  - rewrite V, Ev, <- L. apply update_where; auto. rewrite <- Ev. exact O.
  - exists x. split; [rewrite Ev; apply in_elt|exact Px].
Qed.
Lemma once_clear p q l : steady p -> once p l -> once p (clear_where q l).
Proof.
  intros St. unfold once, clear_where. assert (E : length (filter p (map (fun b => if q b then cleared b else b) l)) = length (filter p l)); [|lia].
  induction l as [|b l IH]; [reflexivity|]. cbn. assert (Pb : p (if q b then cleared b else b) = p b) by (destruct (q b); [apply St|reflexivity]). rewrite Pb. destruct (p b); cbn; rewrite IH; reflexivity.
Qed.
Lemma clear_comp p q l : steady q -> clear_where q (clear_where p l) = clear_where (fun b => p b || q b) l.
Proof.
  intros St. unfold clear_where. rewrite map_map. apply map_ext. intros b. destruct (p b) eqn:P; cbn; [|reflexivity]. rewrite St. destruct (q b); reflexivity.
Qed.
Lemma steady_exists ps : Forall steady ps -> steady (fun b => existsb (fun p => p b) ps).
Proof. intros H b. induction H as [|p ps Hp _ IH]; cbn; [reflexivity|]. rewrite Hp, IH. reflexivity. Qed.
Lemma clear_none l : clear_where (fun _ => false) l = l.
Proof. unfold clear_where. rewrite map_id. reflexivity. Qed.
Lemma clear_each ps : forall s, Forall steady ps -> Forall (fun p => once p (s_vs s)) ps ->
  match each (on_test (fun t => set_reentrancy t 0)) ps s with
  | Done _ s' => s_vs s' = clear_where (fun b => existsb (fun p => p b) ps) (s_vs s) /\ s_es s' = s_es s /\ forall p, In p ps -> exists b, In b (s_vs s) /\ p b = true
  | Raised _ => s_readonly s = true \/ exists p, In p ps /\ forall b, In b (s_vs s) -> p b = false
  | Undef => False
  end.
Proof.
  induction ps as [|p ps IH]; intros s St O; cbn [each].
  { cbn. split; [symmetry; apply clear_none|]. split; [reflexivity|intros ? []]. }
  inversion O as [|? ? Op Ops]; subst. inversion St as [|? ? Sp Sps]; subst. unfold mbind. pose proof (clear_one p s Op) as K.
  destruct (on_test (fun t => set_reentrancy t 0) p s) as [[] s1|s1|]; [|destruct K as [-> [K|K]]; [left; exact K|right; exists p; split; [left; reflexivity|exact K]]|exact K].
  destruct K as (V & E & R & R1 & Ex).
  assert (O1 : Forall (fun p => once p (s_vs s1)) ps).
  { rewrite V. apply Forall_forall. intros q Hq. apply once_clear; [apply (proj1 (Forall_forall _ _) Sps q Hq)|apply (proj1 (Forall_forall _ _) Ops q Hq)]. }
  specialize (IH s1 Sps O1). destruct (each (on_test (fun t => set_reentrancy t 0)) ps s1) as [[] s2|s2|]; [| |exact IH].
  - destruct IH as (V2 & E2 & Fi). split; [rewrite V2, V; apply clear_comp, steady_exists, Sps|]. split; [congruence|]. intros q [<-|Hq]; [exact Ex|].
    destruct (Fi q Hq) as (b & Hb & Qb). rewrite V in Hb. unfold clear_where in Hb. apply in_map_iff in Hb as (b0 & <- & Hb). exists b0. split; [exact Hb|].
    destruct (p b0); [rewrite <- (proj1 (Forall_forall _ _) Sps q Hq b0); exact Qb|exact Qb].
  - destruct IH as [IH|(q & Hq & IH)]; [congruence|]. right. exists q. split; [right; exact Hq|]. intros b Hb.
    specialize (IH (if p b then cleared b else b)). assert (Hin : In (if p b then cleared b else b) (s_vs s1)) by (rewrite V; apply (in_map (fun b => if p b then cleared b else b)), Hb).
    specialize (IH Hin). destruct (p b); [rewrite (proj1 (Forall_forall _ _) Sps q Hq b) in IH; exact IH|exact IH].
Qed.
Lemma clear_all n : forall k s, (k + n <= length (s_vs s))%nat ->
  match each (fun t => set_reentrancy t 0) (seq k n) s with
  | Done _ s' => s_es s' = s_es s /\ length (s_vs s') = length (s_vs s) /\
      forall i, nth_error (s_vs s') i = option_map (fun b => if ((k <=? i) && (i <? k + n))%nat then cleared b else b) (nth_error (s_vs s) i)
  | Raised _ => s_readonly s = true
  | Undef => False
  end.
Proof.
  induction n as [|n IH]; intros k s Hk; cbn [seq each].
  { unfold ret. split; [reflexivity|]. split; [reflexivity|]. intros i. assert (F : ((k <=? i) && (i <? k + 0))%nat = false) by (destruct (Nat.leb_spec k i), (Nat.ltb_spec i (k + 0)); cbn; auto; lia). rewrite F. destruct (nth_error (s_vs s) i); reflexivity. }
  unfold mbind. pose proof (set_zero k s ltac:(lia)) as K. destruct (set_reentrancy k 0 s) as [[] s1|s1|]; [|apply K|exact K]. destruct K as (V & E & R & R1).
  assert (L : length (s_vs s1) = length (s_vs s)) by (rewrite V; apply update_nth_length).
  specialize (IH (S k) s1 ltac:(lia)). destruct (each _ (seq (S k) n) s1) as [[] s2|s2|]; [|congruence|exact IH]. destruct IH as (E2 & L2 & N). split; [congruence|]. split; [congruence|].
  intros i. rewrite N, V, nth_error_update. destruct (nth_error (s_vs s) i) as [b|] eqn:Eb.
  2: { destruct (Nat.eqb_spec i k); [subst; rewrite ?Eb|]; reflexivity. }
  destruct (Nat.eqb_spec i k) as [->|Nk].
  - try rewrite Eb. cbn [option_map]. replace ((S k <=? k) && (k <? S k + n))%nat with false by (symmetry; apply andb_false_iff; left; apply Nat.leb_gt; lia).
    replace ((k <=? k) && (k <? k + S n))%nat with true; [reflexivity|]. symmetry. apply andb_true_intro. split; [apply Nat.leb_le|apply Nat.ltb_lt]; lia.
  - cbn [option_map]. replace ((S k <=? i) && (i <? S k + n))%nat with ((k <=? i) && (i <? k + S n))%nat; [reflexivity|].
    destruct (Nat.leb_spec k i), (Nat.leb_spec (S k) i), (Nat.ltb_spec i (k + S n)), (Nat.ltb_spec i (S k + n)); cbn; auto; lia.
Qed.
