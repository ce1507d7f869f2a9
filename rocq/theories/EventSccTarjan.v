(** Proofs about the search of EventScc.v: the component numbers it sets are the same exactly on
    vertices that reach each other. *)
From Coq Require Import Sorted.
From Verif Require Import Base EventScc.
Open Scope nat_scope.

(** * Maps *)
Lemma lookup_cons m k x j : lookup ((k, x) :: m) j = if k =? j then Some x else lookup m j.
Proof. unfold lookup. cbn. destruct (k =? j); reflexivity. Qed.
Lemma lookup_same m k x : lookup ((k, x) :: m) k = Some x.
Proof. rewrite lookup_cons, Nat.eqb_refl. reflexivity. Qed.
Lemma lookup_other m k x j : k <> j -> lookup ((k, x) :: m) j = lookup m j.
Proof. intros N. rewrite lookup_cons. destruct (Nat.eqb_spec k j); [contradiction|reflexivity]. Qed.
Lemma loop_ok {A B} (f : B -> A -> outcome A) l1 l2 a : loop f (l1 ++ l2) a = do b <- loop f l1 a; loop f l2 b.
Proof. revert a. induction l1 as [|x l1 IH]; intros a; [reflexivity|]. cbn. destruct (f x a); cbn; auto. Qed.

Section Tarjan.
Variable g : egraph.
Variable n : nat.
Definition Sc (v : nat) : list nat := map k_dst (outputs g v).
Hypothesis closed : forall v w, In w (Sc v) -> w < n.

Inductive reach : nat -> nat -> Prop :=
| reach_refl x : reach x x
| reach_step x y z : In y (Sc x) -> reach y z -> reach x z.
Lemma reach_trans x y z : reach x y -> reach y z -> reach x z.
Proof. induction 1; intros; auto. econstructor; eauto. Qed.
Lemma reach_one x y : In y (Sc x) -> reach x y.
Proof. intros. econstructor; [eassumption|constructor]. Qed.

Definition num (st : search) (v : nat) : nat := match lookup (s_num st) v with Some i => i | None => 0 end.
Definition numbered (st : search) (v : nat) : Prop := lookup (s_num st) v <> None.
Definition low (st : search) (v : nat) : nat := match lookup (s_low st) v with Some i => i | None => 0 end.
Definition done (st : search) (v : nat) : Prop := numbered st v /\ ~ In v (s_stack st).

Record inv (gray : list nat) (st : search) : Prop := {
  i_sorted : StronglySorted (fun x y => num st y < num st x) (s_stack st);
  i_stack : forall x, In x (s_stack st) -> numbered st x;
  i_bound : forall x, numbered st x -> x < n /\ num st x < s_index st;
  i_low : forall x, numbered st x <-> lookup (s_low st) x <> None;
  i_gray : forall x, In x gray -> In x (s_stack st);
  i_black : forall x y, numbered st x -> ~ In x gray -> In y (Sc x) -> numbered st y;
  i_done : forall x y, done st x -> In y (Sc x) -> done st y;
  i_down : forall x y, In x (s_stack st) -> In y (s_stack st) -> num st x <= num st y -> reach x y;
  i_up : forall y, In y (s_stack st) -> exists x, In x gray /\ num st x <= num st y /\ reach y x;
  i_scc : forall x, done st x -> done st (get_scc st x) /\ reach x (get_scc st x) /\ reach (get_scc st x) x;
  i_same : forall x y, done st x -> done st y -> reach x y -> reach y x -> get_scc st x = get_scc st y }.

Lemma done_reach gray st : inv gray st -> forall x y, reach x y -> done st x -> done st y.
Proof. intros I x y R. induction R as [|x y z E R IH]; intros D; [exact D|]. apply IH. eapply i_done; eauto. Qed.

(** What a call leaves unchanged. *)
Definition keeps (st st' : search) : Prop :=
  forall x, numbered st x -> lookup (s_num st') x = lookup (s_num st) x /\ lookup (s_low st') x = lookup (s_low st) x.

(** The unnumbered vertices. *)
Definition white (st : search) : nat := length (filter (fun v => negb (indexed st v)) (seq 0 n)).
Lemma indexed_spec st v : indexed st v = true <-> numbered st v.
Proof. unfold indexed, numbered. destruct (lookup (s_num st) v); split; congruence. Qed.
Lemma indexed_false st v : indexed st v = false <-> ~ numbered st v.
Proof. rewrite <- indexed_spec. destruct (indexed st v); intuition congruence. Qed.
Lemma filter_le {A} (f h : A -> bool) l : (forall x, In x l -> f x = true -> h x = true) -> length (filter f l) <= length (filter h l).
Proof.
  induction l as [|x l IH]; intros H; [reflexivity|]. cbn. pose proof (H x (or_introl eq_refl)) as Hx.
  assert (length (filter f l) <= length (filter h l)) by (apply IH; intros y Hy; apply H; right; exact Hy).
  destruct (f x), (h x); cbn; try lia; discriminate (Hx eq_refl).
Qed.
Lemma filter_lt {A} (f h : A -> bool) l a : (forall x, In x l -> f x = true -> h x = true) -> In a l -> f a = false -> h a = true -> length (filter f l) < length (filter h l).
Proof.
  intros H. induction l as [|x l IH]; intros Ha F T; [destruct Ha|]. cbn.
  assert (L : length (filter f l) <= length (filter h l)) by (apply filter_le; intros y Hy; apply H; right; exact Hy).
  pose proof (H x (or_introl eq_refl)) as Hx. destruct Ha as [->|Ha].
  - rewrite F, T. cbn. lia.
  - assert (length (filter f l) < length (filter h l)) by (apply IH; auto; intros y Hy; apply H; right; exact Hy).
    destruct (f x), (h x); cbn; try lia; discriminate (Hx eq_refl).
Qed.
Lemma white_le st st' : (forall x, numbered st x -> numbered st' x) -> white st' <= white st.
Proof. intros H. apply filter_le. intros x _. rewrite !negb_true_iff, !indexed_false. auto. Qed.
Lemma white_lt st st' v : (forall x, numbered st x -> numbered st' x) -> v < n -> ~ numbered st v -> numbered st' v -> white st' < white st.
Proof.
  intros H Hv N Y. apply (filter_lt _ _ _ v).
  - intros x _. rewrite !negb_true_iff, !indexed_false. auto.
  - apply in_seq. lia.
  - rewrite negb_false_iff. apply indexed_spec, Y.
  - rewrite negb_true_iff. apply indexed_false, N.
Qed.
Lemma keeps_numbered st st' : keeps st st' -> forall x, numbered st x -> numbered st' x.
Proof. intros K x H. unfold numbered. rewrite (proj1 (K x H)). exact H. Qed.
Lemma keeps_num st st' : keeps st st' -> forall x, numbered st x -> num st' x = num st x.
Proof. intros K x H. unfold num. rewrite (proj1 (K x H)). reflexivity. Qed.
Lemma keeps_low st st' : keeps st st' -> forall x, numbered st x -> low st' x = low st x.
Proof. intros K x H. unfold low. rewrite (proj2 (K x H)). reflexivity. Qed.

(** What a call of StrongConnect on [v] achieves. *)
Record called (gray : list nat) (v : nat) (st st' : search) : Prop := {
  c_inv : inv gray st';
  c_keeps : keeps st st';
  c_v : numbered st' v;
  c_num : num st' v = s_index st;
  c_le : low st' v <= num st' v;
  c_popped : low st' v = num st' v -> s_stack st' = s_stack st;
  c_low : low st' v < num st' v -> exists y, In y (s_stack st') /\ num st' y = low st' v /\ reach v y;
  c_cross : exists new, s_stack st' = new ++ s_stack st /\ (forall x, In x new -> ~ numbered st x) /\
     forall x y, In x new -> In y (s_stack st) -> In y (Sc x) -> low st' v <= num st' y }.

(** The state in the loop over the constraints of [v], [ws] done. *)
Record looped (gray : list nat) (v : nat) (S0 : list nat) (st0 : search) (ws : list nat) (st : search) : Prop := {
  l_inv : inv (v :: gray) st;
  l_keeps : keeps st0 st;
  l_num : num st v = s_index st0;
  l_le : low st v <= num st v;
  l_low : exists y, In y (s_stack st) /\ num st y = low st v /\ reach v y;
  l_cross : exists new, s_stack st = new ++ v :: S0 /\ (forall x, In x new -> ~ numbered st0 x) /\
     forall x y, In x new -> In y S0 -> In y (Sc x) -> low st v <= num st y;
  l_ws : forall w, In w ws -> numbered st w /\ (In w S0 -> low st v <= num st w) }.

Lemma lookup_insert_new m k x j : lookup m k = None -> lookup (insert m k x) j = if k =? j then Some x else lookup m j.
Proof. intros E. unfold insert. rewrite E. apply lookup_cons. Qed.

Lemma sorted_above st a x b : StronglySorted (fun x y => num st y < num st x) (a ++ x :: b) -> (forall y, In y a -> num st x < num st y) /\ (forall y, In y b -> num st y < num st x).
Proof.
  induction a as [|z a IH]; cbn; intros H; inversion H as [|? ? H1 H2]; subst.
  - split; [intros y []|]. intros y Hy. rewrite Forall_forall in H2. exact (H2 y Hy).
  - destruct (IH H1) as [IA IB]. split; [|exact IB]. intros y [<-|Hy]; [|auto]. rewrite Forall_forall in H2. apply (H2 x). apply in_app_iff. right. left. reflexivity.
Qed.
Lemma sorted_tail st a b : StronglySorted (fun x y => num st y < num st x) (a ++ b) -> StronglySorted (fun x y => num st y < num st x) b.
Proof. induction a as [|z a IH]; cbn; intros H; [exact H|]. inversion H; auto. Qed.

Lemma sorted_keeps st st' l : keeps st st' -> (forall x, In x l -> numbered st x) -> StronglySorted (fun x y => num st y < num st x) l -> StronglySorted (fun x y => num st' y < num st' x) l.
Proof.
  intros K F So. induction So as [|x l So IH HF]; [constructor|]. constructor; [apply IH; intros y Hy; apply F; right; exact Hy|].
  rewrite Forall_forall in *. intros y Hy. rewrite !(keeps_num _ _ K) by (apply F; cbn; auto). apply HF, Hy.
Qed.
(** Entering a vertex. *)
Lemma enter_ok gray v st : inv gray st -> ~ numbered st v -> v < n -> (forall x, In x gray -> reach x v) ->
  looped gray v (s_stack st) st [] (enter v st).
Proof.
  intros I N Hv G.
  assert (E1 : lookup (s_num st) v = None) by (unfold numbered in N; destruct (lookup (s_num st) v); [destruct N; discriminate|reflexivity]).
  assert (E2 : lookup (s_low st) v = None) by (destruct (lookup (s_low st) v) eqn:E; [destruct N; apply (i_low _ _ I); congruence|reflexivity]).
  assert (L1 : forall j, lookup (s_num (enter v st)) j = if v =? j then Some (s_index st) else lookup (s_num st) j) by (intros j; apply lookup_insert_new, E1).
  assert (L2 : forall j, lookup (s_low (enter v st)) j = if v =? j then Some (s_index st) else lookup (s_low st) j) by (intros j; apply lookup_insert_new, E2).
  assert (Nx : forall x, numbered st x -> x <> v) by (intros x H ->; contradiction).
  assert (K : keeps st (enter v st)).
  { intros x H. rewrite L1, L2. destruct (Nat.eqb_spec v x) as [->|]; [contradiction|]. auto. }
  assert (Nu : forall x, numbered (enter v st) x <-> x = v \/ numbered st x).
  { intros x. unfold numbered. rewrite L1. destruct (Nat.eqb_spec v x) as [->|Ne]; [split; [auto|congruence]|]. split; [auto|]. intros [->|H]; [destruct Ne; reflexivity|exact H]. }
  assert (Vv : num (enter v st) v = s_index st) by (unfold num; rewrite L1, Nat.eqb_refl; reflexivity).
  assert (Vl : low (enter v st) v = s_index st) by (unfold low; rewrite L2, Nat.eqb_refl; reflexivity).
  assert (Dn : forall x, done (enter v st) x <-> done st x).
  { intros x. unfold done. rewrite Nu. cbn. split.
    - intros [[->|H] D]; [destruct D; left; reflexivity|]. split; [exact H|]. intros J. apply D. right. exact J.
    - intros [H D]. split; [right; exact H|]. intros [<-|J]; [exact (Nx _ H eq_refl)|contradiction]. }
  assert (Up : forall y, In y (s_stack st) -> reach y v).
  { intros y Hy. destruct (i_up _ _ I y Hy) as (x & Hx & _ & R). eapply reach_trans; [exact R|apply G, Hx]. }
  constructor; auto.
  - constructor.
    + cbn. constructor.
      * apply (sorted_keeps _ _ _ K); [exact (i_stack _ _ I)|exact (i_sorted _ _ I)].
      * apply Forall_forall. intros y Hy. pose proof (i_stack _ _ I y Hy) as H. rewrite (keeps_num _ _ K) by exact H. unfold num at 2. rewrite L1, Nat.eqb_refl. apply (i_bound _ _ I y H).
    + intros x [<-|H]; apply Nu; [left; reflexivity|right; apply (i_stack _ _ I), H].
    + intros x H. apply Nu in H as [->|H]; [split; [exact Hv|rewrite Vv; cbn; lia]|]. rewrite (keeps_num _ _ K) by exact H. cbn. pose proof (i_bound _ _ I x H). lia.
    + intros x. rewrite Nu, L2. destruct (Nat.eqb_spec v x) as [->|Ne]; [split; [congruence|auto]|]. rewrite <- (i_low _ _ I). split; [intros [->|H]; [destruct Ne; reflexivity|exact H]|auto].
    + intros x [<-|H]; [left; reflexivity|right; apply (i_gray _ _ I), H].
    + intros x y H J E. apply Nu in H as [->|H]; [destruct J; left; reflexivity|]. apply Nu. right. apply (i_black _ _ I x y H); [|exact E]. intros H'. apply J. right. exact H'.
    + intros x y H E. apply Dn in H. apply Dn. eapply i_done; eauto.
    + intros x y Hx Hy L. cbn in Hx, Hy. destruct Hx as [<-|Hx], Hy as [<-|Hy].
      * constructor.
      * pose proof (i_stack _ _ I y Hy) as H. rewrite Vv, (keeps_num _ _ K) in L by exact H. pose proof (i_bound _ _ I y H). lia.
      * apply Up, Hx.
      * rewrite !(keeps_num _ _ K) in L by (apply (i_stack _ _ I); assumption). apply (i_down _ _ I); assumption.
    + intros y [<-|Hy]; [exists v; repeat split; [left; reflexivity|lia|constructor]|].
      destruct (i_up _ _ I y Hy) as (x & Hx & L & R). exists x. rewrite !(keeps_num _ _ K) by (apply (i_stack _ _ I); auto; apply (i_gray _ _ I); exact Hx). auto with datatypes.
    + intros x H. apply Dn in H. change (get_scc (enter v st) x) with (get_scc st x). rewrite Dn. exact (i_scc _ _ I x H).
    + intros x y Hx Hy. apply Dn in Hx, Hy. change (get_scc (enter v st) x) with (get_scc st x). change (get_scc (enter v st) y) with (get_scc st y). apply (i_same _ _ I); assumption.
  - rewrite Vv, Vl. lia.
  - exists v. rewrite Vv, Vl. repeat split; [left; reflexivity|constructor].
  - exists []. repeat split; intros x; intros; contradiction.
  - intros w [].
Qed.

(** Lowering the number of a gray vertex. *)
Lemma lower_same gray v x st st' : inv gray st -> lower v x st = Ok st' -> inv gray st'.
Proof.
  intros I E. unfold lower, at_key in E. destruct (lookup (s_low st) v) as [l|] eqn:El; [|discriminate]. cbn in E. injection E as <-.
  destruct I as [A1 A2 A3 A4 A5 A6 A7 A8 A9 A10 A11]. constructor; try assumption.
  intros y. rewrite (A4 y). cbn [s_low]. rewrite lookup_cons. destruct (Nat.eqb_spec v y) as [->|]; [|reflexivity]. rewrite El. split; discriminate.
Qed.
Lemma lower_run v x st : lookup (s_low st) v <> None -> exists st', lower v x st = Ok st' /\ s_num st' = s_num st /\ s_stack st' = s_stack st /\ s_index st' = s_index st /\ s_scc st' = s_scc st /\
   low st' v = Nat.min (low st v) x /\ (forall y, y <> v -> lookup (s_low st') y = lookup (s_low st) y).
Proof.
  intros H. unfold lower, at_key. destruct (lookup (s_low st) v) as [l|] eqn:El; [|contradiction]. cbn. eexists. split; [reflexivity|]. cbn. repeat split.
  - unfold low. cbn. rewrite lookup_same, El. reflexivity.
  - intros y Ny. apply lookup_other. congruence.
Qed.

(** One constraint of [v]. *)
Lemma follow_ok rec gray v S0 st0 ws w st : looped gray v S0 st0 ws st -> ~ numbered st0 v -> S0 = s_stack st0 -> (forall x, In x gray -> reach x v) ->
  (forall x, In x S0 -> numbered st0 x) -> In w (Sc v) ->
  (~ numbered st w -> exists st', rec w st = Ok st' /\ called (v :: gray) w st st') ->
  exists st', follow rec v w st = Ok st' /\ looped gray v S0 st0 (ws ++ [w]) st'.
Proof.
  intros L N0 ES G NS Hw HR. pose proof (l_inv _ _ _ _ _ _ L) as I.
  assert (Vs : In v (s_stack st)) by (apply (i_gray _ _ I); left; reflexivity).
  assert (Vn : numbered st v) by (apply (i_stack _ _ I), Vs).
  unfold follow. destruct (indexed st w) eqn:Ei.
  - cbn [negb]. apply indexed_spec in Ei. destruct (on_stack st w) eqn:Eo.
    + unfold on_stack in Eo. apply existsb_exists in Eo as (w' & Hs & Ew). apply Nat.eqb_eq in Ew. subst w'.
      unfold at_key at 1. destruct (lookup (s_num st) w) as [i|] eqn:En; [|destruct (Ei En)]. cbn.
      destruct (lower_run v i st) as (st' & E & Hn & Hst & Hi & Hc & Hl & Ho); [apply (i_low _ _ I), Vn|]. exists st'. split; [exact E|].
      assert (Nm : forall x, num st' x = num st x) by (intros x; unfold num; rewrite Hn; reflexivity).
      assert (Wi : num st w = i) by (unfold num; rewrite En; reflexivity).
      constructor.
      * exact (lower_same _ _ _ _ _ I E).
      * intros x H. destruct (l_keeps _ _ _ _ _ _ L x H) as [K1 K2]. rewrite Hn, Ho by (intros ->; contradiction). auto.
      * rewrite Nm. exact (l_num _ _ _ _ _ _ L).
      * rewrite Nm, Hl. pose proof (l_le _ _ _ _ _ _ L). lia.
      * rewrite Hst, Hl. destruct (Nat.min_spec (low st v) i) as [[_ ->]|[_ ->]].
        -- destruct (l_low _ _ _ _ _ _ L) as (y & Hy & Ey & R). exists y. rewrite Nm. auto.
        -- exists w. rewrite Nm, Wi. repeat split; auto. apply reach_one, Hw.
      * destruct (l_cross _ _ _ _ _ _ L) as (new & En' & Nw & C). exists new. rewrite Hst. split; [exact En'|]. split; [exact Nw|].
        intros x y Hx Hy E'. rewrite Nm, Hl. pose proof (C x y Hx Hy E'). lia.
      * intros z Hz. apply in_app_iff in Hz as [Hz|[<-|[]]].
        -- destruct (l_ws _ _ _ _ _ _ L z Hz) as [Z1 Z2]. split; [unfold numbered; rewrite Hn; exact Z1|]. intros H. rewrite Nm, Hl. specialize (Z2 H). lia.
        -- split; [unfold numbered; rewrite Hn; exact Ei|]. intros _. rewrite Nm, Hl, Wi. lia.
    + exists st. split; [reflexivity|]. destruct L as [L1 L2 LN L3 L4 L5 L6]. constructor; auto.
      intros z Hz. apply in_app_iff in Hz as [Hz|[<-|[]]]; [auto|]. split; [exact Ei|]. intros H. exfalso.
      destruct L5 as (new & En' & _). assert (Hs : In w (s_stack st)) by (rewrite En'; apply in_app_iff; right; right; exact H).
      assert (T : on_stack st w = true) by (apply existsb_exists; exists w; split; [exact Hs|apply Nat.eqb_refl]). congruence.
  - cbn [negb]. apply indexed_false in Ei. destruct (HR Ei) as (st1 & E1 & C). rewrite E1. cbn [bind]. clear HR.
    pose proof (c_inv _ _ _ _ C) as I1. pose proof (c_keeps _ _ _ _ C) as K1.
    assert (Wn : numbered st1 w) by exact (c_v _ _ _ _ C).
    unfold at_key at 1. destruct (lookup (s_low st1) w) as [lw|] eqn:El; [|exfalso; apply (i_low _ _ I1) in Wn; contradiction]. cbn [bind].
    assert (Wl : low st1 w = lw) by (unfold low; rewrite El; reflexivity).
    assert (Vn1 : numbered st1 v) by (apply (keeps_numbered _ _ K1), Vn).
    destruct (lower_run v lw st1) as (st' & E & Hn & Hst & Hi & Hc & Hl & Ho); [apply (i_low _ _ I1), Vn1|]. exists st'. split; [exact E|].
    assert (Nm : forall x, num st' x = num st1 x) by (intros x; unfold num; rewrite Hn; reflexivity).
    assert (Lv : low st1 v = low st v) by (apply (keeps_low _ _ K1), Vn).
    assert (Nv : num st1 v = num st v) by (apply (keeps_num _ _ K1), Vn).
    pose proof (l_le _ _ _ _ _ _ L) as LE.
    destruct (l_cross _ _ _ _ _ _ L) as (new & En' & Nw & Cr). destruct (c_cross _ _ _ _ C) as (new1 & En1 & Nw1 & Cr1). rewrite Wl in Cr1.
    pose proof (c_le _ _ _ _ C) as CLE. rewrite Wl in CLE.
    constructor.
    + exact (lower_same _ _ _ _ _ I1 E).
    + intros x H. destruct (l_keeps _ _ _ _ _ _ L x H) as [Q1 Q2]. assert (Hx : numbered st x) by (unfold numbered; rewrite Q1; exact H).
      destruct (K1 x Hx) as [Q3 Q4]. rewrite Hn, Ho by (intros ->; contradiction). rewrite Q3, Q4. auto.
    + rewrite Nm, Nv. exact (l_num _ _ _ _ _ _ L).
    + rewrite Nm, Hl. lia.
    + rewrite Hst, Hl. rewrite Lv. destruct (Nat.min_spec (low st v) lw) as [[_ ->]|[Hm ->]].
      * destruct (l_low _ _ _ _ _ _ L) as (y & Hy & Ey & R). exists y. rewrite Nm, (keeps_num _ _ K1) by (apply (i_stack _ _ I), Hy). split; [rewrite En1; apply in_app_iff; right; exact Hy|]. auto.
      * destruct (Nat.eq_dec lw (num st1 w)) as [Eq|Ne].
        -- exfalso. pose proof (proj2 (i_bound _ _ I v Vn)). rewrite (c_num _ _ _ _ C) in Eq. lia.
        -- destruct (c_low _ _ _ _ C) as (y & Hy & Ey & R); [lia|]. exists y. rewrite Nm. rewrite <- Wl. split; [exact Hy|]. split; [exact Ey|]. eapply reach_step; eauto.
    + exists (new1 ++ new). rewrite Hst, En1, En', app_assoc. split; [reflexivity|]. split.
      * intros x Hx. apply in_app_iff in Hx as [Hx|Hx]; [|auto]. intros H. apply (Nw1 x Hx). apply (keeps_numbered _ _ (l_keeps _ _ _ _ _ _ L)), H.
      * intros x y Hx Hy E'. rewrite Nm, Hl. apply in_app_iff in Hx as [Hx|Hx].
        -- assert (In y (s_stack st)) by (rewrite En'; apply in_app_iff; right; right; exact Hy). pose proof (Cr1 x y Hx H E'). lia.
        -- pose proof (Cr x y Hx Hy E') as Q. assert (In y (s_stack st)) by (rewrite En'; apply in_app_iff; right; right; exact Hy).
           rewrite (keeps_num _ _ K1) by (apply (i_stack _ _ I); assumption). lia.
    + intros z Hz. apply in_app_iff in Hz as [Hz|[<-|[]]].
      * destruct (l_ws _ _ _ _ _ _ L z Hz) as [Z1 Z2]. split; [unfold numbered; rewrite Hn; apply (keeps_numbered _ _ K1), Z1|]. intros H. rewrite Nm, Hl, Lv, (keeps_num _ _ K1) by exact Z1. specialize (Z2 H). lia.
      * split; [unfold numbered; rewrite Hn; exact Wn|]. intros H. exfalso. apply Ei. apply (i_stack _ _ I). rewrite En'. apply in_app_iff. right. right. exact H.
Qed.

Lemma pop_ok v : forall new S0 scc, ~ In v new -> exists scc', pop_to v (new ++ v :: S0) scc = Ok (S0, scc') /\
  (forall x, In x (new ++ [v]) -> lookup scc' x = Some v) /\ (forall x, ~ In x (new ++ [v]) -> lookup scc' x = lookup scc x).
Proof.
  induction new as [|w new IH]; intros S0 scc N; cbn.
  - rewrite Nat.eqb_refl. eexists. split; [reflexivity|]. split.
    + intros x [<-|[]]. apply lookup_same.
    + intros x Hx. apply lookup_other. intros ->. apply Hx. left. reflexivity.
  - destruct (Nat.eqb_spec w v) as [->|Ne]; [destruct N; left; reflexivity|].
    destruct (IH S0 ((w, v) :: scc)) as (scc' & E & A & B); [intros H; apply N; right; exact H|]. exists scc'. split; [exact E|]. split.
    + intros x [<-|Hx]; [|auto]. destruct (in_dec Nat.eq_dec w (new ++ [v])) as [J|J]; [auto|]. rewrite (B w J). apply lookup_same.
    + intros x Hx. rewrite B by (intros J; apply Hx; right; exact J). apply lookup_other. intros ->. apply Hx. left. reflexivity.
Qed.

(** Leaving a vertex. *)
Lemma leave_ok gray v st0 st : looped gray v (s_stack st0) st0 (Sc v) st -> inv gray st0 -> ~ numbered st0 v ->
  exists st', leave v st = Ok st' /\ called gray v st0 st'.
Proof.
  intros L I0 N0. pose proof (l_inv _ _ _ _ _ _ L) as I. pose proof (l_keeps _ _ _ _ _ _ L) as K.
  assert (Vs : In v (s_stack st)) by (apply (i_gray _ _ I); left; reflexivity).
  assert (Vn : numbered st v) by (apply (i_stack _ _ I), Vs).
  destruct (l_cross _ _ _ _ _ _ L) as (new & En & Nw & Cr).
  pose proof (i_sorted _ _ I) as So. rewrite En in So. destruct (sorted_above _ _ _ _ So) as [Ab Be].
  assert (Vnew : ~ In v new) by (intros H; pose proof (Ab v H); lia).
  assert (VS0 : ~ In v (s_stack st0)) by (intros H; pose proof (Be v H); lia).
  assert (G0 : forall x, In x gray -> In x (s_stack st0)) by exact (i_gray _ _ I0).
  assert (Gn : forall x, In x gray -> num st x < num st v) by (intros x Hx; apply Be, G0, Hx).
  assert (NG : forall x, In x new -> ~ In x gray) by (intros x Hx Hg; pose proof (Gn x Hg); pose proof (Ab x Hx); lia).
  assert (Bl : forall x y, numbered st x -> ~ In x gray -> In y (Sc x) -> numbered st y).
  { intros x y Hx Hg E. destruct (Nat.eq_dec x v) as [->|Ne]; [apply (l_ws _ _ _ _ _ _ L y E)|]. apply (i_black _ _ I x y Hx); [|exact E]. intros [H|H]; [congruence|contradiction]. }
  assert (InS : forall x, In x (s_stack st) <-> In x new \/ x = v \/ In x (s_stack st0)) by (intros x; rewrite En, in_app_iff; cbn; intuition).
  unfold leave, at_key. destruct (lookup (s_low st) v) as [l|] eqn:El; [|exfalso; apply (i_low _ _ I) in Vn; contradiction].
  destruct (lookup (s_num st) v) as [i|] eqn:Ei; [|destruct (Vn Ei)]. cbn [bind].
  assert (Vl : low st v = l) by (unfold low; rewrite El; reflexivity). assert (Vi : num st v = i) by (unfold num; rewrite Ei; reflexivity).
  pose proof (l_le _ _ _ _ _ _ L) as LE.
  destruct (Nat.eqb_spec l i) as [Eq|Ne].
  - destruct (pop_ok v new (s_stack st0) (s_scc st) Vnew) as (scc' & E & A & B). rewrite En, E. cbn [bind fst snd].
    eexists. split; [reflexivity|]. set (st' := mkSearch _ _ _ _ _).
    assert (GA : forall x, In x (new ++ [v]) -> get_scc st' x = v) by (intros x Hx; unfold get_scc; cbn; rewrite A by exact Hx; reflexivity).
    assert (GB : forall x, ~ In x (new ++ [v]) -> get_scc st' x = get_scc st x) by (intros x Hx; unfold get_scc; cbn; rewrite B by exact Hx; reflexivity).
    assert (Dn : forall x, done st' x <-> In x (new ++ [v]) \/ done st x).
    { intros x. unfold done. change (numbered st' x) with (numbered st x). cbn [s_stack st']. rewrite in_app_iff. cbn. split.
      - intros [H1 H2]. destruct (in_dec Nat.eq_dec x (s_stack st)) as [J|J]; [|auto]. apply InS in J as [J|[->|J]]; [auto|auto|contradiction].
      - intros [[H|[<-|[]]]|[H1 H2]].
        + split; [apply (i_stack _ _ I), InS; auto|]. intros J. pose proof (Be x J). pose proof (Ab x H). lia.
        + split; [exact Vn|exact VS0].
        + split; [exact H1|]. intros J. apply H2, InS. auto. }
    assert (Pop : forall x, In x (new ++ [v]) -> In x (s_stack st) /\ num st v <= num st x /\ ~ In x gray).
    { intros x Hx. apply in_app_iff in Hx as [Hx|[<-|[]]]; (split; [apply InS; auto|]); split.
      - pose proof (Ab x Hx). lia.
      - auto.
      - lia.
      - intros Hg. apply VS0, G0, Hg. }
    assert (Ro : forall x, In x (new ++ [v]) -> reach x v /\ reach v x).
    { intros x Hx. destruct (Pop x Hx) as (X1 & X2 & X3). split; [|apply (i_down _ _ I); auto].
      destruct (i_up _ _ I x X1) as (y & [<-|Hy] & Ly & R); [exact R|]. eapply reach_trans; [exact R|]. apply (i_down _ _ I).
      - apply InS. auto.
      - exact Vs.
      - pose proof (Gn y Hy). lia. }
    assert (I' : inv gray st').
    { constructor.
      - cbn [s_stack st']. change (num st') with (num st). apply (sorted_tail st (new ++ [v])). rewrite <- app_assoc. exact So.
      - intros x Hx. apply (i_stack _ _ I), InS. auto.
      - exact (i_bound _ _ I).
      - exact (i_low _ _ I).
      - exact G0.
      - exact Bl.
      - intros x y Hx E'. apply Dn in Hx as [Hx|Hx]; [|apply Dn; right; eapply i_done; eauto].
        destruct (Pop x Hx) as (X1 & X2 & X3). assert (Hy : numbered st y) by (apply (Bl x y); auto; apply (i_stack _ _ I), X1).
        split; [exact Hy|]. cbn [s_stack st']. intros J. pose proof (Be y J). apply in_app_iff in Hx as [Hx|[<-|[]]].
        + pose proof (Cr x y Hx J E'). lia.
        + pose proof (proj2 (l_ws _ _ _ _ _ _ L y E') J). lia.
      - intros x y Hx Hy. apply (i_down _ _ I); apply InS; auto.
      - intros y Hy. destruct (i_up _ _ I y) as (x & Hx & Lx & R); [apply InS; auto|]. exists x. split; [|auto]. destruct Hx as [<-|Hx]; [|exact Hx]. pose proof (Be y Hy). change (num st' ) with (num st) in *. lia.
      - intros x Hx. apply Dn in Hx as [Hx|Hx].
        + rewrite (GA x Hx). destruct (Ro x Hx). split; [apply Dn; left; apply in_app_iff; right; left; reflexivity|auto].
        + assert (~ In x (new ++ [v])) by (intros J; apply (proj2 Hx), (Pop x J)). rewrite GB by assumption. destruct (i_scc _ _ I x Hx) as (S1 & S2). split; [apply Dn; auto|exact S2].
      - intros x y Hx Hy R1 R2. assert (Far : forall a b, In a (new ++ [v]) -> done st b -> reach b a -> False).
        { intros a b Ha Hb R. apply (proj2 (done_reach _ _ I b a R Hb)), (Pop a Ha). }
        apply Dn in Hx as [Hx|Hx]; apply Dn in Hy as [Hy|Hy].
        + rewrite !GA by assumption. reflexivity.
        + destruct (Far x y Hx Hy R2).
        + destruct (Far y x Hy Hx R1).
        + rewrite (GB x) by (intros J; apply (proj2 Hx), (Pop _ J)). rewrite (GB y) by (intros J; apply (proj2 Hy), (Pop _ J)).
          apply (i_same _ _ I); assumption. }
    constructor; auto.
    + exact (l_num _ _ _ _ _ _ L).
    + intros Hlt. exfalso. change (low st' v) with (low st v) in Hlt. change (num st' v) with (num st v) in Hlt. lia.
    + exists []. split; [reflexivity|]. split; intros x; intros; contradiction.
  - exists st. split; [reflexivity|].
    destruct (l_low _ _ _ _ _ _ L) as (yl & Hyl & Eyl & Ryl).
    assert (Gw : exists h, In h gray /\ num st h <= num st yl /\ reach yl h).
    { destruct (i_up _ _ I yl Hyl) as (h & [<-|Hh] & Lh & R); [exfalso; lia|]. exists h. auto. }
    destruct Gw as (h & Hh & Lh & Rh).
    constructor; auto.
    + destruct I as [A1 A2 A3 A4 A5 A6 A7 A8 A9 A10 A11]. constructor; auto.
      * intros x Hx. apply A5. right. exact Hx.
      * intros y Hy. destruct (A9 y Hy) as (x & [<-|Hx] & Lx & R); [|exists x; auto]. exists h. split; [exact Hh|]. split; [lia|].
        eapply reach_trans; [exact R|]. eapply reach_trans; eauto.
    + exact (l_num _ _ _ _ _ _ L).
    + intros H. exfalso. congruence.
    + intros _. exists yl. auto.
    + exists (new ++ [v]). split; [rewrite <- app_assoc; exact En|]. split.
      * intros x Hx. apply in_app_iff in Hx as [Hx|[<-|[]]]; auto.
      * intros x y Hx Hy E'. apply in_app_iff in Hx as [Hx|[<-|[]]]; [eauto|]. apply (l_ws _ _ _ _ _ _ L y E'), Hy.
Qed.

(** The call. *)
Lemma connect_ok : forall f gray v st, inv gray st -> ~ numbered st v -> v < n -> (forall x, In x gray -> reach x v) -> white st <= f ->
  exists st', strong_connect f g v st = Ok st' /\ called gray v st st'.
Proof.
  induction f as [|f IH]; intros gray v st I N Hv G W.
  - exfalso. assert (H : In v (filter (fun v => negb (indexed st v)) (seq 0 n))).
    { apply filter_In. split; [apply in_seq; lia|]. apply negb_true_iff, indexed_false, N. }
    unfold white in W. destruct (filter _ _); [destruct H|cbn in W; lia].
  - cbn [strong_connect].
    assert (L0 := enter_ok gray v st I N Hv G).
    assert (Go : forall ks ws st1, map k_dst (outputs g v) = ws ++ map k_dst ks -> looped gray v (s_stack st) st ws st1 ->
      exists st2, loop (fun k st => follow (strong_connect f g) v (k_dst k) st) ks st1 = Ok st2 /\ looped gray v (s_stack st) st (ws ++ map k_dst ks) st2).
    { induction ks as [|k ks IHk]; intros ws st1 E L.
      - exists st1. cbn. rewrite app_nil_r. auto.
      - cbn [loop map]. assert (Hw : In (k_dst k) (Sc v)) by (unfold Sc; rewrite E; apply in_app_iff; right; left; reflexivity).
        destruct (follow_ok (strong_connect f g) gray v (s_stack st) st ws (k_dst k) st1 L N eq_refl G (i_stack _ _ I) Hw) as (st2 & E2 & L2).
        { intros Nw. apply (IH (v :: gray)); auto.
          - exact (l_inv _ _ _ _ _ _ L).
          - exact (closed _ _ Hw).
          - intros x [<-|Hx]; [apply reach_one, Hw|]. eapply reach_trans; [apply G, Hx|apply reach_one, Hw].
          - assert (white st1 < white st); [|lia]. apply (white_lt st st1 v); auto.
            + exact (keeps_numbered _ _ (l_keeps _ _ _ _ _ _ L)).
            + apply (i_stack _ _ (l_inv _ _ _ _ _ _ L)), (i_gray _ _ (l_inv _ _ _ _ _ _ L)). left. reflexivity. }
        rewrite E2. cbn [bind]. destruct (IHk (ws ++ [k_dst k]) st2) as (st3 & E3 & L3); [rewrite <- app_assoc; exact E|exact L2|].
        exists st3. split; [exact E3|]. rewrite <- app_assoc in L3. exact L3. }
    destruct (Go (outputs g v) [] (enter v st) eq_refl L0) as (st2 & E2 & L2). rewrite E2. cbn [bind]. apply leave_ok; auto.
Qed.

(** The whole search. *)
Lemma inv_init : inv [] (mkSearch 0 [] [] [] []).
Proof.
  constructor.
  - constructor.
  - intros x [].
  - intros x H. destruct (H eq_refl).
  - intros x. unfold numbered. cbn. reflexivity.
  - intros x [].
  - intros x y H. destruct (H eq_refl).
  - intros x y [H _]. destruct (H eq_refl).
  - intros x y [].
  - intros y [].
  - intros x [H _]. destruct (H eq_refl).
  - intros x y [H _]. destruct (H eq_refl).
Qed.
Lemma white_max st : white st <= n.
Proof. unfold white. rewrite <- (seq_length n 0) at 2. 
  generalize (seq 0 n). intros l. induction l as [|x l IH]; [reflexivity|]. cbn. destruct (negb (indexed st x)); cbn; lia.
Qed.
Hypothesis size : n = length (eg_events g).
Theorem search_ok : exists st, search_all g = Ok st /\ s_stack st = [] /\ (forall v, v < n -> get_scc st v < n /\ get_scc st (get_scc st v) = get_scc st v) /\ forall u v, u < n -> v < n -> (get_scc st u = get_scc st v <-> reach u v /\ reach v u).
Proof.
  unfold search_all. rewrite <- size.
  assert (Go : forall vs st, (forall v, In v vs -> v < n) -> inv [] st ->
    exists st', loop (fun v st => if indexed st v then Ok st else strong_connect (S n) g v st) vs st = Ok st' /\ inv [] st' /\ (forall v, numbered st v -> numbered st' v) /\ forall v, In v vs -> numbered st' v).
  { induction vs as [|v vs IH]; intros st Hvs I; cbn [loop].
    - exists st. split; [reflexivity|]. split; [exact I|]. split; [auto|intros v []].
    - destruct (indexed st v) eqn:E.
      + cbn [bind]. destruct (IH st) as (st' & E' & I' & M & A); auto with datatypes. exists st'. split; [exact E'|]. split; [exact I'|]. split; [exact M|]. intros w [<-|Hw]; [|auto]. apply M, indexed_spec, E.
      + apply indexed_false in E. destruct (connect_ok (S n) [] v st I E) as (st1 & E1 & C); [auto with datatypes|intros x []|pose proof (white_max st); lia|].
        rewrite E1. cbn [bind]. destruct (IH st1) as (st' & E' & I' & M & A); [auto with datatypes|exact (c_inv _ _ _ _ C)|]. exists st'. split; [exact E'|]. split; [exact I'|]. split.
        * intros w Hw. apply M, (keeps_numbered _ _ (c_keeps _ _ _ _ C)), Hw.
        * intros w [<-|Hw]; [|auto]. apply M, (c_v _ _ _ _ C). }
  destruct (Go (seq 0 n) _ (fun v H => proj2 (proj1 (in_seq n 0 v) H)) inv_init) as (st & E & I & _ & A). exists st. split; [exact E|].
  assert (St : s_stack st = []).
  { destruct (s_stack st) as [|x l] eqn:Es; [reflexivity|]. destruct (i_up _ _ I x) as (y & [] & _). rewrite Es. left. reflexivity. }
  assert (D : forall v, v < n -> done st v) by (intros v Hv; split; [apply A, in_seq; lia|rewrite St; intros []]).
  split; [exact St|]. split.
  - intros v Hv. destruct (i_scc _ _ I v (D v Hv)) as (H & R1 & R2). split; [apply (i_bound _ _ I _ (proj1 H))|]. apply (i_same _ _ I); auto.
  - intros u v Hu Hv. split.
    + intros Eq. destruct (i_scc _ _ I u (D u Hu)) as (_ & U1 & U2). destruct (i_scc _ _ I v (D v Hv)) as (_ & V1 & V2). rewrite Eq in U1, U2.
      split; eapply reach_trans; eauto.
    + intros [R1 R2]. apply (i_same _ _ I); auto.
Qed.
End Tarjan.
