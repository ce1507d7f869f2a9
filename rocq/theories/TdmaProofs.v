(** Invariant of the TDMA schedule. *)
From Coq Require Import Permutation Sorting.Sorted ZifyBool ZifyNat.
From Verif Require Import Base Noc Tdma TdmaSpec.
Open Scope Z_scope.

Lemma vget_ok : forall (A : Type) (l : list A) i a, vget l i = Ok a <-> 0 <= i /\ nth_error l (Z.to_nat i) = Some a.
Proof.
  intros A l i a. unfold vget. destruct (Z.ltb_spec i 0).
  - split; [discriminate | intros [Q _]; lia].
  - destruct (nth_error l (Z.to_nat i)) eqn:E; split.
    + intro Q. injection Q as ->. auto.
    + intros [_ Q]. injection Q as ->. reflexivity.
    + discriminate.
    + intros [_ Q]. discriminate.
Qed.
Lemma replace_length : forall (A : Type) (l : list A) i a, length (replace l i a) = length l.
Proof. induction l as [|x l IH]; intros [|i] a; cbn; auto. Qed.
Lemma replace_nth : forall (A : Type) (l : list A) i j a,
  nth_error (replace l i a) j = if (i =? j)%nat then match nth_error l j with Some _ => Some a | None => None end else nth_error l j.
Proof.
  induction l as [|x l IH]; intros i j a.
  - destruct i, j; cbn; try reflexivity. destruct (i =? j)%nat; reflexivity.
  - destruct i as [|i], j as [|j]; cbn; try reflexivity. apply IH.
Qed.
Lemma vset_ok : forall (A : Type) (l l' : list A) i a, vset l i a = Ok l' ->
  (exists old, vget l i = Ok old) /\ length l' = length l /\
  (forall j, vget l' j = if i =? j then Ok a else vget l j).
Proof.
  intros A l l' i a H. unfold vset in H. destruct (vget l i) as [old| | |] eqn:E; try discriminate. cbn in H. injection H as <-.
  split; [eauto|]. split; [apply replace_length|]. intro j. apply vget_ok in E as [E1 E2].
  unfold vget. destruct (Z.ltb_spec j 0) as [|Hj].
  - destruct (Z.eqb_spec i j); [lia | reflexivity].
  - rewrite replace_nth. destruct (Z.eqb_spec i j) as [<-|N].
    + rewrite Nat.eqb_refl, E2. reflexivity.
    + destruct (Nat.eqb_spec (Z.to_nat i) (Z.to_nat j)); [lia | reflexivity].
Qed.
Lemma vset_defined : forall (A : Type) (l : list A) i a old, vget l i = Ok old -> exists l', vset l i a = Ok l'.
Proof. intros A l i a old H. unfold vset. rewrite H. cbn. eauto. Qed.
Lemma vget_range : forall (A : Type) (l : list A) i, 0 <= i < Z.of_nat (length l) -> exists a, vget l i = Ok a.
Proof.
  intros A l i H. unfold vget. destruct (Z.ltb_spec i 0); [lia|]. destruct (nth_error l (Z.to_nat i)) eqn:E; [eauto|].
  apply nth_error_None in E. lia.
Qed.
Lemma vget_in_range : forall (A : Type) (l : list A) i a, vget l i = Ok a -> 0 <= i < Z.of_nat (length l).
Proof.
  intros A l i a H. apply vget_ok in H as [H1 H2]. assert (Z.to_nat i < length l)%nat by (apply nth_error_Some; congruence). lia.
Qed.

(** * The heap *)
Definition eord (a b : entry) : Prop := e_cycle a < e_cycle b \/ (e_cycle a = e_cycle b /\ e_id a <= e_id b).
Lemma push_perm : forall e q, Permutation (push e q) (e :: q).
Proof.
  intros e q. induction q as [|x q IH]; cbn; [apply Permutation_refl|]. destruct (before x e); [|apply Permutation_refl].
  eapply perm_trans; [apply perm_skip, IH|]. apply perm_swap.
Qed.
Lemma push_in : forall e q x, In x (push e q) <-> x = e \/ In x q.
Proof.
  intros e q x. split; intro H.
  - apply (Permutation_in _ (push_perm e q)) in H. destruct H as [<-|H]; auto.
  - apply (Permutation_in _ (Permutation_sym (push_perm e q))). destruct H as [->|H]; [left|right]; auto.
Qed.
Lemma before_eord : forall a b, before a b = true -> eord a b.
Proof. intros a b. unfold before, eord. destruct (Z.eqb_spec (e_cycle a) (e_cycle b)); intro H; lia. Qed.
Lemma not_before_eord : forall a b, before a b = false -> eord b a.
Proof. intros a b. unfold before, eord. destruct (Z.eqb_spec (e_cycle a) (e_cycle b)); intro H; lia. Qed.
Lemma eord_trans : forall a b c, eord a b -> eord b c -> eord a c.
Proof. unfold eord. intros a b c. lia. Qed.
Lemma push_sorted : forall e q, StronglySorted eord q -> StronglySorted eord (push e q).
Proof.
  intros e q H. induction H as [|x q H IH F]; cbn.
  - constructor; constructor.
  - destruct (before x e) eqn:E.
    + constructor; [exact IH|]. apply Forall_forall. intros y Hy. apply push_in in Hy as [->|Hy].
      * apply before_eord, E.
      * rewrite Forall_forall in F. auto.
    + constructor; [constructor; assumption|]. apply not_before_eord in E. constructor; [exact E|].
      apply Forall_forall. intros y Hy. rewrite Forall_forall in F. apply (eord_trans _ x); auto.
Qed.

(** * The next slot *)
Lemma next_slot : forall c mine total, 0 < total -> 0 <= c -> 0 <= mine < total -> c mod total <> mine ->
  let adv := event_cycle (Z.rem c total) mine total in
  0 < adv <= total /\ (c + adv) mod total = mine /\ (forall t, c <= t < c + adv -> t mod total <> mine).
Proof.
  intros c mine total Ht Hc Hm Hn. cbn zeta. rewrite Z.rem_mod_nonneg by lia. unfold event_cycle.
  pose proof (Z.mod_pos_bound c total Ht) as B. pose proof (Z.div_mod c total ltac:(lia)) as D.
  set (r := c mod total) in *. set (k := c / total) in *.
  assert (U : forall t q m, t = total * q + m -> 0 <= m < total -> t mod total = m).
  { intros t q m -> Hq. symmetry. apply (Z.mod_unique _ _ q); [lia | reflexivity]. }
  destruct (Z.geb_spec mine r).
  - repeat split; try lia.
    + apply (U _ k); lia.
    + intros t Hb E. rewrite (U t k (t - total * k)) in E by lia. lia.
  - repeat split; try lia.
    + apply (U _ (k + 1)); lia.
    + intros t Hb E. destruct (Z_lt_le_dec t (total * (k + 1))).
      * rewrite (U t k (t - total * k)) in E by lia. lia.
      * rewrite (U t (k + 1) (t - total * (k + 1))) in E by lia. lia.
Qed.
Lemma same_slot : forall c t total, 0 < total -> c <= t < c + total -> t mod total = c mod total -> t = c.
Proof.
  intros c t total Ht B E. assert (D : (t - c) mod total = 0).
  { rewrite Zminus_mod, E, Z.sub_diag. reflexivity. }
  rewrite Z.mod_small in D by lia. lia.
Qed.

Section Inv.
Variables (rows cols total : Z) (packets : list packet) (table : list Z) (k : Z).
Hypothesis Hrows : 0 < rows.
Hypothesis Hcols : 0 < cols.
Hypothesis Htotal : 0 < total.
Hypothesis Hrouters : forall i p, vget packets i = Ok p -> 0 <= pk_src p < rows * cols /\ 0 <= pk_dest p < rows * cols.
Hypothesis Hdur : forall i p, vget packets i = Ok p -> 0 <= pk_duration p.
Hypothesis Hdeps : forall i p d, vget packets i = Ok p -> In d (pk_deps p) -> exists q, vget packets d = Ok q.
Hypothesis Hslots : forall i p, vget packets i = Ok p -> pk_src p <> pk_dest p ->
  exists v, vget table (table_index rows cols (pk_src p) (pk_dest p)) = Ok v /\ 0 <= v < total.
Hypothesis Htable : length table = Z.to_nat (rows * cols * (rows * cols)).
Hypothesis Hk : k = 1 \/ (k = 0 /\ forall i p d, vget packets i = Ok p -> In d (pk_deps p) -> d < i).

Let key (p : packet) : Z := table_index rows cols (pk_src p) (pk_dest p).

Lemma key_inj : forall i j p q, vget packets i = Ok p -> vget packets j = Ok q -> key p = key q -> pk_src p = pk_src q /\ pk_dest p = pk_dest q.
Proof.
  intros i j p q Hp Hq E. unfold key, table_index in E. destruct (Hrouters _ _ Hp), (Hrouters _ _ Hq).
  assert (pk_src p = pk_src q) by nia. split; [assumption | nia].
Qed.

Definition sent (s : tdma) (j : Z) (pr : profile) : Prop :=
  vget (t_profile s) j = Ok pr /\ vget (t_done s) j = Ok (pr_data pr) /\ 0 <= pr_data pr.
Definition arrived (s : tdma) (d t : Z) : Prop := exists v, vget (t_done s) d = Ok v /\ 0 <= v <= t.
Definition reached (s : tdma) (d t : Z) : Prop :=
  (exists c b, In (c, d, b) (t_queue s) /\ t <= c) \/ (exists v, vget (t_done s) d = Ok v /\ 0 <= v /\ t <= v).
Definition taken (s : tdma) (p : packet) (a c : Z) : Prop :=
  forall t, a <= t < c -> vget table (key p) = Ok (t mod total) ->
    exists j q pr, vget packets j = Ok q /\ pk_src q = pk_src p /\ pk_dest q = pk_dest p /\ sent s j pr /\ pr_slot pr = t.
Definition late (s : tdma) (p : packet) (c : Z) : Prop := c = 0 \/ exists d, In d (pk_deps p) /\ reached s d (c - k).

Definition started (s : tdma) (p : packet) (D : Z) : Prop :=
  0 <= D /\ (forall d, In d (pk_deps p) -> arrived s d D) /\ late s p D.
Definition entry_ok (s : tdma) (c j : Z) (b : bool) (p : packet) (pr : profile) : Prop :=
  0 <= c /\ pr_data pr = -1 /\
  if b then
    started s p (pr_deps pr) /\ pr_deps pr + pk_duration p <= c /\ taken s p (pr_deps pr + pk_duration p) c /\
    ((pr_comp pr = -1 /\ pr_slot pr = -1 /\ c = pr_deps pr + pk_duration p) \/
     (pr_comp pr = pr_deps pr + pk_duration p /\ pk_src p <> pk_dest p /\ pr_slot pr = c /\ vget table (key p) = Ok (c mod total)))
  else late s p c /\ pr_deps pr = -1 /\ pr_comp pr = -1 /\ pr_slot pr = -1.
Definition sent_ok (s : tdma) (p : packet) (pr : profile) : Prop :=
  started s p (pr_deps pr) /\ pr_comp pr = pr_deps pr + pk_duration p /\ pr_comp pr <= pr_slot pr /\
  (pk_src p = pk_dest p -> pr_slot pr = pr_comp pr /\ pr_data pr = pr_comp pr) /\
  (pk_src p <> pk_dest p ->
     vget table (key p) = Ok (pr_slot pr mod total) /\ taken s p (pr_comp pr) (pr_slot pr) /\
     (exists dist, get_distance (pk_src p) (pk_dest p) rows cols = Ok dist /\ pr_data pr = pr_slot pr + dist) /\
     (exists L, vget (t_lock s) (key p) = Ok L /\ pr_slot pr <= L)).

Record inv (s : tdma) : Prop := {
  i_len_done : length (t_done s) = length packets;
  i_len_prof : length (t_profile s) = length packets;
  i_len_lock : length (t_lock s) = length table;
  i_sorted : StronglySorted eord (t_queue s);
  i_nodup : NoDup (map e_id (t_queue s));
  i_entries : forall c j b, In (c, j, b) (t_queue s) -> exists p pr, vget packets j = Ok p /\ vget (t_profile s) j = Ok pr /\ vget (t_done s) j = Ok (-1) /\ entry_ok s c j b p pr;
  i_all : forall j p, vget packets j = Ok p -> (exists c b, In (c, j, b) (t_queue s)) \/ (exists pr, sent s j pr);
  i_sent : forall j p pr, vget packets j = Ok p -> sent s j pr -> sent_ok s p pr;
  i_locks : forall i p L, vget packets i = Ok p -> pk_src p <> pk_dest p -> vget (t_lock s) (key p) = Ok L ->
    (forall e, In e (t_queue s) -> L <= e_cycle e) /\
    (L = -1 \/ exists j q pr, vget packets j = Ok q /\ pk_src q = pk_src p /\ pk_dest q = pk_dest p /\ sent s j pr /\ pr_slot pr = L);
  i_unique : forall i j p q pri prj, vget packets i = Ok p -> vget packets j = Ok q -> sent s i pri -> sent s j prj -> i <> j ->
    pk_src p <> pk_dest p -> pk_src p = pk_src q -> pk_dest p = pk_dest q -> pr_slot pri <> pr_slot prj }.

(** What a turn keeps. *)
Record mono (s s' : tdma) : Prop := {
  m_sent : forall j pr, sent s j pr -> sent s' j pr;
  m_arrived : forall d t, arrived s d t -> arrived s' d t;
  m_reached : forall d t, reached s d t -> reached s' d t }.
Lemma mono_taken : forall s s' p a c, mono s s' -> taken s p a c -> taken s' p a c.
Proof.
  intros s s' p a c M H t Ht E. destruct (H t Ht E) as (j & q & pr & H1 & H2 & H3 & H4 & H5).
  exists j, q, pr. repeat split; auto; apply (m_sent _ _ M) in H4; apply H4.
Qed.
Lemma mono_late : forall s s' p c, mono s s' -> late s p c -> late s' p c.
Proof. intros s s' p c M [->|(d & H1 & H2)]; [left; reflexivity | right; exists d; split; [assumption | apply (m_reached _ _ M), H2]]. Qed.
Lemma mono_started : forall s s' p c, mono s s' -> started s p c -> started s' p c.
Proof.
  intros s s' p c M (H1 & H2 & H3). split; [assumption|]. split; [intros d Hd; apply (m_arrived _ _ M), H2, Hd | apply (mono_late s); assumption].
Qed.
Lemma mono_entry : forall s s' c j b p pr, mono s s' -> entry_ok s c j b p pr -> entry_ok s' c j b p pr.
Proof.
  intros s s' c j b p pr M (H1 & H2 & H3). split; [assumption|]. split; [assumption|]. destruct b.
  - destruct H3 as (A & B & C & D). split; [apply (mono_started s); assumption|]. split; [assumption|]. split; [apply (mono_taken s); assumption | assumption].
  - destruct H3 as (A & B). split; [apply (mono_late s); assumption | assumption].
Qed.

(** The entry is put back, later. *)
Lemma requeue : forall c i b q done lock prof prof' err err' c' b' p pr',
  inv (mkTdma ((c, i, b) :: q) done lock prof err) -> vget packets i = Ok p -> c <= c' ->
  vset prof i pr' = Ok prof' ->
  (forall s', mono (mkTdma ((c, i, b) :: q) done lock prof err) s' -> In (c', i, b') (t_queue s') -> t_done s' = done -> entry_ok s' c' i b' p pr') ->
  inv (mkTdma (push (c', i, b') q) done lock prof' err').
Proof.
  intros c i b q done lock prof prof' err err' c' b' p pr' I Hp Hc Hset HE.
  set (s := mkTdma ((c, i, b) :: q) done lock prof err) in *. set (s' := mkTdma (push (c', i, b') q) done lock prof' err').
  apply vset_ok in Hset as (_ & Hlen & Hget).
  destruct (i_entries s I c i b (or_introl eq_refl)) as (p0 & pr0 & Hp0 & Hpr0 & Hd0 & _). cbn in Hd0.
  pose proof (i_sorted s I) as S0. cbn in S0. inversion S0 as [|? ? S1 S2]; subst.
  pose proof (i_nodup s I) as N0. cbn in N0. change (e_id (c, i, b)) with i in N0. inversion N0 as [|? ? N1 N2]; subst.
  assert (Hne : forall j pr, sent s j pr -> i <> j).
  { intros j pr (A & B & C) E. subst j. cbn in B. rewrite Hd0 in B. injection B as B. lia. }
  assert (M : mono s s').
  { constructor.
    - intros j pr Hs. pose proof (Hne _ _ Hs) as Hn. destruct Hs as (A & B & C). split; [|split; assumption]. cbn. rewrite Hget.
      destruct (Z.eqb_spec i j); [contradiction | exact A].
    - intros d t H. exact H.
    - intros d t [(x & y & [E|Hin] & Hle) | H]; [| |right; exact H]; left.
      + injection E as <- <- <-. exists c', b'. split; [apply push_in; left; reflexivity | lia].
      + exists x, y. split; [apply push_in; right; assumption | assumption]. }
  assert (Mb : forall j pr, sent s' j pr -> sent s j pr).
  { intros j pr (A & B & C). cbn in A, B. rewrite Hget in A. destruct (Z.eqb_spec i j) as [<-|]; [|split; [exact A | split; assumption]].
    rewrite Hd0 in B. injection B as B. lia. }
  constructor.
  - apply (i_len_done s I).
  - cbn. rewrite Hlen. apply (i_len_prof s I).
  - apply (i_len_lock s I).
  - cbn. apply push_sorted, S1.
  - cbn. apply (Permutation_NoDup (l := i :: map e_id q)); [|exact N0].
    change (Permutation (map e_id ((c', i, b') :: q)) (map e_id (push (c', i, b') q))). apply Permutation_map, Permutation_sym, push_perm.
  - intros c1 j b1 Hin. cbn in Hin. apply push_in in Hin as [E|Hin].
    + injection E as -> -> ->. exists p, pr'. split; [assumption|]. split; [cbn; rewrite Hget, Z.eqb_refl; reflexivity|]. split; [exact Hd0|].
      apply HE; [exact M | cbn; apply push_in; left; reflexivity | reflexivity].
    + destruct (i_entries s I c1 j b1 (or_intror Hin)) as (p1 & pr1 & A & B & C & D). exists p1, pr1. split; [assumption|].
      split; [|split; [exact C | apply (mono_entry s); assumption]]. cbn. rewrite Hget.
      destruct (Z.eqb_spec i j) as [<-|]; [|exact B]. destruct N1. apply (in_map e_id) in Hin. exact Hin.
  - intros j pj Hj. destruct (i_all s I j pj Hj) as [(x & y & Hin)|(pr & Hs)].
    + left. destruct Hin as [E|Hin]; [injection E as <- <- <-; exists c', b'; cbn; apply push_in; left; reflexivity|].
      exists x, y. cbn. apply push_in. right. assumption.
    + right. exists pr. apply (m_sent _ _ M), Hs.
  - intros j pj pr Hj Hs. destruct (i_sent s I j pj pr Hj (Mb _ _ Hs)) as (A & B & C & D & E).
    split; [apply (mono_started s); assumption|]. split; [assumption|]. split; [assumption|]. split; [assumption|].
    intro Hn. destruct (E Hn) as (E1 & E2 & E3 & E4). split; [assumption|]. split; [apply (mono_taken s); assumption|]. split; assumption.
  - intros j pj L Hj Hn HL. destruct (i_locks s I j pj L Hj Hn HL) as [A B]. split.
    + intros e He. cbn in He. apply push_in in He as [->|He]; [|apply A; right; exact He].
      pose proof (A _ (or_introl eq_refl)). cbn in *. unfold e_cycle in *. cbn in *. lia.
    + destruct B as [B|(j' & q' & pr & B1 & B2 & B3 & B4 & B5)]; [left; exact B | right].
      exists j', q', pr. repeat split; auto; apply (m_sent _ _ M) in B4; apply B4.
  - intros a b0 pa pb pra prb Ha Hb Hsa Hsb. apply (i_unique s I a b0 pa pb pra prb Ha Hb (Mb _ _ Hsa) (Mb _ _ Hsb)).
Qed.

(** The packet leaves. *)
Lemma finish : forall c i b q done done' lock lock' prof prof' err p pr',
  inv (mkTdma ((c, i, b) :: q) done lock prof err) -> vget packets i = Ok p ->
  c <= pr_data pr' -> vset done i (pr_data pr') = Ok done' -> vset prof i pr' = Ok prof' ->
  (forall s', mono (mkTdma ((c, i, b) :: q) done lock prof err) s' -> t_lock s' = lock' -> sent_ok s' p pr') ->
  (pk_src p = pk_dest p -> lock' = lock) ->
  (pk_src p <> pk_dest p -> pr_slot pr' = c /\ vset lock (key p) c = Ok lock' /\ vget lock (key p) <> Ok c) ->
  inv (mkTdma q done' lock' prof' err).
Proof.
  intros c i b q done done' lock lock' prof prof' err p pr' I Hp Hc Hdone Hset HE Hl1 Hl2.
  set (s := mkTdma ((c, i, b) :: q) done lock prof err) in *. set (s' := mkTdma q done' lock' prof' err).
  apply vset_ok in Hset as (_ & Hlen & Hget). apply vset_ok in Hdone as (_ & Hlend & Hgetd).
  destruct (i_entries s I c i b (or_introl eq_refl)) as (p0 & pr0 & Hp0 & Hpr0 & Hd0 & (Hc0 & _)). cbn in Hd0.
  pose proof (i_sorted s I) as S0. cbn in S0. inversion S0 as [|? ? S1 S2]; subst.
  pose proof (i_nodup s I) as N0. cbn in N0. change (e_id (c, i, b)) with i in N0. inversion N0 as [|? ? N1 N2]; subst.
  assert (Hni : forall c1 j b1, In (c1, j, b1) q -> i <> j).
  { intros c1 j b1 Hin E. subst j. apply N1. apply (in_map e_id) in Hin. exact Hin. }
  assert (Hne : forall j pr, sent s j pr -> i <> j).
  { intros j pr (A & B & C) E. subst j. cbn in B. rewrite Hd0 in B. injection B as B. lia. }
  assert (M : mono s s').
  { constructor.
    - intros j pr Hs. pose proof (Hne _ _ Hs) as Hn. destruct Hs as (A & B & C). unfold sent. cbn. rewrite Hget, Hgetd.
      destruct (Z.eqb_spec i j); [contradiction | auto].
    - intros d t (v & A & B). exists v. split; [|exact B]. cbn in *. rewrite Hgetd. destruct (Z.eqb_spec i d) as [<-|]; [|exact A].
      rewrite Hd0 in A. injection A as <-. lia.
    - intros d t [(x & y & [E|Hin] & Hle) | (v & A & B)].
      + injection E as <- <- <-. right. exists (pr_data pr'). cbn. rewrite Hgetd, Z.eqb_refl. split; [reflexivity | lia].
      + left. exists x, y. split; assumption.
      + right. exists v. split; [|exact B]. cbn in *. rewrite Hgetd. destruct (Z.eqb_spec i d) as [<-|]; [|exact A].
        rewrite Hd0 in A. injection A as <-. lia. }
  assert (Hi : sent s' i pr').
  { unfold sent. cbn. rewrite Hget, Hgetd, Z.eqb_refl. split; [reflexivity|]. split; [reflexivity | lia]. }
  assert (Mb : forall j pr, sent s' j pr -> (j = i /\ pr = pr') \/ sent s j pr).
  { intros j pr (A & B & C). cbn in A, B. rewrite Hget in A. rewrite Hgetd in B. destruct (Z.eqb_spec i j) as [<-|].
    - left. injection A as <-. auto.
    - right. split; [exact A | split; assumption]. }
  assert (HL : forall j pj L, vget packets j = Ok pj -> pk_src pj <> pk_dest pj -> vget lock (key pj) = Ok L ->
     exists L', vget lock' (key pj) = Ok L' /\ L <= L').
  { intros j pj L Hj Hn E. destruct (Z.eq_dec (pk_src p) (pk_dest p)) as [El|Nl].
    - rewrite (Hl1 El). exists L. split; [exact E | lia].
    - destruct (Hl2 Nl) as (_ & V & _). apply vset_ok in V as (_ & _ & V). rewrite V. destruct (Z.eqb_spec (key p) (key pj)) as [Ek|].
      + exists c. split; [reflexivity|]. destruct (i_locks s I j pj L Hj Hn E) as [A _]. apply (A _ (or_introl eq_refl)).
      + exists L. split; [exact E | lia]. }
  assert (Hnew : forall j pj pr, vget packets j = Ok pj -> sent s j pr -> pk_src p <> pk_dest p -> pk_src p = pk_src pj -> pk_dest p = pk_dest pj -> pr_slot pr < c).
  { intros j pj pr Hj Hs Hn E1 E2. destruct (i_sent s I j pj pr Hj Hs) as (_ & _ & _ & _ & E). destruct E as (_ & _ & _ & L & EL & Hle); [congruence|].
    destruct (i_locks s I j pj L Hj ltac:(congruence) EL) as [A _]. pose proof (A _ (or_introl eq_refl)) as A'. unfold e_cycle in A'. cbn in A'.
    destruct (Hl2 Hn) as (_ & _ & V). assert (key p = key pj) as Ek by (unfold key; congruence). cbn in EL. rewrite <- Ek in EL.
    assert (L <> c) by (intro; subst L; auto). lia. }
  constructor.
  - cbn. rewrite Hlend. apply (i_len_done s I).
  - cbn. rewrite Hlen. apply (i_len_prof s I).
  - cbn. destruct (Z.eq_dec (pk_src p) (pk_dest p)) as [El|Nl].
    + rewrite (Hl1 El). apply (i_len_lock s I).
    + destruct (Hl2 Nl) as (_ & V & _). apply vset_ok in V as (_ & V & _). rewrite V. apply (i_len_lock s I).
  - exact S1.
  - exact N2.
  - intros c1 j b1 Hin. destruct (i_entries s I c1 j b1 (or_intror Hin)) as (p1 & pr1 & A & B & C & D). exists p1, pr1. split; [assumption|].
    pose proof (Hni _ _ _ Hin) as Hn. cbn. rewrite Hget, Hgetd. destruct (Z.eqb_spec i j); [contradiction|].
    split; [exact B|]. split; [exact C | apply (mono_entry s); assumption].
  - intros j pj Hj. destruct (i_all s I j pj Hj) as [(x & y & Hin)|(pr & Hs)].
    + destruct Hin as [E|Hin]; [injection E as <- <- <-; right; exists pr'; exact Hi|]. left. exists x, y. exact Hin.
    + right. exists pr. apply (m_sent _ _ M), Hs.
  - intros j pj pr Hj Hs. apply Mb in Hs as [[-> ->]|Hs].
    + assert (pj = p) as -> by congruence. apply HE; [exact M | reflexivity].
    + destruct (i_sent s I j pj pr Hj Hs) as (A & B & C & D & E).
      split; [apply (mono_started s); assumption|]. split; [assumption|]. split; [assumption|]. split; [assumption|].
      intro Hn. destruct (E Hn) as (E1 & E2 & E3 & L & E4 & E5). split; [assumption|]. split; [apply (mono_taken s); assumption|]. split; [assumption|].
      destruct (HL j pj L Hj Hn E4) as (L' & A' & B'). exists L'. split; [exact A' | lia].
  - intros j pj L Hj Hn E. cbn in E.
    assert (Old : vget lock (key pj) = Ok L -> (forall e, In e q -> L <= e_cycle e) /\
      (L = -1 \/ exists j0 q0 pr, vget packets j0 = Ok q0 /\ pk_src q0 = pk_src pj /\ pk_dest q0 = pk_dest pj /\ sent s' j0 pr /\ pr_slot pr = L)).
    { intro E'. destruct (i_locks s I j pj L Hj Hn E') as [A B]. split; [intros e He; apply A; right; exact He|].
      destruct B as [B|(j' & q' & pr & B1 & B2 & B3 & B4 & B5)]; [left; exact B | right].
      exists j', q', pr. repeat split; auto; apply (m_sent _ _ M) in B4; apply B4. }
    destruct (Z.eq_dec (pk_src p) (pk_dest p)) as [El|Nl]; [rewrite (Hl1 El) in E; apply Old, E|].
    destruct (Hl2 Nl) as (V1 & V & _). apply vset_ok in V as (_ & _ & V). rewrite V in E. destruct (Z.eqb_spec (key p) (key pj)) as [Ek|]; [|apply Old, E].
    injection E as <-. destruct (key_inj i j p pj Hp Hj Ek) as [K1 K2]. split.
    + intros e He. rewrite Forall_forall in S2. specialize (S2 e He). unfold eord, e_cycle in *. cbn in *. lia.
    + right. exists i, p, pr'. repeat split; auto; apply Hi.
  - intros a b0 pa pb pra prb Ha Hb Hsa Hsb Hab Hn E1 E2. apply Mb in Hsa as [[-> ->]|Hsa]; apply Mb in Hsb as [[-> ->]|Hsb].
    + congruence.
    + assert (pa = p) as -> by congruence. destruct (Hl2 Hn) as (V1 & _ & _). pose proof (Hnew b0 pb prb Hb Hsb Hn E1 E2). lia.
    + assert (pb = p) as -> by congruence. assert (pk_src p <> pk_dest p) as Hn' by congruence. destruct (Hl2 Hn') as (V1 & _ & _).
      pose proof (Hnew a pa pra Ha Hsa Hn' (eq_sym E1) (eq_sym E2)). lia.
    + apply (i_unique s I a b0 pa pb pra prb Ha Hb Hsa Hsb Hab Hn E1 E2).
Qed.

(** isDepsDone. *)
Lemma deps_done_true : forall s deps c, deps_done deps (t_done s) c = Ok true ->
  (forall d, In d deps -> exists v, vget (t_done s) d = Ok v /\ v <> -1 /\ v <= c).
Proof.
  intros s deps c. induction deps as [|d ds IH]; intros H x Hx; [destruct Hx|]. cbn [deps_done] in H.
  destruct (vget (t_done s) d) as [v| | |] eqn:E; try discriminate. cbn [bind] in H.
  destruct (Z.eqb_spec v (-1)); [discriminate|]. destruct (Z.gtb_spec v c); [discriminate|].
  destruct Hx as [<-|Hx]; [exists v; split; [exact E | lia] | apply IH; assumption].
Qed.
Lemma deps_done_false : forall s deps c, deps_done deps (t_done s) c = Ok false ->
  exists d v, In d deps /\ vget (t_done s) d = Ok v /\ (v = -1 \/ c < v).
Proof.
  intros s deps c. induction deps as [|d ds IH]; intros H; [discriminate|]. cbn [deps_done] in H.
  destruct (vget (t_done s) d) as [v| | |] eqn:E; try discriminate. cbn [bind] in H.
  destruct (Z.eqb_spec v (-1)); [exists d, v; split; [left; reflexivity | auto]|].
  destruct (Z.gtb_spec v c); [exists d, v; split; [left; reflexivity | auto with zarith]|].
  destruct (IH H) as (d' & v' & A & B). exists d', v'. split; [right; exact A | exact B].
Qed.
Lemma deps_done_defined : forall s deps c, (forall d, In d deps -> exists v, vget (t_done s) d = Ok v) -> exists b, deps_done deps (t_done s) c = Ok b.
Proof.
  intros s deps c. induction deps as [|d ds IH]; intros H; [exists true; reflexivity|]. cbn [deps_done].
  destruct (H d (or_introl eq_refl)) as (v & ->). cbn [bind]. destruct (v =? -1); [eauto|]. destruct (v >? c); [eauto|].
  apply IH. intros x Hx. apply H. right. exact Hx.
Qed.

(** A value of isPktDone is -1 exactly for the packets of the heap. *)
Lemma done_cases : forall s d v, inv s -> vget (t_done s) d = Ok v -> (v = -1 /\ exists c b, In (c, d, b) (t_queue s)) \/ 0 <= v.
Proof.
  intros s d v I H. assert (exists p, vget packets d = Ok p) as (p & Hp).
  { apply vget_range. apply vget_in_range in H. rewrite (i_len_done s I) in H. exact H. }
  destruct (i_all s I d p Hp) as [(c & b & Hin)|(pr & A & B & C)].
  - left. split; [|eauto]. destruct (i_entries s I c d b Hin) as (p' & pr & _ & _ & E & _). congruence.
  - right. congruence.
Qed.

Theorem handle_inv : forall e q done lock prof err s',
  inv (mkTdma (e :: q) done lock prof err) ->
  handle rows cols total packets table e (mkTdma q done lock prof err) = Ok s' -> inv s' /\ t_errors s' = err.
Proof.
  intros [[c i] b] q done lock prof err s' I H. pose proof I as I0. set (s := mkTdma ((c, i, b) :: q) done lock prof err) in *.
  destruct (i_entries s I c i b (or_introl eq_refl)) as (p & pr & Hp & Hpr & Hd & Hc & Hdata & HE). cbn in Hpr, Hd.
  assert (ST : forall x, vset prof i x = Ok (replace prof (Z.to_nat i) x)) by (intro x; unfold vset; rewrite Hpr; reflexivity).
  unfold handle in H. rewrite Hp in H. cbn [bind] in H. cbn [t_done t_queue t_lock t_profile t_errors] in H.
  destruct (deps_done (pk_deps p) done c) as [ready| | |] eqn:Er; try discriminate. cbn [bind] in H.
  destruct ready; cbn [negb] in H.
  2:{ injection H as <-. split; [|reflexivity]. assert (E : vset prof i pr = Ok prof).
      { unfold vset. rewrite Hpr. cbn. f_equal. apply vget_ok in Hpr as [_ Hpr]. clear -Hpr. revert prof Hpr.
        induction (Z.to_nat i) as [|n IH]; intros [|x l] Hpr; try discriminate; cbn in *; [congruence | rewrite IH; auto]. }
      destruct b.
      { exfalso. destruct HE as (H1 & H1' & _). destruct (deps_done_false s _ _ Er) as (d & v & Hin & Hv & Hcase).
        destruct H1 as (_ & A & _). destruct (A d Hin) as (v' & E1 & E2). cbn in *. rewrite Hv in E1. injection E1 as <-.
        pose proof (Hdur _ _ Hp). lia. }
      apply (requeue c i false q done lock prof prof err err (c + 1) false p pr I Hp ltac:(lia) E).
      intros s' M Hin Hdn. split; [lia|]. split; [exact Hdata|]. destruct HE as (H1 & H2). split; [|exact H2]. right.
      destruct (deps_done_false s _ _ Er) as (d & v & Hdin & Hv & Hcase). exists d. split; [exact Hdin|]. apply (m_reached _ _ M).
      destruct (done_cases s d v I Hv) as [(-> & c1 & b1 & Hq)|Hv0].
      - left. exists c1, b1. split; [exact Hq|]. pose proof (i_sorted s I) as S0. cbn in S0. inversion S0 as [|? ? S1 S2]; subst. rewrite Forall_forall in S2.
        destruct Hq as [Eq|Hq].
        + injection Eq as <- <- <-. destruct Hk as [->|(-> & Hord)]; [lia|]. specialize (Hord _ _ _ Hp Hdin). lia.
        + specialize (S2 _ Hq). unfold eord, e_cycle, e_id in S2. cbn in S2.
          destruct Hk as [->|(-> & Hord)]; [lia|]. specialize (Hord _ _ _ Hp Hdin). lia.
      - right. exists v. split; [exact Hv|]. split; [exact Hv0|]. destruct Hk as [->|(-> & _)]; lia. }
  pose proof (deps_done_true s (pk_deps p) c Er) as HD. rewrite Hpr in H. cbn [bind] in H.
  assert (HD' : forall d, In d (pk_deps p) -> arrived s d c).
  { intros d Hd'. destruct (HD d Hd') as (v & E1 & E2 & E3). exists v. split; [exact E1|]. destruct (done_cases s d v I E1) as [[-> _]|]; lia. }
  destruct b; cbn [negb] in H.
  2:{ rewrite ST in H. cbn [bind] in H. injection H as <-. split; [|reflexivity]. destruct HE as (H1 & H2 & H3 & H4).
      unfold first_time. rewrite H2, Z.eqb_refl.
      pose proof (Hdur _ _ Hp) as Hdu.
      apply (requeue c i false q done lock prof _ err err (c + pk_duration p) true p _ I Hp ltac:(lia) (ST _)).
      intros s' M Hin Hdn. split; [lia|]. cbn [pr_data pr_deps pr_comp pr_slot]. split; [exact Hdata|].
      split; [split; [exact Hc|]; split; [intros d Hd'; apply (m_arrived _ _ M), HD', Hd' | apply (mono_late s); assumption]|].
      split; [lia|]. split; [intros t Ht; lia|]. left. auto. }
  destruct HE as (HS & Hle & HT & Hcase). pose proof (Hdur _ _ Hp) as Hdu. pose proof HS as (HS0 & _).
  unfold cmod in H. destruct (Z.eqb_spec total 0); [lia|]. cbn [bind] in H.
  assert (Fd : first_time (pr_deps pr) c = pr_deps pr) by (unfold first_time; destruct (Z.eqb_spec (pr_deps pr) (-1)); lia).
  assert (Fc : first_time (pr_comp pr) c = pr_deps pr + pk_duration p).
  { unfold first_time. destruct (Z.eqb_spec (pr_comp pr) (-1)); lia. }
  rewrite Fd, Fc in H. clear Fd Fc.
  destruct (Z.eqb_spec (pk_src p) (pk_dest p)) as [El|Nl].
  { destruct (vset_defined _ done i c _ Hd) as (done' & Hset). rewrite Hset in H. cbn [bind] in H. rewrite ST in H. cbn [bind] in H. injection H as <-.
    split; [|reflexivity]. destruct Hcase as [(C1 & C2 & C3)|(_ & C2 & _)]; [|contradiction].
    apply (finish c i true q done done' lock lock prof _ err p (mkProfile (pr_deps pr) (pr_deps pr + pk_duration p) c c) I Hp).
    - cbn. lia.
    - exact Hset.
    - apply ST.
    - intros s' M _. split; [apply (mono_started s); [exact M | exact HS]|]. cbn. split; [reflexivity|]. split; [lia|]. split; [intros _; lia | contradiction].
    - reflexivity.
    - contradiction. }
  destruct (Hslots _ _ Hp Nl) as (v & Hv & Hvr). change (table_index rows cols (pk_src p) (pk_dest p)) with (key p) in *. rewrite Hv in H. cbn [bind] in H.
  rewrite Z.rem_mod_nonneg in H by lia.
  destruct (Z.eqb_spec (c mod total) v) as [Ev|Nv].
  - destruct (vget lock (key p)) as [L| | |] eqn:EL; try discriminate. cbn [bind] in H. destruct (Z.eqb_spec c L) as [<-|NL].
    + rewrite ST in H. cbn [bind] in H. injection H as <-. split; [|reflexivity].
      apply (requeue c i true q done lock prof _ err err (c + total) true p _ I Hp ltac:(lia) (ST _)).
      intros s' M Hin Hdn. split; [lia|]. cbn [pr_data pr_deps pr_comp pr_slot]. split; [exact Hdata|].
      split; [apply (mono_started s); [exact M | exact HS]|]. split; [lia|]. split.
      * intros t Ht E. destruct (Z_lt_le_dec t c); [apply (mono_taken s s' p _ c M HT); [lia | exact E]|].
        assert (t = c) as ->. { apply (same_slot c t total Htotal); [lia|]. rewrite Hv in E. injection E as E. congruence. }
        destruct (i_locks s I i p c Hp Nl EL) as [_ [B|(j & q' & prj & B1 & B2 & B3 & B4 & B5)]]; [lia|].
        exists j, q', prj. repeat split; auto; apply (m_sent _ _ M) in B4; apply B4.
      * right. repeat split; try assumption; try lia. rewrite Hv, <- Ev. f_equal. replace (c + total) with (c + 1 * total) by lia. rewrite Z.mod_add by lia. reflexivity.
    + destruct (vset_defined _ lock (key p) c _ EL) as (lock' & Hlock). rewrite Hlock in H. cbn [bind] in H.
      assert (exists dist, get_distance (pk_src p) (pk_dest p) rows cols = Ok dist /\ 0 < dist) as (dist & Edist & Hdist).
      { unfold get_distance. destruct (Z.eqb_spec rows 0); [lia|]. destruct (Z.eqb_spec cols 0); [lia|]. cbn [orb]. eexists. split; [reflexivity | lia]. }
      rewrite Edist in H. cbn [bind] in H.
      destruct (vset_defined _ done i (c + dist) _ Hd) as (done' & Hset). rewrite Hset in H. cbn [bind] in H. rewrite ST in H. cbn [bind] in H. injection H as <-.
      split; [|reflexivity].
      assert (Fs : first_time (pr_slot pr) c = c) by (unfold first_time; destruct (Z.eqb_spec (pr_slot pr) (-1)); lia). rewrite Fs. clear Fs.
      apply (finish c i true q done done' lock lock' prof _ err p (mkProfile (pr_deps pr) (pr_deps pr + pk_duration p) c (c + dist)) I Hp).
      * cbn. lia.
      * exact Hset.
      * apply ST.
      * intros s' M El. split; [apply (mono_started s); [exact M | exact HS]|]. cbn. split; [reflexivity|]. split; [lia|]. split; [intro; contradiction|].
        intros _. split; [rewrite Hv, <- Ev; reflexivity|]. split; [apply (mono_taken s); [exact M | exact HT]|]. split; [exists dist; auto|].
        exists c. rewrite El. apply vset_ok in Hlock as (_ & _ & V). rewrite V, Z.eqb_refl. split; [reflexivity | lia].
      * intro; contradiction.
      * intros _. split; [reflexivity|]. split; [exact Hlock|]. rewrite EL. intro E. injection E as E. congruence.
  - destruct Hcase as [(C1 & C2 & C3)|(C1 & C2 & C3 & C4)].
    2:{ rewrite Hv in C4. injection C4 as C4. congruence. }
    rewrite C2, Z.eqb_refl in H. rewrite ST in H. cbn [bind] in H. injection H as <-. split; [|reflexivity].
    pose proof (next_slot c v total Htotal Hc Hvr Nv) as NS. cbn zeta in NS. rewrite Z.rem_mod_nonneg in NS by lia. destruct NS as (N1 & N2 & N3).
    apply (requeue c i true q done lock prof _ err err (c + event_cycle (c mod total) v total) true p _ I Hp ltac:(lia) (ST _)).
    intros s' M Hin Hdn. split; [lia|]. cbn [pr_data pr_deps pr_comp pr_slot]. split; [exact Hdata|].
    split; [apply (mono_started s); [exact M | exact HS]|]. split; [lia|]. split.
    + intros t Ht E. destruct (Z_lt_le_dec t c); [lia|]. exfalso. apply (N3 t ltac:(lia)). rewrite Hv in E. congruence.
    + right. repeat split; try assumption. rewrite Hv, N2. reflexivity.
Qed.

Theorem run_inv : forall fuel s s', inv s -> run rows cols total packets table fuel s = Ok s' -> inv s' /\ t_queue s' = [] /\ t_errors s' = t_errors s.
Proof.
  induction fuel as [|f IH]; intros [q done lock prof err] s' I H; destruct q as [|e q]; cbn [run t_queue] in H; try discriminate.
  - injection H as <-. auto.
  - injection H as <-. auto.
  - cbn [t_done t_lock t_profile t_errors] in H. destruct (handle rows cols total packets table e (mkTdma q done lock prof err)) as [s1| | |] eqn:E; try discriminate.
    cbn [bind] in H. destruct (handle_inv _ _ _ _ _ _ _ I E) as [I1 E1]. destruct (IH _ _ I1 H) as (A & B & C). split; [exact A|]. split; [exact B|]. cbn. congruence.
Qed.

(** * The loop ends *)
Definition turn (i c : Z) (b : bool) (c' : Z) (b' : bool) (done lock : list Z) (p : packet) : Prop :=
  (b = false /\ b' = false /\ c' = c + 1 /\ exists d v, In d (pk_deps p) /\ vget done d = Ok v /\ (v = -1 \/ c < v)) \/
  (b = false /\ b' = true /\ c' = c + pk_duration p) \/
  (b = true /\ b' = true /\ pk_src p <> pk_dest p /\ vget table (key p) = Ok (c mod total) /\ vget lock (key p) = Ok c /\ c' = c + total) \/
  (b = true /\ b' = true /\ pk_src p <> pk_dest p /\ vget table (key p) <> Ok (c mod total) /\ vget table (key p) = Ok (c' mod total) /\ c < c' <= c + total).

Lemma handle_cases : forall c i b q done lock prof err p,
  inv (mkTdma ((c, i, b) :: q) done lock prof err) -> vget packets i = Ok p ->
  exists s', handle rows cols total packets table (c, i, b) (mkTdma q done lock prof err) = Ok s' /\
    (t_queue s' = q \/ exists c' b' prof', s' = mkTdma (push (c', i, b') q) done lock prof' err /\ turn i c b c' b' done lock p).
Proof.
  intros c i b q done lock prof err p I Hp. set (s := mkTdma ((c, i, b) :: q) done lock prof err) in *.
  destruct (i_entries s I c i b (or_introl eq_refl)) as (p0 & pr & Hp0 & Hpr & Hd & Hc & Hdata & HE). cbn in Hpr, Hd.
  assert (p0 = p) as -> by congruence. clear Hp0.
  assert (ST : forall x, vset prof i x = Ok (replace prof (Z.to_nat i) x)) by (intro x; unfold vset; rewrite Hpr; reflexivity).
  unfold handle. rewrite Hp. cbn [bind]. cbn [t_done t_queue t_lock t_profile t_errors].
  destruct (deps_done_defined s (pk_deps p) c) as (ready & Er).
  { intros d Hin. apply vget_range. cbn. destruct (Hdeps _ _ _ Hp Hin) as (q' & Hq'). apply vget_in_range in Hq'. pose proof (i_len_done s I) as L. cbn in L. lia. }
  cbn in Er. rewrite Er. cbn [bind]. destruct ready; cbn [negb].
  2:{ eexists. split; [reflexivity|]. right. exists (c + 1), b, prof. split; [reflexivity|].
      destruct (deps_done_false s _ _ Er) as (d & v & Hin & Hv & Hcase). destruct b.
      - exfalso. destruct HE as (H1 & H1' & _). destruct H1 as (_ & A & _). destruct (A d Hin) as (v' & E1 & E2). cbn in *. rewrite Hv in E1. injection E1 as <-.
        pose proof (Hdur _ _ Hp). lia.
      - left. repeat split; try reflexivity. exists d, v. auto. }
  rewrite Hpr. cbn [bind]. destruct b; cbn [negb].
  2:{ rewrite ST. cbn [bind]. eexists. split; [reflexivity|]. right. eexists _, true, _. split; [reflexivity|]. right. left. auto. }
  unfold cmod. destruct (Z.eqb_spec total 0); [lia|]. cbn [bind].
  destruct (Z.eqb_spec (pk_src p) (pk_dest p)) as [El|Nl].
  { destruct (vset_defined _ done i c _ Hd) as (done' & ->). cbn [bind]. rewrite ST. cbn [bind]. eexists. split; [reflexivity|]. left. reflexivity. }
  destruct (Hslots _ _ Hp Nl) as (v & Hv & Hvr). change (table_index rows cols (pk_src p) (pk_dest p)) with (key p) in *. rewrite Hv. cbn [bind].
  rewrite Z.rem_mod_nonneg by lia. destruct (Z.eqb_spec (c mod total) v) as [Ev|Nv].
  - destruct (vget_range _ lock (key p)) as (L & EL).
    { apply vget_in_range in Hv. pose proof (i_len_lock s I) as LL. cbn in LL. lia. }
    rewrite EL. cbn [bind]. destruct (Z.eqb_spec c L) as [<-|NL].
    + rewrite ST. cbn [bind]. eexists. split; [reflexivity|]. right. eexists _, true, _. split; [reflexivity|]. right. right. left.
      repeat split; auto. congruence.
    + destruct (vset_defined _ lock (key p) c _ EL) as (lock' & ->). cbn [bind].
      assert (exists dist, get_distance (pk_src p) (pk_dest p) rows cols = Ok dist) as (dist & ->).
      { unfold get_distance. destruct (Z.eqb_spec rows 0); [lia|]. destruct (Z.eqb_spec cols 0); [lia|]. cbn [orb]. eauto. }
      cbn [bind]. destruct (vset_defined _ done i (c + dist) _ Hd) as (done' & ->). cbn [bind]. rewrite ST. cbn [bind].
      eexists. split; [reflexivity|]. left. reflexivity.
  - destruct HE as (HS & Hle & HT & [(C1 & C2 & C3)|(C1 & C2 & C3 & C4)]).
    2:{ rewrite Hv in C4. injection C4 as C4. congruence. }
    rewrite C2, Z.eqb_refl, ST. cbn [bind]. eexists. split; [reflexivity|]. right. eexists _, true, _. split; [reflexivity|]. right. right. right.
    pose proof (next_slot c v total Htotal Hc Hvr Nv) as NS. cbn zeta in NS. rewrite Z.rem_mod_nonneg in NS by lia. destruct NS as (N1 & N2 & N3).
    repeat split; auto; try lia; congruence.
Qed.

Definition weight (B : Z) (e : entry) : nat := Z.to_nat (2 * (B - e_cycle e) + (if snd e then 0 else 1)).
Fixpoint weights (B : Z) (q : list entry) : nat := match q with [] => O | e :: q' => (weight B e + weights B q')%nat end.
Lemma weights_push : forall B e q, weights B (push e q) = (weight B e + weights B q)%nat.
Proof. intros B e q. induction q as [|x q IH]; cbn; [reflexivity|]. destruct (before x e); cbn; [rewrite IH; lia | reflexivity]. Qed.
Lemma push_length : forall e q, length (push e q) = S (length q).
Proof. intros e q. apply (Permutation_length (push_perm e q)). Qed.

Definition due (lock : list Z) (p : packet) (Mx P c : Z) (b : bool) : Prop :=
  if b then c <= P /\ (pk_src p <> pk_dest p -> vget table (key p) = Ok (c mod total) -> vget lock (key p) = Ok c -> c + total <= P) /\
            (pk_src p <> pk_dest p -> vget table (key p) <> Ok (c mod total) -> c + 2 * total <= P)
  else Z.max c Mx + pk_duration p + 2 * total <= P.

Definition ends (s : tdma) : Prop := exists fuel s', run rows cols total packets table fuel s = Ok s'.
Lemma ends_step : forall e q done lock prof err s1, handle rows cols total packets table e (mkTdma q done lock prof err) = Ok s1 -> ends s1 -> ends (mkTdma (e :: q) done lock prof err).
Proof. intros e q done lock prof err s1 H (f & s' & E). exists (S f), s'. cbn [run t_queue t_done t_lock t_profile t_errors]. rewrite H. exact E. Qed.

Lemma phase : forall i0 p0 Mx P B, vget packets i0 = Ok p0 ->
  (forall i p, vget packets i = Ok p -> P + pk_duration p + total + 1 <= B) ->
  forall n s, inv s -> (weights B (t_queue s) < n)%nat ->
  (forall e, In e (t_queue s) -> e_cycle e <= B) ->
  (forall d, In d (pk_deps p0) -> arrived s d Mx) ->
  (exists c0 b0, In (c0, i0, b0) (t_queue s) /\ due (t_lock s) p0 Mx P c0 b0) ->
  (forall s1, inv s1 -> (length (t_queue s1) < length (t_queue s))%nat -> ends s1) ->
  ends s.
Proof.
  intros i0 p0 Mx P B Hp0 HB. induction n as [|n IH]; intros s I Hn Hall Hdep (c0 & b0 & Hin0 & Hdue) Hshort; [lia|].
  destruct s as [q done lock prof err]. destruct q as [|[[c i] b] q]; [destruct Hin0|].
  destruct (i_entries _ I c i b (or_introl eq_refl)) as (p & pr & Hp & Hpr & Hd & Hc & _).
  destruct (handle_cases _ _ _ _ _ _ _ _ p I Hp) as (s' & Eh & Hcase). destruct (handle_inv _ _ _ _ _ _ _ I Eh) as [I' _].
  apply (ends_step _ _ _ _ _ _ s' Eh). destruct Hcase as [Hq|(c' & b' & prof' & -> & T)].
  { apply Hshort; [exact I'|]. rewrite Hq. cbn. lia. }
  cbn [t_queue t_lock t_done] in *. pose proof (Hdur _ _ Hp) as Hdu. specialize (HB _ _ Hp).
  assert (Hc0 : c0 <= P) by (destruct b0; unfold due in Hdue; [lia|]; pose proof (Hdur _ _ Hp0); lia).
  assert (Hcc : c <= c0).
  { pose proof (i_sorted _ I) as S0. cbn in S0. inversion S0 as [|? ? S1 S2]; subst. rewrite Forall_forall in S2.
    destruct Hin0 as [E|Hin0]; [injection E as <- <- <-; lia|]. specialize (S2 _ Hin0). unfold eord, e_cycle in S2. cbn in S2. lia. }
  assert (Hc' : c' <= B /\ (c < c' \/ (c <= c' /\ b = false /\ b' = true))).
  { destruct T as [(-> & -> & -> & _)|[(-> & -> & ->)|[(-> & -> & _ & _ & _ & ->)|(-> & -> & _ & _ & _ & T)]]]; lia. }
  apply IH.
  - exact I'.
  - cbn [t_queue]. rewrite weights_push. cbn [weights] in Hn. unfold weight, e_cycle in *. cbn [fst snd] in *. destruct b, b'; lia.
  - intros e He. cbn in He. apply push_in in He as [->|He]; [unfold e_cycle; cbn; lia | apply Hall; right; exact He].
  - intros d Hd'. apply (Hdep d Hd').
  - cbn [t_queue t_lock]. destruct Hin0 as [E|Hin0].
    2:{ exists c0, b0. split; [apply push_in; right; exact Hin0 | exact Hdue]. }
    injection E as -> -> ->. assert (p = p0) as -> by congruence. exists c', b'. split; [apply push_in; left; reflexivity|].
    destruct T as [(-> & -> & -> & d & v & Hd1 & Hv & Hcase)|[(-> & -> & ->)|[(-> & -> & Hns & Ht & Hl & ->)|(-> & -> & Hns & Hnt & Ht & T)]]]; unfold due in Hdue |- *.
    + destruct (Hdep d Hd1) as (v' & Hv' & Hr). cbn in Hv'. rewrite Hv in Hv'. injection Hv' as <-. lia.
    + repeat split; intros; lia.
    + destruct Hdue as (D1 & D2 & D3). specialize (D2 Hns Ht Hl). split; [lia|]. split.
      * intros _ _ E. rewrite Hl in E. injection E as E. lia.
      * intros _ E. exfalso. apply E. rewrite Ht. f_equal. replace (c0 + total) with (c0 + 1 * total) by lia. rewrite Z.mod_add by lia. reflexivity.
    + destruct Hdue as (D1 & D2 & D3). specialize (D3 Hns Hnt). split; [lia|]. split; [intros; lia | intros _ E; contradiction].
  - intros s1 I1 Hl. apply Hshort; [exact I1|]. cbn in Hl |- *. rewrite push_length in Hl. exact Hl.
Qed.

Lemma min_rank : forall (rank : Z -> nat) (q : list entry), q <> [] -> exists e, In e q /\ forall e', In e' q -> (rank (e_id e) <= rank (e_id e'))%nat.
Proof.
  intros rank q H. induction q as [|x q IH]; [congruence|]. destruct q as [|y q].
  - exists x. split; [left; reflexivity|]. intros e' [<-|[]]. lia.
  - destruct IH as (e & He & Hmin); [discriminate|]. destruct (le_lt_dec (rank (e_id x)) (rank (e_id e))).
    + exists x. split; [left; reflexivity|]. intros e' [<-|He']; [lia|]. specialize (Hmin e' He'). lia.
    + exists e. split; [right; exact He|]. intros e' [<-|He']; [lia|]. apply Hmin, He'.
Qed.
Lemma list_bound : forall (A : Type) (f : A -> Z) (l : list A), exists M, forall x, In x l -> f x <= M.
Proof.
  intros A f l. induction l as [|x l (M & H)]; [exists 0; intros x []|]. exists (Z.max (f x) M). intros y [<-|Hy]; [lia | specialize (H y Hy); lia].
Qed.
Lemma vget_In : forall (A : Type) (l : list A) i a, vget l i = Ok a -> In a l.
Proof. intros A l i a H. apply vget_ok in H as [_ H]. apply nth_error_In in H. exact H. Qed.

Theorem loop_ends : forall (rank : Z -> nat), (forall i p d, vget packets i = Ok p -> In d (pk_deps p) -> (rank d < rank i)%nat) ->
  forall n s, inv s -> (length (t_queue s) < n)%nat -> ends s.
Proof.
  intros rank HR. induction n as [|n IH]; intros s I Hn; [lia|].
  destruct (t_queue s) as [|e0 q0] eqn:Eq; [exists O, s; cbn; rewrite Eq; reflexivity|].
  destruct (min_rank rank (t_queue s)) as ([[c0 i0] b0] & Hin & Hmin); [congruence|].
  destruct (i_entries s I _ _ _ Hin) as (p0 & pr0 & Hp0 & _).
  destruct (list_bound _ (fun v => v) (t_done s)) as (Mx & HMx).
  assert (Harr : forall d, In d (pk_deps p0) -> arrived s d Mx).
  { intros d Hd. destruct (Hdeps _ _ _ Hp0 Hd) as (q & Hq). destruct (i_all s I d q Hq) as [(c & b & Hc)|(pr & A & B & C)].
    - specialize (Hmin _ Hc). specialize (HR _ _ _ Hp0 Hd). unfold e_id in Hmin. cbn in Hmin. lia.
    - exists (pr_data pr). split; [exact B|]. split; [exact C|]. apply HMx. apply vget_In in B. exact B. }
  destruct (list_bound _ pk_duration packets) as (D & HD). destruct (list_bound _ e_cycle (t_queue s)) as (C & HC).
  pose proof (Hdur _ _ Hp0) as Hdu. set (P := Z.max c0 Mx + pk_duration p0 + 2 * total).
  apply (phase i0 p0 Mx P (Z.max C (P + D + total + 1)) Hp0) with (n := S (weights (Z.max C (P + D + total + 1)) (t_queue s))).
  - intros i p Hp. apply vget_In in Hp. specialize (HD p Hp). lia.
  - exact I.
  - lia.
  - intros e He. specialize (HC e He). lia.
  - exact Harr.
  - exists c0, b0. split; [exact Hin|]. unfold due, P. destruct b0; [|lia]. repeat split; intros; lia.
  - intros s1 I1 Hl. apply (IH s1 I1). rewrite Eq in Hl. cbn in Hl, Hn. lia.
Qed.
End Inv.

(** * The start *)
Lemma nth_error_repeat' : forall (A : Type) (a : A) n i, (i < n)%nat -> nth_error (repeat a n) i = Some a.
Proof. intros A a n. induction n as [|n IH]; intros [|i] H; cbn; try lia; [reflexivity | apply IH; lia]. Qed.
Lemma vget_repeat : forall (A : Type) (a : A) n i, 0 <= i < Z.of_nat n -> vget (repeat a n) i = Ok a.
Proof. intros A a n i H. apply vget_ok. split; [lia|]. apply nth_error_repeat'. lia. Qed.
Lemma vget_repeat_inv : forall (A : Type) (a b : A) n i, vget (repeat a n) i = Ok b -> b = a.
Proof. intros A a b n i H. apply vget_ok in H as [_ H]. apply nth_error_In in H. apply repeat_spec in H. exact H. Qed.

Lemma start_queue : forall n c i b, In (c, i, b) (map (fun i => (0, Z.of_nat i, false)) (seq 0 n)) <-> c = 0 /\ b = false /\ 0 <= i < Z.of_nat n.
Proof.
  intros n c i b. rewrite in_map_iff. split.
  - intros (x & E & H). injection E as <- <- <-. apply in_seq in H. lia.
  - intros (-> & -> & H). exists (Z.to_nat i). split; [f_equal; f_equal; lia|]. apply in_seq. lia.
Qed.
Lemma start_inv : forall rows cols total packets table k, length table = Z.to_nat (rows * cols * (rows * cols)) ->
  inv rows cols total packets table k (tdma_start rows cols packets).
Proof.
  intros rows cols total packets table k HT.
  assert (NS : forall j pr, ~ sent (tdma_start rows cols packets) j pr).
  { intros j pr (A & B & C). cbn in B. apply vget_repeat_inv in B. lia. }
  constructor.
  - apply repeat_length.
  - apply repeat_length.
  - cbn. unfold no_slots. rewrite repeat_length. congruence.
  - cbn. generalize 0%nat. induction (length packets) as [|n IH]; intro a; cbn; constructor; [apply IH|]. apply Forall_forall.
    intros e He. apply in_map_iff in He as (x & <- & Hx). apply in_seq in Hx. right. unfold e_cycle, e_id. cbn. lia.
  - cbn. rewrite map_map. unfold e_id. cbn. apply FinFun.Injective_map_NoDup; [intros a b; lia | apply seq_NoDup].
  - intros c j b H. cbn in H. apply start_queue in H as (-> & -> & H). destruct (vget_range _ packets j H) as (p & Hp).
    exists p, (mkProfile (-1) (-1) (-1) (-1)). split; [exact Hp|]. cbn. split; [apply vget_repeat, H|]. split; [apply vget_repeat, H|].
    split; [lia|]. split; [reflexivity|]. split; [left; reflexivity | auto].
  - intros j p Hp. left. exists 0, false. cbn. apply start_queue. apply vget_in_range in Hp. auto.
  - intros j p pr _ H. destruct (NS _ _ H).
  - intros i p L _ _ H. cbn in H. apply vget_repeat_inv in H. subst L. split; [|left; reflexivity].
    intros [[c j] b] He. cbn in He. apply start_queue in He as (-> & _). unfold e_cycle. cbn. lia.
  - intros i j p q pri prj _ _ H. destruct (NS _ _ H).
Qed.

(** The slots read from the file. *)
Lemma fill_lookup : forall rows cols lines t table, (forall s d v, In (s, d, v) lines -> 0 <= s < rows * cols /\ 0 <= d < rows * cols) ->
  fill_table rows cols lines t = Ok table -> length table = length t /\
  forall s d acc, 0 <= s < rows * cols -> 0 <= d < rows * cols ->
    vget t (table_index rows cols s d) = Ok (match acc with Some v => v | None => -1 end) ->
    vget table (table_index rows cols s d) = Ok (match fold_left (fun acc l => let '(s', d', v) := l in if (s' =? s) && (d' =? d) then Some v else acc) lines acc with Some v => v | None => -1 end).
Proof.
  intros rows cols lines. induction lines as [|[[s0 d0] v0] ls IH]; intros t table HR H; cbn [fill_table] in H.
  - injection H as <-. split; [reflexivity|]. intros s d acc _ _ E. exact E.
  - destruct (vset t (table_index rows cols s0 d0) v0) as [t1| | |] eqn:E1; try discriminate. cbn [bind] in H. apply vset_ok in E1 as (_ & L & G).
    destruct (IH t1 table (fun s d v Hin => HR s d v (or_intror Hin)) H) as [L1 IH1]. split; [congruence|]. intros s d acc Hs Hd E. cbn [fold_left].
    apply IH1; [assumption|assumption|]. rewrite G. destruct (HR s0 d0 v0 (or_introl eq_refl)) as [R1 R2].
    destruct (Z.eqb_spec (table_index rows cols s0 d0) (table_index rows cols s d)) as [Ek|Nk].
    + unfold table_index in Ek. assert (s0 = s) by nia. assert (d0 = d) by nia. subst. rewrite !Z.eqb_refl. reflexivity.
    + destruct (Z.eqb_spec s0 s); [destruct (Z.eqb_spec d0 d); [subst; congruence|]|]; exact E.
Qed.
Lemma fill_defined : forall rows cols lines t, (forall s d v, In (s, d, v) lines -> 0 <= s < rows * cols /\ 0 <= d < rows * cols) ->
  length t = Z.to_nat (rows * cols * (rows * cols)) -> exists table, fill_table rows cols lines t = Ok table.
Proof.
  intros rows cols lines. induction lines as [|[[s0 d0] v0] ls IH]; intros t HR L; cbn [fill_table]; [eauto|].
  destruct (HR s0 d0 v0 (or_introl eq_refl)) as [R1 R2]. destruct (vget_range _ t (table_index rows cols s0 d0)) as (old & E).
  { unfold table_index. rewrite L. nia. }
  destruct (vset_defined _ t _ v0 _ E) as (t1 & E1). rewrite E1. cbn [bind]. apply IH; [intros; eapply HR; right; eassumption|].
  apply vset_ok in E1 as (_ & -> & _). exact L.
Qed.
Lemma no_slots_lookup : forall rows cols s d, 0 <= s < rows * cols -> 0 <= d < rows * cols -> vget (no_slots rows cols) (table_index rows cols s d) = Ok (-1).
Proof. intros rows cols s d Hs Hd. apply vget_repeat. unfold table_index. nia. Qed.
