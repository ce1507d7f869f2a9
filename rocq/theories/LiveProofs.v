(** A graph can run for ever exactly when one iteration can be executed. *)
From Coq Require Import QArith Qround Lqa.
From Verif Require Import Base Graph KPeriodic ScheduleSpec ScheduleCore KIterSpec KPeriodicProofs MergeCore RepVec RepVecSpec RepVecProofs SimSpec SymbExec SymbExecSpec SymbExecProofs SymbExecEnd.
Open Scope Z_scope.

Lemma moved_below (at_ : nat -> Q) rate n k t : (forall m, 0 <= rate m) -> (forall m, (k <= m)%nat -> (t < at_ m)%Q) -> moved_by at_ rate n t <= sumf rate k.
Proof. intros P H. apply moved_prefix_le; [exact P|]. intros m [Hm _]. apply Qlt_not_le. apply H. exact Hm. Qed.

(** ** A smallest element *)
Lemma argmin (n : nat) (P : nat -> Prop) (f : nat -> Q) : (forall i, P i \/ ~ P i) -> (exists i, (i < n)%nat /\ P i) ->
  exists i, (i < n)%nat /\ P i /\ forall j, (j < n)%nat -> P j -> (f i <= f j)%Q.
Proof.
  intros Dec. induction n as [|n IH]; intros (i & Hi & Pi); [lia|].
  destruct (Dec n) as [Pn|Pn].
  - assert (D : (exists i, (i < n)%nat /\ P i) \/ ~ exists i, (i < n)%nat /\ P i).
    { clear - Dec. induction n as [|n IH]; [right; intros (i & Hi & _); lia|]. destruct IH as [(i & Hi & Pi)|IH]; [left; exists i; split; [lia|exact Pi]|].
      destruct (Dec n) as [H|H]; [left; exists n; split; [lia|exact H]|]. right. intros (i & Hi & Pi). destruct (Nat.eq_dec i n) as [->|]; [contradiction|]. apply IH. exists i. split; [lia|exact Pi]. }
    destruct D as [E|E].
    + destruct (IH E) as (m & Hm & Pm & Mm). destruct (Qlt_le_dec (f n) (f m)) as [L|L].
      * exists n. split; [lia|]. split; [exact Pn|]. intros j Hj Pj. destruct (Nat.eq_dec j n) as [->|]; [apply Qle_refl|]. apply Qle_trans with (f m); [apply Qlt_le_weak; exact L|apply Mm; [lia|exact Pj]].
      * exists m. split; [lia|]. split; [exact Pm|]. intros j Hj Pj. destruct (Nat.eq_dec j n) as [->|]; [exact L|apply Mm; [lia|exact Pj]].
    + exists n. split; [lia|]. split; [exact Pn|]. intros j Hj Pj. destruct (Nat.eq_dec j n) as [->|]; [apply Qle_refl|]. exfalso. apply E. exists j. split; [lia|exact Pj].
  - destruct IH as (m & Hm & Pm & Mm). { exists i. split; [|exact Pi]. destruct (Nat.eq_dec i n) as [->|]; [contradiction|lia]. }
    exists m. split; [lia|]. split; [exact Pm|]. intros j Hj Pj. apply Mm; [|exact Pj]. destruct (Nat.eq_dec j n) as [->|]; [contradiction|lia].
Qed.

Section L.
Variable g : graph.
Hypothesis WF : graph_wf g.
Hypothesis NI : no_init g.
Variable N : nat -> Z.
Hypothesis BAL : forall c, In c (edges g) -> edge_in_total c * N (e_src c) * Z.of_nat (length (e_out c)) = edge_out_total c * N (e_dst c) * Z.of_nat (length (e_in c)).
Hypothesis CYC : forall i v, nth_error (vertices g) i = Some v -> has_channel g i -> (Z.of_nat (v_phases v) | N i).
Hypothesis POS : forall i, (i < length (vertices g))%nat -> 0 < N i.

Lemma ends c : In c (edges g) -> (e_src c < length (vertices g))%nat /\ (e_dst c < length (vertices g))%nat.
Proof using WF NI.
  clear - WF NI. intros Hc. destruct (edge_facts g WF NI c Hc) as (_ & _ & _ & _ & _ & _ & _ & _ & _ & (v & E1 & _) & (u & E2 & _)).
  split; apply nth_error_Some; congruence.
Qed.

(** ** From a schedule to an order of execution *)
Section From.
Variable s : schedule.
Hypothesis SV : schedule_valid g s.
Hypothesis PD : positive_durations g.

Lemma long i v m : nth_error (vertices g) i = Some v -> (0 < exec_duration v m)%Q.
Proof using WF NI PD.
  clear - WF NI PD. intros Hv. pose proof (nth_error_In _ _ Hv) as Hin. destruct (proj1 WF v Hin) as (P & L & L0 & _). rewrite (NI v Hin) in L0. apply length_zero_iff_nil in L0.
  unfold exec_duration, cyclic. rewrite L0. cbn [length]. replace (m <? 0)%nat with false by (symmetry; apply Nat.ltb_ge; lia).
  apply (PD v _ Hin). apply nth_In. apply Nat.mod_upper_bound. lia.
Qed.
Lemma later i m n : (i < length (vertices g))%nat -> (m <= n)%nat -> (s i m <= s i n)%Q.
Proof using WF NI PD SV.
  clear - WF NI PD SV. intros Hi L. destruct (nth_error (vertices g) i) as [v|] eqn:Ev; [|apply nth_error_None in Ev; lia].
  induction L as [|n L IH]; [apply Qle_refl|]. eapply Qle_trans; [exact IH|]. pose proof (proj2 SV i v Ev n) as H. pose proof (long i v n Ev) as D. unfold start_of in H. lra.
Qed.

Lemma next_enabled w i : (i < length (vertices g))%nat -> Z.of_nat (times i w) < N i ->
  (forall j, (j < length (vertices g))%nat -> Z.of_nat (times j w) <= N j) ->
  (forall j, (j < length (vertices g))%nat -> Z.of_nat (times j w) < N j -> (s i (times i w) <= s j (times j w))%Q) -> enabled g w i.
Proof.
  intros Hi Lt Le Mn. split; [exact Hi|]. intros c Hc Ed. destruct (ends c Hc) as [Is _].
  destruct (edge_facts g WF NI c Hc) as (_ & _ & _ & _ & P1 & P2 & _ & _ & P0 & (v & Ev & _) & _).
  unfold tokens. rewrite Ed. cut (sumf (cons_rate c) (S (times i w)) <= e_preload c + sumf (prod_rate c) (times (e_src c) w)); [cbn [sumf]; lia|].
  specialize (Le (e_src c) Is). destruct (Z.eq_dec (Z.of_nat (times (e_src c) w)) (N (e_src c))) as [Eq|Ne].
  - replace (times (e_src c) w) with (Z.to_nat (N (e_src c))) by lia. rewrite (iteration_sums g WF NI N BAL CYC POS c Hc), Ed.
    pose proof (sumf_mono (cons_rate c) (S (times i w)) (Z.to_nat (N i)) P2 ltac:(lia)). lia.
  - pose proof (proj1 SV c Hc) as V. destruct (V (s i (times i w)) (S (times i w))) as (np & Hnp).
    rewrite Ed in Hnp. unfold start_of in Hnp. rewrite moved_all in Hnp by (intros m Hm; apply later; lia).
    cut (moved_by (end_of s g (e_src c)) (prod_rate c) np (s i (times i w)) <= sumf (prod_rate c) (times (e_src c) w)); [lia|].
    apply moved_below; [exact P1|]. intros m Hm. unfold end_of. rewrite Ev. pose proof (long _ v m Ev) as D. pose proof (later (e_src c) _ _ Is Hm) as A.
    pose proof (Mn (e_src c) Is ltac:(lia)) as B. lra.
Qed.

Lemma schedule_live : live g N.
Proof.
  assert (G : forall r w, playable g w -> (forall j, (j < length (vertices g))%nat -> Z.of_nat (times j w) <= N j) ->
    sum_to (fun i => N i - Z.of_nat (times i w)) (length (vertices g)) <= Z.of_nat r -> live g N).
  { induction r as [|r IH]; intros w P Le Sm.
    - exists w. split; [exact P|]. intros i Hi. specialize (Le i Hi) as Li.
      destruct (Z.eq_dec (Z.of_nat (times i w)) (N i)) as [E|E]; [exact E|exfalso].
      assert (X : forall n, (forall j, (j < n)%nat -> 0 <= N j - Z.of_nat (times j w)) -> (forall k, (k < n)%nat -> N k - Z.of_nat (times k w) <= sum_to (fun i => N i - Z.of_nat (times i w)) n) /\ 0 <= sum_to (fun i => N i - Z.of_nat (times i w)) n).
      { clear. induction n as [|n IHn]; intros H; [split; [intros; lia|cbn; lia]|]. destruct IHn as [A B]; [intros; apply H; lia|]. pose proof (H n ltac:(lia)). cbn [sum_to]. split; [|lia].
        intros k Hk. destruct (Nat.eq_dec k n) as [->|]; [lia|]. specialize (A k ltac:(lia)). lia. }
      destruct (X (length (vertices g)) (fun j Hj => ltac:(specialize (Le j Hj); lia))) as [A _]. specialize (A i Hi). cbn in Sm. lia.
    - assert (D : (exists i, (i < length (vertices g))%nat /\ Z.of_nat (times i w) < N i) \/ (forall i, (i < length (vertices g))%nat -> Z.of_nat (times i w) = N i)).
      { generalize Le. clear. generalize (length (vertices g)). induction n as [|n IHn]; intros Le; [right; intros; lia|].
        destruct IHn as [(i & Hi & L)|E]; [intros; apply Le; lia|left; exists i; split; [lia|exact L]|].
        destruct (Z.eq_dec (Z.of_nat (times n w)) (N n)) as [En|En]; [right; intros i Hi; destruct (Nat.eq_dec i n) as [->|]; [exact En|apply E; lia]|].
        left. exists n. split; [lia|]. specialize (Le n ltac:(lia)). lia. }
      destruct D as [D|D]; [|exists w; auto].
      destruct (argmin _ (fun i => Z.of_nat (times i w) < N i) (fun i => s i (times i w)) (fun i => Z.lt_decidable _ _) D) as (i & Hi & Li & Mi).
      apply (IH (w ++ [i])).
      + apply playable_snoc; [exact P|]. apply next_enabled; auto.
      + intros j Hj. rewrite times_snoc. specialize (Le j Hj). destruct (Nat.eqb_spec i j) as [E|E]; [subst; lia|lia].
      + rewrite (sum_to_change (fun i => N i - Z.of_nat (times i w)) _ i (-1)); [lia|exact Hi| |].
        * rewrite times_snoc, Nat.eqb_refl. lia.
        * intros j Hj. rewrite times_snoc. destruct (Nat.eqb_spec i j); [congruence|lia]. }
  apply (G (Z.to_nat (sum_to (fun i => N i - Z.of_nat (times i [])) (length (vertices g)))) []); [constructor| |].
  - intros j Hj. cbn. specialize (POS j Hj). lia.
  - lia.
Qed.
End From.

(** ** From an order of execution to a schedule *)
Lemma playable_nonneg w c : playable g w -> In c (edges g) -> 0 <= tokens c w.
Proof using WF NI.
  clear - WF NI. intros P Hc. destruct (edge_facts g WF NI c Hc) as (_ & _ & _ & _ & P1 & P2 & _ & _ & P0 & _).
  induction P as [|w i P IH (Hi & En)]; [unfold tokens; cbn; lia|]. specialize (En c Hc). unfold tokens in *. rewrite !times_snoc.
  pose proof (P1 (times (e_src c) w)) as A. destruct (Nat.eqb_spec i (e_dst c)) as [Ed|Ed].
  - subst i. specialize (En eq_refl). rewrite Nat.add_1_r. cbn [sumf]. destruct (e_dst c =? e_src c)%nat; rewrite ?Nat.add_1_r, ?Nat.add_0_r; cbn [sumf]; lia.
  - rewrite (Nat.add_0_r (times (e_dst c) w)). destruct (i =? e_src c)%nat; rewrite ?Nat.add_1_r, ?Nat.add_0_r; cbn [sumf]; lia.
Qed.

Lemma playable_prefix a b : playable g (a ++ b) -> playable g a.
Proof using.
  clear. revert a. induction b as [|x b IH] using rev_ind; intros a H; [rewrite app_nil_r in H; exact H|]. rewrite app_assoc in H.
  inversion H as [E|w i Hw En E]; [destruct (a ++ b); discriminate|]. apply app_inj_tail in E. destruct E as [-> _]. apply IH. exact Hw.
Qed.

Section To.
Variable w : list nat.
Hypothesis PW : playable g w.
Hypothesis TW : forall i, (i < length (vertices g))%nat -> Z.of_nat (times i w) = N i.

Lemma again u : playable g u -> playable g (w ++ u).
Proof.
  induction 1 as [|u i H IH (Hi & En)]; [rewrite app_nil_r; exact PW|]. rewrite app_assoc. apply playable_snoc; [exact IH|]. split; [exact Hi|]. intros c Hc Ed. specialize (En c Hc Ed).
  destruct (ends c Hc) as [Is Id]. destruct (edge_facts g WF NI c Hc) as (I1 & I2 & L1 & L2 & _ & _ & _ & _ & _ & (v & E1 & F1) & (v' & E2 & F2)).
  assert (H1 : has_channel g (e_src c)) by (exists c; auto). assert (H2 : has_channel g (e_dst c)) by (exists c; auto).
  destruct (CYC _ _ E1 H1) as (a & Ea). destruct (CYC _ _ E2 H2) as (b & Eb). rewrite <- F1 in Ea. rewrite <- F2 in Eb.
  pose proof (POS _ Is) as Ps. pose proof (POS _ Id) as Pd. assert (0 < a) by nia. assert (0 < b) by nia.
  assert (S1 : times (e_src c) (w ++ u) = (times (e_src c) u + Z.to_nat a * length (e_in c))%nat) by (rewrite times_app; specialize (TW _ Is); nia).
  assert (S2 : times (e_dst c) (w ++ u) = (times (e_dst c) u + Z.to_nat b * length (e_out c))%nat) by (rewrite times_app; specialize (TW _ Id); nia).
  unfold tokens in *. rewrite Ed in *. rewrite S1, S2. pose proof (iteration_sums g WF NI N BAL CYC POS c Hc) as IS.
  rewrite Ed in IS. replace (Z.to_nat (N (e_src c))) with (Z.to_nat a * length (e_in c))%nat in IS by nia.
  replace (Z.to_nat (N i)) with (Z.to_nat b * length (e_out c))%nat in IS by (rewrite Eb; nia). rewrite (prod_cycles g WF NI c _ Hc), (cons_cycles g WF NI c _ Hc) in IS.
  unfold prod_rate, cons_rate in *. rewrite I1, I2 in *. rewrite !sumf_cyclic_shift by assumption.
  assert (CR : cyclic 0 [] (e_out c) (times i u + Z.to_nat b * length (e_out c)) = cyclic 0 [] (e_out c) (times i u)).
  { unfold cyclic. cbn [length]. rewrite !(proj2 (Nat.ltb_ge _ 0)) by lia. rewrite !Nat.sub_0_r, Nat.mod_add by lia. reflexivity. }
  rewrite CR. unfold edge_in_total, edge_out_total in IS. lia.
Qed.

Let L := length w.
Definition elem (q : nat) : nat := nth (q mod L) w 0%nat.
Definition prefix (q : nat) : list nat := map elem (seq 0 q).
Hypothesis NE : (0 < length (vertices g))%nat.
Lemma L_pos : (0 < L)%nat.
Proof. unfold L. destruct w as [|x l] eqn:E; [|cbn; lia]. specialize (TW 0%nat NE). specialize (POS 0%nat NE). cbn in TW. lia. Qed.
Lemma prefix_S q : prefix (S q) = prefix q ++ [elem q].
Proof using. unfold prefix. rewrite seq_S, map_app. reflexivity. Qed.
Lemma prefix_add n : prefix (L + n) = w ++ prefix n.
Proof.
  pose proof L_pos as LP. unfold prefix. rewrite seq_app, map_app. f_equal.
  - apply nth_ext with (d := 0%nat) (d' := 0%nat); [rewrite map_length, seq_length; reflexivity|]. intros k Hk. rewrite map_length, seq_length in Hk.
    rewrite (nth_indep _ 0%nat (elem 0)) by (rewrite map_length, seq_length; exact Hk). rewrite map_nth, seq_nth by exact Hk. unfold elem. rewrite Nat.add_0_l, Nat.mod_small by exact Hk. reflexivity.
  - cbn [Nat.add]. assert (G : forall k, map elem (seq (L + k) n) = map elem (seq k n)); [|rewrite <- (G 0%nat), Nat.add_0_r; reflexivity].
    induction n as [|n IH]; intros k; [reflexivity|]. cbn [seq map]. rewrite <- Nat.add_succ_r, IH. f_equal.
    unfold elem. replace (L + k)%nat with (k + 1 * L)%nat by lia. rewrite Nat.mod_add by lia. reflexivity.
Qed.
Lemma prefix_short n : (n <= L)%nat -> exists b, w = prefix n ++ b.
Proof.
  intros H. exists (map elem (seq n (L - n))). pose proof (prefix_add 0) as E. rewrite Nat.add_0_r in E. cbn [prefix seq map] in E. rewrite app_nil_r in E. rewrite <- E at 1. unfold prefix.
  replace L with (n + (L - n))%nat at 1 by lia. rewrite seq_app, map_app. reflexivity.
Qed.
Lemma prefix_playable : forall n, playable g (prefix n).
Proof.
  induction n as [n IH] using lt_wf_ind. pose proof L_pos as LP. destruct (Nat.le_gt_cases n L) as [H|H].
  - destruct (prefix_short n H) as (b & E). apply (playable_prefix _ b). rewrite <- E. exact PW.
  - replace n with (L + (n - L))%nat by lia. rewrite prefix_add. apply again. apply IH. lia.
Qed.

Definition cnt (i q : nat) : nat := times i (prefix q).
Lemma cnt_S i q : cnt i (S q) = (cnt i q + if (elem q =? i)%nat then 1 else 0)%nat.
Proof using. unfold cnt. rewrite prefix_S, times_snoc. reflexivity. Qed.
Lemma cnt_mono i a b : (a <= b)%nat -> (cnt i a <= cnt i b)%nat.
Proof. induction 1 as [|b H IH]; [lia|]. rewrite cnt_S. lia. Qed.
Lemma cnt_le i q : (cnt i q <= q)%nat.
Proof. induction q as [|q IH]; [cbn; lia|]. rewrite cnt_S. destruct (elem q =? i)%nat; lia. Qed.
Lemma cnt_period i k : (i < length (vertices g))%nat -> Z.of_nat (cnt i (k * L)) = Z.of_nat k * N i.
Proof.
  intros Hi. induction k as [|k IH]; [cbn; lia|]. cbn [Nat.mul]. unfold cnt in *. rewrite prefix_add, times_app, Nat2Z.inj_add, IH, (TW i Hi). lia.
Qed.

(** The position of execution [m] of task [i]. *)
Definition pos (i m : nat) : nat :=
  match find (fun q => (m <? cnt i (S q))%nat) (seq 0 (S m * L)) with Some q => q | None => 0%nat end.
Lemma find_seq f : forall n a, match find f (seq a n) with
  | Some q => (a <= q < a + n)%nat /\ f q = true /\ forall r, (a <= r < q)%nat -> f r = false
  | None => forall r, (a <= r < a + n)%nat -> f r = false end.
Proof using.
  clear. induction n as [|n IH]; intros a; cbn [seq find]; [intros; lia|]. destruct (f a) eqn:E.
  - split; [lia|]. split; [exact E|]. intros; lia.
  - specialize (IH (S a)). destruct (find f (seq (S a) n)) as [q|].
    + destruct IH as (A & B & C). split; [lia|]. split; [exact B|]. intros r Hr. destruct (Nat.eq_dec r a) as [->|]; [exact E|apply C; lia].
    + intros r Hr. destruct (Nat.eq_dec r a) as [->|]; [exact E|apply IH; lia].
Qed.
Lemma pos_spec i m : (i < length (vertices g))%nat -> (m < cnt i (S (pos i m)))%nat /\ forall r, (m < cnt i (S r))%nat -> (pos i m <= r)%nat.
Proof.
  intros Hi. unfold pos. pose proof (find_seq (fun q => (m <? cnt i (S q))%nat) (S m * L) 0) as F. pose proof L_pos as LP. pose proof (POS i Hi) as Np.
  destruct (find _ _) as [q|].
  - destruct F as (A & B & C). apply Nat.ltb_lt in B. split; [exact B|]. intros r Hr. destruct (Nat.le_gt_cases q r) as [H|H]; [exact H|]. specialize (C r ltac:(lia)). apply Nat.ltb_ge in C. lia.
  - exfalso. pose proof (cnt_period i (S m) Hi) as E. specialize (F (S m * L - 1)%nat ltac:(cbn; lia)). cbv beta in F. apply Nat.ltb_ge in F. replace (S (S m * L - 1)) with (S m * L)%nat in F by (cbn; lia). nia.
Qed.
Lemma pos_iff i m q : (i < length (vertices g))%nat -> ((m < cnt i q)%nat <-> (pos i m < q)%nat).
Proof.
  intros Hi. destruct (pos_spec i m Hi) as [A B]. split.
  - intros H. destruct q as [|q]; [cbn in H; lia|]. specialize (B q H). lia.
  - intros H. pose proof (cnt_mono i (S (pos i m)) q ltac:(lia)). lia.
Qed.
Lemma cnt_pos i m : (i < length (vertices g))%nat -> cnt i (pos i m) = m.
Proof.
  intros Hi. pose proof (pos_iff i m (pos i m) Hi) as A. destruct (pos_spec i m Hi) as [B _]. rewrite cnt_S in B. destruct (elem (pos i m) =? i)%nat; lia.
Qed.
Lemma pos_S i m : (i < length (vertices g))%nat -> (pos i m < pos i (S m))%nat.
Proof. intros Hi. apply pos_iff; [exact Hi|]. rewrite cnt_pos by exact Hi. lia. Qed.
Lemma pos_ge i m : (i < length (vertices g))%nat -> (m <= pos i m)%nat.
Proof. intros Hi. pose proof (cnt_le i (pos i m)) as H. rewrite cnt_pos in H by exact Hi. exact H. Qed.
Lemma pos_bound i m : (i < length (vertices g))%nat -> Z.of_nat (pos i m) < (Z.of_nat m / N i + 1) * Z.of_nat L.
Proof.
  intros Hi. pose proof (POS i Hi) as Np. set (k := Z.to_nat (Z.of_nat m / N i + 1)). assert (0 <= Z.of_nat m / N i) by (apply Z.div_pos; lia).
  assert (H1 : (pos i m < k * L)%nat).
  { apply pos_iff; [exact Hi|]. pose proof (cnt_period i k Hi) as E. pose proof (Z.mul_succ_div_gt (Z.of_nat m) (N i) Np). unfold k in E. rewrite Z2Nat.id in E by lia. unfold k. nia. }
  unfold k in H1. nia.
Qed.

(** Every duration is at most [D]. *)
Variable D : Q.
Hypothesis D_pos : (0 < D)%Q.
Hypothesis D_max : forall v d, In v (vertices g) -> In d (v_durations v) -> (d <= D)%Q.
Definition one_by_one : schedule := fun i m => (D * inject_Z (Z.of_nat (pos i m)))%Q.

Lemma D_exec i v m : nth_error (vertices g) i = Some v -> (exec_duration v m <= D)%Q.
Proof.
  intros Hv. pose proof (nth_error_In _ _ Hv) as Hin. destruct (proj1 WF v Hin) as (P & Ld & L0 & _). rewrite (NI v Hin) in L0. apply length_zero_iff_nil in L0.
  unfold exec_duration, cyclic. rewrite L0. cbn [length]. replace (m <? 0)%nat with false by (symmetry; apply Nat.ltb_ge; lia).
  apply (D_max v _ Hin). apply nth_In. apply Nat.mod_upper_bound. lia.
Qed.

Lemma one_by_one_valid : schedule_valid g one_by_one.
Proof.
  split.
  - intros c Hc t nc. destruct (ends c Hc) as [Is Id]. destruct (edge_facts g WF NI c Hc) as (_ & _ & _ & _ & P1 & P2 & _ & _ & P0 & (v & Ev & _) & _).
    destruct (Qlt_le_dec t 0) as [Tn|Tp].
    + exists 0%nat. cbn [moved_by sumf]. cut (moved_by (start_of one_by_one (e_dst c)) (cons_rate c) nc t <= sumf (cons_rate c) 0); [cbn [sumf]; unfold moved_by; cbn [sumf]; lia|].
      apply moved_below; [exact P2|]. intros m _. unfold start_of, one_by_one. eapply Qlt_le_trans; [exact Tn|]. apply Qmult_le_0_compat; [apply Qlt_le_weak; exact D_pos|]. unfold Qle. cbn. lia.
    + set (q := Z.to_nat (Qfloor (t / D))).
      assert (Tq : 0 <= Qfloor (t / D)).
      { change 0 with (Qfloor 0). apply Qfloor_resp_le. apply Qle_shift_div_l; [exact D_pos|]. lra. }
      assert (B1 : (D * inject_Z (Z.of_nat q) <= t)%Q).
      { unfold q. rewrite Z2Nat.id by exact Tq. pose proof (Qfloor_le (t / D)) as F. rewrite Qmult_comm. apply (Qmult_le_r _ _ (/ D)); [apply Qinv_lt_0_compat; exact D_pos|].
        rewrite <- Qmult_assoc, Qmult_inv_r, Qmult_1_r by lra. exact F. }
      assert (B2 : (t < D * inject_Z (Z.of_nat (S q)))%Q).
      { pose proof (Qlt_floor (t / D)) as F. unfold q. rewrite Nat2Z.inj_succ, Z2Nat.id by exact Tq. rewrite Qmult_comm. apply (Qmult_lt_r _ _ (/ D)); [apply Qinv_lt_0_compat; exact D_pos|].
        rewrite <- Qmult_assoc, Qmult_inv_r, Qmult_1_r by lra. unfold Z.succ. exact F. }
      clearbody q. clear Tq.
      exists (cnt (e_src c) q). rewrite (moved_all (end_of one_by_one g (e_src c))).
      * cut (moved_by (start_of one_by_one (e_dst c)) (cons_rate c) nc t <= sumf (cons_rate c) (cnt (e_dst c) (S q))).
        { intros A. cut (sumf (cons_rate c) (cnt (e_dst c) (S q)) <= e_preload c + sumf (prod_rate c) (cnt (e_src c) q)); [lia|]. clear A.
          pose proof (prefix_playable (S q)) as Pp. rewrite prefix_S in Pp. inversion Pp as [E|u x Pu En E]; [destruct (prefix q); discriminate|].
          apply app_inj_tail in E. destruct E as [-> ->]. pose proof (playable_nonneg _ c Pu Hc) as NN. rewrite cnt_S. unfold tokens in NN. fold (cnt (e_src c) q) (cnt (e_dst c) q) in NN.
          destruct (Nat.eqb_spec (elem q) (e_dst c)) as [Ex|Ex]; [|rewrite Nat.add_0_r; lia].
          destruct En as [_ En]. specialize (En c Hc (eq_sym Ex)). unfold tokens in En. fold (cnt (elem q) q) (cnt (e_src c) q) (cnt (e_dst c) q) in En. rewrite Ex in En. rewrite Nat.add_1_r. cbn [sumf]. lia. }
        apply moved_below; [exact P2|]. intros m Hm. unfold start_of, one_by_one. eapply Qlt_le_trans; [exact B2|].
        rewrite !(Qmult_comm D). apply Qmult_le_compat_r; [|apply Qlt_le_weak; exact D_pos]. rewrite <- Zle_Qle. pose proof (pos_iff (e_dst c) m (S q) Id). lia.
      * intros m Hm. apply (pos_iff _ _ _ Is) in Hm. unfold end_of. rewrite Ev. unfold one_by_one. pose proof (D_exec _ v m Ev) as De.
        assert (X : (D * inject_Z (Z.of_nat (pos (e_src c) m)) + D <= D * inject_Z (Z.of_nat q))%Q).
        { setoid_replace (D * inject_Z (Z.of_nat (pos (e_src c) m)) + D)%Q with (inject_Z (Z.of_nat (pos (e_src c) m) + 1) * D)%Q by (rewrite inject_Z_plus; ring).
          rewrite (Qmult_comm D). apply Qmult_le_compat_r; [|apply Qlt_le_weak; exact D_pos]. rewrite <- Zle_Qle. lia. }
        lra.
  - intros i v Ev m. unfold start_of, one_by_one. pose proof (D_exec i v m Ev) as De. assert (Hi : (i < length (vertices g))%nat) by (apply nth_error_Some; congruence).
    pose proof (pos_S i m Hi) as H.
    assert (X : (D * inject_Z (Z.of_nat (pos i m)) + D <= D * inject_Z (Z.of_nat (pos i (S m))))%Q).
    { setoid_replace (D * inject_Z (Z.of_nat (pos i m)) + D)%Q with (inject_Z (Z.of_nat (pos i m) + 1) * D)%Q by (rewrite inject_Z_plus; ring).
      rewrite (Qmult_comm D). apply Qmult_le_compat_r; [|apply Qlt_le_weak; exact D_pos]. rewrite <- Zle_Qle. lia. }
    lra.
Qed.

Lemma one_by_one_moves : non_zeno g one_by_one.
Proof.
  intros i t Hi. exists (Z.to_nat (Z.max 0 (Qfloor (t / D) + 1))). unfold one_by_one. set (m := Z.to_nat _). pose proof (pos_ge i m Hi) as H.
  apply Qlt_le_trans with (D * inject_Z (Qfloor (t / D) + 1))%Q.
  - pose proof (Qlt_floor (t / D)) as F. rewrite Qmult_comm. apply (Qmult_lt_r _ _ (/ D)); [apply Qinv_lt_0_compat; exact D_pos|].
    rewrite <- Qmult_assoc, Qmult_inv_r, Qmult_1_r by lra. exact F.
  - rewrite !(Qmult_comm D). apply Qmult_le_compat_r; [|apply Qlt_le_weak; exact D_pos]. rewrite <- Zle_Qle. unfold m in *. lia.
Qed.

Lemma one_by_one_pace : keeps_pace g N one_by_one (D * inject_Z (Z.of_nat L)).
Proof.
  exists (D * inject_Z (Z.of_nat L))%Q. intros i m Hi. unfold one_by_one. pose proof (pos_bound i m Hi) as B. pose proof (POS i Hi) as Np.
  assert (A : (inject_Z (Z.of_nat m / N i) <= inject_Z (Z.of_nat m) / inject_Z (N i))%Q).
  { apply Qle_shift_div_l; [unfold Qlt; cbn; lia|]. rewrite <- inject_Z_mult, <- Zle_Qle. rewrite Z.mul_comm. apply Z.mul_div_le. exact Np. }
  assert (C : (inject_Z (Z.of_nat (pos i m)) <= (inject_Z (Z.of_nat m) / inject_Z (N i) + 1) * inject_Z (Z.of_nat L))%Q).
  { apply Qle_trans with (inject_Z ((Z.of_nat m / N i + 1) * Z.of_nat L)); [rewrite <- Zle_Qle; lia|]. rewrite inject_Z_mult, inject_Z_plus.
    apply Qmult_le_compat_r; [change (inject_Z 1) with 1%Q; lra|unfold Qle; cbn; lia]. }
  set (x := (inject_Z (Z.of_nat m) / inject_Z (N i))%Q) in *. clearbody x.
  setoid_replace (D * inject_Z (Z.of_nat L) + D * inject_Z (Z.of_nat L) * x)%Q with (((x + 1) * inject_Z (Z.of_nat L)) * D)%Q by ring.
  rewrite Qmult_comm. apply Qmult_le_compat_r; [exact C|apply Qlt_le_weak; exact D_pos].
Qed.
End To.

Lemma longest : exists D, (0 < D)%Q /\ forall v d, In v (vertices g) -> In d (v_durations v) -> (d <= D)%Q.
Proof using.
  clear. assert (G : forall l : list Q, exists D, (0 < D)%Q /\ forall d, In d l -> (d <= D)%Q).
  { induction l as [|x l (D & P & M)]; [exists 1%Q; split; [reflexivity|intros d []]|]. destruct (Qlt_le_dec D x) as [H|H].
    - exists x. split; [eapply Qlt_trans; eauto|]. intros d [->|Hd]; [apply Qle_refl|]. apply Qlt_le_weak. eapply Qle_lt_trans; [apply M; exact Hd|exact H].
    - exists D. split; [exact P|]. intros d [->|Hd]; auto. }
  destruct (G (flat_map v_durations (vertices g))) as (D & P & M). exists D. split; [exact P|]. intros v d Hv Hd. apply M. apply in_flat_map. eauto.
Qed.

Lemma live_schedule : (0 < length (vertices g))%nat -> live g N -> exists s omega, schedule_valid g s /\ non_zeno g s /\ keeps_pace g N s omega.
Proof.
  intros NE (w & P & T). destruct longest as (D & Dp & Dm). exists (one_by_one w D), (D * inject_Z (Z.of_nat (length w)))%Q.
  split; [apply one_by_one_valid; auto|]. split; [apply one_by_one_moves; auto|apply one_by_one_pace; auto].
Qed.
End L.
