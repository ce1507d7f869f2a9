(** A merged task stands for its tasks: tokens, durations, order. *)
From Coq Require Import QArith Lqa ZifyBool ZifyNat.
From Verif Require Import Base Graph EventGraph ScheduleSpec ScheduleCore KPeriodicProofs KPeriodicEnd Merge MergeSeq.
Open Scope Z_scope.

(** What an entry of the map says about its vertex. *)
Definition good_info (g : graph) (N : nat -> Z) (ts : list task_schedule) (x : info) : Prop :=
  exists v t, nth_error (vertices g) (mi_pos x) = Some v /\ nth_error ts (mi_pos x) = Some t /\ v_id v = mi_id x /\
    v_init_phases v = 0%nat /\ mi_ni x = N (mi_pos x) /\ 0 < mi_ni x /\ mi_phases x = v_phases v /\ mi_durations x = v_durations v /\
    length (v_durations v) = v_phases v /\ (0 < v_phases v)%nat /\ mi_period x = ts_period t /\ mi_starts x = ts_starts t /\ (0 < length (ts_starts t))%nat.

Lemma next_time_denoted g N ts x c : good_info g N ts x -> (next_time x c == denoted ts (mi_pos x) c)%Q.
Proof.
  intros (v & t & _ & Ht & _ & _ & _ & _ & _ & _ & _ & _ & Hp & Hs & HL). unfold next_time, denoted. rewrite Ht, Hs, Hp.
  destruct (c <? length (ts_starts t))%nat eqn:E; [|reflexivity]. rewrite Nat.mod_small, Nat.div_small by lia. cbn [Z.of_nat]. rewrite Qmult_0_l, Qplus_0_r. reflexivity.
Qed.

Lemma cyclic_cut {A} (d : A) (r : list A) init m : (init < length r)%nat ->
  cyclic d (firstn init r) (skipn init r) m = nth (if (m <? init)%nat then m else (init + (m - init) mod (length r - init))%nat) r d.
Proof.
  intros H. unfold cyclic. rewrite firstn_length, skipn_length. replace (Nat.min init (length r)) with init by lia.
  destruct (m <? init)%nat eqn:E.
  - clear H. revert init m E. induction r as [|a r IH]; intros [|i] [|m] E; cbn in *; try lia; try reflexivity. apply IH. lia.
  - set (q := ((m - init) mod (length r - init))%nat). clearbody q. clear. revert init. induction r as [|a r IH]; intros [|i]; cbn; try reflexivity; [destruct q; reflexivity|apply IH].
Qed.

Lemma sumf_cyclic_shift r n u : (0 < length r)%nat -> sumf (cyclic 0 [] r) (n + u * length r) = sumf (cyclic 0 [] r) n + Z.of_nat u * sumZ r.
Proof. intros H. apply cyclic_sum; [assumption|cbn; lia]. Qed.

Lemma cyclic_nil {A} (d : A) r c : cyclic d [] r c = nth (c mod length r) r d.
Proof. unfold cyclic. cbn. rewrite Nat.sub_0_r. reflexivity. Qed.

(** ** Rates *)
Lemma merged_rates_ok infos l k rates r : run_ok infos l -> merged_rates l k rates = Ok r ->
  length r = length l /\ forall m, (m < length l)%nat ->
    nth m r 0 = (if (fst (nth m l (0, 0)%nat) =? k)%nat then nth (snd (nth m l (0, 0)%nat) mod length rates) rates 0 else 0).
Proof.
  intros R H. unfold merged_rates in H. destruct (produce_sequence rates (length l)) as [prev| | |] eqn:E; try discriminate. cbn in H. injection H as <-.
  rewrite map_length. split; [reflexivity|]. intros m L. unfold produce_sequence in E. destruct (length rates <=? length l)%nat; [|discriminate].
  destruct ((length rates =? 0)%nat && negb (length l =? 0)%nat); [discriminate|]. injection E as <-.
  set (f := fun e : exec => _). rewrite (nth_indep _ 0 (f (0, 0)%nat)) by (rewrite map_length; assumption). rewrite map_nth. unfold f.
  destruct (nth m l (0, 0)%nat) as [k' c] eqn:Em. cbn [fst snd]. destruct (k' =? k)%nat; [|reflexivity].
  assert (Lc : (c < length l)%nat).
  { destruct (R m k' c) as [-> _]; [rewrite (nth_error_nth' l (0, 0)%nat L), Em; reflexivity|]. unfold cntl.
    assert (G : (length (filter (fun e : exec => (fst e =? k')%nat) (firstn m l)) <= length (firstn m l))%nat).
    { generalize (firstn m l). clear. induction l; cbn; [lia|]. destruct (fst a =? k')%nat; cbn; lia. }
    rewrite firstn_length in G. lia. }
  set (h := fun i => nth (i mod length rates) rates 0). rewrite (nth_indep _ 0 (h 0%nat)) by (rewrite map_length, seq_length; assumption).
  rewrite map_nth, seq_nth by assumption. reflexivity.
Qed.

Section Seq.
Variables (infos : list info) (l : list exec) (init : nat).
Hypothesis R : run_ok infos l.
Hypothesis Lt : (init < length l)%nat.
Notation TK := (tk l init). Notation CNT := (cnt l init). Notation W := (per_count l init).

Lemma rate_at k rates r m : merged_rates l k rates = Ok r -> (0 < length rates)%nat -> (exists u, W k = u * length rates)%nat ->
  cyclic 0 (firstn init r) (skipn init r) m = if (TK m =? k)%nat then cyclic 0 [] rates (CNT k m) else 0.
Proof.
  intros H L D. destruct (merged_rates_ok infos l k rates r R H) as [Len Nth]. rewrite cyclic_cut by (rewrite Len; assumption). rewrite Len.
  change (if (m <? init)%nat then m else (init + (m - init) mod (length l - init))%nat) with (fold_pos l init m). rewrite Nth by (apply fold_lt; assumption).
  fold (TK m). destruct (TK m =? k)%nat eqn:E; [|reflexivity]. apply Nat.eqb_eq in E. fold (it l init m). rewrite cyclic_nil.
  rewrite (it_mod l init Lt infos (length rates) m R L) by (rewrite E; exact D). rewrite E. reflexivity.
Qed.

Lemma duration_at x m : nth_error infos (TK m) = Some x -> (0 < mi_phases x)%nat -> length (mi_durations x) = mi_phases x ->
  (exists u, W (TK m) = u * mi_phases x)%nat ->
  let d := map (exec_time infos) l in
  cyclic 0%Q (firstn init d) (skipn init d) m = cyclic 0%Q [] (mi_durations x) (CNT (TK m) m).
Proof.
  intros Hx Hp HL D d. rewrite cyclic_cut by (unfold d; rewrite map_length; assumption). unfold d at 1. rewrite map_length.
  change (if (m <? init)%nat then m else (init + (m - init) mod (length l - init))%nat) with (fold_pos l init m). unfold d.
  rewrite (nth_indep _ 0%Q (exec_time infos (0, 0)%nat)) by (rewrite map_length; apply fold_lt; assumption). rewrite map_nth.
  unfold exec_time. fold (TK m). fold (it l init m). rewrite Hx, cyclic_nil, HL. rewrite <- (it_mod l init Lt infos (mi_phases x) m R Hp D).
  destruct (it l init m <? mi_phases x)%nat eqn:E; [|reflexivity]. rewrite Nat.mod_small by lia. reflexivity.
Qed.

(** Tokens moved by the merged task on a channel of task [k] are those of [k]. *)
Lemma moved_reindex (T : nat -> Q) (r : nat -> Z) k n t : (0 < W k)%nat ->
  moved_by T (fun m => if (TK m =? k)%nat then r (CNT k m) else 0) n t = moved_by (fun c => T (pos l init k c)) r (CNT k n) t.
Proof.
  intros Hw. unfold moved_by. induction n as [|n IH]; [reflexivity|]. cbn [sumf cnt]. rewrite IH. destruct (TK n =? k)%nat eqn:E.
  - apply Nat.eqb_eq in E. cbn [sumf]. assert (pos l init k (CNT k n) = n) as ->; [|reflexivity]. rewrite <- E. apply pos_cnt; [assumption|]. rewrite E. assumption.
  - destruct (Qle_bool (T n) t); lia.
Qed.

(** ** Internal channels *)
Section Internal.
Variables (ka kb : nat) (xa xb : info) (prod cons : list Z) (preload : Z) (sa sb : nat -> Q) (da : nat -> Q).
Hypothesis Hxa : nth_error infos ka = Some xa.
Hypothesis Hxb : nth_error infos kb = Some xb.
Hypothesis Sa : forall c, (next_time xa c == sa c)%Q.
Hypothesis Sb : forall c, (next_time xb c == sb c)%Q.
Hypothesis Ma : forall c, (sa c <= sa (S c))%Q.
Hypothesis Mb : forall c, (sb c <= sb (S c))%Q.
Hypothesis Da : forall c, (0 < da c)%Q.
Hypothesis Hprod : forall x, In x prod -> 0 <= x.
Hypothesis Lprod : (0 < length prod)%nat.
Hypothesis Lcons : (0 < length cons)%nat.
Hypothesis NN : never_negative preload (fun c => (sa c + da c)%Q) (cyclic 0 [] prod) sb (cyclic 0 [] cons).
Variables ua ub : nat.
Hypothesis Wa : W ka = (ua * length prod)%nat.
Hypothesis Wb : W kb = (ub * length cons)%nat.
Hypothesis Bal : Z.of_nat ua * sumZ prod = Z.of_nat ub * sumZ cons.

Lemma prod_nonneg c : 0 <= cyclic 0 [] prod c.
Proof. assert (I := cyclic_in 0 [] prod c Lprod). apply Hprod, I. Qed.

Lemma order_kept m : TK m = kb ->
  sumf (cyclic 0 [] cons) (S (CNT kb m)) <= preload + sumf (cyclic 0 [] prod) (CNT ka m).
Proof.
  induction m as [m IH] using lt_wf_ind. intros E. destruct (Nat.lt_ge_cases m (length l)) as [L|L].
  - assert (Em : nth_error l m = Some (kb, it l init m)).
    { rewrite (nth_error_nth' l (0, 0)%nat L). unfold it. unfold tk in E. rewrite (fold_small l init Lt m L) in E |- *. rewrite <- E; destruct (nth m l (0, 0)%nat); reflexivity. }
    rewrite (it_small l init Lt infos m R L), E in Em.
    destruct (R m kb _ Em) as (_ & x & Hx & Le). assert (x = xb) as -> by congruence. specialize (Le ka xa Hxa). rewrite <- (cnt_prefix l init Lt) in Le by lia. rewrite Sb, Sa in Le.
    set (c := CNT kb m) in *. set (a := CNT ka m) in *. destruct (NN (sb c) (S c)) as (np & H).
    rewrite moved_all in H. 2:{ intros j Hj. apply (mono_le sb); [exact Mb|lia]. }
    etransitivity; [exact H|]. apply Z.add_le_mono_l. unfold moved_by. clear H.
    transitivity (sumf (fun j => if (j <? a)%nat then cyclic 0 [] prod j else 0) np).
    + apply sumf_le. intros j _. destruct (Qle_bool (sa j + da j) (sb c)) eqn:Q; destruct (j <? a)%nat eqn:J; try lia; [|apply prod_nonneg].
      apply Qle_bool_iff in Q. pose proof (mono_le sa Ma a j ltac:(lia)). pose proof (Da j). lra.
    + pose proof prod_nonneg as PN. clear - PN. induction np as [|np IHn]; cbn [sumf]; [apply sumf_nonneg, PN|]. destruct (np <? a)%nat eqn:J; [|lia].
      assert (X : sumf (fun j => if (j <? a)%nat then cyclic 0 [] prod j else 0) np = sumf (cyclic 0 [] prod) np).
      { apply sumf_ext. intros j Hj. destruct (j <? a)%nat eqn:J2; [reflexivity|lia]. }
      rewrite X. change (sumf (cyclic 0 [] prod) np + cyclic 0 [] prod np) with (sumf (cyclic 0 [] prod) (S np)). apply sumf_mono; [exact PN|lia].
  - destruct (split_pos l init Lt m L) as (m1 & -> & H1 & H2). unfold tk in E. rewrite fold_period in E by assumption. fold (TK m1) in E.
    specialize (IH m1 H2 E). rewrite !cnt_period by assumption. rewrite Wa, Wb. rewrite <- Nat.add_succ_l. rewrite !sumf_cyclic_shift by assumption. lia.
Qed.

(** With the merged task run one execution after the other, the channel never goes negative. *)
Lemma internal_channel (T : nat -> Q) (D : nat -> Q) : (0 < W ka)%nat -> (0 < W kb)%nat -> (forall m, 0 <= D m)%Q -> (forall m, T m + D m <= T (S m))%Q ->
  (forall x, In x cons -> 0 <= x) -> 0 <= preload ->
  never_negative preload (fun c => (T (pos l init ka c) + D (pos l init ka c))%Q) (cyclic 0 [] prod) (fun c => T (pos l init kb c)) (cyclic 0 [] cons).
Proof.
  intros Pa Pb D0 Ser Hc Hpre t nc. assert (CN : forall c, 0 <= cyclic 0 [] cons c) by (intros c; assert (I := cyclic_in 0 [] cons c Lcons); apply Hc, I).
  assert (MT : mono T) by (intros m; specialize (Ser m); specialize (D0 m); lra).
  (* number of consumptions started by t *)
  assert (G : forall n, exists b, (b <= n)%nat /\ moved_by (fun c => T (pos l init kb c)) (cyclic 0 [] cons) n t = sumf (cyclic 0 [] cons) b /\ (b = 0%nat \/ (T (pos l init kb (b - 1)) <= t)%Q)).
  { induction n as [|n (b & Hb & Hm & Hl)]; [exists 0%nat; split; [lia|]; split; [reflexivity|left; reflexivity]|].
    destruct (Qle_bool (T (pos l init kb n)) t) eqn:Q.
    - apply Qle_bool_iff in Q. exists (S n). split; [lia|]. split; [|right; replace (S n - 1)%nat with n by lia; exact Q].
      apply moved_all. intros j Hj. apply Qle_trans with (T (pos l init kb n)); [|exact Q]. apply mono_le; [exact MT|].
      destruct (Nat.eq_dec j n) as [->|]; [lia|]. apply Nat.lt_le_incl, pos_mono; [assumption|assumption|lia].
    - exists b. split; [lia|]. split; [|exact Hl]. unfold moved_by in *. cbn [sumf]. rewrite Q, Hm. lia. }
  destruct (G nc) as (b & _ & -> & [->|Hb]); [exists 0%nat; cbn; lia|]. destruct b as [|b]; [exists 0%nat; cbn; lia|].
  replace (S b - 1)%nat with b in Hb by lia. set (m := pos l init kb b) in *. destruct (pos_spec l init Lt kb b Pb) as [E1 E2]. fold m in E1, E2.
  exists (CNT ka m). pose proof (order_kept m E1) as O. rewrite E2 in O. etransitivity; [exact O|]. apply Z.add_le_mono_l.
  rewrite moved_all; [lia|]. intros j Hj. assert (Lj : (pos l init ka j < m)%nat).
  { destruct (pos_spec l init Lt ka j Pa) as [F1 F2]. destruct (Nat.lt_ge_cases (pos l init ka j) m) as [Y|Y]; [assumption|]. pose proof (cnt_mono l init Lt ka _ _ Y). lia. }
  apply Qle_trans with (T (S (pos l init ka j))); [apply Ser|]. apply Qle_trans with (T m); [apply mono_le; [exact MT|lia]|exact Hb].
Qed.
End Internal.
End Seq.
