(** Feasible points against schedules with capacities. *)
From Coq Require Import QArith Qround Lqa Lia.
From Verif Require Import Base Graph Commons CommonsProofs KPeriodic ScheduleSpec ScheduleCore KPeriodicSpec KPeriodicProofs KPeriodicChannel KPeriodicGraph KPeriodicEnd
  KIterSpec SPeriodicProofs DseSpec Sizing SizingSpec SizingCore SizingLp SizingFeasible.
Open Scope Z_scope.

Lemma round_away_integer x z : (x == inject_Z z)%Q -> round_away x = z.
Proof.
  intros E. unfold round_away.
  assert (F : forall y w, (y == inject_Z w)%Q -> Qfloor (y + (1 # 2)) = w).
  { intros y w Ey. pose proof (Qfloor_le (y + (1 # 2))) as A. pose proof (Qlt_floor (y + (1 # 2))) as B.
    set (fl := Qfloor (y + (1 # 2))) in *. rewrite Ey in A, B. clearbody fl.
    assert (fl < w + 1). { rewrite Zlt_Qlt, inject_Z_plus. change (inject_Z 1) with 1%Q. lra. }
    assert (w < fl + 1). { rewrite Zlt_Qlt. rewrite inject_Z_plus in *. change (inject_Z 1) with 1%Q in *. lra. }
    lia. }
  destruct (Qle_bool 0 x); [apply F; exact E|]. rewrite (F (- x)%Q (- z)); [lia|]. rewrite inject_Z_opp. lra.
Qed.

Section G.
Variables (ilp : bool) (g : graph) (N : nat -> Z) (period : Q).
Hypothesis Hwf : graph_wf g.
Hypothesis Hbal : balanced g N.
Hypothesis Hno : no_init g.
Hypothesis Hcyc : whole_cycles g N.
Hypothesis Hper : (0 < period)%Q.

Notation mu_of := (mu_of g N period).
Notation tick := (tick g N period).
Notation tick' := (tick' g N period).

(** ** Reading the sizes back. *)
Definition pair_bound (x : var -> Q) (k : nat) (c : edge) (i j : nat) : Z :=
  - local_value ilp x k (Z.of_nat i + 1) (Z.of_nat j + 1) * gz c - sumf (cons_rate c) j + sumf (prod_rate c) (S i) - gz c.
Definition active (c : edge) (i j : nat) : Prop := 0 < prod_rate c i /\ 0 < cons_rate c j.

Section Ch.
Variables (x : var -> Q) (k : nat) (c : edge) (vs vd : vertex).
Hypothesis Hin : In c (edges g).
Hypothesis Vs : nth_error (vertices g) (e_src c) = Some vs.
Hypothesis Vd : nth_error (vertices g) (e_dst c) = Some vd.

Lemma rate_nn : (forall m, 0 <= prod_rate c m) /\ (forall m, 0 <= cons_rate c m).
Proof using Hwf Hno Hcyc Hin Vs Vd. clear Hper Hbal x k ilp.
  destruct (chan_facts g N Hwf Hno Hcyc c vs vd Hin Vs Vd) as ((P1 & _) & (P2 & _) & _ & _ & (L1 & L2 & _ & _ & X & _) & _).
  split; intros m; apply X.
  - pose proof (cyclic_in 0 (e_in_init c) (e_in c) m ltac:(lia)) as I. unfold prod_rate. rewrite !in_app_iff in *. tauto.
  - pose proof (cyclic_in 0 (e_out_init c) (e_out c) m ltac:(lia)) as I. unfold cons_rate. rewrite !in_app_iff in *. tauto.
Qed.

Lemma gather_inner_spec i n : (i < v_phases vs)%nat -> forall a cm1 f, (a + n <= v_phases vd)%nat -> (0 < prod_rate c i -> cm1 = sumf (cons_rate c) a) ->
  exists r, gather_inner ilp x k c (gz c) (Z.of_nat i + 1) (prod_rate c i) (sumf (prod_rate c) (S i)) (map (fun j => Z.of_nat j + 1) (seq a n)) (sumf (cons_rate c) a) cm1 f = Ok r /\
    f <= r /\ (forall j, (a <= j < a + n)%nat -> active c i j -> pair_bound x k c i j <= r) /\
    (r = f \/ exists j, (a <= j < a + n)%nat /\ active c i j /\ r = pair_bound x k c i j).
Proof.
  intros Li. destruct (chan_facts g N Hwf Hno Hcyc c vs vd Hin Vs Vd) as (W1 & W2 & I1 & I2 & Sh & _).
  induction n as [|n IH]; intros a cm1 f La Hc1.
  - exists f. cbn. repeat split; [lia|intros; lia|left; reflexivity].
  - cbn [seq map gather_inner]. rewrite (out_access c vs vd Sh I1 I2 1 0 (fun _ _ => Z.divide_1_l _)) by lia. cbn [bind].
    change (sumf (cons_rate c) a + cons_rate c a) with (sumf (cons_rate c) (S a)).
    destruct (Z.min (prod_rate c i) (cons_rate c a) >? 0) eqn:Mn.
    + assert (Ac : active c i a) by (unfold active; lia). pose proof (Hc1 (proj1 Ac)) as ->.
      change (- local_value ilp x k (Z.of_nat i + 1) (Z.of_nat a + 1) * gz c - sumf (cons_rate c) a + sumf (prod_rate c) (S i) - gz c) with (pair_bound x k c i a).
      set (f' := if pair_bound x k c i a >? f then pair_bound x k c i a else f).
      assert (F1 : f <= f' /\ pair_bound x k c i a <= f' /\ (f' = f \/ f' = pair_bound x k c i a)).
      { unfold f'. destruct (pair_bound x k c i a >? f) eqn:B; lia. }
      destruct (IH (S a) (sumf (cons_rate c) (S a)) f' ltac:(lia) ltac:(reflexivity)) as (r & E & R1 & R2 & R3).
      exists r. split; [exact E|]. split; [lia|]. split.
      * intros j Lj Aj. destruct (Nat.eq_dec j a) as [->|Ne]; [lia|]. apply R2; [lia|exact Aj].
      * destruct R3 as [->|(j & Lj & Aj & ->)]; [|right; exists j; repeat split; (lia || assumption || apply Aj)].
        destruct F1 as (_ & _ & [-> | ->]); [left; reflexivity|right]. exists a. split; [lia|]. split; [exact Ac|reflexivity].
    + destruct (IH (S a) cm1 f ltac:(lia)) as (r & E & R1 & R2 & R3).
      { intros Pi. rewrite (Hc1 Pi). cbn [sumf]. destruct rate_nn as [_ Q]. specialize (Q a). lia. }
      exists r. split; [exact E|]. split; [lia|]. split.
      * intros j Lj Aj. destruct (Nat.eq_dec j a) as [->|Ne]; [unfold active in Aj; lia|]. apply R2; [lia|exact Aj].
      * destruct R3 as [->|(j & Lj & Aj & ->)]; [left; reflexivity|right]. exists j. split; [lia|]. split; [exact Aj|reflexivity].
Qed.

Lemma gather_outer_spec n : forall a f, (a + n <= v_phases vs)%nat ->
  exists r, gather_outer ilp x k c vd (gz c) (map (fun i => Z.of_nat i + 1) (seq a n)) (sumf (prod_rate c) a) f = Ok r /\
    f <= r /\ (forall i j, (a <= i < a + n)%nat -> (j < v_phases vd)%nat -> active c i j -> pair_bound x k c i j <= r) /\
    (r = f \/ exists i j, (a <= i < a + n)%nat /\ (j < v_phases vd)%nat /\ active c i j /\ r = pair_bound x k c i j).
Proof.
  destruct (chan_facts g N Hwf Hno Hcyc c vs vd Hin Vs Vd) as (W1 & W2 & I1 & I2 & Sh & _).
  induction n as [|n IH]; intros a f La.
  - exists f. cbn. repeat split; [lia|intros; lia|left; reflexivity].
  - cbn [seq map gather_outer]. rewrite (in_access c vs vd Sh I1 I2 1 0 (fun _ _ => Z.divide_1_l _)) by lia. cbn [bind].
    change (sumf (prod_rate c) a + prod_rate c a) with (sumf (prod_rate c) (S a)). rewrite zrange_seq.
    destruct (gather_inner_spec a (v_phases vd) ltac:(lia) 0%nat 0 f ltac:(lia) ltac:(reflexivity)) as (f' & E & F1 & F2 & F3).
    cbn [sumf] in E. cbn [sumf]. rewrite E. cbn [bind].
    destruct (IH (S a) f' ltac:(lia)) as (r & E' & R1 & R2 & R3). exists r. split; [exact E'|]. split; [lia|]. split.
    + intros i j Li Lj A. destruct (Nat.eq_dec i a) as [->|Ne]; [|apply R2; (lia || assumption)]. specialize (F2 j ltac:(lia) A). lia.
    + destruct R3 as [->|(i & j & Li & Lj & A & ->)].
      * destruct F3 as [->|(j & Lj & A & ->)]; [left; reflexivity|right]. exists a, j. repeat split; (lia || apply A || reflexivity).
      * right. exists i, j. repeat split; (lia || apply A || reflexivity).
Qed.

Definition first_guess (k : nat) : Z := if ilp then round_away (x (Feedback k)) else Qceiling (x (Feedback k)).
Lemma channel_size_spec : exists r, channel_size ilp x g k c = Ok (r + e_preload c) /\ first_guess k <= r /\
  (forall i j, (i < v_phases vs)%nat -> (j < v_phases vd)%nat -> active c i j -> pair_bound x k c i j <= r) /\
  (r = first_guess k \/ exists i j, (i < v_phases vs)%nat /\ (j < v_phases vd)%nat /\ active c i j /\ r = pair_bound x k c i j).
Proof.
  unfold channel_size, lookup_vertex. rewrite Vs. cbn [bind]. rewrite Vd. cbn [bind]. rewrite zrange_seq.
  unfold edge_in_total, edge_out_total. fold (gz c). fold (first_guess k).
  destruct (gather_outer_spec (v_phases vs) 0%nat (first_guess k) ltac:(lia)) as (r & E & R1 & R2 & R3). cbn [sumf] in E. rewrite E. cbn [bind].
  exists r. split; [reflexivity|]. split; [exact R1|]. split; [intros; apply R2; (lia || assumption)|].
  destruct R3 as [->|(i & j & Li & Lj & A & ->)]; [left; reflexivity|right]. exists i, j. repeat split; (lia || apply A).
Qed.

(** ** A channel between periodic tasks. *)
Lemma mu_pos i v : nth_error (vertices g) i = Some v -> (0 < mu_of i)%Q.
Proof using Hwf Hcyc Hper. clear Hin Vs Vd Hbal Hno x k ilp.
  intros E. unfold SizingLp.mu_of. rewrite (vertex_at_ok _ _ _ E). destruct (Hcyc i v E) as [Np _]. destruct (vertex_ok g Hwf i v E) as (Pp & _).
  pose proof (pos_inject (N i) Np). pose proof (pos_inject (Z.of_nat (v_phases v)) ltac:(lia)).
  apply Qlt_shift_div_l; [assumption|]. rewrite Qmult_0_l. apply Qmult_lt_0_compat; assumption.
Qed.
Lemma mu_tick : (mu_of (e_src c) == inject_Z (sumZ (e_in c)) * tick c)%Q /\ (mu_of (e_dst c) == inject_Z (sumZ (e_out c)) * tick c)%Q /\ (tick' c == tick c)%Q /\ (0 < tick c)%Q.
Proof using Hwf Hbal Hno Hcyc Hper Hin Vs Vd. clear x k ilp.
  destruct (chan_facts g N Hwf Hno Hcyc c vs vd Hin Vs Vd) as ((P1 & _) & (P2 & _) & I1 & I2 & Sh & Z1 & Z2 & _ & N1 & N2 & _).
  pose proof (Hbal c Hin) as B. destruct Sh as (L1 & L2 & _). rewrite L1, L2 in B.
  pose proof (nz_inject (sumZ (e_in c)) ltac:(lia)) as A1. pose proof (nz_inject (sumZ (e_out c)) ltac:(lia)) as A2.
  pose proof (nz_inject (N (e_src c)) ltac:(lia)) as A3. pose proof (nz_inject (N (e_dst c)) ltac:(lia)) as A4.
  assert (E1 : (mu_of (e_src c) == inject_Z (sumZ (e_in c)) * tick c)%Q) by (unfold SizingLp.tick; field; exact A1).
  assert (E3 : (tick' c == tick c)%Q).
  { unfold SizingLp.tick, SizingLp.tick', SizingLp.mu_of. rewrite (vertex_at_ok _ _ _ Vs), (vertex_at_ok _ _ _ Vd).
    assert (BQ : (inject_Z (sumZ (e_in c)) * inject_Z (N (e_src c)) * inject_Z (Z.of_nat (v_phases vd)) ==
                  inject_Z (sumZ (e_out c)) * inject_Z (N (e_dst c)) * inject_Z (Z.of_nat (v_phases vs)))%Q) by (rewrite <- !inject_Z_mult, B; reflexivity).
    set (p1 := inject_Z (Z.of_nat (v_phases vs))) in *. set (p2 := inject_Z (Z.of_nat (v_phases vd))) in *.
    set (z1 := inject_Z (sumZ (e_in c))) in *. set (z2 := inject_Z (sumZ (e_out c))) in *.
    set (n1 := inject_Z (N (e_src c))) in *. set (n2 := inject_Z (N (e_dst c))) in *. clearbody p1 p2 z1 z2 n1 n2. clear E1.
    transitivity (period * (z1 * n1 * p2) / (z1 * n1 * z2 * n2))%Q; [field; repeat split; assumption|]. rewrite BQ. field; repeat split; assumption. }
  split; [exact E1|]. split.
  - rewrite <- E3. unfold SizingLp.tick'. field. exact A2.
  - split; [exact E3|]. unfold SizingLp.tick. apply Qlt_shift_div_l; [apply pos_inject; lia|]. rewrite Qmult_0_l. eapply mu_pos; exact Vs.
Qed.

Lemma rate_sums : (forall m n, sumf (prod_rate c) (m + n * v_phases vs) = sumf (prod_rate c) m + Z.of_nat n * sumZ (e_in c)) /\
  (forall m n, sumf (cons_rate c) (m + n * v_phases vd) = sumf (cons_rate c) m + Z.of_nat n * sumZ (e_out c)) /\
  (forall m n, prod_rate c (m + n * v_phases vs) = prod_rate c m) /\ (forall m n, cons_rate c (m + n * v_phases vd) = cons_rate c m).
Proof using Hwf Hno Hcyc Hin Vs Vd. clear Hper Hbal x k ilp.
  destruct (chan_facts g N Hwf Hno Hcyc c vs vd Hin Vs Vd) as ((P1 & _) & (P2 & _) & I1 & I2 & (L1 & L2 & L3 & L4 & _) & _).
  rewrite I1 in L3. rewrite I2 in L4. unfold prod_rate, cons_rate. rewrite <- L1, <- L2.
  repeat split; intros; (apply cyclic_sum || apply cyclic_shift); lia.
Qed.
End Ch.

(** A 1-periodic schedule repeats with the task's period. *)
Lemma one_periodic_multiple s : one_periodic g N period s -> forall i v, nth_error (vertices g) i = Some v ->
  forall m n, (s i (m + n * v_phases v)%nat == s i m + inject_Z (Z.of_nat n) * mu_of i)%Q.
Proof.
  intros H i v E m n. apply periodic_multiple. intros m'. specialize (H i v m' E). unfold SizingLp.mu_of. rewrite (vertex_at_ok _ _ _ E).
  cbv beta in H. change (Z.to_nat 1) with 1%nat in H. rewrite Nat.mul_1_l in H. rewrite H. unfold task_period. rewrite Z.mul_1_l. reflexivity.
Qed.
Lemma duration_shift v m n : vertex_wf v -> v_init_phases v = 0%nat -> exec_duration v (m + n * v_phases v) = exec_duration v m.
Proof.
  intros (P & L1 & L2 & _) I0. unfold exec_duration. rewrite <- L1. apply cyclic_shift; lia.
Qed.

(** The thresholds of a channel, in both directions, for a 1-periodic schedule. *)
Section Sched.
Variable s : schedule.
Hypothesis Hs : one_periodic g N period s.
Hypothesis Hser : forall i v, nth_error (vertices g) i = Some v -> task_serialised s i v.
Variables (c : edge) (vs vd : vertex).
Hypothesis Hin : In c (edges g).
Hypothesis Vs : nth_error (vertices g) (e_src c) = Some vs.
Hypothesis Vd : nth_error (vertices g) (e_dst c) = Some vd.

Lemma times_shift i v m n Z0 rho : nth_error (vertices g) i = Some v -> (mu_of i == inject_Z Z0 * rho)%Q ->
  (s i (m + n * v_phases v)%nat == s i m + inject_Z (Z.of_nat n * Z0) * rho)%Q /\
  (end_of s g i (m + n * v_phases v)%nat == end_of s g i m + inject_Z (Z.of_nat n * Z0) * rho)%Q.
Proof.
  intros E Hm. pose proof (one_periodic_multiple s Hs i v E m n) as A. rewrite Hm in A. rewrite inject_Z_mult. split; [rewrite A; ring|].
  unfold end_of. rewrite E. rewrite (duration_shift v m n); [|eapply vertex_ok; eassumption|apply Hno; eapply nth_error_In; exact E]. rewrite A. ring.
Qed.

Lemma end_mono i v : nth_error (vertices g) i = Some v -> mono (end_of s g i).
Proof.
  intros E m. unfold end_of. rewrite E. apply (serialised_mono_end (s i) v); [eapply vertex_ok; eassumption|apply (Hser i v E)].
Qed.
Lemma start_mono i v : nth_error (vertices g) i = Some v -> mono (s i).
Proof. intros E. apply (serialised_mono_start (s i) v); [eapply vertex_ok; eassumption|apply (Hser i v E)]. Qed.

Lemma tokens_suffice : 
  (forall i j a, (i < v_phases vs)%nat -> (j < v_phases vd)%nat -> (gz c | a) ->
     early (e_preload c) (prod_rate c) (cons_rate c) i j a -> due (e_preload c) (prod_rate c) (cons_rate c) i j a ->
     (s (e_src c) i + exec_duration vs i + inject_Z a * tick c <= s (e_dst c) j)%Q) ->
  channel_valid g s c.
Proof.
  intros H. destruct (chan_facts g N Hwf Hno Hcyc c vs vd Hin Vs Vd) as ((P1 & _) & (P2 & _) & I1 & I2 & Sh & Z1 & Z2 & Pp & N1 & N2 & _).
  destruct (rate_nn c vs vd Hin Vs Vd) as [R1 R2]. destruct (rate_sums c vs vd Hin Vs Vd) as (S1 & S2 & S3 & S4).
  destruct (mu_tick c vs vd Hin Vs Vd) as (M1 & M2 & _ & _).
  unfold channel_valid. apply (chan_sufficient _ _ _ _ _ (v_phases vs) (v_phases vd) (sumZ (e_in c)) (sumZ (e_out c)) (tick c)); try assumption.
  - intros m n. apply (proj2 (times_shift _ _ m n _ _ Vs M1)).
  - intros m n. apply (proj1 (times_shift _ _ m n _ _ Vd M2)).
  - eapply end_mono; exact Vs.
  - eapply start_mono; exact Vd.
  - intros i j a Li Lj D E1 E2. specialize (H i j a Li Lj D E1 E2). unfold end_of, start_of. rewrite Vs. exact H.
Qed.
Lemma tokens_need : channel_valid g s c ->
  forall i j a, (gz c | a) -> due (e_preload c) (prod_rate c) (cons_rate c) i j a -> (s (e_src c) i + exec_duration vs i + inject_Z a * tick c <= s (e_dst c) j)%Q.
Proof.
  intros H i j a D Hd. destruct (chan_facts g N Hwf Hno Hcyc c vs vd Hin Vs Vd) as ((P1 & _) & (P2 & _) & I1 & I2 & Sh & Z1 & Z2 & Pp & N1 & N2 & _).
  destruct (rate_nn c vs vd Hin Vs Vd) as [R1 R2]. destruct (rate_sums c vs vd Hin Vs Vd) as (S1 & S2 & S3 & S4).
  destruct (mu_tick c vs vd Hin Vs Vd) as (M1 & M2 & _ & _).
  pose proof (chan_necessary (e_preload c) (end_of s g (e_src c)) (start_of s (e_dst c)) (prod_rate c) (cons_rate c) (v_phases vs) (v_phases vd) (sumZ (e_in c)) (sumZ (e_out c)) (tick c)) as X.
  assert (Y : (end_of s g (e_src c) i + inject_Z a * tick c <= start_of s (e_dst c) j)%Q).
  { apply X; try assumption.
    - intros m n. apply (proj2 (times_shift _ _ m n _ _ Vs M1)).
    - intros m n. apply (proj1 (times_shift _ _ m n _ _ Vd M2)).
    - eapply end_mono; exact Vs.
    - eapply start_mono; exact Vd. }
  unfold end_of, start_of in Y. rewrite Vs in Y. exact Y.
Qed.

Lemma gz_swap : Z.gcd (sumZ (e_out c)) (sumZ (e_in c)) = gz c.
Proof. apply Z.gcd_comm. Qed.

Lemma room_suffices cap : e_preload c <= cap ->
  (forall i j a, (i < v_phases vs)%nat -> (j < v_phases vd)%nat -> (gz c | a) ->
     early (cap - e_preload c) (cons_rate c) (prod_rate c) j i a -> due (cap - e_preload c) (cons_rate c) (prod_rate c) j i a ->
     (s (e_dst c) j + exec_duration vd j + inject_Z a * tick c <= s (e_src c) i)%Q) ->
  within_capacity cap (e_preload c) (start_of s (e_src c)) (prod_rate c) (end_of s g (e_dst c)) (cons_rate c).
Proof.
  intros Hcap H. destruct (chan_facts g N Hwf Hno Hcyc c vs vd Hin Vs Vd) as ((P1 & _) & (P2 & _) & I1 & I2 & Sh & Z1 & Z2 & Pp & N1 & N2 & _).
  destruct (rate_nn c vs vd Hin Vs Vd) as [R1 R2]. destruct (rate_sums c vs vd Hin Vs Vd) as (S1 & S2 & S3 & S4).
  destruct (mu_tick c vs vd Hin Vs Vd) as (M1 & M2 & _ & _).
  apply room_iff. apply (chan_sufficient _ _ _ _ _ (v_phases vd) (v_phases vs) (sumZ (e_out c)) (sumZ (e_in c)) (tick c)); try assumption.
  - intros m n. apply (proj2 (times_shift _ _ m n _ _ Vd M2)).
  - intros m n. apply (proj1 (times_shift _ _ m n _ _ Vs M1)).
  - eapply end_mono; exact Vd.
  - eapply start_mono; exact Vs.
  - lia.
  - intros j i a Lj Li D E1 E2. rewrite gz_swap in D. specialize (H i j a Li Lj D E1 E2). unfold end_of, start_of. rewrite Vd. exact H.
Qed.
Lemma room_need cap : within_capacity cap (e_preload c) (start_of s (e_src c)) (prod_rate c) (end_of s g (e_dst c)) (cons_rate c) ->
  e_preload c <= cap /\
  forall i j a, (gz c | a) -> due (cap - e_preload c) (cons_rate c) (prod_rate c) j i a -> (s (e_dst c) j + exec_duration vd j + inject_Z a * tick c <= s (e_src c) i)%Q.
Proof.
  intros H. destruct (chan_facts g N Hwf Hno Hcyc c vs vd Hin Vs Vd) as ((P1 & _) & (P2 & _) & I1 & I2 & Sh & Z1 & Z2 & Pp & N1 & N2 & _).
  destruct (rate_nn c vs vd Hin Vs Vd) as [R1 R2]. destruct (rate_sums c vs vd Hin Vs Vd) as (S1 & S2 & S3 & S4).
  destruct (mu_tick c vs vd Hin Vs Vd) as (M1 & M2 & _ & _).
  split; [eapply room_covers_preload; [exact R2|eapply end_mono; exact Vd|exact H]|].
  intros i j a D Hd. apply room_iff in H.
  pose proof (chan_necessary (cap - e_preload c) (end_of s g (e_dst c)) (start_of s (e_src c)) (cons_rate c) (prod_rate c) (v_phases vd) (v_phases vs) (sumZ (e_out c)) (sumZ (e_in c)) (tick c)) as X.
  assert (Y : (end_of s g (e_dst c) j + inject_Z a * tick c <= start_of s (e_src c) i)%Q).
  { apply X; try assumption.
    - intros m n. apply (proj2 (times_shift _ _ m n _ _ Vd M2)).
    - intros m n. apply (proj1 (times_shift _ _ m n _ _ Vs M1)).
    - eapply end_mono; exact Vd.
    - eapply start_mono; exact Vs.
    - rewrite gz_swap. exact D. }
  unfold end_of, start_of in Y. rewrite Vd in Y. exact Y.
Qed.
End Sched.
End G.
