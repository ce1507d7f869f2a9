(** Slower schedules fit the same capacities; the exploration with the periodic sizing. *)
From Coq Require Import QArith Lqa Lia.
From Verif Require Import Base Graph ScheduleSpec ScheduleCore KPeriodicSpec KPeriodicProofs KPeriodicGraph KPeriodicEnd
  KIterSpec DseSpec SimSpec Sizing SizingSpec SizingProofs SizingEnd SizingProps.
Open Scope Z_scope.

Lemma moved_by_cmp at1 at2 rate n t1 t2 : (forall m, 0 <= rate m) -> (forall m, (at1 m <= t1)%Q -> (at2 m <= t2)%Q) -> moved_by at1 rate n t1 <= moved_by at2 rate n t2.
Proof.
  intros R H. unfold moved_by. apply sumf_le. intros m _. destruct (Qle_bool (at1 m) t1) eqn:E1; destruct (Qle_bool (at2 m) t2) eqn:E2; try (specialize (R m); lia).
  apply Qle_bool_iff, H, Qle_bool_iff in E1. congruence.
Qed.

Lemma rates_nn g c : graph_wf g -> In c (edges g) -> (forall m, 0 <= prod_rate c m) /\ (forall m, 0 <= cons_rate c m).
Proof.
  intros (Hv & He & _) Hin. destruct (He c Hin) as (vs & vd & Vs & Vd & L1 & L2 & L3 & L4 & Hnn & _).
  destruct (Hv vs (nth_error_In _ _ Vs)) as (P1 & _). destruct (Hv vd (nth_error_In _ _ Vd)) as (P2 & _).
  split; intros m; apply Hnn; unfold prod_rate, cons_rate.
  - pose proof (cyclic_in 0 (e_in_init c) (e_in c) m ltac:(lia)) as I. apply in_app_or in I as [I|I]; repeat (apply in_or_app; first [left; exact I|right]); try exact I.
  - pose proof (cyclic_in 0 (e_out_init c) (e_out c) m ltac:(lia)) as I. apply in_app_or in I as [I|I]; repeat (apply in_or_app; first [left; exact I|right]); try exact I.
Qed.

Section Slow.
Variables (g : graph) (N : nat -> Z).
Hypothesis Hwf : graph_wf g.
Hypothesis Hcyc : whole_cycles g N.
Hypothesis Hno : no_init g.

Lemma slower_runs w w' cap : (0 < w)%Q -> (w <= w')%Q -> runs_within g N w cap -> runs_within g N w' cap.
Proof.
  intros Wp Ww (s & Per & [Val Ser] & Fit). set (k := (w' / w)%Q).
  assert (K1 : (1 <= k)%Q) by (unfold k; apply Qle_shift_div_l; lra). assert (Kw : (k * w == w')%Q) by (unfold k; field; lra).
  assert (Kp : (0 < k)%Q) by lra. set (s' := fun i m => (k * s i m)%Q).
  assert (St : forall x t, (k * x <= t)%Q <-> (x <= t / k)%Q).
  { intros x t. split; intros H; [apply Qle_shift_div_l; [exact Kp|lra]|]. apply (Qmult_le_compat_r _ _ k) in H; [|lra]. assert ((t / k * k == t)%Q) by (field; lra). lra. }
  assert (Dn : forall i v m, nth_error (vertices g) i = Some v -> (0 <= exec_duration v m)%Q) by (intros i v m E; apply exec_duration_nn, (vertex_ok g Hwf i v E)).
  assert (En : forall i m t, (end_of s g i m <= t / k)%Q -> (end_of s' g i m <= t)%Q).
  { intros i m t H. unfold end_of, s' in *. destruct (nth_error (vertices g) i) as [v|] eqn:E; [|apply St; exact H].
    apply St in H. pose proof (Dn i v m E). assert ((exec_duration v m <= k * exec_duration v m)%Q) by nra. lra. }
  exists s'. split; [|split; [split|]].
  - intros i v m E. specialize (Per i v m E). cbv beta in Per |- *. unfold s', task_period in *. rewrite Per. rewrite <- Kw. destruct (Hcyc i v E) as [Np _]. field.
    intros Z. unfold Qeq in Z. cbn in Z. lia.
  - intros c Hin t nc. destruct (rates_nn g c Hwf Hin) as [Rp Rc]. destruct (Val c Hin (t / k)%Q nc) as [np Hn]. exists np.
    etransitivity; [|etransitivity; [exact Hn|]].
    + apply moved_by_cmp; [exact Rc|]. intros m H. apply St. exact H.
    + apply Z.add_le_mono_l, moved_by_cmp; [exact Rp|]. intros m. apply En.
  - intros i v E m. specialize (Ser i v E m). unfold start_of, s' in *. pose proof (Dn i v m E).
    assert ((exec_duration v m <= k * exec_duration v m)%Q) by nra. assert ((k * (s i m + exec_duration v m) <= k * s i (S m))%Q) by (apply Qmult_le_l; assumption). lra.
  - intros j c E t np. destruct (rates_nn g c Hwf (nth_error_In _ _ E)) as [Rp Rc]. destruct (Fit j c E (t / k)%Q np) as [nc Hn]. exists nc.
    assert (A : moved_by (start_of s' (e_src c)) (prod_rate c) np t <= moved_by (start_of s (e_src c)) (prod_rate c) np (t / k)) by (apply moved_by_cmp; [exact Rp|intros m H; apply St; exact H]).
    assert (B : moved_by (end_of s g (e_dst c)) (cons_rate c) nc (t / k) <= moved_by (end_of s' g (e_dst c)) (cons_rate c) nc t) by (apply moved_by_cmp; [exact Rc|intros m; apply En]).
    lia.
Qed.

(** With positive durations every capacity is at least one. *)
Lemma first_positive (f : nat -> Z) n : (forall m, 0 <= f m) -> 0 < sumf f n -> exists m, 0 < f m /\ forall j, (j < m)%nat -> f j = 0.
Proof.
  intros Hf. induction n as [|n IH]; cbn [sumf]; [lia|]. intros H. destruct (Z_lt_le_dec 0 (sumf f n)) as [L|L]; [exact (IH L)|].
  exists n. pose proof (sumf_nonneg f n Hf). split; [lia|]. clear IH. intros j Hj. assert (Sz : sumf f n = 0) by lia. clear - Hf Hj Sz.
  pose proof (sumf_mono f (S j) n Hf ltac:(lia)). cbn [sumf] in H. pose proof (sumf_nonneg f j Hf). specialize (Hf j). lia.
Qed.

Lemma capacity_positive w cap k c : positive_durations g -> runs_within g N w cap -> nth_error (edges g) k = Some c -> 0 < cap k.
Proof.
  intros Pd (s & Per & [Val Ser] & Fit) E. pose proof (nth_error_In _ _ E) as Hin. destruct (rates_nn g c Hwf Hin) as [Rp Rc].
  destruct Hwf as (Hv & He & _). destruct (He c Hin) as (vs & vd & Vs & Vd & L1 & L2 & L3 & L4 & Hnn & Si & _).
  destruct (Hv vs (nth_error_In _ _ Vs)) as (P1 & D1 & D2 & _).
  destruct (cyclic_unbounded (e_in_init c) (e_in c) ltac:(lia) Si Rp 1) as [n Hn].
  destruct (first_positive (prod_rate c) n Rp) as (m & Hm & Hz); [unfold prod_rate; lia|].
  set (t := start_of s (e_src c) m). destruct (Fit k c E t (S m)) as [nc Hc]. destruct (Val c Hin t nc) as [np Hp].
  assert (A : moved_by (end_of s g (e_dst c)) (cons_rate c) nc t <= moved_by (start_of s (e_dst c)) (cons_rate c) nc t).
  { apply moved_by_cmp; [exact Rc|]. intros j. unfold end_of, start_of. rewrite Vd. pose proof (exec_duration_nn vd j (Hv vd (nth_error_In _ _ Vd))). intros; lra. }
  assert (B : moved_by (end_of s g (e_src c)) (prod_rate c) np t = 0).
  { unfold moved_by. transitivity (sumf (fun _ => 0) np); [apply sumf_ext|clear; induction np; cbn [sumf]; lia]. intros j _. destruct (Nat.lt_ge_cases j m) as [L|L]; [rewrite (Hz j L); destruct (Qle_bool _ _); reflexivity|].
    destruct (Qle_bool (end_of s g (e_src c) j) t) eqn:Eq; [|reflexivity]. exfalso. apply Qle_bool_iff in Eq. unfold end_of, t, start_of in Eq. rewrite Vs in Eq.
    assert (Dj : (0 < exec_duration vs j)%Q).
    { apply (Pd vs); [exact (nth_error_In _ _ Vs)|]. assert (I0 : v_init_durations vs = []) by (apply length_zero_iff_nil; rewrite D2; exact (Hno vs (nth_error_In _ _ Vs))).
      pose proof (cyclic_in 0%Q (v_init_durations vs) (v_durations vs) j ltac:(lia)) as I. rewrite I0 in I. unfold exec_duration. rewrite I0. exact I. }
    assert (Mo : (s (e_src c) m <= s (e_src c) j)%Q).
    { clear - L Ser Vs Hv. induction L; [lra|]. specialize (Ser _ vs Vs m0). unfold start_of in Ser. pose proof (exec_duration_nn vs m0 (Hv vs (nth_error_In _ _ Vs))). lra. }
    lra. }
  assert (C : prod_rate c m <= moved_by (start_of s (e_src c)) (prod_rate c) (S m) t).
  { unfold moved_by. cbn [sumf]. assert (Qle_bool (start_of s (e_src c) m) t = true) as -> by (apply Qle_bool_iff; unfold t; lra).
    assert (0 <= sumf (fun j => if Qle_bool (start_of s (e_src c) j) t then prod_rate c j else 0) m) by (apply sumf_nonneg; intros j; destruct (Qle_bool _ _); [apply Rp|lia]). lia. }
  lia.
Qed.

Lemma storage_positive theta w cap : positive_durations g -> (forall k, (k < length (edges g))%nat -> 0 < theta k) -> edges g <> [] ->
  runs_within g N w cap -> 0 < storage g theta cap.
Proof.
  intros Pd Th Ne R. unfold storage. assert (Pos : forall k, (k < length (edges g))%nat -> 0 < cap k * theta k).
  { intros k Lk. destruct (nth_error (edges g) k) as [c|] eqn:E; [|apply nth_error_None in E; lia]. pose proof (capacity_positive w cap k c Pd R E). specialize (Th k Lk). nia. }
  destruct (length (edges g)) as [|n] eqn:L; [destruct (edges g); [contradiction|discriminate]|]. clear - Pos. cbn [sumf].
  assert (G : forall a, (a <= n)%nat -> 0 <= sumf (fun k => cap k * theta k) a) by (induction a; intros Ha; cbn [sumf]; [lia|]; specialize (IHa ltac:(lia)); specialize (Pos a ltac:(lia)); lia).
  specialize (G n ltac:(lia)). specialize (Pos n ltac:(lia)). lia.
Qed.
End Slow.
