(** The two sizing programs: periodic.cpp and periodic_fixed.cpp. *)
From Coq Require Import QArith Qround Lqa Lia.
From Verif Require Import Base Graph Commons CommonsProofs KPeriodic ScheduleSpec ScheduleCore KPeriodicSpec KPeriodicProofs KPeriodicChannel KPeriodicGraph KPeriodicEnd
  KIterSpec SPeriodicProofs DseSpec Sizing SizingSpec SizingCore SizingLp SizingFeasible SizingProofs SizingFinal.
Open Scope Z_scope.

(** The point of a schedule: start columns [st], capacities [cap]. *)
Definition point (g : graph) (st : nat -> Z -> Q) (cap : nat -> Z) : var -> Q := fun v =>
  match v with
  | Start i a => st i a
  | LoopFix => inject_Z (Z.of_nat (length (vertices g)))
  | Mop k => match nth_error (edges g) k with Some c => inject_Z (e_preload c) | None => 0%Q end
  | Feedback k => match nth_error (edges g) k with Some c => inject_Z (cap k - e_preload c) | None => 0%Q end
  | Local k ai aj => match nth_error (edges g) k with Some c => inject_Z (slack cap k c (Z.to_nat (ai - 1)) (Z.to_nat (aj - 1))) | None => 0%Q end
  end.

Lemma period_positive p : (0 < p)%Q -> negb (Qle_bool p 0) = true.
Proof. intros H. destruct (Qle_bool p 0) eqn:E; [|reflexivity]. apply Qle_bool_iff in E. lra. Qed.

Section G.
Variables (ilp : bool) (theta : nat -> Z) (g : graph) (N : nat -> Z) (period : Q).
Hypothesis Hwf : graph_wf g.
Hypothesis Hbal : balanced g N.
Hypothesis Hno : no_init g.
Hypothesis Hcyc : whole_cycles g N.
Hypothesis Hper : (0 < period)%Q.

Lemma point_represents L off st cap s D : (forall i v a, nth_error (vertices g) i = Some v -> (a < v_phases v)%nat ->
    (point g st cap (l_var L i (Z.of_nat a + 1)) + off i a == s i a + D)%Q) ->
  represents L g off (point g st cap) s cap.
Proof.
  intros H. split; [exists D; exact H|]. split; [reflexivity|]. intros k c E. cbn [point]. rewrite E. split; [reflexivity|]. split; [reflexivity|].
  intros i j. replace (Z.to_nat (Z.of_nat i + 1 - 1)) with i by lia. replace (Z.to_nat (Z.of_nat j + 1 - 1)) with j by lia. reflexivity.
Qed.

(** ** One start column per phase. *)
Section Free.
Hypothesis Hre : no_reentrancy g.
Definition zero_off : nat -> nat -> Q := fun _ _ => 0%Q.
Notation chans := (channels_pure free_layout ilp theta g N period zero_off).

Definition loop_pure (i : nat) (v : vertex) : lp :=
  app_lp (concat_pure (map (fun k => mkLp [] [mkRow [(Start i (k + 1), 1%Q); (Start i k, (-1)%Q)] (exec_duration v (Z.to_nat (k - 1)) * 1)])
            (zrange 1 (Z.of_nat (v_phases v) - 1))))
    (mkLp [] [mkRow (if Z.of_nat (v_phases v) >? 1 then [(Start i 1, 1%Q); (Start i (Z.of_nat (v_phases v)), (-1)%Q)] else [])
       (exec_duration v (v_phases v - 1) * 1 - period * inject_Z (Z.of_nat (v_phases v)) / inject_Z (N i))]).

Lemma loop_ok i v : nth_error (vertices g) i = Some v -> loopback_lp period N i v = Ok (loop_pure i v).
Proof.
  intros E. pose proof (vertex_ok g Hwf i v E) as W. pose proof (Hno v (nth_error_In _ _ E)) as I0. destruct (Hcyc i v E) as [Np _].
  pose proof (Hre v (nth_error_In _ _ E)) as Rp. pose proof W as (Pp & _).
  unfold loopback_lp. destruct (Z.leb_spec (v_reentrancy v) 0); [lia|]. unfold mu. rewrite time_over_ok by lia. cbn [bind].
  rewrite (concat_lp_ok _ (fun k => mkLp [] [mkRow [(Start i (k + 1), 1%Q); (Start i k, (-1)%Q)] (exec_duration v (Z.to_nat (k - 1)) * 1)])).
  - cbn [bind].
    assert (Ed : vertex_duration v (Z.of_nat (v_phases v)) = Ok (exec_duration v (v_phases v - 1))).
    { replace (Z.of_nat (v_phases v)) with (Z.of_nat (v_phases v - 1) + 1) by lia. apply phase_duration; (assumption || lia). }
    rewrite Ed. reflexivity.
  - intros k I. apply zrange_in in I. 
    assert (Ed : vertex_duration v k = Ok (exec_duration v (Z.to_nat (k - 1)))).
    { replace k with (Z.of_nat (Z.to_nat (k - 1)) + 1) at 1 by lia. apply phase_duration; (assumption || lia). }
    rewrite Ed. reflexivity.
Qed.

Lemma loop_feasible x i v : nth_error (vertices g) i = Some v -> (feasible (loop_pure i v) x <->
  (forall a, (S a < v_phases v)%nat -> (T free_layout zero_off x i a + exec_duration v a <= T free_layout zero_off x i (S a))%Q) /\
  (forall a, S a = v_phases v -> (T free_layout zero_off x i a + exec_duration v a <= T free_layout zero_off x i 0 + mu_of g N period i)%Q)).
Proof.
  intros E. pose proof (vertex_ok g Hwf i v E) as (Pp & _). unfold loop_pure. rewrite feasible_app, feasible_concat. unfold T, zero_off. cbn [l_var free_layout].
  unfold SizingLp.mu_of. rewrite (vertex_at_ok _ _ _ E).
  split.
  - intros [A B]. split.
    + intros a La. specialize (A (mkLp [] [mkRow [(Start i (Z.of_nat a + 1 + 1), 1%Q); (Start i (Z.of_nat a + 1), (-1)%Q)] (exec_duration v (Z.to_nat (Z.of_nat a + 1 - 1)) * 1)])).
      destruct A as [A _].
      { apply in_map_iff. exists (Z.of_nat a + 1). split; [reflexivity|]. apply zrange_in. lia. }
      specialize (A _ (or_introl eq_refl)). unfold row_value in A. cbn [row_low row_coefs fold_right fst snd] in A.
      replace (Z.to_nat (Z.of_nat a + 1 - 1)) with a in A by lia. replace (Z.of_nat (S a) + 1) with (Z.of_nat a + 1 + 1) by lia. lra.
    + intros a La. destruct B as [B _]. specialize (B _ (or_introl eq_refl)). unfold row_value in B. cbn [row_low row_coefs] in B.
      replace (v_phases v - 1)%nat with a in B by lia. replace (Z.of_nat a + 1) with (Z.of_nat (v_phases v)) by lia. change (Z.of_nat 0 + 1) with 1.
      destruct (Z.of_nat (v_phases v) >? 1) eqn:M; cbn [fold_right fst snd] in B; [lra|]. replace (Z.of_nat (v_phases v)) with 1 in * by lia. lra.
  - intros [A B]. split.
    + intros p I. apply in_map_iff in I. destruct I as (k & <- & I). apply zrange_in in I. split; [|intros c []]. intros r [<-|[]].
      unfold row_value. cbn [row_low row_coefs fold_right fst snd]. specialize (A (Z.to_nat (k - 1)) ltac:(lia)).
      replace (Z.of_nat (Z.to_nat (k - 1)) + 1) with k in A by lia. replace (Z.of_nat (S (Z.to_nat (k - 1))) + 1) with (k + 1) in A by lia. lra.
    + split; [|intros c []]. intros r [<-|[]]. unfold row_value. cbn [row_low row_coefs]. specialize (B (v_phases v - 1)%nat ltac:(lia)).
      replace (Z.of_nat (v_phases v - 1) + 1) with (Z.of_nat (v_phases v)) in B by lia. change (Z.of_nat 0 + 1) with 1 in B.
      destruct (Z.of_nat (v_phases v) >? 1) eqn:M; cbn [fold_right fst snd]; [lra|]. replace (Z.of_nat (v_phases v)) with 1 in * by lia. lra.
Qed.

Lemma free_skip i j a b : l_skip free_layout i j a b = true -> l_var free_layout i a = l_var free_layout j b.
Proof. cbn. intros H. apply andb_prop in H. destruct H as [H1 H2]. apply Nat.eqb_eq in H1. apply Z.eqb_eq in H2. subst. reflexivity. Qed.

Definition free_pure : lp := app_lp (free_starts g) (app_lp chans (concat_pure (map (fun iv => loop_pure (fst iv) (snd iv)) (indexed (vertices g))))).
Lemma free_ok : periodic_lp ilp theta g N period = Ok free_pure.
Proof.
  unfold periodic_lp. rewrite (channels_ok free_layout ilp theta g N period Hwf Hno Hcyc zero_off) by (first [exact free_skip | intros; reflexivity]). cbn [bind].
  rewrite (concat_lp_ok _ (fun iv => loop_pure (fst iv) (snd iv))); [reflexivity|]. intros [i v] I. apply indexed_in in I. apply loop_ok. exact I.
Qed.

Lemma free_feasible x : feasible free_pure x <->
  (forall i v a, nth_error (vertices g) i = Some v -> (a < v_phases v)%nat -> (0 <= x (Start i (Z.of_nat a + 1)))%Q) /\
  (forall k c, nth_error (edges g) k = Some c -> channel_holds free_layout ilp theta g N period zero_off x k c) /\
  spaced free_layout g N period zero_off x.
Proof.
  unfold free_pure. rewrite !feasible_app, (channels_feasible _ _ _ _ _ _ _ free_skip), feasible_concat.
  assert (A : feasible (free_starts g) x <-> (forall i v a, nth_error (vertices g) i = Some v -> (a < v_phases v)%nat -> (0 <= x (Start i (Z.of_nat a + 1)))%Q)).
  { unfold feasible, free_starts. cbn [rows columns]. split.
    - intros [_ C] i v a E La. destruct (C (mkColumn (Start i (Z.of_nat a + 1)) false (LowBound 0) 0)) as [C1 _]; [|exact C1].
      apply in_flat_map. exists (i, v). split; [apply indexed_in; exact E|]. apply in_map_iff. exists (Z.of_nat a + 1). split; [reflexivity|apply zrange_in; cbn [snd]; lia].
    - intros H. split; [intros r []|]. intros col I. apply in_flat_map in I. destruct I as ([i v] & I & J). apply indexed_in in I. apply in_map_iff in J.
      destruct J as (a & <- & J). apply zrange_in in J. cbn. split; [|discriminate]. specialize (H i v (Z.to_nat (a - 1)) I ltac:(cbn [snd] in J; lia)).
      replace (Z.of_nat (Z.to_nat (a - 1)) + 1) with a in H by (cbn [snd] in J; lia). exact H. }
  rewrite A. split.
  - intros (H1 & H2 & H3). split; [exact H1|]. split; [exact H2|]. intros i v E. apply (loop_feasible x i v E). apply H3.
    apply in_map_iff. exists (i, v). split; [reflexivity|apply indexed_in; exact E].
  - intros (H1 & H2 & H3). split; [exact H1|]. split; [exact H2|]. intros p I. apply in_map_iff in I. destruct I as ([i v] & <- & I). apply indexed_in in I.
    apply (loop_feasible x i v I). apply (H3 i v I).
Qed.

Lemma free_objective x : (objective free_pure x == objective chans x)%Q.
Proof.
  unfold free_pure. rewrite !objective_app. rewrite (objective_free (free_starts g)), (objective_free (concat_pure _)); [ring| |].
  - intros col I. cbn [columns concat_pure] in I. apply in_flat_map in I. destruct I as (p & I & J). apply in_map_iff in I. destruct I as (iv & <- & _).
    unfold loop_pure in J. cbn [columns app_lp concat_pure] in J. rewrite app_nil_r in J. apply in_flat_map in J. destruct J as (q & I & J).
    apply in_map_iff in I. destruct I as (z & <- & _). destruct J.
  - intros col I. cbn [columns free_starts] in I. apply in_flat_map in I. destruct I as (iv & _ & J). apply in_map_iff in J. destruct J as (a & <- & _). reflexivity.
Qed.

(** A feasible point gives capacities that work ... *)
Lemma free_sound x : feasible free_pure x -> exists sizes, channel_sizes ilp x g = Ok sizes /\ length sizes = length (edges g) /\
  runs_within g N period (fun k => nth k sizes 0).
Proof.
  intros F. apply free_feasible in F. destruct F as (_ & HC & HSp).
  destruct (sizes_exist ilp theta g N Hwf Hno Hcyc zero_off x) as (sizes & E & Le & Hs). exists sizes. split; [exact E|]. split; [exact Le|].
  exists (point_schedule free_layout g N period zero_off x). split; [apply point_schedule_periodic; assumption|]. split.
  - split; [|intros i v Ei; apply point_schedule_serialised; assumption].
    intros c I. apply In_nth_error in I. destruct I as [k Ek].
    apply (point_sound free_layout ilp theta g N period Hwf Hbal Hno Hcyc Hper zero_off x k c _ HSp Ek (HC k c Ek) (Hs k c Ek)).
  - intros k c Ek. apply (point_sound free_layout ilp theta g N period Hwf Hbal Hno Hcyc Hper zero_off x k c _ HSp Ek (HC k c Ek) (Hs k c Ek)).
Qed.

(** ... and capacities that work give a feasible point of that cost. *)
Lemma free_complete cap : runs_within g N period cap -> exists x, feasible free_pure x /\ (objective free_pure x == base_cost g + inject_Z (storage g theta cap))%Q.
Proof.
  intros (s & Per & Val & Fit).
  destruct (lower_bound (flat_map (fun iv => map (s (fst iv)) (seq 0 (v_phases (snd iv)))) (indexed (vertices g)))) as [D HD].
  set (x := point g (fun i a => s i (Z.to_nat (a - 1)) + D)%Q cap).
  assert (HT : forall i v a, nth_error (vertices g) i = Some v -> (a < v_phases v)%nat -> (point g (fun i a => s i (Z.to_nat (a - 1)) + D)%Q cap (l_var free_layout i (Z.of_nat a + 1)) + zero_off i a == s i a + D)%Q).
  { intros i v a _ _. cbn. replace (Z.to_nat (Z.of_nat a + 1 - 1)) with a by lia. unfold zero_off. ring. }
  pose proof (point_represents free_layout zero_off _ cap s D HT) as Rep. fold x in Rep, HT.
  exists x. split.
  - apply free_feasible. split; [|split].
    + intros i v a E La. cbn. replace (Z.to_nat (Z.of_nat a + 1 - 1)) with a by lia. apply HD. apply in_flat_map. exists (i, v). split; [apply indexed_in; exact E|].
      apply in_map_iff. exists a. split; [reflexivity|apply in_seq; cbn; lia].
    + apply (point_complete free_layout ilp theta g N period Hwf Hbal Hno Hcyc Hper zero_off x s cap); assumption.
    + intros i v E. pose proof (vertex_ok g Hwf i v E) as (Pp & _). destruct Val as [_ Ser]. pose proof (Ser i v E) as Si. unfold T. split.
      * intros a La. rewrite (HT i v a E) by lia. rewrite (HT i v (S a) E) by lia. specialize (Si a). unfold start_of in Si. lra.
      * intros a La. rewrite (HT i v a E) by lia. rewrite (HT i v 0%nat E) by lia. specialize (Si a). unfold start_of in Si.
        pose proof (one_periodic_multiple g N period s Per i v E 0%nat 1%nat) as M. replace (0 + 1 * v_phases v)%nat with (S a) in M by lia. change (inject_Z (Z.of_nat 1)) with 1%Q in M. lra.
  - rewrite free_objective. apply (objective_of_schedule free_layout ilp theta g N period zero_off x s cap Rep).
Qed.

Lemma free_optimal x sizes cap : ilp = true -> optimal free_pure x -> channel_sizes ilp x g = Ok sizes -> runs_within g N period cap ->
  total_size theta sizes <= storage g theta cap.
Proof.
  intros Hi [F O] E H. destruct (free_complete cap H) as (y & Fy & Oy). specialize (O y Fy). apply free_feasible in F. destruct F as (_ & HC & _).
  destruct (sizes_exist ilp theta g N Hwf Hno Hcyc zero_off x) as (sizes' & E' & Le & Hs). rewrite E in E'. injection E' as <-.
  rewrite Oy, free_objective in O. rewrite (objective_of_point free_layout ilp theta g N period Hwf Hno Hcyc zero_off x sizes Hi HC Hs) in O.
  rewrite (total_is_storage theta g zero_off sizes Le). rewrite Zle_Qle. lra.
Qed.
End Free.

(** ** One start column per task, and given offsets. *)
Section Fixed.
Variable offs : nat -> list Q.
Hypothesis Hlen : forall i v, nth_error (vertices g) i = Some v -> length (offs i) = v_phases v.
Definition list_off : nat -> nat -> Q := fun i a => nth a (offs i) 0%Q.
Notation chans := (channels_pure (fixed_layout offs) ilp theta g N period list_off).

Lemma fixed_skip i j a b : l_skip (fixed_layout offs) i j a b = true -> l_var (fixed_layout offs) i a = l_var (fixed_layout offs) j b.
Proof. cbn. intros H. apply Nat.eqb_eq in H. subst. reflexivity. Qed.

Definition fixed_pure : lp := app_lp (fixed_starts g) chans.
Lemma fixed_ok : fixed_lp ilp theta g N offs period = Ok fixed_pure.
Proof.
  unfold fixed_lp. rewrite (channels_ok (fixed_layout offs) ilp theta g N period Hwf Hno Hcyc list_off); [reflexivity| |exact fixed_skip].
  intros i v a E La. cbn. replace (Z.to_nat (Z.of_nat a + 1 - 1)) with a by lia. unfold list_off.
  rewrite (nth_error_nth' (offs i) 0%Q) by (rewrite (Hlen i v E); exact La). reflexivity.
Qed.
Lemma fixed_feasible x : feasible fixed_pure x <->
  (forall i v, nth_error (vertices g) i = Some v -> (0 <= x (Start i 0))%Q) /\
  (forall k c, nth_error (edges g) k = Some c -> channel_holds (fixed_layout offs) ilp theta g N period list_off x k c).
Proof.
  unfold fixed_pure. rewrite feasible_app, (channels_feasible _ _ _ _ _ _ _ fixed_skip).
  assert (A : feasible (fixed_starts g) x <-> (forall i v, nth_error (vertices g) i = Some v -> (0 <= x (Start i 0))%Q)).
  { unfold feasible, fixed_starts. cbn [rows columns]. split.
    - intros [_ C] i v E. destruct (C (mkColumn (Start i 0) false (LowBound 0) 0)) as [C1 _]; [|exact C1].
      apply in_map_iff. exists (i, v). split; [reflexivity|apply indexed_in; exact E].
    - intros H. split; [intros r []|]. intros col I. apply in_map_iff in I. destruct I as ([i v] & <- & I). apply indexed_in in I. cbn. split; [|discriminate].
      exact (H i v I). }
  rewrite A. reflexivity.
Qed.
Lemma fixed_objective x : (objective fixed_pure x == objective chans x)%Q.
Proof.
  unfold fixed_pure. rewrite objective_app, (objective_free (fixed_starts g)); [ring|].
  intros col I. cbn [columns fixed_starts] in I. apply in_map_iff in I. destruct I as (iv & <- & _). reflexivity.
Qed.

Lemma fixed_sound x : offsets_fit g N offs period -> feasible fixed_pure x -> exists sizes, channel_sizes ilp x g = Ok sizes /\ length sizes = length (edges g) /\
  runs_within_offsets g N offs period (fun k => nth k sizes 0).
Proof.
  intros HF F. apply fixed_feasible in F. destruct F as (_ & HC).
  assert (HSp : spaced (fixed_layout offs) g N period list_off x).
  { intros i v E. destruct (HF i v E) as (_ & A & B). unfold T, list_off. cbn [l_var fixed_layout]. split.
    - intros a La. specialize (A a La). lra.
    - intros a La. specialize (B a La). unfold SizingLp.mu_of. rewrite (vertex_at_ok _ _ _ E). lra. }
  destruct (sizes_exist ilp theta g N Hwf Hno Hcyc list_off x) as (sizes & E & Le & Hs). exists sizes. split; [exact E|]. split; [exact Le|].
  exists (point_schedule (fixed_layout offs) g N period list_off x). split; [apply point_schedule_periodic; assumption|]. split; [|split].
  - exists (fun i => x (Start i 0)). intros i v a Ei La. rewrite (point_schedule_at (fixed_layout offs) theta g N period list_off x i v a Ei La). reflexivity.
  - split; [|intros i v Ei; apply point_schedule_serialised; assumption].
    intros c I. apply In_nth_error in I. destruct I as [k Ek].
    apply (point_sound (fixed_layout offs) ilp theta g N period Hwf Hbal Hno Hcyc Hper list_off x k c _ HSp Ek (HC k c Ek) (Hs k c Ek)).
  - intros k c Ek. apply (point_sound (fixed_layout offs) ilp theta g N period Hwf Hbal Hno Hcyc Hper list_off x k c _ HSp Ek (HC k c Ek) (Hs k c Ek)).
Qed.

Lemma fixed_complete cap : runs_within_offsets g N offs period cap ->
  exists x, feasible fixed_pure x /\ (objective fixed_pure x == base_cost g + inject_Z (storage g theta cap))%Q.
Proof.
  intros (s & Per & (base & Fol) & Val & Fit).
  destruct (lower_bound (map base (seq 0 (length (vertices g))))) as [D HD].
  set (x := point g (fun i _ => base i + D)%Q cap).
  assert (HT : forall i v a, nth_error (vertices g) i = Some v -> (a < v_phases v)%nat -> (point g (fun i _ => base i + D)%Q cap (l_var (fixed_layout offs) i (Z.of_nat a + 1)) + list_off i a == s i a + D)%Q).
  { intros i v a E La. cbn. rewrite (Fol i v a E La). unfold list_off. ring. }
  pose proof (point_represents (fixed_layout offs) list_off _ cap s D HT) as Rep. fold x in Rep, HT.
  exists x. split.
  - apply fixed_feasible. split.
    + intros i v E. cbn. apply HD. apply in_map. apply in_seq. assert (i < length (vertices g))%nat by (apply nth_error_Some; congruence). lia.
    + apply (point_complete (fixed_layout offs) ilp theta g N period Hwf Hbal Hno Hcyc Hper list_off x s cap); assumption.
  - rewrite fixed_objective. apply (objective_of_schedule (fixed_layout offs) ilp theta g N period list_off x s cap Rep).
Qed.

Lemma fixed_optimal x sizes cap : ilp = true -> optimal fixed_pure x -> channel_sizes ilp x g = Ok sizes -> runs_within_offsets g N offs period cap ->
  total_size theta sizes <= storage g theta cap.
Proof.
  intros Hi [F O] E H. destruct (fixed_complete cap H) as (y & Fy & Oy). specialize (O y Fy). apply fixed_feasible in F. destruct F as (_ & HC).
  destruct (sizes_exist ilp theta g N Hwf Hno Hcyc list_off x) as (sizes' & E' & Le & Hs). rewrite E in E'. injection E' as <-.
  rewrite Oy, fixed_objective in O. rewrite (objective_of_point (fixed_layout offs) ilp theta g N period Hwf Hno Hcyc list_off x sizes Hi HC Hs) in O.
  rewrite (total_is_storage theta g list_off sizes Le). rewrite Zle_Qle. lra.
Qed.
End Fixed.
End G.
