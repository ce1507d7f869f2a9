(** Properties of periodic buffer sizing. *)
From Coq Require Import QArith Qround Lqa Lia.
From Verif Require Import Base Graph KPeriodic ScheduleSpec KPeriodicSpec KPeriodicGraph KPeriodicEnd
  KIterSpec SPeriodicSpec SPeriodicProofs DseSpec Sizing SizingSpec SizingCore SizingLp SizingFeasible SizingProofs SizingFinal SizingEnd SizingOffsets.
Open Scope Z_scope.

Lemma positive_assert period : (0 < period)%Q -> cassert (negb (Qle_bool period 0)) = Ok tt.
Proof. intros H. destruct (Qle_bool period 0) eqn:E; [apply Qle_bool_iff in E; lra|reflexivity]. Qed.

(** ** C89: the sizes found are enough. *)
Theorem C89_sizes_are_enough solve ilp theta g N period :
  graph_wf g -> balanced g N -> no_init g -> whole_cycles g N -> no_reentrancy g -> (0 < period)%Q ->
  exists p, periodic_lp ilp theta g N period = Ok p /\
    forall x, solve p = Some x -> feasible p x ->
      exists cap, periodic_memory_sizing solve ilp false theta g N period = Ok (sizing_of (storage g theta cap)) /\
                  runs_within g N period cap.
Proof.
  intros Hwf Hbal Hno Hcyc Hre Hp. pose proof (free_ok ilp theta g N period Hwf Hno Hcyc Hre) as E. eexists. split; [exact E|]. intros x Sx Fx.
  destruct (free_sound ilp theta g N period Hwf Hbal Hno Hcyc Hp x Fx) as (sizes & Es & Ls & R). exists (fun k => nth k sizes 0). split; [|exact R].
  unfold periodic_memory_sizing. rewrite positive_assert, E by exact Hp. cbn [bind]. rewrite Sx, Es. cbn [bind].
  rewrite (total_is_storage theta g (fun _ _ => 0%Q) sizes Ls). reflexivity.
Qed.
Print Assumptions C89_sizes_are_enough.

(** ** C90: the integer program finds the smallest storage, and finds one whenever there is a schedule. *)
Theorem C90_ilp_is_minimal solve theta g N period :
  graph_wf g -> balanced g N -> no_init g -> whole_cycles g N -> no_reentrancy g -> (0 < period)%Q ->
  exists p, periodic_lp true theta g N period = Ok p /\
    forall x, solve p = Some x -> optimal p x ->
      exists total, periodic_memory_sizing solve true false theta g N period = Ok (sizing_of total) /\
        (exists cap, total = storage g theta cap /\ runs_within g N period cap) /\
        (forall cap, runs_within g N period cap -> total <= storage g theta cap).
Proof.
  intros Hwf Hbal Hno Hcyc Hre Hp. pose proof (free_ok true theta g N period Hwf Hno Hcyc Hre) as E. eexists. split; [exact E|]. intros x Sx Ox.
  destruct (free_sound true theta g N period Hwf Hbal Hno Hcyc Hp x (proj1 Ox)) as (sizes & Es & Ls & R). exists (total_size theta sizes). split; [|split].
  - unfold periodic_memory_sizing. rewrite positive_assert, E by exact Hp. cbn [bind]. rewrite Sx, Es. reflexivity.
  - exists (fun k => nth k sizes 0). split; [apply (total_is_storage theta g (fun _ _ => 0%Q) sizes Ls)|exact R].
  - intros cap Rc. exact (free_optimal true theta g N period Hwf Hbal Hno Hcyc Hp x sizes cap eq_refl Ox Es Rc).
Qed.
Print Assumptions C90_ilp_is_minimal.

(** Rounding the relaxed solution never gives less than the integer program. *)
Theorem C90_relaxation_never_below solve solve' theta g N period p p' x x' r r' :
  graph_wf g -> balanced g N -> no_init g -> whole_cycles g N -> no_reentrancy g -> (0 < period)%Q ->
  periodic_lp true theta g N period = Ok p -> solve p = Some x -> optimal p x ->
  periodic_lp false theta g N period = Ok p' -> solve' p' = Some x' -> feasible p' x' ->
  periodic_memory_sizing solve true false theta g N period = Ok r ->
  periodic_memory_sizing solve' false false theta g N period = Ok r' ->
  res_total r <= res_total r'.
Proof.
  intros Hwf Hbal Hno Hcyc Hre Hp Ep Sx Ox Ep' Sx' Fx' Er Er'.
  destruct (C90_ilp_is_minimal solve theta g N period Hwf Hbal Hno Hcyc Hre Hp) as (q & Eq & H). rewrite Ep in Eq. injection Eq as <-.
  destruct (H x Sx Ox) as (total & Et & _ & Least). rewrite Er in Et. injection Et as ->. cbn [res_total sizing_of].
  destruct (C89_sizes_are_enough solve' false theta g N period Hwf Hbal Hno Hcyc Hre Hp) as (q' & Eq' & H'). rewrite Ep' in Eq'. injection Eq' as <-.
  destruct (H' x' Sx' Fx') as (cap & Ec & R). rewrite Er' in Ec. injection Ec as ->. exact (Least cap R).
Qed.
Print Assumptions C90_relaxation_never_below.

(** The problem has a solution exactly when the graph has a schedule of this kind at all. *)
Theorem C90_solvable_iff_schedulable ilp theta g N period :
  graph_wf g -> balanced g N -> no_init g -> whole_cycles g N -> no_reentrancy g -> (0 < period)%Q ->
  exists p, periodic_lp ilp theta g N period = Ok p /\
    ((exists x, feasible p x) <-> exists s, one_periodic g N period s /\ schedule_valid g s).
Proof.
  intros Hwf Hbal Hno Hcyc Hre Hp. eexists. split; [exact (free_ok ilp theta g N period Hwf Hno Hcyc Hre)|]. split.
  - intros [x Fx]. destruct (free_sound ilp theta g N period Hwf Hbal Hno Hcyc Hp x Fx) as (_ & _ & _ & s & A & B & _). exists s. split; assumption.
  - intros (s & A & B). destruct (capacities_exist theta g N period Hwf Hbal Hno Hcyc Hp s A B) as [cap Fc].
    destruct (free_complete ilp theta g N period Hwf Hbal Hno Hcyc Hp cap) as (x & Fx & _); [exists s; auto|]. exists x. exact Fx.
Qed.
Print Assumptions C90_solvable_iff_schedulable.

(** ** C91: what the command does with an impossible period, and without one. *)
(** "A valid result is a size with which the graph runs at this period" does not hold. *)
Ltac in_cases := intros; repeat match goal with
  | H : In _ (_ :: _) |- _ => destruct H as [<-|H]
  | H : In _ [] |- _ => destruct H
  | H : _ \/ _ |- _ => destruct H as [<-|H]
  | H : False |- _ => destruct H
  end.
Definition slow : graph :=
  mkGraph [mkVertex 1 1 0 [5%Q] [] 1; mkVertex 2 1 0 [5%Q] [] 1] [mkEdge 1 0 1 [1] [1] [] [] 0].
Definition slow_N (_ : nat) : Z := 1.
Lemma slow_wf : graph_wf slow.
Proof.
  split; [|split].
  - intros v [<-|[<-|[]]]; (split; [cbn; lia|split; [reflexivity|split; [reflexivity|]]]); cbn; in_cases; unfold Qle; cbn; lia.
  - intros c [<-|[]]; eexists; eexists; (split; [reflexivity|split; [reflexivity|]]);
      repeat (split; [reflexivity|]); (split; [cbn; in_cases; lia|]); cbn; lia.
  - repeat constructor; cbn; intuition discriminate.
Qed.
Lemma slow_balanced : balanced slow slow_N. Proof. intros c [<-|[]]; reflexivity. Qed.
Lemma slow_no_init : no_init slow. Proof. intros v [<-|[<-|[]]]; reflexivity. Qed.
Lemma slow_cycles : whole_cycles slow slow_N.
Proof. intros [|[|[|i]]] v E; cbn in E; try discriminate; injection E as <-; split; try reflexivity; exists 1; reflexivity. Qed.
Lemma slow_single : no_reentrancy slow. Proof. intros v [<-|[<-|[]]]; reflexivity. Qed.
(** Its tasks run for 5 time units: no schedule repeats every time unit. *)
Lemma slow_never cap : ~ runs_within slow slow_N 1 cap.
Proof.
  intros (s & Per & [_ Ser] & _). specialize (Per 0%nat _ 0%nat eq_refl). specialize (Ser 0%nat _ eq_refl 0%nat). unfold start_of in Ser. cbn in Per, Ser.
  change (Pos.to_nat 1) with 1%nat in Per. cbn in Per. unfold exec_duration in Ser. cbn in Ser.
  assert (X : (task_period 1 1 1 (slow_N 0) == 1)%Q) by (vm_compute; reflexivity). rewrite X in Per. lra.
Qed.
Theorem C91_impossible_period_refuted :
  exists solve g N theta period, graph_wf g /\ balanced g N /\ no_init g /\ whole_cycles g N /\ no_reentrancy g /\ (0 < period)%Q /\
    (forall p, periodic_lp true theta g N period = Ok p -> solves true solve p) /\
    periodic_memory_sizing solve true false theta g N period = Ok (mkSizing true 0 []) /\
    (forall cap, ~ runs_within g N period cap).
Proof.
  exists (fun _ => None), slow, slow_N, (fun _ => 1), 1%Q.
  split; [exact slow_wf|]. split; [exact slow_balanced|]. split; [exact slow_no_init|]. split; [exact slow_cycles|]. split; [exact slow_single|]. split; [reflexivity|].
  split; [|split; [reflexivity|exact slow_never]]. intros p Ep x Fx.
  destruct (C89_sizes_are_enough (fun _ => Some x) true (fun _ => 1) slow slow_N 1 slow_wf slow_balanced slow_no_init slow_cycles slow_single eq_refl) as (q & Eq & H).
  rewrite Ep in Eq. injection Eq as <-. destruct (H x eq_refl Fx) as (cap & _ & R). exact (slow_never cap R).
Qed.
Print Assumptions C91_impossible_period_refuted.
(** Whatever the graph, no solution is reported as the size 0, and so is a problem that was only written to a file. *)
Theorem C91_no_solution_is_zero solve ilp theta g N period p gen_only :
  (0 < period)%Q -> periodic_lp ilp theta g N period = Ok p -> gen_only = true \/ solve p = None ->
  periodic_memory_sizing solve ilp gen_only theta g N period = Ok (mkSizing true 0 []).
Proof.
  intros Hp E H. unfold periodic_memory_sizing. rewrite positive_assert, E by exact Hp. cbn [bind]. destruct gen_only; [reflexivity|]. destruct H as [[=]|H]. rewrite H. reflexivity.
Qed.
Print Assumptions C91_no_solution_is_zero.
(** The command stops with an assertion when the period is left to it, unless the graph has no least period. *)
Theorem C91_no_default_period solve ilp gen_only theta g N min_period :
  (0 < min_period)%Q -> compute_1periodic_memory solve ilp gen_only theta g N min_period 0 = Rejected.
Proof.
  intros H. unfold compute_1periodic_memory, command_period. destruct (Qeq_bool min_period 0) eqn:E; [apply Qeq_bool_iff in E; lra|].
  destruct (Qle_bool min_period 0) eqn:E'; [apply Qle_bool_iff in E'; lra|reflexivity].
Qed.
Print Assumptions C91_no_default_period.
(** A given period of at least the least one is used as it is. *)
Theorem C91_given_period solve ilp gen_only theta g N min_period period :
  (0 < min_period)%Q -> (min_period <= period)%Q ->
  compute_1periodic_memory solve ilp gen_only theta g N min_period period = periodic_memory_sizing solve ilp gen_only theta g N period.
Proof.
  intros H L. unfold compute_1periodic_memory, command_period. destruct (Qeq_bool min_period 0) eqn:E; [apply Qeq_bool_iff in E; lra|].
  apply Qle_bool_iff in L as L'. rewrite L'. cbn [cassert bind]. destruct (Qeq_bool period 0) eqn:E'; [apply Qeq_bool_iff in E'; lra|reflexivity].
Qed.
Print Assumptions C91_given_period.

(** ** C92: sizing with the starts inside a task fixed in advance. *)
Theorem C92_fixed_offsets solve ilp theta g N offs period :
  graph_wf g -> balanced g N -> no_init g -> whole_cycles g N -> (0 < period)%Q -> offsets_fit g N offs period ->
  exists p, fixed_lp ilp theta g N offs period = Ok p /\
    (solves ilp solve p -> exists r, fixed_memory_sizing solve ilp false theta g N offs period = Ok r /\
      (res_valid r = true <-> exists cap, runs_within_offsets g N offs period cap) /\
      (res_valid r = true ->
         let cap := fun k => nth k (res_sizes r) 0 in
         length (res_sizes r) = length (edges g) /\ res_total r = storage g theta cap /\ runs_within_offsets g N offs period cap /\
         (ilp = true -> forall cap', runs_within_offsets g N offs period cap' -> res_total r <= storage g theta cap'))).
Proof.
  intros Hwf Hbal Hno Hcyc Hp Fit. assert (Hlen : forall i v, nth_error (vertices g) i = Some v -> length (offs i) = v_phases v) by (intros i v E; apply (Fit i v E)).
  pose proof (fixed_ok ilp theta g N period Hwf Hno Hcyc offs Hlen) as E. eexists. split; [exact E|]. unfold solves. intros Sv.
  unfold fixed_memory_sizing. rewrite positive_assert, E by exact Hp. cbn [bind]. destruct (solve (fixed_pure ilp theta g N period offs)) as [x|].
  - destruct Sv as [Fx Ox]. destruct (fixed_sound ilp theta g N period Hwf Hbal Hno Hcyc Hp offs x Fit Fx) as (sizes & Es & Ls & R). rewrite Es. cbn [bind].
    eexists. split; [reflexivity|]. cbn [res_valid res_total res_sizes]. split; [split; [intros _; eexists; exact R|reflexivity]|]. intros _.
    split; [exact Ls|]. split; [exact (total_is_storage theta g (fun _ _ => 0%Q) sizes Ls)|]. split; [exact R|].
    intros I cap' R'. exact (fixed_optimal ilp theta g N period Hwf Hbal Hno Hcyc Hp offs Hlen x sizes cap' I (Ox I) Es R').
  - eexists. split; [reflexivity|]. split; [|intros [=]]. split; [intros [=]|]. intros [cap R]. exfalso.
    destruct (fixed_complete ilp theta g N period Hwf Hbal Hno Hcyc Hp offs Hlen cap R) as (x & Fx & _). exact (Sv x Fx).
Qed.
Print Assumptions C92_fixed_offsets.
(** The burst and average offsets never make a task overlap itself, when its work fits its share of the period. *)
Theorem C92_burst_offsets g N period offs :
  graph_wf g -> no_init g -> work_fits g N period ->
  (forall i v, nth_error (vertices g) i = Some v -> burst_offsets_task v = Ok (offs i)) -> offsets_fit g N offs period.
Proof. intros Hwf Hno. exact (burst_fit (fun _ => 0) g N period Hwf Hno offs). Qed.
Print Assumptions C92_burst_offsets.
Theorem C92_average_offsets g N period offs :
  graph_wf g -> no_init g -> whole_cycles g N -> work_fits g N period ->
  (forall i v, nth_error (vertices g) i = Some v -> average_offsets_task period v (N i) = Ok (offs i)) -> offsets_fit g N offs period.
Proof. intros Hwf Hno Hcyc. exact (average_fit (fun _ => 0) g N period Hwf Hno Hcyc offs). Qed.
Print Assumptions C92_average_offsets.

(** ** C93: strictly periodic sizing. *)
(** When every one-phase task fits its own period, the answer is exact: a result is valid
    exactly when some evenly spaced schedule exists, its sizes are enough for one, and with the
    integer program they are the smallest. *)
Theorem C93_strictly_periodic_sizing solve ilp theta g N period :
  graph_wf g -> balanced g N -> no_init g -> whole_cycles g N -> (0 < period)%Q ->
  (forall i v, nth_error (vertices g) i = Some v -> v_phases v = 1%nat -> (exec_duration v 0 <= period / inject_Z (N i))%Q) ->
  (forall offs p, strict_offsets period g N = Ok (Some offs) -> fixed_lp ilp theta g N (fun i => nth i offs []) period = Ok p -> solves ilp solve p) ->
  exists r, strict_memory_sizing solve ilp false theta g N period = Ok r /\
    (res_valid r = true <-> exists cap, runs_evenly g N period cap) /\
    (res_valid r = true ->
       let cap := fun k => nth k (res_sizes r) 0 in
       length (res_sizes r) = length (edges g) /\ res_total r = storage g theta cap /\ runs_evenly g N period cap /\
       (ilp = true -> forall cap', runs_evenly g N period cap' -> res_total r <= storage g theta cap')).
Proof.
  intros Hwf Hbal Hno Hcyc Hp H1 Sv. unfold strict_memory_sizing. rewrite positive_assert by exact Hp. cbn [bind].
  destruct (strict_offsets_spec theta g N period Hwf Hno Hcyc Hp) as (r0 & E & R1 & R2). rewrite E. cbn [bind]. destruct r0 as [offs|].
  - pose proof (proj1 R1 (ex_intro _ _ eq_refl)) as PF. specialize (R2 offs eq_refl). set (o := fun i => nth i offs []) in *.
    assert (Fit : offsets_fit g N o period).
    { apply (even_offsets_fit theta g N period Hwf Hcyc o R2). intros i v a Ev La. destruct (Nat.eq_dec (v_phases v) 1) as [P1|P1].
      - assert (a = 0%nat) as -> by lia. exact (H1 i v Ev P1).
      - apply (PF i v Ev); lia. }
    destruct (C92_fixed_offsets solve ilp theta g N o period Hwf Hbal Hno Hcyc Hp Fit) as (p & Ep & H). destruct (H (Sv offs p E Ep)) as (r & Er & Hv & Hs).
    exists r. split; [exact Er|]. assert (X : forall cap, runs_evenly g N period cap <-> runs_within_offsets g N o period cap) by (intros cap; exact (runs_evenly_iff theta g N period Hwf Hcyc o cap R2)).
    split.
    + rewrite Hv. split; intros [cap Hc]; exists cap; apply X; exact Hc.
    + intros V. destruct (Hs V) as (A & B & C & D). cbv zeta. split; [exact A|]. split; [exact B|]. split; [apply X; exact C|]. intros I cap' Rc. apply (D I cap'), X, Rc.
  - exists no_sizing. split; [reflexivity|]. split; [|intros [=]]. split; [intros [=]|]. intros (cap & s & Ev & Val & _). exfalso.
    destruct (proj2 R1) as [l [=]]. intros i v Hi _ a _. exact (even_phases_fit g N period s Ev Val i v Hi a).
Qed.
Print Assumptions C93_strictly_periodic_sizing.

(** Without that condition on one-phase tasks it does not hold: the offset generator does not test them. *)
Definition slow_point (v : var) : Q :=
  match v with Start 1 _ => 5 | LoopFix => 2 | Feedback _ => 10 | Local _ _ _ => -10 | _ => 0 end%Q.

Definition check_row (x : var -> Q) (r : row) : bool := Qle_bool (row_low r) (row_value x r).
Definition check_column (x : var -> Q) (c : column) : bool :=
  match col_bound c with FixBound v => Qeq_bool (x (col_var c)) v | LowBound v => Qle_bool v (x (col_var c)) | NoBound => true end &&
  (negb (col_int c) || Qeq_bool (x (col_var c)) (inject_Z (Qfloor (x (col_var c))))).
Lemma check_feasible p x : forallb (check_row x) (rows p) && forallb (check_column x) (columns p) = true -> feasible p x.
Proof.
  intros H. apply andb_prop in H as [A B]. rewrite forallb_forall in A, B. split.
  - intros r Hr. apply Qle_bool_iff, A, Hr.
  - intros c Hc. specialize (B c Hc). unfold check_column in B. apply andb_prop in B as [B1 B2]. split.
    + destruct (col_bound c); cbn; [apply Qeq_bool_iff; exact B1|apply Qle_bool_iff; exact B1|exact I].
    + intros Ic. rewrite Ic in B2. cbn in B2. apply Qeq_bool_iff in B2. eexists. exact B2.
Qed.

Theorem C93_long_task_refuted :
  exists solve g N theta period r, graph_wf g /\ balanced g N /\ no_init g /\ whole_cycles g N /\ (0 < period)%Q /\
    (forall offs p x, strict_offsets period g N = Ok (Some offs) -> fixed_lp true theta g N (fun i => nth i offs []) period = Ok p -> solve p = Some x -> feasible p x) /\
    strict_memory_sizing solve true false theta g N period = Ok r /\ res_valid r = true /\
    (forall cap, ~ runs_evenly g N period cap).
Proof.
  exists (fun _ => Some slow_point), slow, slow_N, (fun _ => 1), 1%Q, (mkSizing true 10 [10]).
  split; [exact slow_wf|]. split; [exact slow_balanced|]. split; [exact slow_no_init|]. split; [exact slow_cycles|]. split; [reflexivity|].
  split; [|split; [vm_compute; reflexivity|split; [reflexivity|]]].
  - intros offs p x Eo Ep [=<-]. vm_compute in Eo. injection Eo as <-. vm_compute in Ep. injection Ep as <-. apply check_feasible. vm_compute. reflexivity.
  - intros cap (s & Ev & [_ Ser] & _). specialize (Ser 0%nat _ eq_refl 0%nat). unfold start_of in Ser. pose proof (Ev 0%nat 1%nat ltac:(cbn; lia)) as A.
    assert (X : (inject_Z (Z.of_nat 1) * (1 / inject_Z (slow_N 0)) == 1)%Q) by (vm_compute; reflexivity). rewrite X in A.
    unfold exec_duration in Ser. cbn in Ser. lra.
Qed.
Print Assumptions C93_long_task_refuted.

(** ** The hypotheses are met: a task of two phases feeding a one-phase task. *)
Definition pc : graph :=
  mkGraph [mkVertex 1 2 0 [1%Q; 2%Q] [] 1; mkVertex 2 1 0 [2%Q] [] 1] [mkEdge 1 0 1 [1; 2] [3] [] [] 0].
Definition pc_N (i : nat) : Z := match i with O => 2 | _ => 1 end.
Definition pc_point (v : var) : Q :=
  match v with Start 0 1 => 0 | Start 0 2 => 1 | Start 1 _ => 3 | LoopFix => 2 | Feedback _ => 3 | Local _ _ _ => -1 | _ => 0 end%Q.
Lemma pc_wf : graph_wf pc.
Proof.
  split; [|split].
  - intros v [<-|[<-|[]]]; (split; [cbn; lia|split; [reflexivity|split; [reflexivity|]]]); cbn; in_cases; unfold Qle; cbn; lia.
  - intros c [<-|[]]; eexists; eexists; (split; [reflexivity|split; [reflexivity|]]);
      repeat (split; [reflexivity|]); (split; [cbn; in_cases; lia|]); cbn; lia.
  - repeat constructor; cbn; intuition discriminate.
Qed.
Lemma pc_balanced : balanced pc pc_N. Proof. intros c [<-|[]]; reflexivity. Qed.
Lemma pc_no_init : no_init pc. Proof. intros v [<-|[<-|[]]]; reflexivity. Qed.
Lemma pc_cycles : whole_cycles pc pc_N.
Proof. intros [|[|[|i]]] v E; cbn in E; try discriminate; injection E as <-; split; try reflexivity; exists 1; reflexivity. Qed.
Lemma pc_single : no_reentrancy pc. Proof. intros v [<-|[<-|[]]]; reflexivity. Qed.

Lemma pc_optimal p : periodic_lp true (fun _ => 1) pc pc_N 5 = Ok p -> optimal p pc_point.
Proof.
  intros E. vm_compute in E. injection E as <-. split; [apply check_feasible; vm_compute; reflexivity|]. intros y [R C].
  cbn [columns rows] in R, C. match type of R with context [In _ ?l] => assert (Fr : Forall (fun r => (row_low r <= row_value y r)%Q) l) by (apply Forall_forall; exact R) end.
  match type of C with context [In _ ?l] => assert (Fc : Forall (fun c => in_bound (col_bound c) (y (col_var c)) /\ (col_int c = true -> exists z, (y (col_var c) == inject_Z z)%Q)) l) by (apply Forall_forall; exact C) end.
  clear R C. repeat match goal with H : Forall _ (_ :: _) |- _ => inversion_clear H end.
  unfold row_value, objective in *. cbn [fold_right row_coefs row_low col_bound col_cost col_var col_int columns fst snd in_bound] in *.
  repeat match goal with H : _ /\ _ |- _ => destruct H end. change (pc_point (Feedback 0)) with 3%Q.
  repeat match goal with H : true = true -> _ |- _ => specialize (H eq_refl); destruct H end. 
  cbn [pc_point].
  match goal with Hz : (y (Local 0 2 1) == inject_Z ?z)%Q |- _ => assert (Lz : z <= -1) by (assert ((inject_Z z <= (-4) # 5)%Q) by lra; assert (inject_Z z < inject_Z 0)%Q by (change (inject_Z 0) with 0%Q; lra); rewrite <- Zlt_Qlt in *; lia);
    rewrite Zle_Qle in Lz end.
  change (inject_Z (-1)) with (-1)%Q in *. lra.
Qed.

Example pc_sizing : exists total, periodic_memory_sizing (fun _ => Some pc_point) true false (fun _ => 1) pc pc_N 5 = Ok (sizing_of total) /\ total = 3 /\
  (exists cap, total = storage pc (fun _ => 1) cap /\ runs_within pc pc_N 5 cap) /\ (forall cap, runs_within pc pc_N 5 cap -> total <= storage pc (fun _ => 1) cap).
Proof.
  destruct (C90_ilp_is_minimal (fun _ => Some pc_point) (fun _ => 1) pc pc_N 5 pc_wf pc_balanced pc_no_init pc_cycles pc_single eq_refl) as (p & E & H).
  destruct (H pc_point eq_refl (pc_optimal p E)) as (total & Et & A & B). exists total. split; [exact Et|]. split; [|split; assumption].
  vm_compute in Et. injection Et as <-. reflexivity.
Qed.

(** Strictly periodic at period 5: the producer starts every 5/2. *)
Definition pc_strict_point (v : var) : Q :=
  match v with Start 0 _ => 0 | Start 1 _ => 9 # 2 | LoopFix => 2 | Feedback _ => 4 | Local _ 1 _ => -2 | Local _ _ _ => -1 | _ => 0 end%Q.
Example pc_strict : strict_offsets 5 pc pc_N = Ok (Some [[0 # 2; 5 # 2]; [0]]%Q) /\
  (forall offs p, strict_offsets 5 pc pc_N = Ok (Some offs) -> fixed_lp false (fun _ => 1) pc pc_N (fun i => nth i offs []) 5 = Ok p -> solves false (fun _ => Some pc_strict_point) p) /\
  (forall i v, nth_error (vertices pc) i = Some v -> v_phases v = 1%nat -> (exec_duration v 0 <= 5 / inject_Z (pc_N i))%Q) /\
  exists r, strict_memory_sizing (fun _ => Some pc_strict_point) false false (fun _ => 1) pc pc_N 5 = Ok r /\ res_valid r = true /\ runs_evenly pc pc_N 5 (fun k => nth k (res_sizes r) 0).
Proof.
  assert (A : forall offs p, strict_offsets 5 pc pc_N = Ok (Some offs) -> fixed_lp false (fun _ => 1) pc pc_N (fun i => nth i offs []) 5 = Ok p -> solves false (fun _ => Some pc_strict_point) p).
  { intros offs p Eo Ep. split; [|discriminate]. vm_compute in Eo. injection Eo as <-. vm_compute in Ep. injection Ep as <-. apply check_feasible. vm_compute. reflexivity. }
  assert (B : forall i v, nth_error (vertices pc) i = Some v -> v_phases v = 1%nat -> (exec_duration v 0 <= 5 / inject_Z (pc_N i))%Q).
  { intros [|[|[|i]]] v E P; cbn in E; try discriminate; injection E as <-; [discriminate P|]. vm_compute. discriminate. }
  split; [vm_compute; reflexivity|]. split; [exact A|]. split; [exact B|].
  destruct (C93_strictly_periodic_sizing (fun _ => Some pc_strict_point) false (fun _ => 1) pc pc_N 5 pc_wf pc_balanced pc_no_init pc_cycles eq_refl B A) as (r & E & _ & H).
  exists r. split; [exact E|]. assert (V : res_valid r = true) by (vm_compute in E; injection E as <-; reflexivity). split; [exact V|]. apply (H V).
Qed.
Example pc_work : work_fits pc pc_N 5.
Proof. intros [|[|[|i]]] v E; cbn in E; try discriminate; injection E as <-; vm_compute; discriminate. Qed.
