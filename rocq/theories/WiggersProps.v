(** C161: the offsets of Wiggers.  C162: buffer sizing with fixed offsets. *)
From Coq Require Import QArith Qminmax Lqa Lia ZifyBool ZifyNat.
From Verif Require Import Base Graph Commons KPeriodic ScheduleSpec KIterSpec Sizing SizingSpec SizingProps Wiggers WiggersSpec WiggersProofs WiggersLate WiggersEnd.
Open Scope Z_scope.

(** When every task of several phases can run them in its cycle, offsets are found, and they push
    the phases of each such task to the end of its cycle without overlap; a task of one phase
    starts at 0. *)
Theorem C161_offsets g N period :
  graph_wf g -> no_init g -> whole_cycles g N -> (0 < period)%Q -> several_fit g N period ->
  exists l, wiggers_offsets period g N = Ok l /\ length l = length (vertices g) /\
    forall i v, nth_error (vertices g) i = Some v -> exists o, nth_error l i = Some o /\
      (v_phases v = 1%nat -> o = [0%Q]) /\ ((2 <= v_phases v)%nat -> pushed_back v (cycle_time N period i v) o).
Proof. exact (wiggers_ok g N period). Qed.
Print Assumptions C161_offsets.

(** Each phase ends as late as the next phase and the production lines of the channels allow. *)
Theorem C161_latest g N period l :
  graph_wf g -> no_init g -> whole_cycles g N -> (0 < period)%Q -> several_fit g N period -> wiggers_offsets period g N = Ok l ->
  forall i v, nth_error (vertices g) i = Some v -> exists o, nth_error l i = Some o /\ as_late g i v (cycle_time N period i v) o.
Proof. intros Hwf Hno Hcyc Hp. exact (wiggers_late g N period Hwf Hno Hcyc Hp l). Qed.
Print Assumptions C161_latest.

(** Otherwise the program stops. *)
Theorem C161_no_room g N period i v :
  graph_wf g -> no_init g -> whole_cycles g N -> (0 < period)%Q ->
  nth_error (vertices g) i = Some v -> (2 <= v_phases v)%nat -> (cycle_time N period i v < elapsed v (v_phases v))%Q ->
  wiggers_offsets period g N = Rejected.
Proof. intros Hwf Hno Hcyc Hp. exact (wiggers_rejects g N period Hwf Hno Hcyc Hp i v). Qed.
Print Assumptions C161_no_room.

(** Used as starts, they never make a task overlap itself when its work fits its cycle. *)
Theorem C161_no_overlap g N period l :
  graph_wf g -> no_init g -> whole_cycles g N -> (0 < period)%Q -> work_fits g N period ->
  wiggers_offsets period g N = Ok l -> offsets_fit g N (fun i => nth i l []) period.
Proof.
  intros Hwf Hno Hcyc Hp HW E. destruct (wiggers_ok g N period Hwf Hno Hcyc Hp (fun i v H _ => HW i v H)) as (l' & E' & L & F).
  rewrite E in E'. injection E' as <-. apply (wiggers_fits g N period Hwf _ HW). intros i v Hi. destruct (F i v Hi) as (o & Eo & To). rewrite (nth_error_nth _ _ [] Eo). exact To.
Qed.
Print Assumptions C161_no_overlap.

(** ** C162: the command. *)
Theorem C162_command solve minmax kind ilp theta g N period :
  graph_wf g -> balanced g N -> no_init g -> whole_cycles g N -> (0 < period)%Q -> work_fits g N period ->
  kind = OffBurst \/ kind = OffAverage \/ kind = OffWiggers ->
  exists offs p, kind_is g N period kind offs /\ offsets_fit g N offs period /\ fixed_lp ilp theta g N offs period = Ok p /\
    (solves ilp solve p -> exists r, fixed_offset_command solve minmax kind ilp false theta g N period = Ok r /\
      (res_valid r = true <-> exists cap, runs_within_offsets g N offs period cap) /\
      (res_valid r = true ->
         let cap := fun k => nth k (res_sizes r) 0 in
         length (res_sizes r) = length (edges g) /\ res_total r = storage g theta cap /\ runs_within_offsets g N offs period cap /\
         (ilp = true -> forall cap', runs_within_offsets g N offs period cap' -> res_total r <= storage g theta cap'))).
Proof.
  intros Hwf Hbal Hno Hcyc Hp HW K. destruct (generated g N period Hwf Hno Hcyc Hp minmax kind K HW) as (l & E1 & E2 & Fit & Ki).
  destruct (C92_fixed_offsets solve ilp theta g N (got l) period Hwf Hbal Hno Hcyc Hp Fit) as (p & Ep & H). exists (got l), p. split; [exact Ki|]. split; [exact Fit|]. split; [exact Ep|].
  intros Sv. destruct (H Sv) as (r & Er & R). exists r. split; [|exact R]. unfold fixed_offset_command. rewrite E1. cbn [bind]. rewrite E2. cbn [bind]. exact Er.
Qed.
Print Assumptions C162_command.

(** Without OFFSET, with an unknown one, or without a positive PERIOD, there is no answer. *)
Theorem C162_offset_needed solve minmax kind ilp gen_only theta g N period :
  vertices g <> [] -> kind = OffNone \/ kind = OffOther -> fixed_offset_command solve minmax kind ilp gen_only theta g N period = Rejected.
Proof.
  intros Hv [->| ->]; [|reflexivity]. unfold fixed_offset_command, check_offsets. cbn [command_offsets bind]. destruct (cassert (negb (Qle_bool period 0))) eqn:E; cbn [bind].
  - destruct (vertices g) as [|v vs]; [contradiction|]. reflexivity.
  - reflexivity.
  - unfold cassert in E. destruct (negb _); discriminate.
  - unfold cassert in E. destruct (negb _); discriminate.
Qed.
Print Assumptions C162_offset_needed.
Theorem C162_period_needed solve minmax kind ilp gen_only theta g N period r :
  (period <= 0)%Q -> fixed_offset_command solve minmax kind ilp gen_only theta g N period <> Ok r.
Proof.
  intros H. unfold fixed_offset_command, check_offsets. apply Qle_bool_iff in H. rewrite H. cbn [negb cassert]. destruct (command_offsets minmax kind period g N); cbn [bind]; discriminate.
Qed.
Print Assumptions C162_period_needed.

(** A task of one phase longer than its cycle is not noticed: sizes are given although no
    schedule of this period exists, whatever the sizes. *)
Theorem C162_long_task_refuted :
  exists solve g N theta period r, graph_wf g /\ balanced g N /\ no_init g /\ whole_cycles g N /\ (0 < period)%Q /\
    (forall offs p x, fixed_lp true theta g N offs period = Ok p -> (forall i, offs i = match i with O | S O => [0%Q] | _ => [] end) -> solve p = Some x -> feasible p x) /\
    (forall minmax kind, kind = OffBurst \/ kind = OffAverage \/ kind = OffWiggers -> fixed_offset_command solve minmax kind true false theta g N period = Ok r) /\
    res_valid r = true /\ (forall cap, ~ runs_within g N period cap).
Proof.
  exists (fun _ => Some slow_point), slow, slow_N, (fun _ => 1), 1%Q, (mkSizing true 10 [10]).
  split; [exact slow_wf|]. split; [exact slow_balanced|]. split; [exact slow_no_init|]. split; [exact slow_cycles|]. split; [reflexivity|].
  split; [|split; [|split; [reflexivity|exact slow_never]]].
  - intros offs p x Ep Ho [=<-]. unfold fixed_lp, fixed_layout in Ep. vm_compute in Ep. rewrite ?(Ho 0%nat), ?(Ho 1%nat) in Ep. vm_compute in Ep. injection Ep as <-. apply check_feasible. vm_compute. reflexivity.
  - intros minmax kind [->|[->| ->]]; vm_compute; reflexivity.
Qed.
Print Assumptions C162_long_task_refuted.

(** ** The hypotheses are met: a task of three phases feeding a task of two. *)
Definition wg : graph :=
  mkGraph [mkVertex 1 3 0 [1%Q; 2%Q; 1%Q] [] 1; mkVertex 2 2 0 [1%Q; 2%Q] [] 1] [mkEdge 1 0 1 [1; 2; 1] [2; 2] [] [] 0].
Definition wg_N (i : nat) : Z := match i with O => 3 | _ => 2 end.
Lemma wg_wf : graph_wf wg.
Proof.
  split; [|split].
  - intros v [<-|[<-|[]]]; (split; [cbn; lia|split; [reflexivity|split; [reflexivity|]]]); cbn; in_cases; unfold Qle; cbn; lia.
  - intros c [<-|[]]; eexists; eexists; (split; [reflexivity|split; [reflexivity|]]);
      repeat (split; [reflexivity|]); (split; [cbn; in_cases; lia|]); cbn; lia.
  - repeat constructor; cbn; intuition discriminate.
Qed.
Lemma wg_balanced : balanced wg wg_N. Proof. intros c [<-|[]]; reflexivity. Qed.
Lemma wg_no_init : no_init wg. Proof. intros v [<-|[<-|[]]]; reflexivity. Qed.
Lemma wg_cycles : whole_cycles wg wg_N.
Proof. intros [|[|[|i]]] v E; cbn in E; try discriminate; injection E as <-; split; try reflexivity; exists 1; reflexivity. Qed.
Lemma wg_fits : work_fits wg wg_N 8.
Proof. intros [|[|[|i]]] v E; cbn in E; try discriminate; injection E as <-; vm_compute; discriminate. Qed.
(** The channel pulls the first phases of the first task forward, as far as they can go. *)
Example wg_offsets : match wiggers_offsets 8 wg wg_N with Ok l => map (map Qred) l | _ => [] end = [[0%Q; 1%Q; 7%Q]; [5%Q; 6%Q]].
Proof. vm_compute. reflexivity. Qed.
Example wg_offsets_no_room : wiggers_offsets (7 # 2) wg wg_N = Rejected.
Proof. vm_compute. reflexivity. Qed.
