(** C163: the MINMAX offsets. *)
From Coq Require Import QArith Qminmax Lqa Lia ZifyBool ZifyNat.
From Verif Require Import Base Graph Commons KPeriodic ScheduleSpec KIterSpec Sizing SizingSpec SizingProps Wiggers WiggersSpec WiggersProofs WiggersEnd WiggersProps MinMax MinMaxSpec MinMaxProofs MinMaxEnd.
Open Scope Z_scope.

Lemma check_empty period g l i v : nth_error (vertices g) i = Some v -> (2 <= v_phases v)%nat -> nth_error l i = Some [] -> check_offsets period g (fun i => nth_error l i) <> Ok tt.
Proof.
  intros E P2 Hi. unfold check_offsets. destruct (cassert (negb (Qle_bool period 0))); cbn [bind]; try discriminate. unfold cassert. destruct (forallb _ _) eqn:EF; [|discriminate].
  rewrite forallb_forall in EF. specialize (EF (i, v) (indexed_in _ _ _ E)). cbn [fst snd] in EF. rewrite Hi in EF. cbn [length] in EF. apply andb_prop in EF as [EF _]. apply Nat.eqb_eq in EF. lia.
Qed.

(** The linear program of a task without self-loop: its points are the admissible offsets with
    bounds on the distances from the lines of the channels, its objective is the sum of these. *)
Theorem C163_program theta g N period i v :
  graph_wf g -> no_init g -> whole_cycles g N -> nth_error (vertices g) i = Some v -> ~ self_loop g i ->
  exists p, mm_lp theta period g N i v = Ok p /\
    (forall x, let o := map (fun a => x (Ct (Z.of_nat a + 1))) (seq 0 (v_phases v)) in
       mfeasible p x <-> admissible v (cycle_time N period i v) o /\ covers g i v (cycle_time N period i v) o (fun k => x (Dl k)) (fun k => x (Ep k))) /\
    (forall x, (mobjective p x == spread theta g i (fun k => x (Dl k)) (fun k => x (Ep k)))%Q).
Proof.
  intros Hwf Hno Hcyc E NL. destruct (program_ok theta g N period Hwf Hno Hcyc i v E NL) as (p & Elp & F & Ob). exists p. split; [exact Elp|]. split; [|exact Ob].
  intros x. cbv zeta. specialize (F x). rewrite offsets_of_seq in F. exact F.
Qed.
Print Assumptions C163_program.

(** With an exact solver, when every task of several phases can run them in its cycle and has no
    self-loop, offsets are found; they do not overlap and are the closest to the lines. *)
Theorem C163_offsets msolve theta g N period :
  graph_wf g -> no_init g -> whole_cycles g N -> (0 < period)%Q -> several_fit g N period ->
  (forall i v, nth_error (vertices g) i = Some v -> (2 <= v_phases v)%nat -> ~ self_loop g i) ->
  (forall i v p, nth_error (vertices g) i = Some v -> mm_lp theta period g N i v = Ok p -> msolves msolve p) ->
  exists l, minmax_offsets msolve theta period g N = Ok l /\ length l = length (vertices g) /\
    forall i v, nth_error (vertices g) i = Some v -> exists o, nth_error l i = Some o /\
      (v_phases v = 1%nat -> o = [0%Q]) /\
      ((2 <= v_phases v)%nat -> admissible v (cycle_time N period i v) o /\ tightest theta g i v (cycle_time N period i v) o).
Proof. intros Hwf Hno Hcyc Hp SF NL Hs. apply minmax_ok; assumption. Qed.
Print Assumptions C163_offsets.

(** A task of several phases that has a self-loop, or cannot run them in its cycle, leaves the
    command without an answer. *)
Theorem C163_no_answer solve msolve ilp gen_only theta g N period i v r :
  graph_wf g -> no_init g -> whole_cycles g N -> (0 < period)%Q ->
  (forall i v p, nth_error (vertices g) i = Some v -> mm_lp theta period g N i v = Ok p -> msolves msolve p) ->
  nth_error (vertices g) i = Some v -> (2 <= v_phases v)%nat ->
  self_loop g i \/ (cycle_time N period i v < elapsed v (v_phases v))%Q ->
  fixed_offset_command solve (minmax_offsets msolve theta) OffMinMax ilp gen_only theta g N period <> Ok r.
Proof.
  intros Hwf Hno Hcyc Hp Hs E P2 St Hok. unfold fixed_offset_command, command_offsets in Hok.
  destruct (minmax_offsets msolve theta period g N) as [l| | |] eqn:El; cbn [bind] in Hok; try discriminate.
  pose proof (minmax_stuck msolve theta g N period Hwf Hno Hcyc Hs i v l E P2 St El) as Hi.
  destruct (check_offsets period g (fun i => nth_error l i)) as [[]| | |] eqn:EC; cbn [bind] in Hok; try discriminate. exact (check_empty period g l i v E P2 Hi EC).
Qed.
Print Assumptions C163_no_answer.

(** The command with OFFSET=MINMAX. *)
Theorem C163_command solve msolve ilp theta g N period :
  graph_wf g -> balanced g N -> no_init g -> whole_cycles g N -> (0 < period)%Q -> work_fits g N period ->
  (forall i v, nth_error (vertices g) i = Some v -> (2 <= v_phases v)%nat -> ~ self_loop g i) ->
  (forall i v p, nth_error (vertices g) i = Some v -> mm_lp theta period g N i v = Ok p -> msolves msolve p) ->
  exists offs p,
    (forall i v, nth_error (vertices g) i = Some v -> (v_phases v = 1%nat -> offs i = [0%Q]) /\
      ((2 <= v_phases v)%nat -> admissible v (cycle_time N period i v) (offs i) /\ tightest theta g i v (cycle_time N period i v) (offs i))) /\
    offsets_fit g N offs period /\ fixed_lp ilp theta g N offs period = Ok p /\
    (solves ilp solve p -> exists r, fixed_offset_command solve (minmax_offsets msolve theta) OffMinMax ilp false theta g N period = Ok r /\
      (res_valid r = true <-> exists cap, runs_within_offsets g N offs period cap) /\
      (res_valid r = true ->
         let cap := fun k => nth k (res_sizes r) 0 in
         length (res_sizes r) = length (edges g) /\ res_total r = storage g theta cap /\ runs_within_offsets g N offs period cap /\
         (ilp = true -> forall cap', runs_within_offsets g N offs period cap' -> res_total r <= storage g theta cap'))).
Proof.
  intros Hwf Hbal Hno Hcyc Hp HW NL Hs. destruct (minmax_generated msolve theta g N period Hwf Hno Hcyc Hp Hs HW NL) as (l & E1 & E2 & Fit & Ki).
  destruct (C92_fixed_offsets solve ilp theta g N (got l) period Hwf Hbal Hno Hcyc Hp Fit) as (p & Elp & H). exists (got l), p. split; [exact Ki|]. split; [exact Fit|]. split; [exact Elp|].
  intros Sv. destruct (H Sv) as (r & Er & R). exists r. split; [|exact R]. unfold fixed_offset_command, command_offsets. rewrite E1. cbn [bind]. rewrite E2. cbn [bind]. exact Er.
Qed.
Print Assumptions C163_command.

(** ** The hypotheses are met: the graph of C161, with the best offsets of its two tasks. *)
Definition wg_msolve (p : mlp) : option (mvar -> Q) :=
  Some (if (length (m_cols p) =? 5)%nat
        then fun y => match y with Ct 2 => 1%Q | Ct 3 => 3%Q | Ct _ => 0%Q | Dl _ => (-1)%Q | Ep _ => 3%Q end
        else fun y => match y with Ct 2 => 4%Q | Ct _ => 0%Q | Dl _ => 2%Q | Ep _ => 4%Q end).
Example wg_no_self_loop i v : nth_error (vertices wg) i = Some v -> (2 <= v_phases v)%nat -> ~ self_loop wg i.
Proof. intros _ _ (c & [<-|[]] & A & B). cbn in A, B. congruence. Qed.
Example wg_msolves i v p : nth_error (vertices wg) i = Some v -> mm_lp (fun _ => 1) 8 wg wg_N i v = Ok p -> msolves wg_msolve p.
Proof.
  destruct i as [|[|[|i]]]; intros E Elp; cbn in E; try discriminate; injection E as <-; vm_compute in Elp; injection Elp as <-; (split; [split|]).
  1, 4: intros r Hr; repeat (destruct Hr as [<-|Hr]; [vm_compute; discriminate|]); destruct Hr.
  1, 3: intros c q Hc Hq; repeat (destruct Hc as [<-|Hc]; [cbn in Hq; try discriminate; injection Hq as <-; vm_compute; reflexivity|]); destruct Hc.
  all: intros y [Hy Hc]; pose proof (fun r => Hy r) as H; rewrite <- Forall_forall in H; repeat (let K := fresh "K" in apply Forall_cons_iff in H as [K H]); clear Hy Hc H;
    unfold mvalue, mobjective in *; cbn [fold_right m_coefs m_low m_bound m_cols m_cost m_var fst snd length Nat.eqb] in *; lra.
Qed.
Example wg_minmax : minmax_offsets wg_msolve (fun _ => 1) 8 wg wg_N = Ok [[0%Q; 1%Q; 3%Q]; [0%Q; 4%Q]].
Proof. vm_compute. reflexivity. Qed.

(** A task of two phases with a channel to itself: its work fits the period, and the program
    stops whatever the solver. *)
Definition own : graph := mkGraph [mkVertex 1 2 0 [1%Q; 2%Q] [] 1] [mkEdge 1 0 0 [1; 1] [1; 1] [] [] 2].
Definition own_N (_ : nat) : Z := 2.
Theorem C163_self_loop_refuted :
  exists g N period, graph_wf g /\ balanced g N /\ no_init g /\ whole_cycles g N /\ (0 < period)%Q /\ work_fits g N period /\
    (exists l, wiggers_offsets period g N = Ok l /\ offsets_fit g N (fun i => nth i l []) period) /\
    forall msolve theta, minmax_offsets msolve theta period g N = Rejected.
Proof.
  assert (Wf : graph_wf own).
  { split; [|split].
    - intros v [<-|[]]; (split; [cbn; lia|split; [reflexivity|split; [reflexivity|]]]); cbn; in_cases; unfold Qle; cbn; lia.
    - intros c [<-|[]]; eexists; eexists; (split; [reflexivity|split; [reflexivity|]]); repeat (split; [reflexivity|]); (split; [cbn; in_cases; lia|]); cbn; lia.
    - repeat constructor; cbn; intuition discriminate. }
  assert (No : no_init own) by (intros v [<-|[]]; reflexivity).
  assert (Cy : whole_cycles own own_N) by (intros [|[|i]] v E; cbn in E; try discriminate; injection E as <-; split; try reflexivity; exists 1; reflexivity).
  assert (Fi : work_fits own own_N 4) by (intros [|[|i]] v E; cbn in E; try discriminate; injection E as <-; vm_compute; discriminate).
  assert (P4 : (0 < 4)%Q) by reflexivity.
  exists own, own_N, 4%Q. split; [exact Wf|]. split; [intros c [<-|[]]; reflexivity|]. split; [exact No|]. split; [exact Cy|]. split; [exact P4|]. split; [exact Fi|]. split.
  - destruct (C161_offsets own own_N 4 Wf No Cy P4 (fun i v E _ => Fi i v E)) as (l & E & _). exists l. split; [exact E|]. exact (C161_no_overlap own own_N 4 l Wf No Cy P4 Fi E).
  - intros msolve theta. vm_compute. reflexivity.
Qed.
Print Assumptions C163_self_loop_refuted.
