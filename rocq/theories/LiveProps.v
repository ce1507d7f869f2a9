(** C101: liveness. *)
From Coq Require Import QArith Permutation.
From Verif Require Import Base Graph KPeriodic ScheduleSpec KPeriodicProps KIterSpec KIter KIterProps RepVec RepVecSpec RepVecProofs RepVecProps Sim SimSpec SimFinal SimScc SimProps SymbExec SymbExecSpec SymbExecProofs SymbExecFinal SymbExecProps LiveProofs.
Open Scope Z_scope.

(** A graph has a valid schedule exactly when some order of executions completes an
    iteration; it then has one that keeps up with some period. *)
Theorem C101_schedulable_iff_live : forall g N, graph_wf g -> no_init g -> balanced g N -> whole_cycles g N -> vertices g <> [] -> positive_durations g ->
  (live g N <-> exists s, schedule_valid g s) /\
  (live g N <-> exists s omega, schedule_valid g s /\ non_zeno g s /\ keeps_pace g N s omega).
Proof.
  intros g N WF NI B C NE PD. assert (L0 : (0 < length (vertices g))%nat) by (destruct (vertices g); [congruence|cbn; lia]).
  assert (CY : forall i v, nth_error (vertices g) i = Some v -> has_channel g i -> (Z.of_nat (v_phases v) | N i)) by (intros i v E _; apply (C i v E)).
  assert (PS : forall i, (i < length (vertices g))%nat -> 0 < N i).
  { intros i Hi. destruct (nth_error (vertices g) i) as [v|] eqn:E; [apply (C i v E)|apply nth_error_None in E; lia]. }
  assert (A : live g N -> exists s omega, schedule_valid g s /\ non_zeno g s /\ keeps_pace g N s omega) by (apply live_schedule; auto).
  assert (D : forall s, schedule_valid g s -> live g N) by (intros s V; apply (schedule_live g WF NI N B CY PS s V PD)).
  split; split.
  - intros L. destruct (A L) as (s & _ & V & _). eauto.
  - intros (s & V). eauto.
  - exact A.
  - intros (s & _ & V & _). eauto.
Qed.
Print Assumptions C101_schedulable_iff_live.

(** K-Iter reports a positive throughput exactly on live graphs. *)
Theorem C101_kiter_decides_liveness : forall solve arrange var g N fuel r K cs, (forall l, Permutation (arrange l) l) ->
  graph_wf g -> balanced g N -> no_init g -> no_overlap g -> whole_cycles g N -> edge_ids_ok g -> vertices g <> [] -> positive_durations g ->
  (S (Z.to_nat (sumf (cycles g N) (length (vertices g)))) <= fuel)%nat ->
  kiter solve arrange fuel var g N = Ok (r, K, cs) -> exact_answer cs (solve cs) ->
  ((0 < kr_throughput r)%Q <-> live g N).
Proof.
  intros solve arrange var g N fuel r K cs Ha WF B NI NO C ID NE PD Fu E X.
  destruct (C55_kiter_optimal solve arrange var g N fuel r K cs Ha WF B NI NO C ID Fu E X) as [P Z0].
  destruct (C101_schedulable_iff_live g N WF NI B C NE PD) as [I1 I2]. split.
  - intros Q. destruct (P Q) as [(s & _ & V & _) _]. apply I1. eauto.
  - intros L. destruct (Qlt_le_dec 0 (kr_throughput r)) as [Q|Q]; [exact Q|exfalso]. apply I2 in L. destruct L as (s & om & V & NZ & KP). exact (Z0 Q s om V NZ KP).
Qed.
Print Assumptions C101_kiter_decides_liveness.

(** The simulation reports a deadlock only on graphs that are not live, a throughput only on
    live ones. *)
Theorem C101_simulation_decides_liveness : forall g ticks N, graph_wf g -> no_init g -> even_self_loops g -> all_guarded g false -> vertices g <> [] ->
  connected_graph g -> positive_durations g -> short_durations g ->
  compute_repetition_vector (length (vertices g)) g = Ok (Some N) ->
  (component_throughput (length (vertices g)) ticks g None = Ok Deadlock -> ~ live g (as_vector N)) /\
  (forall n T, component_throughput (length (vertices g)) ticks g None = Ok (Periodic n T) -> live g (as_vector N)).
Proof.
  intros g ticks N WF NI EV GD NE CG PD SD RV. destruct (rv_for_scheduling g _ N WF NE (le_n _) (guarded_lonely g None GD) RV) as [B C].
  destruct (C101_schedulable_iff_live g (as_vector N) WF NI B C NE PD) as [I1 I2]. split.
  - intros D L. apply I1 in L. destruct L as (s & V). apply (component_deadlock g None _ ticks WF NI EV GD NE (le_n _) PD SD D s). split; [exact V|discriminate].
  - intros n T E. destruct (component_exact g None _ ticks WF NI EV GD CG NE (le_n _) n T ltac:(unfold capacities_ok; intros; discriminate) PD E) as (_ & _ & _ & _ & (s & SV & _) & _). apply I1. exists s. apply SV.
Qed.
Print Assumptions C101_simulation_decides_liveness.

(** On synchronous graphs the three analyses agree: symbolic execution ends exactly when
    K-Iter finds a positive throughput. *)
Theorem C101_symbolic_agrees_with_kiter : forall solve arrange var g N fuel passes r K cs, (forall l, Permutation (arrange l) l) ->
  graph_wf g -> no_init g -> no_overlap g -> edge_ids_ok g -> vertices g <> [] -> positive_durations g -> single_phase g ->
  compute_repetition_vector (length (vertices g)) g = Ok (Some N) ->
  (S (Z.to_nat (sumf (cycles g (as_vector N)) (length (vertices g)))) <= fuel)%nat -> sumZ N <= Z.of_nat passes ->
  kiter solve arrange fuel var g (as_vector N) = Ok (r, K, cs) -> exact_answer cs (solve cs) ->
  ((0 < kr_throughput r)%Q <-> symbolic_execution passes g = Ok true).
Proof.
  intros solve arrange var g N fuel passes r K cs Ha WF NI NO ID NE PD SDF RV Fu Fp E X. destruct (rv_facts g N WF NE RV) as (Ln & Ps & B & _).
  assert (C : whole_cycles g (as_vector N)).
  { intros i v Ev. split; [apply Ps; apply nth_error_Some; congruence|]. rewrite (SDF v (nth_error_In _ _ Ev)). apply Z.divide_1_l. }
  rewrite (C101_kiter_decides_liveness solve arrange var g (as_vector N) fuel r K cs Ha WF B NI NO C ID NE PD Fu E X).
  apply (C97_synchronous_exact g N passes WF NI (proj1 ID) NE RV SDF Fp).
Qed.
Print Assumptions C101_symbolic_agrees_with_kiter.

(** [ring] is live, K-Iter's theorem applies to it. *)
Lemma ring_positive : positive_durations ring. Proof. intros v d [<-|[<-|[]]] [<-|[]]; reflexivity. Qed.
Lemma ring_balanced : balanced ring (as_vector [2; 1]). Proof. intros c [<-|[<-|[]]]; reflexivity. Qed.
Lemma ring_cycles : whole_cycles ring (as_vector [2; 1]).
Proof. intros [|[|[|i]]] v E; try discriminate; injection E as <-; (split; [reflexivity|apply Z.divide_1_l]). Qed.
Example ring_has_schedule : exists s omega, schedule_valid ring s /\ non_zeno ring s /\ keeps_pace ring (as_vector [2; 1]) s omega.
Proof.
  apply (C101_schedulable_iff_live ring (as_vector [2; 1]) ring_wf ring_no_init ring_balanced ring_cycles ltac:(discriminate) ring_positive). exact ring_live.
Qed.

(** [short_ring] has no schedule at all. *)
Example short_ring_no_schedule : forall s, ~ schedule_valid short_ring s.
Proof.
  intros s V. apply short_ring_dead. apply (proj1 (C101_schedulable_iff_live short_ring (fun i => nth i [2; 1] 0) short_ring_wf ltac:(intros v [<-|[<-|[]]]; reflexivity) ltac:(intros c [<-|[<-|[]]]; reflexivity)
    ltac:(intros [|[|[|i]]] v E; try discriminate; injection E as <-; (split; [reflexivity|apply Z.divide_1_l])) ltac:(discriminate) ltac:(intros v d [<-|[<-|[]]] [<-|[]]; reflexivity))).
  exists s. exact V.
Qed.

(** The example of K-Iter meets the hypotheses of [C101_kiter_decides_liveness]. *)
Example ex_live : live ex_graph ex_N.
Proof.
  destruct ex_kiter as (r & K & cs & E & T & _ & _ & X).
  apply (C101_kiter_decides_liveness ex_solve (fun l => l) StronglyOptimized ex_graph ex_N 6 r K cs (fun l => Permutation_refl l) ex_wf ex_balanced ex_no_init ex_no_overlap ex_whole_cycles ex_edge_ids ltac:(discriminate)).
  - intros v d [<-|[<-|[]]] Hd; cbn in Hd; intuition (subst; reflexivity).
  - vm_compute. lia.
  - exact E.
  - exact X.
  - rewrite T. reflexivity.
Qed.
