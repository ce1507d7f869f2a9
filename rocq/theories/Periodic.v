(** Model of the periodic schedulings built on the K-periodic event graph,
    algorithms/scheduling/CSDF_KPeriodicScheduling.cpp. *)
From Coq Require Import QArith.
From Verif Require Import Base Graph KPeriodic EventGraph KIter.
Open Scope Z_scope.

(** models::Scheduling, models/Scheduling.h 49-60: period, tasks, critical channels. *)
Record scheduling := mkScheduling { sd_period : Q; sd_tasks : list task_schedule; sd_critical : list edge }.

(** [generateNPeriodicVector] 15-23 and [generate1PeriodicVector] 26-38. *)
Definition n_periodic_vector (N : nat -> Z) : nat -> Z := N.
Definition one_periodic_vector : nat -> Z := fun _ => 1.

Section Solver.
(** [solve] is MinCycleRatio; [arrange] the heap order of the set of critical channels. *)
Variable solve : list constraint -> Q * list constraint.
Variable arrange : list edge -> list edge.

(** [CSDF_KPeriodicScheduling] 97-251: the loop is that of compute_Kperiodic_throughput
    (KIter.v), then [period2Scheduling], kperiodic.cpp 163-169.  1.0/throughput is
    infinite for a zero throughput, reported here as Undefined. *)
Definition kperiodic_scheduling (fuel : nat) (g : graph) (N : nat -> Z) : outcome scheduling :=
  do rkc <- kiter solve arrange fuel StronglyOptimized g N;
  let '(r, K, _) := rkc in
  if Qeq_bool (kr_throughput r) 0 then Undefined
  else do ts <- period2scheduling g N K (kr_throughput r);
       Ok (mkScheduling (/ kr_throughput r)%Q ts (kr_critical r)).

(** [CSDF_1PeriodicScheduling] 41-94; the starts are pushed in event creation order, which
    for K = 1 is phase order.  No test on the sign of omega here. *)
Definition one_periodic_scheduling (g : graph) (N : nat -> Z) : outcome scheduling :=
  do cs <- generate_event_graph StronglyOptimized g N one_periodic_vector;        (* 54 *)
  let res := fst (solve cs) in                                                     (* 58-60 *)
  if Qeq_bool res 0 then Undefined
  else
    let omega := (/ res)%Q in                                                      (* 78 *)
    let St := fst (compute_starting_time (event_list g one_periodic_vector) cs (Some omega)) in
    Ok (mkScheduling omega (retrieve_starts g N one_periodic_vector omega St)
          (arrange (critical_set g (snd (solve cs))))).

(** The value printed by [CSDF_1PeriodicThroughput] 253-269 and
    [CSDF_NPeriodicThroughput] 294-310. *)
Definition periodic_throughput (K : nat -> Z) (g : graph) (N : nat -> Z) : outcome Q :=
  do cs <- generate_event_graph StronglyOptimized g N K;
  Ok (fst (solve cs)).
End Solver.
