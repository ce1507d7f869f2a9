(** Specification side of the K-periodic results: the infinite schedule denoted by the
    start times of the events and the normalised period [omega]. *)
From Coq Require Import QArith.
From Verif Require Import Base Graph KPeriodic ScheduleSpec.
Open Scope Z_scope.

(** Execution [m] of a task in the K-periodic schedule: initial phase [j] (counted
    ..,-1,0) starts at its event's time; otherwise, with r the rank among the periodic
    executions, it is phase (r mod P)+1 of occurrence ((r / P) mod K)+1, shifted by as
    many task periods as there were complete groups of K cycles before it. *)
Definition kperiodic_start (S : event -> Q) (v : vertex) (K : nat) (T : Q) (m : nat) : Q :=
  let i0 := v_init_phases v in
  let P := v_phases v in
  if (m <? i0)%nat then S (mkEvent (v_id v) (Z.of_nat m + 1 - Z.of_nat i0) 1)
  else let r := (m - i0)%nat in
       (S (mkEvent (v_id v) (Z.of_nat (r mod P) + 1) (Z.of_nat ((r / P) mod K) + 1))
        + inject_Z (Z.of_nat (r / (K * P))) * T)%Q.

(** Period of a task: omega is the duration of one graph iteration, during which the
    task executes [N] phases; K cycles of P phases therefore take omega*K*P/N
    (period2scheduling, kperiodic.cpp 196). *)
Definition task_period (omega : Q) (K P N : Z) : Q := (omega * inject_Z (K * P) / inject_Z N)%Q.

Definition kperiodic_schedule (g : graph) (N K : nat -> Z) (omega : Q) (S : event -> Q) : schedule :=
  fun i m => match nth_error (vertices g) i with
             | Some v => kperiodic_start S v (Z.to_nat (K i))
                           (task_period omega (K i) (Z.of_nat (v_phases v)) (N i)) m
             | None => 0%Q
             end.

(** A start-time assignment satisfies a constraint at period [omega]
    (models/EventGraph.h 40-55: t(target) - t(source) >= d - omega*w). *)
Definition satisfies (omega : Q) (S : event -> Q) (c : constraint) : Prop :=
  (S (c_source c) + c_d c - omega * c_w c <= S (c_target c))%Q.
