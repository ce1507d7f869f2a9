(** Vocabulary of the periodic scheduling properties. *)
From Coq Require Import QArith.
From Verif Require Import Base Graph KPeriodic ScheduleSpec EventGraphSpec KPeriodicEnd KIterSpec.
Open Scope Z_scope.

(** [th] is the throughput of the best schedule, periodic or not; when it is not positive
    no schedule keeps any pace. *)
Definition best_throughput (g : graph) (N : nat -> Z) (th : Q) : Prop :=
  ((0 < th)%Q -> exists s, schedule_valid g s /\ non_zeno g s /\ keeps_pace g N s (/ th)) /\
  (forall s omega, schedule_valid g s -> non_zeno g s -> keeps_pace g N s omega -> (0 < th)%Q /\ (/ th <= omega)%Q).

(** [th] is the throughput of the best schedule among those that repeat K cycles of each task. *)
Definition best_periodic_throughput (g : graph) (N K : nat -> Z) (th : Q) : Prop :=
  ((0 < th)%Q -> exists s, schedule_valid g s /\ periodic_schedule g N K (/ th) s) /\
  (forall s omega, schedule_valid g s -> (0 <= omega)%Q -> periodic_schedule g N K omega s -> (0 < th)%Q /\ (/ th <= omega)%Q).
