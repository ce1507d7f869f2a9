(** Schedules of graphs some of whose tasks may overlap themselves. *)
From Coq Require Import QArith.
From Verif Require Import Base Graph ScheduleSpec.
Open Scope Z_scope.

(** Models/Dataflow.h 103, SDF3Wrapper.cpp 501: a task whose reentrancy factor is 0 may start again before it
    has finished.  No channel ever goes negative; only the tasks of positive factor are serialised. *)
Definition reentrant_valid (g : graph) (s : schedule) : Prop :=
  (forall c, In c (edges g) -> channel_valid g s c) /\
  (forall i v, nth_error (vertices g) i = Some v -> 0 < v_reentrancy v -> task_serialised s i v).
(** Only finitely many executions of a task have started at any given instant, in whatever order. *)
Definition finitely_started (g : graph) (s : schedule) : Prop :=
  forall i t, (i < length (vertices g))%nat -> exists m, forall n, (m <= n)%nat -> (t < s i n)%Q.
Definition single_phase (g : graph) : Prop := forall v, In v (vertices g) -> v_phases v = 1%nat /\ v_init_phases v = 0%nat.
