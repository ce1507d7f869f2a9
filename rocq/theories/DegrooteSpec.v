(** Vocabulary of the properties of the expansion-based throughput. *)
From Coq Require Import QArith.
From Verif Require Import Base Graph KPeriodic ScheduleSpec EventGraphSpec.
Open Scope Z_scope.

(** What MaxCycleRatio is meant to return: the largest ratio of weight 1 over weight 2 over the
    circuits, and a circuit attaining it. *)
Definition exact_maximum (cs : list constraint) (r : Q * list constraint) : Prop :=
  circuit cs (snd r) /\ (0 < sumQ c_d (snd r))%Q /\
  (fst r * sumQ c_d (snd r) == sumQ c_w (snd r))%Q /\
  (forall l, circuit cs l -> (sumQ c_w l <= fst r * sumQ c_d l)%Q).

(** Homogeneous rates: one phase per task, and no task overlaps itself. *)
Definition sdf (g : graph) : Prop := forall v, In v (vertices g) -> v_phases v = 1%nat.
Definition single_server (g : graph) : Prop := forall v, In v (vertices g) -> v_reentrancy v = 1.
