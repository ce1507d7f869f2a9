(** Vocabulary of the K-Iter properties. *)
From Coq Require Import QArith.
From Verif Require Import Base Graph KPeriodic ScheduleSpec EventGraphSpec.
Open Scope Z_scope.

(** Every task runs a whole, positive number of cycles per iteration: its repetition
    count is a multiple of its number of phases. *)
Definition whole_cycles (g : graph) (N : nat -> Z) : Prop :=
  forall i v, nth_error (vertices g) i = Some v -> 0 < N i /\ (Z.of_nat (v_phases v) | N i).

(** The periodicity vector divides the repetition vector: K cycles of a task fit a whole
    number of times in one iteration. *)
Definition divides_iteration (g : graph) (N K : nat -> Z) : Prop :=
  forall i v, nth_error (vertices g) i = Some v -> 0 < K i /\ (K i * Z.of_nat (v_phases v) | N i).

(** Number of cycles of a task per iteration. *)
Definition cycles (g : graph) (N : nat -> Z) (i : nat) : Z :=
  match nth_error (vertices g) i with Some v => N i / Z.of_nat (v_phases v) | None => 0 end.

(** [i] produces on one of the channels of [cc]. *)
Definition on_circuit (cc : list edge) (i : nat) : Prop := exists c, In c cc /\ e_src c = i.

(** [G] is the greatest common divisor of the cycle counts of the tasks of [cc]. *)
Definition is_cycle_gcd (g : graph) (N : nat -> Z) (cc : list edge) (G : Z) : Prop :=
  0 <= G /\ (forall i, on_circuit cc i -> (G | cycles g N i)) /\
  (forall d, (forall i, on_circuit cc i -> (d | cycles g N i)) -> (d | G)).

(** The executions of [s] take at most [omega] per iteration on average: execution [m] of
    task [i] belongs to iteration m/N(i) and starts at most a bounded time after the
    instant [omega] * m/N(i). *)
Definition keeps_pace (g : graph) (N : nat -> Z) (s : schedule) (omega : Q) : Prop :=
  exists B : Q, forall i m, (i < length (vertices g))%nat ->
    (s i m <= B + omega * (inject_Z (Z.of_nat m) / inject_Z (N i)))%Q.

(** Only finitely many executions of a task start before any given instant. *)
Definition non_zeno (g : graph) (s : schedule) : Prop :=
  forall i t, (i < length (vertices g))%nat -> exists m, (t < s i m)%Q.

(** What MinCycleRatio is meant to return for an event graph: the smallest
    weight/duration ratio over its circuits, and a circuit attaining it. *)
Definition exact_answer (cs : list constraint) (r : Q * list constraint) : Prop :=
  circuit cs (snd r) /\ (0 < sumQ c_d (snd r))%Q /\
  (fst r * sumQ c_d (snd r) == sumQ c_w (snd r))%Q /\
  (forall l, circuit cs l -> (fst r * sumQ c_d l <= sumQ c_w l)%Q).

(** Channel identifiers are positive and distinct (models/Dataflow.h 482-494; C10). *)
Definition edge_ids_ok (g : graph) : Prop :=
  NoDup (map e_id (edges g)) /\ forall c, In c (edges g) -> 0 < e_id c.
