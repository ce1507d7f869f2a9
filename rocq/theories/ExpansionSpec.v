(** Vocabulary of the expansion-graph property. *)
From Coq Require Import QArith.
From Verif Require Import Base Graph KPeriodic ScheduleSpec Expansion.
Open Scope Z_scope.

(** The schedule denoted by start times of the events: task [i] repeats groups of [K i]
    executions, one group every [omega * Z i * K i], where [Z i] is its weight. *)
Definition group_period (omega : Q) (z K : Z) : Q := (omega * inject_Z (z * K))%Q.
Definition denoted (g : graph) (zs : list Z) (K : nat -> Z) (omega : Q) (St : event -> Q) : schedule := fun i m =>
  match nth_error (vertices g) i with
  | Some v => let k := Z.to_nat (K i) in
              (St (mkEvent (v_id v) 1 (Z.of_nat (m mod k) + 1)) + inject_Z (Z.of_nat (m / k)) * group_period omega (nth i zs 0%Z) (K i))%Q
  | None => 0%Q
  end.

(** The executions of every task start in order. *)
Definition in_order (g : graph) (s : schedule) : Prop :=
  forall i m, (i < length (vertices g))%nat -> (s i m <= s i (S m))%Q.

(** Every channel always holds the tokens taken from it.  Executions of a task may overlap. *)
Definition channels_valid (g : graph) (s : schedule) : Prop := forall c, In c (edges g) -> channel_valid g s c.

(** Every task runs once every [omega] times its weight. *)
Definition even_rhythm (g : graph) (zs : list Z) (omega : Q) (s : schedule) : Prop :=
  forall i m, (i < length (vertices g))%nat -> (s i m == s i 0%nat + inject_Z (Z.of_nat m) * (omega * inject_Z (nth i zs 0%Z)))%Q.

(** The same schedule with every task starting [n] of its executions later. *)
Definition later (n : nat) (s : schedule) : schedule := fun i m => s i (n + m)%nat.

Definition single_phase_graph (g : graph) : Prop := forall v, In v (vertices g) -> v_phases v = 1%nat.
