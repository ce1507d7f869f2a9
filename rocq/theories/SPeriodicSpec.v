(** Vocabulary of the strictly periodic properties. *)
From Coq Require Import QArith.
From Verif Require Import Base Graph KPeriodic ScheduleSpec.
Open Scope Z_scope.

(** Every task starts at a fixed interval: [N i] executions of task [i] per iteration of
    length [omega], evenly spaced. *)
Definition evenly_spaced (g : graph) (N : nat -> Z) (omega : Q) (s : schedule) : Prop :=
  forall i m, (i < length (vertices g))%nat ->
    (s i m == s i 0%nat + inject_Z (Z.of_nat m) * (omega / inject_Z (N i)))%Q.

(** The same graph with every phase as long as the longest phase of its task. *)
Definition longest (v : vertex) (d : Q) : Prop :=
  In d (v_durations v) /\ forall x, In x (v_durations v) -> (x <= d)%Q.
Definition slowed_vertex (v v' : vertex) : Prop :=
  exists d, longest v d /\
    v' = mkVertex (v_id v) (v_phases v) (v_init_phases v) (map (fun _ => d) (v_durations v)) (v_init_durations v) (v_reentrancy v).
Definition slowed (g g' : graph) : Prop := Forall2 slowed_vertex (vertices g) (vertices g') /\ edges g' = edges g.

(** The evenly spaced schedule whose tasks start at the times [S] gives their only event
    <task,1,1>. *)
Definition sp_times (g : graph) (N : nat -> Z) (omega : Q) (S : event -> Q) : schedule := fun i m =>
  match nth_error (vertices g) i with
  | Some v => (S (mkEvent (v_id v) 1 1) + inject_Z (Z.of_nat m) * (omega / inject_Z (N i)))%Q
  | None => 0%Q
  end.

(** [v] is the throughput of the best evenly spaced schedule; when it is not positive there
    is no such schedule at all. *)
Definition best_even_throughput (g : graph) (N : nat -> Z) (v : Q) : Prop :=
  ((0 < v)%Q -> exists s, evenly_spaced g N (/ v) s /\ schedule_valid g s) /\
  (forall omega s, evenly_spaced g N omega s -> schedule_valid g s -> (0 < v)%Q /\ (/ v <= omega)%Q).
