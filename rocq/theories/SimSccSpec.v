(** Vocabulary of the properties of compute_asap_throughput. *)
From Coq Require Import QArith.
From Verif Require Import Base Graph SccSpec Sim.
Open Scope Z_scope.

Definition whole_number (q : Q) : Prop := exists z, (q == inject_Z z)%Q.
Fixpoint qsum (l : list Q) : Q := match l with [] => 0%Q | x :: l' => (x + qsum l')%Q end.

(** The tasks that are on no cycle of channels have durations that are integers. *)
Definition whole_lone_durations (g : graph) : Prop :=
  forall v d, In v (vertices g) -> (forall l, ~ cycle g (v_id v) l) -> In d (v_durations v) -> whole_number d.

(** One cycle of the phases of such a task lasts no longer than an int can count. *)
Definition short_lone_cycles (g : graph) : Prop :=
  forall v, In v (vertices g) -> (forall l, ~ cycle g (v_id v) l) -> (qsum (v_durations v) <= inject_Z int_max)%Q.
