(** Vocabulary of the repetition vector properties. *)
From Verif Require Import Base Graph ScheduleSpec.
Open Scope Z_scope.

(** What the builder guarantees about the parts used here: channels join tasks of the
    graph, have one rate per phase, and rates are not negative. *)
Definition rates_wf (g : graph) : Prop :=
  (forall v, In v (vertices g) -> (0 < v_phases v)%nat) /\
  forall c, In c (edges g) -> exists vs vd,
    nth_error (vertices g) (e_src c) = Some vs /\ nth_error (vertices g) (e_dst c) = Some vd /\
    length (e_in c) = v_phases vs /\ length (e_out c) = v_phases vd /\
    (forall x, In x (e_in c ++ e_out c) -> 0 <= x).

(** Each channel moves tokens on both sides. *)
Definition moves_tokens (g : graph) : Prop :=
  forall c, In c (edges g) -> 0 < sumZ (e_in c) /\ 0 < sumZ (e_out c).

(** A positive solution of the balance equations. *)
Definition solution (g : graph) (N : nat -> Z) : Prop :=
  (forall i, (i < length (vertices g))%nat -> 0 < N i) /\ balanced g N.

(** A vector given as a list. *)
Definition as_vector (l : list Z) : nat -> Z := fun i => nth i l 0.

(** The task is an end of some channel. *)
Definition has_channel (g : graph) (i : nat) : Prop :=
  exists c, In c (edges g) /\ (e_src c = i \/ e_dst c = i).

(** Tasks linked by channels, in either direction. *)
Inductive linked (g : graph) : nat -> nat -> Prop :=
| linked_refl i : linked g i i
| linked_fwd i c : In c (edges g) -> linked g i (e_src c) -> linked g i (e_dst c)
| linked_bwd i c : In c (edges g) -> linked g i (e_dst c) -> linked g i (e_src c).

Definition connected_graph (g : graph) : Prop :=
  forall i j, (i < length (vertices g))%nat -> (j < length (vertices g))%nat -> linked g i j.
