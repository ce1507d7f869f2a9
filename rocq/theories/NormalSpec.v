(** Vocabulary of the normalisation property. *)
From Coq Require Import QArith.
From Verif Require Import Base Graph ScheduleSpec RepVecSpec.
Open Scope Z_scope.

(** Each task has a positive integer weight, each channel a positive coefficient; the
    coefficient times a total rate is the weight of the task on that side, and every rate of
    the channel times the coefficient is an integer. *)
Definition normalised (g : graph) (zs : list Z) (alpha : nat -> option Q) : Prop :=
  length zs = length (vertices g) /\
  (forall i, (i < length (vertices g))%nat -> 0 < nth i zs 0) /\
  (forall k c, nth_error (edges g) k = Some c -> exists a, alpha k = Some a /\ (0 < a)%Q /\
     (a * inject_Z (sumZ (e_in c)) == inject_Z (nth (e_src c) zs 0%Z))%Q /\
     (a * inject_Z (sumZ (e_out c)) == inject_Z (nth (e_dst c) zs 0%Z))%Q /\
     (forall x, In x (e_in c ++ e_out c) -> exists y, (a * inject_Z x == inject_Z y)%Q)).

(** Every task is an end of a channel, or there are no channels at all. *)
Definition no_lone_task (g : graph) : Prop :=
  edges g = [] \/ forall i, (i < length (vertices g))%nat -> has_channel g i.
