(** Vocabulary of the exploration of throughputs by bisection. *)
From Coq Require Import QArith.
From Verif Require Import Base Graph SizingSpec.
Open Scope Z_scope.

(** A longer period never needs a larger size. *)
Definition slower_never_larger (sizing : Q -> outcome Z) : Prop :=
  forall p q zp zq, sizing p = Ok zp -> sizing q = Ok zq -> (p <= q)%Q -> zq <= zp.

(** [z] is the least storage with which the graph runs 1-periodically at this period. *)
Definition least_storage (g : graph) (N : nat -> Z) (theta : nat -> Z) (period : Q) (z : Z) : Prop :=
  (exists cap, runs_within g N period cap /\ storage g theta cap = z) /\
  (forall cap, runs_within g N period cap -> z <= storage g theta cap).
