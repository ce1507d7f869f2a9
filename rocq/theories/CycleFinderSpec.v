(** Vocabulary of the cycle search. *)
From Coq Require Import Relations Permutation Sorted.
From Verif Require Import Base.
Open Scope nat_scope.

Definition follows (d : list (nat * nat)) (a b : nat) : Prop := In (a, b) d.
(** Zero or more channels lead from [a] to [b]. *)
Definition leads_to (d : list (nat * nat)) : nat -> nat -> Prop := clos_refl_trans nat (follows d).

(** The tasks of the list follow each other by channels and the last one ends in [z]. *)
Fixpoint chain (d : list (nat * nat)) (l : list nat) (z : nat) : Prop :=
  match l with
  | [] => True
  | [x] => follows d x z
  | x :: (y :: _) as l' => follows d x y /\ chain d l' z
  end.
(** An elementary cycle, from its task [u] on. *)
Definition elementary (d : list (nat * nat)) (u : nat) (l : list nat) : Prop := NoDup l /\ hd_error l = Some u /\ chain d l u.
(** Task [u] lies on a cycle through another task. *)
Definition on_cycle (d : list (nat * nat)) (u : nat) : Prop := exists w, w <> u /\ leads_to d u w /\ leads_to d w u.
(** [s] lists the tasks of a cycle, in increasing order, that can be reached from [v]; the cycle goes through a
    task that lies on a cycle through another task. *)
Definition cycle_from (d : list (nat * nat)) (v : nat) (s : list nat) : Prop :=
  StronglySorted lt s /\ exists u l, leads_to d v u /\ on_cycle d u /\ elementary d u l /\ Permutation s l.
