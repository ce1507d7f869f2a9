(** What removing tasks, and clearing their reentrancy factors, must do. *)
From Coq Require Import QArith Ascii String.
From Verif Require Import Base Graph Builder.
Open Scope Z_scope.

(** The tasks meant by a list of names and a list of identifiers. *)
Definition meant (names : list string) (ids : list Z) (b : bvertex) : bool :=
  existsb (String.eqb (bv_name b)) names || existsb (Z.eqb (bv_id b)) ids.
(** Neither end of a channel is one of them. *)
Definition apart (s : state) (pick : bvertex -> bool) (e : bedge) : bool :=
  match nth_error (s_vs s) (be_src e), nth_error (s_vs s) (be_dst e) with
  | Some a, Some b => negb (pick a) && negb (pick b)
  | _, _ => false
  end.
(** Every name and every identifier is that of one task, and no task is meant twice. *)
Definition each_once (s : state) (names : list string) (ids : list Z) : Prop :=
  NoDup names /\ NoDup ids /\
  (forall n, In n names -> exists b, In b (s_vs s) /\ bv_name b = n) /\
  (forall i, In i ids -> exists b, In b (s_vs s) /\ bv_id b = i /\ ~ In (bv_name b) names).
(** The same task, its reentrancy factor aside. *)
Definition cleared (b : bvertex) : bvertex :=
  mkBVertex (bv_id b) (bv_name b) (bv_phases b) (bv_init_phases b) (bv_durations b) (bv_init_durations b) 0 (bv_Ni b).
