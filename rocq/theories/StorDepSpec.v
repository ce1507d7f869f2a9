(** Vocabulary of the storage dependency properties. *)
From Coq Require Import QArith.
From Verif Require Import Base Graph ScheduleSpec StorDep.
Open Scope Z_scope.

(** [chain d u l v]: task [u] waits for the first task of [l], which waits for the second, and
    so on up to [v], the last one. *)
Fixpoint chain (d : depgraph) (u : Z) (l : list Z) (v : Z) : Prop :=
  match l with
  | [] => u = v
  | w :: l' => In (u, w) d /\ chain d w l' v
  end.
Definition waits (d : depgraph) (u v : Z) : Prop := exists l, chain d u l v.
(** Dependencies are between tasks of the graph. *)
Definition task_deps (g : graph) (d : depgraph) : Prop :=
  forall u v, In (u, v) d -> In u (ids g) /\ In v (ids g).
(** A channel on a cycle of dependencies: its producer waits for its consumer, which waits, in
    one or more steps or not at all when they are the same, for the producer. *)
Definition on_cycle (g : graph) (d : depgraph) (k : nat) : Prop :=
  exists c, nth_error (edges g) k = Some c /\ In (vid g (e_src c), vid g (e_dst c)) d /\ waits d (vid g (e_dst c)) (vid g (e_src c)).
(** The steps of a chain. *)
Fixpoint steps (u : Z) (l : list Z) : list (Z * Z) :=
  match l with [] => [] | w :: l' => (u, w) :: steps w l' end.
(** Some cycle of dependencies has all its channels among [r]. *)
Definition whole_cycle (g : graph) (d : depgraph) (r : list nat) : Prop :=
  exists u l, l <> [] /\ chain d u l u /\
    forall x y k c, In (x, y) (steps u l) -> nth_error (edges g) k = Some c -> vid g (e_src c) = x -> vid g (e_dst c) = y -> In k r.
