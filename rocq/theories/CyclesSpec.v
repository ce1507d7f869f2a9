(** What the elementary cycles of a graph are. *)
From Verif Require Import Base Graph SccSpec.
Open Scope Z_scope.

(** Channel [k] leads from task [u] to task [v] (all named by identifier). *)
Definition hop (g : graph) (u k v : Z) : Prop :=
  exists e s t, In e (edges g) /\ nth_error (vertices g) (e_src e) = Some s /\ nth_error (vertices g) (e_dst e) = Some t /\
    e_id e = k /\ v_id s = u /\ v_id t = v.

(** A route: the channels taken, each with the task it leads to. *)
Fixpoint route (g : graph) (u : Z) (p : list (Z * Z)) (v : Z) : Prop :=
  match p with
  | [] => u = v
  | (k, w) :: p' => hop g u k w /\ route g w p' v
  end.

(** An elementary cycle from [s]: a closed route that visits no task twice. *)
Definition elementary (g : graph) (s : Z) (p : list (Z * Z)) : Prop :=
  p <> [] /\ route g s p s /\ NoDup (map snd p).

(** [s] is the smallest of its tasks: every cycle has one such starting point. *)
Definition from_smallest (s : Z) (p : list (Z * Z)) : Prop := forall v, In v (map snd p) -> s <= v.

(** It visits more than one task. *)
Definition several (s : Z) (p : list (Z * Z)) : Prop := exists v, In v (map snd p) /\ v <> s.

(** As it is printed: the tasks in order, the first one again at the end. *)
Definition printed (c : Z * list (Z * Z)) : list Z := fst c :: map snd (snd c).

(** [L] lists once each of the cycles that satisfy [P], each from its smallest task. *)
Definition lists_all (g : graph) (P : Z -> list (Z * Z) -> Prop) (L : list (Z * list (Z * Z))) : Prop :=
  NoDup L /\ forall s p, In (s, p) L <-> elementary g s p /\ from_smallest s p /\ P s p.

(** Identifiers of channels are unique, those of the [n] tasks are 1, ..., n. *)
Definition numbered (g : graph) : Prop :=
  NoDup (map e_id (edges g)) /\ forall v, In v (vertices g) -> 1 <= v_id v <= Z.of_nat (length (vertices g)).
