(** Vocabulary of the path-search properties. *)
From Verif Require Import Base Noc NocPath.
Open Scope nat_scope.

(** [l] lists the vertices met from [u] to [d] following [link]. *)
Fixpoint follows (link : nat -> nat -> Prop) (u : nat) (l : list nat) (d : nat) : Prop :=
  match l with
  | [] => False
  | x :: l' => x = u /\ match l' with [] => u = d | y :: _ => link u y /\ follows link y l' d end
  end.
(** No path from [u] to [d] has fewer links. *)
Definition fewest_links (link : nat -> nat -> Prop) (u : nat) (l : list nat) (d : nat) : Prop :=
  follows link u l d /\ forall l', follows link u l' d -> length l <= length l'.

(** The links of the network, and those whose use is at most [m]. *)
Definition has_link (g : graph) (x y : nat) : Prop := In y (g_adj g x).
Definition use_of (g : graph) (x y : nat) : Z := nth (map_index (g_v g) x y) (g_util g) 0%Z.
Definition free_link (g : graph) (m : Z) (x y : nat) : Prop := In y (g_adj g x) /\ (use_of g x y <= m)%Z.

(** Every link leads to a vertex of the network. *)
Definition closed_links (g : graph) : Prop := forall x y, x < g_v g -> In y (g_adj g x) -> y < g_v g.
(** Every link has an entry among the uses. *)
Definition all_counted (g : graph) : Prop := forall x y, x < g_v g -> In y (g_adj g x) -> map_index (g_v g) x y < length (g_util g).

(** The use of the most used link of a path (0 at least). *)
Fixpoint contention (g : graph) (l : list nat) : Z :=
  match l with
  | [] => 0
  | x :: l' => match l' with [] => 0 | y :: _ => Z.max (use_of g x y) (contention g l') end
  end%Z.
(** The same network with other uses of the links. *)
Definition with_uses (g : graph) (uses : list Z) : graph := mkGraph (g_v g) (g_adj g) uses.
(** The links of a path, and those that stay between routers. *)
Definition path_links (l : list nat) : list (nat * nat) := combine l (tl l).
Definition inner_links (l : list nat) : list (nat * nat) := tl (removelast (path_links l)).
