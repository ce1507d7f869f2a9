(** Vocabulary of the whole mapping. *)
From Verif Require Import Base Noc NocPath NocPathSpec TaskOrder.
Open Scope nat_scope.

(** [x] is the identifier of a core of the network. *)
Definition core_node (n : noc) (x : nat) : Prop := exists k, In k (nodes n) /\ n_id k = Z.of_nat x /\ n_core k = true.
(** The links of [r] follow each other from node [x] to node [y], and no path has fewer. *)
Definition joins (n : noc) (r : list nat) (x y : nat) : Prop :=
  exists l, fewest_links (has_link (make_graph n)) x l y /\ map (map_index_pair (g_v (make_graph n))) r = path_links l.
(** Every task has a core of its own, and every channel a route from the core of its producer to the core of
    its consumer. *)
Record mapped (n : noc) (tasks : list nat) (cs : list chan) (m : nat -> option nat) (routes : nat -> option (list nat)) : Prop := {
  m_core : forall t, In t tasks -> exists x, m t = Some x /\ core_node n x;
  m_own : forall t t' x, In t tasks -> In t' tasks -> m t = Some x -> m t' = Some x -> t = t';
  m_route : forall c, In c cs -> exists x y r, m (c_src c) = Some x /\ m (c_dst c) = Some y /\ routes (c_id c) = Some r /\ joins n r x y }.
