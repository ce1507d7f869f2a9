(** Tasks that use the same link of a router. *)
From Coq Require Import QArith Relations.
From Verif Require Import Base Graph Overlaps.
Open Scope Z_scope.

(** The task [v], of identifier [id], stands for the crossing of the router [r] from the link [a]
    to the link [b]: it is mapped to the router, its only input comes from a task mapped to [a] and
    its only output goes to a task mapped to [b]. *)
Definition crosses (net : network) (g : graph) (mapping : nat -> Z) (v : nat) (r a b id : Z) : Prop :=
  (exists x, nth_error (vertices g) v = Some x /\ v_id x = id) /\ mapping v = r /\ is_link net r = false /\ is_node net r = true /\ is_router net r = true /\
  exists i o, inputs g v = [i] /\ outputs g v = [o] /\ mapping (e_src i) = a /\ mapping (e_dst o) = b.

(** Two crossings of [r] have a link in common. *)
Definition meet (net : network) (g : graph) (mapping : nat -> Z) (r id id' : Z) : Prop :=
  exists v a b v' a' b', crosses net g mapping v r a b id /\ crosses net g mapping v' r a' b' id' /\ (a = a' \/ b = b' \/ a = b' \/ b = a').
(** They are linked by crossings of [r] that have links in common. *)
Definition linked (net : network) (g : graph) (mapping : nat -> Z) (r : Z) : Z -> Z -> Prop := clos_refl_trans Z (meet net g mapping r).

(** One of the links of the crossing [v] is used by no earlier crossing of the router. *)
Definition opens (net : network) (g : graph) (mapping : nat -> Z) (v : nat) (r a b : Z) : Prop :=
  exists x, (x = a \/ x = b) /\ forall v' a' b' id', (v' < v)%nat -> crosses net g mapping v' r a' b' id' -> x <> a' /\ x <> b'.

(** What the program takes for granted of the tasks and the network. *)
Definition sound_task (net : network) (g : graph) (mapping : nat -> Z) (v : nat) : Prop :=
  0 <= mapping v /\ (is_link net (mapping v) = negb (is_node net (mapping v))) /\
  (is_node net (mapping v) = true -> is_router net (mapping v) = true ->
     exists i o, inputs g v = [i] /\ outputs g v = [o] /\ is_link net (mapping (e_src i)) = true /\ is_link net (mapping (e_dst o)) = true /\
       link_dst net (mapping (e_src i)) = mapping v /\ link_src net (mapping (e_dst o)) = mapping v).
