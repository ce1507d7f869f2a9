(** What it means for a channel to be slowed down by the network. *)
From Coq Require Import QArith.
From Verif Require Import Base Graph ScheduleSpec.
Open Scope Z_scope.

(** Tokens are consumed no earlier than [delay] after the end of the execution that produced them. *)
Definition delayed_valid (g : graph) (s : schedule) (c : edge) (delay : Q) : Prop :=
  forall (t : Q) (nc : nat), exists np : nat,
    moved_by (start_of s (e_dst c)) (cons_rate c) nc t <= e_preload c + moved_by (end_of s g (e_src c)) (prod_rate c) np (t - delay)%Q.

(** Two rate vectors agree on the first tasks. *)
Definition same_counts (g : graph) (N N' : nat -> Z) : Prop := forall i, (i < length (vertices g))%nat -> N' i = N i.

(** The channel between two tasks has a route, or the channel is marked virtual. *)
Definition routed (route : Z -> list Z) (virtual : Z -> bool) (g : graph) : Prop :=
  forall c, In c (edges g) -> e_src c <> e_dst c -> route (e_id c) <> [] \/ virtual (e_id c) = true.
(** Number of links that the tokens of a channel cross. *)
Definition hops (route : Z -> list Z) (c : edge) : nat :=
  if (e_src c =? e_dst c)%nat then 0%nat else length (route (e_id c)).
(** The links that the tokens of a channel cross, in order. *)
Definition crossed (route : Z -> list Z) (c : edge) : list Z :=
  if (e_src c =? e_dst c)%nat then [] else route (e_id c).
