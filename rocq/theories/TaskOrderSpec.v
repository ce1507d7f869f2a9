(** Vocabulary of the task order and cycle removal properties. *)
From Coq Require Import Relations.
From Verif Require Import Base Mapper MapperSpec TaskOrder.
Open Scope nat_scope.

(** What channel [c] holds after the executions [s], listed in order. *)
Definition tokens_after (c : chan) (s : list nat) : Z :=
  (c_tokens c + c_in c * Z.of_nat (count_occ Nat.eq_dec s (c_src c)) - c_out c * Z.of_nat (count_occ Nat.eq_dec s (c_dst c)))%Z.
(** Every execution finds what it consumes. *)
Definition admissible (cs : list chan) (s : list nat) : Prop :=
  forall before t after, s = before ++ t :: after -> forall c, In c cs -> c_dst c = t -> (c_out c <= tokens_after c before)%Z.
(** A whole iteration: [N t] executions of each task [t], of the tasks only. *)
Definition iteration (tasks : list nat) (N : nat -> nat) (s : list nat) : Prop :=
  incl s tasks /\ forall t, In t tasks -> count_occ Nat.eq_dec s t = N t.
(** [l] lists the elements of [s] in the order of their first occurrences. *)
Definition in_first_order (l s : list nat) : Prop :=
  NoDup l /\ (forall t, In t l <-> In t s) /\
  forall a t b, l = a ++ t :: b -> exists p q, s = p ++ t :: q /\ ~ In t p /\ (forall x, In x a <-> In x p).

(** A graph as the program makes them: one identifier per task and per channel, channels between tasks, no
    negative rate. *)
Record sdf_graph (tasks : list nat) (cs : list chan) : Prop := {
  g_tasks : NoDup tasks;
  g_ids : NoDup (map c_id cs);
  g_ends : forall c, In c cs -> In (c_src c) tasks /\ In (c_dst c) tasks;
  g_rates : forall c, In c cs -> (0 <= c_in c)%Z }.

(** Task [b] can be reached from task [a] by one or more channels. *)
Definition reaches (cs : list chan) : nat -> nat -> Prop :=
  clos_trans nat (fun a b => exists c, In c cs /\ c_src c = a /\ c_dst c = b).
(** Channel [c] lies on a cycle through two tasks or more. *)
Definition on_long_cycle (cs : list chan) (c : chan) : Prop := c_src c <> c_dst c /\ reaches cs (c_dst c) (c_src c).
