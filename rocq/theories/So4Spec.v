(** What is expected of the execution with TDMA slots (properties C154 and C155). *)
From Coq Require Import QArith.
From Verif Require Import Base Graph Sim SimSpec So4.
Open Scope Z_scope.

(** The states the loop goes through. *)
Inductive so4_reach (g : graph) (slots : Z) (rules : nat -> rule) (w : nat) (rep : Z) : so4 -> Prop :=
| reach_start : so4_reach g slots rules w rep (so4_start g)
| reach_tick m m' : so4_reach g slots rules w rep m -> so4_tick g slots rules w rep m = Ok (So4Running m') -> so4_reach g slots rules w rep m'.

(** The messages sent, and received, in order (the history has its latest event first). *)
Fixpoint sent_list (log : list so4_event) : list message :=
  match log with [] => [] | Sent _ _ x _ :: l => sent_list l ++ [x] | _ :: l => sent_list l end.
Fixpoint received_list (log : list so4_event) : list message :=
  match log with [] => [] | Received x _ :: l => received_list l ++ [x] | _ :: l => received_list l end.
(** The tokens received on channel [k], and taken from it by its consumer. *)
Fixpoint tokens_received (log : list so4_event) (k : nat) : Z :=
  match log with
  | [] => 0
  | Received (_, (k', n)) _ :: l => tokens_received l k + (if (k' =? k)%nat then n else 0)
  | _ :: l => tokens_received l k
  end.
Fixpoint tokens_taken (log : list so4_event) (c : edge) : Z :=
  match log with
  | [] => 0
  | Took i n _ :: l => tokens_taken l c + (if (i =? e_dst c)%nat then nth (Z.to_nat (n mod Z.of_nat (length (e_out c)))) (e_out c) 0 else 0)
  | _ :: l => tokens_taken l c
  end.

(** A message of phase [p] of task [i] on channel [k], sent at [at_]: it carries the tokens of the
    phase; on a virtual channel it arrives at once, otherwise it waits less than a whole round for
    the slot of the channel, then takes its route. *)
Definition message_ok (g : graph) (slots : Z) (rules : nat -> rule) (i : nat) (p : Z) (x : message) (at_ : Q) : Prop :=
  exists c v, nth_error (edges g) (fst (snd x)) = Some c /\ e_src c = i /\ nth_error (vertices g) i = Some v /\
    (1 <= p <= Z.of_nat (v_phases v) -> snd (snd x) = nth (Z.to_nat (p - 1)) (e_in c) 0) /\
    (ru_virtual (rules (fst (snd x))) = true -> fst x = at_) /\
    (ru_virtual (rules (fst (snd x))) = false -> (0 <= at_)%Q -> 0 <= ru_slot (rules (fst (snd x))) < slots ->
       exists wait, 0 <= wait < slots /\ (trunc at_ + wait) mod slots = ru_slot (rules (fst (snd x))) /\
         (fst x == at_ + inject_Z wait + inject_Z (ru_hops (rules (fst (snd x)))))%Q).

(** Rate vectors have one entry for each phase of the task. *)
Definition rates_fit (g : graph) : Prop :=
  forall c, In c (edges g) ->
    (exists v, nth_error (vertices g) (e_src c) = Some v /\ length (e_in c) = v_phases v /\ (0 < v_phases v)%nat) /\
    (exists v, nth_error (vertices g) (e_dst c) = Some v /\ length (e_out c) = v_phases v /\ (0 < v_phases v)%nat).

(** Every task lacks tokens for its first firing on some channel. *)
Definition dead_at_start (g : graph) : Prop :=
  forall i v, nth_error (vertices g) i = Some v -> exists k c, nth_error (edges g) k = Some c /\ e_dst c = i /\ e_preload c < nth 0 (e_out c) 0.

(** The firings started by task [i], with their number and instant, and the phases whose message
    on channel [k] was sent, with the instant, in order. *)
Fixpoint takes (log : list so4_event) (i : nat) : list (Z * Q) :=
  match log with
  | [] => []
  | Took j n at_ :: l => if (j =? i)%nat then takes l i ++ [(n, at_)] else takes l i
  | _ :: l => takes l i
  end.
Fixpoint sends (log : list so4_event) (k : nat) : list (Z * Q) :=
  match log with
  | [] => []
  | Sent _ p x at_ :: l => if (fst (snd x) =? k)%nat then sends l k ++ [(p, at_)] else sends l k
  | _ :: l => sends l k
  end.
(** Each task has a duration, below LONG_MAX, for each phase. *)
Definition durations_fit (g : graph) : Prop :=
  forall v, In v (vertices g) -> (0 < v_phases v)%nat /\ length (v_durations v) = v_phases v /\ forall d, In d (v_durations v) -> (0 <= d < long_max)%Q.
(** The phase of firing [n], from 1, and its duration. *)
Definition phase_of (v : vertex) (n : Z) : Z := n mod Z.of_nat (v_phases v) + 1.
Definition lasts (v : vertex) (n : Z) : Q := nth (Z.to_nat (n mod Z.of_nat (v_phases v))) (v_durations v) 0%Q.
(** No channel has a negative preload or rate. *)
Definition nonnegative (g : graph) : Prop :=
  forall c, In c (edges g) -> 0 <= e_preload c /\ (forall x, In x (e_in c) -> 0 <= x) /\ (forall x, In x (e_out c) -> 0 <= x).
(** The channels task [j] lacks tokens on for its next firing. *)
Definition lacks (g : graph) (m : so4) (j : nat) : Prop :=
  exists k c, nth_error (edges g) k = Some c /\ e_dst c = j /\
    s_tokens (o_state m) k < nth (Z.to_nat (Z.of_nat (length (takes (o_log m) j)) mod Z.of_nat (length (e_out c)))) (e_out c) 0.
