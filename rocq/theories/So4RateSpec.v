(** What is expected of the throughput of the execution with TDMA slots (property C158). *)
From Coq Require Import QArith.
From Verif Require Import Base Graph So4.
Open Scope Z_scope.

(** The instant at which [j] iterations are done, for a task that fires [rep] times in each: that of
    its firing number [j * rep], in the list of its firings with their instants; 0 at the start. *)
Definition done_at (rep : nat) (firings : list (Z * Q)) (j : nat) : Q :=
  if (j =? 0)%nat then 0%Q else snd (nth (j * rep - 1) firings (0, 0%Q)).

(** [t] is the time that [n] iterations, one after the other, took. *)
Definition measured (rep : nat) (firings : list (Z * Q)) (n : nat) (t : Q) : Prop :=
  (0 < n)%nat /\ exists j, (n <= j)%nat /\ (j * rep <= length firings)%nat /\ (t == done_at rep firings j - done_at rep firings (j - n))%Q.

(** Starts, in whole instants, that respect channels of rate one and their slots: the tokens of a firing
    leave, after its end, at an instant of the slot, and take the route; the firing of the
    consumer that needs them starts no sooner. *)
Definition slot_schedule (g : graph) (slots : Z) (rules : nat -> rule) (start : nat -> nat -> Z) : Prop :=
  (forall i n, 0 <= start i n) /\
  forall k c v d, nth_error (edges g) k = Some c -> nth_error (vertices g) (e_src c) = Some v -> v_durations v = [inject_Z d] ->
    forall n, exists leave, start (e_src c) n + d <= leave /\
      (ru_virtual (rules k) = false -> leave mod slots = ru_slot (rules k)) /\
      leave + (if ru_virtual (rules k) then 0 else ru_hops (rules k)) <= start (e_dst c) (n + Z.to_nat (e_preload c))%nat.
