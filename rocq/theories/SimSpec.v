(** Vocabulary of the properties of the self-timed execution. *)
From Coq Require Import QArith.
From Verif Require Import Base Graph ScheduleSpec Sim.
Open Scope Z_scope.

(** Number of firings of task [i] started, and ended, so far. *)
Fixpoint started (log : list event) (i : nat) : nat :=
  match log with
  | [] => O
  | Started j _ :: l => if (j =? i)%nat then S (started l i) else started l i
  | _ :: l => started l i
  end.
Fixpoint ended (log : list event) (i : nat) : nat :=
  match log with
  | [] => O
  | Ended j _ :: l => if (j =? i)%nat then S (ended l i) else ended l i
  | _ :: l => ended l i
  end.

(** The states the loop goes through. *)
Inductive runs_to (g : graph) (w : nat) (rep : Z) (m0 : machine) : machine -> Prop :=
| runs_refl : runs_to g w rep m0 m0
| runs_step m m' : runs_to g w rep m0 m -> tick g w rep m = Ok (Running m') -> runs_to g w rep m0 m'.

(** Channels from a task to itself produce in each phase what they consume. *)
Definition even_self_loops (g : graph) : Prop := forall c, In c (edges g) -> e_src c = e_dst c -> e_in c = e_out c.

(** Every task has an input channel, or with bounded channels any channel. *)
Definition has_input (g : graph) (i : nat) : Prop := exists c, In c (edges g) /\ e_dst c = i.
Definition has_output (g : graph) (i : nat) : Prop := exists c, In c (edges g) /\ e_src c = i.
Definition all_guarded (g : graph) (bounded : bool) : Prop :=
  forall i, (i < length (vertices g))%nat -> has_input g i \/ bounded = true /\ has_output g i.

(** Capacities that hold the initial tokens. *)
Definition capacities_ok (g : graph) (caps : option (nat -> Z)) : Prop :=
  forall cap, caps = Some cap -> forall k c, nth_error (edges g) k = Some c -> e_preload c <= cap k.

(** The instants at which the firings of task [i] started, and ended, in order. *)
Fixpoint starts (log : list event) (i : nat) : list Q :=
  match log with
  | [] => []
  | Started j t :: l => if (j =? i)%nat then starts l i ++ [t] else starts l i
  | _ :: l => starts l i
  end.
Fixpoint ends (log : list event) (i : nat) : list Q :=
  match log with
  | [] => []
  | Ended j t :: l => if (j =? i)%nat then ends l i ++ [t] else ends l i
  | _ :: l => ends l i
  end.

(** No execution lasts LONG_MAX or more. *)
Definition short_durations (g : graph) : Prop :=
  forall v d, In v (vertices g) -> In d (v_durations v) -> (d < long_max)%Q.

(** Every execution takes time. *)
Definition positive_durations (g : graph) : Prop :=
  forall v d, In v (vertices g) -> In d (v_durations v) -> (0 < d)%Q.

(** A schedule valid with the given channel capacities: the space a producer needs is taken
    when it starts and given back when the consumer ends, and never goes below zero. *)
Definition bounded_valid (g : graph) (caps : option (nat -> Z)) (s : schedule) : Prop :=
  schedule_valid g s /\
  forall cap k c, caps = Some cap -> nth_error (edges g) k = Some c ->
    never_negative (cap k - e_preload c) (end_of s g (e_dst c)) (cons_rate c) (start_of s (e_src c)) (prod_rate c).

(** The endless execution: the loop above with a repetition count of 0, which is never reached,
    so that no state is recorded and the loop goes on.  Execution [k] of task [i] starts at [t]. *)
Definition fires_at (g : graph) (caps : option (nat -> Z)) (i k : nat) (t : Q) : Prop :=
  exists m, runs_to g 0 0 (new_machine g caps) m /\ nth_error (starts (m_log m) i) k = Some t.

(** Tasks joined by a chain of channels followed from producer to consumer. *)
Inductive flows (g : graph) (i : nat) : nat -> Prop :=
| flows_refl : flows g i i
| flows_step c : In c (edges g) -> flows g i (e_src c) -> flows g i (e_dst c).
Definition strongly_connected (g : graph) : Prop :=
  forall i j, (i < length (vertices g))%nat -> (j < length (vertices g))%nat -> flows g i j.
