(** What the offsets of Wiggers are compared with. *)
From Coq Require Import QArith.
From Verif Require Import Base Graph ScheduleSpec Sizing SizingSpec Wiggers.
Open Scope Z_scope.

(** The time a task has for one cycle of its phases. *)
Definition cycle_time (N : nat -> Z) (period : Q) (i : nat) (v : vertex) : Q :=
  (period * inject_Z (Z.of_nat (v_phases v)) / inject_Z (N i))%Q.

(** Every task of several phases can run all of them in that time. *)
Definition several_fit (g : graph) (N : nat -> Z) (period : Q) : Prop :=
  forall i v, nth_error (vertices g) i = Some v -> (2 <= v_phases v)%nat -> (elapsed v (v_phases v) <= cycle_time N period i v)%Q.

(** The offsets [o] of a task of several phases push its phases towards the end of the cycle: one
    offset per phase, no phase starts before it could at the earliest, each ends before the next
    starts, and the last ends with the cycle. *)
Definition pushed_back (v : vertex) (cycle : Q) (o : list Q) : Prop :=
  length o = v_phases v /\
  (forall a, (a < v_phases v)%nat -> (elapsed v a <= nth a o 0)%Q) /\
  (forall a, (S a < v_phases v)%nat -> (nth a o 0 + exec_duration v a <= nth (S a) o 0)%Q) /\
  (forall a, S a = v_phases v -> (nth a o 0 + exec_duration v a == cycle)%Q).

(** The offsets a user asks for: BURST starts each phase as soon as the one before ends, AVERAGE
    spreads these times over the cycle, WIGGERS pushes the phases back. *)
Definition kind_is (g : graph) (N : nat -> Z) (period : Q) (kind : offset_kind) (offs : nat -> list Q) : Prop :=
  forall i v, nth_error (vertices g) i = Some v ->
  match kind with
  | OffBurst => forall a, (a < v_phases v)%nat -> (nth a (offs i) 0 == elapsed v a)%Q
  | OffAverage => forall a, (a < v_phases v)%nat -> (nth a (offs i) 0 == elapsed v a * (cycle_time N period i v / elapsed v (v_phases v)))%Q
  | OffWiggers => (v_phases v = 1%nat -> offs i = [0%Q]) /\ ((2 <= v_phases v)%nat -> pushed_back v (cycle_time N period i v) (offs i))
  | _ => False
  end.

(** ** Where a phase is put. *)
(** Tokens a channel receives from the phases before [a]. *)
Definition received (c : edge) (a : nat) : Z := sumZ (firstn a (e_in c)).
(** The size of the packets of a channel: the greatest number dividing what a cycle of its source
    produces and what every phase of its target takes. *)
Definition packet (c : edge) (l : Z) : Prop :=
  0 < l /\ forall d, (d | l) <-> (d | sumZ (e_in c)) /\ forall x, In x (e_out c) -> (d | x).
(** The line of a channel rises by a cycle of tokens in each cycle; at the earliest end of the
    phase [a0] that completes the first packet it is at 1, or at a packet and 1 when tokens of
    that packet were there before.  [b] is the time at which it reaches the first multiple of the
    packet above what was received before phase [a]. *)
Definition line_time (c : edge) (v : vertex) (cycle : Q) (a : nat) (b : Q) : Prop :=
  exists l a0, packet c l /\ (a0 < v_phases v)%nat /\ received c a0 < l <= received c (S a0) /\
    let level := if received c a0 =? 0 then 1 else l + 1 in
    (b == elapsed v (S a0) + inject_Z (l * (received c a / l + 1) - level) * (cycle / inject_Z (sumZ (e_in c))))%Q.
(** Each phase but the last ends as late as the start of the next phase and the lines of the
    output channels allow, but never before its earliest end. *)
Definition as_late (g : graph) (i : nat) (v : vertex) (cycle : Q) (o : list Q) : Prop :=
  forall a, (S a < v_phases v)%nat ->
    let e := (nth a o 0 + exec_duration v a)%Q in
    (forall c, In c (edges g) -> e_src c = i -> exists b, line_time c v cycle a b /\ ((e <= b)%Q \/ (e == elapsed v (S a))%Q)) /\
    ((e == nth (S a) o 0)%Q \/ (e == elapsed v (S a))%Q \/ exists c b, In c (edges g) /\ e_src c = i /\ line_time c v cycle a b /\ (e == b)%Q).
