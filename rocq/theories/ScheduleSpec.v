(** Specification of valid schedules of a CSDF channel / graph, independent of the
    event-graph machinery.

    A task's executions are numbered 0,1,2,... in firing order: first the initial
    phases (once each), then the periodic phases 1..P over and over.  A schedule gives
    each execution a start time. *)
From Coq Require Import QArith.
From Verif Require Import Base Graph.
Open Scope Z_scope.

(** Sum of [f 0 + ... + f (n-1)]. *)
Fixpoint sumf (f : nat -> Z) (n : nat) : Z :=
  match n with O => 0 | S n' => sumf f n' + f n' end.

(** Number of tokens moved by those of the first [n] executions whose instant [at m]
    is no later than [t]. *)
Definition moved_by (at_ : nat -> Q) (rate : nat -> Z) (n : nat) (t : Q) : Z :=
  sumf (fun m => if Qle_bool (at_ m) t then rate m else 0) n.

(** The channel never goes negative.  Tokens are consumed when the consumer starts and
    appear when the producer ends: whatever the instant [t], whatever finite number of
    consumer executions one looks at, the tokens consumed by time [t] are covered by the
    initial tokens plus what finitely many producer executions completed by [t] deliver. *)
Definition never_negative (preload : Z) (prod_end : nat -> Q) (prod : nat -> Z)
    (cons_start : nat -> Q) (cons : nat -> Z) : Prop :=
  forall (t : Q) (nc : nat), exists np : nat,
    moved_by cons_start cons nc t <= preload + moved_by prod_end prod np t.

(** Executions of a task never overlap and follow the firing order. *)
Definition serialised (start dur : nat -> Q) : Prop :=
  forall m, (start m + dur m <= start (S m))%Q.

(** Value attached to execution [m]: initial values once, then the periodic ones. *)
Definition cyclic {A} (d : A) (init per : list A) (m : nat) : A :=
  if (m <? length init)%nat then nth m init d
  else nth ((m - length init) mod length per) per d.

Definition prod_rate (c : edge) : nat -> Z := cyclic 0 (e_in_init c) (e_in c).
Definition cons_rate (c : edge) : nat -> Z := cyclic 0 (e_out_init c) (e_out c).
Definition exec_duration (v : vertex) : nat -> Q := cyclic 0%Q (v_init_durations v) (v_durations v).

(** A schedule of the whole graph: vertex index, execution number -> start time. *)
Definition schedule := nat -> nat -> Q.
Definition start_of (s : schedule) (i : nat) : nat -> Q := s i.
Definition end_of (s : schedule) (g : graph) (i : nat) : nat -> Q :=
  fun m => match nth_error (vertices g) i with
           | Some v => (s i m + exec_duration v m)%Q
           | None => s i m
           end.

Definition channel_valid (g : graph) (s : schedule) (c : edge) : Prop :=
  never_negative (e_preload c) (end_of s g (e_src c)) (prod_rate c)
                 (start_of s (e_dst c)) (cons_rate c).

Definition task_serialised (s : schedule) (i : nat) (v : vertex) : Prop :=
  serialised (start_of s i) (exec_duration v).

(** A valid schedule: no channel ever goes negative and no task overlaps itself. *)
Definition schedule_valid (g : graph) (s : schedule) : Prop :=
  (forall c, In c (edges g) -> channel_valid g s c) /\
  (forall i v, nth_error (vertices g) i = Some v -> task_serialised s i v).

(** Shape of a well-formed CSDF graph (what the builder API produces, C15). *)
Definition edge_wf (g : graph) (c : edge) : Prop :=
  exists vs vd, nth_error (vertices g) (e_src c) = Some vs /\
    nth_error (vertices g) (e_dst c) = Some vd /\
    length (e_in c) = v_phases vs /\ length (e_out c) = v_phases vd /\
    length (e_in_init c) = v_init_phases vs /\ length (e_out_init c) = v_init_phases vd /\
    (forall x, In x (e_in c ++ e_out c ++ e_in_init c ++ e_out_init c) -> 0 <= x) /\
    0 < sumZ (e_in c) /\ 0 < sumZ (e_out c) /\ 0 <= e_preload c.

Definition vertex_wf (v : vertex) : Prop :=
  (0 < v_phases v)%nat /\ length (v_durations v) = v_phases v /\
  length (v_init_durations v) = v_init_phases v /\
  (forall x, In x (v_durations v ++ v_init_durations v) -> (0 <= x)%Q).

Definition graph_wf (g : graph) : Prop :=
  (forall v, In v (vertices g) -> vertex_wf v) /\
  (forall c, In c (edges g) -> edge_wf g c) /\
  NoDup (map v_id (vertices g)).

(** [N] is a repetition vector: per iteration a channel receives as many tokens as
    it delivers (N counts phase executions, so N/phases full cycles). *)
Definition balanced (g : graph) (N : nat -> Z) : Prop :=
  forall c, In c (edges g) ->
    sumZ (e_in c) * N (e_src c) * Z.of_nat (length (e_out c)) =
    sumZ (e_out c) * N (e_dst c) * Z.of_nat (length (e_in c)).

(** No initial phases anywhere. *)
Definition no_init (g : graph) : Prop :=
  (forall v, In v (vertices g) -> v_init_phases v = 0%nat).
