(** Vocabulary of the buffer sizing properties. *)
From Coq Require Import QArith.
From Verif Require Import Base Graph ScheduleSpec KPeriodicEnd DseSpec SPeriodicSpec Sizing.
Open Scope Z_scope.

(** ** Linear programs. *)
Definition row_value (x : var -> Q) (r : row) : Q := fold_right (fun vc acc => snd vc * x (fst vc) + acc)%Q 0%Q (row_coefs r).
Definition objective (p : lp) (x : var -> Q) : Q := fold_right (fun c acc => col_cost c * x (col_var c) + acc)%Q 0%Q (columns p).
Definition in_bound (b : bound) (q : Q) : Prop :=
  match b with FixBound v => (q == v)%Q | LowBound v => (v <= q)%Q | NoBound => True end.
Definition feasible (p : lp) (x : var -> Q) : Prop :=
  (forall r, In r (rows p) -> (row_low r <= row_value x r)%Q) /\
  (forall c, In c (columns p) -> in_bound (col_bound c) (x (col_var c)) /\ (col_int c = true -> exists z, (x (col_var c) == inject_Z z)%Q)).
Definition optimal (p : lp) (x : var -> Q) : Prop :=
  feasible p x /\ forall y, feasible p y -> (objective p x <= objective p y)%Q.

(** ** Capacities. *)
(** The storage taken by capacities [cap], a token of channel [k] taking [theta k]. *)
Definition storage (g : graph) (theta cap : nat -> Z) : Z := sumf (fun k => cap k * theta k) (length (edges g)).

(** No channel [k] ever needs more than [cap k] tokens of room. *)
Definition fits (g : graph) (cap : nat -> Z) (s : schedule) : Prop :=
  forall k c, nth_error (edges g) k = Some c ->
    within_capacity (cap k) (e_preload c) (start_of s (e_src c)) (prod_rate c) (end_of s g (e_dst c)) (cons_rate c).

(** A 1-periodic schedule: each task repeats its phases with the iteration, whose length is [period]. *)
Definition one_periodic (g : graph) (N : nat -> Z) (period : Q) (s : schedule) : Prop :=
  periodic_schedule g N (fun _ => 1) period s.

(** Within these capacities the graph can run 1-periodically at this period. *)
Definition runs_within (g : graph) (N : nat -> Z) (period : Q) (cap : nat -> Z) : Prop :=
  exists s, one_periodic g N period s /\ schedule_valid g s /\ fits g cap s.

(** The phases of every task start at fixed distances from the first one. *)
Definition follows_offsets (g : graph) (offs : nat -> list Q) (s : schedule) : Prop :=
  exists base : nat -> Q, forall i v a, nth_error (vertices g) i = Some v -> (a < v_phases v)%nat ->
    (s i a == base i + nth a (offs i) 0)%Q.
Definition runs_within_offsets (g : graph) (N : nat -> Z) (offs : nat -> list Q) (period : Q) (cap : nat -> Z) : Prop :=
  exists s, one_periodic g N period s /\ follows_offsets g offs s /\ schedule_valid g s /\ fits g cap s.

(** Offsets with which no task overlaps itself: one per phase, each phase ends before the
    next one starts, and the last before the first of the next iteration. *)
Definition offsets_fit (g : graph) (N : nat -> Z) (offs : nat -> list Q) (period : Q) : Prop :=
  forall i v, nth_error (vertices g) i = Some v ->
    length (offs i) = v_phases v /\
    (forall a, (S a < v_phases v)%nat -> (nth a (offs i) 0 + exec_duration v a <= nth (S a) (offs i) 0)%Q) /\
    (forall a, S a = v_phases v ->
      (nth a (offs i) 0 + exec_duration v a <= nth 0 (offs i) 0 + period * inject_Z (Z.of_nat (v_phases v)) / inject_Z (N i))%Q).

(** No task may run two executions at once. *)
Definition no_reentrancy (g : graph) : Prop := forall v, In v (vertices g) -> 0 < v_reentrancy v.

(** Evenly spaced executions within these capacities. *)
Definition runs_evenly (g : graph) (N : nat -> Z) (period : Q) (cap : nat -> Z) : Prop :=
  exists s, evenly_spaced g N period s /\ schedule_valid g s /\ fits g cap s.

(** Total duration of the first [n] phases; the work of every task fits in its share of the period. *)
Fixpoint elapsed (v : vertex) (n : nat) : Q := match n with O => 0%Q | S n' => (elapsed v n' + exec_duration v n')%Q end.
Definition work_fits (g : graph) (N : nat -> Z) (period : Q) : Prop := forall i v, nth_error (vertices g) i = Some v ->
  (elapsed v (v_phases v) <= period * inject_Z (Z.of_nat (v_phases v)) / inject_Z (N i))%Q.

(** The solver gives a point of the problem, or says rightly that there is none; [best]: the
    point is an optimal one. *)
Definition solves (best : bool) (solve : lp -> option (var -> Q)) (p : lp) : Prop :=
  match solve p with
  | Some x => feasible p x /\ (best = true -> optimal p x)
  | None => forall x, ~ feasible p x
  end.
