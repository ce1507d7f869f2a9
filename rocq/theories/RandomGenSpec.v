(** Vocabulary of the random generator's properties. *)
From Coq Require Import QArith.
From Verif Require Import Base Graph ScheduleSpec KIterSpec RandomGen.
Open Scope Z_scope.

(** What the configuration asks of a task, of a channel, of the graph. *)
Definition task_fits (cf : config) (v : vertex) : Prop :=
  1 <= Z.of_nat (v_phases v) <= cf_max_phases cf /\
  Z.of_nat (v_init_phases v) <= cf_max_init_phases cf /\
  length (v_durations v) = v_phases v /\ length (v_init_durations v) = v_init_phases v /\
  (forall d, In d (v_durations v ++ v_init_durations v) -> exists n, d = inject_Z n /\ 1 <= n <= cf_max_duration cf) /\
  v_reentrancy v = (if cf_no_reentrancy cf then 0 else 1).

Definition channel_fits (cf : config) (c : edge) : Prop :=
  1 <= sumZ (e_in c) <= cf_max_weight cf /\ 1 <= sumZ (e_out c) <= cf_max_weight cf /\
  0 <= sumZ (e_in_init c) <= cf_max_weight cf /\ 0 <= sumZ (e_out_init c) <= cf_max_weight cf /\
  e_preload c = 0 /\ (cf_no_self_loop cf = true -> e_src c <> e_dst c).

(** Identifiers 1, 2, ... in order. *)
Definition numbered (ids : list Z) : Prop := forall k id, nth_error ids k = Some id -> id = Z.of_nat k + 1.

Definition graph_fits (cf : config) (g : graph) : Prop :=
  cf_min_vertices cf <= Z.of_nat (length (vertices g)) <= cf_max_vertices cf /\
  cf_min_edges cf <= Z.of_nat (length (edges g)) <= cf_max_edges cf /\
  numbered (map v_id (vertices g)) /\ numbered (map e_id (edges g)) /\
  (forall v, In v (vertices g) -> task_fits cf v) /\ (forall c, In c (edges g) -> channel_fits cf c).

(** Configurations for which a graph can be drawn. *)
Definition acceptable (cf : config) : Prop :=
  1 <= cf_min_vertices cf <= cf_max_vertices cf /\ 1 <= cf_min_edges cf <= cf_max_edges cf /\
  1 <= cf_max_duration cf /\ 1 <= cf_max_weight cf /\ 1 <= cf_max_phases cf /\ 0 <= cf_max_init_phases cf /\
  (cf_no_self_loop cf = true -> 2 <= cf_min_vertices cf).

(** The stream does not insist on one task: among any [fuel] draws one differs from [s]. *)
Definition varied (rnd : nat -> Z) (fuel : nat) : Prop :=
  forall n s p, 2 <= n -> exists k, (k < fuel)%nat /\ 1 + rnd (p + k)%nat mod n <> s.

(** The two graphs differ in initial tokens only, and the second has at least as many. *)
Definition same_but_tokens (c c' : edge) : Prop :=
  e_id c' = e_id c /\ e_src c' = e_src c /\ e_dst c' = e_dst c /\ e_in c' = e_in c /\ e_out c' = e_out c /\
  e_in_init c' = e_in_init c /\ e_out_init c' = e_out_init c /\ e_preload c <= e_preload c'.
Definition more_tokens (g g' : graph) : Prop :=
  vertices g' = vertices g /\ Forall2 same_but_tokens (edges g) (edges g').

(** The solver answers exactly on every event graph whose circuits take time. *)
Definition exact_solver (solve : list KPeriodic.constraint -> Q * list KPeriodic.constraint) : Prop :=
  forall cs, (forall c, In c cs -> (0 < KPeriodic.c_d c)%Q) -> (exists l, EventGraphSpec.circuit cs l) -> exact_answer cs (solve cs).

(** Tokens a channel carries per iteration, and a bound on what the marking may leave in
    it: that many times the number of executions of an iteration, and some. *)
Definition carried (N : nat -> Z) (c : edge) : Z := sumZ (e_in c) * N (e_src c) / Z.of_nat (length (e_in c)).
Definition token_bound (g : graph) (N : nat -> Z) (c : edge) : Z :=
  (sumf N (length (vertices g)) + 2) * carried N c + e_preload c.
