(** Vocabulary of the exploration with K-Iter as the evaluation. *)
From Coq Require Import QArith.
From Verif Require Import Base Graph ScheduleSpec EventGraphSpec KPeriodic KIter KIterSpec Storage StorageSpec Dse DseSpec.
Open Scope Z_scope.

(** Channel [c'] asks at least as much as [c] of a schedule: same tasks and rates, no more tokens. *)
Definition no_easier (c' c : edge) : Prop :=
  e_src c' = e_src c /\ e_dst c' = e_dst c /\ e_in c' = e_in c /\ e_out c' = e_out c /\
  e_in_init c' = e_in_init c /\ e_out_init c' = e_out_init c /\ e_preload c' <= e_preload c.

(** The channels of the graph with feedback channels, and the identifier and the capacity of the
    feedback channel of the [k]-th channel. *)
Definition all_ids (g : graph) : list Z := map e_id (edges (with_feedback g)).
Definition feedback_id (g : graph) (k : nat) : Z := Z.of_nat (length (edges g)) + 1 + Z.of_nat k.
Definition buffers (g : graph) (d : sd) (k : nat) : Z := quantity d (feedback_id g k).

(** The first distribution: the initial tokens of every channel are recorded with its feedback
    channel and fit in it. *)
Definition first_distribution (g : graph) (init : sd) : Prop :=
  valid (all_ids g) init /\ (forall e, In e (all_ids g) -> 0 <= quantity init e) /\
  forall k c, nth_error (edges g) k = Some c ->
    get_tokens init (feedback_id g k) = Ok (e_preload c) /\ e_preload c <= buffers g init k.

(** [thr] and [critical] are, on the distributions explored, what K-Iter answers on the graph
    whose feedback channels hold the distribution, with an exact solver of the last event graph. *)
Definition kiter_evaluates (solve : list constraint -> Q * list constraint) (arrange : list edge -> list edge) (fuel : nat) (var : variant)
    (g : graph) (N : nat -> Z) (step : Z -> Z) (init : sd) (thr : sd -> Q) (critical : sd -> list Z) : Prop :=
  forall d, on_grid (all_ids g) (Z.of_nat (length (edges g))) step init d -> exists h r K cs,
    load_distribution (Z.of_nat (length (edges g))) d (with_feedback g) = Ok h /\
    kiter solve arrange fuel var h N = Ok (r, K, cs) /\ exact_answer cs (solve cs) /\
    (thr d == kr_throughput r)%Q /\ critical d = map e_id (kr_critical r).

(** The evaluation itself, as a function of the distribution. *)
Definition kiter_answer (solve : list constraint -> Q * list constraint) (arrange : list edge -> list edge) (fuel : nat) (var : variant)
    (g : graph) (N : nat -> Z) (d : sd) : option kresult :=
  match load_distribution (Z.of_nat (length (edges g))) d (with_feedback g) with
  | Ok h => match kiter solve arrange fuel var h N with Ok (r, _, _) => Some r | _ => None end
  | _ => None
  end.
Definition kiter_thr solve arrange fuel var g N d : Q :=
  match kiter_answer solve arrange fuel var g N d with Some r => kr_throughput r | None => 0%Q end.
Definition kiter_critical solve arrange fuel var g N d : list Z :=
  match kiter_answer solve arrange fuel var g N d with Some r => map e_id (kr_critical r) | None => [] end.

(** What the exploration needs of the graph and of the search parameters. *)
Record explorable (g : graph) (N : nat -> Z) (step : Z -> Z) (init : sd) : Prop := {
  x_wf : graph_wf g;
  x_balanced : balanced g N;
  x_no_init : no_init g;
  x_no_overlap : forall v, In v (vertices g) -> 0 < v_reentrancy v;
  x_cycles : whole_cycles g N;
  x_ids : forall c, In c (edges g) -> 0 < e_id c <= Z.of_nat (length (edges g));
  x_channels : channel_list (all_ids g);
  x_first : first_distribution g init;
  x_step : forall k, (k < length (edges g))%nat -> 0 < step (feedback_id g k) }.

(** The starting points of both searches: the same room and step for every channel, and nothing
    counted for the channels themselves when the room is held by feedback channels. *)
Definition same_start (g : graph) (step : Z -> Z) (init : sd) (stepf : Z -> Z) (initf : sd) : Prop :=
  forall k c, nth_error (edges g) k = Some c ->
    buffers g initf k = quantity init (e_id c) /\ stepf (feedback_id g k) = step (e_id c) /\ quantity initf (e_id c) = 0.
