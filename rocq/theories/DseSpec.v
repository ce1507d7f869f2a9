(** Vocabulary of the exploration properties. *)
From Coq Require Import QArith.
From Verif Require Import Base Graph Storage StorageSpec ScheduleSpec.
Open Scope Z_scope.

(** The distributions the exploration ranges over: at least the initial one on every channel,
    by a whole number of steps, equal to it on the channels that are not feedback channels, with the
    same initial tokens. *)
Definition on_grid (K : list Z) (count : Z) (step : Z -> Z) (init d : sd) : Prop :=
  valid K d /\ (forall e, In e K -> get_tokens d e = get_tokens init e) /\ forall e, In e K ->
    (count < e -> exists k, 0 <= k /\ quantity d e = quantity init e + k * step e) /\
    (e <= count -> quantity d e = quantity init e).

(** What is assumed of the evaluation on these distributions: it depends on the quantities only,
    critical edges are channels, and a distribution above [d] with a better throughput has more room on some
    critical feedback channel of [d]. *)
Record sound_evaluation (K : list Z) (count : Z) (step : Z -> Z) (init : sd) (thr : sd -> Q) (critical : sd -> list Z) : Prop := {
  same_thr : forall a b, on_grid K count step init a -> on_grid K count step init b -> same K a b -> (thr a == thr b)%Q;
  critical_channels : forall d e, on_grid K count step init d -> In e (critical d) -> In e K;
  critical_room : forall a b, on_grid K count step init a -> on_grid K count step init b -> below K a b -> (0 < thr b)%Q -> (thr a < thr b)%Q ->
    exists e, In e (critical a) /\ count < e /\ quantity a e < quantity b e }.

(** Larger storage never pays without more throughput; equal storage has equal throughput. *)
Definition pareto (s : sds) : Prop :=
  forall x y, In x (flat s) -> In y (flat s) ->
    (sd_size x < sd_size y -> (sd_thr x < sd_thr y)%Q) /\ (sd_size x = sd_size y -> (sd_thr x == sd_thr y)%Q).

(** A channel with room for [cap] tokens: space is claimed when the producer starts and
    released when the consumer ends.  At any instant the claimed space fits, whatever finite
    number of producer executions one looks at, for some finite number of consumer executions. *)
Definition within_capacity (cap preload : Z) (prod_start : nat -> Q) (prod : nat -> Z) (cons_end : nat -> Q) (cons : nat -> Z) : Prop :=
  forall (t : Q) (np : nat), exists nc : nat,
    preload + moved_by prod_start prod np t - moved_by cons_end cons nc t <= cap.
