(** What the monotonic optimisation relies on and what it should give. *)
From Coq Require Import QArith.
From Verif Require Import Base Graph Storage StorageSpec.
Open Scope Z_scope.

(** More storage never hurts. *)
Definition monotone (K : list Z) (thr : sd -> Q) : Prop :=
  forall a b, valid K a -> valid K b -> below K a b -> (thr a <= thr b)%Q.
(** The throughput depends on the quantities alone. *)
Definition reads_quantities (K : list Z) (thr : sd -> Q) : Prop :=
  forall a b, valid K a -> valid K b -> same K a b -> (thr a == thr b)%Q.
(** Only more storage on the critical edges can help. *)
Definition critical_decide (K : list Z) (thr : sd -> Q) (critical : sd -> list Z) : Prop :=
  forall a b, valid K a -> valid K b -> critical a <> [] -> (forall e, In e (critical a) -> In e K -> quantity b e <= quantity a e) -> (thr b <= thr a)%Q.

(** With feedback channels, the edges of the first half are those of the user: they hold no
    storage of their own. *)
Definition feedback (K : list Z) (e : Z) : Prop := Z.of_nat (length K) / 2 < e.
Record feedback_storage (K : list Z) (d : sd) : Prop := {
  fs_valid : valid K d;
  fs_user : forall e, In e K -> ~ feedback K e -> quantity d e = 0;
  fs_feedback : forall e, In e K -> feedback K e -> 1 <= quantity d e < int_max }.
(** While the target is not reached, some critical feedback channel is smaller than [N]. *)
Definition can_progress (K : list Z) (thr : sd -> Q) (critical : sd -> list Z) (target : Q) (init : sd) (N : Z) : Prop :=
  forall d, valid K d -> below K init d -> (forall e, In e K -> ~ feedback K e -> quantity d e = 0) -> (thr d < target)%Q ->
  exists e, In e (critical d) /\ In e K /\ feedback K e /\ quantity d e < N.
(** The same over a given list of buffers. *)
Definition storage_on (buffers K : list Z) (d : sd) : Prop := forall e, In e K -> ~ In e buffers -> quantity d e = 0.
Definition starts_from (buffers : list Z) (init : sd) : Prop := forall e, In e buffers -> 1 <= quantity init e < int_max.
