(** Vocabulary of the properties of the monotonic optimisation with knee sets. *)
From Coq Require Import QArith.
From Verif Require Import Base Graph Storage StorageSpec.
Open Scope Z_scope.

(** The channels that can be resized: those whose identifier is above half their number, when the
    bounded buffers are channels of the graph. *)
Definition resizable (K : list Z) (e : Z) : Prop := In e K /\ Z.of_nat (length K) / 2 < e.
(** The channels handleInfeasiblePoint looks at. *)
Definition considered (bounded : bool) (K : list Z) (e : Z) : Prop := In e K /\ (bounded = true -> Z.of_nat (length K) / 2 < e).

(** [v] is [d] with one token less on the channel [c]. *)
Definition one_less (K : list Z) (d : sd) (c : Z) (v : sd) : Prop :=
  quantity v c = quantity d c - 1 /\ forall e, In e K -> e <> c -> quantity v e = quantity d e.
(** [v] is [d] with twice the capacity on the critical channels that can be resized. *)
Definition doubled (K critical : list Z) (d v : sd) : Prop :=
  forall e, In e K -> (In e critical -> resizable K e -> quantity v e = 2 * quantity d e) /\ (~ (In e critical /\ resizable K e) -> quantity v e = quantity d e).
