(** Vocabulary of the properties of the knee points. *)
From Verif Require Import Base Storage StorageSpec.
Open Scope Z_scope.

(** [v] has on each channel the smallest (largest) quantity of the distributions of [l]. *)
Definition lowest (K : list Z) (l : list sd) (v : sd) : Prop :=
  (forall p, In p l -> below K v p) /\ (forall e, In e K -> exists p, In p l /\ quantity v e = quantity p e).
Definition highest (K : list Z) (l : list sd) (v : sd) : Prop :=
  (forall p, In p l -> below K p v) /\ (forall e, In e K -> exists p, In p l /\ quantity v e = quantity p e).

(** [l] has two distributions that differ. *)
Definition two_differ (K : list Z) (l : list sd) : Prop := exists a b, In a l /\ In b l /\ ~ same K a b.

(** [v] is an inner knee of the points: the minimum of at least two different ones. *)
Definition inner_knee (K : list Z) (points : list sd) (v : sd) : Prop :=
  exists l, incl l points /\ two_differ K l /\ lowest K l v.

(** [v] is the edge knee of a buffer: the largest quantities, but for the lower bound of the buffer. *)
Definition edge_knee (K : list Z) (points : list sd) (bound : Z) (c : Z) (v : sd) : Prop :=
  exists top, highest K points top /\ ~ same K v top /\ quantity v c = bound /\ (forall e, In e K -> e <> c -> quantity v e = quantity top e).

(** What the update is to collect: the points stored before, the inner knees of the infeasible
    points, and the edge knees of the buffers that are neither infeasible nor feasible points. *)
Definition collected (K buffers : list Z) (lb : bounds) (infeasible feasible knees : sds) (v : sd) : Prop :=
  has_sd v knees = Ok true \/ inner_knee K (flat infeasible) v \/
  (has_sd v infeasible = Ok false /\ has_sd v feasible = Ok false /\ exists c, In c buffers /\ edge_knee K (flat infeasible) (bound_of lb c) c v).
