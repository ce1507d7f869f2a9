(** A CSDF graph as seen by the analyses: the read accessors of models/Dataflow.h.
    The builder API (ids, names, flags, caches) is modelled separately in Builder.v.

    A vertex descriptor ([VertexD]) of the vector-backed adjacency list
    (models/Dataflow.h 108-113) is a position in [vertices]; an edge is its record. *)
From Coq Require Import QArith.
From Verif Require Import Base.
Open Scope Z_scope.

(** Vertex properties used by the analyses, models/Dataflow.h 74-84. *)
Record vertex := mkVertex {
  v_id : Z;                    (* vertex_index2 *)
  v_phases : nat;              (* vertex_phasecount *)
  v_init_phases : nat;         (* vertex_initphasecount *)
  v_durations : list Q;        (* vertex_phaseduration *)
  v_init_durations : list Q;   (* vertex_initphaseduration *)
  v_reentrancy : Z             (* vertex_reentrancy *)
}.

(** Edge properties used by the analyses, models/Dataflow.h 86-101. *)
Record edge := mkEdge {
  e_id : Z;                    (* edge_index *)
  e_src : nat;
  e_dst : nat;
  e_in : list Z;               (* edge_inputs : production rates *)
  e_out : list Z;              (* edge_outputs : consumption rates *)
  e_in_init : list Z;          (* edge_init_inputs *)
  e_out_init : list Z;         (* edge_init_outputs *)
  e_preload : Z                (* edge_preload *)
}.

Record graph := mkGraph { vertices : list vertex; edges : list edge }.

Definition sumZ (l : list Z) : Z := fold_right Z.add 0 l.

(** [getEdgeIn] / [getEdgeOut], models/Dataflow.h 774 and 689: the totals stored by
    setEdgeInPhases / setEdgeOutPhases.  (That the stored total may differ from the
    sum beyond 32 bits is property C14, modelled in Builder.v.) *)
Definition edge_in_total (c : edge) : Z := sumZ (e_in c).
Definition edge_out_total (c : edge) : Z := sumZ (e_out c).

Definition at_index {A} (l : list A) (i : Z) : outcome A :=
  if i <? 0 then Rejected
  else match nth_error l (Z.to_nat i) with Some x => Ok x | None => Rejected end.

(** [getEdgeInPhase], models/Dataflow.h 775-787: phases <= 0 index the initial phases;
    [at] throws when out of range. *)
Definition edge_in_phase (c : edge) (k : Z) : outcome Z :=
  if k <=? 0 then at_index (e_in_init c) (k + Z.of_nat (length (e_in_init c)) - 1)
  else at_index (e_in c) (k - 1).

(** [getEdgeOutPhase], models/Dataflow.h 720-735. *)
Definition edge_out_phase (c : edge) (k : Z) : outcome Z :=
  if k <=? 0 then at_index (e_out_init c) (k + Z.of_nat (length (e_out_init c)) - 1)
  else at_index (e_out c) (k - 1).

(** [getVertexDuration(t,k)], models/Dataflow.h 882-888 ([% vec.size()] is undefined
    for an empty vector). *)
Definition vertex_duration (v : vertex) (k : Z) : outcome Q :=
  if k <=? 0 then at_index (v_init_durations v) (k + Z.of_nat (v_init_phases v) - 1)
  else do i <- cmod (k - 1) (Z.of_nat (length (v_durations v))); at_index (v_durations v) i.

(** [computeFineGCD], models/Dataflow.h 918-934 (initial phases are not included). *)
Definition fine_gcd (c : edge) : outcome Z :=
  do g0 <- edge_in_phase c 1;
  Ok (fold_left Z.gcd (e_out c) (fold_left Z.gcd (e_in c) g0)).
