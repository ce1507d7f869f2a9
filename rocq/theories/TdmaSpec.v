(** What is expected of a TDMA schedule of packets (properties C150 to C153). *)
From Verif Require Import Base Noc Tdma.
Open Scope Z_scope.

(** The slot given to a pair: the last line of the slot file for it. *)
Definition pair_slot (lines : list (Z * Z * Z)) (s d : Z) : option Z :=
  fold_left (fun acc l => let '(s', d', v) := l in if (s' =? s) && (d' =? d) then Some v else acc) lines None.

(** The packets with their identifiers. *)
Definition is_packet (packets : list packet) (i : Z) (p : packet) : Prop := 0 <= i /\ nth_error packets (Z.to_nat i) = Some p.

(** Inputs whose slot file is usable: the mesh is not empty, there are slots, the routers are those of
    the mesh, every dependency is a packet, and every pair that is used has a slot.  Dependencies may
    be circular. *)
Record usable (rows cols total : Z) (packets : list packet) (lines : list (Z * Z * Z)) : Prop := {
  u_rows : 0 < rows;
  u_cols : 0 < cols;
  u_total : 0 < total;
  u_lines : forall s d v, In (s, d, v) lines -> 0 <= s < rows * cols /\ 0 <= d < rows * cols;
  u_routers : forall i p, is_packet packets i p -> 0 <= pk_src p < rows * cols /\ 0 <= pk_dest p < rows * cols;
  u_durations : forall i p, is_packet packets i p -> 0 <= pk_duration p;
  u_deps : forall i p d, is_packet packets i p -> In d (pk_deps p) -> exists q, is_packet packets d q;
  u_slots : forall i p, is_packet packets i p -> pk_src p <> pk_dest p ->
            exists v, pair_slot lines (pk_src p) (pk_dest p) = Some v /\ 0 <= v < total }.

(** The times of a packet in the table that is printed. *)
Definition times (packets : list packet) (t : list profile) (i : Z) (p : packet) (pr : profile) : Prop :=
  is_packet packets i p /\ nth_error t (Z.to_nat i) = Some pr.

(** A packet waits for its dependencies, computes, and is sent when its transfer can start. *)
Definition in_order (packets : list packet) (t : list profile) : Prop :=
  forall i p pr, times packets t i p pr ->
    0 <= pr_deps pr /\
    (forall d q prd, In d (pk_deps p) -> times packets t d q prd -> pr_data prd <= pr_deps pr) /\
    pr_comp pr = pr_deps pr + pk_duration p /\
    pr_comp pr <= pr_slot pr.

(** A local packet arrives at once; another one leaves in the slot of its pair and arrives after the
    distance between its routers. *)
Definition in_slot (rows cols total : Z) (packets : list packet) (lines : list (Z * Z * Z)) (t : list profile) : Prop :=
  forall i p pr, times packets t i p pr ->
    (pk_src p = pk_dest p -> pr_slot pr = pr_comp pr /\ pr_data pr = pr_comp pr) /\
    (pk_src p <> pk_dest p ->
       pair_slot lines (pk_src p) (pk_dest p) = Some (pr_slot pr mod total) /\
       exists distance, get_distance (pk_src p) (pk_dest p) rows cols = Ok distance /\ pr_data pr = pr_slot pr + distance).

(** Two packets of the same pair never leave in the same cycle. *)
Definition exclusive (packets : list packet) (t : list profile) : Prop :=
  forall i j p q pri prj, times packets t i p pri -> times packets t j q prj -> i <> j ->
    pk_src p <> pk_dest p -> pk_src p = pk_src q -> pk_dest p = pk_dest q -> pr_slot pri <> pr_slot prj.

(** A packet that is computed lets a slot of its pair pass only when another packet of the pair uses it. *)
Definition no_slot_lost (total : Z) (packets : list packet) (lines : list (Z * Z * Z)) (t : list profile) : Prop :=
  forall i p pr c, times packets t i p pr -> pk_src p <> pk_dest p ->
    pr_comp pr <= c < pr_slot pr -> pair_slot lines (pk_src p) (pk_dest p) = Some (c mod total) ->
    exists j q prj, times packets t j q prj /\ j <> i /\ pk_src q = pk_src p /\ pk_dest q = pk_dest p /\ pr_slot prj = c.

(** A packet starts to compute at most [k] cycles after its last dependency arrived (or cycle 0). *)
Definition prompt (k : Z) (packets : list packet) (t : list profile) : Prop :=
  forall i p pr, times packets t i p pr ->
    pr_deps pr = 0 \/ exists d q prd, In d (pk_deps p) /\ times packets t d q prd /\ pr_deps pr <= pr_data prd + k.
(** Packets depend on packets of smaller identifier only. *)
Definition numbered (packets : list packet) : Prop := forall i p d, is_packet packets i p -> In d (pk_deps p) -> d < i.

(** No packet depends on itself, however indirectly. *)
Definition acyclic (packets : list packet) : Prop :=
  exists rank : Z -> nat, forall i p d, is_packet packets i p -> In d (pk_deps p) -> (rank d < rank i)%nat.
(** The packets of [S] wait for each other. *)
Definition deadlocked (packets : list packet) (S : Z -> Prop) : Prop :=
  forall i, S i -> exists p, is_packet packets i p /\ exists d, In d (pk_deps p) /\ S d.

(** The time at which the packet of rank [j] arrives. *)
Definition data_of (l : list profile) (j : nat) : Z := match nth_error l j with Some pr => pr_data pr | None => 0 end.
(** Sum over the first [m] iterations of the time from the arrival of their first packet to that of their last. *)
Definition sum_exec (h : nat) (l : list profile) (m : nat) : Z :=
  fold_right Z.add 0 (map (fun x => data_of l (x * h + (h - 1)) - data_of l (x * h)) (seq 0 m)).
(** The arrival of the last packet of the last complete iteration. *)
Definition last_arrival (h : nat) (l : list profile) : Z :=
  match (length l / h)%nat with O => 0 | S m => data_of l (m * h + (h - 1)) end.
(** The number of iterations, the last of which can be incomplete. *)
Definition iterations (h : nat) (l : list profile) : Z := Z.of_nat ((length l + (h - 1)) / h).
