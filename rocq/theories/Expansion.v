(** Model of algorithms/experiments/ExpansionGraph.cpp: the event graph of a K-periodic
    schedule of a single-phase graph, with one event <task,1,k> for the k-th execution of
    each group of K (models/EventGraph.h 67).  The doubles of lines 212-236 are exact
    quotients here, and their rounding the exact floor and ceiling; machine overflow,
    algorithm1 and algorithm2 (74-172, which only print) and the printing are left out.
    The computation of the repetition vector (272) only asserts consistency, which [normalize]
    checks again (C22). *)
From Coq Require Import QArith.
From Verif Require Import Base Graph KPeriodic Normal.
Open Scope Z_scope.

(** models/EventGraph.h 67. *)
Definition occurrence (v : vertex) (k : Z) : event := mkEvent (v_id v) 1 k.

(** [for (x = 1; x <= n; x++)]. *)
Definition one_to (n : Z) : list Z := map Z.of_nat (seq 1 (Z.to_nat n)).

(** [generate_E1_Edges], ExpansionGraph.cpp 31-51. *)
Definition e1_edges (v : vertex) (K : Z) : list constraint :=
  map (fun k => mkConstraint (occurrence v k) (occurrence v (k + 1)) 0 0 0) (one_to (K - 1)).

(** [generate_E2_Edge], ExpansionGraph.cpp 53-71. *)
Definition e2_edge (v : vertex) (z K : Z) : constraint :=
  mkConstraint (occurrence v K) (occurrence v 1) (inject_Z (z * K)) 0 0.

(** [normalizeValue], models/Dataflow.h 961-970. *)
Definition normal_value (a : Q) (old : Z) : outcome Z :=
  let r := (inject_Z old * a)%Q in
  do _ <- cassert (is_integer r);
  Ok (as_integer r).

(** [getNormMop], models/Dataflow.h 983-992; the floor to a multiple of 1 (193) changes
    nothing.  Flooring to a multiple of 0 divides by zero. *)
Definition norm_mop (c : edge) (a : Q) : outcome Z :=
  do f <- fine_gcd c;
  if f =? 0 then Undefined else normal_value a (e_preload c / f * f).

(** [getVertexDuration(t)], models/Dataflow.h 875-880. *)
Definition only_duration (v : vertex) : outcome Q :=
  match v_durations v with [d] => Ok d | _ => Rejected end.

Definition ceil_div (x y : Z) : Z := - (- x / y).

(** The constraint between execution [ai] of the producer and [aj] of the consumer, if any,
    ExpansionGraph.cpp 227-259. *)
Definition e3_edge (vs vd : vertex) (zi zj mop gcdz gcdk : Z) (d : Q) (ai aj : Z) : list constraint :=
  let f0 := Z.max (zi - zj) 0 - mop in                                         (* 206 *)
  let g0 := zi - gcdz - mop in                                                 (* 207 *)
  let shift := zi * ai - zj * aj in                                            (* 229 *)
  let pibmin := ceil_div (f0 + shift) gcdk in                                  (* 231, 235 *)
  let pibmax := (g0 + shift) / gcdk in                                         (* 232, 236 *)
  if pibmin <=? pibmax                                                         (* 246-253 *)
  then [mkConstraint (occurrence vs ai) (occurrence vd aj) (inject_Z (- pibmax * gcdk)) d 0]
  else [].

(** [generate_E3_Edges], ExpansionGraph.cpp 175-266.  A gcd of 0 would divide by zero. *)
Definition e3_edges (g : graph) (K : nat -> Z) (zs : list Z) (c : edge) (a : Q) : outcome (list constraint) :=
  match nth_error (vertices g) (e_src c), nth_error (vertices g) (e_dst c) with
  | Some vs, Some vd =>
    let zi := nth (e_src c) zs 0 in
    let zj := nth (e_dst c) zs 0 in
    let ki := K (e_src c) in
    let kj := K (e_dst c) in
    do mop <- norm_mop c a;                                                    (* 193 *)
    let gcdz := Z.gcd zi zj in                                                 (* 195 *)
    let gcdk := Z.gcd (ki * zi) (kj * zj) in                                   (* 196 *)
    do d <- only_duration vs;                                                  (* 200 *)
    if gcdk =? 0 then Undefined
    else
      do _ <- cassert (Z.max (zi - zj) 0 - mop <=? zi - gcdz - mop);           (* 217 *)
      Ok (flat_map (fun ai => flat_map (e3_edge vs vd zi zj mop gcdz gcdk d ai) (one_to kj)) (one_to ki))
  | _, _ => Undefined
  end.

(** The loop over channels, ExpansionGraph.cpp 302-304. *)
Fixpoint e3_all (g : graph) (K : nat -> Z) (zs : list Z) (al : alphas) (es : list (nat * edge)) : outcome (list constraint) :=
  match es with
  | [] => Ok []
  | (k, c) :: es' =>
    match al k with
    | None => Undefined
    | Some a => do x <- e3_edges g K zs c a;
                do r <- e3_all g K zs al es';
                Ok (x ++ r)
    end
  end.

(** [generate], ExpansionGraph.cpp 269-312: the constraints in insertion order. *)
Definition expansion (fuel : nat) (g : graph) (K : nat -> Z) : outcome (list constraint) :=
  do r <- normalize fuel g;                                                    (* 274 *)
  match r with
  | None => Rejected
  | Some (zs, al) =>
    do _ <- cassert (forallb (fun v => (v_phases v =? 1)%nat) (vertices g));   (* 281-287 *)
    let own := flat_map (fun iv => e1_edges (snd iv) (K (fst iv)) ++ [e2_edge (snd iv) (nth (fst iv) zs 0) (K (fst iv))])
                        (indexed (vertices g)) in                              (* 293-297 *)
    do ch <- e3_all g K zs al (listed g);
    Ok (own ++ ch)
  end.
