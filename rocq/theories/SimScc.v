(** Model of compute_asap_throughput, algorithms/throughput/symbolic_execution.cpp 33-101, and
    of generateSCCs, 409-430. *)
From Coq Require Import QArith Qreduction.
From Verif Require Import Base Graph RepVec Scc Sim.
From Verif Require Builder.
Open Scope Z_scope.

(** Dataflow::removeVertex, models/Dataflow.h 402-414, on the graph alone: the channels of the
    task go with it and later positions move down (the same as [Builder.remove_vertex], without
    the editing state). *)
Definition set_ends (s d : nat) (c : edge) : edge :=
  mkEdge (e_id c) s d (e_in c) (e_out c) (e_in_init c) (e_out_init c) (e_preload c).
Definition drop_task (g : graph) (i : nat) : graph :=
  mkGraph (Builder.delete_nth i (vertices g))
    (map (fun c => set_ends (Builder.shift i (e_src c)) (Builder.shift i (e_dst c)) c)
       (filter (fun c => negb (e_src c =? i)%nat && negb (e_dst c =? i)%nat) (edges g))).

(** One round of generateSCCs, 413-427: a copy of the graph from which every task whose
    identifier is not in [component] has been removed.  The loop goes over the tasks [vs] of the
    original graph. *)
Fixpoint keep_component (component : list Z) (vs : list vertex) (h : graph) : outcome graph :=
  match vs with
  | [] => Ok h
  | v :: vs' =>
    if existsb (Z.eqb (v_id v)) component then keep_component component vs' h
    else
      do i <- vertex_by_id h (v_id v);
      keep_component component vs' (drop_task h i)
  end.
Fixpoint generate_sccs (g : graph) (comps : list (list Z)) : outcome (list graph) :=
  match comps with
  | [] => Ok []
  | c :: comps' =>
    do h <- keep_component c (vertices g) g;
    do hs <- generate_sccs g comps';
    Ok (h :: hs)
  end.

(** computeThroughput, 156-174, or the 0 of a deadlock, 299.  Simplification: a period of length
    0 gives a floating-point infinity, here [Undefined]. *)
Definition throughput (a : answer) : outcome Q :=
  match a with
  | Periodic n T => if Qeq_bool T 0 then Undefined else Ok (Qred (inject_Z (Z.of_nat n) / T))
  | Deadlock => Ok 0%Q
  | Running _ => Timeout
  end.

(** getNi(getVertexById(id)) on the whole graph. *)
Definition ni_by_id (g : graph) (N : list Z) (id : Z) : outcome Z :=
  do i <- vertex_by_id g id;
  match nth_error N i with Some n => Ok n | None => Undefined end.

(** getVertexTotalDuration, models/Dataflow.h 868-872: std::accumulate(..., 0), so the accumulator
    is an int and every partial sum is cut to an integer; beyond the range of int the conversion
    is undefined. *)
Fixpoint accumulate_durations (l : list Q) (acc : Z) : outcome Z :=
  match l with
  | [] => Ok acc
  | d :: l' =>
    let x := (inject_Z acc + d)%Q in
    let t := Z.quot (Qnum x) (Zpos (Qden x)) in
    if (- int_max - 1 <=? t) && (t <=? int_max) then accumulate_durations l' t else Undefined
  end.
Definition total_duration (v : vertex) : outcome Q :=
  do _ <- cassert (0 <? length (v_durations v))%nat;
  do t <- accumulate_durations (v_durations v) 0;
  Ok (inject_Z t).

(** The throughput of one component in iterations of the whole graph, 55-88.
    [Ok None]: neither branch is taken. *)
Definition scaled_throughput (fuel ticks : nat) (g : graph) (N : list Z) (h : graph) : outcome (option Q) :=
  if (0 <? length (edges h))%nat then
    do p <- prepare fuel h None;                                                     (* 57-58 *)
    do a <- run ticks h (fst (fst p)) (snd (fst p)) (snd p);
    do thr <- throughput a;
    do id <- id_of h (fst (fst p));
    do n <- ni_by_id g N id;
    Ok (Some (Qred (thr * inject_Z (snd (fst p)) / inject_Z n)))                     (* 62-63 *)
  else match vertices h with
  | [v] =>
    do n <- ni_by_id g N (v_id v);                                                   (* 78 *)
    do i <- vertex_by_id g (v_id v);
    do total <- match nth_error (vertices g) i with Some u => total_duration u | None => Undefined end;
    if Qeq_bool total 0 then Undefined                                               (* infinity, not modelled *)
    else Ok (Some (Qred (inject_Z (Z.of_nat (v_phases v)) / total / inject_Z n)))    (* 83-85 *)
  | _ => Ok None
  end.

(** The loop over the components, 54-94. *)
Fixpoint slowest (fuel ticks : nat) (g : graph) (N : list Z) (hs : list graph) (best : Q) : outcome Q :=
  match hs with
  | [] => Ok best
  | h :: hs' =>
    do x <- scaled_throughput fuel ticks g N h;
    slowest fuel ticks g N hs' (match x with Some t => if Qlt_le_dec t best then t else best | None => best end)
  end.

(** compute_asap_throughput, 33-101. *)
Definition compute_asap_throughput (fuel ticks : nat) (g : graph) : outcome Q :=
  do N <- compute_repetition_vector fuel g;                                          (* 36 *)
  match N with
  | None => Rejected
  | Some N =>
    do comps <- kosaraju fuel g;                                                     (* 42 *)
    if (1 <? length comps)%nat then
      do hs <- generate_sccs g comps;
      slowest fuel ticks g N hs long_max
    else
      do a <- component_throughput fuel ticks g None;                                (* 99 *)
      throughput a
  end.
