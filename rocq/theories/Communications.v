(** Model of algorithms/mapping/modelCommunications.cpp: every channel is replaced by a chain of
    tasks, one per link of its route and one per router between two links. *)
From Coq Require Import QArith.
From Verif Require Import Base Graph.
Open Scope Z_scope.

(** The graph under construction, with the identifier counters of models/Dataflow.h and the link each new
    link task is mapped to (71; [returnValue], [vid_to_conflict_map] and [configs] only feed log messages).
    Names, mappings of the router tasks and edge types are left out: nothing here reads them, and K-Iter adds
    the same constraint for bufferless edges as for others (kperiodic.cpp 611-615). *)
Record state := mkState { st_graph : graph; st_vnum : Z; st_enum : Z; st_links : list (nat * Z) }.

(** [addVertex], models/Dataflow.h 363-367. *)
Definition next_vertex_id (st : state) : Z :=
  fold_left (fun a v => if a <=? v_id v then v_id v + 1 else a) (vertices (st_graph st)) (st_vnum st).
(** [addEdge], models/Dataflow.h 328-332: the counter is not moved past the new identifier. *)
Definition next_edge_id (st : state) : Z :=
  fold_left (fun a c => if a <=? e_id c then e_id c + 1 else a) (edges (st_graph st)) (st_enum st).

(** A new task of one phase, 70-87 (links: duration 1) and 128-142 (routers: duration 0); boost::add_vertex
    gives it the next position. *)
Definition add_task (st : state) (dur : Q) (link : option Z) : state * nat :=
  let g := st_graph st in let id := next_vertex_id st in let pos := length (vertices g) in
  (mkState (mkGraph (vertices g ++ [mkVertex id 1 0 [dur] [] 1]) (edges g)) (id + 1) (st_enum st)
           (match link with Some e => st_links st ++ [(pos, e)] | None => st_links st end), pos).

(** A new channel of one rate on each side, 97-116, 145-151 and 160-164.  setEdgeInPhases and
    setEdgeOutPhases (models/Dataflow.h 737-803) assert that the task has as many phases as rates are
    given.  (They accept a task whose phase count is still 0; no analysis accepts such a task.) *)
Definition connect (st : state) (src dst : nat) (rin rout preload : Z) : outcome state :=
  let g := st_graph st in
  match nth_error (vertices g) src, nth_error (vertices g) dst with
  | Some a, Some b =>
    if ((v_phases a =? 1) && (v_phases b =? 1))%nat then
      let id := next_edge_id st in
      Ok (mkState (mkGraph (vertices g) (edges g ++ [mkEdge id src dst [rin] [rout] [] [] preload])) (st_vnum st) id (st_links st))
    else Rejected
  | _, _ => Undefined
  end.

(** The loop over the links, 68-156, with [addConfigNode] true as at 271.  [rin] is [inrate] on the first
    turn and 1 afterwards (the flag at 103-112).  The lookup of the link in the NoC at 129 is a
    precondition. *)
Fixpoint add_links (st : state) (src : nat) (rin : Z) (route : list Z) : outcome (state * nat) :=
  match route with
  | [] => Ok (st, src)
  | e :: rest =>
    let '(st1, middle) := add_task st 1 (Some e) in
    do st2 <- connect st1 src middle rin 1 0;
    match rest with
    | [] => Ok (st2, middle)
    | _ :: _ =>
      let '(st3, router) := add_task st2 0 None in
      do st4 <- connect st3 middle router 1 1 0;
      add_links st4 router 1 rest
    end
  end.

(** [addPathNode], 32-166.  [removeEdge] (models/Dataflow.h 415-419) removes the channel of this
    identifier. *)
Definition replace_channel (route : Z -> list Z) (virtual : Z -> bool) (st : state) (id : Z) : outcome state :=
  match find (fun c => e_id c =? id) (edges (st_graph st)) with
  | None => Rejected                                                               (* getEdgeById *)
  | Some c =>
    match route id, virtual id with
    | [], true => Ok st                                                            (* 36-39 *)
    | links, _ =>
      if (e_src c =? e_dst c)%nat then Ok st                                       (* 56-58; identifiers are unique *)
      else
        let g := st_graph st in
        let st0 := mkState (mkGraph (vertices g) (filter (fun x => negb (e_id x =? id)) (edges g))) (st_vnum st) (st_enum st) (st_links st) in
        do p <- add_links st0 (e_src c) (edge_in_total c) links;
        connect (fst p) (snd p) (e_dst c) 1 (edge_out_total c) (e_preload c)              (* 159-164 *)
    end
  end.
Fixpoint replace_all (route : Z -> list Z) (virtual : Z -> bool) (st : state) (ids : list Z) : outcome state :=
  match ids with
  | [] => Ok st
  | id :: rest => do st' <- replace_channel route virtual st id; replace_all route virtual st' rest
  end.
(** [ModelNoCConflictFreeCommunication], 243-305: the identifiers are collected first.  The assertions on the
    mapping (255) and on consecutive links (283) are preconditions: every task is mapped and routes follow the NoC. *)
Definition model_communications (route : Z -> list Z) (virtual : Z -> bool) (st : state) : outcome state :=
  replace_all route virtual st (map e_id (edges (st_graph st))).
