(** Model of algorithms/scc.cpp and of the cycle test of
    algorithms/analysis/cycle_detection.cpp. *)
From Verif Require Import Base Graph.
Open Scope Z_scope.

(** getVertexById, models/Dataflow.h 449-451: std::out_of_range when there is none. *)
Fixpoint position_of (id : Z) (vs : list vertex) : option nat :=
  match vs with
  | [] => None
  | v :: vs' => if v_id v =? id then Some O else option_map S (position_of id vs')
  end.
Definition vertex_by_id (g : graph) (id : Z) : outcome nat :=
  match position_of id (vertices g) with Some i => Ok i | None => Rejected end.

(** getVertexId of an end of an edge. *)
Definition id_of (g : graph) (i : nat) : outcome Z :=
  match nth_error (vertices g) i with Some v => Ok (v_id v) | None => Undefined end.

(** std::map<ARRAY_INDEX,bool>: here the identifiers mapped to true. *)
Definition visited (vis : list Z) (id : Z) : bool := existsb (Z.eqb id) vis.

(** The loop over the edges in both searches, scc.cpp 61-64 and 78-81: [far] is the end
    looked at, [rec] the recursive call. *)
Fixpoint each_edge (rec : Z -> list Z * list Z -> outcome (list Z * list Z)) (g : graph) (far : edge -> nat)
    (es : list edge) (st : list Z * list Z) : outcome (list Z * list Z) :=
  match es with
  | [] => Ok st
  | e :: es' =>
    do nextId <- id_of g (far e);
    do st' <- rec nextId st;
    each_edge rec g far es' st'
  end.

(** [computeDFSStack], scc.cpp 52-66: state is (visitedActors, dfsOrder), the stack with its
    top first.  The recursion is fuelled. *)
Fixpoint dfs_stack (fuel : nat) (g : graph) (startId : Z) (st : list Z * list Z) : outcome (list Z * list Z) :=
  match fuel with
  | O => Timeout
  | S fuel' =>
    do startActor <- vertex_by_id g startId;
    if visited (fst st) startId then Ok st
    else
      do st' <- each_edge (dfs_stack fuel' g) g e_dst
                  (filter (fun e => (e_src e =? startActor)%nat) (edges g)) (startId :: fst st, snd st);
      Ok (fst st', startId :: snd st')
  end.

(** [dfsTranspose], scc.cpp 69-82: state is (visitedActors, sccActors). *)
Fixpoint dfs_transpose (fuel : nat) (g : graph) (startId : Z) (st : list Z * list Z) : outcome (list Z * list Z) :=
  match fuel with
  | O => Timeout
  | S fuel' =>
    do startActor <- vertex_by_id g startId;
    if visited (fst st) startId then Ok st
    else each_edge (dfs_transpose fuel' g) g e_src
           (filter (fun e => (e_dst e =? startActor)%nat) (edges g)) (startId :: fst st, snd st ++ [startId])
  end.

(** Iterating a std::map visits its keys once, in increasing order. *)
Fixpoint insert_key (x : Z) (l : list Z) : list Z :=
  match l with
  | [] => [x]
  | y :: l' => if x <? y then x :: l else if x =? y then l else y :: insert_key x l'
  end.
Definition keys (l : list Z) : list Z := fold_right insert_key [] l.

(** First loop, scc.cpp 25-29. *)
Fixpoint stack_loop (fuel : nat) (g : graph) (ids : list Z) (st : list Z * list Z) : outcome (list Z * list Z) :=
  match ids with
  | [] => Ok st
  | id :: ids' =>
    if visited (fst st) id then stack_loop fuel g ids' st
    else do st' <- dfs_stack fuel g id st; stack_loop fuel g ids' st'
  end.

(** Second loop, scc.cpp 36-46; the components in order of their number, 1, 2, ... *)
Fixpoint component_loop (fuel : nat) (g : graph) (stack vis : list Z) : outcome (list (list Z)) :=
  match stack with
  | [] => Ok []
  | firstId :: stack' =>
    if visited vis firstId then component_loop fuel g stack' vis
    else
      do st <- dfs_transpose fuel g firstId (vis, []);
      do rest <- component_loop fuel g stack' (fst st);
      Ok (snd st :: rest)
  end.

(** [computeSCCKosaraju], scc.cpp 15-49. *)
Definition kosaraju (fuel : nat) (g : graph) : outcome (list (list Z)) :=
  do st <- stack_loop fuel g (keys (map v_id (vertices g))) ([], []);
  component_loop fuel g (snd st) [].

(** [has_cycles], cycle_detection.cpp 33-42. *)
Definition has_cycles (fuel : nat) (g : graph) : outcome bool :=
  do res <- kosaraju fuel g;
  Ok (existsb (fun c => (1 <? length c)%nat) res).

(** [has_selfloops], cycle_detection.cpp 25-32. *)
Definition has_selfloops (g : graph) : bool := existsb (fun v => 0 <? v_reentrancy v) (vertices g).
