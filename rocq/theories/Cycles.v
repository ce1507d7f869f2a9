(** Model of the enumeration of cycles, algorithms/analysis/cycle_detection.cpp 48-202. *)
From Verif Require Import Base Graph Scc.
Open Scope Z_scope.

(** removeVertex, models/Dataflow.h 402-414, on a graph without its other computations: the
    channels of the task go away, positions above move down (boost::remove_vertex). *)
Definition move_down (i x : nat) : nat := if (i <? x)%nat then (x - 1)%nat else x.
Definition moved_edge (i : nat) (e : edge) : edge :=
  mkEdge (e_id e) (move_down i (e_src e)) (move_down i (e_dst e)) (e_in e) (e_out e) (e_in_init e) (e_out_init e) (e_preload e).
Definition remove_at (i : nat) (g : graph) : graph :=
  mkGraph (firstn i (vertices g) ++ skipn (S i) (vertices g))
          (map (moved_edge i) (filter (fun e => negb (e_src e =? i)%nat && negb (e_dst e =? i)%nat) (edges g))).
Definition remove_task (id : Z) (g : graph) : outcome graph :=
  do i <- vertex_by_id g id; Ok (remove_at i g).
Fixpoint remove_tasks (ids : list Z) (g : graph) : outcome graph :=
  match ids with
  | [] => Ok g
  | id :: ids' => do g' <- remove_task id g; remove_tasks ids' g'
  end.

(** [generate_subgraph], 122-134. *)
Definition subgraph_from (g : graph) (lower : Z) : outcome graph :=
  remove_tasks (filter (fun id => id <? lower) (map v_id (vertices g))) g.

(** [generate_scc], 99-120: the first component that contains the task; leaving the loop
    without a return is undefined. *)
Fixpoint scc_of (g : graph) (comps : list (list Z)) (start : Z) : outcome graph :=
  match comps with
  | [] => Undefined
  | c :: comps' =>
    if visited c start then remove_tasks (filter (fun id => negb (visited c id)) (map v_id (vertices g))) g
    else scc_of g comps' start
  end.

(** [find_smallest_index], 85-96. *)
Definition int_max : Z := 2147483647.
Definition least (c : list Z) : Z := match c with [] => 0 | x :: c' => fold_left Z.min c' x end.
Fixpoint smallest_index (comps : list (list Z)) (best : Z) : Z :=
  match comps with
  | [] => best
  | c :: comps' => smallest_index comps' (if (1 <? length c)%nat && (least c <? best) then least c else best)
  end.

(** [blocked_map]: from a task to a set of tasks, sets in increasing order. *)
Fixpoint waiting (bm : list (Z * list Z)) (id : Z) : option (list Z) :=
  match bm with
  | [] => None
  | (k, ws) :: bm' => if k =? id then Some ws else waiting bm' id
  end.
Fixpoint add_waiting (bm : list (Z * list Z)) (id w : Z) : list (Z * list Z) :=
  match bm with
  | [] => [(id, [w])]
  | (k, ws) :: bm' => if k =? id then (k, insert_key w ws) :: bm' else (k, ws) :: add_waiting bm' id w
  end.
Definition drop_waiting (bm : list (Z * list Z)) (id : Z) : list (Z * list Z) := filter (fun kw => negb (fst kw =? id)) bm.
Definition drop_blocked (bs : list Z) (id : Z) : list Z := filter (fun x => negb (x =? id)) bs.

(** [unblock], 137-154.  Erasing what is not there is undefined, and so is a loop over a set
    erased in the meantime. *)
Fixpoint each_waiting (rec : Z -> list Z * list (Z * list Z) -> outcome (list Z * list (Z * list Z))) (id : Z) (ws : list Z)
    (st : list Z * list (Z * list Z)) : outcome (list Z * list (Z * list Z)) :=
  match waiting (snd st) id with
  | None => Undefined
  | Some _ =>
    match ws with
    | [] => Ok st
    | w :: ws' =>
      do st' <- (if visited (fst st) w then rec w st else Ok st);                     (* 147-149 *)
      each_waiting rec id ws' st'
    end
  end.
Fixpoint unblock (fuel : nat) (id : Z) (st : list Z * list (Z * list Z)) : outcome (list Z * list (Z * list Z)) :=
  match fuel with
  | O => Timeout
  | S fuel' =>
    if negb (visited (fst st) id) then Undefined                                      (* 139 *)
    else
      let bs := drop_blocked (fst st) id in
      match waiting (snd st) id with                                                  (* 145 *)
      | None => Ok (bs, snd st)
      | Some ws =>
        do st' <- each_waiting (unblock fuel') id ws (bs, snd st);
        Ok (fst st', drop_waiting (snd st') id)                                       (* 152 *)
      end
  end.

(** The state of the search: [dfs_stack] (last pushed last), [blocked_set], [blocked_map] and
    [simple_cycles]. *)
Record search := mkSearch { sr_stack : list Z; sr_blocked : list Z; sr_waiting : list (Z * list Z); sr_cycles : list (list Z) }.

Section Search.
Variables (fuel : nat) (g : graph) (start : Z).

(** The loop over the channels leaving a task, 163-186: the state and [found_cycle]. *)
Fixpoint each_output (rec : Z -> search -> outcome (bool * search)) (es : list edge) (found : bool) (st : search) : outcome (bool * search) :=
  match es with
  | [] => Ok (found, st)
  | e :: es' =>
    do next <- id_of g (e_dst e);
    if next =? start then
      each_output rec es' true (mkSearch (sr_stack st) (sr_blocked st) (sr_waiting st) (sr_cycles st ++ [sr_stack st ++ [start]]))
    else if negb (visited (sr_blocked st) next) then
      do r <- rec next st;
      each_output rec es' (found || fst r) (snd r)
    else each_output rec es' found st
  end.

(** 190-194. *)
Fixpoint wait_all (current : Z) (es : list edge) (bm : list (Z * list Z)) : outcome (list (Z * list Z)) :=
  match es with
  | [] => Ok bm
  | e :: es' => do next <- id_of g (e_dst e); wait_all current es' (add_waiting bm next current)
  end.

(** [find_simple_cycles_scc], 157-198. *)
Fixpoint visit (depth : nat) (current : Z) (st : search) : outcome (bool * search) :=
  match depth with
  | O => Timeout
  | S depth' =>
    do i <- vertex_by_id g current;
    let out := filter (fun e => (e_src e =? i)%nat) (edges g) in
    do r <- each_output (visit depth') out false
              (mkSearch (sr_stack st ++ [current]) (insert_key current (sr_blocked st)) (sr_waiting st) (sr_cycles st));
    let st1 := snd r in
    if fst r then
      do u <- unblock fuel current (sr_blocked st1, sr_waiting st1);
      Ok (true, mkSearch (removelast (sr_stack st1)) (fst u) (snd u) (sr_cycles st1))
    else
      do bm <- wait_all current out (sr_waiting st1);
      Ok (false, mkSearch (removelast (sr_stack st1)) (sr_blocked st1) bm (sr_cycles st1))
  end.
End Search.

(** The loop of [find_simple_cycles], 48-68.  [rounds] bounds the number of turns; the stack is
    a global of the program, empty between two searches. *)
Fixpoint cycles_loop (rounds fuel : nat) (g : graph) (start : Z) (cycles : list (list Z)) : outcome (list (list Z)) :=
  if Z.of_nat (length (vertices g)) <? start then Ok cycles
  else
    match rounds with
    | O => Timeout
    | S rounds' =>
      do sub <- subgraph_from g start;
      do comps <- kosaraju fuel sub;
      let m := smallest_index comps int_max in
      if m =? int_max then Ok cycles                                                  (* 64-66 *)
      else
        do scc <- scc_of sub comps m;
        do r <- visit fuel scc m fuel m (mkSearch [] [] [] cycles);
        cycles_loop rounds' fuel g (m + 1) (sr_cycles (snd r))
    end.
(** The cycles printed by a call, 69-83; [before]: what previous calls of the same program left
    in the global [simple_cycles]. *)
Definition find_simple_cycles (rounds fuel : nat) (g : graph) (before : list (list Z)) : outcome (list (list Z)) :=
  cycles_loop rounds fuel g 1 before.
