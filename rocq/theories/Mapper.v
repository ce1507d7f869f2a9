(** Model of the placement of the tasks on the cores of the network:
    algorithms/mapping/bufferless_utils/GraphMapper.h.  Tasks are named by their identifiers; a graph is
    the list of its channels (source, target), in the order in which they are listed by the iterators.
    The vectors "visited" and "core_mapping" are total functions here: they have an entry for every
    identifier that Dataflow::addVertex gives. *)
From Coq Require Import QArith.
From Verif Require Import Base Noc NocPath.
Open Scope nat_scope.

(** ForInputEdges / getEdgeSource and ForOutputEdges / getEdgeTarget. *)
Definition inputs (d : list (nat * nat)) (t : nat) : list nat := map fst (filter (fun e => snd e =? t) d).
Definition outputs (d : list (nat * nat)) (t : nat) : list nat := map snd (filter (fun e => fst e =? t) d).

(** core_mapping (-1 is [None]), available_cores, noc and routes. *)
Record placing := mkPlacing { p_core : nat -> option nat; p_free : list nat; p_net : graph; p_routes : list (nat * list nat) }.
(** A std::map<int, route_t>: "m[k] = r". *)
Definition put (m : list (nat * list nat)) (k : nat) (r : list nat) : list (nat * list nat) := (k, r) :: filter (fun e => negb (fst e =? k)) m.
Definition get (m : list (nat * list nat)) (k : nat) : option (list nat) := option_map snd (find (fun e => fst e =? k) m).

(** A range loop whose body may fail. *)
Fixpoint each {A B} (f : A -> B -> outcome A) (a : A) (l : list B) : outcome A :=
  match l with [] => Ok a | x :: l' => do a1 <- f a x; each f a1 l' end.

(** cont_l1, curr_util, store_path and counter for one core, GraphMapper.h 207-211. *)
Record trial := mkTrial { t_cont : Z; t_uses : list Z; t_paths : list (nat * list nat); t_count : nat }.
(** GraphMapper.h 248-250 and 261-263: one more channel between two cores. *)
Definition connect (g : graph) (from to key : nat) (t : trial) : outcome trial :=
  do r <- dijkstra_find_paths g from to (t_uses t);
  Ok (mkTrial (Z.max (fst (fst r)) (t_cont t)) (snd r) (put (t_paths t) key (snd (fst r))) (S (t_count t))).
(** GraphMapper.h 214-232: the sum of the path lengths between [core] and the placed neighbours. *)
Definition lengths (d : list (nat * nat)) (st : placing) (x core : nat) : outcome nat :=
  do a <- each (fun a s => match p_core st s with None => Ok a | Some c => do k <- path_length (p_net st) c core; Ok (a + k) end) 0 (inputs d x);
  each (fun a s => match p_core st s with None => Ok a | Some c => do k <- path_length (p_net st) core c; Ok (a + k) end) a (outputs d x).
(** GraphMapper.h 241-265. *)
Definition tried (d : list (nat * nat)) (st : placing) (x core : nat) : outcome trial :=
  let v := g_v (p_net st) in
  do t <- each (fun t s => match p_core st s with None => Ok t | Some c => connect (p_net st) c core (map_index v s x) t end)
               (mkTrial (-1) (g_util (p_net st)) [] 0) (inputs d x);
  each (fun t s => match p_core st s with None => Ok t | Some c => connect (p_net st) core c (map_index v x s) t end) t (outputs d x).
(** GraphMapper.h 267-269; the "float" cost is an exact rational here. *)
Definition cost (len : nat) (t : trial) : Q :=
  if t_count t =? 0 then inject_Z (t_cont t) else (inject_Z (t_cont t) + (Z.of_nat len # Pos.of_nat (t_count t)))%Q.
(** GraphMapper.h 277-283: "best_contention_l1" with the best core and its trial. *)
Definition better (d : list (nat * nat)) (st : placing) (x : nat) (best : Q * option (nat * trial)) (core : nat) : outcome (Q * option (nat * trial)) :=
  do len <- lengths d st x core;
  do t <- tried d st x core;
  let q := cost len t in
  Ok (if Qeq_bool (fst best) (-1) || negb (Qle_bool (fst best) q) then (q, Some (core, t)) else best).
(** "std::remove(...); avail_cores.resize(avail_cores.size()-1)": the kept elements first, then the old
    contents, less the last one. *)
Definition without (c : nat) (l : list nat) : list nat :=
  let kept := filter (fun x => negb (x =? c)) l in firstn (length l - 1) (kept ++ skipn (length kept) l).
(** dijkstra_mapping, GraphMapper.h 187-298: "avail_cores[0]" is read first.  The routes kept for the best
    core replace the former ones (291-296). *)
Definition place (d : list (nat * nat)) (st : placing) (x : nat) : outcome placing :=
  match p_free st with
  | [] => Undefined
  | c0 :: _ =>
    if length (p_free st) =? mesh_size (p_net st)
    then Ok (mkPlacing (set_at (p_core st) x (Some c0)) (without c0 (p_free st)) (p_net st) (p_routes st))
    else do b <- each (better d st x) ((-1)%Q, None) (p_free st);
         match snd b with
         | None => Undefined (* not reached: the first core is always kept *)
         | Some (core, t) =>
           Ok (mkPlacing (set_at (p_core st) x (Some core)) (without core (p_free st))
                         (mkGraph (g_v (p_net st)) (g_adj (p_net st)) (t_uses t))
                         (fold_left (fun m e => put m (fst e) (snd e)) (t_paths t) (p_routes st)))
         end
  end.

(** GraphMapper.h 110-125: every source of a channel to [x] has been visited. *)
Definition ready (to : list (nat * nat)) (vis : nat -> bool) (x : nat) : bool :=
  negb (vis x) && forallb vis (inputs to x).
(** The loop of taskAndNoCMapping, GraphMapper.h 98-130.  [pick] gives the position in the queue of the task
    that std::priority_queue puts on top: the comparison is left open. *)
Fixpoint place_all (fuel : nat) (pick : list nat -> nat) (d to : list (nat * nat)) (start : nat) (st : placing) (vis : nat -> bool) (queue : list nat)
    : outcome placing :=
  match queue with
  | [] => Ok st
  | _ :: _ =>
    match fuel with
    | O => Timeout
    | S f =>
      let i := pick queue mod length queue in
      let x := nth i queue 0 in
      do st' <- (if x =? start then Ok st else place d st x);
      let vis' := set_at vis x true in
      place_all f pick d to start st' vis' (firstn i queue ++ skipn (S i) queue ++ filter (ready to vis') (outputs to x))
    end
  end.
(** taskAndNoCMapping, GraphMapper.h 66-150: [d] is "input", [to] the graph with the task [start] added. *)
Definition map_tasks (fuel : nat) (pick : list nat -> nat) (d to : list (nat * nat)) (start : nat) (g : graph) : outcome placing :=
  place_all fuel pick d to start (mkPlacing (fun _ => None) (seq 0 (mesh_size g)) (clear g) []) (set_at (fun _ => false) start true) [start].
