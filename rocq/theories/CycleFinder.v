(** Model of the search for cycles before the placement of the tasks:
    algorithms/mapping/bufferless_utils/SCCFinder.h, and of its use in
    algorithms/mapping/BufferlessNoCMapAndRoute.cpp 194-281 (graphProcessing).  Tasks are named by their
    identifiers; the vectors "visited", which have an entry for each identifier that addVertex gives, are total
    functions here. *)
From Verif Require Import Base NocPath Mapper TaskOrder.
Open Scope nat_scope.

(** fillOrder, SCCFinder.h 251-264: the state is "visited" and the stack, its top first. *)
Fixpoint fill_order (fuel : nat) (d : list (nat * nat)) (v : nat) (st : (nat -> bool) * list nat) : outcome ((nat -> bool) * list nat) :=
  match fuel with
  | O => Timeout
  | S f =>
    do st' <- each (fun st w => if negb (fst st w) then fill_order f d w st else Ok st) (set_at (fst st) v true, snd st) (outputs d v);
    Ok (fst st', v :: snd st')
  end.
(** getTranspose, 225-248: the channels reversed, task by task. *)
Definition transpose (vs : list nat) (d : list (nat * nat)) : list (nat * nat) := flat_map (fun s => map (fun t => (t, s)) (outputs d s)) vs.
(** DFSUtil, 209-222: the state is "visited" and "traversal". *)
Fixpoint dfs_util (fuel : nat) (d : list (nat * nat)) (v : nat) (st : (nat -> bool) * list nat) : outcome ((nat -> bool) * list nat) :=
  match fuel with
  | O => Timeout
  | S f => each (fun st w => if negb (fst st w) then dfs_util f d w st else Ok st) (set_at (fst st) v true, snd st ++ [v]) (outputs d v)
  end.

(** std::sort on identifiers or lengths. *)
Fixpoint insert (x : nat) (l : list nat) : list nat :=
  match l with [] => [x] | y :: l' => if x <=? y then x :: l else y :: insert x l' end.
Definition sorted (l : list nat) : list nat := fold_right insert [] l.
(** The loop 161-169: the index of a cycle in "cycles". *)
Fixpoint index_of (s : list nat) (l : list (list nat)) : option nat :=
  match l with
  | [] => None
  | x :: l' => if list_eq_dec Nat.eq_dec x s then Some 0 else option_map S (index_of s l')
  end.
(** std::set::insert; the order is not used. *)
Definition add_id (i : nat) (l : list nat) : list nat := if existsb (Nat.eqb i) l then l else i :: l.
(** 158-176: the state is "cycles" and "cycleids". *)
Definition record (path : list nat) (st : list (list nat) * list nat) : list (list nat) * list nat :=
  let s := sorted path in
  match index_of s (fst st) with
  | Some i => (fst st, add_id i (snd st))
  | None => (fst st ++ [s], add_id (length (fst st)) (snd st))
  end.
(** my_dfs, 150-192: "visited" is passed by value; "path", passed by reference, is given back as it was
    (188-191), so that it is an argument here. *)
Fixpoint my_dfs (fuel : nat) (d : list (nat * nat)) (node : nat) (vis : nat -> bool) (start : nat) (path : list nat) (st : list (list nat) * list nat)
    : outcome (list (list nat) * list nat) :=
  match fuel with
  | O => Timeout
  | S f =>
    if vis node then Ok (if node =? start then record path st else st)
    else each (fun st c => my_dfs f d c (set_at vis node true) start (path ++ [node]) st) st (outputs d node)
  end.
(** updateAncestorsHelper, 109-122: the state is "visited" and "cycid_per_vtxid". *)
Fixpoint ancestors (fuel : nat) (d : list (nat * nat)) (v : nat) (ids : list nat) (st : (nat -> bool) * (nat -> list nat)) : outcome ((nat -> bool) * (nat -> list nat)) :=
  match fuel with
  | O => Timeout
  | S f =>
    each (fun st s => if negb (fst st s) then ancestors f d s ids st else Ok st)
         (set_at (fst st) v true, set_at (snd st) v (fold_right add_id (snd st v) ids)) (inputs d v)
  end.
(** 76-78: the state is "cycles" and "cycid_per_vtxid". *)
Definition cycles_of (fuel : nat) (d : list (nat * nat)) (st : list (list nat) * (nat -> list nat)) (u : nat) : outcome (list (list nat) * (nat -> list nat)) :=
  do r <- my_dfs fuel d u (fun _ => false) u [] (fst st, []);
  do a <- ancestors fuel d u (snd r) (fun _ => false, snd st);
  Ok (fst r, snd a).
(** 54-82: the stack is taken from its top. *)
Fixpoint components (fuel : nat) (d tr : list (nat * nat)) (stack : list nat) (vis : nat -> bool) (st : list (list nat) * (nat -> list nat))
    : outcome (list (list nat) * (nat -> list nat)) :=
  match stack with
  | [] => Ok st
  | v :: stack' =>
    if vis v then components fuel d tr stack' vis st
    else
      do r <- dfs_util fuel tr v (vis, []);
      do st' <- (if 1 <? length (snd r) then each (cycles_of fuel d) st (snd r) else Ok st);
      components fuel d tr stack' (fst r) st'
  end.
(** printSCCs, 34-95: cyclen_per_vtxid. *)
Definition cycle_lengths (fuel : nat) (vs : list nat) (d : list (nat * nat)) (start : nat) : outcome (nat -> list nat) :=
  do s0 <- fill_order fuel d start (fun _ => false, []);
  do s1 <- each (fun st t => if negb (fst st t) then fill_order fuel d t st else Ok st) s0 vs;
  do r <- components fuel d (transpose vs d) (snd s1) (fun _ => false) ([], fun _ => []);
  Ok (fun v => sorted (map (fun i => length (nth i (fst r) [])) (snd r v))).

(** BufferlessNoCMapAndRoute.cpp 204-234: the task [start] is added with a channel to each task without input,
    or to the first task when there is none; "top" is not set when there is no task. *)
Definition with_start (tasks : list nat) (d : list (nat * nat)) (start : nat) : outcome (list (nat * nat)) :=
  match filter (fun t => match inputs d t with [] => true | _ => false end) tasks with
  | [] => match tasks with [] => Undefined | top :: _ => Ok (d ++ [(start, top)]) end
  | l => Ok (d ++ map (fun t => (start, t)) l)
  end.
(** graphProcessing, 194-256, up to the placement, for a vector of [size] entries in removeCycleEdges; the
    identifier given to the added task is the same both times. *)
Definition prepare (size fuel : nat) (tasks : list nat) (cs : list chan) (N : nat -> nat) (start : nat) : outcome (list (nat * nat)) :=
  do d <- with_start tasks (map (fun c => (c_src c, c_dst c)) cs) start;
  do lens <- cycle_lengths fuel (tasks ++ [start]) d start;
  do order <- task_order fuel tasks cs N;
  remove_with size fuel tasks cs (fun t => match lens t with [] => false | _ => true end) order start.
