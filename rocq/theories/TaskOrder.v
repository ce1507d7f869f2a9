(** Model of the preparation of the graph before the placement of the tasks:
    algorithms/mapping/BufferlessNoCMapAndRoute.cpp 48-191.  Tasks and channels are named by their
    identifiers; the lists are in the order of the iterators. *)
From Verif Require Import Base NocPath Mapper.
Open Scope nat_scope.

(** A channel of an SDF graph: getEdgeId, getEdgeSource, getEdgeTarget, getEdgeIn (what one execution of the
    source produces), getEdgeOut (what one execution of the target consumes) and getPreload. *)
Record chan := mkChan { c_id : nat; c_src : nat; c_dst : nat; c_in : Z; c_out : Z; c_tokens : Z }.
(** ForInputEdges and ForOutputEdges. *)
Definition ins (cs : list chan) (t : nat) : list chan := filter (fun c => c_dst c =? t) cs.
Definition outs (cs : list chan) (t : nat) : list chan := filter (fun c => c_src c =? t) cs.

(** remained_execution, buffer_content and prog_order, 52-68.  [total] (56) is the sum of the first. *)
Record running := mkRunning { r_left : nat -> nat; r_total : nat; r_buf : nat -> Z; r_order : list nat }.
(** The same at the start, 56-68; [N] is getNi. *)
Definition running0 (tasks : list nat) (cs : list chan) (N : nat -> nat) : running :=
  mkRunning N (list_sum (map N tasks))
    (fold_left (fun b c => set_at b (c_id c) (c_tokens c)) cs (fun _ => 0%Z)) [].
(** 77-85. *)
Definition enough (cs : list chan) (b : nat -> Z) (t : nat) : bool :=
  forallb (fun c => (c_out c <=? b (c_id c))%Z) (ins cs t).
(** 73-105: one task of one pass. *)
Definition turn (cs : list chan) (st : running) (t : nat) : running :=
  if (0 <? r_left st t) && enough cs (r_buf st) t then
    let b1 := fold_left (fun b c => set_at b (c_id c) (b (c_id c) - c_out c)%Z) (ins cs t) (r_buf st) in
    let b2 := fold_left (fun b c => set_at b (c_id c) (b (c_id c) + c_in c)%Z) (outs cs t) b1 in
    mkRunning (set_at (r_left st) t (r_left st t - 1)) (r_total st - 1) b2
      (if existsb (Nat.eqb t) (r_order st) then r_order st else r_order st ++ [t])
  else st.
(** "while (total > 0)", 72-106. *)
Fixpoint passes (fuel : nat) (tasks : list nat) (cs : list chan) (st : running) : outcome (list nat) :=
  if r_total st =? 0 then Ok (r_order st)
  else match fuel with
       | O => Timeout
       | S f => passes f tasks cs (fold_left (turn cs) tasks st)
       end.
(** generate_task_order, 48-109. *)
Definition task_order (fuel : nat) (tasks : list nat) (cs : list chan) (N : nat -> nat) : outcome (list nat) :=
  passes fuel tasks cs (running0 tasks cs N).

(** DFSUtil_PgmOrder, 125-141: the state is "visited", a vector of [size] entries, and "removeEdgeId";
    [cyc] says whether cyclen_per_vtxid has something for the task.  The recursion is fuelled. *)
Fixpoint dfs_remove (fuel size : nat) (cs : list chan) (cyc : nat -> bool) (v : nat) (st : (nat -> bool) * list nat)
    : outcome ((nat -> bool) * list nat) :=
  match fuel with
  | O => Timeout
  | S f =>
    if v <? size then
      each (fun st c =>
              if c_dst c <? size then
                if negb (fst st (c_dst c)) then dfs_remove f size cs cyc (c_dst c) st
                else Ok (if cyc (c_dst c) then (fst st, snd st ++ [c_id c]) else st)
              else Undefined)
           (set_at (fst st) v true, snd st) (outs cs v)
    else Undefined
  end.
(** 152-158. *)
Definition dfs_order (fuel size : nat) (cs : list chan) (cyc : nat -> bool) (order : list nat) : outcome ((nat -> bool) * list nat) :=
  each (fun st v => if v <? size then if negb (fst st v) then dfs_remove fuel size cs cyc v st else Ok st else Undefined)
       (fun _ => false, []) order.
(** getEdgeById, models/Dataflow.h 455-457, throws when there is no such channel; then removeEdge. *)
Definition remove_chan (cs : list chan) (id : nat) : outcome (list chan) :=
  if existsb (fun c => c_id c =? id) cs then Ok (filter (fun c => negb (c_id c =? id)) cs) else Rejected.
(** getVertexInDegree is 0, 169-176. *)
Definition no_input (cs : list chan) (t : nat) : bool := match ins cs t with [] => true | _ => false end.
(** removeCycleEdges, 145-191, for a vector "visited" of [size] entries; the result is the list of the ends of the
    channels, [start] being the identifier of the new task. *)
Definition remove_with (size fuel : nat) (tasks : list nat) (cs : list chan) (cyc : nat -> bool) (order : list nat) (start : nat)
    : outcome (list (nat * nat)) :=
  do st <- dfs_order fuel size cs cyc order;
  do cs' <- each remove_chan cs (snd st);
  Ok (map (fun c => (c_src c, c_dst c)) cs' ++ map (fun t => (start, t)) (filter (no_input cs') tasks)).
(** The program gives the vector one entry per task, 146-147. *)
Definition remove_cycle_edges (fuel : nat) (tasks : list nat) (cs : list chan) (cyc : nat -> bool) (order : list nat) (start : nat)
    : outcome (list (nat * nat)) :=
  remove_with (length tasks) fuel tasks cs cyc order start.
