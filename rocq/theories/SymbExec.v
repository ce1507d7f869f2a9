(** Model of algorithms/symbolic_execution.cpp (transformations SymbolicExecution and
    SymbolicExecutionWP) and of the copy of the same loop in algorithms/software_noc.cpp
    119-172.  Machine overflow is not modelled; [ARRAY_INDEX] and [EXEC_COUNT] are integers. *)
From Coq Require Import QArith.
From Verif Require Import Base Graph KPeriodic RepVec SimScc.
Open Scope Z_scope.

(** std::vector<EXEC_COUNT> indexed by a task or channel id (symbolic_execution.cpp 84, 93,
    203, 211).  The vectors have getMaxVertexId() / getMaxEdgeId() entries, which
    models/Dataflow.h 492 and 521-522 keep above every id in use, so no access is out of
    range: a vector is a total function here. *)
Definition store := Z -> Z.
Definition put (s : store) (k x : Z) : store := fun j => if j =? k then x else s j.

(** The variables of the loop: remained_execution, buffer_content, total. *)
Record state := mkState { left : store; content : store; total : Z }.

(** ForInputEdges / ForOutputEdges, models/Dataflow.h 211-236. *)
Definition inputs (g : graph) (i : nat) : list edge := filter (fun c => (e_dst c =? i)%nat) (edges g).
Definition outputs (g : graph) (i : nat) : list edge := filter (fun c => (e_src c =? i)%nat) (edges g).

(** symbolic_execution.cpp 201-214 (84-96 with [count] iterations): [N] is getNi. *)
Definition initial_state (g : graph) (N : nat -> Z) (count : Z) : state :=
  let vs := indexed (vertices g) in
  mkState (fold_left (fun s iv => put s (v_id (snd iv)) (N (fst iv) * count)) vs (fun _ => 0))
          (fold_left (fun s c => put s (e_id c) (e_preload c)) (edges g) (fun _ => 0))
          (fold_left (fun t iv => t + N (fst iv) * count) vs 0).

(** symbolic_execution.cpp 221-235 (121-134). *)
Definition can_execute (g : graph) (st : state) (i : nat) (v : vertex) : bool :=
  (0 <? left st (v_id v)) && forallb (fun c => edge_out_total c <=? content st (e_id c)) (inputs g i).

(** symbolic_execution.cpp 238-248 (138-145, 158-159). *)
Definition fire (g : graph) (st : state) (i : nat) (v : vertex) : state :=
  let b1 := fold_left (fun b c => put b (e_id c) (b (e_id c) - edge_out_total c)) (inputs g i) (content st) in
  let b2 := fold_left (fun b c => put b (e_id c) (b (e_id c) + edge_in_total c)) (outputs g i) b1 in
  mkState (put (left st) (v_id v) (left st (v_id v) - 1)) b2 (total st - 1).

Section Loop.
(** What the three copies of the loop do besides executing: [extra] is the data they keep,
    [on_fire] what they do with it when task [i] executes.  (Simplification: the three
    copies are one function here.) *)
Context {extra : Type}.
Variable g : graph.
Variable on_fire : nat -> vertex -> extra -> outcome extra.

(** The body of ForEachVertex, symbolic_execution.cpp 220-252. *)
Definition visit (i : nat) (v : vertex) (sx : state * extra) : outcome (state * extra) :=
  if can_execute g (fst sx) i v then do x <- on_fire i v (snd sx); Ok (fire g (fst sx) i v, x) else Ok sx.

(** ForEachVertex, symbolic_execution.cpp 219-254. *)
Fixpoint pass (vs : list (nat * vertex)) (sx : state * extra) : outcome (state * extra) :=
  match vs with
  | [] => Ok sx
  | (i, v) :: vs' => do sx' <- visit i v sx; pass vs' sx'
  end.

(** while (total > 0), symbolic_execution.cpp 218-255.  [fuel] bounds the passes. *)
Fixpoint loop (fuel : nat) (sx : state * extra) : outcome (state * extra) :=
  if 0 <? total (fst sx)
  then match fuel with
       | O => Timeout
       | S fuel' => do sx' <- pass (indexed (vertices g)) sx; loop fuel' sx'
       end
  else Ok sx.
End Loop.

(** getNi: the counts stored by computeRepetitionVector; [is_consistent] is line 199. *)
Definition consistent_counts (g : graph) : outcome (nat -> Z) :=
  do r <- compute_repetition_vector (length (vertices g)) g;
  match r with Some N => Ok (fun i => nth i N 0) | None => Rejected end.

(** [algorithms::symbolic_execution], symbolic_execution.cpp 196-259. *)
Definition symbolic_execution (fuel : nat) (g : graph) : outcome bool :=
  do N <- consistent_counts g;
  do r <- loop g (fun _ _ x => Ok x) fuel (initial_state g N 1, tt);
  Ok (total (fst r) =? 0).                                                     (* 258 *)

(** [symbolic_execution] of software_noc.cpp 119-172: the ids of the tasks by first execution. *)
Definition note_first (i : nat) (v : vertex) (order : list Z) : outcome (list Z) :=
  Ok (if existsb (Z.eqb (v_id v)) order then order else order ++ [v_id v]).    (* 155-158 *)
Definition program_order (fuel : nat) (g : graph) : outcome (list Z) :=
  do N <- consistent_counts g;
  do r <- loop g note_first fuel (initial_state g N 1, []);
  Ok (snd r).

(** * The trace of packets *)

(** One printed line, symbolic_execution.cpp 19-42: source, destination (before the mapping
    on the 16 cells of 25 and 27), duration, packet number and the numbers it depends on. *)
Record line := mkLine { l_src : Z; l_dst : Z; l_duration : Q; l_packet : Z; l_deps : list Z }.
(** The columns as printed: cells are (id - 1) % 16. *)
Definition cell (id : Z) : Z := (id - 1) mod 16.

(** packet_ids, last_compute_time, packet_count, psize and the lines printed so far. *)
Record trace := mkTrace {
  last_packet : Z -> option Z; last_compute : Z -> option Z; packets : Z; packet_size : Z; printed : list line }.

Definition omap_put (m : Z -> option Z) (k x : Z) : Z -> option Z := fun j => if j =? k then Some x else m j.
Definition of_option {A} (o : option A) : list A := match o with Some x => [x] | None => [] end.

(** print_packet_line, symbolic_execution.cpp 19-42 ([std::cout] is the list of lines). *)
Definition print_line (l : line) (t : trace) : outcome trace :=
  do _ <- cassert (0 <? l_src l);                                              (* 21 *)
  do _ <- cassert (0 <? l_dst l);                                              (* 22 *)
  Ok (mkTrace (last_packet t) (last_compute t) (packets t) (packet_size t) (printed t ++ [l])).

(** while (datatotransfert), symbolic_execution.cpp 173-181.  When the packet size does not
    divide the amount the C++ loop runs until the subtraction overflows (undefined); here it
    runs out of whatever fuel. *)
Fixpoint send (fuel : nat) (e src dst : Z) (deps : list Z) (data previous : Z) (t : trace) : outcome trace :=
  if data =? 0 then Ok t
  else match fuel with
       | O => Timeout
       | S fuel' =>
         let pid := packets t in                                               (* 174-175 *)
         do t' <- print_line (mkLine src dst 0 pid (deps ++ [previous]))
                    (mkTrace (omap_put (last_packet t) e pid) (last_compute t) (packets t + 1) (packet_size t) (printed t));
         send fuel' e src dst deps (data - packet_size t) pid t'               (* 179-180 *)
       end.

(** getVertexId of a vertex descriptor. *)
Definition id_of (g : graph) (i : nat) : outcome Z :=
  match nth_error (vertices g) i with Some v => Ok (v_id v) | None => Undefined end.

(** ForOutputEdges, symbolic_execution.cpp 158-182. *)
Fixpoint send_all (fuel : nat) (g : graph) (v : vertex) (deps : list Z) (compute : Z) (es : list edge) (t : trace) : outcome trace :=
  match es with
  | [] => Ok t
  | c :: es' =>
    do dst <- id_of g (e_dst c);
    let data := edge_in_total c in
    let size := if packet_size t =? 0 then data else packet_size t in          (* 167 *)
    do t' <- send fuel (e_id c) (v_id v) dst deps data compute
               (mkTrace (last_packet t) (last_compute t) (packets t) size (printed t));
    send_all fuel g v deps compute es' t'
  end.

(** symbolic_execution.cpp 140-182: what the execution of a task prints. *)
Definition print_firing (fuel : nat) (g : graph) (i : nat) (v : vertex) (t : trace) : outcome trace :=
  let deps := flat_map (fun c => of_option (last_packet t (e_id c))) (inputs g i) in           (* 143-146 *)
  let compute := packets t in                                                                   (* 149 *)
  do d <- total_duration v;
  do t1 <- print_line (mkLine (v_id v) (v_id v) d compute (deps ++ of_option (last_compute t (v_id v))))
             (mkTrace (last_packet t) (last_compute t) (packets t + 1) (packet_size t) (printed t));
  send_all fuel g v deps compute (outputs g i)
    (mkTrace (last_packet t1) (omap_put (last_compute t1) (v_id v) compute) (packets t1) (packet_size t1) (printed t1)).

(** [algorithms::symbolic_execution_with_packets], symbolic_execution.cpp 44-194; [psize] and
    [iterations] are the parameters (0 and 1 when absent, 62 and 73); 'ack' is read and not used. *)
Definition symbolic_execution_with_packets (fuel : nat) (g : graph) (psize iterations : Z) : outcome (list line) :=
  do N <- consistent_counts g;
  do _ <- cassert (forallb (fun v => (v_phases v =? 1)%nat) (vertices g));     (* 49-51 *)
  do r <- loop g (print_firing fuel g) fuel
            (initial_state g N iterations, mkTrace (fun _ => None) (fun _ => None) 0 psize []);
  Ok (printed (snd r)).
