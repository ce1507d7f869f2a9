(** Model of the storage dependencies found by the self-timed execution:
    algorithms/dse/abstract_dep_graph.cpp, Actor::computeCausalDeps of throughput/actor.cpp, and
    computeComponentThroughputCycles, computePeriodicStorageDeps and computeDeadlockStorageDeps of
    throughput/symbolic_execution.cpp.

    Channels are named by their position in the graph, tasks by their identifier where the code
    does so.  The recursions and loops are fuelled. *)
From Coq Require Import QArith.
From Verif Require Import Base Graph RepVec Scc Sim.
Open Scope Z_scope.

(** class abstractDepGraph: the pairs of identifiers mapped to true.  Every pair of tasks has an
    entry from the constructor on, abstract_dep_graph.cpp 12-23, so operator[] adds none. *)
Definition depgraph := list (Z * Z).
Definition pair_eqb (a b : Z * Z) : bool := (fst a =? fst b) && (snd a =? snd b).
Definition dep (d : depgraph) (u v : Z) : bool := existsb (pair_eqb (u, v)) d.

(** getVertexId of the end of a channel; channels join tasks of the graph. *)
Definition vid (g : graph) (i : nat) : Z := match nth_error (vertices g) i with Some v => v_id v | None => 0 end.
Definition ids (g : graph) : list Z := map v_id (vertices g).

(** abstractDepGraph::computeDFSStack, 143-157; the map is iterated in the order of its keys. *)
Fixpoint each_key (rec : Z -> list Z * list Z -> outcome (list Z * list Z)) (ks : list Z) (st : list Z * list Z) : outcome (list Z * list Z) :=
  match ks with [] => Ok st | k :: ks' => do st' <- rec k st; each_key rec ks' st' end.
Fixpoint dep_stack (fuel : nat) (g : graph) (d : depgraph) (start : Z) (st : list Z * list Z) : outcome (list Z * list Z) :=
  match fuel with
  | O => Timeout
  | S fuel' =>
    if visited (fst st) start then Ok st
    else
      do st' <- each_key (dep_stack fuel' g d) (filter (fun k => dep d start k) (keys (ids g))) (start :: fst st, snd st);
      Ok (fst st', start :: snd st')
  end.
(** abstractDepGraph::dfsTranspose, 159-174. *)
Fixpoint dep_transpose (fuel : nat) (g : graph) (d : depgraph) (start : Z) (st : list Z * list Z) : outcome (list Z * list Z) :=
  match fuel with
  | O => Timeout
  | S fuel' =>
    if visited (fst st) start then Ok st
    else each_key (dep_transpose fuel' g d) (filter (fun k => dep d k start) (keys (ids g))) (start :: fst st, snd st ++ [start])
  end.
(** computeStorageDependenciesSCC, 76-81. *)
Fixpoint dep_stack_loop (fuel : nat) (g : graph) (d : depgraph) (ks : list Z) (st : list Z * list Z) : outcome (list Z * list Z) :=
  match ks with
  | [] => Ok st
  | k :: ks' => if visited (fst st) k then dep_stack_loop fuel g d ks' st
                else do st' <- dep_stack fuel g d k st; dep_stack_loop fuel g d ks' st'
  end.
(** 88-98; the components in order of their number. *)
Fixpoint dep_component_loop (fuel : nat) (g : graph) (d : depgraph) (stack vis : list Z) : outcome (list (list Z)) :=
  match stack with
  | [] => Ok []
  | x :: stack' =>
    if visited vis x then dep_component_loop fuel g d stack' vis
    else
      do st <- dep_transpose fuel g d x (vis, []);
      do rest <- dep_component_loop fuel g d stack' (fst st);
      Ok (snd st :: rest)
  end.
(** findStorageDepsFromSCC, 118-141, and 108-114: the channels found, each once. *)
Definition scc_channels (g : graph) (d : depgraph) (comps : list (list Z)) : list nat :=
  map fst (filter (fun kc => let u := vid g (e_src (snd kc)) in let v := vid g (e_dst (snd kc)) in
                             dep d u v && existsb (fun c => visited c u && visited c v) comps) (numbered g)).
(** computeStorageDependenciesSCC, 59-116. *)
Definition storage_deps_scc (fuel : nat) (g : graph) (d : depgraph) : outcome (list nat) :=
  do st <- dep_stack_loop fuel g d (keys (ids g)) ([], []);
  do comps <- dep_component_loop fuel g d (snd st) [];
  Ok (scc_channels g d comps).

(** What computeCycles changes: the dependency graph itself, visited, adjActors, storageDeps. *)
Record search := mkSearch { c_deps : depgraph; c_visited : list Z; c_adj : Z -> Z; c_marks : list nat }.
(** 191-197: the channels from [v1] to [v2]. *)
Definition joining (g : graph) (v1 v2 : Z) : list nat :=
  map fst (filter (fun kc => (vid g (e_src (snd kc)) =? v1) && (vid g (e_dst (snd kc)) =? v2)) (numbered g)).
(** The do-while of 190-201; a chain of predecessors has at most as many members as there are tasks. *)
Fixpoint walk_back (fuel : nat) (g : graph) (adj : Z -> Z) (dst v1 v2 : Z) (marks : list nat) : outcome (list nat) :=
  match fuel with
  | O => Timeout
  | S fuel' =>
    let marks' := joining g v1 v2 ++ marks in
    if v1 =? dst then Ok marks' else walk_back fuel' g adj dst (adj v1) v1 marks'
  end.
Definition set_adj (adj : Z -> Z) (u x : Z) : Z -> Z := fun v => if v =? u then x else adj v.
(** The loop of 184-207 over the tasks: the dependency is looked up in the graph as it stands. *)
Fixpoint each_target (rec : Z -> search -> outcome search) (g : graph) (start : Z) (vs : list Z) (s : search) : outcome search :=
  match vs with
  | [] => Ok s
  | dst :: vs' =>
    do s' <- (if dep (c_deps s) start dst then
                if visited (c_visited s) dst then
                  do marks <- walk_back (S (length (vertices g))) g (c_adj s) dst start dst (c_marks s);
                  Ok (mkSearch (c_deps s) (c_visited s) (c_adj s) marks)
                else rec dst (mkSearch (c_deps s) (c_visited s) (set_adj (c_adj s) dst start) (c_marks s))
              else Ok s);
    each_target rec g start vs' s'
  end.
(** computeCycles, 177-215: at the end the task loses its dependencies, both ways. *)
Fixpoint compute_cycles (fuel : nat) (g : graph) (start : Z) (s : search) : outcome search :=
  match fuel with
  | O => Timeout
  | S fuel' =>
    do s' <- each_target (compute_cycles fuel' g) g start (ids g) (mkSearch (c_deps s) (start :: c_visited s) (c_adj s) (c_marks s));
    Ok (mkSearch (filter (fun p => negb (fst p =? start) && negb (snd p =? start)) (c_deps s'))
                 (filter (fun x => negb (x =? start)) (c_visited s')) (c_adj s') (c_marks s'))
  end.
(** 46-49. *)
Fixpoint cycles_loop (fuel : nat) (g : graph) (vs : list Z) (s : search) : outcome search :=
  match vs with
  | [] => Ok s
  | v :: vs' =>
    do s' <- compute_cycles fuel g v (mkSearch (c_deps s) (c_visited s) (set_adj (c_adj s) v v) (c_marks s));
    cycles_loop fuel g vs' s'
  end.
(** computeStorageDependencies, 32-57.  adjActors starts empty: operator[] reads 0. *)
Definition storage_deps_cycles (fuel : nat) (g : graph) (d : depgraph) : outcome (list nat) :=
  do s <- cycles_loop fuel g (ids g) (mkSearch d [] (fun _ => 0) []);
  Ok (filter (fun k => existsb (Nat.eqb k) (c_marks s)) (seq 0 (length (edges g)))).

(** symbolic_execution.cpp 491-495 and 551-555. *)
Definition storage_deps (corrected : bool) (fuel : nat) (g : graph) (d : depgraph) : outcome (list nat) :=
  if corrected then storage_deps_scc fuel g d else storage_deps_cycles fuel g d.

(** Actor::computeCausalDeps, actor.cpp 236-275: [prev] is prevState, of which the tokens and the
    spaces only are read. *)
Definition causal_deps (g : graph) (i : nat) (v : vertex) (a : actor) (prev : state) : depgraph :=
  map (fun kc => (vid g (e_dst (snd kc)), vid g (e_src (snd kc))))
      (filter (fun kc => (e_dst (snd kc) =? i)%nat && (s_tokens prev (fst kc) <? current_rate v i a (snd kc))) (numbered g)) ++
  map (fun kc => (vid g (e_src (snd kc)), vid g (e_dst (snd kc))))
      (filter (fun kc => (e_src (snd kc) =? i)%nat && (s_space prev (fst kc) <? current_rate v i a (snd kc))) (numbered g)).

(** computeDeadlockStorageDeps, symbolic_execution.cpp 515-548. *)
Definition rate_of (g : graph) (acts : nat -> actor) (i : nat) (c : edge) : Z :=
  match nth_error (vertices g) i with Some v => current_rate v i (acts i) c | None => 0 end.
Definition deadlock_deps (g : graph) (acts : nat -> actor) (s : state) : depgraph :=
  flat_map (fun kc => let k := fst kc in let c := snd kc in
    (if s_tokens s k <? rate_of g acts (e_dst c) c then [(vid g (e_dst c), vid g (e_src c))] else []) ++
    (if s_space s k <? rate_of g acts (e_src c) c then [(vid g (e_src c), vid g (e_dst c))] else [])) (numbered g).

(** The loop of computeComponentThroughputCycles, 338-406: that of [run], with prevState set at
    the head of the loop, 339-344 ([PAdvance] is the last step of a round).  The machine is the one
    in which the answer is given. *)
Fixpoint run_prev (fuel : nat) (g : graph) (w : nat) (rep : Z) (m : machine) (prev : state) : outcome (answer * machine * state) :=
  match fuel with
  | O => Timeout
  | S f =>
    do a <- tick g w rep m;
    match a with
    | Running m' => run_prev f g w rep m' (match m_pc m with PAdvance => m_state m' | _ => prev end)
    | _ => Ok (a, m, prev)
    end
  end.

(** computePeriodicStorageDeps, 432-513: a second execution from the recurrent state on.
    [r_first] holds during the first pass over the tasks that end (449-461), which does not
    compare the states. *)
Record retrace := mkRetrace { r_machine : machine; r_prev : state; r_deps : depgraph; r_first : bool }.
Inductive found := Searching (r : retrace) | Found (d : depgraph).
Definition dep_tick (g : graph) (w : nat) (rep : Z) (recurrent : state) (r : retrace) : outcome found :=
  let m := r_machine r in
  let s := m_state m in
  match m_pc m with
  | PEnd i =>
    match nth_error (vertices g) i with
    | None => Ok (Searching (mkRetrace (mkMachine (PStart 0) (m_actors m) s (m_count m) (m_visited m) (m_now m) (m_log m))
                                       (r_prev r) (r_deps r) false))
    | Some v =>
      if ready_to_end i s then
        let count := if (i =? w)%nat then m_count m + 1 else m_count m in                 (* 452-453, 483-484 *)
        let full := (i =? w)%nat && (count =? rep) in                                     (* 454, 485 *)
        if full && negb (r_first r) && state_eq g s recurrent then Ok (Found (r_deps r))  (* 488-499 *)
        else
          let s1 := if full then mkState (s_queue s) (s_phase s) (s_tokens s) (s_space s) 0 (s_bounded s) else s in
          let count1 := if full then 0 else count in
          do x <- exec_end g i v (m_actors m i) s1;                                       (* 459, 505 *)
          let acts := upd (m_actors m) i (fst x) in
          Ok (Searching (mkRetrace (mkMachine (PEnd i) acts (update_state g acts (snd x)) count1 (m_visited m) (m_now m)
                                              (Ended i (m_now m) :: m_log m)) (r_prev r) (r_deps r) (r_first r)))
      else Ok (Searching (mkRetrace (mkMachine (PEnd (S i)) (m_actors m) s (m_count m) (m_visited m) (m_now m) (m_log m))
                                    (r_prev r) (r_deps r) (r_first r)))
    end
  | PStart i =>
    match nth_error (vertices g) i with
    | None => Ok (Searching (mkRetrace (mkMachine PAdvance (m_actors m) s (m_count m) (m_visited m) (m_now m) (m_log m))
                                       (r_prev r) (r_deps r) (r_first r)))
    | Some v =>
      if ready g i v (m_actors m i) s then
        let deps := causal_deps g i v (m_actors m i) (r_prev r) ++ r_deps r in            (* 469 *)
        do x <- exec_start g i v (m_actors m i) s;                                        (* 470 *)
        let acts := upd (m_actors m) i (fst x) in
        Ok (Searching (mkRetrace (mkMachine (PStart i) acts (update_state g acts (snd x)) (m_count m) (m_visited m) (m_now m)
                                            (Started i (m_now m) :: m_log m)) (r_prev r) deps (r_first r)))
      else Ok (Searching (mkRetrace (mkMachine (PStart (S i)) (m_actors m) s (m_count m) (m_visited m) (m_now m) (m_log m))
                                    (r_prev r) (r_deps r) (r_first r)))
    end
  | PAdvance =>                                                                           (* 474-480 *)
    let x := advance_time g s in
    Ok (Searching (mkRetrace (mkMachine (PEnd 0) (m_actors m) (snd x) (m_count m) (m_visited m) (Qred (m_now m + fst x)) (m_log m))
                             (snd x) (r_deps r) (r_first r)))
  end.
Fixpoint dep_run (fuel : nat) (g : graph) (w : nat) (rep : Z) (recurrent : state) (r : retrace) : outcome depgraph :=
  match fuel with
  | O => Timeout
  | S f =>
    do x <- dep_tick g w rep recurrent r;
    match x with Searching r' => dep_run f g w rep recurrent r' | Found d => Ok d end
  end.
(** 440-447: timeElapsed and minRepActorExecCount are reset; the scan of the tasks starts over. *)
Definition retrace_from (m : machine) (prev : state) : retrace :=
  let s := m_state m in
  mkRetrace (mkMachine (PEnd 0) (m_actors m) (mkState (s_queue s) (s_phase s) (s_tokens s) (s_space s) 0 (s_bounded s)) (-1)
                       (m_visited m) (m_now m) (m_log m)) prev [] true.

(** computeComponentThroughputCycles, 303-407, and compute_asap_throughput_and_cycles, 175-200:
    the throughput and the channels of critical_edges; [cap] is the storage distribution. *)
Definition component_cycles (corrected : bool) (fuel ticks : nat) (g : graph) (cap : nat -> Z) : outcome (answer * list nat) :=
  do p <- prepare fuel g (Some cap);
  let w := fst (fst p) in let rep := snd (fst p) in
  do x <- run_prev ticks g w rep (snd p) (m_state (snd p));
  let m := snd (fst x) in
  match fst (fst x) with
  | Periodic n total =>
    do d <- dep_run ticks g w rep (m_state m) (retrace_from m (snd x));
    do r <- storage_deps corrected fuel g d;
    Ok (Periodic n total, r)
  | Deadlock =>
    do r <- storage_deps corrected fuel g (deadlock_deps g (m_actors m) (m_state m));
    Ok (Deadlock, r)
  | Running _ => Timeout
  end.
