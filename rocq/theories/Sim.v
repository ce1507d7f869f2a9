(** Model of the self-timed ("symbolic") execution: algorithms/throughput/actor.{h,cpp},
    state.{h,cpp} and computeComponentThroughput of symbolic_execution.cpp.

    Maps keyed by vertices or edges are functions of their position in the graph (identifiers
    are unique, C10, so actorMap keyed by identifier is the same map).  Times are exact
    rationals kept in lowest terms (rounding of long double is not modelled), and integer
    overflow of the counters is not modelled. *)
From Coq Require Import QArith.
From Verif Require Import Base Graph RepVec.
Open Scope Z_scope.

(** A map with one entry changed. *)
Definition upd {A} (f : nat -> A) (i : nat) (x : A) : nat -> A := fun j => if (j =? i)%nat then x else f j.

(** class Actor, actor.h 61-75: numExecs and isExecuting.  The other members are copies of the
    graph's data, read from the graph here. *)
Record actor := mkActor { a_execs : Z; a_busy : bool }.

(** class State, state.h: executingActors, actorPhases, currentTokens, bufferSpaces, timeElapsed,
    isBounded.  bufferCapacities is never read after construction; [actors] is the vertex list. *)
Record state := mkState {
  s_queue : nat -> list (Q * Z);
  s_phase : nat -> Z;
  s_tokens : nat -> Z;
  s_space : nat -> Z;
  s_time : Q;
  s_bounded : bool
}.

(** Actor::Actor, actor.cpp 24-53: rates are read with [at] for every phase of the task, which
    throws on a short vector; Actor::getPhase (75-77) divides by the phase count. *)
Definition actor_ok (g : graph) (i : nat) (v : vertex) : outcome unit :=
  do _ <- cassert (forallb (fun c => ((negb (e_dst c =? i)%nat) || (v_phases v <=? length (e_out c))%nat) &&
                                     ((negb (e_src c =? i)%nat) || (v_phases v <=? length (e_in c))%nat)) (edges g));
  if (v_phases v =? 0)%nat then Undefined else Ok tt.
Fixpoint actors_ok (g : graph) (i : nat) (vs : list vertex) : outcome unit :=
  match vs with [] => Ok tt | v :: vs' => do _ <- actor_ok g i v; actors_ok g (S i) vs' end.

(** Actor::getPhaseCount, actor.cpp 55-66: the consumption side is looked up first. *)
Definition phase_count (i : nat) (c : edge) : Z :=
  if (e_dst c =? i)%nat then Z.of_nat (length (e_out c)) else Z.of_nat (length (e_in c)).
(** Actor::getExecRate(e,p), actor.cpp 104-115: the production side is looked up first; the inner
    map holds the phases of the task and reads 0 elsewhere. *)
Definition exec_rate (v : vertex) (i : nat) (c : edge) (p : Z) : Z :=
  if (1 <=? p) && (p <=? Z.of_nat (v_phases v))
  then nth (Z.to_nat (p - 1)) (if (e_src c =? i)%nat then e_in c else e_out c) 0 else 0.
(** Actor::getExecRate(e), actor.cpp 89-102. *)
Definition current_rate (v : vertex) (i : nat) (a : actor) (c : edge) : Z :=
  exec_rate v i c (Z.rem (a_execs a) (phase_count i c) + 1).
(** Actor::getPhase(), actor.cpp 75-77. *)
Definition actor_phase (v : vertex) (a : actor) : Z := Z.rem (a_execs a) (Z.of_nat (v_phases v)) + 1.

(** The channels with their positions. *)
Definition numbered (g : graph) : list (nat * edge) := combine (seq 0 (length (edges g))) (edges g).

(** Actor::isReadyForExec, actor.cpp 121-151. *)
Definition ready (g : graph) (i : nat) (v : vertex) (a : actor) (s : state) : bool :=
  forallb (fun kc => negb (e_dst (snd kc) =? i)%nat ||
                     negb ((s_tokens s (fst kc) <? current_rate v i a (snd kc)) || a_busy a)) (numbered g) &&
  (negb (s_bounded s) ||
   forallb (fun kc => negb (e_src (snd kc) =? i)%nat ||
                      negb ((s_space s (fst kc) <? current_rate v i a (snd kc)) || a_busy a)) (numbered g)).
(** Actor::isReadyToEndExec, actor.cpp 154-161. *)
Definition ready_to_end (i : nat) (s : state) : bool :=
  match s_queue s i with [] => false | (t, _) :: _ => Qeq_bool t 0 end.

(** ForInputEdges / ForOutputEdges with an update of one map, e.g. actor.cpp 165-167. *)
Definition on_inputs (g : graph) (i : nat) (f : edge -> Z -> Z) (m : nat -> Z) : nat -> Z :=
  fun k => match nth_error (edges g) k with
           | Some c => if (e_dst c =? i)%nat then f c (m k) else m k
           | None => m k
           end.
Definition on_outputs (g : graph) (i : nat) (f : edge -> Z -> Z) (m : nat -> Z) : nat -> Z :=
  fun k => match nth_error (edges g) k with
           | Some c => if (e_src c =? i)%nat then f c (m k) else m k
           | None => m k
           end.

(** Actor::execStart, actor.cpp 164-182. *)
Definition exec_start (g : graph) (i : nat) (v : vertex) (a : actor) (s : state) : outcome (actor * state) :=
  let tokens := on_inputs g i (fun c t => t - current_rate v i a c) (s_tokens s) in
  let space := if s_bounded s then on_outputs g i (fun c t => t - current_rate v i a c) (s_space s) else s_space s in
  let p := actor_phase v a in
  do d <- vertex_duration v p;
  Ok (mkActor (a_execs a + 1) true,
      mkState (upd (s_queue s) i (s_queue s i ++ [(Qred d, p)])) (s_phase s) tokens space (s_time s) (s_bounded s)).
(** Actor::execEnd, actor.cpp 185-205. *)
Definition exec_end (g : graph) (i : nat) (v : vertex) (a : actor) (s : state) : outcome (actor * state) :=
  match s_queue s i with
  | [] => Undefined
  | (_, p) :: rest =>
    let tokens := on_outputs g i (fun c t => t + exec_rate v i c p) (s_tokens s) in
    let space := if s_bounded s then on_inputs g i (fun c t => t + exec_rate v i c p) (s_space s) else s_space s in
    Ok (mkActor (a_execs a) false, mkState (upd (s_queue s) i rest) (s_phase s) tokens space (s_time s) (s_bounded s))
  end.

(** State::updateState, state.cpp 142-151: the phases of all actors (the tokens are set to
    themselves). *)
Definition update_state (g : graph) (acts : nat -> actor) (s : state) : state :=
  mkState (s_queue s)
          (fun i => match nth_error (vertices g) i with Some v => actor_phase v (acts i) | None => s_phase s i end)
          (s_tokens s) (s_space s) (s_time s) (s_bounded s).

(** LONG_MAX, the initial value of the minimum. *)
Definition long_max : Q := inject_Z 9223372036854775807.
(** std::min. *)
Definition qmin (a b : Q) : Q := if Qle_bool a b then a else b.
(** The minimum over the first execution of each actor's queue, state.cpp 154-158. *)
Definition next_end (g : graph) (s : state) : Q :=
  fold_left (fun m i => match s_queue s i with [] => m | (t, _) :: _ => qmin m t end) (seq 0 (length (vertices g))) long_max.
(** State::advanceTime, state.cpp 153-174: the returned step and the new state. *)
Definition advance_time (g : graph) (s : state) : Q * state :=
  let step := next_end g s in
  if Qeq_bool step 0 then (step, s)
  else if Qeq_bool step long_max then (step, s)
  else (step, mkState (fun i => map (fun x => (Qred (fst x - step), snd x)) (s_queue s i)) (s_phase s) (s_tokens s) (s_space s)
                      (Qred (s_time s + step)) (s_bounded s)).

(** State::operator==, state.cpp 205-226 (the spaces are not compared). *)
Fixpoint queue_eq (a b : list (Q * Z)) : bool :=
  match a, b with
  | [], [] => true
  | (t, p) :: a', (t', p') :: b' => Qeq_bool t t' && (p =? p') && queue_eq a' b'
  | _, _ => false
  end.
Definition state_eq (g : graph) (a b : state) : bool :=
  Qeq_bool (s_time a) (s_time b) &&
  forallb (fun i => s_phase a i =? s_phase b i) (seq 0 (length (vertices g))) &&
  forallb (fun k => s_tokens a k =? s_tokens b k) (seq 0 (length (edges g))) &&
  forallb (fun i => queue_eq (s_queue a i) (s_queue b i)) (seq 0 (length (vertices g))).

(** std::find over the visited states, state.cpp 264-273: the part of the list from the first
    state equal to [s] on, empty when there is none. *)
Fixpoint from_repeated (g : graph) (visited : list state) (s : state) : list state :=
  match visited with
  | [] => []
  | x :: r => if state_eq g x s then visited else from_repeated g r s
  end.
(** StateList::computeThroughput, state.cpp 282-296: number_iterations and total_time over that
    part; the throughput is their quotient. *)
Definition total_time (l : list state) : Q := fold_left (fun acc s => Qred (acc + s_time s)) l 0%Q.

(** Where the loop of computeComponentThroughput is: ending the firings of task [i]
    (symbolic_execution.cpp 250-271), starting those of task [i] (280-285), or advancing time
    (294-300). *)
Inductive pc := PEnd (i : nat) | PStart (i : nat) | PAdvance.
(** History, read by no function of the code: firings started and ended, with the instant
    ([curr_step] of computeComponentThroughputSchedule, 722-723). *)
Inductive event := Started (i : nat) (at_ : Q) | Ended (i : nat) (at_ : Q).
Record machine := mkMachine {
  m_pc : pc;
  m_actors : nat -> actor;      (* actorMap *)
  m_state : state;              (* currState *)
  m_count : Z;                  (* minRepActorExecCount *)
  m_visited : list state;       (* visitedStates, in order of insertion *)
  m_now : Q;                    (* history: current instant *)
  m_log : list event            (* history, latest first *)
}.
Inductive answer :=
| Running (m : machine)
| Periodic (iterations : nat) (total : Q)   (* returns iterations / total *)
| Deadlock.                                 (* returns 0 *)

(** One step of the loop; [w] and [rep] are minRepActor and minRepFactor. *)
Definition tick (g : graph) (w : nat) (rep : Z) (m : machine) : outcome answer :=
  let s := m_state m in
  match m_pc m with
  | PEnd i =>
    match nth_error (vertices g) i with
    | None => Ok (Running (mkMachine (PStart 0) (m_actors m) s (m_count m) (m_visited m) (m_now m) (m_log m)))
    | Some v =>
      if ready_to_end i s then
        let count := if (i =? w)%nat then m_count m + 1 else m_count m in                 (* 252-253 *)
        let full := (i =? w)%nat && (count =? rep) in                                     (* 254 *)
        let rest := if full then from_repeated g (m_visited m) s else [] in
        match rest with
        | _ :: _ => Ok (Periodic (length rest) (total_time rest))                         (* 257-262 *)
        | [] =>
          let visited := if full then m_visited m ++ [s] else m_visited m in
          let s1 := if full then mkState (s_queue s) (s_phase s) (s_tokens s) (s_space s) 0 (s_bounded s) else s in  (* 264 *)
          let count1 := if full then 0 else count in                                      (* 265 *)
          do r <- exec_end g i v (m_actors m i) s1;                                       (* 268 *)
          let acts := upd (m_actors m) i (fst r) in
          Ok (Running (mkMachine (PEnd i) acts (update_state g acts (snd r)) count1 visited (m_now m)
                                 (Ended i (m_now m) :: m_log m)))                          (* 269 *)
        end
      else Ok (Running (mkMachine (PEnd (S i)) (m_actors m) s (m_count m) (m_visited m) (m_now m) (m_log m)))
    end
  | PStart i =>
    match nth_error (vertices g) i with
    | None => Ok (Running (mkMachine PAdvance (m_actors m) s (m_count m) (m_visited m) (m_now m) (m_log m)))
    | Some v =>
      if ready g i v (m_actors m i) s then
        do r <- exec_start g i v (m_actors m i) s;
        let acts := upd (m_actors m) i (fst r) in
        Ok (Running (mkMachine (PStart i) acts (update_state g acts (snd r)) (m_count m) (m_visited m) (m_now m)
                               (Started i (m_now m) :: m_log m)))
      else Ok (Running (mkMachine (PStart (S i)) (m_actors m) s (m_count m) (m_visited m) (m_now m) (m_log m)))
    end
  | PAdvance =>
    let r := advance_time g s in
    if Qeq_bool (fst r) long_max then Ok Deadlock
    else Ok (Running (mkMachine (PEnd 0) (m_actors m) (snd r) (m_count m) (m_visited m) (Qred (m_now m + fst r)) (m_log m)))
  end.

(** "while (true)", symbolic_execution.cpp 241-301. *)
Fixpoint run (fuel : nat) (g : graph) (w : nat) (rep : Z) (m : machine) : outcome answer :=
  match fuel with
  | O => Timeout
  | S f =>
    do a <- tick g w rep m;
    match a with Running m' => run f g w rep m' | _ => Ok a end
  end.

(** State::State, state.cpp 22-66; [caps] holds the channel capacities when bounded. *)
Definition new_state (g : graph) (caps : option (nat -> Z)) : state :=
  let preload k := match nth_error (edges g) k with Some c => e_preload c | None => 0 end in
  mkState (fun _ => []) (fun _ => 1) preload (match caps with Some cap => fun k => cap k - preload k | None => fun _ => 0 end) 0
          (match caps with Some _ => true | None => false end).
Definition new_machine (g : graph) (caps : option (nat -> Z)) : machine :=
  mkMachine (PEnd 0) (fun _ => mkActor 0 false) (new_state g caps) 0 [] 0 [].

(** minRepFactor = INT_MAX, then the first task with the least repetition factor,
    symbolic_execution.cpp 210-211 and 228-235; left uninitialised when no factor is below. *)
Definition int_max : Z := 2147483647.
Definition min_actor (N : list Z) : option (nat * Z) :=
  fst (fold_left (fun acc n => let '(best, i) := acc in
         (if n <? match best with Some b => snd b | None => int_max end then Some (i, n) else best, S i)) N (None, O)).

(** computeComponentThroughput, symbolic_execution.cpp 207-301, and the throughput part of
    computeComponentThroughputCycles, 303-407 ([caps] given). *)
Definition prepare (fuel : nat) (g : graph) (caps : option (nat -> Z)) : outcome (nat * Z * machine) :=
  do N <- compute_repetition_vector fuel g;
  match N with
  | None => Rejected
  | Some N =>
    do _ <- actors_ok g 0 (vertices g);
    match min_actor N with
    | None => Undefined
    | Some (w, rep) => Ok (w, rep, new_machine g caps)
    end
  end.
Definition component_throughput (fuel ticks : nat) (g : graph) (caps : option (nat -> Z)) : outcome answer :=
  do p <- prepare fuel g caps;
  run ticks g (fst (fst p)) (snd (fst p)) (snd p).
