(** Model of the execution with TDMA slots ("So4"): Actor::execEndWithMod, algorithms/throughput/actor.cpp
    208-234, State::advanceTimeWithMod, state.cpp 176-199, and computeComponentSo4Schedule,
    so4_noc.cpp 105-266.  Actors and states are those of [Sim], without bounded buffers.  The slots
    of the channels (generateConditions, 21-103) are a parameter: for each channel whether it is
    virtual, its slot and the length of its route.  The start times kept to build the schedule
    (179-183, 223-253) are not modelled: the answer is the throughput. *)
From Coq Require Import QArith.
From Verif Require Import Base Graph RepVec Sim.
Open Scope Z_scope.

(** What generateConditions and the routes say of a channel. *)
Record rule := mkRule { ru_virtual : bool; ru_slot : Z; ru_hops : Z }.
(** A message of n_buffer: when it arrives, its channel, its tokens. *)
Definition message := (Q * (nat * Z))%type.
(** History, read by no function of the code. *)
Inductive so4_event :=
| Took (i : nat) (n : Z) (at_ : Q)                       (* task i starts its firing n (from 0) *)
| Sent (i : nat) (p : Z) (x : message) (at_ : Q)        (* phase p of task i ends and sends x *)
| Received (x : message) (at_ : Q).

Definition trunc (q : Q) : Z := Z.quot (Qnum q) (Zpos (Qden q)).
(** actor.cpp 214-226; "slots" of 0 would be a division by zero. *)
Definition arrival (slots : Z) (r : rule) (now : Q) : outcome Q :=
  do m <- cmod (trunc now) slots;
  Ok (if ru_virtual r then now
      else
        let leave := (if m <=? ru_slot r then now + inject_Z (ru_slot r - m) else now + inject_Z slots - inject_Z (m - ru_slot r))%Q in
        Qred (leave + inject_Z (ru_hops r))).

Section Loop.
Variables (g : graph) (slots : Z) (rules : nat -> rule) (w : nat) (rep : Z).

(** 212-231: a message for each output channel. *)
Fixpoint messages (i : nat) (v : vertex) (p : Z) (now : Q) (l : list (nat * edge)) : outcome (list message) :=
  match l with
  | [] => Ok []
  | (k, c) :: l' =>
    if (e_src c =? i)%nat then
      do t <- arrival slots (rules k) now;
      do r <- messages i v p now l';
      Ok ((t, (k, exec_rate v i c p)) :: r)
    else messages i v p now l'
  end.
(** so4_noc.cpp 193-208: messages are taken from the front while they are due. *)
Fixpoint deliver (now : Q) (buffer : list message) (tokens : nat -> Z) (log : list so4_event) : list message * (nat -> Z) * list so4_event :=
  match buffer with
  | (t, (k, n)) :: b => if Qle_bool t now then deliver now b (upd tokens k (tokens k + n)) (Received (t, (k, n)) now :: log) else (buffer, tokens, log)
  | [] => ([], tokens, log)
  end.
(** State::advanceTimeWithMod. *)
Definition advance_mod (s : state) : Q * state :=
  let step := next_end g s in
  if Qeq_bool step 0 then (0%Q, s)
  else if Qeq_bool step long_max then
    (1%Q, mkState (s_queue s) (s_phase s) (s_tokens s) (s_space s) (Qred (s_time s + 1)) (s_bounded s))
  else (step, mkState (fun i => map (fun x => (Qred (fst x - step), snd x)) (s_queue s i)) (s_phase s) (s_tokens s) (s_space s)
                      (Qred (s_time s + step)) (s_bounded s)).

Record so4 := mkSo4 {
  o_pc : pc;
  o_actors : nat -> actor;        (* actorMap *)
  o_state : state;                (* currState *)
  o_count : Z;                    (* minRepActorExecCount *)
  o_visited : list state;         (* visitedStates *)
  o_now : Q;                      (* curr_step *)
  o_buffer : list message;        (* n_buffer *)
  o_end : option (nat * Q);       (* end_check, and the throughput *)
  o_left : list nat;              (* the tasks t with actors_check[t] < 0 *)
  o_log : list so4_event }.
Inductive so4_answer := So4Running (m : so4) | So4Periodic (iterations : nat) (total : Q) | So4Deadlock.

(** One step of the loop, 155-265. *)
Definition so4_tick (m : so4) : outcome so4_answer :=
  let s := o_state m in
  match o_pc m with
  | PEnd i =>
    match nth_error (vertices g) i with
    | None =>
      let '(buffer, tokens, log) := deliver (o_now m) (o_buffer m) (s_tokens s) (o_log m) in           (* 193-209 *)
      let s1 := update_state g (o_actors m) (mkState (s_queue s) (s_phase s) tokens (s_space s) (s_time s) (s_bounded s)) in
      Ok (So4Running (mkSo4 (PStart 0) (o_actors m) s1 (o_count m) (o_visited m) (o_now m) buffer (o_end m) (o_left m) log))
    | Some v =>
      if ready_to_end i s then
        let count := if (i =? w)%nat then o_count m + 1 else o_count m in
        let full := (i =? w)%nat && (count =? rep) in                                                   (* 167-168 *)
        let running := match o_end m with None => true | Some _ => false end in
        let rest := if full && running then from_repeated g (o_visited m) s else [] in                  (* 169-177 *)
        let visited := match rest with [] => if full && running then o_visited m ++ [s] else o_visited m | _ :: _ => o_visited m end in
        let stop := match rest with [] => o_end m | _ :: _ => Some (length rest, total_time rest) end in
        let s1 := if full then mkState (s_queue s) (s_phase s) (s_tokens s) (s_space s) 0 (s_bounded s) else s in
        let count1 := if full then 0 else count in
        match s_queue s1 i with
        | [] => Undefined
        | (_, p) :: queue =>
          do new <- messages i v p (o_now m) (numbered g);                                              (* 186 *)
          Ok (So4Running (mkSo4 (PEnd i) (upd (o_actors m) i (mkActor (a_execs (o_actors m i)) false))
               (mkState (upd (s_queue s1) i queue) (s_phase s1) (s_tokens s1) (s_space s1) (s_time s1) (s_bounded s1))
               count1 visited (o_now m) (o_buffer m ++ new) stop (o_left m)
               (fold_left (fun l x => Sent i p x (o_now m) :: l) new (o_log m))))
        end
      else Ok (So4Running (mkSo4 (PEnd (S i)) (o_actors m) s (o_count m) (o_visited m) (o_now m) (o_buffer m) (o_end m) (o_left m) (o_log m)))
    end
  | PStart i =>
    match nth_error (vertices g) i with
    | None => Ok (So4Running (mkSo4 PAdvance (o_actors m) s (o_count m) (o_visited m) (o_now m) (o_buffer m) (o_end m) (o_left m) (o_log m)))
    | Some v =>
      if ready g i v (o_actors m i) s then                                                              (* 216 *)
        do r <- exec_start g i v (o_actors m i) s;
        let acts := upd (o_actors m) i (fst r) in
        let left := match o_end m with None => o_left m | Some _ => filter (fun j => negb (j =? i)%nat) (o_left m) end in
        match o_end m, left with
        | Some (n, t), [] => Ok (So4Periodic n t)                                                       (* 226-247 *)
        | _, _ =>
          Ok (So4Running (mkSo4 (PStart (S i)) acts (update_state g acts (snd r)) (o_count m) (o_visited m) (o_now m) (o_buffer m) (o_end m) left
                                (Took i (a_execs (o_actors m i)) (o_now m) :: o_log m)))
        end
      else Ok (So4Running (mkSo4 (PStart (S i)) (o_actors m) s (o_count m) (o_visited m) (o_now m) (o_buffer m) (o_end m) (o_left m) (o_log m)))
    end
  | PAdvance =>
    let r := advance_mod s in
    if Qeq_bool (fst r) long_max then Ok So4Deadlock                                                    (* 261-264 *)
    else Ok (So4Running (mkSo4 (PEnd 0) (o_actors m) (snd r) (o_count m) (o_visited m) (Qred (o_now m + fst r)) (o_buffer m) (o_end m) (o_left m) (o_log m)))
  end.
Fixpoint so4_run (fuel : nat) (m : so4) : outcome so4_answer :=
  match fuel with
  | O => Timeout
  | S f => do a <- so4_tick m; match a with So4Running m' => so4_run f m' | _ => Ok a end
  end.
End Loop.

(** 110-153. *)
Definition so4_start (g : graph) : so4 :=
  mkSo4 (PEnd 0) (fun _ => mkActor 0 false) (new_state g None) 0 [] 0 [] None (seq 0 (length (vertices g))) [].
Definition so4_throughput (fuel ticks : nat) (g : graph) (slots : Z) (rules : nat -> rule) : outcome so4_answer :=
  do p <- prepare fuel g None;
  so4_run g slots rules (fst (fst p)) (snd (fst p)) ticks (so4_start g).
