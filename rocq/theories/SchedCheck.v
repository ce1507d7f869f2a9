(** Model of models::Scheduling::is_valid_schedule, models/Scheduling.cpp 276-474: the check of a schedule by
    executing it. *)
From Coq Require Import QArith.
From Verif Require Import Base Graph.
Open Scope Z_scope.

(** [task_schedule_t], models/Scheduling.h 16-24: start times given one by one, then a period and the start
    times that repeat with it. *)
Record given := mkGiven { g_initial : list Q; g_period : Q; g_periodic : list Q }.

(** Lines 319-323 (and 339-343), [n] times: the first periodic start is taken and put back one period
    later.  [second[0]] of an empty vector is undefined. *)
Fixpoint draw (n : nat) (period : Q) (l : list Q) : outcome (list Q * list Q) :=
  match n with
  | O => Ok ([], l)
  | S n' => match l with
            | [] => Undefined
            | x :: l' => do p <- draw n' period (l' ++ [(x + period)%Q]); Ok (x :: fst p, snd p)
            end
  end.
(** Lines 337-345: the same until the last start is no earlier than [max_time]. *)
Fixpoint fill (fuel : nat) (max_time end_time period : Q) (l : list Q) : outcome (list Q) :=
  if Qle_bool max_time end_time then Ok [] else
  match fuel with
  | O => Timeout
  | S f => match l with
           | [] => Undefined
           | x :: l' => do r <- fill f max_time x period (l' ++ [(x + period)%Q]); Ok (x :: r)
           end
  end.

(** The catalogue entry of each task (269-274) with its entries of [exec_left] and [task_history]; the tokens
    of the channels by identifier.  Vectors indexed by task identifier are functions of the position. *)
Record check := mkCheck { ck_sched : nat -> list Q; ck_phase : nat -> nat; ck_left : nat -> Z; ck_hist : nat -> Q; ck_load : Z -> Z }.
Definition set_at {A} (f : nat -> A) (i : nat) (x : A) : nat -> A := fun j => if (j =? i)%nat then x else f j.
Definition set_load (f : Z -> Z) (id x : Z) : Z -> Z := fun k => if k =? id then x else f k.

Definition task (g : graph) (i : nat) : vertex := nth i (vertices g) (mkVertex 0 0 0 [] [] 0).
Definition duration_now (g : graph) (ck : check) (i : nat) : Q := nth (ck_phase ck i) (v_durations (task g i)) 0%Q.

(** Lines 400-405: the tokens that the execution of [i] produces. *)
Definition produce (g : graph) (ck : check) (load : Z -> Z) (i : nat) : Z -> Z :=
  fold_left (fun ld c => if (e_src c =? i)%nat then set_load ld (e_id c) (ld (e_id c) + nth (ck_phase ck i) (e_in c) 0) else ld) (edges g) load.
(** Lines 409-417: the tokens that [i] consumes; [None] when a channel goes negative (416). *)
Fixpoint consume (es : list edge) (phase i : nat) (load : Z -> Z) : option (Z -> Z) :=
  match es with
  | [] => Some load
  | c :: rest =>
    if (e_dst c =? i)%nat then
      let x := load (e_id c) - nth phase (e_out c) 0 in
      if x <? 0 then None else consume rest phase i (set_load load (e_id c) x)
    else consume rest phase i load
  end.
(** Lines 419-423. *)
Definition finish (g : graph) (ck : check) (i : nat) : check :=
  mkCheck (set_at (ck_sched ck) i (tl (ck_sched ck i)))
          (set_at (ck_phase ck) i ((ck_phase ck i + 1) mod length (v_durations (task g i)))%nat)
          (set_at (ck_left ck) i (if 0 <? ck_left ck i then ck_left ck i - 1 else ck_left ck i)) (ck_hist ck) (ck_load ck).

(** Lines 441-445: the first start that is neither before [now] nor already seen, or the last one. *)
Fixpoint candidate (now seen : Q) (l : list Q) : option Q :=
  match l with
  | [] => None
  | [x] => Some x
  | x :: rest => if negb (Qle_bool now x) || Qle_bool x seen then candidate now seen rest else Some x
  end.
(** Lines 436-453: the map from start times to tasks keeps the last task of equal keys; its first entry is taken. *)
Definition next_start (ck : check) (order : list nat) (now : Q) : option (Q * nat) :=
  fold_left (fun best i =>
    match candidate now (ck_hist ck i) (ck_sched ck i) with
    | None => best
    | Some x => if Qle_bool x (ck_hist ck i) then best else
                match best with
                | Some (y, j) => if Qle_bool x y then Some (x, i) else Some (y, j)
                | None => Some (x, i)
                end
    end) order None.

Definition total_left (ck : check) (order : list nat) : Z := fold_left (fun a i => a + ck_left ck i) order 0.

(** The loop, 372-470.  [order] is the order of the task map (by identifier); [i] starts at [now]. *)
Fixpoint check_loop (fuel : nat) (g : graph) (order : list nat) (ck : check) (i : nat) (now : Q) : outcome bool :=
  if total_left ck order =? 0 then Ok true else
  match fuel with
  | O => Timeout
  | S f =>
    if existsb (fun j => match ck_sched ck j with [] => true | _ => false end) order then Undefined            (* 382 *)
    else
      let outs := filter (fun j => Qle_bool (duration_now g ck j + hd 0%Q (ck_sched ck j))%Q now) order in
      match consume (edges g) (ck_phase ck i) i (fold_left (produce g ck) outs (ck_load ck)) with
      | None => Ok false
      | Some load =>
        let ck1 := fold_left (finish g) outs ck in
        let ck2 := mkCheck (ck_sched ck1) (ck_phase ck1) (ck_left ck1) (set_at (ck_hist ck1) i now) load in     (* 434 *)
        match next_start ck2 order now with
        | None => Undefined                                                                                   (* 452: begin of an empty map *)
        | Some (now', j) =>
          if (v_reentrancy (task g j) =? 0) && negb (Qle_bool (ck_hist ck2 j + duration_now g ck2 j)%Q now')   (* 463-468 *)
          then Ok false
          else check_loop f g order ck2 j now'
        end
      end
  end.

Fixpoint all_drawn (g : graph) (N : nat -> Z) (s : nat -> given) (order : list nat) : outcome (list (nat * (list Q * list Q))) :=
  match order with
  | [] => Ok []
  | i :: rest => do p <- draw (S (Z.to_nat (N i))) (g_period (s i)) (g_periodic (s i));
                 do r <- all_drawn g N s rest; Ok ((i, (g_initial (s i) ++ fst p, snd p)) :: r)                (* 309-325 *)
  end.
Fixpoint all_filled (fuel : nat) (max_time : Q) (s : nat -> given) (drawn : list (nat * (list Q * list Q))) : outcome (nat -> list Q) :=
  match drawn with
  | [] => Ok (fun _ => [])
  | (i, (l, more)) :: rest =>
    do e <- fill fuel max_time (last l 0%Q) (g_period (s i)) more;
    do r <- all_filled fuel max_time s rest; Ok (set_at r i (l ++ e))                                          (* 335-346 *)
  end.
Definition qmax (a b : Q) : Q := if Qle_bool b a then a else b.

(** [max_edge_id] is getMaxEdgeId (models/Dataflow.h 521), the size of the vectors that 307, 314 and 358 index by
    task identifier.  Repetition counts (getNi) are given.  Every task has an entry in the schedule.  When no
    task starts at 0, [next_task] keeps identifier 0 (355), which no task has: getVertexById fails at 409. *)
Definition is_valid_schedule (fuel : nat) (g : graph) (N : nat -> Z) (max_edge_id : Z) (order : list nat) (s : nat -> given) : outcome bool :=
  if existsb (fun v => max_edge_id <=? v_id v) (vertices g) then Undefined else
  do drawn <- all_drawn g N s order;
  let max_time := fold_left (fun a e => qmax a (last (fst (snd e)) 0%Q)) drawn 0%Q in                          (* 329-334 *)
  do sched <- all_filled fuel max_time s drawn;
  let ck := mkCheck sched (fun _ => O) (fun i => Z.of_nat (length (g_initial (s i))) + N i) (fun _ => 0%Q)
                    (fun id => match find (fun c => e_id c =? id) (edges g) with Some c => e_preload c | None => 0 end) in
  match fold_left (fun a i => if Qeq_bool (hd 1%Q (sched i)) 0 then Some i else a) order None with            (* 361-366 *)
  | None => Rejected
  | Some i => check_loop fuel g order ck i 0
  end.
