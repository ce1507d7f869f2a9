(** Model of Howard's policy iteration, commons/howard_cycle_ratio.hpp, and of MinCycleRatio and
    MaxCycleRatio, models/EventGraph.h 450-525.

    Vertices are events and arcs are constraints, as in EventGraph.v; weight 1 is [c_w] and
    weight 2 is [c_d].  Simplification: long double arithmetic is exact (Q).  The tolerance of the
    comparisons is kept as a parameter [eps], numeric_limits<long double>::epsilon() in the code. *)
From Coq Require Import QArith Qabs Qreduction.
From Verif Require Import Base Graph KPeriodic EventGraph.
Open Scope Z_scope.

(** min_comparator_props and max_comparator_props, 48-58. *)
Inductive goal := Minimum | Maximum.
Definition multiplier (o : goal) : Q := match o with Minimum => 1 | Maximum => -1 end.
(** m_cmp: std::greater or std::less. *)
Definition lessb (a b : Q) : bool := negb (Qle_bool b a).
Definition better (o : goal) (a b : Q) : bool := match o with Minimum => lessb b a | Maximum => lessb a b end.

(** numeric_limits<long double>::max() of the x87 format. *)
Definition largest_time : Q := inject_Z (2 ^ 16384 - 2 ^ 16320).

(** EPSILON_IMPROVE_RATIO and MAX_ITERATION, 39-40. *)
Definition improve_ratio : Q := 100.
Definition max_iteration : nat := 100.

(** out_edges. *)
Definition out_edges (cs : list constraint) (v : event) : list constraint :=
  filter (fun c => event_eqb (c_source c) v) cs.

(** The fields of mcr_howard that change, 494-520.  [policy] is None where m_policy was never
    assigned, [sink] None is null_vertex(). *)
Record howard := mkHoward {
  h_bound : Q; h_cr : Q; h_dm : event -> Q; h_policy : event -> option constraint;
  h_inel : event -> list event; h_bad : event -> bool; h_sink : option event; h_cc : list constraint }.

Definition upd {A} (f : event -> A) (v : event) (x : A) : event -> A := fun u => if event_eqb u v then x else f u.
Definition set_dm (h : howard) (v : event) (x : Q) : howard :=
  mkHoward (h_bound h) (h_cr h) (upd (h_dm h) v (Qred x)) (h_policy h) (h_inel h) (h_bad h) (h_sink h) (h_cc h).
Definition set_bound (h : howard) (x : Q) : howard :=
  mkHoward x (h_cr h) (h_dm h) (h_policy h) (h_inel h) (h_bad h) (h_sink h) (h_cc h).
Definition set_cr (h : howard) (x : Q) (cc : list constraint) : howard :=
  mkHoward (h_bound h) x (h_dm h) (h_policy h) (h_inel h) (h_bad h) (h_sink h) cc.

(** mcr_bound, 214-235. *)
Definition closest (eps : Q) (l : list constraint) (cz : Q) : Q :=
  fold_left (fun cz c => let a := Qabs (c_d c) in if lessb eps a && lessb a cz then a else cz) l cz.
Definition mcr_bound (o : goal) (eps : Q) (evs : list event) (cs : list constraint) : Q :=
  let arcs := flat_map (out_edges cs) evs in
  let s := fold_left (fun s c => s + Qabs (c_w c))%Q arcs 0%Q in
  (multiplier o * (s / closest eps arcs largest_time))%Q.

(** std::max_element on weight 1, 248-255: the first best. *)
Fixpoint best_arc (o : goal) (best : constraint) (l : list constraint) : constraint :=
  match l with
  | [] => best
  | c :: l' => best_arc o (if better o (c_w best) (c_w c) then c else best) l'
  end.

(** construct_policy_graph, 241-271. *)
Fixpoint construct_policy (o : goal) (cs : list constraint) (vs : list event) (h : howard) : howard :=
  match vs with
  | [] => h
  | v :: vs' =>
    construct_policy o cs vs'
      match out_edges cs v with
      | [] =>
        let s := match h_sink h with Some s => s | None => v end in
        mkHoward (h_bound h) (h_cr h) (h_dm h) (h_policy h) (upd (h_inel h) s (h_inel h s ++ [v]))
          (upd (h_bad h) v true) (Some s) (h_cc h)
      | c :: l =>
        let m := best_arc o c l in
        mkHoward (h_bound h) (h_cr h) (h_dm h) (upd (h_policy h) v (Some m))
          (upd (h_inel h) (c_target m) (h_inel h (c_target m) ++ [v])) (h_bad h) (h_sink h) (h_cc h)
      end
  end.

(** The target of the policy arc of a vertex, 319-326; null_vertex() and an unassigned m_policy
    are undefined. *)
Definition policy_next (h : howard) (v : event) : outcome event :=
  if h_bad h v then match h_sink h with Some s => Ok s | None => Undefined end
  else match h_policy h v with Some c => Ok (c_target c) | None => Undefined end.

(** mcr_bfv, 276-304: [queue] is Q and [black] the vertices coloured black. *)
Fixpoint spread (sv v : event) (cr : Q) (ins : list event) (h : howard) (queue black : list event)
    : outcome (howard * list event * list event) :=
  match ins with
  | [] => Ok (h, queue, black)
  | u :: ins' =>
    if event_eqb u sv then spread sv v cr ins' h queue black
    else
      do h' <- if h_bad h u then Ok (set_dm h u (h_dm h v + h_bound h - cr)%Q)
               else match h_policy h u with
                    | Some c => Ok (set_dm h u (h_dm h v + c_w c - c_d c * cr)%Q)
                    | None => Undefined
                    end;
      spread sv v cr ins' h' (queue ++ [u]) (u :: black)
  end.
Fixpoint bfv (fuel : nat) (sv : event) (cr : Q) (queue : list event) (h : howard) (black : list event)
    : outcome (howard * list event) :=
  match fuel with
  | O => Timeout
  | S fuel' =>
    match queue with
    | [] => Ok (h, black)
    | v :: queue' =>
      do r <- spread sv v cr (h_inel h v) h queue' black;
      bfv fuel' sv cr (snd (fst r)) (fst (fst r)) (snd r)
    end
  end.

(** find_cycle_vertex, 311-330: [seen] are the vertices coloured black. *)
Fixpoint find_cycle_vertex (fuel : nat) (h : howard) (seen : list event) (v : event) : outcome event :=
  match fuel with
  | O => Timeout
  | S fuel' =>
    do u <- policy_next h v;
    if existsb (event_eqb u) (v :: seen) then Ok u else find_cycle_vertex fuel' h (v :: seen) u
  end.

(** cycle_ratio, 335-364; a division by zero is [Undefined] (in the code an infinity or not a
    number). *)
Fixpoint walk_cycle (fuel : nat) (h : howard) (sv v : event) (cc : list constraint) (s1 s2 : Q)
    : outcome (list constraint * Q * Q) :=
  match fuel with
  | O => Timeout
  | S fuel' =>
    match h_policy h v with
    | None => Undefined
    | Some c =>
      let r := (cc ++ [c], (s1 + c_w c)%Q, (s2 + c_d c)%Q) in
      if event_eqb (c_target c) sv then Ok r
      else walk_cycle fuel' h sv (c_target c) (fst (fst r)) (snd (fst r)) (snd r)
    end
  end.
Definition is_sink (h : howard) (v : event) : bool :=
  match h_sink h with Some s => event_eqb v s | None => false end.
Definition cycle_ratio (o : goal) (fuel : nat) (h : howard) (sv : event) : outcome (howard * Q) :=
  if is_sink h sv then Ok (h, h_bound h)
  else
    do r <- walk_cycle fuel h sv sv [] 0 0;
    if Qeq_bool (snd r) 0 then Undefined
    else
      let cr := Qred (snd (fst r) / snd r) in
      Ok (if better o (h_cr h) cr then set_cr h cr (fst (fst r)) else h, cr).

(** policy_mcr, 369-400. *)
Fixpoint policy_loop (o : goal) (fuel : nat) (vs : list event) (h : howard) (black : list event) (mcr : Q)
    : outcome (howard * Q) :=
  match vs with
  | [] => Ok (h, mcr)
  | v :: vs' =>
    if existsb (event_eqb v) black then policy_loop o fuel vs' h black mcr
    else
      do gv <- find_cycle_vertex fuel h [] v;
      do r <- cycle_ratio o fuel h gv;
      do b <- bfv fuel gv (snd r) [gv] (fst r) (gv :: black);
      policy_loop o fuel vs' (fst b) (snd b) (if better o mcr (snd r) then snd r else mcr)
  end.
Definition policy_mcr (o : goal) (fuel : nat) (evs : list event) (h : howard) : outcome (howard * Q) :=
  policy_loop o fuel evs (set_cr h (h_bound h) (h_cc h)) [] (h_bound h).

(** improve_policy, 405-413; erasing an element that is not there is undefined. *)
Fixpoint erase_first (v : event) (l : list event) : outcome (list event) :=
  match l with
  | [] => Undefined
  | u :: l' => if event_eqb u v then Ok l' else do r <- erase_first v l'; Ok (u :: r)
  end.
Definition improve_policy (h : howard) (v : event) (c : constraint) : outcome howard :=
  match h_policy h v with
  | None => Undefined
  | Some old =>
    do l <- erase_first v (h_inel h (c_target old));
    let inel := upd (h_inel h) (c_target old) l in
    Ok (mkHoward (h_bound h) (h_cr h) (h_dm h) (upd (h_policy h) v (Some c))
          (upd inel (c_target c) (inel (c_target c) ++ [v])) (h_bad h) (h_sink h) (h_cc h))
  end.

(** try_improve_policy, 457-491. *)
Fixpoint improve_arcs (o : goal) (eps cr : Q) (v : event) (l : list constraint) (h : howard) (improved : bool)
    : outcome (howard * bool) :=
  match l with
  | [] => Ok (h, improved)
  | c :: l' =>
    let dis := (c_w c - c_d c * cr + h_dm h (c_target c))%Q in
    if better o (h_dm h v - eps * multiplier o * improve_ratio)%Q dis then
      do h' <- improve_policy h v c;
      improve_arcs o eps cr v l' (set_dm h' v dis) true
    else improve_arcs o eps cr v l' h improved
  end.
Fixpoint try_improve (o : goal) (eps cr : Q) (cs : list constraint) (vs : list event) (h : howard) (improved : bool)
    : outcome (howard * bool) :=
  match vs with
  | [] => Ok (h, improved)
  | v :: vs' =>
    if negb (h_bad h v) then
      do r <- improve_arcs o eps cr v (out_edges cs v) h improved;
      try_improve o eps cr cs vs' (fst r) (snd r)
    else
      match h_sink h with
      | None => Undefined
      | Some s =>
        let dis := (h_bound h - cr + h_dm h s)%Q in
        try_improve o eps cr cs vs'
          (if better o (h_dm h v + eps * multiplier o)%Q dis then set_dm h v dis else h) improved
      end
  end.

(** The loop of ocr_howard, 172-185.  The flag tells whether the loop ended because nothing was
    improved; the code only prints it (186-190). *)
Fixpoint rounds (o : goal) (eps : Q) (fuel k : nat) (evs : list event) (cs : list constraint) (h : howard)
    : outcome (howard * Q * bool) :=
  do r <- policy_mcr o fuel evs h;
  let h1 := set_bound (fst r) (snd r) in
  do i <- try_improve o eps (snd r) cs evs h1 false;
  if snd i then match k with
                | O => Ok (fst i, snd r, false)
                | S k' => rounds o eps fuel k' evs cs (fst i)
                end
  else Ok (fst i, snd r, true).

(** The constructors, 127-165, construct_policy_graph and ocr_howard, 172-203, for a graph and an
    optional bound.  [None] is infinity.  Also returns the critical cycle and the flag of
    [rounds]. *)
Record ratio := mkRatio { r_value : option Q; r_cycle : list constraint; r_settled : bool }.
Definition ocr_howard (o : goal) (eps : Q) (bound : option Q) (evs : list event) (cs : list constraint) : outcome ratio :=
  let fuel := S (length evs) in
  let b := match bound with Some b => b | None => mcr_bound o eps evs cs end in
  let h := mkHoward b b (fun _ => 0%Q) (fun _ => None) (fun _ => []) (fun _ => false) None [] in
  do r <- rounds o eps fuel (max_iteration - 1) evs cs (construct_policy o cs evs h);
  let mcr := snd (fst r) in
  Ok (mkRatio (if better o mcr (mcr_bound o eps evs cs - eps * multiplier o * multiplier o)%Q then None else Some mcr)
       (h_cc (fst (fst r))) (snd r)).

(** MinCycleRatio and MaxCycleRatio, models/EventGraph.h 450-525. *)
Definition min_cycle_ratio := ocr_howard Minimum.
Definition max_cycle_ratio (eps : Q) := ocr_howard Maximum eps None.
