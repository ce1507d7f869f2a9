(** Model of the splitting of an event graph into strongly connected parts,
    models/EventGraph.cpp 14-84 (StrongConnect, StrongConnection), and of the part of
    models/EventGraph.h it uses (addEvent, addEventConstraint, getConstraint).

    Vertices are numbered 0, 1, ... in creation order (the boost graph is an adjacency_list on
    vecS, EventGraph.h 117-122), constraints are kept in creation order, TIME_UNIT is Q, and
    [unsigned int] is taken wide enough to hold a vertex number (EventGraph.cpp 38). *)
From Coq Require Import QArith.
From Verif Require Import Base Graph KPeriodic EventGraph.
Open Scope nat_scope.

(** An edge of the graph with its properties, EventGraph.h 108-112 (weight, duration, channel;
    strictness and flow are not used here). *)
Record cons := mkCons { k_src : nat; k_dst : nat; k_w : Q; k_d : Q; k_id : Z }.
(** EventGraph, EventGraph.h 172-177: the event of each vertex, the edges, and
    schedulingEvent2Vertex (the last entry of a key first). *)
Record egraph := mkEG { eg_events : list event; eg_cons : list cons; eg_map : list (event * nat) }.
Definition empty_graph : egraph := mkEG [] [] [].

(** addEvent, EventGraph.h 299-306. *)
Definition add_event (g : egraph) (e : event) : egraph :=
  mkEG (eg_events g ++ [e]) (eg_cons g) ((e, length (eg_events g)) :: eg_map g).
(** getEventGraphVertex, EventGraph.h 185-197: operator[] of the map, 0 when there is no entry
    (the debug assertions are not modelled). *)
Definition vertex_of (g : egraph) (e : event) : nat :=
  match find (fun p => event_eqb (fst p) e) (eg_map g) with Some p => snd p | None => 0 end.
(** addEventConstraint of a constraint between events, EventGraph.h 329-342. *)
Definition add_constraint (g : egraph) (c : constraint) : egraph :=
  mkEG (eg_events g) (eg_cons g ++ [mkCons (vertex_of g (c_source c)) (vertex_of g (c_target c)) (c_w c) (c_d c) (c_channel c)]) (eg_map g).
(** getEvent, EventGraph.h 326-328; no vertex of that number is undefined. *)
Definition get_event (g : egraph) (v : nat) : outcome event :=
  match nth_error (eg_events g) v with Some e => Ok e | None => Undefined end.
(** getConstraint, EventGraph.h 343-353. *)
Definition get_constraint (g : egraph) (k : cons) : outcome constraint :=
  do s <- get_event g (k_src k);
  do t <- get_event g (k_dst k);
  Ok (mkConstraint s t (k_w k) (k_d k) (k_id k)).
(** getOutputs, EventGraph.h 269. *)
Definition outputs (g : egraph) (v : nat) : list cons := filter (fun k => k_src k =? v) (eg_cons g).

(** std::map on numbers, the last write of a key first. *)
Definition lookup (m : list (nat * nat)) (k : nat) : option nat :=
  match find (fun p => fst p =? k) m with Some p => Some (snd p) | None => None end.
(** std::map::insert keeps an entry that is there. *)
Definition insert (m : list (nat * nat)) (k x : nat) : list (nat * nat) :=
  match lookup m k with Some _ => m | None => (k, x) :: m end.
(** std::map::at throws when there is no entry. *)
Definition at_key (m : list (nat * nat)) (k : nat) : outcome nat :=
  match lookup m k with Some x => Ok x | None => Rejected end.

(** What StrongConnect changes: *index, vindex, lowlink, S (the back of the vector first), and the
    component property of the vertices (setSCC, EventGraph.h 281). *)
Record search := mkSearch { s_index : nat; s_num : list (nat * nat); s_low : list (nat * nat); s_stack : list nat; s_scc : list (nat * nat) }.
(** getSCC, EventGraph.h 282: 0 when it was never set. *)
Definition get_scc (st : search) (v : nat) : nat := match lookup (s_scc st) v with Some x => x | None => 0 end.
(** vindex->find(w) != vindex->end(). *)
Definition indexed (st : search) (v : nat) : bool := match lookup (s_num st) v with Some _ => true | None => false end.
(** commons::findInVector. *)
Definition on_stack (st : search) (v : nat) : bool := existsb (Nat.eqb v) (s_stack st).

(** EventGraph.cpp 17-20. *)
Definition enter (v : nat) (st : search) : search :=
  mkSearch (S (s_index st)) (insert (s_num st) v (s_index st)) (insert (s_low st) v (s_index st)) (v :: s_stack st) (s_scc st).
(** EventGraph.cpp 27 and 29: lowlink->at(v) = std::min(lowlink->at(v), x). *)
Definition lower (v x : nat) (st : search) : outcome search :=
  do l <- at_key (s_low st) v;
  Ok (mkSearch (s_index st) (s_num st) ((v, Nat.min l x) :: s_low st) (s_stack st) (s_scc st)).
(** EventGraph.cpp 36-39: pops up to [v]; back() of an empty vector is undefined. *)
Fixpoint pop_to (v : nat) (stack : list nat) (scc : list (nat * nat)) : outcome (list nat * list (nat * nat)) :=
  match stack with
  | [] => Undefined
  | w :: stack' => if w =? v then Ok (stack', (w, v) :: scc) else pop_to v stack' ((w, v) :: scc)
  end.
(** EventGraph.cpp 34-40. *)
Definition leave (v : nat) (st : search) : outcome search :=
  do l <- at_key (s_low st) v;
  do i <- at_key (s_num st) v;
  if l =? i then
    do r <- pop_to v (s_stack st) (s_scc st);
    Ok (mkSearch (s_index st) (s_num st) (s_low st) (fst r) (snd r))
  else Ok st.
(** EventGraph.cpp 24-30: one constraint from [v] to [w]; [rec] is the recursive call. *)
Definition follow (rec : nat -> search -> outcome search) (v w : nat) (st : search) : outcome search :=
  if negb (indexed st w) then
    do st1 <- rec w st;
    do l <- at_key (s_low st1) w;
    lower v l st1
  else if on_stack st w then
    do i <- at_key (s_num st) w;
    lower v i st
  else Ok st.
(** A loop over a list. *)
Fixpoint loop {A B} (f : B -> A -> outcome A) (l : list B) (a : A) : outcome A :=
  match l with [] => Ok a | x :: l' => do a1 <- f x a; loop f l' a1 end.
(** StrongConnect, EventGraph.cpp 14-42.  [fuel] bounds the depth of the recursion. *)
Fixpoint strong_connect (fuel : nat) (g : egraph) (v : nat) (st : search) : outcome search :=
  match fuel with
  | O => Timeout
  | S f =>
    do st1 <- loop (fun k st => follow (strong_connect f g) v (k_dst k) st) (outputs g v) (enter v st);
    leave v st1
  end.

(** EventGraph.cpp 51-59. *)
Definition search_all (g : egraph) : outcome search :=
  let n := length (eg_events g) in
  loop (fun v st => if indexed st v then Ok st else strong_connect (S n) g v st) (seq 0 n) (mkSearch 0 [] [] [] []).

(** std::map<unsigned int, EventGraph*>, in the order of its keys. *)
Definition graphs := list (nat * egraph).
Fixpoint insert_graph (gs : graphs) (k : nat) (g : egraph) : graphs :=
  match gs with
  | [] => [(k, g)]
  | p :: gs' => if k <? fst p then (k, g) :: gs else if k =? fst p then gs else p :: insert_graph gs' k g
  end.
(** graphs->at(k)->..., which throws when there is no entry. *)
Fixpoint change_graph (gs : graphs) (k : nat) (f : egraph -> egraph) : outcome graphs :=
  match gs with
  | [] => Rejected
  | p :: gs' => if k =? fst p then Ok ((fst p, f (snd p)) :: gs') else do r <- change_graph gs' k f; Ok (p :: r)
  end.
(** EventGraph.cpp 67-70: one event goes to the graph of its component. *)
Definition place_event (g : egraph) (st : search) (v : nat) (gs : graphs) : outcome graphs :=
  do e <- get_event g v;
  change_graph (insert_graph gs (get_scc st v) empty_graph) (get_scc st v) (fun h => add_event h e).
(** EventGraph.cpp 73-80: one constraint goes to the graph of its component, if it has one. *)
Definition place_constraint (g : egraph) (st : search) (k : cons) (gs : graphs) : outcome graphs :=
  if get_scc st (k_src k) =? get_scc st (k_dst k) then
    do c <- get_constraint g k;
    change_graph gs (get_scc st (k_src k)) (fun h => add_constraint h c)
  else Ok gs.
(** StrongConnection, EventGraph.cpp 49-84: the component number set on each vertex and the graphs
    returned. *)
Definition strong_connection (g : egraph) : outcome (list nat * graphs) :=
  do st <- search_all g;
  do _ <- cassert (match s_stack st with [] => true | _ => false end);
  do gs <- loop (place_event g st) (seq 0 (length (eg_events g))) [];
  do gs' <- loop (place_constraint g st) (eg_cons g) gs;
  Ok (map (get_scc st) (seq 0 (length (eg_events g))), gs').
