(** Model of the K-Iter throughput algorithm, algorithms/throughput/kperiodic.cpp. *)
From Coq Require Import QArith.
From Verif Require Import Base Graph KPeriodic EventGraph.
Open Scope Z_scope.

(** A critical circuit is a std::set of channels (models/Scheduling.h 45), here the list
    of its channels in iteration order.  Channels are compared by identifier. *)
Definition same_edge (c1 c2 : edge) : bool := e_id c1 =? e_id c2.

(** [sameset], kperiodic.cpp 26-43. *)
Definition sameset (cc1 cc2 : list edge) : bool :=
  if (length cc1 =? length cc2)%nat
  then forallb (fun c1 => existsb (fun c2 => same_edge c1 c2) cc2) cc1
  else false.

(** getNi(t) / getPhasesQuantity(t), e.g. kperiodic.cpp 697. *)
Definition full_cycles (g : graph) (N : nat -> Z) (i : nat) : outcome Z :=
  do v <- lookup_vertex g i; cdiv (N i) (Z.of_nat (v_phases v)).

(** First loop of [updateVectorWithLocalNi], kperiodic.cpp 694-698. *)
Fixpoint local_gcd (g : graph) (N : nat -> Z) (cc : list edge) (acc : Z) : outcome Z :=
  match cc with
  | [] => Ok acc
  | c :: cc' => do q <- full_cycles g N (e_src c); local_gcd g N cc' (Z.gcd acc q)
  end.

Definition set_k (K : nat -> Z) (i : nat) (k : Z) : nat -> Z :=
  fun j => if (j =? i)%nat then k else K j.

(** Second loop of [updateVectorWithLocalNi], kperiodic.cpp 702-722. *)
Fixpoint update_loop (g : graph) (N : nat -> Z) (gcdNi : Z) (cc : list edge) (K : nat -> Z)
    (changed : bool) : outcome ((nat -> Z) * bool) :=
  match cc with
  | [] => Ok (K, changed)
  | c :: cc' =>
    do Ni <- full_cycles g N (e_src c);                                  (* 706 *)
    do Nj <- full_cycles g N (e_dst c);                                  (* 707 *)
    do r <- cdiv Ni gcdNi;
    let newki := Z.lcm (K (e_src c)) r in                                (* 709 *)
    let changed' := changed || negb (newki =? K (e_src c)) in            (* 711 *)
    let K' := set_k K (e_src c) newki in                                 (* 719 *)
    do _ <- cassert (K' (e_src c) <=? Ni);                               (* 720 *)
    do _ <- cassert (K' (e_dst c) <=? Nj);                               (* 721 *)
    update_loop g N gcdNi cc' K' changed'
  end.

(** [updateVectorWithLocalNi], kperiodic.cpp 690-725. *)
Definition update_vector (g : graph) (N K : nat -> Z) (cc : list edge) : outcome ((nat -> Z) * bool) :=
  do gcdNi <- local_gcd g N cc 0;
  update_loop g N gcdNi cc K false.

(** The events whose edges step 1 of [updateEventGraph] removes for one task,
    kperiodic.cpp 427-431.  Simplification: for a task with initial phases and ki >= 2 the
    lookup of <task, p <= 0, k >= 2> finds no event and getEventGraphVertex
    (models/EventGraph.h 188) then yields vertex 0, whose edges are removed too; the model
    removes nothing there, so the K-Iter theorems are stated for graphs without initial
    phases. *)
Definition old_event (v : vertex) (ki : Z) (e : event) : bool :=
  (ev_task e =? v_id v) && (1 - Z.of_nat (v_init_phases v) <=? ev_phase e) &&
  (ev_phase e <=? Z.of_nat (v_phases v)) && (1 <=? ev_occ e) && (ev_occ e <=? ki).
Definition remove_connected (v : vertex) (ki : Z) (cs : list constraint) : list constraint :=
  filter (fun x => negb (old_event v ki (c_source x)) && negb (old_event v ki (c_target x))) cs.

(** Step 1, kperiodic.cpp 417-443.  Events are identified with their <task,phase,occurrence>:
    addEventGroup (models/EventGraph.h 308-321) may create a second vertex for an event,
    in which case the index is redirected to the newer one before any edge is added. *)
Fixpoint remove_step (g : graph) (N oldK newK : nat -> Z) (cc : list edge) (cs : list constraint)
  : outcome (list constraint) :=
  match cc with
  | [] => Ok cs
  | c :: cc' =>
    do v <- lookup_vertex g (e_src c);
    if oldK (e_src c) <? newK (e_src c) then
      do _ <- cassert (newK (e_src c) <=? N (e_src c));                   (* 441 *)
      remove_step g N oldK newK cc' (remove_connected v (oldK (e_src c)) cs)
    else remove_step g N oldK newK cc' cs
  end.

(** Step 2, kperiodic.cpp 449-462. *)
Fixpoint loops_step (g : graph) (N oldK newK : nat -> Z) (cc : list edge) : outcome (list constraint) :=
  match cc with
  | [] => Ok []
  | c :: cc' =>
    if oldK (e_src c) =? newK (e_src c) then loops_step g N oldK newK cc'
    else
      do v <- lookup_vertex g (e_src c);
      do here <- generate_selfloop v (N (e_src c)) (newK (e_src c));
      do later <- loops_step g N oldK newK cc';
      Ok (here ++ later)
  end.

Definition regenerate (var : variant) (g : graph) (N K : nat -> Z) (c : edge) : outcome (list constraint) :=
  do s <- lookup_vertex g (e_src c);
  do t <- lookup_vertex g (e_dst c);
  generate_channel var c s t (N (e_src c)) (K (e_src c)) (K (e_dst c)).

(** Step 3, kperiodic.cpp 469-505.  ForOutputEdges / ForInputEdges enumerate the channels
    leaving / entering a task. *)
Fixpoint channels_step (var : variant) (g : graph) (N oldK newK : nat -> Z) (cc : list edge)
  : outcome (list constraint) :=
  match cc with
  | [] => Ok []
  | cur :: cc' =>
    let src := e_src cur in
    let dst := e_dst cur in
    if oldK src =? newK src then channels_step var g N oldK newK cc'      (* 488 *)
    else
      do outs <- collect (map (regenerate var g N newK)
                   (filter (fun c => (e_src c =? src)%nat &&
                                     (negb (same_edge c cur) || (oldK dst =? newK dst)))  (* 491 *)
                           (edges g)));
      do ins <- collect (map (regenerate var g N newK)
                   (filter (fun c => (e_dst c =? src)%nat) (edges g)));    (* 497-503 *)
      do later <- channels_step var g N oldK newK cc';
      Ok (outs ++ ins ++ later)
  end.

(** [updateEventGraph], kperiodic.cpp 388-512.  [None] is the NULL of line 411; otherwise
    the new constraints and the new vector (stored through oldkvector, 507-509). *)
Definition update_event_graph (var : variant) (g : graph) (N K : nat -> Z) (cc : list edge)
    (cs : list constraint) : outcome (option (list constraint * (nat -> Z))) :=
  do kc <- update_vector g N K cc;
  let newK := fst kc in
  if snd kc then
    do kept <- remove_step g N K newK cc cs;
    do loops <- loops_step g N K newK cc;
    do chans <- channels_step var g N K newK cc;
    Ok (Some (kept ++ loops ++ chans, newK))
  else Ok None.

(** getEdgeById, models/Dataflow.h 455: throws when there is no such channel; the caller
    then treats the constraint as a loopback (kperiodic.cpp 900-905). *)
Definition edge_by_id (g : graph) (id : Z) : option edge :=
  find (fun c => e_id c =? id) (edges g).

(** Insertion in a set of channels. *)
Definition insert_edge (c : edge) (l : list edge) : list edge :=
  if existsb (same_edge c) l then l else l ++ [c].

(** Conversion of the critical circuit of the event graph into a set of channels,
    kperiodic.cpp 896-906 and 951-961. *)
Definition critical_set (g : graph) (circ : list constraint) : list edge :=
  fold_left (fun acc x => match edge_by_id g (c_channel x) with
                          | Some c => insert_edge c acc
                          | None => acc
                          end) circ [].

(** kperiodic_result_t *)
Record kresult := mkResult { kr_throughput : Q; kr_critical : list edge }.

Section Solver.
(** The two things the model leaves open: MinCycleRatio (models/EventGraph.h 480-525,
    Howard's algorithm), which maps an event graph to a throughput and a list of its
    constraints; and the order in which std::set<Edge> is iterated, which depends on
    memory addresses (models/Dataflow.h 173). *)
Variable solve : list constraint -> Q * list constraint.
Variable arrange : list edge -> list edge.

Definition solve_graph (g : graph) (cs : list constraint) : kresult :=
  let r := solve cs in mkResult (fst r) (arrange (critical_set g (snd r))).

(** The while loop, kperiodic.cpp 929-1005.  Returns the final result, vector and event
    graph. *)
Fixpoint kiter_loop (fuel : nat) (var : variant) (g : graph) (N K : nat -> Z) (cs : list constraint)
    (result : kresult) : outcome (kresult * (nat -> Z) * list constraint) :=
  match fuel with
  | O => Timeout
  | S fuel' =>
    do u <- update_event_graph var g N K (kr_critical result) cs;        (* 942 *)
    match u with
    | None => Ok (result, K, cs)
    | Some (cs', K') =>
      let resultprime := solve_graph g cs' in
      if sameset (kr_critical resultprime) (kr_critical result)           (* 994 *)
      then Ok (resultprime, K', cs')
      else kiter_loop fuel' var g N K' cs' resultprime
    end
  end.

(** [compute_Kperiodic_throughput], kperiodic.cpp 856-1020, without timing and printing. *)
Definition kiter (fuel : nat) (var : variant) (g : graph) (N : nat -> Z)
  : outcome (kresult * (nat -> Z) * list constraint) :=
  let K := fun _ => 1 in
  do cs <- generate_event_graph var g N K;
  let result := solve_graph g cs in
  if (length (kr_critical result) =? 0)%nat then Ok (result, K, cs)
  else kiter_loop fuel var g N K cs result.
End Solver.
