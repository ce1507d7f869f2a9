(** Model of the start-time computation of models/EventGraph.h.

    The graph is its list of events (vertices, in creation order) and its list of
    constraints (edges, in creation order).  Creation gives each event its own vertex
    (EventGraph.h 299-306), so vertices are identified with events here; TIME_UNIT is Q. *)
From Coq Require Import QArith.
From Verif Require Import Base Graph KPeriodic.
Open Scope Z_scope.

Definition event_eqb (a b : event) : bool :=
  (ev_task a =? ev_task b) && (ev_phase a =? ev_phase b) && (ev_occ a =? ev_occ b).

(** setStartingTime on one event. *)
Definition set_start (S : event -> Q) (e : event) (t : Q) : event -> Q :=
  fun x => if event_eqb x e then t else S x.

(** The flow stored on a constraint, EventGraph.h 378. *)
Definition flow (omega : Q) (c : constraint) : Q := (c_d c - omega * c_w c)%Q.

(** One relaxation, EventGraph.h 407-419; the flag is [updated]. *)
Definition relax (omega : Q) (c : constraint) (st : (event -> Q) * bool) : (event -> Q) * bool :=
  let '(St, updated) := st in
  let start1 := St (c_source c) in
  let start2 := St (c_target c) in
  if negb (Qle_bool (flow omega c) (start2 - start1)) then
    (set_start St (c_target c) (flow omega c + start1)%Q, true)
  else (St, updated).

(** Constraints in the order of one pass: every event, then its outputs,
    EventGraph.h 403-406. *)
Definition pass_order (evs : list event) (cs : list constraint) : list constraint :=
  flat_map (fun e => filter (fun c => event_eqb (c_source c) e) cs) evs.

Definition one_pass (omega : Q) (order : list constraint) (S : event -> Q) : (event -> Q) * bool :=
  fold_left (fun st c => relax omega c st) order (S, false).

(** At most eventCount passes, stopping after a pass without update,
    EventGraph.h 401-425. *)
Fixpoint passes (omega : Q) (order : list constraint) (n : nat) (S : event -> Q) : event -> Q :=
  match n with
  | O => S
  | Datatypes.S n' =>
    let '(S', updated) := one_pass omega order S in
    if updated then passes omega order n' S' else S'
  end.

(** Smallest starting time, EventGraph.h 430-435 (numeric_limits::max as the neutral
    element, here the first event's time). *)
Definition min_time (evs : list event) (S : event -> Q) : Q :=
  match evs with
  | [] => 0%Q
  | e :: evs' => fold_left (fun m x => if Qle_bool m (S x) then m else S x) evs' (S e)
  end.

(** [computeStartingTimeWithOmega], EventGraph.h 363-448; [None] is an infinite omega. *)
Definition compute_starting_time (evs : list event) (cs : list constraint) (omega : option Q)
  : (event -> Q) * bool :=
  match omega with
  | None => (fun _ => 0%Q, false)
  | Some omega =>
    let S := passes omega (pass_order evs cs) (length evs) (fun _ => 0%Q) in
    let m := min_time evs S in
    (fun e => (S e - m)%Q, true)
  end.

(** Result of [period2scheduling] for one task: period and start of every event in
    (ki, pi) order, kperiodic.cpp 188-209 (tasks without initial phases). *)
Record task_schedule := mkTaskSchedule { ts_period : Q; ts_starts : list Q }.

(** The retrieval loop of [period2scheduling], kperiodic.cpp 188-209. *)
Definition retrieve_task (N K : nat -> Z) (omega : Q) (St : event -> Q) (i : nat) (v : vertex) : task_schedule :=
  let k := K i in
  let P := Z.of_nat (v_phases v) in
  mkTaskSchedule (inject_Z k * inject_Z P * omega / inject_Z (N i))%Q
    (map (fun kp => St (mkEvent (v_id v) (snd kp) (fst kp))) (positions k 0 P)).
Definition retrieve_starts (g : graph) (N K : nat -> Z) (omega : Q) (St : event -> Q) : list task_schedule :=
  map (fun iv => retrieve_task N K omega St (fst iv) (snd iv)) (indexed (vertices g)).

(** [period2scheduling], kperiodic.cpp 171-217, for graphs without initial phases (with
    them the loop of line 201 looks up events that were never created, see DESIGN.md).
    [throughput] must be non-zero here; omega = 1/throughput. *)
Definition period2scheduling (g : graph) (N K : nat -> Z) (throughput : Q)
  : outcome (list task_schedule) :=
  do cs <- generate_event_graph StronglyOptimized g N K;
  let omega := (/ throughput)%Q in
  if Qle_bool omega 0 then Ok []
  else Ok (retrieve_starts g N K omega
             (fst (compute_starting_time (event_list g K) cs (Some omega)))).
