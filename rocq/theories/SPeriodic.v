(** Model of the strictly periodic analysis of CSDF graphs,
    algorithms/throughput/csdf_strictly_periodic.cpp and
    algorithms/scheduling/CSDF_SPeriodicScheduling.cpp. *)
From Coq Require Import QArith.
From Verif Require Import Base Graph Commons KPeriodic EventGraph KIter Howard.
Open Scope Z_scope.

(** The only event of a task, csdf_strictly_periodic.cpp 24 (SchedulingEvent(tid) is
    <tid,1,1>, models/EventGraph.h 68). *)
Definition sp_event (v : vertex) : event := mkEvent (v_id v) 1 1.
Definition sp_events (g : graph) : list event := map sp_event (vertices g).

(** *std::max_element over the durations, csdf_strictly_periodic.cpp 28-29 and 38-39;
    dereferencing the end iterator of an empty vector is undefined. *)
Definition max_duration (v : vertex) : outcome Q :=
  match v_durations v with
  | [] => Undefined
  | d :: ds => Ok (fold_left (fun m x => if Qle_bool x m then m else x) ds d)
  end.

(** The self constraint of a task, csdf_strictly_periodic.cpp 27-31; it carries the task
    identifier where the others carry a channel identifier. *)
Definition sp_self (v : vertex) (Ni : Z) : outcome (list constraint) :=
  do w <- qdiv 1 Ni;
  do d <- max_duration v;
  Ok [mkConstraint (sp_event v) (sp_event v) w d (v_id v)].

(** delta_l_t[d].push_back(k): the bags are a std::map, ordered by duration,
    csdf_strictly_periodic.cpp 44-53. *)
Fixpoint bag_insert (d : Q) (k : Z) (bags : list (Q * list Z)) : list (Q * list Z) :=
  match bags with
  | [] => [(d, [k])]
  | (d', ks) :: rest =>
    match (d ?= d')%Q with
    | Eq => (d', ks ++ [k]) :: rest
    | Lt => (d, [k]) :: bags
    | Gt => (d', ks) :: bag_insert d k rest
    end
  end.

(** The loop over the phases, csdf_strictly_periodic.cpp 46-53. *)
Fixpoint phase_bags (approx : bool) (max_d : Q) (v : vertex) (ks : list Z) (bags : list (Q * list Z))
  : outcome (list (Q * list Z)) :=
  match ks with
  | [] => Ok bags
  | k :: ks' =>
    do d <- vertex_duration v k;
    phase_bags approx max_d v ks' (bag_insert (if approx then max_d else d) k bags)
  end.

(** The accumulation loops of csdf_strictly_periodic.cpp 96-97. *)
Fixpoint sum_phases (f : Z -> outcome Z) (ps : list Z) (acc : Z) : outcome Z :=
  match ps with
  | [] => Ok acc
  | p :: ps' => do x <- f p; sum_phases f ps' (acc + x)
  end.

(** Body of the loops over k and kp, csdf_strictly_periodic.cpp 95-121: the weight when
    alphamin <= alphamax. *)
Definition sp_weight (c : edge) (phit phitp ia oa ni mop gcdz k kp : Z) : outcome (option Q) :=
  do iapm1 <- sum_phases (edge_in_phase c) (zrange 1 (k - 1)) 0;              (* 96 *)
  do oapp <- sum_phases (edge_out_phase c) (zrange 1 kp) 0;                    (* 97 *)
  do inak <- edge_in_phase c k;
  do outakp <- edge_out_phase c kp;
  let iap := iapm1 + inak in
  let Ha := Z.max 0 (inak - outakp) in                                          (* 101 *)
  do alphamin <- ceil_to (Ha + oapp - iap - mop) gcdz;                          (* 102 *)
  do alphamax <- floor_to (oapp - iapm1 - mop - 1) gcdz;                        (* 103 *)
  do shiftp <- qdiv ((kp - 1) * oa) phitp;
  do shift <- qdiv ((k - 1) * ia) phit;
  let tw := (inject_Z alphamax - shiftp + shift)%Q in                           (* 105 *)
  if ia * ni =? 0 then Undefined
  else Ok (if alphamin <=? alphamax then Some (tw / inject_Z (ia * ni))%Q else None).

(** w = std::max(w, nw) with w initially lowest(), here None, line 121. *)
Definition keep_max (w nw : option Q) : option Q :=
  match w, nw with
  | Some a, Some b => Some (if Qle_bool b a then a else b)
  | None, _ => nw
  | _, None => w
  end.

Fixpoint weight_loop (f : Z -> Z -> outcome (option Q)) (kks : list (Z * Z)) (w : option Q) : outcome (option Q) :=
  match kks with
  | [] => Ok w
  | (k, kp) :: rest => do nw <- f k kp; weight_loop f rest (keep_max w nw)
  end.

(** The constraint of one bag on one output channel, csdf_strictly_periodic.cpp 62-132. *)
Definition sp_channel (g : graph) (N : nat -> Z) (t : vertex) (ni : Z) (bag : Q * list Z) (c : edge)
  : outcome (list constraint) :=
  do tp <- lookup_vertex g (e_dst c);
  let phit := Z.of_nat (v_phases t) in
  let phitp := Z.of_nat (v_phases tp) in
  let ia := edge_in_total c in
  let oa := edge_out_total c in
  do stepa <- fine_gcd c;                                                       (* 74 *)
  do mop <- floor_to (e_preload c) stepa;                                       (* 75 *)
  let gcdz := Z.gcd ia oa in                                                    (* 76 *)
  do _ <- cassert (negb (length (snd bag) =? 0)%nat);                           (* 80 *)
  do _ <- cassert (0 <? phitp);                                                 (* 81 *)
  do nj <- cdiv (N (e_dst c)) phitp;                                            (* 83 *)
  do _ <- cassert (ia * ni =? oa * nj);                                         (* 88 *)
  do w <- weight_loop (sp_weight c phit phitp ia oa ni mop gcdz)
            (flat_map (fun k => map (fun kp => (k, kp)) (zrange 1 phitp)) (snd bag)) None;
  match w with
  | Some w => Ok [mkConstraint (sp_event t) (sp_event tp) (- w)%Q (fst bag) (e_id c)]   (* 126-130 *)
  | None => Ok []
  end.

Definition out_channels (g : graph) (i : nat) : list edge :=
  filter (fun c => (e_src c =? i)%nat) (edges g).

(** One round of the second loop over the tasks, csdf_strictly_periodic.cpp 35-135. *)
Definition sp_task (approx : bool) (g : graph) (N : nat -> Z) (i : nat) (t : vertex)
  : outcome (list constraint) :=
  do max_d <- max_duration t;
  do bags <- phase_bags approx max_d t (zrange 1 (Z.of_nat (v_phases t))) [];
  do ni <- cdiv (N i) (Z.of_nat (v_phases t));                                  (* 55 *)
  collect (map (fun bag => collect (map (sp_channel g N t ni bag) (out_channels g i))) bags).

(** [generate_csdf_strictly_periodic_event_graph], csdf_strictly_periodic.cpp 15-137;
    [approx] is use_max_duration. *)
Definition sp_event_graph (approx : bool) (g : graph) (N : nat -> Z) : outcome (list constraint) :=
  do loops <- collect (map (fun iv => sp_self (snd iv) (N (fst iv))) (indexed (vertices g)));
  do chans <- collect (map (fun iv => sp_task approx g N (fst iv) (snd iv)) (indexed (vertices g)));
  Ok (loops ++ chans).

(** compute_SPeriodic_throughput (approx = false) and compute_ASPeriodic_throughput
    (approx = true), csdf_strictly_periodic.cpp 139-187: the throughput printed is the
    answer of MinCycleRatio.  [eps] is the tolerance of the solver (Howard.v). *)
Definition sp_throughput (approx : bool) (eps : Q) (g : graph) (N : nat -> Z) : outcome ratio :=
  do cs <- sp_event_graph approx g N;
  min_cycle_ratio eps None (sp_events g) cs.

(** The schedule of [CSDF_SPeriodicScheduling], CSDF_SPeriodicScheduling.cpp 19-63: period,
    one start per task and the critical channels.  An infinite answer of the solver gives
    omega = 0; an answer of zero would give infinite periods, reported here as Undefined. *)
Record sp_schedule := mkSPSchedule { sps_omega : Q; sps_tasks : list task_schedule; sps_critical : list edge }.
Definition sp_retrieve (g : graph) (N : nat -> Z) (omega : Q) (St : event -> Q) : list task_schedule :=
  map (fun iv => mkTaskSchedule (omega / inject_Z (N (fst iv)))%Q [St (sp_event (snd iv))]) (indexed (vertices g)).
Definition sp_scheduling (eps : Q) (g : graph) (N : nat -> Z) : outcome sp_schedule :=
  do cs <- sp_event_graph false g N;                                            (* 23 *)
  do q <- min_cycle_ratio eps None (sp_events g) cs;                            (* 27 *)
  let critical := critical_set g (r_cycle q) in                                 (* 33-42 *)
  do omega <- match r_value q with
              | None => Ok 0%Q
              | Some res => if Qeq_bool res 0 then Undefined else Ok (/ res)%Q  (* 45 *)
              end;
  let St := fst (compute_starting_time (sp_events g) cs (Some omega)) in        (* 46 *)
  Ok (mkSPSchedule omega (sp_retrieve g N omega St) critical).                  (* 47-62 *)
