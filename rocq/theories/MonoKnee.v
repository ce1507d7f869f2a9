(** Model of handleInfeasiblePoint, algorithms/dse/buffer_sizing.cpp 943-1011, and of the monotonic
    optimisation (option M_OPT of the throughput / storage exploration),
    algorithms/dse/monotonic_optimisation.cpp 30-270.  As in [Dse], an evaluation is a pair of
    functions: throughput and critical edges of a distribution; edges are named by identifier;
    counting and logging are not modelled.  The set augmentedKneeSet (250-262) is built but not
    used, and is left out. *)
From Coq Require Import QArith.
From Verif Require Import Base Graph Storage Dse MonoOpt Knees.
Open Scope Z_scope.

(** buffer_sizing.cpp 961-965 and 985-989: the number of critical edges among [es]. *)
Definition critical_count (critical es : list Z) : Z := Z.of_nat (length (filter (fun e => existsb (Z.eqb e) critical) es)).

(** 972-981 and 994-1001: bounds are never decreased. *)
Fixpoint raise_bounds (critical es : list Z) (d : sd) (lb : bounds) : outcome bounds :=
  match es with
  | [] => Ok lb
  | e :: es' =>
    if existsb (Z.eqb e) critical then
      do q <- get_quantity d e;
      raise_bounds critical es' d (if bound_of lb e <? q then put_bound e q lb else lb)
    else raise_bounds critical es' d lb
  end.
(** 960-1004. *)
Definition new_bounds (bounded : bool) (critical : list Z) (d : sd) (lb : bounds) : outcome bounds :=
  let edges := get_edges d in
  let size := Z.of_nat (length edges) in
  let considered := buffer_edges bounded edges in
  if critical_count critical considered =? (if bounded then size / 2 else size) then Ok lb
  else raise_bounds critical considered d lb.

(** The infeasible set, the knee set and the lower bounds. *)
Record points := mkPoints { p_infeasible : sds; p_knees : sds; p_lb : bounds }.

(** handleInfeasiblePoint, 943-1011: [buffers] are the edges of the graph whose identifier is above
    half their number, [fuel] bounds the search of updateKneeSet. *)
Definition handle_infeasible (fuel : nat) (bounded : bool) (buffers critical : list Z) (d : sd) (feasible : sds) (p : points) : outcome points :=
  do lb <- new_bounds bounded critical d (p_lb p);
  do infeasible <- update_infeasible_set d lb (p_infeasible p);
  do knees <- update_knee_set fuel buffers lb infeasible feasible (p_knees p);
  Ok (mkPoints infeasible knees lb).

(** monotonic_optimisation.cpp 45-54: further along the steps, not below the bounds. *)
Fixpoint stretch (buffers : list Z) (lb step : bounds) (mult : Z) (acc : sd) : outcome sd :=
  match buffers with
  | [] => Ok acc
  | c :: cs =>
    do q <- get_quantity acc c;
    let v := q + mult * bound_of step c in
    stretch cs lb step mult (set_quantity c (if bound_of lb c >? v then bound_of lb c else v) acc)
  end.
(** 65-75: half way from the knee to the feasible point. *)
Fixpoint half_step (buffers : list Z) (lb : bounds) (kmin smin : sd) (step : bounds) (acc : sd) : outcome (bounds * sd) :=
  match buffers with
  | [] => Ok (step, acc)
  | c :: cs =>
    do s <- get_quantity smin c;
    do k <- get_quantity kmin c;
    do q <- get_quantity acc c;
    let st := Z.quot (s - k) 2 in
    half_step cs lb kmin smin (put_bound c st step) (set_quantity c (if bound_of lb c >? q + st then bound_of lb c else q + st) acc)
  end.
(** "isInForeCone || hasStorageDistribution", 55 and 81; "isInBackCone || hasStorageDistribution", 79. *)
Definition fore_or_in (d : sd) (s : sds) : outcome bool := do b <- is_in_fore_cone d s; if b then Ok true else has_sd d s.
Definition back_or_in (d : sd) (lb : bounds) (s : sds) : outcome bool := do b <- is_in_back_cone d lb s; if b then Ok true else has_sd d s.

(** selectNewSD, 30-90: the point, and isInit, foundPoint, mult, step and kMinPoint. *)
Record selection := mkSelection { se_point : sd; se_init : bool; se_found : bool; se_mult : Z; se_step : bounds; se_kmin : sd }.
Definition select_half (buffers : list Z) (p : points) (feasible : sds) (c : selection) : outcome selection :=
  do kmin <- get_next (p_knees p);
  do smin <- get_next feasible;
  do r <- half_step buffers (p_lb p) kmin smin (se_step c) kmin;
  do known <- (do b <- back_or_in (snd r) (p_lb p) (p_infeasible p); if b then Ok true else fore_or_in (snd r) feasible);
  Ok (mkSelection (snd r) true (if known then true else se_found c) 1 (fst r) kmin).
Definition select_new (buffers : list Z) (p : points) (feasible : sds) (current target : Q) (c : selection) : outcome selection :=
  if se_init c && negb (Qle_bool target current) then
    let mult := se_mult c * 2 in
    do d <- stretch buffers (p_lb p) (se_step c) mult (se_kmin c);
    do known <- fore_or_in d feasible;
    if known then select_half buffers p feasible c
    else Ok (mkSelection d (se_init c) (se_found c) mult (se_step c) (se_kmin c))
  else select_half buffers p feasible c.

Section Search.
Variables (kfuel : nat) (thr : sd -> Q) (critical : sd -> list Z) (bounded : bool) (buffers : list Z) (target : Q).

(** 129-148: the critical buffers are doubled. *)
Fixpoint double (es : list Z) (d : sd) : outcome sd :=
  match es with
  | [] => Ok d
  | e :: es' => if existsb (Z.eqb e) buffers then do q <- get_quantity d e; double es' (set_quantity e (q * 2) d) else double es' d
  end.
(** 121-168. *)
Fixpoint reach (fuel : nat) (d : sd) (current : Q) (p : points) : outcome (sd * Q * points) :=
  if negb (Qle_bool target current) then
    match fuel with
    | O => Timeout
    | S f =>
      do p' <- handle_infeasible kfuel bounded buffers (critical d) d sds_empty p;
      do d' <- double (critical d) d;
      let t := clamp (thr d') in
      reach f (set_thr t d') t p'
    end
  else Ok (d, current, p).
(** 197-236. *)
Fixpoint refine (fuel : nat) (c : selection) (p : points) (feasible : sds) : outcome sds :=
  if se_found c then Ok (p_knees p)
  else
    match fuel with
    | O => Timeout
    | S f =>
      let t := clamp (thr (se_point c)) in
      let d := set_thr t (se_point c) in
      do r <- (if negb (Qle_bool target t) then do p' <- handle_infeasible kfuel bounded buffers (critical (se_point c)) d feasible p; Ok (p', feasible)
               else do s <- update_feasible_set d feasible; Ok (p, s));
      do c' <- select_new buffers (fst r) (snd r) t target c;
      refine f c' (fst r) (snd r)
    end.
End Search.

(** 112-117: one below the initial distribution. *)
Fixpoint start_bounds (es : list Z) (d : sd) (lb : bounds) : outcome bounds :=
  match es with
  | [] => Ok lb
  | e :: es' => do q <- get_quantity d e; start_bounds es' (set_quantity e (q - 1) d) (put_bound e (q - 1) lb)
  end.

(** monotonic_optimised_Kperiodic_throughput_dse, 92-270: [bounded] unless SYMB_EXEC is given. *)
Definition monotonic_optimised (kfuel fuel : nat) (thr : sd -> Q) (critical : sd -> list Z) (bounded : bool) (target : Q) (init : sd) : outcome sds :=
  let buffers := buffer_edges true (get_edges init) in
  do lb <- start_bounds (get_edges init) init [];
  do r <- reach kfuel thr critical bounded buffers target fuel init (sd_thr init) (mkPoints sds_empty sds_empty lb);
  let '(d, current, p) := r in
  do feasible <- update_feasible_set d sds_empty;
  do c <- select_new buffers p feasible current target (mkSelection sd_default false false 1 [] sd_default);
  refine kfuel thr critical bounded buffers target fuel c p feasible.
