(** Model of the throughput of an SDF graph by expansion into its executions (de Groote's
    linear constraint graph), algorithms/throughput/degroote.cpp. *)
From Coq Require Import QArith.
From Verif Require Import Base Graph Commons KPeriodic EventGraph.
Open Scope Z_scope.

(** [std::ceil(division(a, b))], 63 and 115: (long) of a long double quotient, modelled exactly;
    a division by zero gives infinity or not a number and its cast to long is undefined. *)
Definition ceil_div (a b : Z) : outcome Z := if b =? 0 then Undefined else Ok (- ((- a) / b)).
(** [std::floor(division(a, b))], 65 and 117. *)
Definition floor_div (a b : Z) : outcome Z := if b =? 0 then Undefined else Ok (a / b).

(** [getVertexDuration(t)], models/Dataflow.h 875-880: exactly one duration or an assertion. *)
Definition single_duration (v : vertex) : outcome Q :=
  match v_durations v with [d] => Ok d | _ => Rejected end.

(** One execution [j] of the consumer, 61-82 and 113-136.  The constraint is added as
    (w, d) := (duration, - delta): weight 1 is the time and weight 2 the number of iterations. *)
Definition lcg_constraint (src dst id Ni mc nc dc : Z) (tj : Q) (j : Z) : outcome constraint :=
  do pi <- ceil_div (j * nc - dc) mc;
  do r <- modulo (pi - 1) Ni;
  do delta <- floor_div (pi - 1) Ni;
  Ok (mkConstraint (mkEvent src 1 (r + 1)) (mkEvent dst 1 j) tj (inject_Z (- delta)) id).

(** The loop over the executions of the consumer. *)
Definition lcg_channel (src dst id Ni Nj mc nc dc : Z) (tj : Q) : outcome (list constraint) :=
  collect (map (fun j => do c <- lcg_constraint src dst id Ni mc nc dc tj j; Ok [c]) (zrange 1 Nj)).

(** A task, 36-86: factor 1 adds the constraints of a channel of rates 1 with one token, factor 0
    nothing, more is refused. *)
Definition lcg_task (v : vertex) (Ni : Z) : outcome (list constraint) :=
  do _ <- cassert (v_reentrancy v <=? 1);
  if v_reentrancy v =? 1 then
    do tj <- single_duration v;
    lcg_channel (v_id v) (v_id v) 0 Ni Ni 1 1 1 tj
  else Ok [].

(** A channel, 91-139. *)
Definition lcg_edge (g : graph) (N : nat -> Z) (c : edge) : outcome (list constraint) :=
  do s <- lookup_vertex g (e_src c);
  do t <- lookup_vertex g (e_dst c);
  do tj <- single_duration t;
  lcg_channel (v_id s) (v_id t) (e_id c) (N (e_src c)) (N (e_dst c))
    (edge_in_total c) (edge_out_total c) (e_preload c) tj.

(** [generate_LCG], 18-146.  [N] is the repetition vector (computeRepetitionVector, RepVec.v). *)
Definition generate_lcg (g : graph) (N : nat -> Z) : outcome (list constraint) :=
  do _ <- cassert (forallb (fun v => (v_phases v =? 1)%nat) (vertices g));          (* 23-25 *)
  do loops <- collect (map (fun iv => lcg_task (snd iv) (N (fst iv))) (indexed (vertices g)));
  do chans <- collect (map (lcg_edge g N) (edges g));
  Ok (loops ++ chans).

(** The events, 30-32: one per execution. *)
Definition lcg_events (g : graph) (N : nat -> Z) : list event :=
  flat_map (fun iv => map (fun j => mkEvent (v_id (snd iv)) 1 j) (zrange 1 (N (fst iv)))) (indexed (vertices g)).

(** [FullConnectionned], models/EventGraph.h 203-234.  One pass over the events: those with
    entering arcs only or leaving arcs only lose all their arcs; counts the events so treated. *)
Fixpoint clean_pass (evs : list event) (cs : list constraint) : list constraint * nat :=
  match evs with
  | [] => (cs, 0%nat)
  | e :: evs' =>
    let out := existsb (fun c => event_eqb (c_source c) e) cs in
    let inn := existsb (fun c => event_eqb (c_target c) e) cs in
    if xorb out inn then
      let r := clean_pass evs' (filter (fun c => negb (event_eqb (c_source c) e || event_eqb (c_target c) e)) cs) in
      (fst r, S (snd r))
    else clean_pass evs' cs
  end.
(** The while loop, 204-225. *)
Fixpoint clean_lcg (fuel : nat) (evs : list event) (cs : list constraint) : outcome (list constraint) :=
  match fuel with
  | O => Timeout
  | S fuel' =>
    let r := clean_pass evs cs in
    if (snd r =? 0)%nat then Ok (fst r) else clean_lcg fuel' evs (fst r)
  end.

Section Solver.
(** [solve] is MaxCycleRatio (models/EventGraph.h 450-478): the best sum of weight 1 over sum of
    weight 2 and a circuit attaining it. *)
Variable solve : list constraint -> Q * list constraint.

(** The value printed by [compute_deGroote_throughput], 166-182: one over the ratio; an infinite
    quotient is not modelled. *)
Definition degroote_throughput (g : graph) (N : nat -> Z) : outcome Q :=
  do cs <- generate_lcg g N;
  let r := fst (solve cs) in
  if Qeq_bool r 0 then Undefined else Ok (/ r)%Q.

(** [compute_deGrooteClean_throughput], 153-164. *)
Definition degroote_clean_throughput (fuel : nat) (g : graph) (N : nat -> Z) : outcome Q :=
  do cs0 <- generate_lcg g N;
  do cs <- clean_lcg fuel (lcg_events g N) cs0;
  let r := fst (solve cs) in
  if Qeq_bool r 0 then Undefined else Ok (/ r)%Q.
End Solver.
