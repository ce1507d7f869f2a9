(** Model of the base monotonic optimisation (option B_M_OPT of the throughput / storage
    exploration), algorithms/dse/base_monotonic_optimisation.cpp 31-79 and 205-362.  The other
    entry point of the file (81-203) is the same function with K-Iter as only evaluation.
    As in [Dse], an evaluation is a pair of functions: throughput and critical edges of a
    distribution; edges are named by identifier; counting and logging are not modelled. *)
From Coq Require Import QArith.
From Verif Require Import Base Graph Storage Dse.
Open Scope Z_scope.

(** The edges treated as buffers: those whose identifier is above half the number of edges
    when feedback channels are modelled, all of them otherwise. *)
Definition is_buffer (bounded : bool) (count e : Z) : bool := negb bounded || (e >? count / 2).
Definition buffer_edges (bounded : bool) (es : list Z) : list Z :=
  filter (is_buffer bounded (Z.of_nat (length es))) es.

(** createPoint, buffer_sizing.cpp 1167-1187. *)
Fixpoint create_point (buffers : list Z) (d hp : sd) (m : Z) (acc : sd) : outcome sd :=
  match buffers with
  | [] => Ok acc
  | e :: bs =>
    do a <- get_quantity d e;
    do b <- get_quantity hp e;
    create_point bs d hp m (set_quantity e (a + b * m) acc)
  end.

(** The two loops of [select], 53-72: first the hyperplane point, then the half way to it. *)
Fixpoint hyperplane (buffers : list Z) (kmin : sd) (k : Z) (acc : sd) : outcome sd :=
  match buffers with
  | [] => Ok acc
  | e :: bs => do a <- get_quantity kmin e; hyperplane bs kmin k (set_quantity e (a - k) acc)
  end.
Fixpoint half_way (buffers : list Z) (plane : sd) (acc : sd) : outcome sd :=
  match buffers with
  | [] => Ok acc
  | e :: bs =>
    do a <- get_quantity plane e;
    do b <- get_quantity acc e;
    half_way bs plane (set_quantity e (Z.quot (a - b) 2) acc)
  end.

(** [select], 31-79: the new point, [foundPoint] (set or left unchanged), [mult] and
    [kMinPoint]. *)
Record choice := mkChoice { ch_point : sd; ch_found : bool; ch_mult : Z; ch_kmin : sd }.
Definition select (buffers : list Z) (unsat knees sat : sds) (isSat : bool) (mult : Z) (kmin : sd) : outcome choice :=
  do hp <- get_next knees;                                                          (* 40 *)
  do best <- get_next sat;                                                          (* 41 *)
  let mult1 := if isSat then mult else mult * 2 in                                  (* 42-43 *)
  do early <- (if isSat then Ok None
               else do p <- create_point buffers kmin hp mult1 kmin;
                    do c <- sat_contains p sat; Ok (if c then Some p else None));   (* 44-47 *)
  match early with
  | Some p => Ok (mkChoice p false mult1 kmin)
  | None =>
    let kmin' := hp in                                                              (* 50 *)
    let k := sd_size kmin' - sd_size best in                                        (* 52 *)
    do plane <- hyperplane buffers kmin' k best;
    do step <- half_way buffers plane hp;
    do p <- create_point buffers kmin' step 1 kmin';                                (* 73-74 *)
    do insat <- sat_contains p sat;
    do out <- (if insat then Ok true else unsat_contains p unsat);
    Ok (mkChoice p out 1 kmin')                                                     (* 75-79 *)
  end.

(** bufferInc: std::map<Edge, TOKEN_UNIT>. *)
Fixpoint put_bound (e v : Z) (m : bounds) : bounds :=
  match m with
  | [] => [(e, v)]
  | (e', v') :: m' => if e =? e' then (e', v) :: m' else (e', v') :: put_bound e v m'
  end.

Section Search.
Variables (thr : sd -> Q) (critical : sd -> list Z) (bounded : bool) (count : Z) (buffers : list Z) (target : Q).

(** 249-259: the critical buffers grow, by twice as much each time. *)
Fixpoint grow (es : list Z) (inc : bounds) (d : sd) : outcome (bounds * sd) :=
  match es with
  | [] => Ok (inc, d)
  | e :: es' =>
    if is_buffer bounded count e then
      let v := bound_of inc e * 2 in
      do q <- get_quantity d e;
      grow es' (put_bound e v inc) (set_quantity e (q + v) d)
    else grow es' inc d
  end.

(** 246-287: grow until the target is reached.  [current] is the throughput found last; it is
    not clamped at first. *)
Fixpoint first_feasible (fuel : nat) (d : sd) (inc : bounds) (current : Q) (unsat knees : sds) : outcome (sd * sds * sds) :=
  if negb (Qle_bool target current) then
    match fuel with
    | O => Timeout
    | S fuel' =>
      do r1 <- add_point d unsat knees;
      do r2 <- add_cut buffers (critical d) d (fst r1) (snd r1);
      do g <- grow (critical d) inc d;
      let t := clamp (thr (snd g)) in
      first_feasible fuel' (set_thr t (snd g)) (fst g) t (fst r2) (snd r2)
    end
  else Ok (d, unsat, knees).

(** 290-340: the choice of further points. *)
Fixpoint improve (fuel : nat) (c : choice) (unsat knees sat : sds) : outcome (sds * sds) :=
  if ch_found c then Ok (knees, sat)
  else
    match fuel with
    | O => Timeout
    | S fuel' =>
      let t := clamp (thr (ch_point c)) in
      let d := set_thr t (ch_point c) in
      let isSat := Qle_bool target t in
      do r <- (if isSat then do s <- add_to_sat d sat; Ok (unsat, knees, s)
               else do r1 <- add_point d unsat knees;
                    do r2 <- add_cut buffers (critical (ch_point c)) d (fst r1) (snd r1);
                    Ok (fst r2, snd r2, sat));
      let '(unsat', knees', sat') := r in
      do c' <- select buffers unsat' knees' sat' isSat (ch_mult c) (ch_kmin c);
      improve fuel' c' unsat' knees' sat'
    end.
End Search.

(** 226-239: nothing infeasible but what is below the initial distribution. *)
Definition set_all (v : Z) (es : list Z) (d : sd) : sd := fold_left (fun acc e => set_quantity e v acc) es d.
Fixpoint lower_bounds (init top : sd) (es : list Z) (unsat knees : sds) : outcome (sds * sds) :=
  match es with
  | [] => Ok (unsat, knees)
  | e :: es' =>
    do q <- get_quantity init e;
    do r <- add_point (set_quantity e (q - 1) top) unsat knees;
    lower_bounds init top es' (fst r) (snd r)
  end.

(** 341-361: the knees, raised by one, that are smaller than the best distribution found. *)
Definition raised (buffers : list Z) (k : sd) : outcome sd :=
  fold_left (fun acc e => do d <- acc; do q <- get_quantity d e;
                          if q <? int_max then do q' <- get_quantity k e; Ok (set_quantity e (q' + 1) d) else Ok d) buffers (Ok k).
Fixpoint augment (buffers : list Z) (sat : sds) (knees : list sd) (acc : sds) : outcome sds :=
  match knees with
  | [] => Ok acc
  | k :: ks =>
    do d <- raised buffers k;
    do best <- get_next sat;
    do acc' <- (if sd_size d <? sd_size best then add_sd d acc else Ok acc);
    augment buffers sat ks acc'
  end.

(** [base_monotonic_optimised_symbexec_throughput_dse], 205-362: the sets of knees and of
    feasible distributions at the end of the search, then the answer. *)
Definition base_search (fuel : nat) (thr : sd -> Q) (critical : sd -> list Z) (bounded : bool) (target : Q) (es : list Z) (init : sd) : outcome (sds * sds) :=
  let count := Z.of_nat (length es) in
  let buffers := buffer_edges bounded es in
  do knees0 <- add_sd (set_all 0 (get_edges init) init) sds_empty;                  (* 227-232 *)
  do r0 <- lower_bounds init (set_all int_max (get_edges init) init) (get_edges init) sds_empty knees0;
  do r1 <- first_feasible thr critical bounded count buffers target fuel init (map (fun e => (e, 1)) (get_edges init)) (thr init) (fst r0) (snd r0);
  let '(d, unsat, knees) := r1 in
  do sat <- add_sd d sds_empty;                                                     (* 288 *)
  do c <- select buffers unsat knees sat true 1 sd_default;
  improve thr critical buffers target fuel c unsat knees sat.
Definition base_optimisation (fuel : nat) (thr : sd -> Q) (critical : sd -> list Z) (bounded : bool) (target : Q) (es : list Z) (init : sd) : outcome sds :=
  do r <- base_search fuel thr critical bounded target es init;
  augment (buffer_edges bounded es) (snd r) (flat (fst r)) sds_empty.

(** dse.cpp 247-270 and the exploration that follows: the checklist is the answer of the
    optimisation instead of the initial distribution. *)
Definition optimised_exploration (fuel : nat) (thr : sd -> Q) (critical : sd -> list Z) (bounded : bool) (count : Z) (step : Z -> Z) (target : Q)
    (es : list Z) (init : sd) : outcome sds :=
  do checklist <- base_optimisation fuel thr critical bounded target es init;
  do minimal <- explore fuel thr critical count step target checklist sds_empty;
  patch_zero es minimal.
