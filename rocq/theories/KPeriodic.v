(** Model of the K-periodic event graph generation,
    algorithms/throughput/kperiodic.cpp. *)
From Coq Require Import QArith.
From Verif Require Import Base Graph Commons.
Open Scope Z_scope.

(** A scheduling event <task, phase, occurrence>, models/EventGraph.h 57-82. *)
Record event := mkEvent { ev_task : Z; ev_phase : Z; ev_occ : Z }.

(** A constraint as stored by addEventConstraint(source,target,w,d,id),
    models/EventGraph.h 329-342:   start(target) >= start(source) + d - omega * w. *)
Record constraint := mkConstraint {
  c_source : event; c_target : event; c_w : Q; c_d : Q; c_channel : Z }.

(** Positions (k,p) visited by the loops
      for k = 1..maxk, for p = ((k==1) ? 1-init : 1) .. phases
    kperiodic.cpp 556-560 and 570-574. *)
Definition zrange (a b : Z) : list Z :=
  map (fun i => a + Z.of_nat i) (seq 0 (Z.to_nat (b - a + 1))).
Definition positions (maxk init phases : Z) : list (Z * Z) :=
  flat_map (fun k => map (fun p => (k, p)) (zrange (if k =? 1 then 1 - init else 1) phases))
           (zrange 1 maxk).

(** alphamax of the optimised code, kperiodic.cpp 585-587. *)
Definition alpha_max_opt (lpimax gcdz : Z) : outcome Z :=
  do rpimax <- cmod lpimax gcdz;
  Ok (if 0 <=? rpimax then lpimax - rpimax else lpimax - rpimax - gcdz).

(** alphamin of the optimised code, kperiodic.cpp 593-594. *)
Definition alpha_min_opt (lpimin gcdz : Z) : outcome Z :=
  do rpimin <- cmod lpimin gcdz;
  Ok (if rpimin <=? 0 then lpimin - rpimin else lpimin - rpimin + gcdz).

(** The NOT_OPTIMIZED variants, kperiodic.cpp 581-582. *)
Definition alpha_max_ref (lpimax gcdz : Z) : outcome Z := floor_to lpimax gcdz.
Definition alpha_min_ref (lpimin gcdz : Z) : outcome Z := ceil_to lpimin gcdz.

(** Quantities fixed for one channel, kperiodic.cpp 537-546. *)
Record chan_env := mkEnv {
  ce_source_id : Z; ce_target_id : Z; ce_id : Z;
  ce_maxki : Z; ce_source_phases : Z;
  ce_mop : Z; ce_Wc : Z; ce_gcdz : Z; ce_stepa : Z; ce_Ni : Z }.

(** Rational quotient of two integers (the TIME_UNIT division of line 611); a zero
    denominator would give an infinite weight and is reported as undefined. *)
Definition qdiv (a b : Z) : outcome Q :=
  if b =? 0 then Undefined else Ok (inject_Z a / inject_Z b)%Q.

(** The three compile-time variants of the innermost loop, kperiodic.cpp 10 and 580-595;
    the released code defines STRONGLY_OPTIMIZED (line 10). *)
Inductive variant := NotOptimized | Optimized | StronglyOptimized.
Definition alpha_max (var : variant) : Z -> Z -> outcome Z :=
  match var with NotOptimized => alpha_max_ref | _ => alpha_max_opt end.
Definition alpha_min (var : variant) : Z -> Z -> outcome Z :=
  match var with NotOptimized => alpha_min_ref | _ => alpha_min_opt end.
Definition early_exit (var : variant) : bool :=
  match var with StronglyOptimized => true | _ => false end.

(** Body of the innermost loop, kperiodic.cpp 577-623. *)
Definition inner_body (var : variant) (e : chan_env) (ki pi kj pj : Z)
    (wak vakp normdapkm1 normdapk normdamkp : Z) (d : Q) : outcome (list constraint) :=
  let lpimax := - ce_mop e - normdapkm1 + normdamkp - ce_stepa e in
  do alphamax <- alpha_max var lpimax (ce_gcdz e);
  let lpimin := Z.max 0 (wak - vakp) - ce_mop e - normdapk + normdamkp in
  if early_exit var && (alphamax <? lpimin) then Ok []
  else
    do alphamin <- alpha_min var lpimin (ce_gcdz e);
    if alphamin <=? alphamax then
      do w <- qdiv (alphamax * ce_source_phases e * ce_maxki e) (ce_Wc e * ce_Ni e);
      Ok [mkConstraint (mkEvent (ce_source_id e) pi ki) (mkEvent (ce_target_id e) pj kj)
                       (- w) d (ce_id e)]
    else Ok [].

(** Loops over (kj,pj), kperiodic.cpp 570-625; [normdamkp] accumulates. *)
Fixpoint inner_loop (var : variant) (e : chan_env) (c : edge) (ki pi : Z)
    (wak normdapkm1 normdapk : Z) (d : Q)
    (targets : list (Z * Z)) (normdamkp : Z) : outcome (list constraint) :=
  match targets with
  | [] => Ok []
  | (kj, pj) :: rest =>
    do vakp <- edge_out_phase c pj;                                   (* 577 *)
    let normdamkp' := normdamkp + vakp in                              (* 578 *)
    do here <- inner_body var e ki pi kj pj wak vakp normdapkm1 normdapk normdamkp' d;
    do later <- inner_loop var e c ki pi wak normdapkm1 normdapk d rest normdamkp';
    Ok (here ++ later)
  end.

(** Loops over (ki,pi), kperiodic.cpp 556-628; [normdapk] accumulates and
    [normdapkm1] is its previous value. *)
Fixpoint outer_loop (var : variant) (e : chan_env) (c : edge) (src : vertex)
    (sources targets : list (Z * Z)) (normdapk : Z) : outcome (list constraint) :=
  match sources with
  | [] => Ok []
  | (ki, pi) :: rest =>
    do d <- vertex_duration src pi;                                   (* 563 *)
    do wak <- edge_in_phase c pi;                                      (* 565 *)
    let normdapk' := normdapk + wak in                                 (* 566 *)
    do here <- inner_loop var e c ki pi wak normdapk normdapk' d targets 0;
    do later <- outer_loop var e c src rest targets normdapk';
    Ok (here ++ later)
  end.

(** [generateKPeriodicConstraint], kperiodic.cpp 515-629.
    [src]/[dst] are the source and target tasks, [Ni] the repetition count of the
    source, [ki]/[kj] the periodicity of source and target.  Bufferless edges get the
    same constraint as normal ones (lines 616-620). *)
Definition generate_channel (var : variant) (c : edge) (src dst : vertex) (Ni maxki maxkj : Z)
  : outcome (list constraint) :=
  do g <- fine_gcd c;
  do mop <- floor_to (e_preload c) g;                                  (* 540 *)
  let Wc := edge_in_total c * maxki in                                 (* 542 *)
  let Rc := edge_out_total c * maxkj in                                (* 543 *)
  let env := mkEnv (v_id src) (v_id dst) (e_id c) maxki (Z.of_nat (length (e_in c)))
                   mop Wc (Z.gcd Wc Rc) g Ni in
  outer_loop var env c src
    (positions maxki (Z.of_nat (length (e_in_init c))) (Z.of_nat (length (e_in c))))
    (positions maxkj (Z.of_nat (length (e_out_init c))) (Z.of_nat (length (e_out c))))
    0.

(** The while loop of [generateKperiodicSelfloop], kperiodic.cpp 648-661: the events
    after the first one in execution order, with [lti] the (masked) duration of the
    previous one. *)
Fixpoint selfloop_chain (t : vertex) (timefactor : Q) (prev : Z * Z) (lti : Q)
    (rest : list (Z * Z)) : outcome (list constraint) :=
  match rest with
  | [] => Ok []
  | (i, p) :: rest' =>
    let cst := mkConstraint (mkEvent (v_id t) (snd prev) (fst prev)) (mkEvent (v_id t) p i) 0 lti 0 in
    do dur <- vertex_duration t p;
    do later <- selfloop_chain t timefactor (i, p) (timefactor * dur)%Q rest';
    Ok (cst :: later)
  end.

(** [generateKperiodicSelfloop], kperiodic.cpp 632-687.  The first [lti] is always the
    duration of phase 1 (line 641), even when the first event is an initial phase. *)
Definition generate_selfloop (t : vertex) (Ni ki : Z) : outcome (list constraint) :=
  let timefactor := if v_reentrancy t <=? 0 then 0%Q else 1%Q in       (* 636 *)
  let pq := Z.of_nat (v_phases t) in
  do d1 <- vertex_duration t 1;                                        (* 641 *)
  do chain <- match positions ki (Z.of_nat (v_init_phases t)) pq with
              | [] => Ok []
              | first :: rest => selfloop_chain t timefactor first (timefactor * d1)%Q rest
              end;
  if 0 <? v_reentrancy t then                                          (* 663 *)
    do dl <- vertex_duration t pq;                                     (* 674 *)
    do w <- qdiv (pq * ki) Ni;                                         (* 681, sign folded with 685 *)
    Ok (chain ++ [mkConstraint (mkEvent (v_id t) pq ki) (mkEvent (v_id t) 1 1) w
                               (timefactor * dl)%Q 0])
  else Ok chain.

Fixpoint collect {A} (l : list (outcome (list A))) : outcome (list A) :=
  match l with
  | [] => Ok []
  | x :: l' => do h <- x; do t <- collect l'; Ok (h ++ t)
  end.

Definition lookup_vertex (g : graph) (i : nat) : outcome vertex :=
  match nth_error (vertices g) i with Some v => Ok v | None => Undefined end.

Definition indexed {A} (l : list A) : list (nat * A) := combine (seq 0 (length l)) l.

(** [generateKPeriodicEventGraph], kperiodic.cpp 344-385: constraints in insertion
    order.  [N] and [K] give the repetition count and periodicity of each vertex. *)
Definition generate_event_graph (var : variant) (g : graph) (N K : nat -> Z)
  : outcome (list constraint) :=
  do loops <- collect (map (fun iv => generate_selfloop (snd iv) (N (fst iv)) (K (fst iv)))
                           (indexed (vertices g)));
  do chans <- collect (map (fun c =>
                 do s <- lookup_vertex g (e_src c);
                 do t <- lookup_vertex g (e_dst c);
                 generate_channel var c s t (N (e_src c)) (K (e_src c)) (K (e_dst c)))
               (edges g));
  Ok (loops ++ chans).

(** The events created by [generateKPeriodicEventGraph], kperiodic.cpp 351-367. *)
Definition vertex_events (v : vertex) (k : Z) : list event :=
  map (fun i => mkEvent (v_id v) (1 - i) 1) (zrange 1 (Z.of_nat (v_init_phases v))) ++
  flat_map (fun j => map (fun i => mkEvent (v_id v) i j) (zrange 1 (Z.of_nat (v_phases v))))
           (zrange 1 k).
Definition event_list (g : graph) (K : nat -> Z) : list event :=
  flat_map (fun iv => vertex_events (snd iv) (K (fst iv))) (indexed (vertices g)).
