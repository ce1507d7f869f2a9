(** Model of the random graph generator, generators/RandomGenerator.cpp. *)
From Coq Require Import QArith.
From Verif Require Import Base Graph RepVec KPeriodic KIter.
Open Scope Z_scope.

(** RandomGeneratorConfiguration, generators/RandomGenerator.h 15-29.  [max_duration] is a
    TIME_UNIT in the code, cut to an integer when used (line 90): here the integer. *)
Record config := mkConfig {
  cf_min_vertices : Z; cf_max_vertices : Z; cf_min_edges : Z; cf_max_edges : Z;
  cf_max_weight : Z; cf_max_duration : Z; cf_max_phases : Z; cf_max_init_phases : Z;
  cf_no_reentrancy : bool; cf_no_self_loop : bool }.

(** The default values of the member initialisers, RandomGenerator.h 17-27. *)
Definition default_config : config := mkConfig 10 10 15 15 100 1 1 0 false true.

(** The values set by [generate_random_sdf] when no parameter is given, RandomGenerator.cpp
    15-23. *)
Definition sdf_config : config := mkConfig 10 20 20 30 10 1 1 0 false true.

Section Draws.
(** The values of the random engine, in the order in which they are drawn; the seed is the
    choice of this stream. *)
Variable rnd : nat -> Z.

(** std::uniform_int_distribution(lo, hi) applied to the engine: an integer of lo..hi.  The
    standard leaves an empty range undefined.  One value of the stream is used by each draw;
    which one is irrelevant since the stream is arbitrary. *)
Definition pick (lo hi : Z) (p : nat) : outcome (Z * nat) :=
  if hi <? lo then Undefined else Ok (lo + rnd p mod (hi - lo + 1), S p).

(** [n] draws in a row. *)
Fixpoint picks (n : nat) (lo hi : Z) (p : nat) : outcome (list Z * nat) :=
  match n with
  | O => Ok ([], p)
  | S n' => do xp <- pick lo hi p; do lp <- picks n' lo hi (snd xp); Ok (fst xp :: fst lp, snd lp)
  end.

(** Body of the loop on tasks, RandomGenerator.cpp 113-145: the task and its weight. *)
Definition new_task (cf : config) (i : Z) (p : nat) : outcome (vertex * Z * nat) :=
  do ni <- pick 0 (cf_max_init_phases cf) p;                                       (* 122 *)
  do np <- pick 1 (cf_max_phases cf) (snd ni);                                     (* 123 *)
  do di <- picks (Z.to_nat (fst ni)) 1 (cf_max_duration cf) (snd np);              (* 131-133 *)
  do dp <- picks (Z.to_nat (fst np)) 1 (cf_max_duration cf) (snd di);              (* 134-136 *)
  do w <- pick 1 (cf_max_weight cf) (snd dp);                                      (* 143 *)
  Ok (mkVertex i (Z.to_nat (fst np)) (Z.to_nat (fst ni)) (map inject_Z (fst dp)) (map inject_Z (fst di))
        (if cf_no_reentrancy cf then 0 else 1), fst w, snd w).

(** The loop on tasks, ids [i], [i]+1, ... *)
Fixpoint new_tasks (cf : config) (n : nat) (i : Z) (p : nat) : outcome (list vertex * list Z * nat) :=
  match n with
  | O => Ok ([], [], p)
  | S n' =>
    do t <- new_task cf i p;
    do ts <- new_tasks cf n' (i + 1) (snd t);
    Ok (fst (fst t) :: fst (fst ts), snd (fst t) :: snd (fst ts), snd ts)
  end.

(** std::sort on integers. *)
Fixpoint insert_sorted (x : Z) (l : list Z) : list Z :=
  match l with [] => [x] | y :: l' => if x <=? y then x :: l else y :: insert_sorted x l' end.
Definition sort (l : list Z) : list Z := fold_right insert_sorted [] l.

(** The sections of a total among [count] phases, RandomGenerator.cpp 198-216: count-1 cuts
    of 0..total and the total. *)
Definition sections (count : nat) (total : Z) (p : nat) : outcome (list Z * nat) :=
  do lp <- picks (count - 1) 0 total p;
  Ok (fst lp ++ [total], snd lp).

(** The rates: differences between successive sections, for the first [count] ones,
    RandomGenerator.cpp 231-253. *)
Fixpoint differences (cumul : Z) (l : list Z) : list Z :=
  match l with [] => [] | x :: l' => (x - cumul) :: differences (cumul + (x - cumul)) l' end.
Definition rates_of (count : nat) (secs : list Z) : list Z := differences 0 (firstn count (sort secs)).

(** The while loop that draws another target, RandomGenerator.cpp 155-158. *)
Fixpoint redraw (fuel : nat) (n src dst : Z) (p : nat) : outcome (Z * nat) :=
  if src =? dst then
    match fuel with
    | O => Timeout
    | S fuel' => do d <- pick 1 n p; redraw fuel' n src (fst d) (snd d)
    end
  else Ok (dst, p).

(** Body of the loop on channels, RandomGenerator.cpp 148-266.  Task number k is the vertex
    at position k-1 ([getVertexById] on ids 1..n). *)
Definition new_channel (fuel : nat) (cf : config) (vs : list vertex) (ws : list Z) (i : Z) (p : nat)
  : outcome (edge * nat) :=
  let n := Z.of_nat (length vs) in
  do s <- pick 1 n p;                                                               (* 150 *)
  do d0 <- pick 1 n (snd s);                                                        (* 151 *)
  do _ <- cassert (negb (cf_no_self_loop cf) || (1 <? n));                          (* 153 *)
  do d <- (if cf_no_self_loop cf then redraw fuel n (fst s) (fst d0) (snd d0) else Ok d0);
  let si := Z.to_nat (fst s - 1) in
  let di := Z.to_nat (fst d - 1) in
  match nth_error vs si, nth_error vs di with
  | Some src, Some dst =>
    let win := nth si ws 0 in
    let wout := nth di ws 0 in
    let g := Z.gcd win wout in                                                      (* 166 *)
    do a <- cdiv win g;
    do b <- cdiv wout g;
    do ma <- cdiv (cf_max_weight cf) a;
    do mb <- cdiv (cf_max_weight cf) b;
    do f <- pick 1 (Z.min ma mb) (snd d);                                           (* 167-170 *)
    let tin := a * fst f in
    let tout := b * fst f in
    do iin <- pick 1 (cf_max_weight cf) (snd f);                                    (* 174 *)
    do iout <- pick 1 (cf_max_weight cf) (snd iin);                                 (* 175 *)
    do s1 <- sections (v_phases src) tin (snd iout);                                (* 198-201 *)
    do s2 <- sections (v_phases dst) tout (snd s1);                                 (* 203-206 *)
    do s3 <- sections (v_init_phases src) (fst iin) (snd s2);                       (* 208-211 *)
    do s4 <- sections (v_init_phases dst) (fst iout) (snd s3);                      (* 213-216 *)
    Ok (mkEdge i si di (rates_of (v_phases src) (fst s1)) (rates_of (v_phases dst) (fst s2))
          (rates_of (v_init_phases src) (fst s3)) (rates_of (v_init_phases dst) (fst s4)) 0, snd s4)
  | _, _ => Rejected
  end.

(** The loop on channels. *)
Fixpoint new_channels (fuel : nat) (cf : config) (vs : list vertex) (ws : list Z) (m : nat) (i : Z) (p : nat)
  : outcome (list edge) :=
  match m with
  | O => Ok []
  | S m' =>
    do c <- new_channel fuel cf vs ws i p;
    do cs <- new_channels fuel cf vs ws m' (i + 1) (snd c);
    Ok (fst c :: cs)
  end.

(** [RandomGenerator::generate], RandomGenerator.cpp 76-283, before [set_initial_marking].
    The distributions of lines 102-103 are built even if unused. *)
Definition random_structure (fuel : nat) (cf : config) : outcome graph :=
  do _ <- cassert (cf_min_vertices cf <=? cf_max_vertices cf);
  do _ <- cassert (cf_min_edges cf <=? cf_max_edges cf);
  do _ <- cassert (1 <=? cf_max_duration cf);
  do _ <- cassert (1 <=? cf_max_weight cf);
  do _ <- cassert (1 <=? cf_max_phases cf);
  do _ <- cassert (0 <=? cf_max_init_phases cf);
  do nv <- pick (cf_min_vertices cf) (cf_max_vertices cf) 0;                        (* 99 *)
  do ne <- pick (cf_min_edges cf) (cf_max_edges cf) (snd nv);                       (* 100 *)
  if (fst nv <? 1) || (fst ne <? 1) then Undefined                                  (* 102-103 *)
  else
    do ts <- new_tasks cf (Z.to_nat (fst nv)) 1 (snd ne);
    do cs <- new_channels fuel cf (fst (fst ts)) (snd (fst ts)) (Z.to_nat (fst ne)) 1 (snd ts);
    Ok (mkGraph (fst (fst ts)) cs).
End Draws.

(** [setPreload] on one channel, models/Dataflow.h 660; channels are found by id. *)
Definition set_preload (g : graph) (c : edge) (n : Z) : graph :=
  mkGraph (vertices g)
    (map (fun e => if e_id e =? e_id c
                   then mkEdge (e_id e) (e_src e) (e_dst e) (e_in e) (e_out e) (e_in_init e) (e_out_init e) n
                   else e) (edges g)).

Section Marking.
(** [solve] is MinCycleRatio; [arrange] the order of the set of critical channels; [rounds]
    allows the inner loop of the scheduling to run as long as it needs on each graph. *)
Variable solve : list constraint -> Q * list constraint.
Variable arrange : list edge -> list edge.
Variable rounds : graph -> (nat -> Z) -> nat.

(** [set_initial_marking], RandomGenerator.cpp 47-73.  Of CSDF_KPeriodicScheduling only the
    throughput and the critical channels are used, so its start times are left out; the
    throughput is 1/(1/throughput), zero when the division gives infinity. *)
Fixpoint set_initial_marking (fuel : nat) (g : graph) : outcome graph :=
  match fuel with
  | O => Timeout
  | S fuel' =>
    do rv <- compute_repetition_vector (length (vertices g)) g;                     (* 52 *)
    match rv with
    | None => Rejected
    | Some N =>
      let n := fun i => nth i N 0 in
      do rkc <- kiter solve arrange (rounds g n) StronglyOptimized g n;               (* 53 *)
      let r := fst (fst rkc) in
      if Qle_bool (kr_throughput r) 0 then                                          (* 56 *)
        match kr_critical r with
        | [] => Rejected                                                            (* 58 *)
        | c :: _ =>                                                                 (* 59 *)
          do f <- fine_gcd c;
          set_initial_marking fuel' (set_preload g c (e_preload c + f))             (* 62 *)
        end
      else Ok g
    end
  end.

(** [RandomGenerator::generate] as a whole, RandomGenerator.cpp 76-289. *)
Definition generate (rnd : nat -> Z) (fuel : nat) (cf : config) : outcome graph :=
  do g <- random_structure rnd fuel cf;
  set_initial_marking fuel g.
End Marking.
