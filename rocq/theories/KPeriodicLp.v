(** Model of the K-periodic scheduling by linear programming,
    algorithms/scheduling/CSDF_KPeriodicScheduling_LP.cpp.
    Simplifications: a column START_COL_STR(name,a,k) (lines 24-26) is the event of phase a,
    occurrence k of the task (names and identifiers both identify a task), rows keep their
    coefficients and bounds but not their names, and numbers are rationals, not doubles.
    The GLPK solver itself is an oracle. *)
From Coq Require Import QArith.
From Verif Require Import Base Graph Commons KPeriodic EventGraph.
Open Scope Z_scope.

(** A row of the program (commons/lp/glpsol.h, addRow and addCoef): the coefficient of the
    hyper-period, those of the starting times, and the bound; [row_fixed] is FIX_BOUND, else
    LOW_BOUND. *)
Record lp_row := mkRow { row_fixed : bool; row_bound : Q; row_omega : Q; row_starts : list (event * Q) }.

(** The sum of one column minus another; nothing when they are the same column
    (CSDF_KPeriodicScheduling_LP.cpp 168-171 and 237-240). *)
Definition difference (target source : event) : list (event * Q) :=
  if event_eqb target source then [] else [(target, 1%Q); (source, (-1)%Q)].

(** Body of the four loops of [add_precedences_constraints],
    CSDF_KPeriodicScheduling_LP.cpp 86-183.  The phase before phase_j (out_a_kpm1, line 108)
    is read but never used and left out, like the branches under [if (false)] (172-180). *)
Definition precedence_row (c : edge) (src dst : vertex) (Ni Ki Kj : Z) (pi ki pj kj : Z) : outcome (list lp_row) :=
  let gcda := Z.gcd (Ki * edge_in_total c) (Kj * edge_out_total c) in        (* 51-53 *)
  do stepa <- fine_gcd c;                                                      (* 54 *)
  do moa <- floor_to (e_preload c) stepa;                                      (* 55 *)
  do nt <- cdiv Ni (Z.of_nat (v_phases src));                                  (* 59 *)
  do d <- vertex_duration src pi;                                              (* 97 *)
  do inp <- edge_in_phase c pi;                                                (* 106 *)
  do outp <- edge_out_phase c pj;                                              (* 107 *)
  let o := sumZ (firstn (Z.to_nat pj) (e_out c)) + (kj - 1) * edge_out_total c in  (* 118, 121 *)
  let i := sumZ (firstn (Z.to_nat pi) (e_in c)) + (ki - 1) * edge_in_total c in    (* 119, 122 *)
  let low := Z.max 0 (inp - outp) in                                           (* 142 *)
  do amin <- ceil_to (low + o - i - moa) gcda;                                 (* 151 *)
  do amax <- floor_to (o - (i - inp) - moa - 1) gcda;                          (* 124, 152 *)
  if amin <=? amax then
    do coef <- qdiv amax (nt * edge_in_total c);
    Ok [mkRow false d (- coef)%Q (difference (mkEvent (v_id dst) pj kj) (mkEvent (v_id src) pi ki))]
  else Ok [].

(** [add_precedences_constraints], CSDF_KPeriodicScheduling_LP.cpp 36-186: the asserts on
    initial phases and the four loops. *)
Definition precedence_rows (c : edge) (src dst : vertex) (Ni Ki Kj : Z) : outcome (list lp_row) :=
  do _ <- cassert (Nat.eqb (v_init_phases src) 0);
  do _ <- cassert (Nat.eqb (v_init_phases dst) 0);
  collect
    (flat_map (fun pi => flat_map (fun ki => flat_map (fun pj => map (fun kj =>
       precedence_row c src dst Ni Ki Kj pi ki pj kj)
       (zrange 1 Kj)) (zrange 1 (Z.of_nat (v_phases dst)))) (zrange 1 Ki)) (zrange 1 (Z.of_nat (v_phases src)))).

(** The executions of a task in the order in which [add_reentrancy_constraints] visits them,
    CSDF_KPeriodicScheduling_LP.cpp 200-227: the initial phases, then the phases of each
    occurrence. *)
Definition ordered_phases (init phases K : Z) : list (Z * Z) :=
  map (fun a => (1, a - init)) (zrange 1 init) ++
  flat_map (fun k => map (fun a => (k, a)) (zrange 1 phases)) (zrange 1 K).

(** The rows Task_order of these loops; [prev] is the previous column with its duration. *)
Fixpoint order_rows (t : vertex) (prev : option (event * Q)) (l : list (Z * Z)) : outcome (list lp_row) :=
  match l with
  | [] => Ok []
  | (k, p) :: rest =>
    let col := mkEvent (v_id t) p k in
    let here := match prev with
                | Some (last, d) => [mkRow false d 0 [(last, (-1)%Q); (col, 1%Q)]]
                | None => []
                end in
    do d <- vertex_duration t p;
    do later <- order_rows t (Some (col, d)) rest;
    Ok (here ++ later)
  end.

(** [add_reentrancy_constraints], CSDF_KPeriodicScheduling_LP.cpp 188-245. *)
Definition reentrancy_rows (t : vertex) (Ni K : Z) : outcome (list lp_row) :=
  let P := Z.of_nat (v_phases t) in
  do chain <- order_rows t None (ordered_phases (Z.of_nat (v_init_phases t)) P K);
  if v_reentrancy t =? 0 then Ok chain else
    do coef <- qdiv (P * K) Ni;
    do d <- vertex_duration t P;
    Ok (chain ++ [mkRow false d coef (difference (mkEvent (v_id t) 1 1) (mkEvent (v_id t) P K))]).

(** The starting-time columns of a task, phase by phase, CSDF_KPeriodicScheduling_LP.cpp
    308-323; every column has the lower bound 0. *)
Definition task_columns (t : vertex) (K : Z) : list event :=
  map (fun a => mkEvent (v_id t) (a - Z.of_nat (v_init_phases t)) 1) (zrange 1 (Z.of_nat (v_init_phases t))) ++
  flat_map (fun a => map (fun k => mkEvent (v_id t) a k) (zrange 1 K)) (zrange 1 (Z.of_nat (v_phases t))).
Definition lp_columns (g : graph) (K : nat -> Z) : list event :=
  flat_map (fun iv => task_columns (snd iv) (K (fst iv))) (indexed (vertices g)).

(** The rows of [CSDF_KPeriodicScheduling_LP], CSDF_KPeriodicScheduling_LP.cpp 328-341. *)
Definition lp_rows (g : graph) (N K : nat -> Z) : outcome (list lp_row) :=
  do loops <- collect (map (fun iv => reentrancy_rows (snd iv) (N (fst iv)) (K (fst iv))) (indexed (vertices g)));
  do chans <- collect (map (fun c =>
                 do s <- lookup_vertex g (e_src c);
                 do t <- lookup_vertex g (e_dst c);
                 precedence_rows c s t (N (e_src c)) (K (e_src c)) (K (e_dst c)))
               (edges g));
  Ok (loops ++ chans).

(** [collect_lp_results], CSDF_KPeriodicScheduling_LP.cpp 248-278: the period and the starts
    of each task.  The initial starts go to the same list as the periodic ones (line 263),
    and the periodic ones are pushed phase by phase (267-273). *)
Definition collect_results (g : graph) (N K : nat -> Z) (omega : Q) (St : event -> Q) : list task_schedule :=
  map (fun iv => mkTaskSchedule (omega / (inject_Z (N (fst iv)) / inject_Z (K (fst iv))))%Q
                   (map St (task_columns (snd iv) (K (fst iv))))) (indexed (vertices g)).

(** The solver: an answer, when it finds one, for the columns (all at least 0, as is the
    hyper-period, whose value is minimised, lines 300 and 304) and the rows. *)
Definition lp_solver := list event -> list lp_row -> option (Q * (event -> Q)).

(** [CSDF_KPeriodicScheduling_LP], CSDF_KPeriodicScheduling_LP.cpp 281-378: the period of the
    graph and the schedule, or nothing (the default Scheduling) for an empty graph or when
    the solver fails. *)
Definition kperiodic_lp (solve : lp_solver) (g : graph) (N K : nat -> Z) : outcome (option (Q * list task_schedule)) :=
  match vertices g with
  | [] => Ok None
  | _ :: _ =>
    do rows <- lp_rows g N K;
    match solve (lp_columns g K) rows with
    | Some (omega, St) => Ok (Some (omega, collect_results g N K omega St))
    | None => Ok None
    end
  end.

(** The rows Fully_periodic of a task in [CSDF_RealPeriodicScheduling_LP],
    CSDF_KPeriodicScheduling_LP.cpp 421-441. *)
Definition even_rows (t : vertex) (Ni : Z) : outcome (list lp_row) :=
  collect (map (fun a =>
    do coef <- qdiv 1 Ni;
    Ok [mkRow true 0 (- coef)%Q [(mkEvent (v_id t) (a - 1) 1, (-1)%Q); (mkEvent (v_id t) a 1, 1%Q)]])
    (zrange 2 (Z.of_nat (v_phases t)))).

(** [CSDF_RealPeriodicScheduling_LP], CSDF_KPeriodicScheduling_LP.cpp 381-498: no initial
    phases (391-393), periodicity 1 everywhere (396). *)
Definition real_lp_rows (g : graph) (N : nat -> Z) : outcome (list lp_row) :=
  do _ <- cassert (forallb (fun v => Nat.eqb (v_init_phases v) 0) (vertices g));
  do even <- collect (map (fun iv => even_rows (snd iv) (N (fst iv))) (indexed (vertices g)));
  do rows <- lp_rows g N (fun _ => 1);
  Ok (even ++ rows).
Definition real_lp (solve : lp_solver) (g : graph) (N : nat -> Z) : outcome (option (Q * list task_schedule)) :=
  match vertices g with
  | [] => Ok None
  | _ :: _ =>
    do rows <- real_lp_rows g N;
    match solve (lp_columns g (fun _ => 1)) rows with
    | Some (omega, St) => Ok (Some (omega, collect_results g N (fun _ => 1) omega St))
    | None => Ok None
    end
  end.
