(** Model of generators/LTEGeneator.cpp 11-72, on the graph object of Builder.v. *)
From Coq Require Import QArith Ascii String.
From Verif Require Import Base Commons Graph Builder SingleOutput.
Open Scope Z_scope.

(** struct phase_info, generators/LTEGenerator.h 20-25: number of tasks, their duration, what
    each sends, and their name. *)
Record phase_info := mkPhase { ph_thds : Z; ph_time : Q; ph_pkts : Z; ph_name : string }.

(** LTEGeneator.cpp 14-17: an option, or its default. *)
Definition option_or (text : option chars) (default : Z) : Z := match text with Some t => from_string_int t | None => default end.

(** LTEGeneator.cpp 21-25. *)
Definition phases (miwf cwac ifft dd : Z) : list phase_info :=
  [mkPhase miwf 392504 16 "miwf"; mkPhase cwac 230635 32 "cwac"; mkPhase ifft 353448 32 "ifft"; mkPhase dd 267559 32 "dd"].

(** 40-43: the name of task number [j] of a phase. *)
Definition task_name (name : string) (j : nat) : string := (name ++ "_" ++ digits j j "")%string.

(** 38-46: one task; its identifier is kept. *)
Definition add_task (ph : phase_info) (j : nat) : M Z :=
  let! v := add_vertex_auto in
  let! b := get_v v in
  let! _ := set_vertex_name v (task_name (ph_name ph) j) in
  let! _ := set_phases v 1 in
  let! _ := set_durations v [ph_time ph] in
  let! _ := set_reentrancy v 1 in
  ret (bv_id b).

(** A loop that collects results. *)
Fixpoint collect {A B} (f : A -> M B) (l : list A) : M (list B) :=
  match l with
  | [] => ret []
  | x :: l' => let! y := f x in let! ys := collect f l' in ret (y :: ys)
  end.

(** 36-48: j from 0 while j < ph_thds, an int. *)
Definition add_phase (ph : phase_info) : M (list Z) := collect (add_task ph) (seq 0 (Z.to_nat (ph_thds ph))).

(** 60-66: one channel.  getEdgeId is read off the graph. *)
Definition channel_name (id : Z) : string := ("channel_" ++ digits (Z.to_nat id) (Z.to_nat id) "")%string.
Definition add_channel (pkts src dst : Z) : M unit :=
  let! s := get in
  match vertex_by_id s src, vertex_by_id s dst with
  | Some a, Some b =>
    let! h := add_edge_auto a b in
    let! e := get_e h in
    let! _ := set_edge_name h (channel_name (be_id e)) in
    let! _ := set_edge_in h [pkts] in
    let! _ := set_edge_out h [pkts] in
    set_preload h 0
  | _, _ => fail
  end.

(** 56-68: every task of a phase to every task of the next. *)
Fixpoint run_all {A} (f : A -> M unit) (l : list A) : M unit :=
  match l with
  | [] => ret tt
  | x :: l' => let! _ := f x in run_all f l'
  end.
Definition join (pkts : Z) (from to : list Z) : M unit := run_all (fun src => run_all (fun dst => add_channel pkts src dst) to) from.
(** 53-69. *)
Fixpoint join_all (phs : list phase_info) (ids : list (list Z)) : M unit :=
  match phs, ids with
  | ph :: phs', from :: ((to :: _) as ids') => let! _ := join (ph_pkts ph) from to in join_all phs' ids'
  | _, _ => ret tt
  end.

(** 28-69. *)
Definition generate (phs : list phase_info) : M unit :=
  let! ids := collect add_phase phs in
  join_all phs ids.

(** generate_lte_sdf, 11-72: on a new graph. *)
Definition generate_lte_sdf (miwf cwac ifft dd : option chars) : result unit :=
  generate (phases (option_or miwf 64) (option_or cwac 75) (option_or ifft 24) (option_or dd 75)) empty_state.
