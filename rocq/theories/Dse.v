(** Model of the throughput / storage exploration of algorithms/dse/dse.cpp with K-Iter as the
    evaluation.  The evaluation of one distribution (compute_Kperiodic_throughput_and_cycles on
    the graph whose feedback channels hold the distribution) is a pair of functions given as
    arguments: the throughput and the critical edges.  Logging and timing are not modelled;
    commons::AreSame is modelled by equality of rationals. *)
From Coq Require Import QArith.
From Verif Require Import Base Graph Storage.
Open Scope Z_scope.

(** dse.cpp 94-109: for every channel, a reverse channel with the rates exchanged.
    [setEdgeInPhases] and [setEdgeOutPhases] leave the initial phases empty.  New identifiers
    follow the existing ones. *)
Definition feedback (id : Z) (c : edge) : edge :=
  mkEdge id (e_dst c) (e_src c) (e_out c) (e_in c) [] [] (e_preload c).
Fixpoint feedbacks (id : Z) (cs : list edge) : list edge :=
  match cs with [] => [] | c :: cs' => feedback id c :: feedbacks (id + 1) cs' end.
Definition with_feedback (g : graph) : graph :=
  mkGraph (vertices g) (edges g ++ feedbacks (Z.of_nat (length (edges g)) + 1) (edges g)).

(** dse.cpp 331-339: the preload of a feedback channel is its quantity minus its initial tokens. *)
Definition set_preload (t : Z) (c : edge) : edge :=
  mkEdge (e_id c) (e_src c) (e_dst c) (e_in c) (e_out c) (e_in_init c) (e_out_init c) t.
Fixpoint load_edges (count : Z) (d : sd) (cs : list edge) : outcome (list edge) :=
  match cs with
  | [] => Ok []
  | c :: cs' =>
    do c' <- (if e_id c >? count
              then do q <- get_quantity d (e_id c); do t <- get_tokens d (e_id c); Ok (set_preload (q - t) c)
              else Ok c);
    do r <- load_edges count d cs';
    Ok (c' :: r)
  end.
Definition load_distribution (count : Z) (d : sd) (g : graph) : outcome graph :=
  do es <- load_edges count d (edges g); Ok (mkGraph (vertices g) es).

(** dse.cpp 373-409: one new distribution per critical feedback edge. *)
Fixpoint spread (count : Z) (step : Z -> Z) (d : sd) (critical : list Z) (checklist : sds) : outcome sds :=
  match critical with
  | [] => Ok checklist
  | e :: es =>
    do cl <- (if e >? count
              then do q <- get_quantity d e; add_sd (set_quantity e (q + step e) d) checklist
              else Ok checklist);
    spread count step d es cl
  end.

(** dse.cpp 321-465, the search loop. *)
Definition clamp (t : Q) : Q := if negb (Qle_bool 0 t) then 0%Q else t.
Fixpoint explore (fuel : nat) (thr : sd -> Q) (critical : sd -> list Z) (count : Z) (step : Z -> Z) (target : Q)
    (checklist minimal : sds) : outcome sds :=
  if search_complete checklist target minimal then Ok minimal
  else
    match fuel with
    | O => Timeout
    | S fuel' =>
      do d0 <- get_next checklist;
      do checklist1 <- remove_sd d0 checklist;
      let d := set_thr (clamp (thr d0)) d0 in
      do minimal1 <- add_sd d minimal;
      do checklist2 <- spread count step d (critical d0) checklist1;
      do minimal2 <- minimize d minimal1;
      explore fuel' thr critical count step target checklist2 minimal2
    end.

(** dse.cpp 467-482: a distribution of throughput 0 is replaced by the all-zero one. *)
Definition zero_out (es : list Z) (d : sd) : sd := fold_left (fun acc e => set_quantity e 0 acc) es d.
Definition patch_zero (es : list Z) (minimal : sds) : outcome sds :=
  do first <- get_next minimal;
  if Qeq_bool (sd_thr first) 0 then
    do minimal1 <- remove_sd first minimal;
    add_sd (zero_out es first) minimal1
  else Ok minimal.

(** The whole exploration from an initial distribution over the channels [es]. *)
Definition exploration (fuel : nat) (thr : sd -> Q) (critical : sd -> list Z) (count : Z) (step : Z -> Z) (target : Q)
    (es : list Z) (init : sd) : outcome sds :=
  do checklist <- add_sd init sds_empty;
  do minimal <- explore fuel thr critical count step target checklist sds_empty;
  patch_zero es minimal.
