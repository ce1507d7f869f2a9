(** Vocabulary of the exploration with the self-timed execution as the evaluation. *)
From Coq Require Import QArith.
From Verif Require Import Base Graph Storage StorageSpec DseSpec Sim StorDep.
Open Scope Z_scope.

(** The capacities the execution is given: the quantity of each channel. *)
Definition room (g : graph) (d : sd) (k : nat) : Z :=
  match nth_error (edges g) k with Some c => quantity d (e_id c) | None => 0 end.
Definition channel_ids (g : graph) : list Z := map e_id (edges g).
(** The throughput of an answer. *)
Definition rate (a : answer) : Q :=
  match a with Periodic n T => (inject_Z (Z.of_nat n) / T)%Q | _ => 0%Q end.
(** [thr] and [critical] are, on the distributions explored, what the execution answers, with
    SYMB_EXEC_CORRECTED or without. *)
Definition executes (corrected : bool) (g : graph) (step : Z -> Z) (init : sd) (thr : sd -> Q) (critical : sd -> list Z) : Prop :=
  forall d, on_grid (channel_ids g) 0 step init d -> exists ticks a r,
    component_cycles corrected (S (length (vertices g))) ticks g (room g d) = Ok (a, r) /\ (thr d == rate a)%Q /\
    forall e, In e (critical d) <-> exists k c, In k r /\ nth_error (edges g) k = Some c /\ e_id c = e.
