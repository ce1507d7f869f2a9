(** Model of updateKneeSet and addEdgeKnees, algorithms/dse/buffer_sizing.cpp 514-614, on the sets
    of Storage.v. *)
From Coq Require Import QArith.
From Verif Require Import Base Graph Storage.
Open Scope Z_scope.

(** 533-547: the last distribution of the queue that equals none of the checked ones; a new empty
    distribution when there is none. *)
Fixpoint last_unchecked (checked l : list sd) (acc : sd) : outcome sd :=
  match l with
  | [] => Ok acc
  | a :: l' => do isChecked <- has_loop a checked false; last_unchecked checked l' (if isChecked then acc else a)
  end.

(** 550-557: the minimum of the chosen distribution and each other one of the queue, as it was
    before, is added to the knee points and to the queue. *)
Fixpoint add_minima (d : sd) (l : list sd) (queue knees : sds) : outcome (sds * sds) :=
  match l with
  | [] => Ok (queue, knees)
  | x :: l' =>
    do differ <- sd_neq d x;
    if differ then
      do k <- make_minimal d x;
      do knees' <- add_sd k knees;
      do queue' <- add_sd k queue;
      add_minima d l' queue' knees'
    else add_minima d l' queue knees
  end.

(** 560-568: same number of sizes, and every distribution of the queue is checked. *)
Fixpoint all_in (l : list sd) (s : sds) (found : bool) : outcome bool :=
  match l with
  | [] => Ok found
  | x :: l' => do b <- has_sd x s; all_in l' s (if b then found else false)
  end.
Definition check_finished (queue checked : sds) : outcome bool :=
  if (length (ss_map queue) =? length (ss_map checked))%nat then all_in (flat queue) checked true else Ok false.

(** The loop, 526-570. *)
Fixpoint knee_loop (fuel : nat) (queue checked knees : sds) : outcome sds :=
  match fuel with
  | O => Timeout
  | S f =>
    do d <- (if set_count checked =? 0 then get_next queue else last_unchecked (flat checked) (flat queue) sd_default);
    do r <- add_minima d (flat queue) queue knees;
    do checked' <- add_sd d checked;
    do finished <- check_finished (fst r) checked';
    if finished then Ok (snd r) else knee_loop f (fst r) checked' (snd r)
  end.

(** 592-599: the largest quantities. *)
Fixpoint raise_edges (x : sd) (es : list Z) (acc : sd) : outcome sd :=
  match es with
  | [] => Ok acc
  | e :: es' =>
    do a <- get_quantity x e;
    do b <- get_quantity acc e;
    raise_edges x es' (if a >? b then set_quantity e a acc else acc)
  end.
Fixpoint raise_all (es : list Z) (l : list sd) (acc : sd) : outcome sd :=
  match l with
  | [] => Ok acc
  | x :: l' => do acc' <- raise_edges x es acc; raise_all es l' acc'
  end.
(** 601-612, for the edges that model bounded buffers. *)
Fixpoint edge_knees (buffers : list Z) (lb : bounds) (top : sd) (infeasible feasible knees : sds) : outcome sds :=
  match buffers with
  | [] => Ok knees
  | c :: cs =>
    let temp := set_quantity c (bound_of lb c) top in
    do inU <- has_sd temp infeasible;
    do add <- (if inU then Ok false
               else do inF <- has_sd temp feasible; if inF then Ok false else sd_neq temp top);
    do knees' <- (if add then add_sd temp knees else Ok knees);
    edge_knees cs lb top infeasible feasible knees'
  end.
(** addEdgeKnees, 583-614. *)
Definition add_edge_knees (buffers : list Z) (lb : bounds) (infeasible feasible knees : sds) : outcome sds :=
  do first <- get_next infeasible;
  do top <- raise_all (get_edges first) (flat infeasible) first;
  edge_knees buffers lb top infeasible feasible knees.

(** updateKneeSet, 514-579. *)
Definition update_knee_set (fuel : nat) (buffers : list Z) (lb : bounds) (infeasible feasible knees : sds) : outcome sds :=
  do knees1 <- (if set_count infeasible >? 1 then knee_loop fuel infeasible sds_empty knees else Ok knees);
  do knees2 <- add_edge_knees buffers lb infeasible feasible knees1;
  each (fun x => remove_non_maximum x lb) (flat knees2) knees2.
