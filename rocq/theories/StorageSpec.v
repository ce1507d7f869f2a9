(** Vocabulary of the properties of storage distributions and of their sets. *)
From Coq Require Import QArith Sorted.
From Verif Require Import Base Graph Storage.
Open Scope Z_scope.

(** The capacity a distribution gives to a channel (only used on channels it has). *)
Definition quantity (d : sd) (e : Z) : Z := match get_quantity d e with Ok q => q | _ => 0 end.

(** A distribution over the channels [K] (a std::map has its keys in strict order), whose size
    is the sum of its quantities. *)
Definition channel_list (K : list Z) : Prop := StronglySorted Z.lt K.
Record valid (K : list Z) (d : sd) : Prop := {
  valid_edges : get_edges d = K;
  valid_count : sd_edge_count d = Z.of_nat (length K);
  valid_size : sd_size d = sumZ (map (quantity d) K) }.

(** Componentwise orders. *)
Definition same (K : list Z) (a b : sd) : Prop := forall e, In e K -> quantity a e = quantity b e.
Definition below (K : list Z) (a b : sd) : Prop := forall e, In e K -> quantity a e <= quantity b e.
Definition strictly_above (K : list Z) (a b : sd) : Prop := forall e, In e K -> quantity b e < quantity a e.

(** ** Histories of one distribution *)
Inductive sd_call := SetQuantity (e q : Z) | SetTokens (e t : Z) | SetThroughput (t : Q).
Definition sd_do (c : sd_call) (d : sd) : sd :=
  match c with
  | SetQuantity e q => set_quantity e q d
  | SetTokens e t => set_tokens e t d
  | SetThroughput t => set_thr t d
  end.
Definition sd_run (cs : list sd_call) (d : sd) : sd := fold_left (fun d c => sd_do c d) cs d.
(** The last value given to a channel by the calls, if any (the latest call is last). *)
Definition last_quantity (e : Z) (cs : list sd_call) : option Z :=
  fold_left (fun acc c => match c with SetQuantity e' q => if e =? e' then Some q else acc | _ => acc end) cs None.

(** ** Histories of a set *)
Inductive set_call := Add (d : sd) | Remove (d : sd).
Definition arg (c : set_call) : sd := match c with Add d | Remove d => d end.
Fixpoint set_run (cs : list set_call) (s : sds) : outcome sds :=
  match cs with
  | [] => Ok s
  | Add d :: cs' => do s' <- add_sd d s; set_run cs' s'
  | Remove d :: cs' => do s' <- remove_sd d s; set_run cs' s'
  end.
(** Whether [d] was added and not removed since: the calls given latest first. *)
Fixpoint present (K : list Z) (d : sd) (latest_first : list set_call) : Prop :=
  match latest_first with
  | [] => False
  | Add x :: cs => same K x d \/ present K d cs
  | Remove x :: cs => ~ same K x d /\ present K d cs
  end.

(** Two different positions of a list. *)
Definition at_two {A} (l : list A) (x y : A) : Prop :=
  exists i j, i <> j /\ nth_error l i = Some x /\ nth_error l j = Some y.

(** ** Points given to a frontier one after the other *)
Fixpoint unsat_run (ps : list sd) (s : sds) : outcome sds :=
  match ps with [] => Ok s | p :: ps' => do r <- add_to_unsat p s; unsat_run ps' (snd r) end.
Fixpoint sat_run (ps : list sd) (s : sds) : outcome sds :=
  match ps with [] => Ok s | p :: ps' => do s' <- add_to_sat p s; sat_run ps' s' end.
Fixpoint feasible_run (ps : list sd) (s : sds) : outcome sds :=
  match ps with [] => Ok s | p :: ps' => do s' <- update_feasible_set p s; feasible_run ps' s' end.
Fixpoint knee_run (ps : list sd) (unsat knees : sds) : outcome (sds * sds) :=
  match ps with [] => Ok (unsat, knees) | p :: ps' => do r <- add_point p unsat knees; knee_run ps' (fst r) (snd r) end.
