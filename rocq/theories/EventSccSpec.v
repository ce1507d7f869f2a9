(** Specification of the splitting of an event graph into strongly connected parts. *)
From Coq Require Import QArith Permutation.
From Verif Require Import Base Graph KPeriodic EventGraph EventGraphSpec EventScc.
Open Scope nat_scope.

(** The graph made by adding the events [evs], then the constraints [cs]. *)
Definition build (evs : list event) (cs : list constraint) : egraph := fold_left add_constraint cs (fold_left add_event evs empty_graph).
(** The constraints of a graph, as getConstraint gives them. *)
Fixpoint constraints_of (g : egraph) (ks : list cons) : list constraint :=
  match ks with
  | [] => []
  | k :: ks' => match get_constraint g k with Ok c => c :: constraints_of g ks' | _ => constraints_of g ks' end
  end.
Definition constraints (g : egraph) : list constraint := constraints_of g (eg_cons g).

(** There is a path of constraints from [u] to [v]. *)
Definition joined (cs : list constraint) (u v : event) : Prop := exists l, incl l cs /\ path u l v.
(** Both ends of a constraint are among [E]. *)
Definition within (E : list event) (c : constraint) : bool := existsb (event_eqb (c_source c)) E && existsb (event_eqb (c_target c)) E.

(** The events are shared out, none twice; two are in the same part exactly when each is joined to
    the other; a part has the constraints with both ends in it, as often as the graph has them. *)
Record parts_of (evs : list event) (cs : list constraint) (ps : list (list event * list constraint)) : Prop := {
  p_events : Permutation (concat (map fst ps)) evs;
  p_nonempty : forall p, In p ps -> fst p <> [];
  p_same : forall p u v, In p ps -> In u (fst p) -> (In v (fst p) <-> In v evs /\ joined cs u v /\ joined cs v u);
  p_constraints : forall p, In p ps -> snd p = filter (within (fst p)) cs }.
