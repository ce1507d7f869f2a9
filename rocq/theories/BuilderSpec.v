(** Vocabulary of the graph object properties (C10 to C17). *)
From Coq Require Import QArith Ascii String.
From Verif Require Import Base Graph Builder.
Open Scope Z_scope.

(** A history of calls that were all accepted. *)
Inductive accepted_history : state -> Prop :=
| accepted_start : accepted_history empty_state
| accepted_call s c s' : accepted_history s -> exec c s = Done tt s' -> accepted_history s'.

(** A history in which calls may also be rejected, the program going on with the state
    they leave (builds where a failure throws). *)
Inductive any_history : state -> Prop :=
| any_start : any_history empty_state
| any_accepted s c s' : any_history s -> exec c s = Done tt s' -> any_history s'
| any_rejected s c s' : any_history s -> exec c s = Raised s' -> any_history s'.

(** Histories restricted to some calls. *)
Inductive history_of (allowed : state -> call -> Prop) (rejections : bool) : state -> Prop :=
| ho_start : history_of allowed rejections empty_state
| ho_accepted s c s' : history_of allowed rejections s -> allowed s c -> exec c s = Done tt s' ->
    history_of allowed rejections s'
| ho_rejected s c s' : history_of allowed rejections s -> allowed s c -> rejections = true ->
    exec c s = Raised s' -> history_of allowed rejections s'.

(** Every call but the one documented as unchecked. *)
Definition checked_call (_ : state) (c : call) : Prop :=
  match c with SetVertexIdUnsafe _ _ => False | _ => True end.

(** setPhasesQuantity and setInitPhasesQuantity are only used to announce the phases of a
    task that has neither rates nor durations yet. *)
Definition no_rates (s : state) (v : nat) : Prop :=
  (forall e, In e (s_es s) -> (be_src e = v -> be_in e = []) /\ (be_dst e = v -> be_out e = [])) /\
  forall b, nth_error (s_vs s) v = Some b -> bv_durations b = [].
Definition no_init_rates (s : state) (v : nat) : Prop :=
  (forall e, In e (s_es s) -> (be_src e = v -> be_in_init e = []) /\ (be_dst e = v -> be_out_init e = [])) /\
  forall b, nth_error (s_vs s) v = Some b -> bv_init_durations b = [].
Definition announces_phases (s : state) (c : call) : Prop :=
  match c with
  | SetPhases v n => no_rates s v
  | SetInitPhases v n => no_init_rates s v
  | _ => True
  end.

(** Each rate or duration vector that has been set has one entry per phase of its task. *)
Definition sized {A} (l : list A) (n : nat) : Prop := l = [] \/ length l = n.
Definition coherent (s : state) : Prop :=
  (forall e, In e (s_es s) -> exists bs bd, nth_error (s_vs s) (be_src e) = Some bs /\ nth_error (s_vs s) (be_dst e) = Some bd /\
     sized (be_in e) (bv_phases bs) /\ sized (be_out e) (bv_phases bd) /\
     sized (be_in_init e) (bv_init_phases bs) /\ sized (be_out_init e) (bv_init_phases bd)) /\
  (forall b, In b (s_vs s) -> sized (bv_durations b) (bv_phases b) /\ sized (bv_init_durations b) (bv_init_phases b)).

(** The vertices, edges and flags are the same (the automatic numbers may differ). *)
Definition same_graph (s s' : state) : Prop :=
  s_vs s' = s_vs s /\ s_es s' = s_es s /\ s_readonly s' = s_readonly s /\ s_norm s' = s_norm s /\
  s_rep s' = s_rep s /\ s_gcd s' = s_gcd s.

(** Everything the analyses read has been set: rates, durations and initial ones where the
    task has initial phases; rates and durations are not negative and channels move tokens. *)
Definition complete (s : state) : Prop :=
  (forall b, In b (s_vs s) -> (0 < bv_phases b)%nat /\ bv_durations b <> [] /\ (bv_init_phases b <> O -> bv_init_durations b <> []) /\
     forall x, In x (bv_durations b ++ bv_init_durations b) -> (0 <= x)%Q) /\
  (forall e bs bd, In e (s_es s) -> nth_error (s_vs s) (be_src e) = Some bs -> nth_error (s_vs s) (be_dst e) = Some bd ->
     (bv_init_phases bs <> O -> be_in_init e <> []) /\ (bv_init_phases bd <> O -> be_out_init e <> []) /\
     (forall x, In x (be_in e ++ be_out e ++ be_in_init e ++ be_out_init e) -> 0 <= x) /\
     0 < sumZ (be_in e) /\ 0 < sumZ (be_out e) /\ 0 <= be_preload e).

(** Two states, one channel: same channel data, joining the same vertices. *)
Definition same_channel (s s' : state) (e e' : bedge) : Prop :=
  be_handle e' = be_handle e /\ be_id e' = be_id e /\ be_name e' = be_name e /\ be_in e' = be_in e /\ be_out e' = be_out e /\
  be_in_init e' = be_in_init e /\ be_out_init e' = be_out_init e /\ be_total_in e' = be_total_in e /\ be_total_out e' = be_total_out e /\
  be_preload e' = be_preload e /\ be_tokensize e' = be_tokensize e /\
  (exists b, nth_error (s_vs s) (be_src e) = Some b /\ nth_error (s_vs s') (be_src e') = Some b) /\
  (exists b, nth_error (s_vs s) (be_dst e) = Some b /\ nth_error (s_vs s') (be_dst e') = Some b).
Definition incident (v : nat) (e : bedge) : bool := (be_src e =? v)%nat || (be_dst e =? v)%nat.

(** Changes to the graph, as opposed to queries and analyses. *)
Definition mutating (c : call) : Prop :=
  match c with
  | GetFineGCD _ | SetNi _ _ | ComputeRepetition _ | ComputeNormalization _ | SetReadOnly | ResetComputation => False
  | _ => True
  end.
(** Calls that neither change the rates or identifier of a channel nor remove one. *)
Definition keeps_rates (c : call) : Prop :=
  match c with SetEdgeIn _ _ | SetEdgeOut _ _ | SetEdgeId _ _ | RemoveEdge _ | RemoveVertex _ => False | _ => True end.
(** Rates are fixed before the first gcd query. *)
Definition rates_fixed_once_queried (s : state) (c : call) : Prop := s_gcd s = [] \/ keeps_rates c.
(** The greatest common divisor of a list. *)
Definition is_gcd (r : Z) (l : list Z) : Prop :=
  0 <= r /\ (forall x, In x l -> (r | x)) /\ forall d, (forall x, In x l -> (d | x)) -> (d | r).
