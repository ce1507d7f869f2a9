(** What a task and its channels are after its outputs have been joined. *)
From Coq Require Import QArith String Permutation Relations.
From Verif Require Import Base Graph Builder SingleOutput.
Open Scope Z_scope.

(** A task is as before, but for its number of phases when it had not been given. *)
Definition kept (b b' : bvertex) : Prop := b' = b \/ bv_phases b = 0%nat /\ b' = bv_set_phases 1 b.
(** A task that passes on what it gets. *)
Definition copier (b : bvertex) : Prop := bv_phases b = 1%nat /\ bv_durations b = [1%Q] /\ bv_init_phases b = 0%nat.
(** A channel that takes and gives one token at a time and is empty at first. *)
Definition plain (e : bedge) : Prop :=
  be_in e = [1] /\ be_out e = [1] /\ be_total_in e = 1 /\ be_total_out e = 1 /\ be_in_init e = [] /\ be_out_init e = [] /\ be_preload e = 0.
(** The channels of [s] from [t] or from a task numbered [n] or more. *)
Definition beyond (n t : nat) (s : state) : list bedge := filter (fun e => (be_src e =? t)%nat || (n <=? be_src e)%nat) (s_es s).

(** [s'] is [s] with the outputs of [t] passed on by new tasks. *)
Record forked (s : state) (t : nat) (s' : state) : Prop := mkForked {
  f_tasks : exists vs copies, s_vs s' = vs ++ copies /\ Forall2 kept (s_vs s) vs /\ length copies = (length (outputs t s) - 1)%nat /\ forall b, In b copies -> copier b;
  (** the other channels are as they were, *)
  f_others : filter (fun e => negb ((be_src e =? t)%nat || (length (s_vs s) <=? be_src e)%nat)) (s_es s') = filter (fun e => negb (be_src e =? t)%nat) (s_es s);
  (** [t] has one output, and each new task one input and two outputs, *)
  f_one : length (outputs t s') = 1%nat;
  f_copy : forall d, (length (s_vs s) <= d < length (s_vs s'))%nat -> length (filter (fun e => (be_dst e =? d)%nat) (s_es s')) = 1%nat /\ length (outputs d s') = 2%nat;
  (** that come from [t] through new tasks, *)
  f_reach : forall d, (length (s_vs s) <= d < length (s_vs s'))%nat -> clos_trans nat (fun x y => (length (s_vs s) <= y)%nat /\ exists e, In e (s_es s') /\ be_src e = x /\ be_dst e = y) t d;
  (** on channels that only copy, *)
  f_plain : forall e, In e (beyond (length (s_vs s)) t s') -> plain e;
  (** and the former outputs lead to the same tasks as before. *)
  f_targets : Permutation (map be_dst (outputs t s)) (map be_dst (filter (fun e => (be_dst e <? length (s_vs s))%nat) (beyond (length (s_vs s)) t s'))) }.

(** Numbers of firings of the tasks that leave each channel as it was. *)
Definition balanced (s : state) (q : nat -> Z) : Prop := forall e, In e (s_es s) -> q (be_src e) * be_total_in e = q (be_dst e) * be_total_out e.
