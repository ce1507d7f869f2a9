(** Vocabulary of the merging properties. *)
From Coq Require Import QArith.
From Verif Require Import Base Graph ScheduleSpec.
Open Scope Z_scope.

(** Task [i] of [g] is one of those to merge, given by identifiers. *)
Definition to_merge (g : graph) (nodes : list Z) (i : nat) : Prop :=
  exists v, nth_error (vertices g) i = Some v /\ In (v_id v) nodes.

(** Once the repetition counts of the merged tasks are divided by any common divisor, each
    task still runs a whole number of times through its phases.  Always so for single-phase
    (SDF) tasks. *)
Definition whole_patterns (g : graph) (N : nat -> Z) (nodes : list Z) : Prop :=
  forall d, (forall i, to_merge g nodes i -> (d | N i)) ->
  forall i v, nth_error (vertices g) i = Some v -> In (v_id v) nodes -> (Z.of_nat (v_phases v) * d | N i).

(** Schedule [s] of [g] and schedule [s'] of [g'] are the same, execution by execution, when
    task [mid] of [g'] stands for the tasks [nodes] of [g]: [who] tells which execution of
    which task its executions are, each exactly once; every other task is found in [g'] with
    its start times. *)
Definition same_executions (g : graph) (nodes : list Z) (g' : graph) (mid : Z) (s s' : schedule) : Prop :=
  (exists j w who, nth_error (vertices g') j = Some w /\ v_id w = mid /\
     (forall m, to_merge g nodes (fst (who m)) /\ s (fst (who m)) (snd (who m)) = s' j m /\
        exists v, nth_error (vertices g) (fst (who m)) = Some v /\ exec_duration v (snd (who m)) = exec_duration w m) /\
     (forall i c, to_merge g nodes i -> exists m, who m = (i, c)) /\
     (forall m m', who m = who m' -> m = m')) /\
  (forall i v, nth_error (vertices g) i = Some v -> ~ to_merge g nodes i ->
     exists j, nth_error (vertices g') j = Some v /\ forall c, s i c = s' j c).

(** The schedule repeats itself every [omega], each task [i] running N(i) times meanwhile. *)
Definition repeats (g : graph) (N : nat -> Z) (omega : Q) (s : schedule) : Prop :=
  forall i c, (i < length (vertices g))%nat -> (s i (c + Z.to_nat (N i))%nat == s i c + omega)%Q.

(** Every execution of a merged task takes time. *)
Definition take_time (g : graph) (nodes : list Z) : Prop :=
  forall i v d, nth_error (vertices g) i = Some v -> In (v_id v) nodes -> In d (v_durations v) -> (0 < d)%Q.

(** The repetition counts of the merged tasks have no common divisor but 1. *)
Definition coprime_counts (g : graph) (N : nat -> Z) (nodes : list Z) : Prop :=
  forall d, (forall i, to_merge g nodes i -> (d | N i)) -> (d | 1).

(** No two executions of merged tasks overlap in [s], as on a single processor. *)
Definition never_overlap (g : graph) (nodes : list Z) (s : schedule) : Prop :=
  forall i j vi vj c d, nth_error (vertices g) i = Some vi -> nth_error (vertices g) j = Some vj -> In (v_id vi) nodes -> In (v_id vj) nodes ->
  (i, c) <> (j, d) -> (s i c + exec_duration vi c <= s j d)%Q \/ (s j d + exec_duration vj d <= s i c)%Q.

(** The tasks to merge: known, given once, with a positive repetition count and without
    initial phases; the schedule has start times for them. *)
Definition mergeable (g : graph) (N : nat -> Z) (nodes : list Z) : Prop :=
  nodes <> [] /\ NoDup nodes /\
  forall id, In id nodes -> exists i v, nth_error (vertices g) i = Some v /\ v_id v = id /\ v_init_phases v = 0%nat /\ 0 < N i.
