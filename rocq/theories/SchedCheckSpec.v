(** The start times that a schedule description stands for. *)
From Coq Require Import QArith Permutation.
From Verif Require Import Base Graph ScheduleSpec SymbExecSpec SchedCheck.
Open Scope Z_scope.

(** Start of execution [m]: the initial starts first, then the periodic ones, shifted by one period at every turn. *)
Definition start_time (s : given) (m : nat) : Q :=
  let k := (m - length (g_initial s))%nat in let n := length (g_periodic s) in
  if (m <? length (g_initial s))%nat then nth m (g_initial s) 0%Q
  else (nth (k mod n) (g_periodic s) 0 + g_period s * inject_Z (Z.of_nat (k / n)))%Q.

(** Every execution takes some time. *)
Definition takes_time (g : graph) : Prop := forall v d, In v (vertices g) -> In d (v_durations v) -> (0 < d)%Q.

(** The schedule that the description stands for. *)
Definition times (s : nat -> given) : schedule := fun i m => start_time (s i) m.

(** The graphs and descriptions of the positive results: at least two single-phase tasks that take time and
    carry a positive reentrancy factor; task identifiers below the bound of the vectors; every task with
    repeated starts; no start before 0 and one at 0.  [order] is any enumeration of the tasks. *)
Record checkable (g : graph) (max_edge_id : Z) (order : list nat) (s : nat -> given) : Prop := mkCheckable {
  ch_wf : graph_wf g;
  ch_init : no_init g;
  ch_phase : single_phase g;
  ch_channels : distinct_channels g;
  ch_time : takes_time g;
  ch_factor : forall v, In v (vertices g) -> 0 < v_reentrancy v;
  ch_two : (2 <= length (vertices g))%nat;
  ch_ids : forall v, In v (vertices g) -> v_id v < max_edge_id;
  ch_order : Permutation order (seq 0 (length (vertices g)));
  ch_repeat : forall i, In i order -> g_periodic (s i) <> [];
  ch_after : forall i, In i order -> (0 <= start_time (s i) 0)%Q;
  ch_begin : exists i, In i order /\ (start_time (s i) 0 == 0)%Q
}.

(** Only one task starts at 0. *)
Definition one_starter (order : list nat) (s : nat -> given) : Prop :=
  forall i j, In i order -> In j order -> (start_time (s i) 0 == 0)%Q -> (start_time (s j) 0 == 0)%Q -> i = j.
(** No execution overlaps the next one of the same task. *)
Definition in_sequence (g : graph) (s : nat -> given) : Prop :=
  forall i v, nth_error (vertices g) i = Some v -> task_serialised (times s) i v.
(** Every task makes its [N] executions in the same time [Omega]. *)
Definition same_pace (order : list nat) (N : nat -> Z) (Omega : Q) (s : nat -> given) : Prop :=
  forall i, In i order -> let K := Z.of_nat (length (g_periodic (s i))) in
    (g_period (s i) * inject_Z (N i) == Omega * inject_Z K)%Q /\ (K | N i).
