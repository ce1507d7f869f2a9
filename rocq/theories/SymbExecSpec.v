(** What it means for a graph to be live, in terms of tokens and executions only. *)
From Coq Require Import QArith Qround.
From Verif Require Import Base Graph ScheduleSpec SymbExec.
Open Scope Z_scope.

(** An order of execution is a list of tasks (positions in [vertices]); how often task [i]
    has executed in it. *)
Definition times (i : nat) (w : list nat) : nat := count_occ Nat.eq_dec w i.

(** Tokens on a channel once the executions of [w] are over: each execution of a task is
    one phase. *)
Definition tokens (c : edge) (w : list nat) : Z :=
  e_preload c + sumf (prod_rate c) (times (e_src c) w) - sumf (cons_rate c) (times (e_dst c) w).

(** Task [i] can execute its next phase after [w]. *)
Definition enabled (g : graph) (w : list nat) (i : nat) : Prop :=
  (i < length (vertices g))%nat /\
  forall c, In c (edges g) -> e_dst c = i -> cons_rate c (times i w) <= tokens c w.

(** The tasks of [w] can execute one after the other. *)
Inductive playable (g : graph) : list nat -> Prop :=
| playable_nil : playable g []
| playable_snoc : forall w i, playable g w -> enabled g w i -> playable g (w ++ [i]).

(** One iteration can be executed: some order runs each task [N] times. *)
Definition live (g : graph) (N : nat -> Z) : Prop :=
  exists w, playable g w /\ forall i, (i < length (vertices g))%nat -> Z.of_nat (times i w) = N i.

(** Synchronous graphs: one phase per task. *)
Definition single_phase (g : graph) : Prop := forall v, In v (vertices g) -> v_phases v = 1%nat.
Definition distinct_channels (g : graph) : Prop := NoDup (map e_id (edges g)).

(** * The printed trace *)

(** Lines are numbered from 0 in the order in which they are printed. *)
Definition numbered (ls : list line) : Prop := forall k l, nth_error ls k = Some l -> l_packet l = Z.of_nat k.

(** A line depends on another when it lists its number. *)
Definition depends (ls : list line) (a b : nat) : Prop :=
  exists l, nth_error ls b = Some l /\ In (Z.of_nat a) (l_deps l).
(** A replay starts a line once all it depends on is over: [a] is over before [b] starts. *)
Inductive precedes (ls : list line) : nat -> nat -> Prop :=
| precedes_one : forall a b, depends ls a b -> precedes ls a b
| precedes_more : forall a b c, precedes ls a b -> depends ls b c -> precedes ls a c.

(** Lines only depend on lines printed before. *)
Definition depends_on_past (ls : list line) : Prop :=
  forall b l d, nth_error ls b = Some l -> In d (l_deps l) -> 0 <= d < Z.of_nat b.

(** Without self-loop channels a line from a task to itself is an execution, any other line
    is a packet. *)
Definition no_self_loops (g : graph) : Prop := forall c, In c (edges g) -> e_src c <> e_dst c.
Definition execution_of (l : line) (t : Z) : Prop := l_src l = t /\ l_dst l = t.
Definition packet_to (l : line) (t : Z) : Prop := l_src l <> t /\ l_dst l = t.

(** Lines one execution of task [i] prints: itself and its packets. *)
Definition lines_per_execution (g : graph) (size : Z) (i : nat) : Z :=
  1 + sumZ (map (fun c => if (e_src c =? i)%nat then sumZ (e_in c) / size else 0) (edges g)).

(** What a line says besides its number and dependencies. *)
Definition route (l : line) : Z * Z * Q := (l_src l, l_dst l, l_duration l).
Definition task_id (g : graph) (i : nat) : Z := match nth_error (vertices g) i with Some v => v_id v | None => 0 end.
(** What one execution of task [i] announces: itself with the whole part of its duration,
    then for each of its channels as many packets as one production fills. *)
Definition announced (g : graph) (size : Z) (i : nat) : list (Z * Z * Q) :=
  (task_id g i, task_id g i, inject_Z (Qfloor (nth 0 (match nth_error (vertices g) i with Some v => v_durations v | None => [] end) 0%Q))) ::
  flat_map (fun c => if (e_src c =? i)%nat then repeat (task_id g i, task_id g (e_dst c), 0%Q) (Z.to_nat (sumZ (e_in c) / size)) else []) (edges g).
