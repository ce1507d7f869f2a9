(** Model of mergeCSDFFromSchedule, algorithms/transformation/merging.cpp 289-684: a set of
    tasks is replaced by one task that runs their executions one after the other, in the
    order of a given schedule. *)
From Coq Require Import QArith.
From Verif Require Import Base Graph KPeriodic EventGraph Periodic.
Open Scope Z_scope.

(** [vertex_infos], 171-193.  [mi_pos] is the descriptor of the vertex; initial phases are
    rejected at 297-300, so [init_phases] = 0 throughout. *)
Record info := mkInfo {
  mi_pos : nat; mi_id : Z; mi_phases : nat; mi_durations : list Q;
  mi_period : Q; mi_starts : list Q; mi_ni : Z
}.

(** [std::map<ARRAY_INDEX, vertex_infos>::insert], 333: increasing identifiers. *)
Fixpoint insert_info (x : info) (l : list info) : list info :=
  match l with
  | [] => [x]
  | y :: l' => if mi_id x <? mi_id y then x :: l else y :: insert_info x l'
  end.

(** The loop over mergeNodes, 317-334.  [getVertexById] throws for an unknown identifier; a
    repeated identifier makes it throw at 346. *)
Definition find_pos (g : graph) (id : Z) : option nat :=
  find (fun i => match nth_error (vertices g) i with Some v => v_id v =? id | None => false end) (seq 0 (length (vertices g))).
Definition info_of (g : graph) (N : nat -> Z) (ts : list task_schedule) (id : Z) : outcome info :=
  match find_pos g id with
  | None => Rejected
  | Some i =>
    match nth_error (vertices g) i, nth_error ts i with
    | Some v, Some t =>
      if negb (v_init_phases v =? 0)%nat then Rejected                             (* 297-300 *)
      else if negb (0 <? N i) then Rejected                                        (* 292 *)
      else if ((length (v_durations v) =? v_phases v) && (0 <? v_phases v) && (0 <? length (ts_starts t)))%nat
      then Ok (mkInfo i id (v_phases v) (v_durations v) (ts_period t) (ts_starts t) (N i))
      else Undefined                                     (* reads outside a vector, or modulo 0 *)
    | _, _ => Undefined
    end
  end.
Fixpoint collect_infos (g : graph) (N : nat -> Z) (ts : list task_schedule) (nodes : list Z) (acc : list info) : outcome (list info) :=
  match nodes with
  | [] => Ok acc
  | id :: rest => do x <- info_of g N ts id;
    if existsb (fun y => mi_id y =? id) acc then Rejected else collect_infos g N ts rest (insert_info x acc)
  end.

(** [get_next_execution_time], 250-271. *)
Definition next_time (x : info) (index : nat) : Q :=
  let L := length (mi_starts x) in
  if (index <? L)%nat then nth index (mi_starts x) 0%Q
  else (nth (index mod L) (mi_starts x) 0 + inject_Z (Z.of_nat (index / L)) * mi_period x)%Q.

(** An entry of the execution sequence, [task_execution_t] 273-283: the task, by its rank in
    the map, and the number of its execution. *)
Definition exec := (nat * nat)%type.

(** Next candidate, 367-380: the last entry of the map among those of least time. *)
Fixpoint pick (infos : list info) (count : nat -> nat) (k : nat) (best : option (Q * nat)) : option (Q * nat) :=
  match infos with
  | [] => best
  | x :: rest =>
    let t := next_time x (count k) in
    let best' := match best with
                 | Some (bt, bk) => if Qle_bool t bt then Some (t, k) else best
                 | None => Some (t, k)
                 end in
    pick rest count (S k) best'
  end.

Definition bump (count : nat -> nat) (k : nat) : nat -> nat := fun j => if (j =? k)%nat then S (count j) else count j.

(** Stopping condition, 391-400. *)
Fixpoint unfinished (infos : list info) (count : nat -> nat) (k : nat) : bool :=
  match infos with
  | [] => false
  | x :: rest => (Z.of_nat (count k) <? Z.of_nat (mi_phases x) * mi_ni x) || unfinished rest count (S k)
  end.

(** The scheduling loop, 363-401; the loop has no bound of its own. *)
Fixpoint execute (fuel : nat) (infos : list info) (count : nat -> nat) (acc : list exec) : outcome (list exec) :=
  match fuel with
  | O => Timeout
  | S fuel' =>
    match pick infos count 0 None with
    | None => Rejected                 (* no task at all: [original_tasks.at(-1)] throws, 577 *)
    | Some (_, k) =>
      let acc' := acc ++ [(k, count k)] in
      let count' := bump count k in
      if unfinished infos count' 0 then execute fuel' infos count' acc' else Ok acc'
    end
  end.

(** Executions of task [k] in a sequence. *)
Definition occurrences (l : list exec) (k : nat) : Z :=
  Z.of_nat (length (filter (fun e : exec => (fst e =? k)%nat) l)).

Definition gcd_ni (infos : list info) : Z := fold_left (fun a x => Z.gcd a (mi_ni x)) infos 0.   (* 313, 321 *)

(** One test of the suffix, 449-472: [factor] is set by the first task that makes it non zero. *)
Fixpoint suffix_ok (infos : list info) (gcd : Z) (l : list exec) (k : nat) (factor : Z) : bool :=
  match infos with
  | [] => true
  | x :: rest =>
    let ratio := mi_ni x / gcd in
    let c := occurrences l k in
    let factor' := if factor =? 0 then c / ratio else factor in
    negb (c =? 0) && (c mod ratio =? 0) && (c =? ratio * factor') && suffix_ok rest gcd l (S k) factor'
  end.

(** The search for the initial phase count, 428-478: from the last position down. *)
Fixpoint find_init (infos : list info) (gcd : Z) (l : list exec) (n : nat) : outcome nat :=
  if suffix_ok infos gcd (skipn n l) 0 0 then Ok n
  else match n with O => Rejected | S n' => find_init infos gcd l n' end.

(** Comparison of sequences, [operator==] 285: only the tasks count. *)
Fixpoint same_tasks (a b : list exec) : bool :=
  match a, b with
  | [], [] => true
  | x :: a', y :: b' => (fst x =? fst y)%nat && same_tasks a' b'
  | _, _ => false
  end.

(** Reduction of the initial phase, 489-506: every start init - j P, the last match wins. *)
Definition reduce_init (l : list exec) (init : nat) : nat :=
  let per := skipn init l in
  let P := length per in
  fold_left (fun best j => let e := (init - j * P)%nat in
               if same_tasks (firstn P (skipn e l)) per then e else best)
            (seq 0 (S (init / P))) init.

(** [produce_sequence], 237-247, with no initial values: the first [n] values. *)
Definition produce_sequence (periodic : list Z) (n : nat) : outcome (list Z) :=
  if (length periodic <=? n)%nat
  then if (length periodic =? 0)%nat && negb (n =? 0)%nat then Undefined
       else Ok (map (fun i => nth (i mod length periodic) periodic 0) (seq 0 n))
  else Rejected.                                                                   (* 234 *)

(** Rates of the merged task on a channel of task [k], 529-575. *)
Definition merged_rates (l : list exec) (k : nat) (rates : list Z) : outcome (list Z) :=
  do prev <- produce_sequence rates (length l);
  Ok (map (fun e : exec => if (fst e =? k)%nat then nth (snd e) prev 0 else 0) l).

(** Durations of the merged task, 582-597. *)
Definition exec_time (infos : list info) (e : exec) : Q :=
  match nth_error infos (fst e) with
  | Some x => if (snd e <? length (mi_durations x))%nat then nth (snd e) (mi_durations x) 0%Q
              else nth (snd e mod mi_phases x) (mi_durations x) 0%Q
  | None => 0%Q
  end.

(** The vertices that remain, and the descriptor [removeVertex] (344-348) leaves to each. *)
Definition is_merged (infos : list info) (i : nat) : bool := existsb (fun x => (mi_pos x =? i)%nat) infos.
Definition kept (g : graph) (infos : list info) : list vertex :=
  map snd (filter (fun iv => negb (is_merged infos (fst iv))) (combine (seq 0 (length (vertices g))) (vertices g))).
Definition new_pos (infos : list info) (i : nat) : nat := length (filter (fun j => negb (is_merged infos j)) (seq 0 i)).

Section Edges.
Variables (g : graph) (infos : list info) (l : list exec) (init : nat).
Let m := length (kept g infos).

(** 619-650: the channels into task [k] from outside. *)
Definition input_edge (k : nat) (c : edge) : outcome edge :=
  do r <- merged_rates l k (e_out c);
  Ok (mkEdge (e_id c) (new_pos infos (e_src c)) m (e_in c) (skipn init r) (e_in_init c) (firstn init r) (e_preload c)).
(** 655-684: the channels out of task [k] to the outside. *)
Definition output_edge (k : nat) (c : edge) : outcome edge :=
  do r <- merged_rates l k (e_in c);
  Ok (mkEdge (e_id c) m (new_pos infos (e_dst c)) (skipn init r) (e_out c) (firstn init r) (e_out_init c) (e_preload c)).

Fixpoint collect_edges (f : edge -> outcome edge) (cs : list edge) : outcome (list edge) :=
  match cs with
  | [] => Ok []
  | c :: rest => do x <- f c; do xs <- collect_edges f rest; Ok (x :: xs)
  end.
(** The rates of every channel of a merged task are computed (529-575), those of internal
    channels too; internal channels are then skipped (634, 669). *)
Definition external (c : edge) : bool := negb (is_merged infos (e_src c) && is_merged infos (e_dst c)).
Fixpoint task_edges (f : nat -> edge -> outcome edge) (side : edge -> nat) (xs : list info) (k : nat) : outcome (list edge) :=
  match xs with
  | [] => Ok []
  | x :: rest =>
    let cs := filter (fun c => (side c =? mi_pos x)%nat) (edges g) in
    do all <- collect_edges (f k) cs;
    do own <- collect_edges (f k) (filter external cs);
    do more <- task_edges f side rest (S k);
    Ok (own ++ more)
  end.
Definition untouched : list edge :=
  map (fun c => mkEdge (e_id c) (new_pos infos (e_src c)) (new_pos infos (e_dst c)) (e_in c) (e_out c) (e_in_init c) (e_out_init c) (e_preload c))
      (filter (fun c => negb (is_merged infos (e_src c)) && negb (is_merged infos (e_dst c))) (edges g)).
End Edges.

(** The whole transformation.  [mid] is the identifier addVertex gives to the new task
    (604, fresh: C10). *)
Definition merge (fuel : nat) (mid : Z) (nodes : list Z) (ts : list task_schedule) (g : graph) (N : nat -> Z) : outcome graph :=
  do infos <- collect_infos g N ts nodes [];
  do l0 <- execute fuel infos (fun _ => O) [];
  do init0 <- find_init infos (gcd_ni infos) l0 (length l0 - 1);
  let init := reduce_init l0 init0 in
  let P := (length l0 - init0)%nat in
  let l := firstn (init + P) l0 in                                                 (* 509 *)
  do ins <- task_edges g infos (input_edge g infos l init) e_dst infos 0;
  do outs <- task_edges g infos (output_edge g infos l init) e_src infos 0;
  let d := map (exec_time infos) l in
  let middle := mkVertex mid (length l - init) init (skipn init d) (firstn init d) 1 in   (* 604-611 *)
  Ok (mkGraph (kept g infos ++ [middle]) (untouched g infos ++ ins ++ outs)).

(** [mergeCSDFFromKperiodicSchedule], 36-41: merging along the schedule of
    CSDF_KPeriodicScheduling (Periodic.v). *)
Definition merge_kperiodic (solve : list constraint -> Q * list constraint) (arrange : list edge -> list edge) (fuelk fuel : nat)
    (mid : Z) (nodes : list Z) (g : graph) (N : nat -> Z) : outcome graph :=
  do sd <- kperiodic_scheduling solve arrange fuelk g N;
  merge fuel mid nodes (sd_tasks sd) g N.
