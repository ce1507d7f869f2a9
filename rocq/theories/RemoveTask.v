(** Model of algorithms/transformation/remove_reentrancy.cpp 12-35 and of remove_task,
    algorithms/transformation/bug_explorer.cpp 47-72, on the graph object of Builder.v.  The
    parameters "taskname" and "taskid" are given as their text, [None] when absent.  The printing
    of names is left out. *)
From Coq Require Import QArith Ascii String.
From Verif Require Import Base Commons Graph Builder.
Open Scope Z_scope.

(** A range-for over a list, remove_reentrancy.cpp 16, 23, 31, bug_explorer.cpp 52, 62. *)
Fixpoint each {A} (f : A -> M unit) (l : list A) : M unit :=
  match l with
  | [] => ret tt
  | x :: l' => let! _ := f x in each f l'
  end.

(** commons::split<std::string>(text, ','), remove_reentrancy.cpp 15, bug_explorer.cpp 51. *)
Definition task_names (text : chars) : list string := map string_of_list_ascii (split text ","%char).
(** The same, each item read with fromString<ARRAY_INDEX>, remove_reentrancy.cpp 22-24,
    bug_explorer.cpp 61-63.  The clamping of numbers that do not fit is not modelled. *)
Definition task_ids (text : chars) : list Z := map from_string_int (split text ","%char).

(** The task found is changed; std::out_of_range when there is none. *)
Definition with_task (find : state -> option nat) (f : nat -> M unit) : M unit :=
  let! s := get in
  match find s with
  | None => fail
  | Some t => f t
  end.

(** bug_explorer.cpp 52-56 and 62-67. *)
Definition remove_named (name : string) : M unit := with_task (fun s => vertex_by_name s name) remove_vertex.
Definition remove_numbered (id : Z) : M unit := with_task (fun s => vertex_by_id s id) remove_vertex.

(** remove_task, bug_explorer.cpp 47-72. *)
Definition remove_task (taskname taskid : option chars) : M unit :=
  let! _ := match taskname with
            | Some text => each remove_named (task_names text)
            | None => ret tt
            end in
  match taskid with
  | Some text => each remove_numbered (task_ids text)
  | None => ret tt
  end.

(** remove_reentrancy.cpp 16-20 and 23-28. *)
Definition clear_named (name : string) : M unit := with_task (fun s => vertex_by_name s name) (fun t => set_reentrancy t 0).
Definition clear_numbered (id : Z) : M unit := with_task (fun s => vertex_by_id s id) (fun t => set_reentrancy t 0).

(** remove_reentrancy, remove_reentrancy.cpp 12-35. *)
Definition remove_reentrancy (taskname taskid : option chars) : M unit :=
  match taskname, taskid with
  | Some text, _ => each clear_named (task_names text)
  | None, Some text => each clear_numbered (task_ids text)
  | None, None => let! s := get in each (fun t => set_reentrancy t 0) (seq 0 (length (s_vs s)))
  end.
