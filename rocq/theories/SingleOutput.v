(** Model of algorithms/transformation/singleOutput.cpp 11-78, on the graph object of Builder.v. *)
From Coq Require Import QArith Ascii String.
From Verif Require Import Base Graph Builder.
Open Scope Z_scope.

(** ForOutputEdges: boost keeps the outputs of a vertex in a vector, in the order they were added. *)
Definition outputs (t : nat) (s : state) : list bedge := filter (fun e => (be_src e =? t)%nat) (s_es s).

(** commons::toString of a counter. *)
Fixpoint digits (fuel n : nat) (acc : string) : string :=
  let c := String (ascii_of_nat (48 + n mod 10)) acc in
  match fuel with
  | O => c
  | S f => if (n <? 10)%nat then c else digits f (n / 10)%nat c
  end.
Definition dup_name (name : string) (cnt : nat) : string := (name ++ "_Dup" ++ digits cnt cnt "")%string.

(** 40-42, 57-59, 60-62: a channel with rates 1, made with addEdge, setEdgeInPhases and
    setEdgeOutPhases. *)
Definition link (from to : nat) : M nat :=
  let! h := add_edge_auto from to in
  let! _ := set_edge_in h [1] in
  let! _ := set_edge_out h [1] in
  ret h.

(** 32-36: the duplicating task.  Its type is left out. *)
Definition add_dup (name : string) (cnt : nat) : M nat :=
  let! d := add_vertex_name (dup_name name cnt) in
  let! _ := set_phases d 1 in
  let! _ := set_durations d [1%Q] in
  ret d.

(** 26-68, the body of the loop.  c1 and c2 are null descriptors when there are not two outputs. *)
Definition dup_step (t cnt : nat) : M unit :=
  let! b := get_v t in
  let! d := add_dup (bv_name b) cnt in
  let! _ := link t d in
  let! s := get in
  match outputs t s with
  | c1 :: c2 :: _ =>
    let! _ := link d (be_dst c1) in
    let! _ := link d (be_dst c2) in
    let! _ := remove_edge (be_handle c1) in
    remove_edge (be_handle c2)
  | _ => undef
  end.

(** The loop 25-72. *)
Fixpoint dup_loop (fuel t cnt : nat) : M unit :=
  let! s := get in
  if (1 <? length (outputs t s))%nat
  then match fuel with
       | O => undef
       | S f => let! _ := dup_step t cnt in dup_loop f t (S cnt)
       end
  else ret tt.

(** singleOutput: without a name nothing is done; an unknown name throws. *)
Definition single_output (name : option string) : M unit :=
  match name with
  | None => ret tt
  | Some n =>
    let! s := get in
    match vertex_by_name s n with
    | None => fail
    | Some t => dup_loop (length (s_es s)) t 0
    end
  end.
