(** Model of the class template GroupList<T,R>, commons/GroupList.h 21-92, with T and R
    integers (edge_id_t and ARRAY_INDEX, the only instantiation). *)
From Verif Require Import Base.
Open Scope Z_scope.

(** The private members, GroupList.h 23-25.  The maps are their key list (in iteration order)
    and their content; a std::set pointer is a handle into [gl_heap], where a deleted set is
    [None].  Allocation returns a handle never used before (memory reuse is not modelled);
    [_bags] holds the live handles and is only used by the destructor. *)
Record group_list := mkGL {
  gl_keys : list Z;              (* keys of _components and _values *)
  gl_comp : Z -> Z;              (* _components *)
  gl_val : Z -> nat;             (* _values *)
  gl_heap : nat -> option (list Z);
  gl_next : nat }.

Definition gl_empty : group_list := mkGL [] (fun _ => 0) (fun _ => O) (fun _ => None) O.

Definition has_key (ks : list Z) (x : Z) : bool := existsb (Z.eqb x) ks.
Definition set_at {A} (f : Z -> A) (x : Z) (a : A) : Z -> A := fun y => if y =? x then a else f y.
Definition set_heap (h : nat -> option (list Z)) (p : nat) (o : option (list Z)) : nat -> option (list Z) :=
  fun q => if (q =? p)%nat then o else h q.

(** Keys of a std::map and elements of a std::set are kept in increasing order. *)
Fixpoint sorted_insert (x : Z) (l : list Z) : list Z :=
  match l with
  | [] => [x]
  | y :: l' => if x <? y then x :: l else if x =? y then l else y :: sorted_insert x l'
  end.

(** GroupList.h 36-41 and 44-49: a new group for an unknown item. *)
Definition ensure_group (x v : Z) (s : group_list) : group_list :=
  if has_key (gl_keys s) x then s
  else mkGL (sorted_insert x (gl_keys s)) (set_at (gl_comp s) x x) (set_at (gl_val s) x (gl_next s))
            (set_heap (gl_heap s) (gl_next s) (Some [v])) (S (gl_next s)).

(** Following a pointer to a deleted set is undefined behaviour. *)
Definition deref (s : group_list) (p : nat) : outcome (list Z) :=
  match gl_heap s p with Some l => Ok l | None => Undefined end.

(** [add], GroupList.h 33-77. *)
Definition gl_add (l r v : Z) (s0 : group_list) : outcome group_list :=
  let s := ensure_group r v (ensure_group l v s0) in
  if negb (gl_val s l =? gl_val s r)%nat then                           (* 52 *)
    let nvec := gl_val s l in                                            (* 56 *)
    do mine <- deref s nvec;
    do other <- deref s (gl_val s r);
    let heap1 := set_heap (gl_heap s) nvec (Some (fold_left (fun a x => sorted_insert x a) other mine)) in  (* 57-59 *)
    let heap2 := set_heap heap1 (gl_val s r) None in                     (* 61-62 *)
    let oldlc := gl_comp s l in                                          (* 65 *)
    let oldrc := gl_comp s r in                                          (* 66 *)
    let moved x := has_key (gl_keys s) x && ((gl_comp s x =? oldlc) || (gl_comp s x =? oldrc)) in  (* 67-68 *)
    let val' := fun x => if moved x then nvec else gl_val s x in         (* 69 *)
    let comp' := fun x => if moved x then l else gl_comp s x in          (* 70 *)
    do _ <- cassert (val' l =? val' r)%nat;                              (* 76 *)
    Ok (mkGL (gl_keys s) comp' val' heap2 (gl_next s))
  else
    do mine <- deref s (gl_val s l);
    Ok (mkGL (gl_keys s) (gl_comp s) (gl_val s) (set_heap (gl_heap s) (gl_val s l) (Some (sorted_insert v mine))) (gl_next s)).  (* 79 *)

(** [getall], GroupList.h 83-92. *)
Fixpoint gl_collect (s : group_list) (ks : list Z) : outcome (list (list Z)) :=
  match ks with
  | [] => Ok []
  | x :: ks' =>
    if x =? gl_comp s x then
      do here <- deref s (gl_val s x);
      do rest <- gl_collect s ks';
      Ok (here :: rest)
    else gl_collect s ks'
  end.
Definition gl_getall (s : group_list) : outcome (list (list Z)) := gl_collect s (gl_keys s).

(** A sequence of calls add(l,r,v) on a new object. *)
Fixpoint gl_run (h : list (Z * Z * Z)) (s : group_list) : outcome group_list :=
  match h with
  | [] => Ok s
  | (l, r, v) :: h' => do s' <- gl_add l r v s; gl_run h' s'
  end.
