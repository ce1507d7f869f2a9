(** Model of the search for tasks that use the same link of a router,
    algorithms/scheduling/BufferlessNoCScheduling.cpp 109-186. *)
From Coq Require Import QArith.
From Verif Require Import Base Graph GroupList.
Open Scope Z_scope.

(** What is read of the network (models/NoC.h): hasEdge, hasNode, the type of a node and the ends
    of a link. *)
Record network := mkNet { is_link : Z -> bool; is_node : Z -> bool; is_router : Z -> bool; link_src : Z -> Z; link_dst : Z -> Z }.
(** One use of a router: its input link, its output link and the task, 139. *)
Definition use := (Z * Z * Z)%type.

Definition inputs (g : graph) (v : nat) : list edge := filter (fun c => (e_dst c =? v)%nat) (edges g).
Definition outputs (g : graph) (v : nat) : list edge := filter (fun c => (e_src c =? v)%nat) (edges g).

(** The body of the loop of build_router_xbar_usage, 114-146: the router and the use the task [v]
    stands for, if any.  [mapping] is getMapping. *)
Definition task_use (net : network) (g : graph) (mapping : nat -> Z) (v : nat) (id : Z) : outcome (option (Z * use)) :=
  let m := mapping v in
  do _ <- cassert (0 <=? m);                                             (* 116 *)
  do _ <- cassert (xorb (is_link net m) (is_node net m));                (* 117 *)
  if is_link net m then Ok None
  else if is_node net m then
    if is_router net m then
      match inputs g v, outputs g v with
      | [i], [o] =>                                                      (* 127-128 *)
        let a := mapping (e_src i) in let b := mapping (e_dst o) in      (* 130-134 *)
        do _ <- cassert (is_link net a);                                 (* 136 *)
        do _ <- cassert (is_link net b);                                 (* 137 *)
        Ok (Some (m, (a, b, id)))
      | _, _ => Rejected
      end
    else Ok None
  else Ok None.

(** router_xbar_usage[r].push_back(u): a std::map, in the order of its keys. *)
Fixpoint add_use (us : list (Z * list use)) (r : Z) (u : use) : list (Z * list use) :=
  match us with
  | [] => [(r, [u])]
  | p :: us' => if r <? fst p then (r, [u]) :: us else if r =? fst p then (fst p, snd p ++ [u]) :: us' else p :: add_use us' r u
  end.
(** build_router_xbar_usage, 109-150; the tasks in their order, with their positions. *)
Fixpoint build_usage (net : network) (g : graph) (mapping : nat -> Z) (vs : list (nat * Z)) (us : list (Z * list use)) : outcome (list (Z * list use)) :=
  match vs with
  | [] => Ok us
  | (v, id) :: vs' =>
    do o <- task_use net g mapping v id;
    build_usage net g mapping vs' (match o with Some p => add_use us (fst p) (snd p) | None => us end)
  end.

(** 163-172: the uses of one router are added to a GroupList. *)
Fixpoint gather (net : network) (r : Z) (uses : list use) (gl : group_list) : outcome group_list :=
  match uses with
  | [] => Ok gl
  | (a, b, id) :: uses' =>
    do _ <- cassert (link_dst net a =? r);
    do _ <- cassert (link_src net b =? r);
    do gl' <- gl_add a b id gl;
    gather net r uses' gl'
  end.
(** get_overlaps, 153-186. *)
Fixpoint overlaps_of (net : network) (us : list (Z * list use)) : outcome (list (list Z)) :=
  match us with
  | [] => Ok []
  | (r, uses) :: us' =>
    do gl <- gather net r uses gl_empty;
    do bags <- gl_getall gl;
    do rest <- overlaps_of net us';
    Ok (bags ++ rest)
  end.
Definition get_overlaps (net : network) (g : graph) (mapping : nat -> Z) : outcome (list (list Z)) :=
  do us <- build_usage net g mapping (combine (seq 0 (length (vertices g))) (map v_id (vertices g))) [];
  overlaps_of net us.
