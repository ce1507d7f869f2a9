(** Model of the last part of the mapping, which writes the placement and the routes into the graph:
    algorithms/mapping/BufferlessNoCMapAndRoute.cpp 112-123, 283-296 and 332-402, and of the whole. *)
From Verif Require Import Base Noc NocPath Mapper TaskOrder CycleFinder.
Open Scope nat_scope.

(** updateNetworkOnChipModel, 112-123: the side of the mesh; "ceil(sqrt(...))" on doubles is exact here. *)
Definition mesh_row (count meshsize : Z) : Z :=
  let r := Z.sqrt_up count in
  let r := if (r <=? 2)%Z then 2%Z else r in
  if (0 <? meshsize)%Z then meshsize else r.

(** generateEdgesMap, 283-296: the channels stored under an index. *)
Definition stored_under (v : nat) (cs : list chan) (k : nat) : list chan := filter (fun c => map_index v (c_src c) (c_dst c) =? k) cs.

(** "mapping" and "routing", 332-333, by task and by channel. *)
Definition written := ((nat -> option nat) * (nat -> option (list nat)))%type.
(** 356-366. *)
Definition on_node (m : nat -> option nat) (t node : nat) : outcome (nat -> option nat) :=
  match m t with
  | Some x => do _ <- cassert (x =? node); Ok m
  | None => Ok (set_at m t (Some node))
  end.
(** 344, and 370 with the comparison of 371. *)
Definition check_link (n : noc) (g : graph) (_ : unit) (e : nat) : outcome unit :=
  do _ <- get_edge n (Z.of_nat (fst (map_index_pair (g_v g) e))) (Z.of_nat (snd (map_index_pair (g_v g) e))); Ok tt.
Definition check_id (n : noc) (g : graph) (_ : unit) (e : nat) : outcome unit :=
  do l <- get_edge n (Z.of_nat (fst (map_index_pair (g_v g) e))) (Z.of_nat (snd (map_index_pair (g_v g) e))); cassert (l_id l =? Z.of_nat e)%Z.
(** 341-376, for one channel with the route [r]: the first and the last link of an empty route are undefined. *)
Definition write_route (n : noc) (g : graph) (r : list nat) (w : written) (c : chan) : outcome written :=
  do _ <- each (check_link n g) tt r;
  match r with
  | [] => Undefined
  | e0 :: _ =>
    do m1 <- on_node (fst w) (c_src c) (fst (map_index_pair (g_v g) e0));
    do m2 <- on_node m1 (c_dst c) (snd (map_index_pair (g_v g) (last r 0)));
    do _ <- each (check_id n g) tt r;
    Ok (m2, set_at (snd w) (c_id c) (Some r))
  end.
(** 337-378: the routes in the order of their indices. *)
Definition write_all (n : noc) (g : graph) (cs : list chan) (routes : list (nat * list nat)) : outcome written :=
  each (fun w k => match get routes k with None => Ok w | Some r => each (write_route n g r) w (stored_under (g_v g) cs k) end)
       (fun _ => None, fun _ => None) (sorted (map fst routes)).
(** 385-402: [old] is what the graph held before; every task must be mapped. *)
Definition finish (n : noc) (tasks : list nat) (cs : list chan) (routes : list (nat * list nat)) (old : nat -> option nat) : outcome written :=
  do w <- write_all n (make_graph n) cs routes;
  let m t := match fst w t with Some x => Some x | None => old t end in
  do _ <- cassert (forallb (fun t => match m t with Some _ => true | None => false end) tasks);
  Ok (m, snd w).

(** BufferlessNoCMapAndRoute, 299-406, from 329 on: the repetition vector is given, and the network. *)
Definition map_and_route (size fuel fuel' : nat) (pick : list nat -> nat) (n : noc) (tasks : list nat) (cs : list chan) (N : nat -> nat) (start : nat) (old : nat -> option nat)
    : outcome written :=
  do to <- prepare size fuel tasks cs N start;
  do st <- map_tasks fuel' pick (map (fun c => (c_src c, c_dst c)) cs) to start (make_graph n);
  finish n tasks cs (p_routes st) old.
