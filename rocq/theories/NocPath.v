(** Model of the path searches over the network: models/NoCGraph.h and models/NoCGraph.cpp, with
    BufferlessNoCMapAndRoute.cpp 38-46 (createNoCGraph).  Nodes are the routers [0 .. V/2-1] and the
    cores [V/2 .. V-1].  Vertex numbers and costs are natural numbers: the "int" range is not
    modelled (NoC::generate already refuses the sizes that exceed it, see Noc.v). *)
From Verif Require Import Base Noc.
Open Scope nat_scope.

(** The members of NoCGraph read by the searches, NoCGraph.h 17-29. *)
Record graph := mkGraph { g_v : nat; g_adj : nat -> list nat; g_util : list Z }.
(** MESH_SIZE, NoCGraph.cpp 19; HWLIMIT, NoCGraph.cpp 22. *)
Definition mesh_size (g : graph) : nat := g_v g / 2.
Definition hw_limit : Z := 4.
(** getMapIndex, NoCGraph.h 82. *)
Definition map_index (v x y : nat) : nat := v + (x * v + y).
(** getMapIndexPair, NoCGraph.h 83. *)
Definition map_index_pair (v i : nat) : nat * nat := ((i - v) / v, (i - v) mod v).
(** "linkUtil[getMapIndex(x, y)]": reading past the end of the vector is undefined. *)
Definition link_use (g : graph) (x y : nat) : outcome Z :=
  match nth_error (g_util g) (map_index (g_v g) x y) with Some w => Ok w | None => Undefined end.

(** createNoCGraph, BufferlessNoCMapAndRoute.cpp 38-46, with the constructor and addEdge
    (NoCGraph.cpp 14-33): the neighbours are listed in the order of the links. *)
Definition make_graph (n : noc) : graph :=
  mkGraph (2 * Z.to_nat (xsize n * ysize n))
          (fun x => map (fun l => Z.to_nat (l_dst l)) (filter (fun l => (l_src l =? Z.of_nat x)%Z) (links n))) [].
(** clear, NoCGraph.h 75: "linkUtil.resize(V*V, 0)" keeps the entries already there. *)
Definition resized (k : nat) (l : list Z) : list Z := firstn k l ++ repeat 0%Z (k - length l).
Definition clear (g : graph) : graph := mkGraph (g_v g) (g_adj g) (resized (g_v g * g_v g) (g_util g)).

(** The vectors visited, cost_vec, prev and link_util of findPathDijkstra, NoCGraph.cpp 221-224.
    INT_MAX in cost_vec and -1 in prev are [None]; link_util is read only once cost_vec is set. *)
Record search := mkSearch { s_vis : nat -> bool; s_cost : nat -> option nat; s_prev : nat -> option nat; s_util : nat -> Z }.
Definition set_at {A} (f : nat -> A) (k : nat) (x : A) : nat -> A := fun j => if j =? k then x else f j.
Definition start (u : nat) : search := mkSearch (fun _ => false) (set_at (fun _ => None) u (Some 0)) (fun _ => None) (fun _ => 0%Z).

(** NoCGraph.cpp 236-249: the first unvisited vertex of least finite cost. *)
Definition closer (s : search) (best : option (nat * nat)) (j : nat) : option (nat * nat) :=
  if s_vis s j then best
  else match s_cost s j with
       | None => best
       | Some c => match best with
                   | None => Some (j, c)
                   | Some b => if c <? snd b then Some (j, c) else best
                   end
       end.
Definition nearest (v : nat) (s : search) : option nat := option_map fst (fold_left (closer s) (seq 0 v) None).

(** NoCGraph.cpp 261-269; [INT_MAX + 1] would overflow. *)
Definition improve (vid dst : nat) (w : Z) (s : search) : outcome search :=
  match s_cost s vid with
  | None => Undefined
  | Some c =>
    let alt := S c in
    if match s_cost s dst with
       | None => true
       | Some c' => ((alt =? c') && (w <? s_util s dst)%Z) || (alt <? c')
       end
    then Ok (mkSearch (s_vis s) (set_at (s_cost s) dst (Some alt)) (set_at (s_prev s) dst (Some vid)) (set_at (s_util s) dst w))
    else Ok s
  end.
(** Body of the loop over the neighbours in findPathDijkstra, NoCGraph.cpp 256-270. *)
Definition relax_short (g : graph) (vid : nat) (s : search) (dst : nat) : outcome search :=
  if negb (dst <? g_v g) then Undefined
  else if s_vis s dst then Ok s
  else do w <- link_use g vid dst; improve vid dst w s.
(** Body of the loop over the neighbours in findLowContentionPath, NoCGraph.cpp 325-341: the use of
    the link is read first, and a link over the limit is skipped. *)
Definition relax_low (g : graph) (vid : nat) (s : search) (dst : nat) : outcome search :=
  do w <- link_use g vid dst;
  if (hw_limit <? w)%Z then Ok s
  else if negb (dst <? g_v g) then Undefined
  else if s_vis s dst then Ok s
  else improve vid dst w s.
Fixpoint relax_all (f : search -> nat -> outcome search) (s : search) (ds : list nat) : outcome search :=
  match ds with [] => Ok s | x :: ds' => do s1 <- f s x; relax_all f s1 ds' end.
(** One turn of the loop, NoCGraph.cpp 234-271 and 303-342. *)
Definition turn (relax : nat -> search -> nat -> outcome search) (g : graph) (s : search) : outcome search :=
  match nearest (g_v g) s with
  | None => Ok s
  | Some vid => relax_all (relax vid) (mkSearch (set_at (s_vis s) vid true) (s_cost s) (s_prev s) (s_util s)) (g_adj g vid)
  end.
Fixpoint turns (k : nat) (relax : nat -> search -> nat -> outcome search) (g : graph) (s : search) : outcome search :=
  match k with O => Ok s | S k' => do s1 <- turn relax g s; turns k' relax g s1 end.

(** NoCGraph.cpp 273-277: the path is read backwards from the destination, [acc] is the part already
    read; [lost] is what happens when -1 is met. *)
Fixpoint backwards (fuel : nat) (lost : outcome (list nat)) (prev : nat -> option nat) (u : nat) (i : option nat) (acc : list nat)
    : outcome (list nat) :=
  match i with
  | None => lost
  | Some x => if x =? u then Ok (u :: acc)
              else match fuel with O => Timeout | S f => backwards f lost prev u (prev x) (x :: acc) end
  end.
Definition search_path (relax : nat -> search -> nat -> outcome search) (lost : outcome (list nat)) (g : graph) (u d : nat) : outcome (list nat) :=
  if u =? d then Ok []
  else if negb ((u <? g_v g) && (d <? g_v g)) then Undefined
  else do s <- turns (g_v g) relax g (start u);
       backwards (g_v g) lost (s_prev s) u (s_prev s d) [d].
(** findPathDijkstra, NoCGraph.cpp 215-280: "prev[-1]" is read when there is no path. *)
Definition find_path_dijkstra (g : graph) (u d : nat) : outcome (list nat) :=
  search_path (relax_short g) Undefined g (u + mesh_size g) (d + mesh_size g).
(** findLowContentionPath, NoCGraph.cpp 284-360: the empty path when there is no path. *)
Definition find_low_contention_path (g : graph) (u d : nat) : outcome (list nat) :=
  search_path (relax_low g) (Ok []) g (u + mesh_size g) (d + mesh_size g).

(** printAllPathsUtil, NoCGraph.cpp 101-138, from [u] with [k] links left
    ("const_length - (path_index - 1)") and [seen] the vertices of the path so far, last first
    (exactly those marked visited): the paths appended to "paths", in order. *)
Fixpoint all_paths (k : nat) (adj : nat -> list nat) (d : nat) (seen : list nat) (u : nat) : list (list nat) :=
  if u =? d then [rev (u :: seen)]
  else match k with
       | O => []
       | S k' => flat_map (fun i => if existsb (Nat.eqb i) (u :: seen) then [] else all_paths k' adj d (u :: seen) i) (adj u)
       end.
(** getPathLength, NoCGraph.h 84-97. *)
Definition absdiff (a b : nat) : nat := (a - b) + (b - a).
Definition path_length (g : graph) (s d : nat) : outcome nat :=
  if s =? d then Ok 0
  else let side := Nat.sqrt (g_v g / 2) in
       if side =? 0 then Undefined
       else Ok (absdiff (s mod side) (d mod side) + absdiff (s / side) (d / side) + 2).
(** What generateAllShortestPaths stores for cores [s] and [d], NoCGraph.cpp 40-70. *)
Definition shortest_paths (g : graph) (s d : nat) : outcome (list (list nat)) :=
  do k <- path_length g s d;
  Ok (if s =? d then [] else all_paths k (g_adj g) (d + mesh_size g) [] (s + mesh_size g)).

(** findPathCost, NoCGraph.cpp 142-153. *)
Fixpoint path_cost_from (g : graph) (x : nat) (l : list nat) (m : Z) : outcome Z :=
  match l with [] => Ok m | y :: l' => do w <- link_use g x y; path_cost_from g y l' (Z.max m w) end.
Definition find_path_cost (g : graph) (l : list nat) : outcome Z :=
  match l with [] => Ok 0%Z | x :: l' => path_cost_from g x l' 0%Z end.
(** NoCGraph.cpp 180-192. *)
Definition keep_best (g : graph) (best new : list nat) : outcome (list nat) :=
  do nu <- find_path_cost g new;
  do cu <- find_path_cost g best;
  Ok (if length best =? 0 then new else if (nu <? cu)%Z then new else best).
(** "for (auto i : adj[u]) if (!visited[i]) ..." with the best path so far threaded through. *)
Fixpoint try_each (f : list nat -> nat -> outcome (list nat)) (best : list nat) (is : list nat) : outcome (list nat) :=
  match is with [] => Ok best | i :: is' => do b <- f best i; try_each f b is' end.
(** findLeastCostPath, NoCGraph.cpp 160-211. *)
Fixpoint least_cost (k : nat) (g : graph) (d : nat) (seen : list nat) (best : list nat) (u : nat) : outcome (list nat) :=
  if u =? d then keep_best g best (rev (u :: seen))
  else match k with
       | O => Ok best
       | S k' => try_each (fun b i => if existsb (Nat.eqb i) (u :: seen) then Ok b else least_cost k' g d (u :: seen) b i) best (g_adj g u)
       end.
(** getPath, NoCGraph.h 48-69. *)
Definition get_path (g : graph) (s d : nat) : outcome (list nat) :=
  do k <- path_length g s d;
  if s =? d then Ok [] else least_cost k g (d + mesh_size g) [] [] (s + mesh_size g).

(** setmap, GraphMapper.h 157-164, for a path of at least two vertices ("paths.size()-2" wraps round
    on a shorter one, and the path is then read past its end). *)
Fixpoint count_links (v : nat) (l : list nat) (use : list Z) : outcome (list Z) :=
  match l with
  | x :: ((y :: _ :: _) as l') =>
    match nth_error use (map_index v x y) with
    | Some w => count_links v l' (firstn (map_index v x y) use ++ (w + 1)%Z :: skipn (S (map_index v x y)) use)
    | None => Undefined
    end
  | _ => Ok use
  end.
Definition setmap (v : nat) (path : list nat) (use : list Z) : outcome (list Z) :=
  if length path <? 2 then Undefined else count_links v (tl path) use.
(** dijkstra_findPaths, GraphMapper.h 166-184, for two cores: the contention met, the route stored and
    the updated counts ("paths.size()-1" wraps round on the empty path). *)
Fixpoint link_ids (v : nat) (l : list nat) : list nat :=
  match l with x :: ((y :: _) as l') => map_index v x y :: link_ids v l' | _ => [] end.
Definition dijkstra_find_paths (g : graph) (src core : nat) (use : list Z) : outcome (Z * list nat * list Z) :=
  do path <- find_path_dijkstra g src core;
  do c <- find_path_cost g path;
  if length path =? 0 then Undefined
  else do use' <- setmap (g_v g) path use; Ok (c, link_ids (g_v g) path, use').
