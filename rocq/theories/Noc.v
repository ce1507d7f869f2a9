(** Model of the mesh network: models/NoC.h, models/NoC.cpp, and of the mapping and routing
    algorithms of algorithms/mapping.  Coordinates are doubles X, Y (cores) or X+0.5, Y+0.5
    (routers) in the code: they are represented exactly by twice their value. *)
From Verif Require Import Base.
Open Scope Z_scope.

(** 32-bit int arithmetic: overflow is undefined behaviour. *)
Definition i32_max : Z := 2147483647.
Definition i32 (z : Z) : outcome Z := if (-2147483648 <=? z) && (z <=? i32_max) then Ok z else Undefined.
Definition iadd (a b : Z) : outcome Z := i32 (a + b).
Definition imul (a b : Z) : outcome Z := i32 (a * b).

(** struct NetworkNode, NoC.h 33-39; struct NetworkEdge, NoC.h 52-59. *)
Record node := mkNode { n_id : Z; n_core : bool; n_x : Z; n_y : Z }.
Record link := mkLink { l_id : Z; l_src : Z; l_dst : Z }.
(** class NoC, NoC.h 66-76: the maps hold the same entries as the vectors [_vnodes], [_vedges]
    (NoC.h 162-171), the first one inserted under a key. *)
Record noc := mkNoC { xsize : Z; ysize : Z; nodes : list node; links : list link }.
(** NoC::size, NoC.h 175. *)
Definition noc_size (n : noc) : outcome Z := imul (xsize n) (ysize n).

(** "NodeCount + a*NodeCount + b" with an edge from [a] to [b], NoC.cpp 67-68, 75-76, 84-85. *)
Definition mk_link (count a b : Z) : outcome link :=
  do p <- imul a count; do s <- iadd count p; do i <- iadd s b; Ok (mkLink i a b).

(** Body of the two loops of NoC::generate, NoC.cpp 57-90. *)
Definition cell (xs ys count X Y : Z) : outcome (list node * list link) :=
  do p <- imul Y xs; do source <- iadd X p;
  do size <- imul xs ys; do core <- iadd source size;
  do l1 <- mk_link count source core;
  do l2 <- mk_link count core source;
  do rights <- (if X <? xs - 1 then
                 do q <- imul Y xs; do dest <- iadd (X + 1) q;
                 do a <- mk_link count source dest; do b <- mk_link count dest source; Ok [a; b]
               else Ok []);
  do bottoms <- (if Y <? ys - 1 then
                  do q <- imul (Y + 1) xs; do dest <- iadd X q;
                  do a <- mk_link count source dest; do b <- mk_link count dest source; Ok [a; b]
                else Ok []);
  Ok ([mkNode source false (2 * X + 1) (2 * Y + 1); mkNode core true (2 * X) (2 * Y)], l1 :: l2 :: rights ++ bottoms).
Fixpoint cells (f : Z * Z -> outcome (list node * list link)) (ps : list (Z * Z)) : outcome (list node * list link) :=
  match ps with
  | [] => Ok ([], [])
  | p :: ps' => do a <- f p; do r <- cells f ps'; Ok (fst a ++ fst r, snd a ++ snd r)
  end.
(** "for (int X = 0; X < XSIZE; X++) for (int Y = 0; Y < YSIZE; Y++)". *)
Definition upto (n : Z) : list Z := map Z.of_nat (seq 0 (Z.to_nat n)).
Definition positions (xs ys : Z) : list (Z * Z) := flat_map (fun X => map (fun Y => (X, Y)) (upto ys)) (upto xs).
(** NoC::generate, NoC.cpp 36-95. *)
Definition generate (xs ys : Z) : outcome noc :=
  do p <- imul xs ys; do count <- imul p 2;
  do r <- cells (fun q => cell xs ys count (fst q) (snd q)) (positions xs ys);
  Ok (mkNoC xs ys (fst r) (snd r)).

(** NoC::check_ids, NoC.cpp 13-34: rejected when two elements share an identifier. *)
Fixpoint distinct_ids (ids seen : list Z) : bool :=
  match ids with
  | [] => true
  | i :: ids' => if existsb (Z.eqb i) seen then false else distinct_ids ids' (i :: seen)
  end.
Definition check_ids (n : noc) : bool := distinct_ids (map l_id (links n) ++ map n_id (nodes n)) [].
(** The constructor, NoC.h 153-156. *)
Definition make_noc (xs ys : Z) : outcome noc :=
  do n <- generate xs ys; do _ <- cassert (check_ids n); Ok n.

(** getNode, NoC.h 86-89; getEdge, NoC.h 91-96 ([at] throws on a missing key). *)
Definition get_node (n : noc) (i : Z) : outcome node :=
  match find (fun x => n_id x =? i) (nodes n) with Some x => Ok x | None => Rejected end.
Definition get_edge_by_id (n : noc) (i : Z) : outcome link :=
  match find (fun e => l_id e =? i) (links n) with Some e => Ok e | None => Rejected end.
Definition get_edge (n : noc) (s d : Z) : outcome link :=
  match find (fun e => (l_src e =? s) && (l_dst e =? d)) (links n) with Some e => Ok e | None => Rejected end.

(** The loops of NoC.h 99-146 over [_vedges]; running off the end is undefined behaviour. *)
Fixpoint first_link (test : link -> outcome bool) (es : list link) : outcome link :=
  match es with
  | [] => Undefined
  | e :: es' => do b <- test e; if b then Ok e else first_link test es'
  end.
Definition towards (n : noc) (s : Z) (rel : node -> node -> bool) (e : link) : outcome bool :=
  if l_src e =? s then do a <- get_node n (l_src e); do b <- get_node n (l_dst e); Ok (rel a b) else Ok false.
Definition left_neighbour (n : noc) (s : Z) : outcome link :=
  first_link (towards n s (fun a b => (n_y a =? n_y b) && (n_x a >? n_x b))) (links n).
Definition right_neighbour (n : noc) (s : Z) : outcome link :=
  first_link (towards n s (fun a b => (n_y a =? n_y b) && (n_x a <? n_x b))) (links n).
Definition top_neighbour (n : noc) (s : Z) : outcome link :=
  first_link (towards n s (fun a b => (n_x a =? n_x b) && (n_y a <? n_y b))) (links n).
Definition bottom_neighbour (n : noc) (s : Z) : outcome link :=
  first_link (towards n s (fun a b => (n_x a =? n_x b) && (n_y a >? n_y b))) (links n).
Definition src_neighbour (n : noc) (s : Z) : outcome link := first_link (fun e => Ok (l_src e =? s)) (links n).
Definition dst_neighbour (n : noc) (d : Z) : outcome link := first_link (fun e => Ok (l_dst e =? d)) (links n).

(** One "while (coordinate != destination)" loop of xyRouting.cpp 31-59. *)
Fixpoint travel (fuel : nat) (n : noc) (step : Z -> outcome link) (coord : node -> Z) (dest : Z) (cur : node) (path : list Z)
    : outcome (node * list Z) :=
  if coord cur =? dest then Ok (cur, path)
  else match fuel with
       | O => Timeout
       | S fuel' =>
         do nb <- step (n_id cur);
         do nxt <- get_node n (l_dst nb);
         travel fuel' n step coord dest nxt (path ++ [l_id nb])
       end.
(** xyRouting.cpp 19-75 for one channel between tasks mapped on [src] and [dst]. *)
Definition xy_route (fuel : nat) (n : noc) (src dst : Z) : outcome (list Z) :=
  do start <- src_neighbour n src;
  do cur <- get_node n (l_dst start);
  do last <- dst_neighbour n dst;
  do dest <- get_node n (l_src last);
  do r1 <- (if n_x cur <? n_x dest then travel fuel n (right_neighbour n) n_x (n_x dest) cur [l_id start]
            else travel fuel n (left_neighbour n) n_x (n_x dest) cur [l_id start]);
  do r2 <- (if n_y (fst r1) <? n_y dest then travel fuel n (top_neighbour n) n_y (n_y dest) (fst r1) (snd r1)
            else travel fuel n (bottom_neighbour n) n_y (n_y dest) (fst r1) (snd r1));
  Ok (snd r2 ++ [l_id last]).

(** randomRouting.cpp 31-63: one move when the condition holds. *)
Definition move (n : noc) (cond : bool) (step : Z -> outcome link) (st : node * list Z) : outcome (node * list Z) :=
  if cond then do nb <- step (n_id (fst st)); do nxt <- get_node n (l_dst nb); Ok (nxt, snd st ++ [l_id nb]) else Ok st.
(** The while loop: [choices] are the successive values of "std::rand() % 2". *)
Fixpoint wander (n : noc) (choices : list bool) (dest : node) (st : node * list Z) : outcome (node * list Z) :=
  if (n_x (fst st) =? n_x dest) && (n_y (fst st) =? n_y dest) then Ok st
  else match choices with
       | [] => Timeout
       | true :: cs =>
         do s1 <- move n (n_x (fst st) <? n_x dest) (right_neighbour n) st;
         do s2 <- move n (n_x (fst s1) >? n_x dest) (left_neighbour n) s1;
         wander n cs dest s2
       | false :: cs =>
         do s1 <- move n (n_y (fst st) <? n_y dest) (top_neighbour n) st;
         do s2 <- move n (n_y (fst s1) >? n_y dest) (bottom_neighbour n) s1;
         wander n cs dest s2
       end.
(** randomRouting.cpp 19-68 for one channel. *)
Definition random_route (n : noc) (choices : list bool) (src dst : Z) : outcome (list Z) :=
  do start <- src_neighbour n src;
  do cur <- get_node n (l_dst start);
  do last <- dst_neighbour n dst;
  do dest <- get_node n (l_src last);
  do r <- wander n choices dest (cur, [l_id start]);
  Ok (snd r ++ [l_id last]).

(** moduloMapping.cpp 20-21 for a task without a parameter: "%" by zero is undefined. *)
Definition modulo_mapping (n : noc) (id : Z) : outcome Z :=
  do s <- noc_size n; if s =? 0 then Undefined else Ok (Z.rem (id - 1) s).
(** randomMapping.cpp 20-21; [r] is the value of std::rand(). *)
Definition random_mapping (n : noc) (r : Z) : outcome Z :=
  do s <- noc_size n; if s =? 0 then Undefined else iadd s (Z.rem r s).

(** createNoC.cpp 14-20: side of the mesh, ceil(sqrt(count)) with a minimum of 2.  sqrt and ceil
    are taken exactly (rounding of double is not modelled). *)
Definition mesh_side (count : Z) : Z :=
  let s := Z.sqrt count in
  let c := if s * s =? count then s else s + 1 in
  if c <=? 2 then 2 else c.

(** TDMAScheduler.cpp 12-18 and 20-26. *)
Definition event_cycle (cur mine total : Z) : Z := if mine >=? cur then mine - cur else (total - cur) + mine.
Definition get_distance (src des rows cols : Z) : outcome Z :=
  if (rows =? 0) || (cols =? 0) then Undefined
  else
    let s_r := Z.quot src rows in let s_c := Z.rem src cols in
    let d_r := Z.quot des rows in let d_c := Z.rem des cols in
    Ok (Z.abs (s_r - d_r) + Z.abs (s_c - d_c) + 1).
