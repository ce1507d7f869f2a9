(** Model of the mutable graph object, models/Dataflow.h.

    A failing assertion (VERBOSE_ASSERT, VERBOSE_FAILURE, FAILED; commons/verbose.h 86-144)
    ends the process in a release build and throws in the others, where the caller may go
    on with whatever had been written before the failure.  [Raised s] is that state. *)
From Coq Require Import QArith Ascii String.
From Verif Require Import Base Graph.
Open Scope Z_scope.

(** vertexProperties, Dataflow.h 98-108.  boost value-initialises properties.  Left out:
    Zi (see Normalization.v), mapping and type. *)
Record bvertex := mkBVertex {
  bv_id : Z;                    (* vertex_index2 *)
  bv_name : string;
  bv_phases : nat;              (* vertex_phasecount; simplification: never negative *)
  bv_init_phases : nat;
  bv_durations : list Q;
  bv_init_durations : list Q;
  bv_reentrancy : Z;
  bv_Ni : Z }.
Definition new_vertex : bvertex := mkBVertex 0 "" 0 0 [] [] 0 0.

(** edgeProperties, Dataflow.h 110-124, with the ends of the channel.  Left out: alpha, port
    names, type and route.  [be_handle] stands for the address of the property block, by
    which boost compares edge descriptors (Dataflow.h 176, 179). *)
Record bedge := mkBEdge {
  be_handle : nat;
  be_src : nat;
  be_dst : nat;
  be_id : Z;
  be_name : string;
  be_in : list Z;
  be_out : list Z;
  be_in_init : list Z;
  be_out_init : list Z;
  be_total_in : Z;
  be_total_out : Z;
  be_preload : Z;
  be_tokensize : Z }.
Definition new_edge (h src dst : nat) : bedge := mkBEdge h src dst 0 "" [] [] [] [] 0 0 0 0.

(** Dataflow, Dataflow.h 263-278: flags, the boost graph (vertex descriptors are positions,
    ForEachEdge follows the list of edges), automatic numbers, channelGCDA (917). *)
Record state := mkState {
  s_readonly : bool;
  s_norm : bool;
  s_rep : bool;
  s_vs : list bvertex;
  s_es : list bedge;
  s_auto_v : Z;
  s_auto_e : Z;
  s_gcd : list (Z * Z);
  s_next : nat }.

(** Constructor, Dataflow.h 300-305. *)
Definition empty_state : state := mkState false false false [] [] 1 1 [] 0.

Inductive result (A : Type) : Type :=
| Done (a : A) (s : state)
| Raised (s : state)
| Undef.
Arguments Done {A} a s.
Arguments Raised {A} s.
Arguments Undef {A}.

Definition M (A : Type) := state -> result A.
Definition ret {A} (a : A) : M A := fun s => Done a s.
Definition fail {A} : M A := fun s => Raised s.
Definition undef {A} : M A := fun _ => Undef.
Definition mbind {A B} (x : M A) (f : A -> M B) : M B :=
  fun s => match x s with Done a s' => f a s' | Raised s' => Raised s' | Undef => Undef end.
Notation "'let!' x := e 'in' f" := (mbind e (fun x => f)) (at level 200, x pattern, e at level 100, f at level 200).
Definition get : M state := fun s => Done s s.
Definition put (s : state) : M unit := fun _ => Done tt s.
Definition modify (f : state -> state) : M unit := fun s => Done tt (f s).
Definition check (b : bool) : M unit := if b then ret tt else fail.

Definition with_flags (ro nm rp : bool) (s : state) : state :=
  mkState ro nm rp (s_vs s) (s_es s) (s_auto_v s) (s_auto_e s) (s_gcd s) (s_next s).
Definition with_vs (vs : list bvertex) (s : state) : state :=
  mkState (s_readonly s) (s_norm s) (s_rep s) vs (s_es s) (s_auto_v s) (s_auto_e s) (s_gcd s) (s_next s).
Definition with_es (es : list bedge) (s : state) : state :=
  mkState (s_readonly s) (s_norm s) (s_rep s) (s_vs s) es (s_auto_v s) (s_auto_e s) (s_gcd s) (s_next s).
Definition with_auto_v (a : Z) (s : state) : state :=
  mkState (s_readonly s) (s_norm s) (s_rep s) (s_vs s) (s_es s) a (s_auto_e s) (s_gcd s) (s_next s).
Definition with_auto_e (a : Z) (s : state) : state :=
  mkState (s_readonly s) (s_norm s) (s_rep s) (s_vs s) (s_es s) (s_auto_v s) a (s_gcd s) (s_next s).
Definition with_gcd (m : list (Z * Z)) (s : state) : state :=
  mkState (s_readonly s) (s_norm s) (s_rep s) (s_vs s) (s_es s) (s_auto_v s) (s_auto_e s) m (s_next s).
Definition with_next (n : nat) (s : state) : state :=
  mkState (s_readonly s) (s_norm s) (s_rep s) (s_vs s) (s_es s) (s_auto_v s) (s_auto_e s) (s_gcd s) n.

(** set_read_only, set_normalize, set_repetition_vector, reset_computation (310-314). *)
Definition set_read_only : M unit := modify (fun s => with_flags true (s_norm s) (s_rep s) s).
Definition set_normalize : M unit := modify (fun s => with_flags (s_readonly s) true (s_rep s) s).
Definition set_repetition_vector : M unit := modify (fun s => with_flags (s_readonly s) (s_norm s) true s).
Definition reset_computation : M unit := modify (with_flags false false false).

(** ASSERT_WRITABLE (253) followed by reset_computation, as most setters begin. *)
Definition writable : M unit := fun s => if s_readonly s then Raised s else Done tt s.
Definition begin_change : M unit := let! _ := writable in reset_computation.

(** Access to a vertex or edge.  A descriptor that is not of this graph (stale, or from
    another graph) is undefined behaviour.  Simplification: the ends of an edge are those
    of the graph, while a descriptor obtained before removeVertex carries the old ones. *)
Definition get_v (v : nat) : M bvertex := fun s =>
  match nth_error (s_vs s) v with Some b => Done b s | None => Undef end.
Definition find_e (h : nat) (es : list bedge) : option bedge := find (fun e => (be_handle e =? h)%nat) es.
Definition get_e (h : nat) : M bedge := fun s =>
  match find_e h (s_es s) with Some e => Done e s | None => Undef end.
Fixpoint update_nth {A} (n : nat) (f : A -> A) (l : list A) : list A :=
  match l, n with
  | [], _ => []
  | x :: l', O => f x :: l'
  | x :: l', S n' => x :: update_nth n' f l'
  end.
Definition put_v (v : nat) (f : bvertex -> bvertex) : M unit :=
  let! _ := get_v v in modify (fun s => with_vs (update_nth v f (s_vs s)) s).
Definition put_e (h : nat) (f : bedge -> bedge) : M unit :=
  let! _ := get_e h in
  modify (fun s => with_es (map (fun e => if (be_handle e =? h)%nat then f e else e) (s_es s)) s).

(** First position satisfying a test: the loops of the lookup functions. *)
Fixpoint find_index {A} (f : A -> bool) (l : list A) : option nat :=
  match l with
  | [] => None
  | x :: l' => if f x then Some O else option_map S (find_index f l')
  end.

(** getVertexById, getEdgeById, getVertexByName, getEdgeByName (449-457, 546-564); [None] is
    std::out_of_range.  An edge is returned as its handle. *)
Definition vertex_by_id (s : state) (id : Z) : option nat := find_index (fun b => bv_id b =? id) (s_vs s).
Definition edge_by_id (s : state) (id : Z) : option nat :=
  option_map be_handle (find (fun e => be_id e =? id) (s_es s)).
Definition vertex_by_name (s : state) (n : string) : option nat := find_index (fun b => String.eqb (bv_name b) n) (s_vs s).
Definition edge_by_name (s : state) (n : string) : option nat :=
  option_map be_handle (find (fun e => String.eqb (be_name e) n) (s_es s)).

(** Field setters. *)
Definition bv_set_id (id : Z) (b : bvertex) := mkBVertex id (bv_name b) (bv_phases b) (bv_init_phases b) (bv_durations b) (bv_init_durations b) (bv_reentrancy b) (bv_Ni b).
Definition bv_set_name (n : string) (b : bvertex) := mkBVertex (bv_id b) n (bv_phases b) (bv_init_phases b) (bv_durations b) (bv_init_durations b) (bv_reentrancy b) (bv_Ni b).
Definition bv_set_phases (n : nat) (b : bvertex) := mkBVertex (bv_id b) (bv_name b) n (bv_init_phases b) (bv_durations b) (bv_init_durations b) (bv_reentrancy b) (bv_Ni b).
Definition bv_set_init_phases (n : nat) (b : bvertex) := mkBVertex (bv_id b) (bv_name b) (bv_phases b) n (bv_durations b) (bv_init_durations b) (bv_reentrancy b) (bv_Ni b).
Definition bv_set_durations (l : list Q) (b : bvertex) := mkBVertex (bv_id b) (bv_name b) (bv_phases b) (bv_init_phases b) l (bv_init_durations b) (bv_reentrancy b) (bv_Ni b).
Definition bv_set_init_durations (l : list Q) (b : bvertex) := mkBVertex (bv_id b) (bv_name b) (bv_phases b) (bv_init_phases b) (bv_durations b) l (bv_reentrancy b) (bv_Ni b).
Definition bv_set_reentrancy (r : Z) (b : bvertex) := mkBVertex (bv_id b) (bv_name b) (bv_phases b) (bv_init_phases b) (bv_durations b) (bv_init_durations b) r (bv_Ni b).
Definition bv_set_Ni (n : Z) (b : bvertex) := mkBVertex (bv_id b) (bv_name b) (bv_phases b) (bv_init_phases b) (bv_durations b) (bv_init_durations b) (bv_reentrancy b) n.
Definition be_set_ends (s d : nat) (e : bedge) := mkBEdge (be_handle e) s d (be_id e) (be_name e) (be_in e) (be_out e) (be_in_init e) (be_out_init e) (be_total_in e) (be_total_out e) (be_preload e) (be_tokensize e).
Definition be_set_id (id : Z) (e : bedge) := mkBEdge (be_handle e) (be_src e) (be_dst e) id (be_name e) (be_in e) (be_out e) (be_in_init e) (be_out_init e) (be_total_in e) (be_total_out e) (be_preload e) (be_tokensize e).
Definition be_set_name (n : string) (e : bedge) := mkBEdge (be_handle e) (be_src e) (be_dst e) (be_id e) n (be_in e) (be_out e) (be_in_init e) (be_out_init e) (be_total_in e) (be_total_out e) (be_preload e) (be_tokensize e).
Definition be_set_in (l : list Z) (t : Z) (e : bedge) := mkBEdge (be_handle e) (be_src e) (be_dst e) (be_id e) (be_name e) l (be_out e) (be_in_init e) (be_out_init e) t (be_total_out e) (be_preload e) (be_tokensize e).
Definition be_set_out (l : list Z) (t : Z) (e : bedge) := mkBEdge (be_handle e) (be_src e) (be_dst e) (be_id e) (be_name e) (be_in e) l (be_in_init e) (be_out_init e) (be_total_in e) t (be_preload e) (be_tokensize e).
Definition be_set_in_init (l : list Z) (e : bedge) := mkBEdge (be_handle e) (be_src e) (be_dst e) (be_id e) (be_name e) (be_in e) (be_out e) l (be_out_init e) (be_total_in e) (be_total_out e) (be_preload e) (be_tokensize e).
Definition be_set_out_init (l : list Z) (e : bedge) := mkBEdge (be_handle e) (be_src e) (be_dst e) (be_id e) (be_name e) (be_in e) (be_out e) (be_in_init e) l (be_total_in e) (be_total_out e) (be_preload e) (be_tokensize e).
Definition be_set_preload (p : Z) (e : bedge) := mkBEdge (be_handle e) (be_src e) (be_dst e) (be_id e) (be_name e) (be_in e) (be_out e) (be_in_init e) (be_out_init e) (be_total_in e) (be_total_out e) p (be_tokensize e).
Definition be_set_tokensize (t : Z) (e : bedge) := mkBEdge (be_handle e) (be_src e) (be_dst e) (be_id e) (be_name e) (be_in e) (be_out e) (be_in_init e) (be_out_init e) (be_total_in e) (be_total_out e) (be_preload e) t.

(** setVertexIdUnsafe, 473-481. *)
Definition set_vertex_id_unsafe (v : nat) (id : Z) : M unit :=
  let! _ := begin_change in
  let! _ := put_v v (bv_set_id id) in
  modify (fun s => with_auto_v (Z.max (s_auto_v s) (id + 1)) s).

(** setVertexId, 460-472. *)
Definition set_vertex_id (v : nat) (id : Z) : M unit :=
  let! _ := begin_change in
  let! s := get in
  match vertex_by_id s id with
  | Some ot => check (ot =? v)%nat
  | None => set_vertex_id_unsafe v id
  end.

(** setEdgeId, 482-494. *)
Definition set_edge_id (h : nat) (id : Z) : M unit :=
  let! _ := begin_change in
  let! _ := check (0 <? id) in
  let! s := get in
  match edge_by_id s id with
  | Some oc => check (oc =? h)%nat
  | None =>
    let! _ := put_e h (be_set_id id) in
    modify (fun s => with_auto_e (Z.max (s_auto_e s) (id + 1)) s)
  end.

(** addEdgeUnsafe, 351-360.  Naming an unknown vertex, boost would grow the graph; here it is
    undefined behaviour. *)
Definition add_edge_unsafe (from to : nat) (id : Z) : M nat :=
  let! _ := begin_change in
  let! _ := get_v from in
  let! _ := get_v to in
  let! s := get in
  let h := s_next s in
  let! _ := modify (fun s => with_next (S h) (with_es (s_es s ++ [new_edge h from to]) s)) in
  let! _ := set_edge_id h id in
  let! _ := begin_change in                                   (* setEdgeType, 587-590 *)
  ret h.

(** addEdge(from, to), 328-332: the automatic number is first moved above the ids in use. *)
Definition bump (ids : list Z) (a : Z) : Z := fold_left (fun acc id => if acc <=? id then id + 1 else acc) ids a.
Definition add_edge_auto (from to : nat) : M nat :=
  let! _ := modify (fun s => with_auto_e (bump (map be_id (s_es s)) (s_auto_e s)) s) in
  let! s := get in
  add_edge_unsafe from to (s_auto_e s).

(** setVertexName, 523-535; setEdgeName, 565-579. *)
Definition set_vertex_name (v : nat) (n : string) : M unit :=
  let! _ := begin_change in
  let! _ := check (negb (String.eqb n "")) in
  let! s := get in
  let! _ := match vertex_by_name s n with Some o => check (o =? v)%nat | None => ret tt end in
  put_v v (bv_set_name n).
Definition set_edge_name (h : nat) (n : string) : M unit :=
  let! _ := begin_change in
  let! _ := check (negb (String.eqb n "")) in
  let! s := get in
  let! _ := match edge_by_name s n with Some o => check (o =? h)%nat | None => ret tt end in
  put_e h (be_set_name n).

(** addEdge with a name, 338-348. *)
Definition add_edge_id_name (from to : nat) (id : Z) (n : string) : M nat :=
  let! h := add_edge_unsafe from to id in let! _ := set_edge_name h n in ret h.
Definition add_edge_name (from to : nat) (n : string) : M nat :=
  let! h := add_edge_auto from to in let! _ := set_edge_name h n in ret h.

(** setPhasesQuantity, setInitPhasesQuantity, setReentrancyFactor, setPreload, setTokenSize
    (640-667), setNi (635). *)
Definition set_phases (v n : nat) : M unit := let! _ := begin_change in put_v v (bv_set_phases n).
Definition set_init_phases (v n : nat) : M unit := let! _ := begin_change in put_v v (bv_set_init_phases n).
Definition set_reentrancy (v : nat) (r : Z) : M unit := let! _ := begin_change in put_v v (bv_set_reentrancy r).
Definition set_preload (h : nat) (p : Z) : M unit := let! _ := writable in put_e h (be_set_preload p).
Definition set_tokensize (h : nat) (t : Z) : M unit := let! _ := begin_change in put_e h (be_set_tokensize t).
Definition set_Ni (v : nat) (n : Z) : M unit :=
  let! s := get in let! _ := check (negb (s_rep s)) in put_v v (bv_set_Ni n).

(** addUnsafeVertex, 389-399 (setMapping only repeats the flag handling). *)
Definition add_unsafe_vertex (id : Z) : M nat :=
  let! _ := begin_change in
  let! s := get in
  let v := length (s_vs s) in
  let! _ := modify (fun s => with_vs (s_vs s ++ [new_vertex]) s) in
  let! _ := set_vertex_id v id in
  let! _ := set_init_phases v 0 in
  let! _ := begin_change in
  ret v.

(** addVertex, 363-388. *)
Definition add_vertex_auto : M nat :=
  let! _ := modify (fun s => with_auto_v (bump (map bv_id (s_vs s)) (s_auto_v s)) s) in
  let! s := get in
  let! _ := modify (fun s => with_auto_v (s_auto_v s + 1) s) in        (* auto_vertex_num++ *)
  add_unsafe_vertex (s_auto_v s).
Definition add_vertex_id (id : Z) : M nat :=
  let! s := get in
  let! _ := check (forallb (fun b => bv_id b <? id) (s_vs s)) in
  add_unsafe_vertex id.
Definition add_vertex_id_name (id : Z) (n : string) : M nat :=
  let! v := add_vertex_id id in let! _ := set_vertex_name v n in ret v.
Definition add_vertex_name (n : string) : M nat :=
  let! v := add_vertex_auto in let! _ := set_vertex_name v n in ret v.

(** removeEdge, 415-419. *)
Definition remove_edge (h : nat) : M unit :=
  let! _ := begin_change in
  let! _ := get_e h in
  modify (fun s => with_es (filter (fun e => negb (be_handle e =? h)%nat) (s_es s)) s).

(** The two loops of removeVertex, 405-411: while there is an edge chosen by [sel], remove the
    first one.  Simplification: boost keeps the edges of a vertex in their own vector, whose
    order may differ; the loop removes all of them. *)
Fixpoint remove_all (fuel : nat) (sel : bedge -> bool) : M unit :=
  let! s := get in
  match find sel (s_es s) with
  | None => ret tt
  | Some e => match fuel with
              | O => undef
              | S fuel' => let! _ := remove_edge (be_handle e) in remove_all fuel' sel
              end
  end.

(** boost::remove_vertex on vector storage: positions above the removed one move down. *)
Definition shift (v x : nat) : nat := if (v <? x)%nat then (x - 1)%nat else x.
Fixpoint delete_nth {A} (n : nat) (l : list A) : list A :=
  match l, n with
  | [], _ => []
  | _ :: l', O => l'
  | x :: l', S n' => x :: delete_nth n' l'
  end.

(** removeVertex, 402-414. *)
Definition remove_vertex (v : nat) : M unit :=
  let! _ := begin_change in
  let! _ := get_v v in
  let! s := get in
  let! _ := remove_all (length (s_es s)) (fun e => (be_dst e =? v)%nat) in
  let! _ := remove_all (length (s_es s)) (fun e => (be_src e =? v)%nat) in
  modify (fun s => with_es (map (fun e => be_set_ends (shift v (be_src e)) (shift v (be_dst e)) e) (s_es s))
                     (with_vs (delete_nth v (s_vs s)) s)).

(** std::accumulate(l.begin(), l.end(), 0): the accumulator is an int, so each partial sum is
    reduced to 32 bits (743, 796). *)
Definition wrap32 (x : Z) : Z := (x + 2 ^ 31) mod 2 ^ 32 - 2 ^ 31.
Definition accumulate_int (l : list Z) : Z := fold_left (fun acc x => wrap32 (acc + x)) l 0.

(** setEdgeInPhases, 790-803; setEdgeOutPhases, 737-750: the rates are stored before the check. *)
Definition set_edge_in (h : nat) (l : list Z) : M unit :=
  let! _ := begin_change in
  let! _ := put_e h (be_set_in l (accumulate_int l)) in
  let! e := get_e h in
  let! b := get_v (be_src e) in
  let! _ := check ((bv_phases b =? 0)%nat || (bv_phases b =? length l)%nat) in
  set_phases (be_src e) (length l).
Definition set_edge_out (h : nat) (l : list Z) : M unit :=
  let! _ := begin_change in
  let! _ := put_e h (be_set_out l (accumulate_int l)) in
  let! e := get_e h in
  let! b := get_v (be_dst e) in
  let! _ := check ((bv_phases b =? 0)%nat || (bv_phases b =? length l)%nat) in
  set_phases (be_dst e) (length l).

(** setEdgeInInitPhases, 813-830; setEdgeOutInitPhases, 760-771. *)
Definition set_edge_in_init (h : nat) (l : list Z) : M unit :=
  let! _ := begin_change in
  let! _ := put_e h (be_set_in_init l) in
  let! e := get_e h in
  let! b := get_v (be_src e) in
  let! _ := check ((bv_init_phases b =? 0)%nat || (bv_init_phases b =? length l)%nat) in
  set_init_phases (be_src e) (length l).
Definition set_edge_out_init (h : nat) (l : list Z) : M unit :=
  let! _ := begin_change in
  let! _ := put_e h (be_set_out_init l) in
  let! e := get_e h in
  let! b := get_v (be_dst e) in
  let! _ := check ((bv_init_phases b =? 0)%nat || (bv_init_phases b =? length l)%nat) in
  set_init_phases (be_dst e) (length l).

(** setVertexDuration, 894-902; setVertexInitDuration, 904-912. *)
Definition set_durations (v : nat) (l : list Q) : M unit :=
  let! _ := begin_change in
  let! b := get_v v in
  let! _ := check (bv_phases b =? length l)%nat in
  put_v v (bv_set_durations l).
Definition set_init_durations (v : nat) (l : list Q) : M unit :=
  let! _ := begin_change in
  let! b := get_v v in
  let! _ := check (bv_init_phases b =? length l)%nat in
  put_v v (bv_set_init_durations l).

(** computeFineGCD, 918-934 (getEdgeInPhase fails on an empty vector); getFineGCD, 941-955. *)
Definition compute_fine_gcd (e : bedge) : option Z :=
  match be_in e with
  | [] => None
  | x :: _ => Some (fold_left Z.gcd (be_out e) (fold_left Z.gcd (be_in e) x))
  end.
Definition lookup_gcd (id : Z) (m : list (Z * Z)) : option Z := option_map snd (find (fun p => fst p =? id) m).
Definition get_fine_gcd (h : nat) : M Z :=
  let! e := get_e h in
  let! s := get in
  match lookup_gcd (be_id e) (s_gcd s) with
  | Some r => ret r
  | None => match compute_fine_gcd e with
            | None => fail
            | Some r => let! _ := modify (fun s => with_gcd (s_gcd s ++ [(be_id e, r)]) s) in ret r
            end
  end.

(** computeRepetitionVector (models/repetition_vector.cpp 158-189) as far as this state is
    concerned: [res] is the vector computed by RepVec.v, [None] when it returns false. *)
Fixpoint set_all_Ni (v : nat) (l : list Z) : M unit :=
  match l with
  | [] => ret tt
  | n :: l' => let! _ := set_Ni v n in set_all_Ni (S v) l'
  end.
Definition compute_repetition (res : option (list Z)) : M bool :=
  let! s := get in
  if s_rep s then ret true
  else
    let! _ := set_read_only in
    match res with
    | None => ret false
    | Some l => let! _ := set_all_Ni 0 l in let! _ := set_repetition_vector in ret true
    end.

(** normalize (algorithms/normalization.cpp 441-471) as far as this state is concerned: [ok] is
    whether the weights were found. *)
Definition compute_normalization (ok : bool) : M bool :=
  let! s := get in
  if s_norm s then ret true
  else
    let! _ := set_read_only in
    if ok then let! _ := set_normalize in ret true else ret false.

(** * The calls of a history *)
Inductive call :=
| AddVertex
| AddVertexId (id : Z)
| AddVertexIdName (id : Z) (n : string)
| AddVertexName (n : string)
| AddUnsafeVertex (id : Z)
| AddEdge (from to : nat)
| AddEdgeId (from to : nat) (id : Z)
| AddEdgeIdName (from to : nat) (id : Z) (n : string)
| AddEdgeName (from to : nat) (n : string)
| RemoveVertex (v : nat)
| RemoveEdge (h : nat)
| SetVertexId (v : nat) (id : Z)
| SetVertexIdUnsafe (v : nat) (id : Z)
| SetEdgeId (h : nat) (id : Z)
| SetVertexName (v : nat) (n : string)
| SetEdgeName (h : nat) (n : string)
| SetPhases (v n : nat)
| SetInitPhases (v n : nat)
| SetReentrancy (v : nat) (r : Z)
| SetPreload (h : nat) (p : Z)
| SetTokenSize (h : nat) (t : Z)
| SetEdgeIn (h : nat) (l : list Z)
| SetEdgeOut (h : nat) (l : list Z)
| SetEdgeInInit (h : nat) (l : list Z)
| SetEdgeOutInit (h : nat) (l : list Z)
| SetDurations (v : nat) (l : list Q)
| SetInitDurations (v : nat) (l : list Q)
| GetFineGCD (h : nat)
| SetNi (v : nat) (n : Z)
| ComputeRepetition (res : option (list Z))
| ComputeNormalization (ok : bool)
| SetReadOnly
| ResetComputation.

(** The value returned is left out. *)
Definition quiet {A} (x : M A) : M unit := let! _ := x in ret tt.
Definition exec (c : call) : M unit :=
  match c with
  | AddVertex => quiet add_vertex_auto
  | AddVertexId id => quiet (add_vertex_id id)
  | AddVertexIdName id n => quiet (add_vertex_id_name id n)
  | AddVertexName n => quiet (add_vertex_name n)
  | AddUnsafeVertex id => quiet (add_unsafe_vertex id)
  | AddEdge from to => quiet (add_edge_auto from to)
  | AddEdgeId from to id => quiet (add_edge_unsafe from to id)
  | AddEdgeIdName from to id n => quiet (add_edge_id_name from to id n)
  | AddEdgeName from to n => quiet (add_edge_name from to n)
  | RemoveVertex v => remove_vertex v
  | RemoveEdge h => remove_edge h
  | SetVertexId v id => set_vertex_id v id
  | SetVertexIdUnsafe v id => set_vertex_id_unsafe v id
  | SetEdgeId h id => set_edge_id h id
  | SetVertexName v n => set_vertex_name v n
  | SetEdgeName h n => set_edge_name h n
  | SetPhases v n => set_phases v n
  | SetInitPhases v n => set_init_phases v n
  | SetReentrancy v r => set_reentrancy v r
  | SetPreload h p => set_preload h p
  | SetTokenSize h t => set_tokensize h t
  | SetEdgeIn h l => set_edge_in h l
  | SetEdgeOut h l => set_edge_out h l
  | SetEdgeInInit h l => set_edge_in_init h l
  | SetEdgeOutInit h l => set_edge_out_init h l
  | SetDurations v l => set_durations v l
  | SetInitDurations v l => set_init_durations v l
  | GetFineGCD h => quiet (get_fine_gcd h)
  | SetNi v n => set_Ni v n
  | ComputeRepetition res => quiet (compute_repetition res)
  | ComputeNormalization ok => quiet (compute_normalization ok)
  | SetReadOnly => set_read_only
  | ResetComputation => reset_computation
  end.

(** The graph the algorithms see. *)
Definition view_vertex (b : bvertex) : vertex :=
  mkVertex (bv_id b) (bv_phases b) (bv_init_phases b) (bv_durations b) (bv_init_durations b) (bv_reentrancy b).
Definition view_edge (e : bedge) : edge :=
  mkEdge (be_id e) (be_src e) (be_dst e) (be_in e) (be_out e) (be_in_init e) (be_out_init e) (be_preload e).
Definition view (s : state) : graph := mkGraph (map view_vertex (s_vs s)) (map view_edge (s_es s)).
