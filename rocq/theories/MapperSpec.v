(** Vocabulary of the placement properties. *)
From Coq Require Import QArith.
From Verif Require Import Base Noc NocPath NocPathSpec Mapper.
Open Scope nat_scope.

(** The route [r], a list of link identifiers, follows a path with fewest links from core [a] to core [b]. *)
Definition leads (g : graph) (r : list nat) (a b : nat) : Prop :=
  exists l, fewest_links (has_link g) (a + mesh_size g) l (b + mesh_size g) /\ map (map_index_pair (g_v g)) r = path_links l.

(** The pairs of cores to connect if task [x] is put on core [c]: from the cores of the tasks that send to
    it, and to the cores of the tasks that it sends to. *)
Definition connections (d : list (nat * nat)) (core : nat -> option nat) (x c : nat) : list (nat * nat) :=
  flat_map (fun e => if snd e =? x then match core (fst e) with Some a => [(a, c)] | None => [] end else []) d ++
  flat_map (fun e => if fst e =? x then match core (snd e) with Some b => [(c, b)] | None => [] end else []) d.
(** What putting [x] on [c] costs: the use of the most used link plus the average number of links of the
    paths found. *)
Definition costs (g : graph) (d : list (nat * nat)) (core : nat -> option nat) (x c : nat) (q : Q) : Prop :=
  exists ls, Forall2 (fun p l => find_path_dijkstra g (fst p) (snd p) = Ok l) (connections d core x c) ls /\
    (q == inject_Z (fold_right Z.max 0%Z (map (contention g) ls)) +
         inject_Z (Z.of_nat (list_sum (map (fun l => (length l - 1)%nat) ls))) / inject_Z (Z.of_nat (length ls)))%Q.

(** The counts of a network in use: as many as there are pairs of nodes. *)
Definition in_use (n : noc) (g : graph) : Prop := g = with_uses (make_graph n) (g_util g) /\ length (g_util g) = g_v g * g_v g.
(** A placement under way: every core is free or holds at most one task. *)
Record consistent (n : noc) (st : placing) : Prop := {
  k_net : in_use n (p_net st);
  k_free : NoDup (p_free st);
  k_range : forall c, In c (p_free st) -> c < mesh_size (p_net st);
  k_core : forall t c, p_core st t = Some c -> c < mesh_size (p_net st) /\ ~ In c (p_free st);
  k_one : forall t t' c, p_core st t = Some c -> p_core st t' = Some c -> t = t';
  k_first : length (p_free st) = mesh_size (p_net st) -> forall t, p_core st t = None }.

(** No cycle of channels. *)
Definition acyclic (to : list (nat * nat)) : Prop := exists rank : nat -> nat, forall a b, In (a, b) to -> rank a < rank b.
