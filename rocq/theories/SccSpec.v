(** What strongly connected components and cycles are, independently of the algorithm. *)
From Verif Require Import Base Graph.
Open Scope Z_scope.

(** Task [u] has a channel to task [v] (tasks named by identifier). *)
Definition arc (g : graph) (u v : Z) : Prop :=
  exists e s t, In e (edges g) /\ nth_error (vertices g) (e_src e) = Some s /\ nth_error (vertices g) (e_dst e) = Some t /\
    v_id s = u /\ v_id t = v.

(** [walk g u l v]: following channels from [u] through the tasks [l] ends in [v]. *)
Fixpoint walk (g : graph) (u : Z) (l : list Z) (v : Z) : Prop :=
  match l with
  | [] => u = v
  | w :: l' => arc g u w /\ walk g w l' v
  end.
Definition reaches (g : graph) (u v : Z) : Prop := exists l, walk g u l v.

Definition is_task (g : graph) (u : Z) : Prop := In u (map v_id (vertices g)).

(** Identifiers are unique and channels join tasks of the graph: what histories of the
    builder guarantee (C10, C13). *)
Definition id_graph (g : graph) : Prop :=
  NoDup (map v_id (vertices g)) /\
  forall e, In e (edges g) -> (e_src e < length (vertices g))%nat /\ (e_dst e < length (vertices g))%nat.

(** A directed cycle: a closed walk of at least one channel. *)
Definition cycle (g : graph) (u : Z) (l : list Z) : Prop := l <> [] /\ walk g u l u.
