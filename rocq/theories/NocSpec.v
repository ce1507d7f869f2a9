(** Vocabulary of the mesh properties. *)
From Verif Require Import Base Noc.
Open Scope Z_scope.

(** The router and the core at column [X] and row [Y] of an [xs] by [ys] mesh. *)
Definition in_mesh (xs ys X Y : Z) : Prop := 0 <= X < xs /\ 0 <= Y < ys.
Definition router_at (xs X Y : Z) : Z := X + Y * xs.
Definition core_at (xs ys X Y : Z) : Z := X + Y * xs + xs * ys.

(** The links a mesh must have. *)
Inductive linked (xs ys : Z) : Z -> Z -> Prop :=
| to_core X Y : in_mesh xs ys X Y -> linked xs ys (router_at xs X Y) (core_at xs ys X Y)
| from_core X Y : in_mesh xs ys X Y -> linked xs ys (core_at xs ys X Y) (router_at xs X Y)
| eastward X Y : in_mesh xs ys X Y -> in_mesh xs ys (X + 1) Y -> linked xs ys (router_at xs X Y) (router_at xs (X + 1) Y)
| westward X Y : in_mesh xs ys X Y -> in_mesh xs ys (X + 1) Y -> linked xs ys (router_at xs (X + 1) Y) (router_at xs X Y)
| upward X Y : in_mesh xs ys X Y -> in_mesh xs ys X (Y + 1) -> linked xs ys (router_at xs X Y) (router_at xs X (Y + 1))
| downward X Y : in_mesh xs ys X Y -> in_mesh xs ys X (Y + 1) -> linked xs ys (router_at xs X (Y + 1)) (router_at xs X Y).

(** Links followed one after the other from [a] to [b]. *)
Fixpoint connected (a : Z) (ls : list link) (b : Z) : Prop :=
  match ls with [] => a = b | l :: ls' => l_src l = a /\ connected (l_dst l) ls' b end.

(** A link that stays in its row, or in its column, of routers. *)
Definition in_row (xs ys : Z) (l : link) : Prop := exists X X' Y, in_mesh xs ys X Y /\ in_mesh xs ys X' Y /\ l_src l = router_at xs X Y /\ l_dst l = router_at xs X' Y.
Definition in_column (xs ys : Z) (l : link) : Prop := exists X Y Y', in_mesh xs ys X Y /\ in_mesh xs ys X Y' /\ l_src l = router_at xs X Y /\ l_dst l = router_at xs X Y'.
