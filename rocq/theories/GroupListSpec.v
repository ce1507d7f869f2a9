(** What grouping by pairs means. *)
From Verif Require Import Base.
Open Scope Z_scope.

(** Items connected by the pairs of a history of calls add(l,r,v). *)
Inductive connected (h : list (Z * Z * Z)) : Z -> Z -> Prop :=
| conn_refl x : connected h x x
| conn_pair l r v : In (l, r, v) h -> connected h l r
| conn_sym x y : connected h x y -> connected h y x
| conn_trans x y z : connected h x y -> connected h y z -> connected h x z.

(** Items mentioned by a history. *)
Definition known (h : list (Z * Z * Z)) (x : Z) : Prop := exists l r v, In (l, r, v) h /\ (x = l \/ x = r).

(** [v] was passed in a call whose pair is connected to [x]. *)
Definition given (h : list (Z * Z * Z)) (x v : Z) : Prop := exists l r, In (l, r, v) h /\ connected h x l.

(** The same, not counting the calls that joined two groups that both existed. *)
Definition given_kept (h : list (Z * Z * Z)) (x v : Z) : Prop :=
  exists h1 l r h2, h = h1 ++ (l, r, v) :: h2 /\ connected h x l /\ ~ (known h1 l /\ known h1 r /\ ~ connected h1 l r).
