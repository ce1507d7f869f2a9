(** What is expected of the slots of the channels (property C157). *)
From Verif Require Import Base So4Rules.
Open Scope Z_scope.

(** The lines of a text file, as source, destination and slot; other fields follow. *)
Definition is_line (l : list field) (r : Z * Z * Z) : Prop :=
  exists rest, l = Number (fst (fst r)) :: Number (snd (fst r)) :: Number (snd r) :: map Number rest.
(** The slot [s] is the one of the first rule for [k]. *)
Definition first_rule {K} (rules : list (K * Z)) (k : K) (s : Z) : Prop :=
  exists before after, rules = before ++ (k, s) :: after /\ forall s', ~ In (k, s') before.
Definition no_rule {K} (rules : list (K * Z)) (k : K) : Prop := forall s, ~ In (k, s) rules.

(** The slot of a channel: -1 if it is virtual, else the first rule for its key, else 0. *)
Definition slot_of {K} (rules : list (K * Z)) (virtual : bool) (k : K) (s : Z) : Prop :=
  if virtual then s = -1 else first_rule rules k s \/ (no_rule rules k /\ s = 0).

(** The conditions give one slot to each channel, in order. *)
Definition conditions_ok (conditions : list (Z * Z)) (links : list link) (slot : link -> Z -> Prop) : Prop :=
  Forall2 (fun c e => fst c = l_id e /\ slot e (snd c)) conditions links.
(** The cores of a mesh of [size] routers are numbered after them. *)
Definition shifted (size : Z) (r : Z * Z * Z) : Z * Z * Z := (fst (fst r) + size, snd (fst r) + size, snd r).
(** The last slot named in the file, at least 0. *)
Definition last_slot (rules : list (Z * Z * Z)) (n : Z) : Prop :=
  0 <= n /\ (forall r, In r rules -> snd r <= n) /\ (n = 0 \/ exists r, In r rules /\ snd r = n).
