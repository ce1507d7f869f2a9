(** The token game of one channel with a bounded buffer: the producer may fire when its tokens
    fit, the consumer when its tokens are there.  Rates follow the firing order (ScheduleSpec). *)
From Verif Require Import Base Graph ScheduleSpec.
Open Scope Z_scope.

(** Tokens in the channel, firings of the producer, firings of the consumer. *)
Record content := mkContent { tokens : Z; produced : nat; consumed : nat }.
Definition start (c : edge) : content := mkContent (e_preload c) 0 0.
Definition fires (c : edge) (cap : Z) (s s' : content) : Prop :=
  (tokens s + prod_rate c (produced s) <= cap /\
   s' = mkContent (tokens s + prod_rate c (produced s)) (S (produced s)) (consumed s)) \/
  (cons_rate c (consumed s) <= tokens s /\
   s' = mkContent (tokens s - cons_rate c (consumed s)) (produced s) (S (consumed s))).
Inductive firings (c : edge) (cap : Z) : nat -> content -> content -> Prop :=
| firings_none s : firings c cap 0 s s
| firings_more n s s' s'' : firings c cap n s s' -> fires c cap s' s'' -> firings c cap (S n) s s''.

(** No initial phases. *)
Definition periodic_channel (c : edge) : Prop := e_in_init c = [] /\ e_out_init c = [].
(** One rate on each side. *)
Definition sdf_channel (c : edge) (p q : Z) : Prop := periodic_channel c /\ e_in c = [p] /\ e_out c = [q] /\ 0 < p /\ 0 < q.
