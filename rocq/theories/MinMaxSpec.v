(** What the MINMAX offsets are compared with. *)
From Coq Require Import QArith.
From Verif Require Import Base Graph ScheduleSpec Sizing SizingSpec Wiggers WiggersSpec MinMax.
Open Scope Z_scope.

(** Points of a linear program, its objective, and an exact solver. *)
Definition mvalue (x : mvar -> Q) (r : mrow) : Q := fold_right (fun vc acc => snd vc * x (fst vc) + acc)%Q 0%Q (m_coefs r).
Definition mfeasible (p : mlp) (x : mvar -> Q) : Prop :=
  (forall r, In r (m_rows p) -> if m_low r then (m_bound r <= mvalue x r)%Q else (mvalue x r <= m_bound r)%Q) /\
  (forall c q, In c (m_cols p) -> m_fix c = Some q -> (x (m_var c) == q)%Q).
Definition mobjective (p : mlp) (x : mvar -> Q) : Q := fold_right (fun c acc => m_cost c * x (m_var c) + acc)%Q 0%Q (m_cols p).
Definition msolves (msolve : mlp -> option (mvar -> Q)) (p : mlp) : Prop :=
  match msolve p with
  | Some x => mfeasible p x /\ forall y, mfeasible p y -> (mobjective p x <= mobjective p y)%Q
  | None => forall x, ~ mfeasible p x
  end.

(** Offsets of a task: the first phase starts at 0, the phases do not overlap, and the last ends
    within the cycle. *)
Definition admissible (v : vertex) (cycle : Q) (o : list Q) : Prop :=
  length o = v_phases v /\ (nth 0 o 0 == 0)%Q /\
  (forall a, (S a < v_phases v)%nat -> (nth a o 0 + exec_duration v a <= nth (S a) o 0)%Q) /\
  (forall a, S a = v_phases v -> (nth a o 0 + exec_duration v a <= cycle)%Q).

(** Tokens the phases before [a] of the target take from a channel. *)
Definition taken (c : edge) (a : nat) : Z := sumZ (firstn a (e_out c)).
(** The two packet sizes of a channel. *)
Definition out_packet (c : edge) : Z := fold_right Z.gcd (sumZ (e_in c)) (e_out c).
Definition in_packet (c : edge) : Z := fold_right Z.gcd (sumZ (e_out c)) (e_in c).
Definition down (x l : Z) : Z := l * (x / l).

(** How far, in tokens, phase [a] of the source or the target of a channel is from the line of
    the channel: [late] for its end, [early] for its start. *)
Definition out_late (c : edge) (a : nat) : Z := if in_packet c <? out_packet c then down (- received c a - 1) (out_packet c) else - received c a.
Definition out_early (c : edge) (a : nat) : Z := if in_packet c <? out_packet c then down (received c (S a) - 1) (out_packet c) else received c (S a).
Definition in_late (c : edge) (a : nat) : Z := if out_packet c <? in_packet c then down (taken c (S a)) (out_packet c) else - taken c a.
Definition in_early (c : edge) (a : nat) : Z := if out_packet c <? in_packet c then down (- taken c a) (out_packet c) else taken c (S a).

(** [D] and [E] bound the distance of the phases from the lines of all channels of task [i]. *)
Definition covers (g : graph) (i : nat) (v : vertex) (cycle : Q) (o : list Q) (D E : nat -> Q) : Prop :=
  forall k c a, nth_error (edges g) k = Some c -> (a < v_phases v)%nat ->
    (e_src c = i -> let pace := (cycle / inject_Z (sumZ (e_in c)))%Q in
       (nth a o 0 + exec_duration v a + pace * inject_Z (out_late c a) <= D k)%Q /\ (pace * inject_Z (out_early c a) - nth a o 0 <= E k)%Q) /\
    (e_dst c = i -> let pace := (cycle / inject_Z (sumZ (e_out c)))%Q in
       (nth a o 0 + exec_duration v a + pace * inject_Z (in_late c a) <= D k)%Q /\ (pace * inject_Z (in_early c a) - nth a o 0 <= E k)%Q).
(** The sum of these bounds over the channels of the task, in units of data. *)
Definition spread (theta : nat -> Z) (g : graph) (i : nat) (D E : nat -> Q) : Q :=
  fold_right (fun kc acc => (if (e_src (snd kc) =? i)%nat || (e_dst (snd kc) =? i)%nat then inject_Z (theta (fst kc)) * (D (fst kc) + E (fst kc)) else 0) + acc)%Q 0%Q
    (combine (seq 0 (length (edges g))) (edges g)).
(** No other offsets have a smaller sum. *)
Definition tightest (theta : nat -> Z) (g : graph) (i : nat) (v : vertex) (cycle : Q) (o : list Q) : Prop :=
  exists D E, covers g i v cycle o D E /\
    forall o' D' E', admissible v cycle o' -> covers g i v cycle o' D' E' -> (spread theta g i D E <= spread theta g i D' E')%Q.

(** The channels from a task to itself. *)
Definition self_loop (g : graph) (i : nat) : Prop := exists c, In c (edges g) /\ e_src c = i /\ e_dst c = i.
