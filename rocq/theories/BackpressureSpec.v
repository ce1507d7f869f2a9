(** Vocabulary of the back-pressure sizing properties. *)
From Coq Require Import QArith.
From Verif Require Import Base Graph ScheduleSpec Sizing SizingSpec Backpressure.
Open Scope Z_scope.

(** The room given by the reported sizes: so many tokens besides the initial ones. *)
Definition with_room (g : graph) (sizes : list Z) (k : nat) : Z :=
  match nth_error (edges g) k with Some c => e_preload c + Z.max 0 (nth k sizes 0) | None => 0 end.

(** The channel starts empty, or carries at most one token per unit of time. *)
Definition calm (N : nat -> Z) (period : Q) (c : edge) : Prop :=
  e_preload c = 0 \/ (inject_Z (sumZ (e_in c) * N (e_src c)) <= period)%Q.

(** Every answer of the solver is a point of the problem. *)
Definition sound_solver (solve : lp -> option (var -> Q)) : Prop := forall p x, solve p = Some x -> feasible p x.

(** No execution is longer than the interval between two starts of its task. *)
Definition steps_fit (g : graph) (N : nat -> Z) (period : Q) : Prop :=
  forall i v d, nth_error (vertices g) i = Some v -> In d (v_durations v) -> (d * inject_Z (N i) <= period)%Q.
