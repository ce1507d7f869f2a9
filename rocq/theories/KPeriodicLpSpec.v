(** What the solutions of a linear program are. *)
From Coq Require Import QArith.
From Verif Require Import Base Graph KPeriodic ScheduleSpec KPeriodicLp.
Open Scope Z_scope.

(** The value of a row under values of the hyper-period and of the starting times. *)
Fixpoint weighted (St : event -> Q) (l : list (event * Q)) : Q :=
  match l with
  | [] => 0%Q
  | (e, a) :: rest => (a * St e + weighted St rest)%Q
  end.
Definition row_holds (omega : Q) (St : event -> Q) (r : lp_row) : Prop :=
  let value := (row_omega r * omega + weighted St (row_starts r))%Q in
  if row_fixed r then (value == row_bound r)%Q else (row_bound r <= value)%Q.

(** Feasible: nothing negative and every row holds; optimal: no feasible answer has a
    smaller hyper-period. *)
Definition feasible (cols : list event) (rows : list lp_row) (omega : Q) (St : event -> Q) : Prop :=
  (0 <= omega)%Q /\ (forall e, In e cols -> (0 <= St e)%Q) /\ forall r, In r rows -> row_holds omega St r.
Definition optimal (cols : list event) (rows : list lp_row) (omega : Q) (St : event -> Q) : Prop :=
  feasible cols rows omega St /\
  forall omega' St', feasible cols rows omega' St' -> (omega <= omega')%Q.

(** A solver that answers a program optimally, and answers when something is feasible. *)
Definition exact_solver (solve : lp_solver) (cols : list event) (program : outcome (list lp_row)) : Prop :=
  forall rows, program = Ok rows ->
    match solve cols rows with
    | Some (omega, St) => optimal cols rows omega St
    | None => forall omega St, ~ feasible cols rows omega St
    end.

(** The repetition vector counts whole cycles of phases. *)
Definition whole_cycles (g : graph) (N : nat -> Z) : Prop :=
  forall i v, nth_error (vertices g) i = Some v -> (Z.of_nat (v_phases v) | N i).

(** Every task starts its executions at even distances. *)
Definition evenly_spaced (g : graph) (N : nat -> Z) (omega : Q) (s : schedule) : Prop :=
  forall i m, (i < length (vertices g))%nat -> (s i (S m) == s i m + omega / inject_Z (N i))%Q.
