(** Shared conventions of the model. *)
From Coq Require Export List Arith ZArith Bool Lia.
Export ListNotations.

(** What a modelled C++ call can do.
    - [Ok v]      : returns normally with [v];
    - [Rejected]  : VERBOSE_ASSERT / VERBOSE_FAILURE / FAILED / thrown exception
                    (commons/verbose.h);
    - [Undefined] : undefined behaviour of the C++ program (division by zero,
                    out-of-bounds access, uninitialised read, falling off a
                    non-void function);
    - [Timeout]   : the fuel given to the model of a loop ran out. *)
Inductive outcome (A : Type) : Type :=
| Ok (a : A)
| Rejected
| Undefined
| Timeout.
Arguments Ok {A} a.
Arguments Rejected {A}.
Arguments Undefined {A}.
Arguments Timeout {A}.

Definition bind {A B : Type} (x : outcome A) (f : A -> outcome B) : outcome B :=
  match x with
  | Ok a => f a
  | Rejected => Rejected
  | Undefined => Undefined
  | Timeout => Timeout
  end.

Notation "'do' x <- e ; f" := (bind e (fun x => f))
  (at level 200, x pattern, e at level 100, f at level 200).

(** C++ integer division and remainder (truncating), undefined on 0. *)
Definition cdiv (a b : Z) : outcome Z := if Z.eqb b 0 then Undefined else Ok (Z.quot a b).
Definition cmod (a b : Z) : outcome Z := if Z.eqb b 0 then Undefined else Ok (Z.rem a b).

(** VERBOSE_ASSERT (commons/verbose.h). *)
Definition cassert (b : bool) : outcome unit := if b then Ok tt else Rejected.
