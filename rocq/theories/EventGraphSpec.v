(** Circuits of an event graph. *)
From Coq Require Import QArith.
From Verif Require Import Base Graph KPeriodic.
Open Scope Z_scope.

(** [l] is a path from [u] to [v]. *)
Fixpoint path (u : event) (l : list constraint) (v : event) : Prop :=
  match l with
  | [] => u = v
  | c :: l' => c_source c = u /\ path (c_target c) l' v
  end.

Definition sumQ (f : constraint -> Q) (l : list constraint) : Q :=
  fold_right (fun c acc => (f c + acc)%Q) 0%Q l.

(** A non-empty closed path made of constraints of [cs]. *)
Definition circuit (cs l : list constraint) : Prop :=
  l <> [] /\ incl l cs /\ exists u, path u l u.

(** The period [omega] is long enough for every circuit: the durations along it fit in
    omega times its weight. *)
Definition circuits_fit (cs : list constraint) (omega : Q) : Prop :=
  forall l, circuit cs l -> (sumQ c_d l <= omega * sumQ c_w l)%Q.

(** The constraints join existing events. *)
Definition closed (evs : list event) (cs : list constraint) : Prop :=
  forall c, In c cs -> In (c_source c) evs /\ In (c_target c) evs.
