(** Model of the exploration of throughputs by bisection,
    [compute_csdf_dse_from_function], src/libkiter/algorithms/dse/periodic.cpp 88-212.
    Frequencies and periods are exact rationals instead of doubles; the log is not modelled. *)
From Coq Require Import QArith.
From Verif Require Import Base.
Open Scope Z_scope.

(** [space], 111: the sizes found, by frequency.  A [std::map], here an association list. *)
Definition space := list (Q * Z).
Fixpoint space_find (sp : space) (f : Q) : option Z :=
  match sp with
  | [] => None
  | (f', z) :: sp' => if Qeq_bool f f' then Some z else space_find sp' f
  end.

Section Sizing.
(** [sizing_fun(dataflow, period).total_size()]. *)
Variable sizing : Q -> outcome Z.

(** [if (not space.count(f)) space\[f\] = sizing_fun(dataflow, 1/f).total_size()], 144-178. *)
Definition ensure (sp : space) (f : Q) : outcome space :=
  match space_find sp f with
  | Some _ => Ok sp
  | None => do z <- sizing (/ f)%Q; Ok ((f, z) :: sp)
  end.

(** [space\[f\]] of a present key, 179-180. *)
Definition space_at (sp : space) (f : Q) : Z := match space_find sp f with Some z => z | None => 0 end.

(** One turn of the loop, 123-192: the new space and the ranges to push. *)
Definition turn (granularity : Q) (sp : space) (range : Q * Q) : outcome (space * list (Q * Q)) :=
  let (l, r) := range in
  let distance := (r - l)%Q in
  if negb (Qle_bool granularity distance) then Ok (sp, [])
  else
    do sp1 <- ensure sp l;
    do sp2 <- ensure sp1 r;
    if negb (space_at sp2 l =? space_at sp2 r) || Qeq_bool l 0
    then Ok (sp2, [(l, l + distance / 2)%Q; (l + distance / 2, r)%Q])
    else Ok (sp2, []).

(** [while (not range_to_explore.empty())], 123-195; the queue is first in, first out. *)
Fixpoint explore (fuel : nat) (granularity : Q) (sp : space) (queue : list (Q * Q)) : outcome space :=
  match queue with
  | [] => Ok sp
  | range :: queue' =>
    match fuel with
    | O => Timeout
    | S fuel' => do t <- turn granularity sp range; explore fuel' granularity (fst t) (queue' ++ snd t)
    end
  end.

(** [pareto], 199-208, a [std::map] sorted by size: the smallest period of each size. *)
Fixpoint pareto_put (z : Z) (p : Q) (l : list (Z * Q)) : list (Z * Q) :=
  match l with
  | [] => [(z, p)]
  | (z', p') :: l' =>
    if z <? z' then (z, p) :: l
    else if z =? z' then (z, if negb (Qle_bool p' p) then p else p') :: l'
    else (z', p') :: pareto_put z p l'
  end.
Definition pareto (sp : space) : list (Z * Q) :=
  fold_left (fun acc fz => if Qeq_bool (fst fz) 0 then acc else pareto_put (snd fz) (/ fst fz)%Q acc) sp [].

(** The whole function, 88-212, for the frequency found by [KSchedule] (106-108): the printed
    lines, as pairs of a period and a size. *)
Definition dse_from_function (fuel : nat) (frequency : Q) : outcome (list (Q * Z)) :=
  do sp <- explore fuel (frequency / 10000)%Q [(0%Q, 0)] [(0%Q, frequency)];
  Ok (map (fun zp => (snd zp, fst zp)) (filter (fun zp => fst zp >? 0) (pareto sp))).
End Sizing.
