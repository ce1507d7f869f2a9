(** Model of models/repetition_vector.cpp.  Machine overflow is not modelled. *)
From Verif Require Import Base Fraction Graph.
Open Scope Z_scope.

(** std::map<Vertex,EXEC_COUNT_FRACT>: a missing key reads as Fraction(0,1)
    (operator[] default constructs it, commons/commons.h 46). *)
Definition fractions := nat -> fraction.
Definition fzero : fraction := mkFraction 0 1.
Definition fone : fraction := mkFraction 1 1.
Definition fcleared : fractions := fun _ => fzero.
Definition fset (fr : fractions) (v : nat) (f : fraction) : fractions :=
  fun w => if (w =? v)%nat then f else fr w.

(** ForConnectedEdges, models/Dataflow.h 238-246: the channels from or to [a]. *)
Definition connected (a : nat) (c : edge) : bool := (e_src c =? a)%nat || (e_dst c =? a)%nat.

(** Body of the loop of [calcFractionsConnectedActors], repetition_vector.cpp 26-84, over the
    remaining channels [es]; [rec] is the recursive call (72). *)
Fixpoint connected_loop (rec : nat -> fractions -> outcome (bool * fractions)) (ratePeriod : Z)
    (a : nat) (fractionA : fraction) (es : list edge) (fr : fractions) : outcome (bool * fractions) :=
  match es with
  | [] => Ok (true, fr)                                                        (* 85 *)
  | c :: es' =>
    if connected a c then
      let b := if (e_src c =? a)%nat then e_dst c else e_src c in              (* 30 *)
      do qi <- cdiv ratePeriod (Z.of_nat (length (e_in c)));
      do qo <- cdiv ratePeriod (Z.of_nat (length (e_out c)));
      let rateIn := edge_in_total c * qi in                                    (* 33-34 *)
      let rateOut := edge_out_total c * qo in                                  (* 37-38 *)
      let rateA := if (e_dst c =? a)%nat then rateOut else rateIn in           (* 40-44 *)
      let rateB := if (e_dst c =? a)%nat then rateIn else rateOut in
      if (rateA =? 0) || (rateB =? 0) then Ok (false, fcleared)                (* 47-52 *)
      else
        do ratioAB <- make_fraction rateA rateB;                               (* 55 *)
        do fractionB <- frac_mul fractionA ratioAB;                            (* 56 *)
        let known := fr b in                                                   (* 59 *)
        if frac_neqb known fzero && frac_neqb fractionB known
        then Ok (false, fcleared)                                              (* 62-68 *)
        else if frac_eqb known fzero then                                      (* 69 *)
          do r <- rec b (fset fr b fractionB);                                 (* 72-75 *)
          if frac_eqb (snd r b) fzero then Ok (false, snd r)                   (* 78-82 *)
          else connected_loop rec ratePeriod a fractionA es' (snd r)
        else connected_loop rec ratePeriod a fractionA es' fr
    else connected_loop rec ratePeriod a fractionA es' fr
  end.

(** [calcFractionsConnectedActors], repetition_vector.cpp 15-86; the result is the
    returned flag and the map passed by reference.  The recursion is fuelled. *)
Fixpoint calc_fractions (fuel : nat) (g : graph) (ratePeriod : Z) (a : nat) (fr : fractions)
  : outcome (bool * fractions) :=
  match fuel with
  | O => Timeout
  | S fuel' =>
    if frac_eqb (fr a) fzero then Ok (false, fr)                               (* 20-23 *)
    else connected_loop (calc_fractions fuel' g ratePeriod) ratePeriod a (fr a) (edges g) fr
  end.

(** The loop over all vertices, repetition_vector.cpp 178-183. *)
Fixpoint all_fractions (fuel : nat) (g : graph) (ratePeriod : Z) (vs : list nat) (fr : fractions)
  : outcome (option fractions) :=
  match vs with
  | [] => Ok (Some fr)
  | v :: vs' =>
    if frac_eqb (fr v) fzero then
      do r <- calc_fractions fuel g ratePeriod v (fset fr v fone);
      if fst r then all_fractions fuel g ratePeriod vs' (snd r) else Ok None
    else all_fractions fuel g ratePeriod vs' fr
  end.

(** repetition_vector.cpp 170-173. *)
Definition rate_period (g : graph) : Z :=
  fold_left (fun rp c => Z.lcm (Z.lcm rp (Z.of_nat (length (e_in c)))) (Z.of_nat (length (e_out c)))) (edges g) 1.

(** map over vertices with failure *)
Fixpoint each (f : nat -> outcome Z) (vs : list nat) : outcome (list Z) :=
  match vs with
  | [] => Ok []
  | v :: vs' => do x <- f v; do xs <- each f vs'; Ok (x :: xs)
  end.

(** [calcRepetitionVector], repetition_vector.cpp 89-150.  [None] is [return false].
    Vertices are 0..n-1; the vector is returned as a list indexed by vertex. *)
Definition calc_repetition (g : graph) (fr : fractions) (ratePeriod : Z) : outcome (option (list Z)) :=
  let vs := seq 0 (length (vertices g)) in
  let l := fold_left (fun l v => Z.lcm l (denominator (fr v))) vs 1 in         (* 92-97 *)
  if l =? 0 then Ok None                                                       (* 100-103 *)
  else
    do rep <- each (fun v => cdiv (numerator (fr v) * l) (denominator (fr v))) vs;  (* 107-109 *)
    match rep with
    | [] => Undefined                       (* 113: begin()->second of an empty map *)
    | r0 :: _ =>
      let gg := fold_left Z.gcd rep r0 in                                      (* 113-117 *)
      do _ <- cassert (0 <? gg);                                               (* 119 *)
      do rep1 <- each (fun v => cdiv (nth v rep 0) gg) vs;                     (* 122-124 *)
      let rep2 := map (fun x => x * ratePeriod) rep1 in                        (* 126-128 *)
      do qs <- each (fun v => match nth_error (vertices g) v with
                              | Some t => cdiv (nth v rep2 0) (Z.of_nat (v_phases t))
                              | None => Undefined
                              end) vs;
      let subrate := fold_left Z.gcd qs ratePeriod in                          (* 132-135 *)
      do rep3 <- each (fun v => cdiv (nth v rep2 0) subrate) vs;               (* 138-140 *)
      Ok (Some rep3)                                                           (* 144-149 *)
    end.

(** [computeRepetitionVector], repetition_vector.cpp 158-189, on a graph without a stored
    repetition vector (line 159 returns true at once otherwise; the flag and the
    read-only mark of 160 and 187 belong to the builder model, Builder.v). *)
Definition compute_repetition_vector (fuel : nat) (g : graph) : outcome (option (list Z)) :=
  let rp := rate_period g in
  do _ <- cassert (0 <? rp);                                                   (* 174 *)
  do fr <- all_fractions fuel g rp (seq 0 (length (vertices g))) fcleared;
  match fr with
  | None => Ok None
  | Some fr => calc_repetition g fr rp
  end.
