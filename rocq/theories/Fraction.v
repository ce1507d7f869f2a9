(** Model of the class template [Fraction<V>], commons/commons.h 42-295.
    [V] is [long int]; machine overflow is not modelled ([Z] is unbounded). *)
From Verif Require Import Base.
Open Scope Z_scope.

(** The two private members, commons/commons.h 44. *)
Record fraction := mkFraction { numerator : Z; denominator : Z }.

(** Constructor, commons/commons.h 46: both members are divided by
    [std::gcd(n,d)]; with n = d = 0 that is a division by zero. *)
Definition make_fraction (n d : Z) : outcome fraction :=
  do n' <- cdiv n (Z.gcd n d);
  do d' <- cdiv d (Z.gcd n d);
  Ok (mkFraction n' d').

(** [operator==], commons/commons.h 56-58. *)
Definition frac_eqb (a b : fraction) : bool :=
  (numerator a =? numerator b) && (denominator a =? denominator b).

(** [operator!=], commons/commons.h 272-276. *)
Definition frac_neqb (a b : fraction) : bool :=
  negb ((numerator a =? numerator b) && (denominator a =? denominator b)).

(** [while (r < zero) { r += d; --q; }], commons/commons.h 88-89 and 157.
    Fuelled loop. *)
Fixpoint normalize_rem (fuel : nat) (d q r : Z) : outcome (Z * Z) :=
  if r <? 0 then
    match fuel with
    | O => Timeout
    | S f => normalize_rem f d (q - 1) (r + d)
    end
  else Ok (q, r).

(** The main loop of [operator<], commons/commons.h 92-136.
    State: (ts.d, ts.q, ts.r), (rs.d, rs.q, rs.r) and the flag [reverse].
    (ts.n and rs.n are overwritten before being read again.) *)
Fixpoint frac_lt_loop (fuel : nat) (td tq tr rd rq rr : Z) (reverse : bool) : outcome bool :=
  if negb (tq =? rq) then
    Ok (if reverse then rq <? tq else tq <? rq)             (* 97-103 *)
  else
    let reverse' := negb reverse in                          (* 106 *)
    if (tr =? 0) || (rr =? 0) then                           (* 108-112 *)
      if tr =? rr then Ok false                              (* 121-127 *)
      else Ok (xorb (negb (tr =? 0)) reverse')               (* 135 *)
    else
      match fuel with
      | O => Timeout
      | S f =>                                               (* 114-117 *)
        do tq' <- cdiv td tr; do tr' <- cmod td tr;
        do rq' <- cdiv rd rr; do rr' <- cmod rd rr;
        frac_lt_loop f tr tq' tr' rr rq' rr' reverse'
      end.

(** [operator<(const Fraction&)], commons/commons.h 62-137. *)
Definition frac_ltb (fuel : nat) (a b : fraction) : outcome bool :=
  do _ <- cassert (0 <? denominator a);                      (* 71 *)
  do _ <- cassert (0 <? denominator b);                      (* 72 *)
  do tq <- cdiv (numerator a) (denominator a);               (* 77-80 *)
  do tr <- cmod (numerator a) (denominator a);
  do rq <- cdiv (numerator b) (denominator b);
  do rr <- cmod (numerator b) (denominator b);
  do (tq', tr') <- normalize_rem fuel (denominator a) tq tr; (* 88 *)
  do (rq', rr') <- normalize_rem fuel (denominator b) rq rr; (* 89 *)
  frac_lt_loop fuel (denominator a) tq' tr' (denominator b) rq' rr' false.

(** [operator>], commons/commons.h 52-54. *)
Definition frac_gtb (fuel : nat) (a b : fraction) : outcome bool :=
  if frac_eqb a b then Ok false
  else do l <- frac_ltb fuel a b; Ok (negb l).

(** [operator<=], commons/commons.h 257-261. *)
Definition frac_leb (fuel : nat) (a b : fraction) : outcome bool :=
  do g <- frac_gtb fuel a b; Ok (negb g).

(** [operator==(const V&)], commons/commons.h 146-148. *)
Definition frac_eqb_int (a : fraction) (i : Z) : bool :=
  (denominator a =? 1) && (numerator a =? i).

(** [operator<(const V&)], commons/commons.h 149-164.  BOOST_ASSERT is an
    assertion in debug builds. *)
Definition frac_ltb_int (fuel : nat) (a : fraction) (i : Z) : outcome bool :=
  do _ <- cassert (0 <? denominator a);
  do q <- cdiv (numerator a) (denominator a);
  do r <- cmod (numerator a) (denominator a);
  do (q', _) <- normalize_rem fuel (denominator a) q r;
  Ok (q' <? i).

(** [operator>(const V&)], commons/commons.h 142-144. *)
Definition frac_gtb_int (fuel : nat) (a : fraction) (i : Z) : outcome bool :=
  if frac_eqb_int a i then Ok false
  else do l <- frac_ltb_int fuel a i; Ok (negb l).

(** [operator*=], commons/commons.h 169-174 ([n * rhs.n / gcd] parses as
    [(n * rhs.n) / gcd]); the free [operator*] 285-289 is the same on a copy. *)
Definition frac_mul (a b : fraction) : outcome fraction :=
  let nn := numerator a * numerator b in
  let dd := denominator a * denominator b in
  do n' <- cdiv nn (Z.gcd nn dd);
  do d' <- cdiv dd (Z.gcd nn dd);
  Ok (mkFraction n' d').

(** [operator*(Fraction, V)], commons/commons.h 291-295. *)
Definition frac_mul_int (a : fraction) (i : Z) : outcome fraction :=
  do b <- make_fraction i 1; frac_mul a b.

(** [operator/=(const Fraction&)], commons/commons.h 178-204; the free
    [operator/] 279-283 is the same on a copy. *)
Definition frac_div (a b : fraction) : outcome fraction :=
  do _ <- cassert (negb (numerator b =? 0));                 (* 187 *)
  if numerator a =? 0 then Ok a                              (* 190-191 *)
  else
    let gcd1 := Z.gcd (numerator a) (numerator b) in         (* 194 *)
    let gcd2 := Z.gcd (denominator b) (denominator a) in     (* 195 *)
    do n1 <- cdiv (numerator a) gcd1;
    do d2 <- cdiv (denominator b) gcd2;
    do d1 <- cdiv (denominator a) gcd2;
    do n2 <- cdiv (numerator b) gcd1;
    let n' := n1 * d2 in                                     (* 196 *)
    let d' := d1 * n2 in                                     (* 197 *)
    if d' <? 0 then Ok (mkFraction (- n') (- d'))            (* 199-202 *)
    else Ok (mkFraction n' d').

(** [operator/=(const V&)], commons/commons.h 210-228. *)
Definition frac_div_int (a : fraction) (i : Z) : outcome fraction :=
  do _ <- cassert (negb (i =? 0));                           (* 214 *)
  if numerator a =? 0 then Ok a                              (* 215 *)
  else
    let g := Z.gcd (numerator a) i in                        (* 218 *)
    do n' <- cdiv (numerator a) g;                           (* 219 *)
    do i' <- cdiv i g;
    let d' := denominator a * i' in                          (* 220 *)
    if d' <? 0 then Ok (mkFraction (- n') (- d'))            (* 222-225 *)
    else Ok (mkFraction n' d').
