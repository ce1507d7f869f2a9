(** Properties C01 and C02: exact rational arithmetic and comparison. *)
From Verif Require Import Base Fraction FractionProofs.
From Coq Require Import QArith.
Open Scope Z_scope.

(** C01 - construction. *)
Theorem C01_make_fraction_exact_lowest : forall n d, 0 < d ->
  exists f, make_fraction n d = Ok f /\ (fvalue f == Qmake n (Z.to_pos d))%Q /\ lowest f.
Proof. exact make_fraction_correct. Qed.
Print Assumptions C01_make_fraction_exact_lowest.

(** C01 - multiplication by a fraction and by an integer. *)
Theorem C01_mul_exact_lowest : forall a b, 0 < denominator a -> 0 < denominator b ->
  exists c, frac_mul a b = Ok c /\ (fvalue c == fvalue a * fvalue b)%Q /\ lowest c.
Proof. exact frac_mul_correct. Qed.
Print Assumptions C01_mul_exact_lowest.

Theorem C01_mul_int_exact_lowest : forall a i, 0 < denominator a ->
  exists c, frac_mul_int a i = Ok c /\ (fvalue c == fvalue a * inject_Z i)%Q /\ lowest c.
Proof. exact frac_mul_int_correct. Qed.
Print Assumptions C01_mul_int_exact_lowest.

(** C01 - division by a fraction and by an integer. *)
Theorem C01_div_exact_lowest : forall a b, lowest a -> lowest b -> numerator b <> 0 ->
  exists c, frac_div a b = Ok c /\ (fvalue c == fvalue a / fvalue b)%Q /\ 0 < denominator c /\
            lowest c.
Proof. exact frac_div_correct. Qed.
Print Assumptions C01_div_exact_lowest.

Theorem C01_div_int_exact_lowest : forall a i, lowest a -> i <> 0 ->
  exists c, frac_div_int a i = Ok c /\ (fvalue c == fvalue a / inject_Z i)%Q /\ lowest c.
Proof. exact frac_div_int_correct. Qed.
Print Assumptions C01_div_int_exact_lowest.

Theorem C01_div_by_zero_rejected : forall a b, numerator b = 0 -> frac_div a b = Rejected.
Proof. exact frac_div_by_zero_rejected. Qed.
Print Assumptions C01_div_by_zero_rejected.

(** Non-vacuity: 6/-4-like values, negative divisors. *)
Example C01_ex_make : make_fraction (-12) 18 = Ok (mkFraction (-2) 3). Proof. reflexivity. Qed.
Example C01_ex_div : frac_div (mkFraction 3 4) (mkFraction (-9) 8) = Ok (mkFraction (-2) 3).
Proof. reflexivity. Qed.
Example C01_ex_lowest : lowest (mkFraction 3 4) /\ lowest (mkFraction (-9) 8).
Proof. repeat split; reflexivity. Qed.

(** C02 - comparison of fractions; [fuel] bounds the number of loop iterations, any
    fuel at least the left denominator is enough, so the C++ loop terminates. *)
Theorem C02_lt_exact : forall a b fuel,
  0 < denominator a -> 0 < denominator b -> denominator a <= Z.of_nat fuel ->
  frac_ltb fuel a b = Ok (Qltb (fvalue a) (fvalue b)).
Proof. exact frac_ltb_correct. Qed.
Print Assumptions C02_lt_exact.

(** [Qltb] is the standard library's strict order on Q. *)
Theorem C02_Qltb_is_Qlt : forall x y, Qltb x y = true <-> (x < y)%Q.
Proof. exact Qltb_iff. Qed.
Print Assumptions C02_Qltb_is_Qlt.

Theorem C02_eq_exact : forall a b, lowest a -> lowest b ->
  frac_eqb a b = Qeq_bool (fvalue a) (fvalue b).
Proof. exact frac_eqb_correct. Qed.
Print Assumptions C02_eq_exact.

Theorem C02_gt_exact : forall a b fuel, lowest a -> lowest b -> denominator a <= Z.of_nat fuel ->
  frac_gtb fuel a b = Ok (Qltb (fvalue b) (fvalue a)).
Proof. exact frac_gtb_correct. Qed.
Print Assumptions C02_gt_exact.

Theorem C02_le_exact : forall a b fuel, lowest a -> lowest b -> denominator a <= Z.of_nat fuel ->
  frac_leb fuel a b = Ok (Qle_bool (fvalue a) (fvalue b)).
Proof. exact frac_leb_correct. Qed.
Print Assumptions C02_le_exact.

Theorem C02_lt_int_exact : forall a i fuel, 0 < denominator a -> (1 <= fuel)%nat ->
  frac_ltb_int fuel a i = Ok (Qltb (fvalue a) (inject_Z i)).
Proof. exact frac_ltb_int_correct. Qed.
Print Assumptions C02_lt_int_exact.

Theorem C02_eq_int_exact : forall a i, lowest a ->
  frac_eqb_int a i = Qeq_bool (fvalue a) (inject_Z i).
Proof. exact frac_eqb_int_correct. Qed.
Print Assumptions C02_eq_int_exact.

Theorem C02_gt_int_exact : forall a i fuel, lowest a -> (1 <= fuel)%nat ->
  frac_gtb_int fuel a i = Ok (Qltb (inject_Z i) (fvalue a)).
Proof. exact frac_gtb_int_correct. Qed.
Print Assumptions C02_gt_int_exact.

(** Fractions with a non-positive denominator are refused by the comparison... *)
Theorem C02_nonpositive_denominator_rejected : forall fuel a b,
  denominator a <= 0 \/ denominator b <= 0 -> frac_ltb fuel a b = Rejected.
Proof. exact frac_ltb_rejects. Qed.
Print Assumptions C02_nonpositive_denominator_rejected.

(** ...and the constructor does produce them (no sign normalisation), so comparison is
    not total over constructible fractions: finding. *)
Theorem C02_total_on_constructible_refuted :
  exists n d f fuel, make_fraction n d = Ok f /\ d <> 0 /\ frac_ltb fuel f f = Rejected.
Proof. exists 1, (-2), (mkFraction 1 (-2)), 10%nat. repeat split; try reflexivity. discriminate. Qed.
Print Assumptions C02_total_on_constructible_refuted.

Example C02_ex_lt : frac_ltb 20 (mkFraction (-7) 5) (mkFraction (-11) 8) = Ok true.
Proof. reflexivity. Qed.
Example C02_ex_lt_deep : frac_ltb 100 (mkFraction 55 89) (mkFraction 34 55) = Ok true.
Proof. reflexivity. Qed.
Example C02_ex_gt : frac_gtb 100 (mkFraction 34 55) (mkFraction 55 89) = Ok true.
Proof. reflexivity. Qed.
