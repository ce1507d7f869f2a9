(** Proofs about the [Fraction] model. *)
From Verif Require Import Base Fraction.
From Coq Require Import QArith Qfield Znumtheory.
Require Import ZifyBool ZifyNat.
Open Scope Z_scope.

(** Specification: the rational number a fraction stands for (denominator > 0). *)
Definition fvalue (f : fraction) : Q := Qmake (numerator f) (Z.to_pos (denominator f)).

(** Specification: lowest terms with a positive denominator. *)
Definition lowest (f : fraction) : Prop :=
  0 < denominator f /\ Z.gcd (numerator f) (denominator f) = 1.

Lemma cdiv_ok a b : b <> 0 -> cdiv a b = Ok (Z.quot a b).
Proof. intros H; unfold cdiv; destruct (Z.eqb_spec b 0); [contradiction|reflexivity]. Qed.

Lemma cmod_ok a b : b <> 0 -> cmod a b = Ok (Z.rem a b).
Proof. intros H; unfold cmod; destruct (Z.eqb_spec b 0); [contradiction|reflexivity]. Qed.

Lemma quot_exact a b k : b <> 0 -> a = k * b -> Z.quot a b = k.
Proof. intros Hb ->. apply Z.quot_mul; assumption. Qed.

Lemma gcd_split n d : 0 < Z.gcd n d ->
  exists n' d', n = n' * Z.gcd n d /\ d = d' * Z.gcd n d /\ Z.gcd n' d' = 1.
Proof.
  intros H.
  destruct (Z.gcd_divide_l n d) as [n' Hn]. destruct (Z.gcd_divide_r n d) as [d' Hd].
  exists n', d'. repeat split; try assumption.
  assert (E : Z.gcd n d = Z.gcd n' d' * Z.gcd n d).
  { set (g := Z.gcd n d) in *. assert (G : Z.gcd n d = g) by reflexivity.
    clearbody g. subst n d. rewrite Z.gcd_mul_mono_r, Z.abs_eq in G; lia. }
  nia.
Qed.

Lemma fvalue_eq_cross f n d : 0 < denominator f -> 0 < d ->
  (fvalue f == Qmake n (Z.to_pos d))%Q <-> numerator f * d = n * denominator f.
Proof. intros Hf Hd. unfold fvalue, Qeq; simpl. rewrite !Z2Pos.id by lia. reflexivity. Qed.

Lemma make_fraction_correct n d : 0 < d ->
  exists f, make_fraction n d = Ok f /\ (fvalue f == Qmake n (Z.to_pos d))%Q /\ lowest f.
Proof.
  intros Hd.
  assert (Hg : 0 < Z.gcd n d).
  { pose proof (Z.gcd_nonneg n d). assert (Z.gcd n d <> 0) by (rewrite Z.gcd_eq_0; lia). lia. }
  destruct (gcd_split n d Hg) as (n' & d' & Hn & Hd' & Hc).
  exists (mkFraction n' d'). unfold make_fraction, bind.
  rewrite !cdiv_ok by lia.
  rewrite (quot_exact n _ n'), (quot_exact d _ d') by lia.
  assert (0 < d') by nia.
  split; [reflexivity|]. split.
  - rewrite fvalue_eq_cross by (simpl; lia). simpl. nia.
  - split; simpl; assumption.
Qed.

Lemma make_fraction_zero_zero : make_fraction 0 0 = Undefined.
Proof. reflexivity. Qed.

Lemma frac_mul_correct a b : 0 < denominator a -> 0 < denominator b ->
  exists c, frac_mul a b = Ok c /\ (fvalue c == fvalue a * fvalue b)%Q /\ lowest c.
Proof.
  intros Ha Hb.
  destruct (make_fraction_correct (numerator a * numerator b) (denominator a * denominator b))
    as (c & Hc & Hv & Hl); [nia|].
  exists c. split; [exact Hc|]. split; [|exact Hl].
  rewrite Hv. unfold fvalue, Qeq, Qmult; simpl.
  rewrite Pos2Z.inj_mul, !Z2Pos.id by nia. reflexivity.
Qed.

Lemma frac_mul_int_correct a i : 0 < denominator a ->
  exists c, frac_mul_int a i = Ok c /\ (fvalue c == fvalue a * inject_Z i)%Q /\ lowest c.
Proof.
  intros Ha. unfold frac_mul_int.
  destruct (make_fraction_correct i 1) as (b & Hb & Hv & Hl); [lia|].
  rewrite Hb; cbn [bind].
  destruct (frac_mul_correct a b Ha (proj1 Hl)) as (c & Hc & Hcv & Hcl).
  exists c. split; [exact Hc|]. split; [|exact Hcl].
  rewrite Hcv, Hv. reflexivity.
Qed.

Lemma coprime_mul n1 d2 d1 n2 :
  Z.gcd n1 d1 = 1 -> Z.gcd n1 n2 = 1 -> Z.gcd d2 d1 = 1 -> Z.gcd d2 n2 = 1 ->
  Z.gcd (n1 * d2) (d1 * n2) = 1.
Proof.
  intros A B C D.
  apply Zgcd_1_rel_prime.
  apply Zgcd_1_rel_prime in A. apply Zgcd_1_rel_prime in B.
  apply Zgcd_1_rel_prime in C. apply Zgcd_1_rel_prime in D.
  apply rel_prime_mult; apply rel_prime_sym; apply rel_prime_mult; apply rel_prime_sym; assumption.
Qed.

Lemma gcd_factor_coprime a b g h : Z.gcd (a * g) (b * h) = 1 -> Z.gcd a b = 1.
Proof.
  intros H. apply Zgcd_1_rel_prime in H. apply Zgcd_1_rel_prime.
  apply rel_prime_div with (p := a * g); [|exists g; ring].
  apply rel_prime_sym. apply rel_prime_div with (p := b * h); [|exists h; ring].
  apply rel_prime_sym. exact H.
Qed.

Lemma frac_div_correct a b : lowest a -> lowest b -> numerator b <> 0 ->
  exists c, frac_div a b = Ok c /\ (fvalue c == fvalue a / fvalue b)%Q /\ 0 < denominator c /\
            lowest c.
Proof.
  intros [Hda Hga] [Hdb Hgb] Hb. unfold frac_div.
  destruct (Z.eqb_spec (numerator b) 0) as [E|_]; [contradiction|]. cbn [negb cassert bind].
  destruct (Z.eqb_spec (numerator a) 0) as [E|Hna].
  { exists a. split; [reflexivity|]. split; [|split; [exact Hda|split; assumption]].
    unfold fvalue, Qdiv. rewrite E. unfold Qeq, Qmult. simpl. lia. }
  assert (Hg1 : 0 < Z.gcd (numerator a) (numerator b)).
  { pose proof (Z.gcd_nonneg (numerator a) (numerator b)).
    assert (Z.gcd (numerator a) (numerator b) <> 0) by (rewrite Z.gcd_eq_0; lia). lia. }
  assert (Hg2 : 0 < Z.gcd (denominator b) (denominator a)).
  { pose proof (Z.gcd_nonneg (denominator b) (denominator a)).
    assert (Z.gcd (denominator b) (denominator a) <> 0) by (rewrite Z.gcd_eq_0; lia). lia. }
  destruct (gcd_split _ _ Hg1) as (n1 & n2 & E1 & E2 & C1).
  destruct (gcd_split _ _ Hg2) as (d2 & d1 & E3 & E4 & C2).
  set (g1 := Z.gcd (numerator a) (numerator b)) in *.
  set (g2 := Z.gcd (denominator b) (denominator a)) in *.
  rewrite !cdiv_ok by lia. cbn [bind].
  rewrite (quot_exact (numerator a) _ n1), (quot_exact (numerator b) _ n2), (quot_exact (denominator b) _ d2),
    (quot_exact (denominator a) _ d1) by lia.
  assert (Hd1 : 0 < d1) by nia. assert (Hd2 : 0 < d2) by nia.
  assert (Hn2 : n2 <> 0) by nia. assert (Hn1 : n1 <> 0) by nia.
  assert (HC : Z.gcd (n1 * d2) (d1 * n2) = 1).
  { apply coprime_mul; try assumption.
    - apply (gcd_factor_coprime n1 d1 g1 g2). rewrite <- E1, <- E4. exact Hga.
    - rewrite Z.gcd_comm. apply (gcd_factor_coprime n2 d2 g1 g2). rewrite <- E2, <- E3. exact Hgb. }
  assert (Hcross : forall s, s <> 0 -> 0 < s * (d1 * n2) ->
    (fvalue (mkFraction (s * (n1 * d2)) (s * (d1 * n2))) == fvalue a / fvalue b)%Q).
  { intros s Hs Hpos.
    assert (Hfb : ~ (fvalue b == 0)%Q). { unfold fvalue, Qeq; simpl. lia. }
    assert (Hm : (fvalue (mkFraction (s * (n1 * d2)) (s * (d1 * n2))) * fvalue b == fvalue a)%Q).
    { unfold fvalue, Qeq, Qmult; simpl. rewrite Pos2Z.inj_mul, !Z2Pos.id by lia.
      rewrite E1, E2, E3, E4. ring. }
    rewrite <- Hm. field. exact Hfb. }
  destruct (Z.ltb_spec (d1 * n2) 0) as [Hneg|Hpos].
  - eexists. split; [reflexivity|].
    split; [|split; [|split]]; cbn [numerator denominator]; try lia.
    + replace (- (n1 * d2)) with ((-1) * (n1 * d2)) by ring.
      replace (- (d1 * n2)) with ((-1) * (d1 * n2)) by ring. apply Hcross; nia.
    + rewrite Z.gcd_opp_l, Z.gcd_opp_r. exact HC.
  - eexists. split; [reflexivity|].
    split; [|split; [|split]]; cbn [numerator denominator]; try nia.
    replace (n1 * d2) with (1 * (n1 * d2)) by ring.
    replace (d1 * n2) with (1 * (d1 * n2)) by ring. apply Hcross; nia.
Qed.

Lemma frac_div_by_zero_rejected a b : numerator b = 0 -> frac_div a b = Rejected.
Proof. intros H. unfold frac_div. rewrite H. reflexivity. Qed.

Lemma frac_div_int_correct a i : lowest a -> i <> 0 ->
  exists c, frac_div_int a i = Ok c /\ (fvalue c == fvalue a / inject_Z i)%Q /\ lowest c.
Proof.
  intros [Hda Hga] Hi. unfold frac_div_int.
  destruct (Z.eqb_spec i 0) as [E|_]; [contradiction|]. cbn [negb cassert bind].
  destruct (Z.eqb_spec (numerator a) 0) as [E|Hna].
  { exists a. split; [reflexivity|]. split; [|split; assumption].
    unfold fvalue, Qdiv. rewrite E. unfold Qeq, Qmult. simpl. lia. }
  assert (Hg1 : 0 < Z.gcd (numerator a) i).
  { pose proof (Z.gcd_nonneg (numerator a) i).
    assert (Z.gcd (numerator a) i <> 0) by (rewrite Z.gcd_eq_0; lia). lia. }
  destruct (gcd_split _ _ Hg1) as (n1 & i1 & E1 & E2 & C1).
  set (g1 := Z.gcd (numerator a) i) in *.
  rewrite !cdiv_ok by lia. cbn [bind].
  rewrite (quot_exact (numerator a) _ n1), (quot_exact i _ i1) by lia.
  assert (HC : Z.gcd n1 (denominator a * i1) = 1).
  { apply Zgcd_1_rel_prime. apply rel_prime_mult; apply Zgcd_1_rel_prime; [|exact C1].
    apply (gcd_factor_coprime n1 (denominator a) g1 1). rewrite <- E1, Z.mul_1_r. exact Hga. }
  assert (Hi1 : i1 <> 0) by nia.
  assert (Hcross : forall s, s <> 0 -> 0 < s * (denominator a * i1) ->
    (fvalue (mkFraction (s * n1) (s * (denominator a * i1))) == fvalue a / inject_Z i)%Q).
  { intros s Hs Hpos.
    assert (Hfb : ~ (inject_Z i == 0)%Q). { unfold inject_Z, Qeq; simpl. lia. }
    assert (Hm : (fvalue (mkFraction (s * n1) (s * (denominator a * i1))) * inject_Z i == fvalue a)%Q).
    { unfold fvalue, Qeq, Qmult, inject_Z; simpl. rewrite Pos.mul_1_r, !Z2Pos.id by lia.
      rewrite E1, E2. ring. }
    rewrite <- Hm. field. exact Hfb. }
  destruct (Z.ltb_spec (denominator a * i1) 0) as [Hneg|Hpos].
  - eexists. split; [reflexivity|].
    split; [|split]; cbn [numerator denominator]; try lia.
    + replace (- n1) with ((-1) * n1) by ring.
      replace (- (denominator a * i1)) with ((-1) * (denominator a * i1)) by ring.
      apply Hcross; nia.
    + rewrite Z.gcd_opp_l, Z.gcd_opp_r. exact HC.
  - eexists. split; [reflexivity|].
    split; [|split]; cbn [numerator denominator]; try nia.
    replace n1 with (1 * n1) by ring.
    replace (denominator a * i1) with (1 * (denominator a * i1)) by ring. apply Hcross; nia.
Qed.

(** * Comparison *)

Lemma normalize_rem_spec d n fuel : 0 < d -> (1 <= fuel)%nat ->
  exists q r, normalize_rem fuel d (Z.quot n d) (Z.rem n d) = Ok (q, r) /\
              n = q * d + r /\ 0 <= r < d.
Proof.
  intros Hd Hf.
  pose proof (Z.quot_rem n d ltac:(lia)) as E.
  destruct (Z_lt_le_dec n 0) as [Hn|Hn].
  - assert (Hb : - d < Z.rem n d <= 0).
    { destruct (Z.eq_dec (Z.rem n d) 0) as [->|Hz]; [lia|].
      pose proof (Z.rem_bound_abs n d ltac:(lia)). pose proof (Z.rem_sign_nz n d ltac:(lia) Hz). lia. }
    destruct fuel as [|fuel]; [lia|]. simpl.
    destruct (Z.ltb_spec (Z.rem n d) 0) as [Hr|Hr].
    + assert (Hnext : forall f, normalize_rem f d (Z.quot n d - 1) (Z.rem n d + d)
              = Ok (Z.quot n d - 1, Z.rem n d + d)).
      { intros f; destruct f; simpl; destruct (Z.ltb_spec (Z.rem n d + d) 0); try lia; reflexivity. }
      exists (Z.quot n d - 1), (Z.rem n d + d). rewrite Hnext. split; [reflexivity|]. nia.
    + exists (Z.quot n d), (Z.rem n d). split; [reflexivity|]. nia.
  - pose proof (Z.rem_bound_pos n d Hn Hd).
    exists (Z.quot n d), (Z.rem n d).
    destruct fuel; simpl; destruct (Z.ltb_spec (Z.rem n d) 0); try lia;
      (split; [reflexivity|]; nia).
Qed.

Lemma cf_step td tq tr rd rq rr : 0 <= tr < td -> 0 <= rr < rd -> rq < tq ->
  (rq * rd + rr) * td < (tq * td + tr) * rd.
Proof.
  intros Ht Hr Hq.
  apply Z.lt_le_trans with ((rq * rd + rd) * td).
  - apply Z.mul_lt_mono_pos_r; lia.
  - replace ((rq * rd + rd) * td) with ((rq + 1) * td * rd) by ring.
    apply Z.mul_le_mono_nonneg_r; [lia|]. nia.
Qed.

(** The continued-fraction loop decides the order of  tq + tr/td  and  rq + rr/rd. *)
Lemma frac_lt_loop_spec : forall fuel td tq tr rd rq rr rev,
  0 <= tr < td -> 0 <= rr < rd -> (Z.to_nat tr <= fuel)%nat ->
  frac_lt_loop fuel td tq tr rd rq rr rev =
    Ok (if rev then (rq * rd + rr) * td <? (tq * td + tr) * rd
        else (tq * td + tr) * rd <? (rq * rd + rr) * td).
Proof.
  induction fuel as [|fuel IH]; intros td tq tr rd rq rr rev Ht Hr Hf; cbn [frac_lt_loop].
  - destruct (Z.eqb_spec tq rq) as [->|Hq]; cbn [negb].
    + destruct (Z.eqb_spec tr 0) as [->|]; [|lia]. cbn [orb].
      destruct (Z.eqb_spec 0 rr) as [<-|Hrr]; f_equal; destruct rev; cbn;
        symmetry; lia || nia.
    + f_equal. destruct rev.
      * destruct (Z.lt_trichotomy rq tq) as [L|[L|L]]; [|lia|];
          first [pose proof (cf_step _ _ _ _ _ _ Ht Hr L); lia | pose proof (cf_step _ _ _ _ _ _ Hr Ht L); lia].
      * destruct (Z.lt_trichotomy rq tq) as [L|[L|L]]; [|lia|];
          first [pose proof (cf_step _ _ _ _ _ _ Ht Hr L); lia | pose proof (cf_step _ _ _ _ _ _ Hr Ht L); lia].
  - destruct (Z.eqb_spec tq rq) as [->|Hq]; cbn [negb].
    + destruct (Z.eqb_spec tr 0) as [->|Htr]; cbn [orb].
      { destruct (Z.eqb_spec 0 rr) as [<-|Hrr]; f_equal; destruct rev; cbn;
        symmetry; lia || nia. }
      destruct (Z.eqb_spec rr 0) as [->|Hrr]; cbn [orb].
      { destruct (Z.eqb_spec tr 0) as [|_]; [lia|]. cbn [negb].
        f_equal; destruct rev; cbn; symmetry; nia. }
      rewrite !cdiv_ok, !cmod_ok by lia. cbn [bind].
      pose proof (Z.quot_rem td tr ltac:(lia)) as E1.
      pose proof (Z.rem_bound_pos td tr ltac:(lia) ltac:(lia)).
      pose proof (Z.quot_rem rd rr ltac:(lia)) as E2.
      pose proof (Z.rem_bound_pos rd rr ltac:(lia) ltac:(lia)).
      rewrite IH by lia. f_equal.
      replace (td ÷ tr * tr + Z.rem td tr) with td by lia.
      replace (rd ÷ rr * rr + Z.rem rd rr) with rd by lia.
      destruct rev; cbn [negb].
      * destruct (Z.ltb_spec (td * rr) (rd * tr));
          destruct (Z.ltb_spec ((rq * rd + rr) * td) ((rq * td + tr) * rd)); nia.
      * destruct (Z.ltb_spec (rd * tr) (td * rr));
          destruct (Z.ltb_spec ((rq * td + tr) * rd) ((rq * rd + rr) * td)); nia.
    + f_equal. destruct rev.
      * destruct (Z.lt_trichotomy rq tq) as [L|[L|L]]; [|lia|];
          first [pose proof (cf_step _ _ _ _ _ _ Ht Hr L); lia | pose proof (cf_step _ _ _ _ _ _ Hr Ht L); lia].
      * destruct (Z.lt_trichotomy rq tq) as [L|[L|L]]; [|lia|];
          first [pose proof (cf_step _ _ _ _ _ _ Ht Hr L); lia | pose proof (cf_step _ _ _ _ _ _ Hr Ht L); lia].
Qed.

(** Boolean order on rationals used to state the comparison theorems. *)
Definition Qltb (x y : Q) : bool := negb (Qle_bool y x).

Lemma Qltb_iff x y : Qltb x y = true <-> (x < y)%Q.
Proof.
  unfold Qltb. rewrite negb_true_iff.
  split; intros H.
  - apply Qnot_le_lt. intros C. apply Qle_bool_iff in C. congruence.
  - destruct (Qle_bool y x) eqn:E; [|reflexivity]. apply Qle_bool_iff in E.
    exfalso. apply (Qlt_not_le _ _ H E).
Qed.

Lemma fvalue_lt_cross a b : 0 < denominator a -> 0 < denominator b ->
  Qltb (fvalue a) (fvalue b) = (numerator a * denominator b <? numerator b * denominator a).
Proof.
  intros Ha Hb. unfold Qltb, Qle_bool, fvalue; simpl. rewrite !Z2Pos.id by lia.
  lia.
Qed.

Lemma frac_ltb_correct a b fuel :
  0 < denominator a -> 0 < denominator b -> denominator a <= Z.of_nat fuel ->
  frac_ltb fuel a b = Ok (Qltb (fvalue a) (fvalue b)).
Proof.
  intros Ha Hb Hf. rewrite fvalue_lt_cross by assumption.
  unfold frac_ltb.
  destruct (Z.ltb_spec 0 (denominator a)); [|lia].
  destruct (Z.ltb_spec 0 (denominator b)); [|lia]. cbn [cassert bind].
  rewrite !cdiv_ok, !cmod_ok by lia. cbn [bind].
  destruct (normalize_rem_spec (denominator a) (numerator a) fuel) as (qa & ra & -> & Ea & Ra); [lia|lia|].
  destruct (normalize_rem_spec (denominator b) (numerator b) fuel) as (qb & rb & -> & Eb & Rb); [lia|lia|].
  cbn [bind]. rewrite frac_lt_loop_spec by lia. cbn beta iota.
  rewrite <- Ea, <- Eb. reflexivity.
Qed.

Lemma frac_ltb_rejects fuel a b :
  denominator a <= 0 \/ denominator b <= 0 -> frac_ltb fuel a b = Rejected.
Proof.
  intros H. unfold frac_ltb.
  destruct (Z.ltb_spec 0 (denominator a)); cbn [cassert bind]; [|reflexivity].
  destruct (Z.ltb_spec 0 (denominator b)); cbn [cassert bind]; [lia|reflexivity].
Qed.

Lemma frac_eqb_correct a b : lowest a -> lowest b ->
  frac_eqb a b = Qeq_bool (fvalue a) (fvalue b).
Proof.
  intros [Hda Hga] [Hdb Hgb].
  destruct (Qeq_bool (fvalue a) (fvalue b)) eqn:E.
  - apply Qeq_bool_iff in E. unfold fvalue, Qeq in E; simpl in E.
    rewrite !Z2Pos.id in E by lia.
    assert (D1 : (denominator a | denominator b)).
    { apply Z.gauss with (m := numerator a).
      - exists (numerator b). lia.
      - rewrite Z.gcd_comm. exact Hga. }
    assert (D2 : (denominator b | denominator a)).
    { apply Z.gauss with (m := numerator b).
      - exists (numerator a). lia.
      - rewrite Z.gcd_comm. exact Hgb. }
    assert (denominator a = denominator b) by (apply Z.divide_antisym_nonneg; lia || assumption).
    assert (numerator a = numerator b) by nia.
    unfold frac_eqb. lia.
  - unfold frac_eqb. apply not_true_is_false. intros C.
    apply Qeq_bool_neq in E. apply E.
    unfold fvalue. replace (numerator a) with (numerator b) by lia.
    replace (denominator a) with (denominator b) by lia. reflexivity.
Qed.

Lemma frac_neqb_eqb a b : frac_neqb a b = negb (frac_eqb a b).
Proof. reflexivity. Qed.

Lemma frac_gtb_correct a b fuel : lowest a -> lowest b -> denominator a <= Z.of_nat fuel ->
  frac_gtb fuel a b = Ok (Qltb (fvalue b) (fvalue a)).
Proof.
  intros La Lb Hf. unfold frac_gtb. rewrite frac_eqb_correct by assumption.
  destruct (Qeq_bool (fvalue a) (fvalue b)) eqn:E.
  - apply Qeq_bool_iff in E. f_equal. symmetry. apply not_true_is_false.
    rewrite Qltb_iff, E. apply Qlt_irrefl.
  - rewrite (frac_ltb_correct a b fuel (proj1 La) (proj1 Lb) Hf). cbn [bind].
    f_equal. apply Qeq_bool_neq in E.
    destruct (Qltb (fvalue a) (fvalue b)) eqn:E1; destruct (Qltb (fvalue b) (fvalue a)) eqn:E2;
      try reflexivity.
    + apply Qltb_iff in E1. apply Qltb_iff in E2.
      exfalso. apply (Qlt_irrefl (fvalue a)). eapply Qlt_trans; eassumption.
    + exfalso. destruct (Q_dec (fvalue a) (fvalue b)) as [[L|L]|L].
      * apply Qltb_iff in L. congruence.
      * apply Qltb_iff in L. congruence.
      * contradiction.
Qed.

Lemma frac_leb_correct a b fuel : lowest a -> lowest b -> denominator a <= Z.of_nat fuel ->
  frac_leb fuel a b = Ok (Qle_bool (fvalue a) (fvalue b)).
Proof.
  intros La Lb Hf. unfold frac_leb. rewrite frac_gtb_correct by assumption. cbn [bind].
  unfold Qltb. rewrite negb_involutive. reflexivity.
Qed.

Lemma frac_ltb_int_correct a i fuel : 0 < denominator a -> (1 <= fuel)%nat ->
  frac_ltb_int fuel a i = Ok (Qltb (fvalue a) (inject_Z i)).
Proof.
  intros Ha Hf. unfold frac_ltb_int.
  destruct (Z.ltb_spec 0 (denominator a)); [|lia]. cbn [cassert bind].
  rewrite !cdiv_ok, !cmod_ok by lia. cbn [bind].
  destruct (normalize_rem_spec (denominator a) (numerator a) fuel) as (q & r & -> & E & R); [lia|lia|].
  cbn [bind]. f_equal.
  unfold Qltb, Qle_bool, fvalue, inject_Z; simpl. rewrite !Z2Pos.id by lia.
  destruct (Z.ltb_spec q i); destruct (Z.leb_spec (i * denominator a) (numerator a * 1)); cbn; nia.
Qed.

Lemma frac_eqb_int_correct a i : lowest a ->
  frac_eqb_int a i = Qeq_bool (fvalue a) (inject_Z i).
Proof.
  intros [Hda Hga].
  destruct (Qeq_bool (fvalue a) (inject_Z i)) eqn:E.
  - apply Qeq_bool_iff in E. unfold fvalue, Qeq, inject_Z in E; simpl in E.
    rewrite !Z2Pos.id in E by lia.
    assert (D : (denominator a | 1)).
    { rewrite <- Hga. apply Z.gcd_greatest; [exists i; lia|apply Z.divide_refl]. }
    apply Z.divide_1_r_nonneg in D; [|lia]. unfold frac_eqb_int. nia.
  - unfold frac_eqb_int. apply not_true_is_false. intros C.
    apply Qeq_bool_neq in E. apply E.
    unfold fvalue, inject_Z, Qeq; simpl. rewrite Z2Pos.id by lia. nia.
Qed.

Lemma frac_gtb_int_correct a i fuel : lowest a -> (1 <= fuel)%nat ->
  frac_gtb_int fuel a i = Ok (Qltb (inject_Z i) (fvalue a)).
Proof.
  intros La Hf. unfold frac_gtb_int. rewrite frac_eqb_int_correct by assumption.
  destruct (Qeq_bool (fvalue a) (inject_Z i)) eqn:E.
  - apply Qeq_bool_iff in E. f_equal. symmetry. apply not_true_is_false.
    rewrite Qltb_iff, E. apply Qlt_irrefl.
  - rewrite (frac_ltb_int_correct a i fuel (proj1 La) Hf). cbn [bind].
    f_equal. apply Qeq_bool_neq in E.
    destruct (Qltb (fvalue a) (inject_Z i)) eqn:E1; destruct (Qltb (inject_Z i) (fvalue a)) eqn:E2;
      try reflexivity.
    + apply Qltb_iff in E1. apply Qltb_iff in E2.
      exfalso. apply (Qlt_irrefl (fvalue a)). eapply Qlt_trans; eassumption.
    + exfalso. destruct (Q_dec (fvalue a) (inject_Z i)) as [[L|L]|L].
      * apply Qltb_iff in L. congruence.
      * apply Qltb_iff in L. congruence.
      * contradiction.
Qed.
