(** Proofs about the repetition vector model: the propagation of fractions. *)
From Coq Require Import QArith Qfield Lqa Znumtheory.
From Verif Require Import Base Fraction FractionProofs Graph ScheduleSpec RepVec RepVecSpec.
Open Scope Z_scope.

Lemma sumZ_nonneg l : (forall x, In x l -> 0 <= x) -> 0 <= sumZ l.
Proof. induction l as [|x l IH]; intros H; cbn; [lia|]. specialize (IH (fun y Hy => H y (or_intror Hy))). specialize (H x (or_introl eq_refl)). unfold sumZ in IH. lia. Qed.

(** * The rate period *)
Lemma rate_period_spec g : (forall c, In c (edges g) -> (0 < length (e_in c))%nat /\ (0 < length (e_out c))%nat) ->
  0 < rate_period g /\ forall c, In c (edges g) ->
   (Z.of_nat (length (e_in c)) | rate_period g) /\ (Z.of_nat (length (e_out c)) | rate_period g).
Proof.
  unfold rate_period. generalize (edges g) as es. intros es.
  assert (G : forall es a, 0 < a -> (forall c, In c es -> (0 < length (e_in c))%nat /\ (0 < length (e_out c))%nat) ->
    let r := fold_left (fun rp c => Z.lcm (Z.lcm rp (Z.of_nat (length (e_in c)))) (Z.of_nat (length (e_out c)))) es a in
    0 < r /\ (a | r) /\ forall c, In c es -> (Z.of_nat (length (e_in c)) | r) /\ (Z.of_nat (length (e_out c)) | r)).
  { clear. induction es as [|c es IH]; intros a Ha H; cbn [fold_left].
    - cbv zeta. split; [exact Ha|]. split; [apply Z.divide_refl|intros c []].
    - destruct (H c (or_introl eq_refl)) as [H1 H2].
      assert (Hlcm : forall x y, 0 < x -> 0 < y -> 0 < Z.lcm x y).
      { intros x y Hx Hy. pose proof (Z.lcm_nonneg x y). assert (Z.lcm x y <> 0) by (rewrite Z.lcm_eq_0; lia). lia. }
      specialize (IH (Z.lcm (Z.lcm a (Z.of_nat (length (e_in c)))) (Z.of_nat (length (e_out c))))).
      cbv zeta in IH. destruct IH as (I1 & I2 & I3).
      + apply Hlcm; [apply Hlcm|]; lia.
      + intros c' Hc'. apply H. right; exact Hc'.
      + cbv zeta. set (r := fold_left _ _ _) in *. split; [exact I1|].
        assert (D1 : (Z.lcm a (Z.of_nat (length (e_in c))) | r)) by (eapply Z.divide_trans; [apply Z.divide_lcm_l|exact I2]).
        split; [eapply Z.divide_trans; [apply Z.divide_lcm_l|exact D1]|].
        intros c' [<-|Hc']; [|apply I3; exact Hc']. split.
        * eapply Z.divide_trans; [apply Z.divide_lcm_r|exact D1].
        * eapply Z.divide_trans; [apply Z.divide_lcm_r|exact I2]. }
  intros H. destruct (G es 1 ltac:(lia) H) as (A & _ & B). auto.
Qed.

Section Propagation.
Variable g : graph.
Hypothesis Hwf : rates_wf g.
Let rp := rate_period g.
Let n := length (vertices g).

Lemma phases_pos c : In c (edges g) -> (0 < length (e_in c))%nat /\ (0 < length (e_out c))%nat.
Proof.
  intros Hc. destruct Hwf as [Hv He]. destruct (He c Hc) as (vs & vd & E1 & E2 & L1 & L2 & _). rewrite L1, L2.
  split; apply Hv; eapply nth_error_In; eassumption.
Qed.
Lemma rp_pos : 0 < rp.
Proof. apply rate_period_spec, phases_pos. Qed.
Lemma rp_divides c : In c (edges g) -> (Z.of_nat (length (e_in c)) | rp) /\ (Z.of_nat (length (e_out c)) | rp).
Proof. apply rate_period_spec, phases_pos. Qed.

Definition in_rate (c : edge) : Z := sumZ (e_in c) * (rp / Z.of_nat (length (e_in c))).
Definition out_rate (c : edge) : Z := sumZ (e_out c) * (rp / Z.of_nat (length (e_out c))).

Lemma rate_quot c : In c (edges g) ->
  cdiv rp (Z.of_nat (length (e_in c))) = Ok (rp / Z.of_nat (length (e_in c))) /\
  cdiv rp (Z.of_nat (length (e_out c))) = Ok (rp / Z.of_nat (length (e_out c))) /\
  0 < rp / Z.of_nat (length (e_in c)) /\ 0 < rp / Z.of_nat (length (e_out c)).
Proof.
  intros Hc. destruct (phases_pos c Hc) as [P1 P2]. destruct (rp_divides c Hc) as [D1 D2]. pose proof rp_pos as Hr.
  assert (G : forall x, 0 < x -> (x | rp) -> cdiv rp x = Ok (rp / x) /\ 0 < rp / x).
  { intros x Hx [k Hk]. rewrite cdiv_ok by lia. rewrite Hk, Z.quot_mul, Z.div_mul by lia. split; [reflexivity|nia]. }
  destruct (G (Z.of_nat (length (e_in c))) ltac:(lia) D1). destruct (G (Z.of_nat (length (e_out c))) ltac:(lia) D2). auto.
Qed.
Lemma rate_nonneg c : In c (edges g) -> 0 <= in_rate c /\ 0 <= out_rate c.
Proof.
  intros Hc. destruct (rate_quot c Hc) as (_ & _ & Q1 & Q2). destruct Hwf as [_ He].
  destruct (He c Hc) as (_ & _ & _ & _ & _ & _ & Hnn). unfold in_rate, out_rate.
  pose proof (sumZ_nonneg (e_in c) (fun x Hx => Hnn x (in_or_app _ _ _ (or_introl Hx)))).
  pose proof (sumZ_nonneg (e_out c) (fun x Hx => Hnn x (in_or_app _ _ _ (or_intror Hx)))). nia.
Qed.
Lemma rate_total c : In c (edges g) -> (in_rate c = 0 <-> sumZ (e_in c) = 0) /\ (out_rate c = 0 <-> sumZ (e_out c) = 0).
Proof. intros Hc. destruct (rate_quot c Hc) as (_ & _ & Q1 & Q2). unfold in_rate, out_rate. split; nia. Qed.

Definition known (fr : fractions) (v : nat) : Prop := 0 < numerator (fr v).
Definition good (fr : fractions) : Prop := forall v, lowest (fr v) /\ 0 <= numerator (fr v).
Definition extends (fr fr' : fractions) : Prop := forall v, known fr v -> fr' v = fr v.
Definition consistent (fr : fractions) (c : edge) : Prop :=
  (inject_Z (in_rate c) * fvalue (fr (e_src c)) == inject_Z (out_rate c) * fvalue (fr (e_dst c)))%Q.
Definition edge_ok (fr : fractions) (c : edge) : Prop :=
  known fr (e_src c) /\ known fr (e_dst c) /\ 0 < in_rate c /\ 0 < out_rate c /\ consistent fr c.
Definition touches (c : edge) (v : nat) : Prop := e_src c = v \/ e_dst c = v.
Definition U (fr : fractions) : nat := length (filter (fun v => frac_eqb (fr v) fzero) (seq 0 n)).

Lemma lowest_zero : lowest fzero. Proof. split; reflexivity. Qed.
Lemma lowest_one : lowest fone. Proof. split; reflexivity. Qed.
Lemma zero_dec fr v : good fr -> frac_eqb (fr v) fzero = negb (0 <? numerator (fr v)).
Proof.
  intros H. destruct (H v) as [[Hd Hg] Hn]. unfold frac_eqb, fzero. cbn [numerator denominator].
  destruct (Z.ltb_spec 0 (numerator (fr v))) as [L|L]; cbn [negb].
  - replace (numerator (fr v) =? 0) with false by (symmetry; apply Z.eqb_neq; lia). reflexivity.
  - assert (E : numerator (fr v) = 0) by lia. rewrite E in Hg. rewrite Z.gcd_0_l, Z.abs_eq in Hg by lia. rewrite E, Hg. reflexivity.
Qed.
Lemma known_eqb fr v : good fr -> (known fr v <-> frac_eqb (fr v) fzero = false).
Proof. intros H. rewrite zero_dec by exact H. unfold known. destruct (Z.ltb_spec 0 (numerator (fr v))); cbn; split; intros; try discriminate; auto; lia. Qed.
Lemma known_value fr v : good fr -> known fr v -> (0 < fvalue (fr v))%Q.
Proof. intros _ H. unfold fvalue, Qlt. cbn. unfold known in H. lia. Qed.
Lemma extends_known fr fr' v : extends fr fr' -> known fr v -> known fr' v.
Proof. intros H K. unfold known. rewrite (H v K). exact K. Qed.
Lemma extends_trans a b c : extends a b -> extends b c -> extends a c.
Proof. intros H1 H2 v K. rewrite (H2 v (extends_known _ _ _ H1 K)). apply H1, K. Qed.
Lemma extends_edge_ok fr fr' c : extends fr fr' -> edge_ok fr c -> edge_ok fr' c.
Proof.
  intros H (K1 & K2 & I & O & C). unfold edge_ok, consistent. rewrite (H _ K1), (H _ K2).
  split; [eapply extends_known; eassumption|]. split; [eapply extends_known; eassumption|]. auto.
Qed.
Lemma fset_same fr v f : fset fr v f v = f.
Proof. unfold fset. rewrite Nat.eqb_refl. reflexivity. Qed.
Lemma fset_other fr v f w : w <> v -> fset fr v f w = fr w.
Proof. unfold fset. intros H. destruct (Nat.eqb_spec w v); congruence. Qed.
Lemma fset_good fr v f : good fr -> lowest f -> 0 <= numerator f -> good (fset fr v f).
Proof. intros H L P w. unfold fset. destruct (Nat.eqb_spec w v); auto. Qed.
Lemma fset_extends fr v f : ~ known fr v -> extends fr (fset fr v f).
Proof. intros H w K. apply fset_other. intros ->. contradiction. Qed.

Lemma filter_le {A} (p q : A -> bool) l : (forall x, In x l -> q x = true -> p x = true) -> (length (filter q l) <= length (filter p l))%nat.
Proof.
  induction l as [|x l IH]; intros H; cbn [filter]; [lia|]. specialize (IH (fun y Hy => H y (or_intror Hy))).
  specialize (H x (or_introl eq_refl)). destruct (q x); [rewrite H by reflexivity; cbn; lia|]. destruct (p x); cbn; lia.
Qed.
Lemma filter_lt {A} (p q : A -> bool) l x0 : (forall x, In x l -> q x = true -> p x = true) -> In x0 l -> p x0 = true -> q x0 = false ->
  (length (filter q l) < length (filter p l))%nat.
Proof.
  induction l as [|x l IH]; intros H Hin Hp Hq; [destruct Hin|]. cbn [filter].
  assert (Hl : forall y, In y l -> q y = true -> p y = true) by (intros y Hy; apply H; right; exact Hy).
  destruct Hin as [->|Hin].
  - rewrite Hp, Hq. cbn. pose proof (filter_le p q l Hl). lia.
  - specialize (IH Hl Hin Hp Hq). pose proof (H x (or_introl eq_refl)) as Hx. destruct (q x); [rewrite Hx by reflexivity; cbn; lia|]. destruct (p x); cbn; lia.
Qed.
Lemma U_extends fr fr' : good fr -> good fr' -> extends fr fr' -> (U fr' <= U fr)%nat.
Proof.
  intros G1 G2 H. apply filter_le. intros v _ E. destruct (frac_eqb (fr v) fzero) eqn:E'; [reflexivity|].
  apply (known_eqb fr v G1) in E'. apply (extends_known _ _ _ H) in E'. apply (known_eqb fr' v G2) in E'. congruence.
Qed.
Lemma U_fset fr v f : good fr -> good (fset fr v f) -> ~ known fr v -> (v < n)%nat -> 0 < numerator f -> (U (fset fr v f) < U fr)%nat.
Proof.
  intros G1 G2 K Hv Hf. apply filter_lt with (x0 := v).
  - intros w _ E. destruct (frac_eqb (fr w) fzero) eqn:E'; [reflexivity|]. apply (known_eqb fr w G1) in E'.
    apply (extends_known _ _ _ (fset_extends fr v f K)) in E'. apply (known_eqb _ w G2) in E'. congruence.
  - apply in_seq. lia.
  - destruct (frac_eqb (fr v) fzero) eqn:E; [reflexivity|]. apply (known_eqb fr v G1) in E. contradiction.
  - apply (known_eqb _ v G2). unfold known. rewrite fset_same. exact Hf.
Qed.

Lemma edge_ends_lt c : In c (edges g) -> (e_src c < n)%nat /\ (e_dst c < n)%nat.
Proof.
  intros Hc. destruct Hwf as [_ He]. destruct (He c Hc) as (vs & vd & E1 & E2 & _).
  split; apply nth_error_Some; [rewrite E1|rewrite E2]; discriminate.
Qed.

(** Scaled solution of the balance equations. *)
Lemma solution_rates M c : solution g M -> In c (edges g) ->
  (inject_Z (in_rate c) * inject_Z (M (e_src c)) == inject_Z (out_rate c) * inject_Z (M (e_dst c)))%Q.
Proof.
  intros [_ HB] Hc. rewrite <- !inject_Z_mult. apply inject_Z_injective. specialize (HB c Hc).
  destruct (rp_divides c Hc) as [[k1 D1] [k2 D2]]. destruct (phases_pos c Hc) as [P1 P2].
  unfold in_rate, out_rate. rewrite D1 at 1. rewrite D2. rewrite !Z.div_mul by lia.
  set (li := Z.of_nat (length (e_in c))) in *. set (lo := Z.of_nat (length (e_out c))) in *.
  assert (0 < li) by lia. assert (0 < lo) by lia. clearbody li lo.
  assert (k1 * li = k2 * lo) by lia.
  set (A := sumZ (e_in c) * M (e_src c)) in *. set (B := sumZ (e_out c) * M (e_dst c)) in *.
  replace (sumZ (e_in c) * k1 * M (e_src c)) with (A * k1) by (unfold A; ring).
  replace (sumZ (e_out c) * k2 * M (e_dst c)) with (B * k2) by (unfold B; ring).
  assert (A * lo = B * li) by (unfold A, B; lia). clearbody A B.
  apply (Z.mul_reg_r _ _ (li * lo)); [nia|].
  replace (A * k1 * (li * lo)) with ((A * lo) * (k1 * li)) by ring. rewrite H2, H1. ring.
Qed.

(** What a call of the recursive function does. *)
Definition call_spec (ok : bool) (fr fr' : fractions) (touched : edge -> Prop) (a : nat) : Prop :=
  (ok = false -> forall v, fr' v = fzero) /\
  (ok = true -> good fr' /\ extends fr fr' /\
     (forall c, touched c -> edge_ok fr' c) /\
     (forall v c, ~ known fr v -> known fr' v -> In c (edges g) -> touches c v -> edge_ok fr' c)) /\
  (forall M (old : nat -> Prop) lam, moves_tokens g -> solution g M ->
     (forall c, In c (edges g) -> (old (e_src c) <-> old (e_dst c))) -> ~ old a ->
     (forall v, known fr v -> ~ old v -> (fvalue (fr v) == lam * inject_Z (M v))%Q) ->
     ok = true /\ forall v, known fr' v -> ~ old v -> (fvalue (fr' v) == lam * inject_Z (M v))%Q).

Definition rec_spec (rec : nat -> fractions -> outcome (bool * fractions)) (k : nat) : Prop :=
  forall b fr, good fr -> (b < n)%nat -> known fr b -> (U fr < k)%nat ->
    exists ok fr', rec b fr = Ok (ok, fr') /\ call_spec ok fr fr' (fun c => In c (edges g) /\ touches c b) b.

Lemma fzero_known fr v : (forall w, fr w = fzero) -> known fr v -> False.
Proof. intros H K. unfold known in K. rewrite H in K. cbn in K. lia. Qed.

(** The other end of a channel of [a], and the rates of the two ends. *)
Definition other (c : edge) (a : nat) : nat := if (e_src c =? a)%nat then e_dst c else e_src c.
Definition rate_here (c : edge) (a : nat) : Z := if (e_dst c =? a)%nat then out_rate c else in_rate c.
Definition rate_there (c : edge) (a : nat) : Z := if (e_dst c =? a)%nat then in_rate c else out_rate c.

Lemma ends_cases c a : touches c a ->
  (e_src c = a /\ e_dst c = a /\ other c a = a /\ rate_here c a = out_rate c /\ rate_there c a = in_rate c) \/
  (e_src c = a /\ e_dst c <> a /\ other c a = e_dst c /\ rate_here c a = in_rate c /\ rate_there c a = out_rate c) \/
  (e_src c <> a /\ e_dst c = a /\ other c a = e_src c /\ rate_here c a = out_rate c /\ rate_there c a = in_rate c).
Proof.
  intros H. unfold other, rate_here, rate_there.
  destruct (Nat.eqb_spec (e_src c) a), (Nat.eqb_spec (e_dst c) a); try tauto; destruct H; congruence.
Qed.
Lemma consistent_ends fr c a : touches c a ->
  (consistent fr c <-> (inject_Z (rate_here c a) * fvalue (fr a) == inject_Z (rate_there c a) * fvalue (fr (other c a)))%Q).
Proof.
  intros H. unfold consistent.
  destruct (ends_cases c a H) as [(-> & -> & -> & -> & ->)|[(-> & _ & -> & -> & ->)|(_ & -> & -> & -> & ->)]];
    split; intros E; first [exact E|symmetry; exact E].
Qed.
Lemma known_ends fr c a : touches c a -> (known fr (e_src c) /\ known fr (e_dst c) <-> known fr a /\ known fr (other c a)).
Proof.
  intros H. destruct (ends_cases c a H) as [(-> & -> & -> & _)|[(-> & _ & -> & _)|(_ & -> & -> & _)]]; tauto.
Qed.
Lemma old_ends (old : nat -> Prop) c a : touches c a -> (old (e_src c) <-> old (e_dst c)) -> (old a <-> old (other c a)).
Proof.
  intros H. destruct (ends_cases c a H) as [(-> & -> & -> & _)|[(-> & _ & -> & _)|(_ & -> & -> & _)]]; tauto.
Qed.
Lemma rates_ends c a : touches c a -> In c (edges g) ->
  0 <= rate_here c a /\ 0 <= rate_there c a /\ (0 < in_rate c /\ 0 < out_rate c <-> 0 < rate_here c a /\ 0 < rate_there c a).
Proof.
  intros H Hc. destruct (rate_nonneg c Hc).
  destruct (ends_cases c a H) as [(_ & _ & _ & -> & ->)|[(_ & _ & _ & -> & ->)|(_ & _ & _ & -> & ->)]]; tauto.
Qed.
Lemma solution_ends M c a : touches c a -> solution g M -> In c (edges g) ->
  (inject_Z (rate_here c a) * inject_Z (M a) == inject_Z (rate_there c a) * inject_Z (M (other c a)))%Q.
Proof.
  intros H HM Hc. pose proof (solution_rates M c HM Hc) as E.
  destruct (ends_cases c a H) as [(E1 & E2 & -> & -> & ->)|[(E1 & _ & -> & -> & ->)|(_ & E2 & -> & -> & ->)]];
    rewrite ?E1, ?E2 in E; first [exact E|symmetry; exact E].
Qed.
Lemma other_lt c a : In c (edges g) -> (other c a < n)%nat.
Proof. intros Hc. destruct (edge_ends_lt c Hc). unfold other. destruct (e_src c =? a)%nat; assumption. Qed.

Lemma ratio_step fA x y : lowest fA -> 0 < numerator fA -> 0 < x -> 0 < y ->
  exists r f, make_fraction x y = Ok r /\ frac_mul fA r = Ok f /\ lowest f /\ 0 < numerator f /\
    (inject_Z x * fvalue fA == inject_Z y * fvalue f)%Q.
Proof.
  intros [Hd _] Hn Hx Hy. destruct (make_fraction_correct x y Hy) as (r & Er & Vr & Lr).
  destruct (frac_mul_correct fA r Hd (proj1 Lr)) as (f & Ef & Vf & Lf). exists r, f.
  split; [exact Er|]. split; [exact Ef|]. split; [exact Lf|].
  assert (Eq : (fvalue f == fvalue fA * (inject_Z x / inject_Z y))%Q).
  { rewrite Vf, Vr. rewrite Qmake_Qdiv, Z2Pos.id by lia. reflexivity. }
  assert (Hyq : (0 < inject_Z y)%Q) by (change 0%Q with (inject_Z 0); rewrite <- Zlt_Qlt; exact Hy).
  assert (Hxq : (0 < inject_Z x)%Q) by (change 0%Q with (inject_Z 0); rewrite <- Zlt_Qlt; exact Hx).
  split.
  - assert (Hp : (0 < fvalue f)%Q).
    { rewrite Eq. assert (0 < fvalue fA)%Q by (unfold fvalue, Qlt; cbn; lia).
      assert (0 < inject_Z x / inject_Z y)%Q by (apply Qlt_shift_div_l; lra). nra. }
    unfold fvalue, Qlt in Hp. cbn in Hp. lia.
  - rewrite Eq. field. lra.
Qed.

Lemma known_dec fr v : known fr v \/ ~ known fr v.
Proof. unfold known. lia. Qed.

Lemma loop_spec rec k a (Hrec : rec_spec rec k) : (a < n)%nat -> forall es fr, incl es (edges g) -> good fr -> known fr a -> (U fr <= k)%nat ->
  exists ok fr', connected_loop rec rp a (fr a) es fr = Ok (ok, fr') /\ call_spec ok fr fr' (fun c => In c es /\ touches c a) a.
Proof.
  intros Ha. induction es as [|c es IH]; intros fr Hincl Hg Hka HU.
  { exists true, fr. split; [reflexivity|]. split; [discriminate|]. split.
    - intros _. split; [exact Hg|]. split; [intros v _; reflexivity|]. split; [intros c [[] _]|]. intros v c K K'. contradiction.
    - intros M old lam _ _ _ _ Hv. split; [reflexivity|]. exact Hv. }
  assert (Hc : In c (edges g)) by (apply Hincl; left; reflexivity).
  assert (Hincl' : incl es (edges g)) by (intros x Hx; apply Hincl; right; exact Hx).
  cbn [connected_loop].
  destruct (connected a c) eqn:Econ.
  2:{ destruct (IH fr Hincl' Hg Hka HU) as (ok & fr' & E & S1 & S2 & S3). exists ok, fr'. split; [exact E|].
      split; [exact S1|]. split; [|exact S3]. intros Hok. destruct (S2 Hok) as (A & B & C & D).
      split; [exact A|]. split; [exact B|]. split; [|exact D]. intros c' [[<-|Hin] Ht]; [|apply C; auto].
      exfalso. unfold connected in Econ. apply orb_false_iff in Econ as [E1 E2]. apply Nat.eqb_neq in E1, E2. destruct Ht; contradiction. }
  assert (Ht : touches c a).
  { unfold connected in Econ. apply orb_true_iff in Econ as [E1|E1]; apply Nat.eqb_eq in E1; [left|right]; exact E1. }
  destruct (rate_quot c Hc) as (-> & -> & _). cbn [bind].
  change (edge_in_total c * (rp / Z.of_nat (length (e_in c)))) with (in_rate c).
  change (edge_out_total c * (rp / Z.of_nat (length (e_out c)))) with (out_rate c).
  change (if (e_dst c =? a)%nat then out_rate c else in_rate c) with (rate_here c a).
  change (if (e_dst c =? a)%nat then in_rate c else out_rate c) with (rate_there c a).
  change (if (e_src c =? a)%nat then e_dst c else e_src c) with (other c a).
  destruct (rates_ends c a Ht Hc) as (R1 & R2 & R3). set (b := other c a) in *.
  destruct ((rate_here c a =? 0) || (rate_there c a =? 0)) eqn:Ez.
  { exists false, fcleared. split; [reflexivity|]. split; [reflexivity|]. split; [discriminate|].
    intros M old lam Hmv. exfalso. destruct (Hmv c Hc) as [M1 M2]. destruct (rate_total c Hc) as [T1 T2].
    destruct (rate_nonneg c Hc). apply orb_true_iff in Ez as [Ez|Ez]; apply Z.eqb_eq in Ez; lia. }
  apply orb_false_iff in Ez as [Z1 Z2]. apply Z.eqb_neq in Z1, Z2.
  destruct (ratio_step (fr a) (rate_here c a) (rate_there c a) (proj1 (Hg a)) Hka ltac:(lia) ltac:(lia))
    as (ratio & fb & -> & Efb & Lfb & Pfb & Vfb).
  cbn [bind]. rewrite Efb. cbn [bind].
  assert (HR : 0 < in_rate c /\ 0 < out_rate c) by (apply R3; lia).
  assert (Hthere : (0 < inject_Z (rate_there c a))%Q) by (change 0%Q with (inject_Z 0); rewrite <- Zlt_Qlt; lia).
  assert (Hsol : forall M lam, solution g M -> (fvalue (fr a) == lam * inject_Z (M a))%Q -> (fvalue fb == lam * inject_Z (M b))%Q).
  { intros M lam HM Hv. pose proof (solution_ends M c a Ht HM Hc) as Hs. fold b in Hs. rewrite Hv in Vfb.
    set (x := inject_Z (rate_here c a)) in *. set (y := inject_Z (rate_there c a)) in *.
    apply (Qmult_inj_l _ _ y); [lra|]. rewrite <- Vfb.
    rewrite (Qmult_assoc x), (Qmult_comm x lam), <- Qmult_assoc, Hs. ring. }
  rewrite (frac_neqb_eqb (fr b) fzero), (frac_neqb_eqb fb (fr b)).
  destruct (known_dec fr b) as [Kb|Kb].
  - assert (Ekb : frac_eqb (fr b) fzero = false) by (apply known_eqb; assumption). rewrite Ekb. cbn [negb andb].
    destruct (frac_eqb fb (fr b)) eqn:Eqb; cbn [negb].
    + (* agrees *)
      destruct (IH fr Hincl' Hg Hka HU) as (ok & fr' & E & S1 & S2 & S3). exists ok, fr'. split; [exact E|].
      split; [exact S1|]. split; [|exact S3]. intros Hok. destruct (S2 Hok) as (A & B & C & D).
      split; [exact A|]. split; [exact B|]. split; [|exact D]. intros c' [[<-|Hin] Ht']; [|apply C; auto].
      apply (extends_edge_ok fr fr' c B). unfold edge_ok.
      destruct (proj2 (known_ends fr c a Ht) (conj Hka Kb)) as [Ks Kd].
      split; [exact Ks|]. split; [exact Kd|]. split; [apply HR|]. split; [apply HR|].
      apply (consistent_ends fr c a Ht). fold b. rewrite frac_eqb_correct in Eqb by (try exact Lfb; apply Hg).
      apply Qeq_bool_iff in Eqb. rewrite <- Eqb. exact Vfb.
    + (* disagrees *)
      exists false, fcleared. split; [reflexivity|]. split; [reflexivity|]. split; [discriminate|].
      intros M old lam Hmv HM Hold Hna Hv. exfalso.
      rewrite frac_eqb_correct in Eqb by (try exact Lfb; apply Hg). apply Qeq_bool_neq in Eqb. apply Eqb.
      rewrite (Hsol M lam HM (Hv a Hka Hna)). symmetry. apply Hv; [exact Kb|].
      intros Hob. apply Hna. apply (old_ends old c a Ht (Hold c Hc)). exact Hob.
  - assert (Ekb : frac_eqb (fr b) fzero = true).
    { destruct (frac_eqb (fr b) fzero) eqn:E; [reflexivity|]. apply (known_eqb fr b Hg) in E. contradiction. }
    rewrite Ekb. cbn [negb andb].
    assert (Hg1 : good (fset fr b fb)) by (apply fset_good; auto; lia).
    assert (Hb : (b < n)%nat) by (apply other_lt; exact Hc).
    assert (Kb1 : known (fset fr b fb) b) by (unfold known; rewrite fset_same; exact Pfb).
    assert (HU1 : (U (fset fr b fb) < k)%nat) by (pose proof (U_fset fr b fb Hg Hg1 Kb Hb Pfb); lia).
    destruct (Hrec b (fset fr b fb) Hg1 Hb Kb1 HU1) as (ok1 & fr1 & -> & S1 & S2 & S3). cbn [bind snd].
    assert (Hnab : a <> b) by (intros Hab; apply Kb; rewrite <- Hab; exact Hka).
    pose proof (fset_extends fr b fb Kb) as Hext0.
    assert (Hv1 : forall M (old : nat -> Prop) lam, solution g M -> (forall c, In c (edges g) -> (old (e_src c) <-> old (e_dst c))) -> ~ old a ->
       (forall v, known fr v -> ~ old v -> (fvalue (fr v) == lam * inject_Z (M v))%Q) ->
       ~ old b /\ forall v, known (fset fr b fb) v -> ~ old v -> (fvalue (fset fr b fb v) == lam * inject_Z (M v))%Q).
    { intros M old lam HM Hold Hna Hv. split.
      - intros Hob. apply Hna. apply (old_ends old c a Ht (Hold c Hc)). exact Hob.
      - intros v Kv Hnv. destruct (Nat.eq_dec v b) as [Evb|Hne].
        + rewrite Evb, fset_same. apply (Hsol M lam HM). apply Hv; assumption.
        + unfold known in Kv. rewrite fset_other in * by exact Hne. apply Hv; assumption. }
    destruct ok1.
    + destruct (S2 eq_refl) as (G1 & X1 & T1 & N1).
      assert (Kb2 : known fr1 b) by (eapply extends_known; eassumption).
      rewrite (proj1 (known_eqb fr1 b G1) Kb2).
      assert (Ka1 : known fr1 a) by (eapply extends_known; [exact X1|]; eapply extends_known; eassumption).
      assert (Efa : fr1 a = fr a).
      { rewrite X1; [apply fset_other; exact Hnab|]. eapply extends_known; eassumption. }
      assert (HU2 : (U fr1 <= k)%nat) by (pose proof (U_extends _ _ Hg1 G1 X1); lia).
      destruct (IH fr1 Hincl' G1 Ka1 HU2) as (ok & fr' & E & S4 & S5 & S6). rewrite Efa in E. rewrite E.
      exists ok, fr'. split; [reflexivity|]. split; [exact S4|]. split.
      * intros Hok. destruct (S5 Hok) as (A & B & C & D). split; [exact A|].
        assert (Hext : extends fr fr') by (eapply extends_trans; [exact Hext0|]; eapply extends_trans; eassumption).
        split; [exact Hext|]. split.
        -- intros c' [[<-|Hin] Ht']; [|apply C; auto].
           apply (extends_edge_ok fr1 fr' c B). apply T1. split; [exact Hc|].
           unfold b, other. destruct (Nat.eqb_spec (e_src c) a); [right|left]; reflexivity.
        -- intros v c' Kv Kv' Hc' Ht'. destruct (known_dec fr1 v) as [K1|K1]; [|apply (D v c' K1 Kv' Hc' Ht')].
           apply (extends_edge_ok fr1 fr' c' B).
           destruct (Nat.eq_dec v b) as [Evb|Hne]; [rewrite Evb in Ht'; apply T1; auto|]. apply (N1 v c'); auto.
           unfold known. rewrite fset_other by exact Hne. exact Kv.
      * intros M old lam Hmv HM Hold Hna Hv. destruct (Hv1 M old lam HM Hold Hna Hv) as [Hnb Hv'].
        destruct (S3 M old lam Hmv HM Hold Hnb Hv') as [_ Hv'']. apply (S6 M old lam Hmv HM Hold Hna Hv'').
    + rewrite (S1 eq_refl b). change (frac_eqb fzero fzero) with true. cbn iota.
      exists false, fr1. split; [reflexivity|]. split; [intros _; exact (S1 eq_refl)|]. split; [discriminate|].
      intros M old lam Hmv HM Hold Hna Hv. destruct (Hv1 M old lam HM Hold Hna Hv) as [Hnb Hv'].
      destruct (S3 M old lam Hmv HM Hold Hnb Hv') as [Hf _]. discriminate.
Qed.

Lemma calc_fractions_spec : forall fuel, rec_spec (calc_fractions fuel g rp) fuel.
Proof.
  induction fuel as [|fuel IH]; intros b fr Hg Hb Kb HU; [lia|].
  cbn [calc_fractions]. rewrite (proj1 (known_eqb fr b Hg) Kb).
  destruct (loop_spec _ fuel b IH Hb (edges g) fr (incl_refl _) Hg Kb ltac:(lia)) as (ok & fr' & E & S).
  exists ok, fr'. split; [exact E|]. exact S.
Qed.

Lemma U_bound fr : (U fr <= n)%nat.
Proof.
  unfold U. rewrite <- (seq_length n 0) at 2. generalize (seq 0 n) as l. intros l.
  induction l as [|x l IH]; cbn [filter length]; [lia|]. destruct (frac_eqb _ _); cbn [length]; lia.
Qed.

(** Propagation from every vertex. *)
Definition all_known (fr : fractions) : Prop := forall v, (v < n)%nat -> known fr v.

Lemma all_fractions_spec fuel : (n <= fuel)%nat -> forall vs fr, (forall v, In v vs -> (v < n)%nat) -> good fr ->
  (forall v, (v < n)%nat -> ~ In v vs -> known fr v) ->
  (forall v c, known fr v -> In c (edges g) -> touches c v -> edge_ok fr c) ->
  exists r, all_fractions fuel g rp vs fr = Ok r /\
    (forall fr', r = Some fr' -> good fr' /\ all_known fr' /\ forall c, In c (edges g) -> edge_ok fr' c) /\
    ((moves_tokens g /\ exists M, solution g M) -> r <> None).
Proof.
  intros Hfuel. induction vs as [|v vs IH]; intros fr Hvs Hg Hrest Hed; cbn [all_fractions].
  { exists (Some fr). split; [reflexivity|]. split; [|intros _; discriminate]. intros fr' [= <-]. split; [exact Hg|].
    split; [intros v Hv; apply Hrest; [exact Hv|intros []]|]. intros c Hc. apply (Hed (e_src c) c); [|exact Hc|left; reflexivity].
    apply Hrest; [apply edge_ends_lt; exact Hc|intros []]. }
  assert (Hv : (v < n)%nat) by (apply Hvs; left; reflexivity).
  assert (Hvs' : forall w, In w vs -> (w < n)%nat) by (intros w Hw; apply Hvs; right; exact Hw).
  destruct (known_dec fr v) as [K|K].
  - rewrite (proj1 (known_eqb fr v Hg) K). apply (IH fr Hvs' Hg); [|exact Hed].
    intros w Hw Hni. destruct (Nat.eq_dec w v) as [->|Hne]; [exact K|]. apply Hrest; [exact Hw|]. intros [->|H]; contradiction.
  - assert (E : frac_eqb (fr v) fzero = true).
    { destruct (frac_eqb (fr v) fzero) eqn:E; [reflexivity|]. apply (known_eqb fr v Hg) in E. contradiction. }
    rewrite E. assert (Hg1 : good (fset fr v fone)) by (apply fset_good; [exact Hg|apply lowest_one|cbn; lia]).
    assert (K1 : known (fset fr v fone) v) by (unfold known; rewrite fset_same; cbn; lia).
    assert (HU : (U (fset fr v fone) < fuel)%nat).
    { pose proof (U_fset fr v fone Hg Hg1 K Hv ltac:(cbn; lia)). pose proof (U_bound fr). lia. }
    destruct (calc_fractions_spec fuel v (fset fr v fone) Hg1 Hv K1 HU) as (ok & fr1 & -> & S1 & S2 & S3). cbn [bind fst snd].
    assert (Hcomp : moves_tokens g -> (exists M, solution g M) -> ok = true).
    { intros Hmv (M & HM). 
      apply (S3 M (fun w => known fr w) (/ inject_Z (M v))%Q Hmv HM).
      - intros c Hc. split; intros Kc.
        + apply (Hed (e_src c) c Kc Hc). left; reflexivity.
        + apply (Hed (e_dst c) c Kc Hc). right; reflexivity.
      - exact K.
      - intros w Kw Hnw. destruct (Nat.eq_dec w v) as [->|Hne].
        + rewrite fset_same. destruct HM as [HM _]. specialize (HM v Hv).
          assert (0 < inject_Z (M v))%Q by (change 0%Q with (inject_Z 0); rewrite <- Zlt_Qlt; exact HM).
          change (fvalue fone) with 1%Q. field. lra.
        + unfold known in Kw. rewrite fset_other in Kw by exact Hne. contradiction. }
    destruct ok; cbn iota.
    + destruct (S2 eq_refl) as (G1 & X1 & T1 & N1). apply (IH fr1 Hvs' G1).
      * intros w Hw Hni. destruct (Nat.eq_dec w v) as [->|Hne]; [eapply extends_known; eassumption|].
        eapply extends_known; [exact X1|]. eapply extends_known; [apply fset_extends; exact K|].
        apply Hrest; [exact Hw|]. intros [->|H]; contradiction.
      * intros w c Kw Hc Ht. destruct (known_dec (fset fr v fone) w) as [K2|K2]; [|apply (N1 w c); assumption].
        destruct (Nat.eq_dec w v) as [->|Hne]; [apply T1; auto|].
        unfold known in K2. rewrite fset_other in K2 by exact Hne.
        apply (extends_edge_ok fr fr1 c); [|apply (Hed w c K2 Hc Ht)].
        eapply extends_trans; [apply fset_extends; exact K|exact X1].
    + exists None. split; [reflexivity|]. split; [intros fr' Hf; discriminate|]. intros [Hmv Hex]. specialize (Hcomp Hmv Hex). discriminate.
Qed.

Lemma fcleared_good : good fcleared.
Proof. intros v. split; [apply lowest_zero|]. cbn. lia. Qed.

Lemma fractions_spec fuel : (n <= fuel)%nat ->
  exists r, all_fractions fuel g rp (seq 0 n) fcleared = Ok r /\
    (forall fr', r = Some fr' -> good fr' /\ all_known fr' /\ forall c, In c (edges g) -> edge_ok fr' c) /\
    ((moves_tokens g /\ exists M, solution g M) -> r <> None).
Proof.
  intros Hf. apply (all_fractions_spec fuel Hf).
  - intros v Hv. apply in_seq in Hv. lia.
  - exact fcleared_good.
  - intros v Hv Hni. exfalso. apply Hni. apply in_seq. lia.
  - intros v c K. unfold known, fcleared in K. cbn in K. lia.
Qed.
End Propagation.
