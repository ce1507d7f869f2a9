(** Proofs about the repetition vector model: from fractions to integers. *)
From Coq Require Import QArith Qfield Lqa Znumtheory.
From Verif Require Import Base Fraction FractionProofs Graph ScheduleSpec RepVec RepVecSpec RepVecProofs.
Open Scope Z_scope.

Lemma each_ok f h vs : (forall v, In v vs -> f v = Ok (h v)) -> each f vs = Ok (map h vs).
Proof.
  induction vs as [|v vs IH]; intros H; cbn [each map]; [reflexivity|].
  rewrite H by (left; reflexivity). cbn [bind]. rewrite IH by (intros w Hw; apply H; right; exact Hw). reflexivity.
Qed.
Lemma nth_map_seq (h : nat -> Z) n v : (v < n)%nat -> nth v (map h (seq 0 n)) 0 = h v.
Proof. intros H. rewrite (nth_indep _ 0 (h 0%nat)) by (rewrite map_length, seq_length; exact H). rewrite map_nth, seq_nth by exact H. reflexivity. Qed.

Lemma fold_gcd_spec l : forall a, (fold_left Z.gcd l a | a) /\ (forall x, In x l -> (fold_left Z.gcd l a | x)) /\
  (forall d, (d | a) -> (forall x, In x l -> (d | x)) -> (d | fold_left Z.gcd l a)) /\ (0 <= a -> 0 <= fold_left Z.gcd l a).
Proof.
  induction l as [|y l IH]; intros a; cbn [fold_left].
  - split; [apply Z.divide_refl|]. split; [intros x []|]. split; [auto|auto].
  - destruct (IH (Z.gcd a y)) as (I1 & I2 & I3 & I4). split; [eapply Z.divide_trans; [exact I1|apply Z.gcd_divide_l]|]. split.
    + intros x [<-|Hx]; [eapply Z.divide_trans; [exact I1|apply Z.gcd_divide_r]|apply I2; exact Hx].
    + split; [|intros _; apply I4, Z.gcd_nonneg]. intros d Hd Hx. apply I3; [apply Z.gcd_greatest; [exact Hd|apply Hx; left; reflexivity]|].
      intros x Hin. apply Hx. right; exact Hin.
Qed.
Lemma gcd_mul_divides h x l : forall a, (h | a * x) -> (forall y, In y l -> (h | y * x)) -> (h | fold_left Z.gcd l a * x).
Proof.
  induction l as [|y l IH]; intros a Ha Hl; cbn [fold_left]; [exact Ha|]. apply IH.
  - destruct (Z.gcd_bezout a y (Z.gcd a y) eq_refl) as (u & v & <-). rewrite Z.mul_add_distr_r.
    apply Z.divide_add_r; rewrite <- Z.mul_assoc; apply Z.divide_mul_r; [exact Ha|apply Hl; left; reflexivity].
  - intros z Hz. apply Hl. right; exact Hz.
Qed.

Lemma fold_lcm_spec (h : nat -> Z) vs : (forall v, In v vs -> 0 < h v) -> forall a, 0 < a ->
  let r := fold_left (fun l v => Z.lcm l (h v)) vs a in 0 < r /\ (a | r) /\ forall v, In v vs -> (h v | r).
Proof.
  induction vs as [|v vs IH]; intros H a Ha; cbn [fold_left]; cbv zeta.
  - split; [exact Ha|]. split; [apply Z.divide_refl|intros v []].
  - assert (Hl : 0 < Z.lcm a (h v)).
    { specialize (H v (or_introl eq_refl)). pose proof (Z.lcm_nonneg a (h v)). assert (Z.lcm a (h v) <> 0) by (rewrite Z.lcm_eq_0; lia). lia. }
    destruct (IH (fun w Hw => H w (or_intror Hw)) _ Hl) as (I1 & I2 & I3). split; [exact I1|].
    split; [eapply Z.divide_trans; [apply Z.divide_lcm_l|exact I2]|].
    intros w [<-|Hw]; [eapply Z.divide_trans; [apply Z.divide_lcm_r|exact I2]|apply I3; exact Hw].
Qed.

(** A task whose phase count the rate period takes into account. *)
Definition counted (g : graph) (i : nat) : Prop :=
  exists v, nth_error (vertices g) i = Some v /\ (Z.of_nat (v_phases v) | rate_period g).

Section Final.
Variable g : graph.
Hypothesis Hwf : rates_wf g.
Let rp := rate_period g.
Let n := length (vertices g).
Hypothesis Hn : (0 < n)%nat.
Variable fr : fractions.
Hypothesis Hg : good fr.
Hypothesis Hk : forall v, (v < n)%nat -> known fr v.
Hypothesis He : forall c, In c (edges g) -> edge_ok g fr c.

Definition phases_of (v : nat) : Z := match nth_error (vertices g) v with Some t => Z.of_nat (v_phases t) | None => 1 end.
Lemma phases_of_pos v : 0 < phases_of v.
Proof.
  unfold phases_of. destruct (nth_error (vertices g) v) eqn:E; [|lia]. destruct Hwf as [Hv _].
  specialize (Hv _ (nth_error_In _ _ E)). lia.
Qed.

Lemma calc_repetition_spec : exists N gg sub l (rep1 : nat -> Z),
  calc_repetition g fr rp = Ok (Some (map N (seq 0 n))) /\ 0 < gg /\ 0 < sub /\ 0 < l /\
  (forall v, (v < n)%nat -> 0 < rep1 v /\ (inject_Z (rep1 v * gg) == fvalue (fr v) * inject_Z l)%Q /\
     N v * sub = rep1 v * rp) /\
  (sub | rp) /\ (forall v, (v < n)%nat -> (sub | (rep1 v * rp) / phases_of v)) /\
  (forall d, (d | rp) -> (forall v, (v < n)%nat -> (d | (rep1 v * rp) / phases_of v)) -> (d | sub)) /\
  (forall h x, (forall v, (v < n)%nat -> (h | rep1 v * x)) -> (h | x)).
Proof.
  pose proof (rp_pos g Hwf) as Hrp. fold rp in Hrp.
  assert (Hden : forall v, 0 < denominator (fr v)) by (intros v; apply Hg).
  destruct (fold_lcm_spec (fun v => denominator (fr v)) (seq 0 n) (fun v _ => Hden v) 1 ltac:(lia)) as (L1 & _ & L2).
  cbv zeta in L1, L2. unfold calc_repetition. fold n. set (l := fold_left _ (seq 0 n) 1) in *. clearbody l.
  replace (l =? 0) with false by (symmetry; apply Z.eqb_neq; lia).
  set (rep := fun v => numerator (fr v) * (l / denominator (fr v))).
  assert (Hrep : forall v, (v < n)%nat -> numerator (fr v) * l = rep v * denominator (fr v) /\ 0 < rep v).
  { intros v Hv. destruct (L2 v) as [q Hq]; [apply in_seq; lia|]. unfold rep. specialize (Hden v). specialize (Hk v Hv). unfold known in Hk.
    rewrite Hq, Z.div_mul by lia. split; [ring|]. nia. }
  rewrite (each_ok _ rep).
  2:{ intros v Hv. apply in_seq in Hv. destruct (Hrep v ltac:(lia)) as [E _]. specialize (Hden v). rewrite cdiv_ok by lia.
      rewrite E, Z.quot_mul by lia. reflexivity. }
  cbn [bind]. destruct (map rep (seq 0 n)) as [|r0 rs] eqn:Erep.
  { exfalso. apply (f_equal (@length Z)) in Erep. rewrite map_length, seq_length in Erep. cbn in Erep. lia. }
  assert (Er0 : r0 = rep 0%nat).
  { destruct n as [|n']; [lia|]. cbn [seq map] in Erep. congruence. }
  rewrite <- Erep. set (gg := fold_left Z.gcd (map rep (seq 0 n)) r0).
  destruct (fold_gcd_spec (map rep (seq 0 n)) r0) as (G1 & G2 & G3 & G4). fold gg in G1, G2, G3, G4.
  assert (Hr0 : 0 < r0) by (rewrite Er0; apply Hrep; exact Hn).
  assert (Hgg : 0 < gg).
  { specialize (G4 ltac:(lia)). assert (gg <> 0); [|lia]. intros Z0. rewrite Z0 in G1. destruct G1 as [q Hq]. lia. }
  replace (0 <? gg) with true by (symmetry; apply Z.ltb_lt; exact Hgg). cbn [cassert bind].
  set (rep1 := fun v => rep v / gg).
  assert (Hrep1 : forall v, (v < n)%nat -> rep v = rep1 v * gg /\ 0 < rep1 v).
  { intros v Hv. destruct (G2 (rep v)) as [q Hq]; [apply in_map, in_seq; lia|]. unfold rep1. destruct (Hrep v Hv).
    rewrite Hq, Z.div_mul by lia. split; [reflexivity|nia]. }
  rewrite (each_ok _ rep1).
  2:{ intros v Hv. apply in_seq in Hv. rewrite nth_map_seq by lia. rewrite cdiv_ok by lia. destruct (Hrep1 v ltac:(lia)) as [E _].
      rewrite E, Z.quot_mul by lia. reflexivity. }
  cbn [bind]. rewrite map_map. set (rep2 := fun v => rep1 v * rp).
  change (map (fun x => rep1 x * rp) (seq 0 n)) with (map rep2 (seq 0 n)).
  set (q := fun v => rep2 v / phases_of v).
  rewrite (each_ok _ q).
  2:{ intros v Hv. apply in_seq in Hv. unfold q, phases_of. pose proof (phases_of_pos v) as Hp. unfold phases_of in Hp.
      destruct (nth_error (vertices g) v) as [t|] eqn:E; [|apply nth_error_None in E; unfold n in Hv; lia].
      rewrite nth_map_seq by lia. rewrite cdiv_ok by lia. rewrite Z.quot_div_nonneg; [reflexivity| |lia].
      destruct (Hrep1 v ltac:(lia)). unfold rep2. nia. }
  cbn [bind]. set (sub := fold_left Z.gcd (map q (seq 0 n)) rp).
  destruct (fold_gcd_spec (map q (seq 0 n)) rp) as (S1 & S2 & S3 & S4). fold sub in S1, S2, S3, S4.
  assert (Hsub : 0 < sub).
  { specialize (S4 ltac:(lia)). assert (sub <> 0); [|lia]. intros Z0. rewrite Z0 in S1. destruct S1 as [k Hk1]. lia. }
  set (N := fun v => rep2 v / sub).
  assert (HN : forall v, (v < n)%nat -> rep2 v = N v * sub).
  { intros v Hv. destruct S1 as [k Hk1]. unfold N, rep2. rewrite Hk1, Z.mul_assoc, Z.div_mul by lia. reflexivity. }
  rewrite (each_ok _ N).
  2:{ intros v Hv. apply in_seq in Hv. rewrite nth_map_seq by lia. rewrite cdiv_ok by lia. rewrite (HN v) by lia.
      rewrite Z.quot_mul by lia. reflexivity. }
  cbn [bind]. exists N, gg, sub, l, rep1. split; [reflexivity|]. split; [exact Hgg|]. split; [exact Hsub|]. split; [exact L1|]. split; [|split; [exact S1|split; [|split]]].
  - intros v Hv. destruct (Hrep1 v Hv) as [E1 P1]. split; [exact P1|]. split; [|rewrite <- (HN v Hv); reflexivity].
    rewrite <- E1. destruct (Hrep v Hv) as [E2 _]. specialize (Hden v). unfold fvalue, Qeq, inject_Z. cbn.
    rewrite Z.mul_1_r, Pos.mul_1_r, Z2Pos.id by lia. lia.
  - intros v Hv. apply S2. change ((rep1 v * rp) / phases_of v) with (q v). apply in_map, in_seq. lia.
  - intros d Hd Hv. apply S3; [exact Hd|]. intros x Hx. apply in_map_iff in Hx as (v & <- & Hv'). apply in_seq in Hv'. apply Hv. lia.
  - intros h x Hv. assert (Hd : (h * gg | gg * x)).
    { unfold gg at 2. apply gcd_mul_divides.
      - rewrite Er0. destruct (Hrep1 0%nat Hn) as [-> _]. rewrite <- Z.mul_assoc, (Z.mul_comm gg x), Z.mul_assoc. apply Z.mul_divide_mono_r. apply Hv; exact Hn.
      - intros y Hy. apply in_map_iff in Hy as (v & <- & Hv'). apply in_seq in Hv'. destruct (Hrep1 v ltac:(lia)) as [-> _].
        rewrite <- Z.mul_assoc, (Z.mul_comm gg x), Z.mul_assoc. apply Z.mul_divide_mono_r. apply Hv; lia. }
    rewrite (Z.mul_comm gg x) in Hd. apply Z.mul_divide_cancel_r in Hd; [exact Hd|lia].
Qed.

(** What the result satisfies. *)
Lemma repetition_result : exists Nl, calc_repetition g fr rp = Ok (Some Nl) /\ length Nl = n /\
  solution g (as_vector Nl) /\
  (forall i v, nth_error (vertices g) i = Some v -> (Z.of_nat (v_phases v) | rp) -> (Z.of_nat (v_phases v) | as_vector Nl i)) /\
  ((forall i, (i < n)%nat -> counted g i) ->
    forall d, (forall i v, nth_error (vertices g) i = Some v -> (d | as_vector Nl i / Z.of_nat (v_phases v))) -> (d | 1)).
Proof.
  destruct calc_repetition_spec as (N & gg & sub & l & rep1 & E & Hgg & Hsub & Hl & HN & S1 & S2 & S3 & G).
  pose proof (rp_pos g Hwf) as Hrp. fold rp in Hrp.
  exists (map N (seq 0 n)). split; [exact E|]. split; [rewrite map_length; apply seq_length|].
  assert (Hv : forall i, (i < n)%nat -> as_vector (map N (seq 0 n)) i = N i) by (intros i Hi; apply nth_map_seq; exact Hi).
  assert (Hlt : forall i v, nth_error (vertices g) i = Some v -> (i < n)%nat) by (intros i v Ei; apply nth_error_Some; congruence).
  assert (Hmult : forall i, (i < n)%nat -> (phases_of i | rp) -> exists k, N i = phases_of i * k /\ (rep1 i * rp) / phases_of i = k * sub).
  { intros i Hi [k Hkp]. pose proof (phases_of_pos i) as Hp. destruct (HN i Hi) as (_ & _ & E1).
    specialize (S2 i Hi). rewrite Hkp in S2, E1 |- *. rewrite Z.mul_assoc in S2, E1 |- *. rewrite Z.div_mul in S2 |- * by lia.
    destruct S2 as [m Hm]. exists m. split; [|exact Hm]. rewrite Hm in E1. nia. }
  split; [|split].
  - split.
    + intros i Hi. rewrite Hv by exact Hi. destruct (HN i Hi) as (P & _ & E1). nia.
    + intros c Hc. destruct (edge_ends_lt g Hwf c Hc) as [Hs Hd]. fold n in Hs, Hd. rewrite !Hv by assumption.
      destruct (He c Hc) as (_ & _ & _ & _ & Hcons). unfold consistent in Hcons.
      destruct (HN _ Hs) as (_ & F1 & E1). destruct (HN _ Hd) as (_ & F2 & E2).
      assert (Z1 : in_rate g c * rep1 (e_src c) = out_rate g c * rep1 (e_dst c)).
      { apply (Z.mul_reg_r _ _ gg); [lia|]. apply inject_Z_injective.
        rewrite <- !Z.mul_assoc, !(inject_Z_mult (_ g c)), F1, F2, !Qmult_assoc, Hcons. reflexivity. }
      assert (Z2 : in_rate g c * N (e_src c) = out_rate g c * N (e_dst c)).
      { apply (Z.mul_reg_r _ _ sub); [lia|]. rewrite <- !Z.mul_assoc, E1, E2, !Z.mul_assoc, Z1. reflexivity. }
      unfold in_rate, out_rate in Z2. fold rp in Z2. destruct (rp_divides g Hwf c Hc) as [[k1 D1] [k2 D2]]. fold rp in D1, D2.
      destruct (phases_pos g Hwf c Hc) as [P1 P2].
      rewrite D1 in Z2 at 1. rewrite D2 in Z2. rewrite !Z.div_mul in Z2 by lia.
      set (li := Z.of_nat (length (e_in c))) in *. set (lo := Z.of_nat (length (e_out c))) in *.
      assert (0 < li) by lia. assert (0 < lo) by lia. clearbody li lo.
      assert (Ek : k1 * li = k2 * lo) by lia. assert (0 < k1) by nia. assert (0 < k2) by nia.
      set (A := sumZ (e_in c) * N (e_src c)) in *. set (B := sumZ (e_out c) * N (e_dst c)) in *.
      assert (Z3 : A * k1 = B * k2) by (unfold A, B; lia). clearbody A B.
      apply (Z.mul_reg_r _ _ (k1 * k2)); [nia|].
      replace (A * lo * (k1 * k2)) with ((A * k1) * (k2 * lo)) by ring. rewrite Z3, <- Ek. ring.
  - intros i v Ei Hd. rewrite Hv by (eapply Hlt; exact Ei).
    assert (Ep : phases_of i = Z.of_nat (v_phases v)) by (unfold phases_of; rewrite Ei; reflexivity).
    rewrite <- Ep in *. destruct (Hmult i (Hlt i v Ei) Hd) as (k & -> & _). exists k. ring.
  - intros Hall d Hd.
    assert (Hdv : forall i, (i < n)%nat -> exists k, (rep1 i * rp) / phases_of i = k * sub /\ (d | k) /\ (phases_of i | rp)).
    { intros i Hi. destruct (Hall i Hi) as (v & Ei & Hdp).
      assert (Ep : phases_of i = Z.of_nat (v_phases v)) by (unfold phases_of; rewrite Ei; reflexivity).
      specialize (Hd i v Ei). rewrite Hv in Hd by exact Hi. rewrite <- Ep in *. pose proof (phases_of_pos i).
      destruct (Hmult i Hi Hdp) as (k & E1 & E2). exists k. split; [exact E2|]. split; [|exact Hdp].
      rewrite E1, Z.mul_comm, Z.div_mul in Hd by lia. exact Hd. }
    assert (Hh : (d * sub | sub)).
    { apply S3.
      - apply G. intros i Hi. destruct (Hdv i Hi) as (k & E1 & [m ->] & [p Hp]). rewrite Hp in E1 |- *.
        pose proof (phases_of_pos i). rewrite Z.mul_assoc in E1 |- *. rewrite Z.div_mul in E1 by lia. rewrite E1.
        exists (m * phases_of i). ring.
      - intros i Hi. destruct (Hdv i Hi) as (k & -> & [m ->] & _). exists m. ring. }
    replace sub with (1 * sub) in Hh at 2 by ring. apply Z.mul_divide_cancel_r in Hh; [exact Hh|lia].
Qed.
End Final.

Lemma in_rate_pos g c : rates_wf g -> In c (edges g) -> (0 < in_rate g c <-> 0 < sumZ (e_in c)) /\ (0 < out_rate g c <-> 0 < sumZ (e_out c)).
Proof. intros Hwf Hc. destruct (rate_quot g Hwf c Hc) as (_ & _ & Q1 & Q2). unfold in_rate, out_rate. split; nia. Qed.

Lemma compute_spec g fuel : rates_wf g -> vertices g <> [] -> (length (vertices g) <= fuel)%nat ->
  (exists Nl, compute_repetition_vector fuel g = Ok (Some Nl) /\ length Nl = length (vertices g) /\ moves_tokens g /\
    solution g (as_vector Nl) /\
    (forall i v, nth_error (vertices g) i = Some v -> (Z.of_nat (v_phases v) | rate_period g) -> (Z.of_nat (v_phases v) | as_vector Nl i)) /\
    ((forall i, (i < length (vertices g))%nat -> counted g i) ->
      forall d, (forall i v, nth_error (vertices g) i = Some v -> (d | as_vector Nl i / Z.of_nat (v_phases v))) -> (d | 1))) \/
  (compute_repetition_vector fuel g = Ok None /\ ~ (moves_tokens g /\ exists M, solution g M)).
Proof.
  intros Hwf Hne Hf. assert (Hn : (0 < length (vertices g))%nat) by (destruct (vertices g); [congruence|cbn; lia]).
  unfold compute_repetition_vector. pose proof (rp_pos g Hwf) as Hrp.
  replace (0 <? rate_period g) with true by (symmetry; apply Z.ltb_lt; exact Hrp). cbn [cassert bind].
  destruct (fractions_spec g Hwf fuel Hf) as (r & -> & H1 & H2). cbn [bind]. destruct r as [fr|].
  - left. destruct (H1 fr eq_refl) as (Hg & Hk & He).
    destruct (repetition_result g Hwf Hn fr Hg Hk He) as (Nl & E & R1 & R2 & R3 & R4).
    exists Nl. split; [exact E|]. split; [exact R1|]. split; [|auto].
    intros c Hc. destruct (He c Hc) as (_ & _ & P1 & P2 & _). destruct (in_rate_pos g c Hwf Hc). tauto.
  - right. split; [reflexivity|]. intros H. apply (H2 H). reflexivity.
Qed.

(** * Uniqueness *)
Lemma ratio_linked g M N i j : solution g M -> solution g N -> moves_tokens g ->
  (forall c, In c (edges g) -> (0 < length (e_in c))%nat /\ (0 < length (e_out c))%nat) ->
  linked g i j -> M i * N j = M j * N i.
Proof.
  intros [HM1 HM2] [HN1 HN2] Hmv Hl. induction 1 as [i|i c Hc H IH|i c Hc H IH]; [ring| |].
  all: specialize (HM2 c Hc); specialize (HN2 c Hc); destruct (Hmv c Hc) as [Hi Ho]; destruct (Hl c Hc) as [L1 L2];
    set (li := Z.of_nat (length (e_in c))) in *; set (lo := Z.of_nat (length (e_out c))) in *;
    assert (0 < li) by lia; assert (0 < lo) by lia; clearbody li lo;
    set (a := sumZ (e_in c)) in *; set (b := sumZ (e_out c)) in *; clearbody a b.
  - apply (Z.mul_reg_r _ _ (b * li)); [nia|].
    transitivity (M i * (b * N (e_dst c) * li)); [ring|]. rewrite <- HN2.
    transitivity ((M i * N (e_src c)) * (a * lo)); [ring|]. rewrite IH.
    transitivity ((a * M (e_src c) * lo) * N i); [ring|]. rewrite HM2. ring.
  - apply (Z.mul_reg_r _ _ (a * lo)); [nia|].
    transitivity (M i * (a * N (e_src c) * lo)); [ring|]. rewrite HN2.
    transitivity ((M i * N (e_dst c)) * (b * li)); [ring|]. rewrite IH.
    transitivity ((b * M (e_dst c) * li) * N i); [ring|]. rewrite <- HM2. ring.
Qed.

Lemma unique_multiple g M N : rates_wf g -> vertices g <> [] -> connected_graph g -> moves_tokens g -> solution g M -> solution g N ->
  (forall i v, nth_error (vertices g) i = Some v -> (Z.of_nat (v_phases v) | M i) /\ (Z.of_nat (v_phases v) | N i)) ->
  (forall d, (forall i v, nth_error (vertices g) i = Some v -> (d | N i / Z.of_nat (v_phases v))) -> (d | 1)) ->
  exists k, 0 < k /\ forall i, (i < length (vertices g))%nat -> M i = k * N i.
Proof.
  intros Hwf Hne Hcon Hmv HM HN Hph Hgcd.
  assert (Hn : (0 < length (vertices g))%nat) by (destruct (vertices g); [congruence|cbn; lia]).
  assert (Hr : forall i, (i < length (vertices g))%nat -> M i * N 0%nat = M 0%nat * N i).
  { intros i Hi. rewrite (Z.mul_comm (M i)), (Z.mul_comm (M 0%nat)).
    rewrite (Z.mul_comm (N 0%nat)). symmetry. rewrite (Z.mul_comm (N i)). apply (ratio_linked g M N); auto.
    apply phases_pos; exact Hwf. }
  set (n := length (vertices g)) in *.
  assert (Hd : (N 0%nat | M 0%nat)).
  { (* via the gcd of the cycle counts *)
    set (nu := fun i => match nth_error (vertices g) i with Some v => N i / Z.of_nat (v_phases v) | None => 0 end).
    set (G := fold_left Z.gcd (map nu (seq 0 n)) 0).
    destruct (fold_gcd_spec (map nu (seq 0 n)) 0) as (_ & G2 & _ & G4). fold G in G2, G4.
    assert (G1 : (G | 1)).
    { apply Hgcd. intros i v Ei. replace (N i / Z.of_nat (v_phases v)) with (nu i) by (unfold nu; rewrite Ei; reflexivity).
      apply G2, in_map, in_seq. assert (i < n)%nat by (apply nth_error_Some; congruence). lia. }
    assert (HG : G = 1).
    { specialize (G4 ltac:(lia)). apply Z.divide_1_r_nonneg in G1; [exact G1|exact G4]. }
    assert (Hall : (N 0%nat | G * M 0%nat)).
    { apply gcd_mul_divides; [exists 0; ring|]. intros y Hy. apply in_map_iff in Hy as (i & <- & Hi). apply in_seq in Hi.
      unfold nu. destruct (nth_error (vertices g) i) as [v|] eqn:Ei; [|exists 0; ring].
      destruct (Hph i v Ei) as [[m Hm] [k Hk]]. assert (Hp : (0 < v_phases v)%nat) by (destruct Hwf as [Hv _]; apply Hv; eapply nth_error_In; exact Ei).
      specialize (Hr i ltac:(lia)). rewrite Hk, Z.div_mul by lia. rewrite Hm, Hk in Hr. exists m.
      set (p := Z.of_nat (v_phases v)) in *. assert (0 < p) by lia. clearbody p.
      apply (Z.mul_reg_r _ _ p); [lia|]. lia. }
    rewrite HG, Z.mul_1_l in Hall. exact Hall. }
  destruct Hd as [k Hk]. exists k. destruct HM as [HM _]. destruct HN as [HN _]. pose proof (HM 0%nat Hn). pose proof (HN 0%nat Hn).
  split; [nia|]. intros i Hi. specialize (Hr i Hi). rewrite Hk in Hr. apply (Z.mul_reg_r _ _ (N 0%nat)); [lia|]. lia.
Qed.

Lemma counted_channel g i : rates_wf g -> has_channel g i -> counted g i.
Proof.
  intros Hwf (c & Hc & Hi). destruct (rp_divides g Hwf c Hc) as [D1 D2]. destruct Hwf as [_ He].
  destruct (He c Hc) as (vs & vd & E1 & E2 & L1 & L2 & _). rewrite L1 in D1. rewrite L2 in D2.
  destruct Hi as [<-|<-]; [exists vs|exists vd]; auto.
Qed.
Lemma counted_single g i v : nth_error (vertices g) i = Some v -> v_phases v = 1%nat -> counted g i.
Proof. intros E H. exists v. split; [exact E|]. rewrite H. apply Z.divide_1_l. Qed.
