(** What a settled run of Howard's policy iteration computes. *)
From Coq Require Import QArith Qabs Qreduction Lqa.
From Verif Require Import Base Graph KPeriodic EventGraph EventGraphSpec EventGraphProofs Howard HowardProofs HowardTotal.
Open Scope Z_scope.

(** ** Simple circuits. *)
Lemma dup_split (l : list constraint) : NoDup (map c_source l) \/
  exists l1 c l2 c' l3, l = l1 ++ c :: l2 ++ c' :: l3 /\ c_source c = c_source c'.
Proof.
  induction l as [|c l [IH|IH]]; [left; constructor| |].
  - destruct (in_dec event_dec (c_source c) (map c_source l)) as [I|I]; [right|left; cbn; constructor; assumption].
    apply in_map_iff in I. destruct I as (c' & E & I). apply in_split in I. destruct I as (l2 & l3 & ->). exists [], c, l2, c', l3. auto.
  - right. destruct IH as (l1 & c1 & l2 & c2 & l3 & -> & E). exists (c :: l1), c1, l2, c2, l3. auto.
Qed.
Lemma path_split l1 : forall u l2 v, path u (l1 ++ l2) v -> exists w, path u l1 w /\ path w l2 v.
Proof.
  induction l1 as [|c l1 IH]; intros u l2 v; cbn [app path]; [eauto|]. intros [E P]. destruct (IH _ _ _ P) as (w & P1 & P2). exists w. auto.
Qed.
Lemma simple_circuit cs l : circuit cs l -> exists l', circuit cs l' /\ NoDup l'.
Proof.
  remember (length l) as n eqn:En. revert l En. induction n as [n IH] using lt_wf_ind. intros l En C.
  destruct (dup_split l) as [N|(l1 & c & l2 & c' & l3 & -> & E)].
  - exists l. split; [assumption|]. apply NoDup_map_inv with (f := c_source). assumption.
  - destruct C as (_ & I & u & P). apply path_split in P. destruct P as (w & _ & P).
    change (c :: l2 ++ c' :: l3) with ((c :: l2) ++ c' :: l3) in P. apply path_split in P. destruct P as (x & P & [Ex _]).
    assert (C : circuit cs (c :: l2)).
    { split; [discriminate|]. split; [intros y Hy; apply I, in_app_iff; right; destruct Hy as [->|Hy]; [left; reflexivity|right; apply in_app_iff; auto]|].
      exists w. pose proof (proj1 P) as Ew. replace w with x at 2; [assumption|]. congruence. }
    refine (IH _ _ _ eq_refl C). rewrite En, app_length. cbn. rewrite app_length. cbn. lia.
Qed.

(** ** The first bound. *)
Lemma sum_incl (f : constraint -> Q) (l L : list constraint) : (forall c, 0 <= f c)%Q -> NoDup l -> incl l L -> (sumQ f l <= sumQ f L)%Q.
Proof.
  intros F. revert L. induction l as [|c l IH]; intros L N I.
  - rewrite sumQ_nil. clear I. induction L as [|x L IHL]; [rewrite sumQ_nil; lra|]. rewrite sumQ_cons. pose proof (F x). lra.
  - inversion_clear N. pose proof (I c (or_introl eq_refl)) as J. apply in_split in J. destruct J as (L1 & L2 & ->).
    assert (K : incl l (L1 ++ L2)).
    { intros x Hx. pose proof (I x (or_intror Hx)) as J. apply in_app_iff in J. apply in_app_iff. destruct J as [J|[->|J]]; [auto|contradiction|auto]. }
    specialize (IH _ H0 K). rewrite (sumQ_app f L1 L2) in IH. rewrite sumQ_cons, sumQ_app, sumQ_cons. lra.
Qed.
Lemma fold_abs l : forall a, (fold_left (fun s c => s + Qabs (c_w c))%Q l a == a + sumQ (fun c => Qabs (c_w c)) l)%Q.
Proof. induction l as [|c l IH]; intros a; cbn [fold_left]; [rewrite sumQ_nil; ring|]. rewrite IH, sumQ_cons. ring. Qed.
Lemma closest_spec eps l : (0 <= eps)%Q -> forall cz, (0 < cz)%Q ->
  (0 < closest eps l cz <= cz)%Q /\ forall c, In c l -> (eps < Qabs (c_d c))%Q -> (closest eps l cz <= Qabs (c_d c))%Q.
Proof.
  intros E. unfold closest. induction l as [|c l IH]; intros cz C; cbn [fold_left]; [split; [lra|intros ? []]|].
  set (cz' := if _ && _ then _ else cz). assert (K : (0 < cz' <= cz)%Q /\ ((eps < Qabs (c_d c))%Q -> (cz' <= Qabs (c_d c))%Q)).
  { unfold cz'. destruct (lessb eps (Qabs (c_d c))) eqn:B1; cbn [andb].
    - apply lessb_true in B1. destruct (lessb (Qabs (c_d c)) cz) eqn:B2; [apply lessb_true in B2; split; lra|apply lessb_false in B2; split; lra].
    - apply lessb_false in B1. split; lra. }
  destruct K as [K1 K2]. destruct (IH cz' ltac:(lra)) as [I1 I2]. split; [lra|]. intros x [<-|Hx] L; [specialize (K2 L); lra|auto].
Qed.
Lemma largest_pos : (0 < largest_time)%Q.
Proof. unfold largest_time. change 0%Q with (inject_Z 0). rewrite <- Zlt_Qlt. apply Z.lt_0_sub. apply Z.pow_lt_mono_r; lia. Qed.
Lemma arcs_In cs evs c : closed evs cs -> In c cs -> In c (flat_map (out_edges cs) evs).
Proof. intros CL I. apply in_flat_map. exists (c_source c). split; [apply CL; assumption|]. apply out_edges_In. auto. Qed.
Lemma abs_mult o w : (multiplier o * w <= Qabs w)%Q.
Proof. destruct o; unfold multiplier; pose proof (Qle_Qabs w); pose proof (Qle_Qabs (- w)); rewrite Qabs_opp in *; lra. Qed.
Lemma sum_mult o l : (multiplier o * sumQ c_w l <= sumQ (fun c => Qabs (c_w c)) l)%Q.
Proof. induction l as [|c l IH]; [rewrite !sumQ_nil; lra|]. rewrite !sumQ_cons. pose proof (abs_mult o (c_w c)). lra. Qed.
Definition total_weight (evs : list event) (cs : list constraint) : Q := sumQ (fun c => Qabs (c_w c)) (flat_map (out_edges cs) evs).
Definition shortest (eps : Q) (evs : list event) (cs : list constraint) : Q := closest eps (flat_map (out_edges cs) evs) largest_time.
Lemma bound_eq o eps evs cs : (mcr_bound o eps evs cs == multiplier o * (total_weight evs cs / shortest eps evs cs))%Q.
Proof. unfold mcr_bound. rewrite fold_abs. unfold total_weight, shortest. apply Qmult_comp; [reflexivity|]. apply Qdiv_comp; [ring|reflexivity]. Qed.
Lemma shortest_pos eps evs cs : (0 <= eps)%Q -> (0 < shortest eps evs cs)%Q.
Proof. intros E. apply (closest_spec eps _ E largest_time largest_pos). Qed.
Lemma shortest_le eps evs cs c : (0 <= eps)%Q -> closed evs cs -> In c cs -> (eps < c_d c)%Q -> (shortest eps evs cs <= c_d c)%Q.
Proof.
  intros E CL I D. destruct (closest_spec eps (flat_map (out_edges cs) evs) E largest_time largest_pos) as [_ H].
  specialize (H c (arcs_In _ _ _ CL I)). rewrite Qabs_pos in H by lra. apply H. assumption.
Qed.
Lemma sum_ge l x : l <> [] -> (0 <= x)%Q -> (forall c, In c l -> x <= c_d c)%Q -> (x <= sumQ c_d l)%Q.
Proof.
  intros N X. induction l as [|c l IH]; [congruence|]. intros H. rewrite sumQ_cons. pose proof (H c (or_introl eq_refl)).
  destruct l as [|y l]; [rewrite sumQ_nil; lra|]. assert (x <= sumQ c_d (y :: l))%Q by (apply IH; [discriminate|intros z Hz; apply H; right; exact Hz]). lra.
Qed.
Lemma simple_below o eps evs cs l : (0 <= eps)%Q -> closed evs cs -> (forall c, In c cs -> eps < c_d c)%Q -> circuit cs l -> NoDup l ->
  (multiplier o * sumQ c_w l <= multiplier o * (mcr_bound o eps evs cs * sumQ c_d l))%Q.
Proof.
  intros E CL D (N & I & _) ND. rewrite bound_eq. set (s := total_weight evs cs). set (z := shortest eps evs cs).
  assert (Z : (0 < z)%Q) by (apply shortest_pos; assumption).
  assert (Dl : (z <= sumQ c_d l)%Q) by (apply sum_ge; [assumption|lra|intros c Ic; apply shortest_le; auto]).
  assert (W : (multiplier o * sumQ c_w l <= s)%Q).
  { eapply Qle_trans; [apply sum_mult|]. apply sum_incl; [intros; apply Qabs_nonneg|assumption|]. intros c Ic. apply arcs_In; auto. }
  assert (S0 : (0 <= s)%Q).
  { unfold s, total_weight. generalize (flat_map (out_edges cs) evs). intros L. induction L as [|c L IH]; [rewrite sumQ_nil; lra|]. rewrite sumQ_cons. pose proof (Qabs_nonneg (c_w c)). lra. }
  assert (Q1 : (multiplier o * (multiplier o * (s / z) * sumQ c_d l) == multiplier o * multiplier o * (s / z * sumQ c_d l))%Q) by ring.
  rewrite Q1, mult_sq. assert (Q2 : (s == s / z * z)%Q) by (field; lra). assert (0 <= s / z)%Q by (apply Qle_shift_div_l; lra).
  assert (s / z * z <= s / z * sumQ c_d l)%Q by (rewrite (Qmult_comm _ z), (Qmult_comm _ (sumQ c_d l)); apply Qmult_le_compat_r; assumption). lra.
Qed.

(** ** The answer of a settled run with exact comparisons. *)
Lemma settled_exact o evs cs r : closed evs cs -> (forall c, In c cs -> 0 < c_d c)%Q -> ocr_howard o 0 None evs cs = Ok r -> r_settled r = true ->
  exists v, r_value r = Some v /\
    (forall l, circuit cs l -> multiplier o * (v * sumQ c_d l) <= multiplier o * sumQ c_w l)%Q /\
    ((exists l, circuit cs l) -> exists l, circuit cs l /\ (v * sumQ c_d l == sumQ c_w l)%Q /\ (r_cycle r <> [] -> l = r_cycle r)) /\
    (r_cycle r = [] \/ circuit cs (r_cycle r)) /\ (r_cycle r = [] -> v = mcr_bound o 0 evs cs).
Proof.
  intros CL D H ST. destruct (ocr_spec _ _ _ _ _ _ CL H) as (v & At & Le & V & Cert). specialize (Cert ST). cbv beta zeta in *.
  assert (C : forall l, circuit cs l -> (multiplier o * (v * sumQ c_d l) <= multiplier o * sumQ c_w l)%Q) by (intros l C; specialize (Cert l C); lra).
  exists v. split; [|split; [exact C|split; [|split]]].
  - rewrite V. destruct (better o v _) eqn:B; [|reflexivity]. apply better_true in B. exfalso.
    assert (multiplier o * (mcr_bound o 0 evs cs - 0 * multiplier o * multiplier o) == multiplier o * mcr_bound o 0 evs cs)%Q by ring. lra.
  - intros (l0 & C0). destruct At as [[-> Ec]|(A1 & A2 & A3)].
    + destruct (simple_circuit _ _ C0) as (l & Cl & Nl). exists l. split; [assumption|]. split; [|rewrite Ec; congruence].
      pose proof (simple_below o 0 evs cs l (Qle_refl 0) CL D Cl Nl) as U. specialize (C l Cl).
      assert (E : (multiplier o * (mcr_bound o 0 evs cs * sumQ c_d l) == multiplier o * sumQ c_w l)%Q) by (apply Qle_antisym; assumption).
      assert (E2 : (multiplier o * multiplier o * (mcr_bound o 0 evs cs * sumQ c_d l) == multiplier o * multiplier o * sumQ c_w l)%Q) by (rewrite <- !Qmult_assoc, E; reflexivity).
      rewrite !mult_sq in E2. lra.
    + exists (r_cycle r). auto.
  - destruct At as [[_ ->]|(A1 & _)]; auto.
  - intros Ec. destruct At as [[-> _]|((A1 & _) & _)]; [reflexivity|congruence].
Qed.
