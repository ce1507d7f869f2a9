(** From whole cycles to phases: what the loop says about liveness. *)
From Coq Require Import QArith.
From Verif Require Import Base Graph KPeriodic ScheduleSpec ScheduleCore KIterSpec KPeriodicProofs RepVec RepVecSpec RepVecProofs SymbExec SymbExecSpec SymbExecProofs.
Open Scope Z_scope.

Section G.
Variable g : graph.
Hypothesis WF : graph_wf g.
Hypothesis NI : no_init g.

Lemma edge_facts c : In c (edges g) -> e_in_init c = [] /\ e_out_init c = [] /\ (0 < length (e_in c))%nat /\ (0 < length (e_out c))%nat /\
  (forall m, 0 <= prod_rate c m) /\ (forall m, 0 <= cons_rate c m) /\ 0 < edge_in_total c /\ 0 < edge_out_total c /\ 0 <= e_preload c /\
  (exists v, nth_error (vertices g) (e_src c) = Some v /\ length (e_in c) = v_phases v) /\
  (exists v, nth_error (vertices g) (e_dst c) = Some v /\ length (e_out c) = v_phases v).
Proof.
  intros Hc. destruct WF as (HV & HE & _). destruct (HE c Hc) as (vs & vd & E1 & E2 & L1 & L2 & L3 & L4 & P & S1 & S2 & S3).
  pose proof (NI vs (nth_error_In _ _ E1)) as I1. pose proof (NI vd (nth_error_In _ _ E2)) as I2. rewrite I1 in L3. rewrite I2 in L4.
  apply length_zero_iff_nil in L3. apply length_zero_iff_nil in L4.
  destruct (HV vs (nth_error_In _ _ E1)) as (P1 & _). destruct (HV vd (nth_error_In _ _ E2)) as (P2 & _).
  assert (CY : forall l, (forall x, In x l -> 0 <= x) -> (0 < length l)%nat -> forall m, 0 <= cyclic 0 [] l m).
  { intros l Hl Ln m. unfold cyclic. cbn [length]. replace (m <? 0)%nat with false by (symmetry; apply Nat.ltb_ge; lia).
    apply Hl. apply nth_In. apply Nat.mod_upper_bound. lia. }
  repeat split; try assumption; try (rewrite ?L1, ?L2; assumption).
  - unfold prod_rate. rewrite L3. apply CY; [intros x Hx; apply P; apply in_or_app; left; exact Hx|rewrite L1; exact P1].
  - unfold cons_rate. rewrite L4. apply CY; [intros x Hx; apply P; apply in_or_app; right; apply in_or_app; left; exact Hx|rewrite L2; exact P2].
  - eauto.
  - eauto.
Qed.

Lemma cycle_sum l k : (0 < length l)%nat -> sumf (cyclic 0 [] l) (k * length l) = Z.of_nat k * sumZ l.
Proof. intros H. pose proof (cyclic_sum [] l 0%nat k H (le_n _)) as E. rewrite Nat.add_0_l in E. rewrite E. cbn [sumf]. lia. Qed.

Lemma prod_cycles c k : In c (edges g) -> sumf (prod_rate c) (k * length (e_in c)) = Z.of_nat k * edge_in_total c.
Proof. intros Hc. destruct (edge_facts c Hc) as (E & _ & L & _). unfold prod_rate. rewrite E. apply cycle_sum. exact L. Qed.
Lemma cons_cycles c k : In c (edges g) -> sumf (cons_rate c) (k * length (e_out c)) = Z.of_nat k * edge_out_total c.
Proof. intros Hc. destruct (edge_facts c Hc) as (_ & E & _ & L & _). unfold cons_rate. rewrite E. apply cycle_sum. exact L. Qed.

(** ** Each cycle is a run of phases *)
Definition phases (i : nat) : nat := match nth_error (vertices g) i with Some v => v_phases v | None => 0%nat end.
Lemma src_phases c : In c (edges g) -> length (e_in c) = phases (e_src c).
Proof. intros Hc. destruct (edge_facts c Hc) as (_ & _ & _ & _ & _ & _ & _ & _ & _ & (v & E & L) & _). unfold phases. rewrite E. exact L. Qed.
Lemma dst_phases c : In c (edges g) -> length (e_out c) = phases (e_dst c).
Proof. intros Hc. destruct (edge_facts c Hc) as (_ & _ & _ & _ & _ & _ & _ & _ & _ & _ & (v & E & L)). unfold phases. rewrite E. exact L. Qed.

Lemma times_repeat i j n : times i (repeat j n) = if (j =? i)%nat then n else 0%nat.
Proof.
  unfold times. induction n as [|n IH]; cbn [repeat count_occ]; [destruct (j =? i)%nat; reflexivity|].
  destruct (Nat.eq_dec j i) as [->|N]; rewrite IH; [rewrite Nat.eqb_refl; reflexivity|]. apply Nat.eqb_neq in N. rewrite N. reflexivity.
Qed.
Lemma times_app i a b : times i (a ++ b) = (times i a + times i b)%nat.
Proof. apply count_occ_app. Qed.

Definition spell (w : list nat) : list nat := flat_map (fun i => repeat i (phases i)) w.
Lemma times_spell i w : times i (spell w) = (times i w * phases i)%nat.
Proof.
  induction w as [|j w IH]; [reflexivity|]. cbn [spell flat_map]. rewrite times_app. fold (spell w). rewrite IH, times_repeat.
  unfold times. cbn [count_occ]. destruct (Nat.eq_dec j i) as [->|N]; [rewrite Nat.eqb_refl; lia|]. apply Nat.eqb_neq in N. rewrite N. lia.
Qed.

Lemma tokens_spell c w : In c (edges g) -> tokens c (spell w) = tok c w.
Proof.
  intros Hc. unfold tokens, tok. rewrite !times_spell, <- (src_phases c Hc), <- (dst_phases c Hc), (prod_cycles c _ Hc), (cons_cycles c _ Hc). lia.
Qed.

Lemma one_cycle w i : (i < length (vertices g))%nat -> playable g (spell w) -> ready g w i -> forall n, (n <= phases i)%nat -> playable g (spell w ++ repeat i n).
Proof.
  intros Hi P R. induction n as [|n IH]; intros Hn; [rewrite app_nil_r; exact P|].
  replace (repeat i (S n)) with (repeat i n ++ [i]) by (symmetry; apply (repeat_cons n i)). rewrite app_assoc.
  apply playable_snoc; [apply IH; lia|]. split; [exact Hi|]. intros c Hc E.
  destruct (edge_facts c Hc) as (_ & _ & _ & L2 & P1 & P2 & _). specialize (R c Hc E). rewrite <- (tokens_spell c w Hc) in R.
  unfold tokens in *. rewrite E in *. rewrite !times_app, !times_repeat, Nat.eqb_refl.
  assert (A : sumf (prod_rate c) (times (e_src c) (spell w)) <= sumf (prod_rate c) (times (e_src c) (spell w) + (if (i =? e_src c)%nat then n else 0))) by (apply sumf_mono; [exact P1|lia]).
  assert (B : sumf (cons_rate c) (S (times i (spell w) + n)) <= sumf (cons_rate c) (times i (spell w)) + edge_out_total c).
  { replace (sumf (cons_rate c) (times i (spell w)) + edge_out_total c) with (sumf (cons_rate c) ((times i w + 1) * length (e_out c))).
    - apply sumf_mono; [exact P2|]. rewrite times_spell, (dst_phases c Hc), E. lia.
    - rewrite times_spell, <- E, <- (dst_phases c Hc), !(cons_cycles c _ Hc). lia. }
  cbn [sumf] in B. lia.
Qed.

Lemma plays_playable w : plays g w -> playable g (spell w).
Proof.
  induction 1 as [|w i H IH Hi R]; [constructor|]. unfold spell. rewrite flat_map_app. cbn [flat_map]. rewrite app_nil_r. fold (spell w).
  apply one_cycle; auto.
Qed.

(** ** Executions beyond one iteration are not needed *)
Section Cap.
Variable N : nat -> Z.
Hypothesis BAL : forall c, In c (edges g) -> edge_in_total c * N (e_src c) * Z.of_nat (length (e_out c)) = edge_out_total c * N (e_dst c) * Z.of_nat (length (e_in c)).
Hypothesis CYC : forall i v, nth_error (vertices g) i = Some v -> has_channel g i -> (Z.of_nat (v_phases v) | N i).
Hypothesis POS : forall i, (i < length (vertices g))%nat -> 0 < N i.

Lemma iteration_sums c : In c (edges g) -> sumf (prod_rate c) (Z.to_nat (N (e_src c))) = sumf (cons_rate c) (Z.to_nat (N (e_dst c))).
Proof.
  intros Hc. destruct (edge_facts c Hc) as (_ & _ & L1 & L2 & _ & _ & _ & _ & _ & (v & E1 & F1) & (u & E2 & F2)).
  assert (H1 : has_channel g (e_src c)) by (exists c; auto). assert (H2 : has_channel g (e_dst c)) by (exists c; auto).
  destruct (CYC _ _ E1 H1) as (a & Ea). destruct (CYC _ _ E2 H2) as (b & Eb). specialize (BAL c Hc). rewrite <- F1 in Ea. rewrite <- F2 in Eb.
  assert (0 < N (e_src c)) by (apply POS; apply nth_error_Some; congruence). assert (0 < N (e_dst c)) by (apply POS; apply nth_error_Some; congruence).
  assert (0 < a) by nia. assert (0 < b) by nia.
  replace (Z.to_nat (N (e_src c))) with (Z.to_nat a * length (e_in c))%nat by (rewrite Ea; nia).
  replace (Z.to_nat (N (e_dst c))) with (Z.to_nat b * length (e_out c))%nat by (rewrite Eb; nia).
  rewrite (prod_cycles c _ Hc), (cons_cycles c _ Hc), !Z2Nat.id by lia. rewrite Ea, Eb in BAL.
  apply (Z.mul_reg_r _ _ (Z.of_nat (length (e_in c)) * Z.of_nat (length (e_out c)))); [nia|]. nia.
Qed.

Lemma cap w : playable g w -> exists w', playable g w' /\ forall i, times i w' = Nat.min (times i w) (Z.to_nat (N i)).
Proof.
  induction 1 as [|w i H (w' & P' & T') (Hi & En)]; [exists []; split; [constructor|reflexivity]|].
  destruct (Nat.lt_ge_cases (times i w) (Z.to_nat (N i))) as [L|L].
  - exists (w' ++ [i]). split.
    + apply playable_snoc; [exact P'|]. split; [exact Hi|]. intros c Hc E. specialize (En c Hc E).
      destruct (edge_facts c Hc) as (_ & _ & _ & _ & P1 & P2 & _ & _ & P0 & _). unfold tokens in *. rewrite E in *. rewrite !T'.
      rewrite (Nat.min_l (times i w)) by lia.
      destruct (Nat.le_gt_cases (times (e_src c) w) (Z.to_nat (N (e_src c)))) as [A|A]; [rewrite Nat.min_l by exact A; exact En|].
      rewrite Nat.min_r by lia. rewrite (iteration_sums c Hc), E.
      pose proof (sumf_mono (cons_rate c) (S (times i w)) (Z.to_nat (N i)) P2 L) as B. cbn [sumf] in B. lia.
    + intros j. rewrite !times_snoc, T'. destruct (Nat.eqb_spec i j) as [<- |]; lia.
  - exists w'. split; [exact P'|]. intros j. rewrite times_snoc, T'. destruct (Nat.eqb_spec i j) as [<- |]; lia.
Qed.

Lemma enough_live w : playable g w -> (forall i, (i < length (vertices g))%nat -> N i <= Z.of_nat (times i w)) -> live g N.
Proof.
  intros P H. destruct (cap w P) as (w' & P' & T'). exists w'. split; [exact P'|]. intros i Hi. rewrite T'. specialize (H i Hi). specialize (POS i Hi). lia.
Qed.

(** ** Synchronous graphs *)
Hypothesis SDF : single_phase g.
Lemma sdf_phases i : (i < length (vertices g))%nat -> phases i = 1%nat.
Proof.
  intros Hi. unfold phases. destruct (nth_error (vertices g) i) as [v|] eqn:E; [|apply nth_error_None in E; lia].
  apply SDF. eapply nth_error_In; eauto.
Qed.
Lemma playable_range w : playable g w -> forall i, In i w -> (i < length (vertices g))%nat.
Proof. induction 1 as [|w i H IH (Hi & _)]; intros j Hj; [destruct Hj|]. apply in_app_iff in Hj. destruct Hj as [Hj|[<-|[]]]; auto. Qed.
Lemma spell_sdf w : (forall i, In i w -> (i < length (vertices g))%nat) -> spell w = w.
Proof.
  induction w as [|i w IH]; intros H; [reflexivity|]. cbn [spell flat_map]. rewrite sdf_phases by (apply H; left; reflexivity).
  cbn [repeat app]. fold (spell w). rewrite IH; [reflexivity|]. intros j Hj. apply H. right. exact Hj.
Qed.
Lemma playable_plays w : playable g w -> plays g w.
Proof.
  induction 1 as [|w i H IH (Hi & En)]; [constructor|]. apply plays_snoc; [exact IH|exact Hi|]. intros c Hc E. specialize (En c Hc E).
  rewrite <- (tokens_spell c w Hc), (spell_sdf w (playable_range w H)).
  assert (B : cons_rate c (times i w) = edge_out_total c); [|lia].
  destruct (edge_facts c Hc) as (_ & Eo & _ & L2 & _). unfold cons_rate, cyclic. rewrite Eo. cbn [length].
  replace (times i w <? 0)%nat with false by (symmetry; apply Nat.ltb_ge; lia).
  pose proof (dst_phases c Hc) as D. rewrite E, sdf_phases in D by exact Hi. unfold edge_out_total. destruct (e_out c) as [|x [|y l]]; try discriminate D.
  cbn [length]. rewrite Nat.mod_1_r. cbn. lia.
Qed.

(** Several iterations one after the other. *)
Lemma plays_iterations w k : plays g w -> (forall i, (i < length (vertices g))%nat -> Z.of_nat (times i w) = N i) ->
  exists W, plays g W /\ forall i, (i < length (vertices g))%nat -> Z.of_nat (times i W) = N i * Z.of_nat k.
Proof.
  intros P T. induction k as [|k (W & PW & TW)]; [exists []; split; [constructor|]; intros; cbn; lia|].
  assert (G : forall u, plays g u -> plays g (W ++ u)).
  { induction 1 as [|u i H IH Hi R]; [rewrite app_nil_r; exact PW|]. rewrite app_assoc. apply plays_snoc; [exact IH|exact Hi|].
    intros c Hc E. specialize (R c Hc E). unfold tok in *. rewrite !times_app, !Nat2Z.inj_add.
    destruct (edge_facts c Hc) as (_ & _ & _ & _ & _ & _ & _ & _ & _ & (v & E1 & F1) & (u' & E2 & F2)).
    assert (I1 : (e_src c < length (vertices g))%nat) by (apply nth_error_Some; congruence).
    assert (I2 : (e_dst c < length (vertices g))%nat) by (apply nth_error_Some; congruence).
    rewrite (TW _ I1), (TW _ I2). specialize (BAL c Hc). rewrite (src_phases c Hc), (dst_phases c Hc), !sdf_phases in BAL by assumption. nia. }
  exists (W ++ w). split; [apply G; exact P|]. intros i Hi. rewrite times_app, Nat2Z.inj_add, TW, T by exact Hi. lia.
Qed.
End Cap.
End G.
