(** Proofs about the strictly periodic event graph. *)
From Coq Require Import QArith Lqa.
From Verif Require Import Base Graph Commons CommonsProofs KPeriodic ScheduleSpec ScheduleCore KPeriodicSpec
  KPeriodicProofs KPeriodicChannel KPeriodicGraph EventGraph EventGraphSpec EventGraphProofs KPeriodicEnd KIterSpec
  SPeriodicSpec SPeriodic.
Open Scope Z_scope.

Lemma zrange_snoc n : zrange 1 (Z.of_nat (S n)) = zrange 1 (Z.of_nat n) ++ [Z.of_nat n + 1].
Proof.
  unfold zrange. replace (Z.to_nat (Z.of_nat (S n) - 1 + 1)) with (S n) by lia.
  replace (Z.to_nat (Z.of_nat n - 1 + 1)) with n by lia. rewrite seq_S, map_app. cbn [map]. do 2 f_equal. lia.
Qed.

Lemma sum_phases_app f a b : forall acc,
  sum_phases f (a ++ b) acc = (do x <- sum_phases f a acc; sum_phases f b x).
Proof. induction a as [|p a IH]; intros acc; [reflexivity|]. cbn [app sum_phases]. destruct (f p); cbn [bind]; auto. Qed.

Lemma sum_phases_spec f r n : (forall j, (j < n)%nat -> f (Z.of_nat j + 1) = Ok (r j)) ->
  sum_phases f (zrange 1 (Z.of_nat n)) 0 = Ok (sumf r n).
Proof.
  induction n as [|n IH]; intros H; [reflexivity|].
  rewrite zrange_snoc, sum_phases_app, IH by (intros; apply H; lia). cbn [bind sum_phases sumf]. rewrite H by lia. reflexivity.
Qed.

Lemma nz_inject z : z <> 0 -> ~ (inject_Z z == 0)%Q.
Proof. intros Hz E. apply Hz. unfold Qeq in E. cbn in E. lia. Qed.
Lemma pos_inject z : 0 < z -> (0 < inject_Z z)%Q.
Proof. intros H. change 0%Q with (inject_Z 0). rewrite <- Zlt_Qlt. assumption. Qed.

(** ** One pair of phases. *)
Section Channel.
Variables (c : edge) (vs vd : vertex) (Ni Nj : Z).
Hypothesis Hvs : vertex_wf vs.
Hypothesis Hvd : vertex_wf vd.
Hypothesis Hc : chan_shape c vs vd.
Hypothesis Hi0 : v_init_phases vs = 0%nat.
Hypothesis Hj0 : v_init_phases vd = 0%nat.
Let W := sumZ (e_in c).
Let R := sumZ (e_out c).
Let Ps := Z.of_nat (v_phases vs).
Let Pd := Z.of_nat (v_phases vd).
Variables (ni : Z).
Hypothesis Hni : 0 < ni.

Variables (g mop : Z).
Hypothesis Hg : 0 < g.
Hypothesis Hgd : forall x, In x (e_in c ++ e_out c) -> (g | x).
Hypothesis Hmop : greatest_multiple_le g (e_preload c) mop.

(** The pair (i,j) is constrained, with threshold [a]. *)
Definition threshold (i j : nat) (a : Z) : Prop :=
  greatest_multiple_le (Z.gcd W R) (- mop - sumf (prod_rate c) i + sumf (cons_rate c) (S j) - g) a /\
  Z.max 0 (prod_rate c i - cons_rate c j) - mop - sumf (prod_rate c) (S i) + sumf (cons_rate c) (S j) <= a.

Definition weight_of (i j : nat) (a : Z) : Q :=
  ((inject_Z a - inject_Z (Z.of_nat j * R) / inject_Z Pd + inject_Z (Z.of_nat i * W) / inject_Z Ps) / inject_Z (W * ni))%Q.

Lemma in_access i : (i < v_phases vs)%nat -> edge_in_phase c (Z.of_nat i + 1) = Ok (prod_rate c i).
Proof.
  intros H. destruct Hc as (L1 & L2 & L3 & L4 & _). unfold edge_in_phase, prod_rate.
  apply (phase_access 0 (e_in_init c) (e_in c) (v_init_phases vs) (v_phases vs) i 1); auto; [lia|].
  unfold pos_at. rewrite Hi0. cbn [Nat.ltb Nat.leb]. rewrite Nat.sub_0_r, Nat.div_small, Nat.mod_small by lia. reflexivity.
Qed.
Lemma out_access j : (j < v_phases vd)%nat -> edge_out_phase c (Z.of_nat j + 1) = Ok (cons_rate c j).
Proof.
  intros H. destruct Hc as (L1 & L2 & L3 & L4 & _). unfold edge_out_phase, cons_rate.
  apply (phase_access 0 (e_out_init c) (e_out c) (v_init_phases vd) (v_phases vd) j 1); auto; [lia|].
  unfold pos_at. rewrite Hj0. cbn [Nat.ltb Nat.leb]. rewrite Nat.sub_0_r, Nat.div_small, Nat.mod_small by lia. reflexivity.
Qed.

Lemma rates_by_g : (forall m, (g | prod_rate c m)) /\ (forall m, (g | cons_rate c m)).
Proof.
  destruct Hc as (L1 & L2 & L3 & L4 & _). destruct Hvs as (HPs & _). destruct Hvd as (HPd & _). split; intros m.
  - pose proof (cyclic_in 0 (e_in_init c) (e_in c) m ltac:(lia)) as H. destruct (e_in_init c) as [|z l] eqn:E; [|cbn in L3; lia].
    unfold prod_rate. rewrite E. apply Hgd, in_or_app. left. exact H.
  - pose proof (cyclic_in 0 (e_out_init c) (e_out c) m ltac:(lia)) as H. destruct (e_out_init c) as [|z l] eqn:E; [|cbn in L4; lia].
    unfold cons_rate. rewrite E. apply Hgd, in_or_app. right. exact H.
Qed.

(** Below a multiple of [g], "minus one" and "minus g" round to the same multiple. *)
Lemma minus_one G x a : (g | G) -> (g | x) -> greatest_multiple_le G (x - 1) a -> greatest_multiple_le G (x - g) a.
Proof.
  intros D X (A1 & A2 & A3). split; [assumption|]. assert (Dv : (g | a)) by exact (Z.divide_trans _ _ _ D A1). split.
  - destruct X as [x' ->], Dv as [a' ->]. assert (H : a' * g < x' * g) by lia. apply Z.mul_lt_mono_pos_r in H; [|assumption]. nia.
  - intros m' M L. apply A3; [assumption|lia].
Qed.

Lemma sp_weight_spec i j : (i < v_phases vs)%nat -> (j < v_phases vd)%nat ->
  exists a r, sp_weight c Ps Pd W R ni mop (Z.gcd W R) (Z.of_nat i + 1) (Z.of_nat j + 1) = Ok r /\
    ((threshold i j a /\ r = Some (weight_of i j a)) \/ ((forall a', ~ threshold i j a') /\ r = None)).
Proof.
  intros Li Lj. pose proof Hvs as (HPs & _). pose proof Hvd as (HPd & _).
  pose proof Hc as (L1 & L2 & L3 & L4 & Hnn & HW & HR & HM). fold W in HW. fold R in HR.
  assert (HG : 0 < Z.gcd W R).
  { pose proof (Z.gcd_nonneg W R). destruct (Z.eq_dec (Z.gcd W R) 0) as [E|]; [|lia]. apply Z.gcd_eq_0_l in E. lia. }
  assert (DG : (g | Z.gcd W R)).
  { apply Z.gcd_greatest; apply sumZ_divide; intros; apply Hgd, in_or_app; auto. }
  destruct rates_by_g as [Dp Dc].
  unfold sp_weight. replace (Z.of_nat i + 1 - 1) with (Z.of_nat i) by lia. replace (Z.of_nat j + 1 - 1) with (Z.of_nat j) by lia.
  rewrite (sum_phases_spec _ (prod_rate c)) by (intros; apply in_access; lia). cbn [bind].
  replace (Z.of_nat j + 1) with (Z.of_nat (S j)) by lia.
  rewrite (sum_phases_spec _ (cons_rate c)) by (intros; apply out_access; lia). cbn [bind].
  replace (Z.of_nat (S j)) with (Z.of_nat j + 1) by lia.
  rewrite in_access, out_access by assumption. cbn [bind].
  set (I := sumf (prod_rate c)). set (O := sumf (cons_rate c)).
  destruct (ceil_to_correct (Z.max 0 (prod_rate c i - cons_rate c j) + O (S j) - (I i + prod_rate c i) - mop) _ HG) as (b & Eb & Hb).
  destruct (floor_to_correct (O (S j) - I i - mop - 1) _ HG) as (a & Ea & Ha).
  rewrite Eb, Ea. cbn [bind]. rewrite !qdiv_ok by (unfold Ps, Pd; lia). cbn [bind].
  destruct (Z.eqb_spec (W * ni) 0); [nia|].
  assert (Ha' : greatest_multiple_le (Z.gcd W R) (- mop - I i + O (S j) - g) a).
  { replace (- mop - I i + O (S j) - g) with (O (S j) - I i - mop - g) by lia. apply minus_one; [assumption| |assumption].
    destruct Hmop as [Dm _]. apply Z.divide_sub_r; [apply Z.divide_sub_r; apply sumf_divide; assumption|assumption]. }
  assert (IS : I (S i) = I i + prod_rate c i) by reflexivity.
  exists a. eexists. split; [reflexivity|]. destruct (Z.leb_spec b a) as [L|L].
  - left. split; [|reflexivity]. split; [exact Ha'|]. destruct Hb as (_ & B & _). fold I O. lia.
  - right. split; [|reflexivity]. intros a' [A1 A2]. fold I O in A1, A2. rewrite (greatest_multiple_unique _ _ _ _ A1 Ha') in A2.
    destruct Hb as (_ & _ & B). specialize (B a (proj1 Ha') ltac:(lia)). lia.
Qed.
End Channel.

(** ** The greatest weight of a bag. *)
Lemma keep_max_le w nw x : (forall y, keep_max w nw = Some y -> y <= x)%Q <-> (forall y, w = Some y -> y <= x)%Q /\ (forall y, nw = Some y -> y <= x)%Q.
Proof.
  destruct w as [a|], nw as [b|]; cbn.
  - destruct (Qle_bool b a) eqn:E.
    + apply Qle_bool_iff in E. split; [intros H; specialize (H a eq_refl); split; intros y [= <-]; lra|intros [H1 H2] y [= <-]; auto].
    + assert (a < b)%Q. { destruct (Qlt_le_dec a b); [assumption|]. apply Qle_bool_iff in q. congruence. }
      split; [intros H'; specialize (H' b eq_refl); split; intros y [= <-]; lra|intros [H1 H2] y [= <-]; auto].
  - split; [intros H; split; [assumption|intros y [=]]|tauto].
  - split; [intros H; split; [intros y [=]|assumption]|tauto].
  - split; [intros H; split; intros y [=]|tauto].
Qed.

Lemma weight_loop_spec f kks : (forall k kp, In (k, kp) kks -> exists r, f k kp = Ok r) -> forall w, exists r,
  weight_loop f kks w = Ok r /\
  forall x, (forall y, r = Some y -> y <= x)%Q <->
    (forall y, w = Some y -> y <= x)%Q /\ (forall k kp y, In (k, kp) kks -> f k kp = Ok (Some y) -> (y <= x)%Q).
Proof.
  induction kks as [|[k kp] kks IH]; intros H w; cbn [weight_loop].
  - exists w. split; [reflexivity|]. intros x. split; [intros Hx; split; [assumption|intros ? ? ? []]|tauto].
  - destruct (H k kp (or_introl eq_refl)) as (nw & E). rewrite E. cbn [bind].
    destruct (IH (fun k kp I => H k kp (or_intror I)) (keep_max w nw)) as (r & Er & Hr). exists r. split; [assumption|].
    intros x. rewrite Hr, keep_max_le. split.
    + intros [[A B] C]. split; [assumption|]. intros k' kp' y [[= -> ->]|I] F; [apply B; congruence|eapply C; eassumption].
    + intros [A C]. split; [split; [assumption|]|].
      * intros y ->. apply (C k kp y); [left; reflexivity|assumption].
      * intros k' kp' y I. apply C. right. assumption.
Qed.

(** ** Bags. *)
Lemma bag_insert_in d k bags : (forall b, In b bags -> snd b <> []) ->
  (forall b, In b (bag_insert d k bags) -> snd b <> []) /\
  (forall b j, In b (bag_insert d k bags) -> In j (snd b) ->
     (exists b', In b' bags /\ fst b' = fst b /\ In j (snd b')) \/ (j = k /\ (fst b == d)%Q)) /\
  (forall b j, In b bags -> In j (snd b) -> exists b', In b' (bag_insert d k bags) /\ fst b' = fst b /\ In j (snd b')) /\
  (exists b, In b (bag_insert d k bags) /\ (fst b == d)%Q /\ In k (snd b)) /\
  (forall b, In b (bag_insert d k bags) -> fst b = d \/ exists b', In b' bags /\ fst b' = fst b).
Proof.
  induction bags as [|[d' ks] bags IH]; intros NE; cbn [bag_insert].
  - split; [intros b [<-|[]]; discriminate|]. split; [|split; [|split]].
    + intros b j [<-|[]] [<-|[]]. right. split; reflexivity.
    + intros b j [].
    + exists (d, [k]). cbn. repeat split; auto; reflexivity.
    + intros b [<-|[]]. left. reflexivity.
  - destruct (d ?= d')%Q eqn:E.
    + apply Qeq_alt in E. split; [|split; [|split; [|split]]].
      * intros b [<-|I]; [cbn; destruct ks; discriminate|]. apply NE. right. assumption.
      * intros b j [<-|I] J; [|left; exists b; cbn; auto]. cbn in J. apply in_app_iff in J. destruct J as [J|[<-|[]]].
        -- left. exists (d', ks). cbn. auto.
        -- right. cbn. split; [reflexivity|]. symmetry. assumption.
      * intros b j [<-|I] J; [|exists b; cbn; auto]. exists (d', ks ++ [k]). cbn. split; [auto|]. split; [reflexivity|]. apply in_app_iff. auto.
      * exists (d', ks ++ [k]). cbn. split; [auto|]. split; [symmetry; assumption|]. apply in_app_iff. cbn. auto.
      * intros b [<-|I]; right; [exists (d', ks); cbn; auto|exists b; cbn; auto].
    + split; [|split; [|split; [|split]]].
      * intros b [<-|I]; [discriminate|]. apply NE. assumption.
      * intros b j [<-|I] J; [destruct J as [<-|[]]; right; split; reflexivity|left; exists b; auto].
      * intros b j I J. exists b. cbn. auto.
      * exists (d, [k]). cbn. repeat split; auto; reflexivity.
      * intros b [<-|I]; [left; reflexivity|right; exists b; auto].
    + destruct (IH (fun b I => NE b (or_intror I))) as (H1 & H2 & H3 & (b0 & H4 & H4') & H5). split; [|split; [|split; [|split]]].
      * intros b [<-|I]; [apply (NE (d', ks)); left; reflexivity|auto].
      * intros b j [<-|I] J; [left; exists (d', ks); cbn; auto|]. destruct (H2 b j I J) as [(b' & I' & X)|X]; [left; exists b'; cbn; auto|auto].
      * intros b j [<-|I] J; [exists (d', ks); cbn; auto|]. destruct (H3 b j I J) as (b' & I' & X). exists b'. cbn. auto.
      * exists b0. cbn. auto.
      * intros b [<-|I]; [right; exists (d', ks); cbn; auto|]. destruct (H5 b I) as [->|(b' & I' & X)]; [auto|right; exists b'; cbn; auto].
Qed.

Lemma phase_bags_spec v ks0 : (forall k, In k ks0 -> exists d, vertex_duration v k = Ok d) ->
  forall bags (seen : Z -> Prop),
  (forall b, In b bags -> snd b <> []) ->
  (forall b k, In b bags -> In k (snd b) -> seen k /\ exists d, vertex_duration v k = Ok d /\ (fst b == d)%Q) ->
  (forall k, seen k -> exists b, In b bags /\ In k (snd b)) ->
  exists r, (forall md, phase_bags false md v ks0 bags = Ok r) /\
    (forall b, In b r -> snd b <> []) /\
    (forall b k, In b r -> In k (snd b) -> (seen k \/ In k ks0) /\ exists d, vertex_duration v k = Ok d /\ (fst b == d)%Q) /\
    (forall k, seen k \/ In k ks0 -> exists b, In b r /\ In k (snd b)).
Proof.
  induction ks0 as [|k ks0 IH]; intros D bags seen H1 H2 H3.
  - exists bags. cbn. split; [reflexivity|]. split; [assumption|]. split.
    + intros b k I J. destruct (H2 b k I J) as [S X]. auto.
    + intros k [S|[]]. auto.
  - destruct (D k (or_introl eq_refl)) as (d & Ed). cbn [phase_bags]. rewrite Ed. cbn [bind].
    destruct (bag_insert_in d k bags H1) as (A1 & A2 & A3 & (b0 & A4 & A4' & A4'') & _).
    destruct (IH (fun k I => D k (or_intror I)) (bag_insert d k bags) (fun x => seen x \/ x = k)) as (r & E & R1 & R2 & R3).
    + assumption.
    + intros b j I J. destruct (A2 b j I J) as [(b' & I' & F & J')|[-> F]].
      * destruct (H2 b' j I' J') as [S (x & Ex & Fx)]. split; [auto|]. exists x. rewrite <- F. auto.
      * split; [auto|]. exists d. auto.
    + intros x [S| ->].
      * destruct (H3 x S) as (b & I & J). destruct (A3 b x I J) as (b' & I' & _ & J'). eauto.
      * eauto.
    + exists r. split; [assumption|]. split; [assumption|]. split.
      * intros b j I J. destruct (R2 b j I J) as [S X]. split; [|assumption]. cbn. intuition congruence.
      * intros j Hj. apply R3. cbn in Hj. intuition congruence.
Qed.

Lemma weight_loop_attained f kks : forall w r y, weight_loop f kks w = Ok r -> r = Some y ->
  w = Some y \/ exists k kp, In (k, kp) kks /\ f k kp = Ok (Some y).
Proof.
  induction kks as [|[k kp] kks IH]; intros w r y; cbn [weight_loop].
  - intros [= <-] ->. auto.
  - destruct (f k kp) as [nw| | |] eqn:E; cbn [bind]; [|discriminate..]. intros H Ey.
    destruct (IH _ _ _ H Ey) as [K|(k' & kp' & I & F)]; [|right; exists k', kp'; cbn; auto].
    assert (w = Some y \/ nw = Some y) as [->| ->]; [|auto|right; exists k, kp; cbn; auto].
    destruct w as [a|], nw as [b|]; cbn in K; auto. destruct (Qle_bool b a); auto.
Qed.

Lemma max_duration_spec v : vertex_wf v -> exists d, max_duration v = Ok d /\ longest v d.
Proof.
  intros (HP & L & _). unfold max_duration, longest. destruct (v_durations v) as [|d ds]; [cbn in L; lia|].
  eexists. split; [reflexivity|]. clear L. revert d. induction ds as [|x ds IH]; intros d; cbn [fold_left].
  - split; [left; reflexivity|]. intros y [->|[]]. apply Qle_refl.
  - set (m := if Qle_bool x d then d else x). assert (Hm : (m = d \/ m = x) /\ (d <= m)%Q /\ (x <= m)%Q).
    { unfold m. destruct (Qle_bool x d) eqn:E; [apply Qle_bool_iff in E; split; [auto|split; lra]|].
      assert (d < x)%Q by (destruct (Qlt_le_dec d x); [assumption|apply Qle_bool_iff in q; congruence]). split; [auto|split; lra]. }
    destruct Hm as (M1 & M2 & M3). destruct (IH m) as [I1 I2]. split.
    + destruct I1 as [<-|I1]; [|right; right; assumption]. destruct M1 as [->| ->]; [left|right; left]; reflexivity.
    + intros y [<-|[<-|Y]]; [|eapply Qle_trans; [|apply I2; left; reflexivity]; assumption|apply I2; right; assumption].
      eapply Qle_trans; [|apply I2; left; reflexivity]. assumption.
Qed.

(** ** The whole graph. *)
Section G.
Variables (g : graph) (N : nat -> Z).
Hypothesis Hwf : graph_wf g.
Hypothesis Hbal : balanced g N.
Hypothesis Hno : no_init g.
Hypothesis Hcyc : whole_cycles g N.

Lemma cycles_pos i v : nth_error (vertices g) i = Some v ->
  cdiv (N i) (Z.of_nat (v_phases v)) = Ok (N i / Z.of_nat (v_phases v)) /\ 0 < N i / Z.of_nat (v_phases v) /\
  N i / Z.of_nat (v_phases v) * Z.of_nat (v_phases v) = N i.
Proof.
  intros E. destruct (Hcyc i v E) as [P D]. destruct (vertex_ok g Hwf i v E) as (HP & _).
  destruct D as [q D]. rewrite D. rewrite Z.div_mul by lia. split; [|split; [nia|reflexivity]].
  unfold cdiv. destruct (Z.eqb_spec (Z.of_nat (v_phases v)) 0); [lia|]. rewrite Z.quot_mul by lia. reflexivity.
Qed.

Lemma cycles_balanced c vs vd : In c (edges g) -> nth_error (vertices g) (e_src c) = Some vs -> nth_error (vertices g) (e_dst c) = Some vd ->
  sumZ (e_in c) * (N (e_src c) / Z.of_nat (v_phases vs)) = sumZ (e_out c) * (N (e_dst c) / Z.of_nat (v_phases vd)).
Proof.
  intros I V1 V2. pose proof (Hbal c I) as B. destruct (edge_shape g Hwf c I) as (vs' & vd' & V1' & V2' & (P1 & _) & (P2 & _) & (L1 & L2 & _)).
  rewrite V1 in V1'. rewrite V2 in V2'. injection V1' as <-. injection V2' as <-. rewrite L1, L2 in B.
  destruct (cycles_pos _ _ V1) as (_ & _ & E1). destruct (cycles_pos _ _ V2) as (_ & _ & E2).
  set (a := N (e_src c) / Z.of_nat (v_phases vs)) in *. set (b := N (e_dst c) / Z.of_nat (v_phases vd)) in *.
  rewrite <- E1, <- E2 in B. apply (Z.mul_reg_r _ _ (Z.of_nat (v_phases vs) * Z.of_nat (v_phases vd))); [nia|]. lia.
Qed.

Lemma sp_channel_spec c t tp bag : In c (edges g) ->
  nth_error (vertices g) (e_src c) = Some t -> nth_error (vertices g) (e_dst c) = Some tp ->
  snd bag <> [] -> (forall k, In k (snd bag) -> 1 <= k <= Z.of_nat (v_phases t)) ->
  let ni := N (e_src c) / Z.of_nat (v_phases t) in
  exists gg mop r, fine_gcd c = Ok gg /\ 0 < gg /\ (forall x, In x (e_in c ++ e_out c) -> (gg | x)) /\ greatest_multiple_le gg (e_preload c) mop /\
    sp_channel g N t ni bag c = Ok r /\
    (forall x, In x r -> c_source x = sp_event t /\ c_target x = sp_event tp /\ c_d x = fst bag) /\
    forall omega St, (0 <= omega)%Q ->
      ((forall x, In x r -> satisfies omega St x) <->
       (forall i j a, (i < v_phases t)%nat -> In (Z.of_nat i + 1) (snd bag) -> (j < v_phases tp)%nat -> threshold c gg mop i j a ->
          (St (sp_event t) + fst bag + omega * weight_of c t tp ni i j a <= St (sp_event tp))%Q)).
Proof.
  intros I V1 V2 NE KS ni. destruct (edge_shape g Hwf c I) as (vs' & vd' & V1' & V2' & Hs & Hd & Hc).
  rewrite V1 in V1'. rewrite V2 in V2'. injection V1' as <-. injection V2' as <-.
  destruct (cycles_pos _ _ V1) as (_ & P1 & _). fold ni in P1. destruct (cycles_pos _ _ V2) as (C2 & _ & _).
  pose proof (Hno t (nth_error_In _ _ V1)) as I0. pose proof (Hno tp (nth_error_In _ _ V2)) as J0.
  pose proof Hc as (L1 & L2 & L3 & L4 & Hnn & HW & HR & HM).
  destruct (fine_gcd_spec c) as (gg & Eg & Gp & Gd); [destruct Hs; lia| |exact HW|].
  { intros x Hx. apply Hnn. rewrite !in_app_iff in *. tauto. }
  destruct (floor_to_correct (e_preload c) gg Gp) as (mop & Em & Hm).
  exists gg, mop. unfold sp_channel, lookup_vertex. rewrite V2. cbn [bind]. rewrite Eg. cbn [bind]. rewrite Em. cbn [bind].
  unfold cassert. destruct (Nat.eqb_spec (length (snd bag)) 0) as [Z0|_]; [destruct (snd bag); [congruence|discriminate]|]. cbn [negb bind].
  destruct (Z.ltb_spec 0 (Z.of_nat (v_phases tp))) as [_|]; [|destruct Hd; lia]. cbn [bind]. rewrite C2. cbn [bind].
  unfold edge_in_total, edge_out_total. unfold ni at 1. rewrite (cycles_balanced c t tp I V1 V2), Z.eqb_refl. cbn [bind].
  fold ni. set (f := sp_weight _ _ _ _ _ _ _ _). set (kks := flat_map _ (snd bag)).
  assert (F : forall i j, (i < v_phases t)%nat -> (j < v_phases tp)%nat ->
    exists a r, f (Z.of_nat i + 1) (Z.of_nat j + 1) = Ok r /\
     ((threshold c gg mop i j a /\ r = Some (weight_of c t tp ni i j a)) \/ ((forall a', ~ threshold c gg mop i j a') /\ r = None))).
  { intros i j. apply (sp_weight_spec c t tp Hs Hd Hc I0 J0 ni P1 gg mop Gp Gd Hm i j). }
  assert (KK : forall k kp, In (k, kp) kks <-> In k (snd bag) /\ 1 <= kp <= Z.of_nat (v_phases tp)).
  { intros k kp. unfold kks. rewrite in_flat_map. split.
    - intros (k' & A & B). apply in_map_iff in B. destruct B as (kp' & [= -> ->] & B). apply zrange_in in B. auto.
    - intros [A B]. exists k. split; [assumption|]. apply in_map_iff. exists kp. split; [reflexivity|]. apply zrange_in. assumption. }
  assert (KJ : forall k kp, In (k, kp) kks -> exists i j, (i < v_phases t)%nat /\ (j < v_phases tp)%nat /\ k = Z.of_nat i + 1 /\ kp = Z.of_nat j + 1).
  { intros k kp K. apply KK in K. destruct K as [K1 K2]. specialize (KS k K1). exists (Z.to_nat (k - 1)), (Z.to_nat (kp - 1)). lia. }
  destruct (weight_loop_spec f kks) with (w := @None Q) as (w & Ew & Hw).
  { intros k kp K. destruct (KJ k kp K) as (i & j & Li & Lj & -> & ->). destruct (F i j Li Lj) as (a & r & E & _). eauto. }
  rewrite Ew. cbn [bind].
  assert (Val : forall i j a, (i < v_phases t)%nat -> (j < v_phases tp)%nat -> threshold c gg mop i j a ->
     f (Z.of_nat i + 1) (Z.of_nat j + 1) = Ok (Some (weight_of c t tp ni i j a))).
  { intros i j a Li Lj T. destruct (F i j Li Lj) as (a' & r & E & [[T' ->]|[T' _]]); [|destruct (T' _ T)].
    rewrite E. rewrite (greatest_multiple_unique _ _ _ _ (proj1 T) (proj1 T')). reflexivity. }
  destruct w as [w|]; eexists; (split; [reflexivity|split; [assumption|split; [assumption|split; [assumption|split; [reflexivity|split]]]]]).
  - intros x [<-|[]]. cbn. auto.
  - intros omega St Om. split.
    + intros H i j a Li Ii Lj T. specialize (H _ (or_introl eq_refl)). unfold satisfies in H. cbn [c_source c_target c_d c_w] in H.
      pose proof (proj1 (Hw w) ltac:(intros y [= <-]; apply Qle_refl)) as [_ B].
      assert (Kin : In (Z.of_nat i + 1, Z.of_nat j + 1) kks) by (apply KK; split; [exact Ii|clear - Lj; lia]).
      specialize (B _ _ _ Kin (Val i j a Li Lj T)).
      assert (omega * weight_of c t tp ni i j a <= omega * w)%Q by (rewrite !(Qmult_comm omega); apply Qmult_le_compat_r; assumption).
      lra.
    + intros H x [<-|[]]. unfold satisfies. cbn [c_source c_target c_d c_w].
      destruct (weight_loop_attained _ _ _ _ _ Ew eq_refl) as [?|(k & kp & K & E)]; [discriminate|].
      destruct (KJ k kp K) as (i & j & Li & Lj & -> & ->). apply KK in K. destruct (F i j Li Lj) as (a & r & E' & [[T Er]|[_ Er]]); rewrite E in E'; [|subst r; discriminate].
      assert (w = weight_of c t tp ni i j a) as -> by congruence. specialize (H i j a Li (proj1 K) Lj T). lra.
  - intros x [].
  - intros omega St Om. split; [|intros _ x []]. intros _ i j a Li Ii Lj T. exfalso.
    pose proof (proj1 (Hw (weight_of c t tp ni i j a - 1)%Q) ltac:(intros y [=])) as [_ B].
    assert (Kin : In (Z.of_nat i + 1, Z.of_nat j + 1) kks) by (apply KK; split; [exact Ii|clear - Lj; lia]).
    specialize (B _ _ _ Kin (Val i j a Li Lj T)). lra.
Qed.

Lemma phase_duration t i : vertex_wf t -> v_init_phases t = 0%nat -> (i < v_phases t)%nat ->
  vertex_duration t (Z.of_nat i + 1) = Ok (exec_duration t i).
Proof.
  intros Ht I0 Li. apply (duration_access t i 1); [assumption|]. unfold pos_at. rewrite I0. cbn [Nat.ltb Nat.leb].
  rewrite Nat.sub_0_r, Nat.div_small, Nat.mod_small by lia. reflexivity.
Qed.

Lemma task_bags t md : vertex_wf t -> v_init_phases t = 0%nat -> exists bags,
  phase_bags false md t (zrange 1 (Z.of_nat (v_phases t))) [] = Ok bags /\
  (forall b, In b bags -> snd b <> []) /\
  (forall b k, In b bags -> In k (snd b) -> 1 <= k <= Z.of_nat (v_phases t) /\ (fst b == exec_duration t (Z.to_nat (k - 1)))%Q) /\
  (forall i, (i < v_phases t)%nat -> exists b, In b bags /\ In (Z.of_nat i + 1) (snd b)).
Proof.
  intros Ht I0. pose proof (fun i => phase_duration t i Ht I0) as D.
  assert (D' : forall k, 1 <= k <= Z.of_nat (v_phases t) -> vertex_duration t k = Ok (exec_duration t (Z.to_nat (k - 1)))).
  { intros k K. rewrite <- D by lia. f_equal. lia. }
  destruct (phase_bags_spec t (zrange 1 (Z.of_nat (v_phases t)))) with (bags := @nil (Q * list Z)) (seen := fun _ : Z => False) as (r & E & R1 & R2 & R3).
  - intros k K. apply zrange_in in K. eauto.
  - intros b [].
  - intros b k [].
  - intros k [].
  - exists r. split; [apply E|]. split; [assumption|]. split.
    + intros b k B K. destruct (R2 b k B K) as [[[]|X] (d & Ed & Fd)]. apply zrange_in in X. split; [assumption|]. rewrite (D' k X) in Ed. congruence.
    + intros i Li. apply R3. right. apply zrange_in. lia.
Qed.

Lemma out_channels_in i c : In c (out_channels g i) <-> In c (edges g) /\ e_src c = i.
Proof. unfold out_channels. rewrite filter_In, Nat.eqb_eq. reflexivity. Qed.

Lemma sp_task_spec i t : nth_error (vertices g) i = Some t ->
  exists r, sp_task false g N i t = Ok r /\
    (forall x, In x r -> c_source x = sp_event t /\ (exists j tp, nth_error (vertices g) j = Some tp /\ c_target x = sp_event tp) /\
       exists k, (k < v_phases t)%nat /\ (c_d x == exec_duration t k)%Q) /\
    forall omega St, (0 <= omega)%Q ->
      ((forall x, In x r -> satisfies omega St x) <->
       (forall c tp gg mop k j a, In c (edges g) -> e_src c = i -> nth_error (vertices g) (e_dst c) = Some tp ->
          fine_gcd c = Ok gg -> greatest_multiple_le gg (e_preload c) mop ->
          (k < v_phases t)%nat -> (j < v_phases tp)%nat -> threshold c gg mop k j a ->
          (St (sp_event t) + exec_duration t k + omega * weight_of c t tp (N i / Z.of_nat (v_phases t)) k j a <= St (sp_event tp))%Q)).
Proof.
  intros V. pose proof (vertex_ok g Hwf i t V) as Ht. pose proof (Hno t (nth_error_In _ _ V)) as I0.
  destruct (max_duration_spec t Ht) as (md & Emd & _). destruct (task_bags t md Ht I0) as (bags & Eb & B1 & B2 & B3).
  destruct (cycles_pos _ _ V) as (C & _ & _). unfold sp_task. rewrite Emd. cbn [bind]. rewrite Eb. cbn [bind]. rewrite C. cbn [bind].
  set (ni := N i / Z.of_nat (v_phases t)).
  assert (CH : forall bag c, In bag bags -> In c (edges g) -> e_src c = i -> exists tp gg mop r, nth_error (vertices g) (e_dst c) = Some tp /\
     fine_gcd c = Ok gg /\ greatest_multiple_le gg (e_preload c) mop /\ sp_channel g N t ni bag c = Ok r /\
     (forall x, In x r -> c_source x = sp_event t /\ c_target x = sp_event tp /\ c_d x = fst bag) /\
     forall omega St, (0 <= omega)%Q ->
      ((forall x, In x r -> satisfies omega St x) <->
       (forall k j a, (k < v_phases t)%nat -> In (Z.of_nat k + 1) (snd bag) -> (j < v_phases tp)%nat -> threshold c gg mop k j a ->
          (St (sp_event t) + fst bag + omega * weight_of c t tp ni k j a <= St (sp_event tp))%Q))).
  { intros bag c Hb I Es. destruct (edge_shape g Hwf c I) as (vs & tp & V1 & V2 & _). rewrite Es, V in V1. injection V1 as <-.
    destruct (sp_channel_spec c t tp bag I) as (gg & mop & r & G1 & _ & _ & G2 & G3 & G4 & G5); [rewrite Es; assumption|assumption|auto| |].
    { intros k K. apply (B2 bag k Hb K). }
    rewrite Es in G3, G5. fold ni in G3, G5. exists tp, gg, mop, r. auto 10. }
  assert (OK1 : forall bag, In bag bags -> exists r, collect (map (sp_channel g N t ni bag) (out_channels g i)) = Ok r).
  { intros bag Hb. apply collect_ok. intros c Hc. apply out_channels_in in Hc. destruct (CH bag c Hb (proj1 Hc) (proj2 Hc)) as (tp & gg & mop & r & _ & _ & _ & E & _). eauto. }
  destruct (collect_ok _ bags OK1) as (r & Er). exists r. split; [exact Er|].
  assert (IN : forall x, In x r <-> exists bag c rc, In bag bags /\ In c (edges g) /\ e_src c = i /\ sp_channel g N t ni bag c = Ok rc /\ In x rc).
  { intros x. rewrite (collect_in _ _ _ Er). split.
    - intros (bag & rb & Hb & Eb' & Ix). apply (collect_in _ _ _ Eb') in Ix. destruct Ix as (c & rc & Ic & Ec & Ix). apply out_channels_in in Ic. exists bag, c, rc. tauto.
    - intros (bag & c & rc & Hb & Ic & Es & Ec & Ix). destruct (OK1 bag Hb) as (rb & Eb'). exists bag, rb. split; [assumption|]. split; [assumption|].
      apply (collect_in _ _ _ Eb'). exists c, rc. split; [apply out_channels_in; auto|auto]. }
  split.
  - intros x Ix. apply IN in Ix. destruct Ix as (bag & c & rc & Hb & Ic & Es & Ec & Ix).
    destruct (CH bag c Hb Ic Es) as (tp & gg & mop & rc' & V2 & _ & _ & Ec' & Sh & _). rewrite Ec in Ec'. injection Ec' as <-.
    destruct (Sh x Ix) as (S1 & S2 & S3). split; [assumption|]. split; [exists (e_dst c), tp; auto|].
    destruct (snd bag) as [|k ks] eqn:Ek; [destruct (B1 bag Hb Ek)|]. destruct (B2 bag k Hb) as [K1 K2]; [rewrite Ek; left; reflexivity|].
    exists (Z.to_nat (k - 1)). split; [lia|]. rewrite S3. assumption.
  - intros omega St Om. split.
    + intros H c tp gg mop k j a Ic Es V2 Eg Hm Lk Lj T. destruct (B3 k Lk) as (bag & Hb & Kb).
      destruct (CH bag c Hb Ic Es) as (tp' & gg' & mop' & rc & V2' & Eg' & Hm' & Ec & _ & SAT).
      rewrite V2 in V2'. injection V2' as <-. rewrite Eg in Eg'. injection Eg' as <-. rewrite (greatest_multiple_unique _ _ _ _ Hm' Hm) in SAT.
      destruct (B2 bag _ Hb Kb) as [_ Dk]. replace (Z.to_nat (Z.of_nat k + 1 - 1)) with k in Dk by lia.
      pose proof (proj1 (SAT omega St Om)) as SAT1. specialize (SAT1 ltac:(intros x Ix; apply H, IN; exists bag, c, rc; auto) k j a Lk Kb Lj T).
      rewrite <- Dk. assumption.
    + intros H x Ix. apply IN in Ix. destruct Ix as (bag & c & rc & Hb & Ic & Es & Ec & Ix).
      destruct (CH bag c Hb Ic Es) as (tp & gg & mop & rc' & V2 & Eg & Hm & Ec' & _ & SAT). rewrite Ec in Ec'. injection Ec' as <-.
      apply (proj2 (SAT omega St Om)); [|assumption]. intros k j a Lk Kb Lj T.
      destruct (B2 bag _ Hb Kb) as [_ Dk]. replace (Z.to_nat (Z.of_nat k + 1 - 1)) with k in Dk by lia. rewrite Dk.
      apply (H c tp gg mop k j a); auto.
Qed.

Lemma N_pos i v : nth_error (vertices g) i = Some v -> 0 < N i.
Proof. intros E. apply (Hcyc i v E). Qed.

Definition spaced_out (omega : Q) : Prop :=
  forall i v m, nth_error (vertices g) i = Some v -> (m < v_phases v)%nat -> (exec_duration v m <= omega / inject_Z (N i))%Q.
Definition thresholds_hold (omega : Q) (St : event -> Q) : Prop :=
  forall c t tp gg mop k j a, In c (edges g) -> nth_error (vertices g) (e_src c) = Some t -> nth_error (vertices g) (e_dst c) = Some tp ->
    fine_gcd c = Ok gg -> greatest_multiple_le gg (e_preload c) mop ->
    (k < v_phases t)%nat -> (j < v_phases tp)%nat -> threshold c gg mop k j a ->
    (St (sp_event t) + exec_duration t k + omega * weight_of c t tp (N (e_src c) / Z.of_nat (v_phases t)) k j a <= St (sp_event tp))%Q.

Lemma duration_nth v m : vertex_wf v -> v_init_phases v = 0%nat -> (m < v_phases v)%nat -> exec_duration v m = nth m (v_durations v) 0%Q.
Proof.
  intros (HP & L1 & L2 & _) I0 Lm. unfold exec_duration, cyclic. rewrite L2, I0. cbn [Nat.ltb Nat.leb].
  rewrite Nat.sub_0_r, L1, Nat.mod_small by lia. reflexivity.
Qed.

Lemma longest_index v d : vertex_wf v -> v_init_phases v = 0%nat -> longest v d ->
  (exists m, (m < v_phases v)%nat /\ exec_duration v m = d) /\ forall m, (m < v_phases v)%nat -> (exec_duration v m <= d)%Q.
Proof.
  intros Hv I0 [D1 D2]. pose proof Hv as (HP & L1 & _). split.
  - apply (In_nth _ _ 0%Q) in D1. destruct D1 as (m & Lm & E). exists m. split; [lia|]. rewrite duration_nth by (auto; lia). assumption.
  - intros m Lm. rewrite duration_nth by auto. apply D2, nth_In. lia.
Qed.

Lemma sp_event_graph_spec : exists cs, sp_event_graph false g N = Ok cs /\
  closed (sp_events g) cs /\
  (forall x, In x cs -> exists v k, In v (vertices g) /\ (k < v_phases v)%nat /\ (c_d x == exec_duration v k)%Q) /\
  (forall i v d, nth_error (vertices g) i = Some v -> longest v d ->
     exists d', (d' == d)%Q /\ In (mkConstraint (sp_event v) (sp_event v) (inject_Z 1 / inject_Z (N i)) d' (v_id v)) cs) /\
  forall omega St, (0 <= omega)%Q ->
    ((forall x, In x cs -> satisfies omega St x) <-> spaced_out omega /\ thresholds_hold omega St).
Proof.
  unfold sp_event_graph.
  assert (SELF : forall i v, nth_error (vertices g) i = Some v -> exists d, longest v d /\
     sp_self v (N i) = Ok [mkConstraint (sp_event v) (sp_event v) (inject_Z 1 / inject_Z (N i)) d (v_id v)]).
  { intros i v E. destruct (max_duration_spec v (vertex_ok g Hwf i v E)) as (d & Ed & Ld). exists d. split; [assumption|].
    unfold sp_self. pose proof (N_pos i v E). rewrite qdiv_ok by lia. cbn [bind]. rewrite Ed. reflexivity. }
  destruct (collect_ok (fun iv => sp_self (snd iv) (N (fst iv))) (indexed (vertices g))) as (l1 & E1).
  { intros [i v] I. apply indexed_in in I. destruct (SELF i v I) as (d & _ & E). eexists. exact E. }
  destruct (collect_ok (fun iv => sp_task false g N (fst iv) (snd iv)) (indexed (vertices g))) as (l2 & E2).
  { intros [i v] I. apply indexed_in in I. destruct (sp_task_spec i v I) as (r & E & _). eexists. exact E. }
  rewrite E1, E2. cbn [bind]. eexists. split; [reflexivity|].
  assert (M1 : forall x, In x l1 <-> exists i v r, nth_error (vertices g) i = Some v /\ sp_self v (N i) = Ok r /\ In x r).
  { intros x. rewrite (collect_in _ _ _ E1). split.
    - intros ([i v] & r & I & E & Ix). apply indexed_in in I. exists i, v, r. auto.
    - intros (i & v & r & I & E & Ix). exists (i, v), r. split; [apply indexed_in; assumption|auto]. }
  assert (M2 : forall x, In x l2 <-> exists i v r, nth_error (vertices g) i = Some v /\ sp_task false g N i v = Ok r /\ In x r).
  { intros x. rewrite (collect_in _ _ _ E2). split.
    - intros ([i v] & r & I & E & Ix). apply indexed_in in I. exists i, v, r. auto.
    - intros (i & v & r & I & E & Ix). exists (i, v), r. split; [apply indexed_in; assumption|auto]. }
  assert (EV : forall i v, nth_error (vertices g) i = Some v -> In (sp_event v) (sp_events g)).
  { intros i v E. apply in_map. eapply nth_error_In; eassumption. }
  split; [|split; [|split]].
  - intros x Ix. apply in_app_iff in Ix. destruct Ix as [Ix|Ix].
    + apply M1 in Ix. destruct Ix as (i & v & r & E & Er & Ix). destruct (SELF i v E) as (d & _ & Es). rewrite Es in Er.
      assert (r = [mkConstraint (sp_event v) (sp_event v) (inject_Z 1 / inject_Z (N i)) d (v_id v)]) as -> by congruence.
      destruct Ix as [<-|[]]. cbn. eauto.
    + apply M2 in Ix. destruct Ix as (i & v & r & E & Er & Ix). destruct (sp_task_spec i v E) as (r' & Es & Sh & _). rewrite Es in Er. injection Er as <-.
      destruct (Sh x Ix) as (S1 & (j & tp & V2 & S2) & _). rewrite S1, S2. eauto.
  - intros x Ix. apply in_app_iff in Ix. destruct Ix as [Ix|Ix].
    + apply M1 in Ix. destruct Ix as (i & v & r & E & Er & Ix). destruct (SELF i v E) as (d & Ld & Es). rewrite Es in Er.
      assert (r = [mkConstraint (sp_event v) (sp_event v) (inject_Z 1 / inject_Z (N i)) d (v_id v)]) as -> by congruence.
      destruct Ix as [<-|[]]. destruct (longest_index v d (vertex_ok g Hwf i v E) (Hno v (nth_error_In _ _ E)) Ld) as [(m & Lm & Em) _].
      exists v, m. split; [eapply nth_error_In; eassumption|]. split; [assumption|]. cbn. rewrite Em. reflexivity.
    + apply M2 in Ix. destruct Ix as (i & v & r & E & Er & Ix). destruct (sp_task_spec i v E) as (r' & Es & Sh & _). rewrite Es in Er. injection Er as <-.
      destruct (Sh x Ix) as (_ & _ & (k & Lk & Ek)). exists v, k. split; [eapply nth_error_In; eassumption|auto].
  - intros i v d E Ld. destruct (SELF i v E) as (d' & Ld' & Es). exists d'. split.
    + destruct Ld as [A1 A2], Ld' as [B1 B2]. specialize (A2 d' B1). specialize (B2 d A1). lra.
    + apply in_app_iff. left. apply M1. exists i, v. eexists. split; [assumption|]. split; [exact Es|]. left. reflexivity.
  - intros omega St Om. split.
    + intros H. split.
      * intros i v m E Lm. destruct (SELF i v E) as (d & Ld & Es).
        assert (I : In (mkConstraint (sp_event v) (sp_event v) (inject_Z 1 / inject_Z (N i)) d (v_id v)) (l1 ++ l2)).
        { apply in_app_iff. left. apply M1. exists i, v. eexists. split; [assumption|]. split; [exact Es|]. left. reflexivity. }
        specialize (H _ I). unfold satisfies in H. cbn [c_source c_target c_d c_w] in H.
        destruct (longest_index v d (vertex_ok g Hwf i v E) (Hno v (nth_error_In _ _ E)) Ld) as [_ X]. specialize (X m Lm).
        assert (omega * (inject_Z 1 / inject_Z (N i)) == omega / inject_Z (N i))%Q by (field; apply nz_inject; pose proof (N_pos i v E); lia). lra.
      * intros c t tp gg mop k j a Ic V1 V2 Eg Hm Lk Lj T. destruct (sp_task_spec _ _ V1) as (r & Er & _ & SAT).
        apply (proj1 (SAT omega St Om)) with (gg := gg) (mop := mop); auto.
        intros x Ix. apply H. apply in_app_iff. right. apply M2. exists (e_src c), t, r. auto.
    + intros [H1 H2] x Ix. apply in_app_iff in Ix. destruct Ix as [Ix|Ix].
      * apply M1 in Ix. destruct Ix as (i & v & r & E & Er & Ix). destruct (SELF i v E) as (d & Ld & Es). rewrite Es in Er.
        assert (r = [mkConstraint (sp_event v) (sp_event v) (inject_Z 1 / inject_Z (N i)) d (v_id v)]) as -> by congruence.
        destruct Ix as [<-|[]]. unfold satisfies. cbn [c_source c_target c_d c_w].
        destruct (longest_index v d (vertex_ok g Hwf i v E) (Hno v (nth_error_In _ _ E)) Ld) as [(m & Lm & Em) _]. specialize (H1 i v m E Lm). rewrite Em in H1.
        assert (omega * (inject_Z 1 / inject_Z (N i)) == omega / inject_Z (N i))%Q by (field; apply nz_inject; pose proof (N_pos i v E); lia). lra.
      * apply M2 in Ix. destruct Ix as (i & v & r & E & Er & Ix). destruct (sp_task_spec i v E) as (r' & Es & _ & SAT). rewrite Es in Er. injection Er as <-.
        apply (proj2 (SAT omega St Om)); [|assumption]. intros c tp gg mop k j a Ic Sc V2 Eg Hm Lk Lj T. subst i. apply (H2 c v tp gg mop k j a); auto.
Qed.

(** ** Validity of the evenly spaced schedule. *)
Lemma exec_duration_mod v m : vertex_wf v -> v_init_phases v = 0%nat -> exec_duration v m = exec_duration v (m mod v_phases v).
Proof.
  intros Hv I0. pose proof Hv as (HP & L1 & L2 & _). unfold exec_duration, cyclic. rewrite L2, I0. cbn [Nat.ltb Nat.leb].
  rewrite !Nat.sub_0_r, L1, Nat.mod_mod by lia. reflexivity.
Qed.

Section V.
Variables (omega : Q) (St : event -> Q).
Hypothesis Om : (0 <= omega)%Q.
Let s := sp_times g N omega St.
Let K1 : nat -> Z := fun _ => 1.

Lemma sp_times_at i v m : nth_error (vertices g) i = Some v -> s i m = (St (sp_event v) + inject_Z (Z.of_nat m) * (omega / inject_Z (N i)))%Q.
Proof. intros E. unfold s, sp_times. rewrite E. reflexivity. Qed.

Lemma serialised_iff : (forall i v, nth_error (vertices g) i = Some v -> task_serialised s i v) <-> spaced_out omega.
Proof.
  assert (ST : forall i v m, nth_error (vertices g) i = Some v -> (s i (S m) == s i m + omega / inject_Z (N i))%Q).
  { intros i v m E. rewrite !(sp_times_at i v _ E), Nat2Z.inj_succ. unfold Z.succ. rewrite inject_Z_plus. change (inject_Z 1) with 1%Q. ring. }
  split.
  - intros H i v m E Lm. specialize (H i v E m). unfold start_of in H. rewrite (ST i v m E) in H. lra.
  - intros H i v E m. unfold start_of. rewrite (ST i v m E). rewrite (exec_duration_mod v m (vertex_ok g Hwf i v E) (Hno v (nth_error_In _ _ E))).
    specialize (H i v (m mod v_phases v)%nat E ltac:(apply Nat.mod_upper_bound; destruct (vertex_ok g Hwf i v E); lia)). lra.
Qed.

Lemma sp_periodic : periodic_schedule g N K1 omega s.
Proof.
  intros i v m E. rewrite !(sp_times_at i v _ E). unfold task_period, K1. rewrite Z.mul_1_l. change (Z.to_nat 1) with 1%nat. rewrite Nat.mul_1_l.
  rewrite Nat2Z.inj_add, inject_Z_plus. field. apply nz_inject. pose proof (N_pos i v E). lia.
Qed.

Lemma starts_at i v j : nth_error (vertices g) i = Some v -> (j < v_phases v)%nat -> starts_of g s (event_at v j) = s i j.
Proof.
  intros E Lj. unfold starts_of, event_at, pos_at. rewrite (Hno v (nth_error_In _ _ E)). cbn [Nat.ltb Nat.leb]. rewrite Nat.sub_0_r, Nat.div_small, Nat.mod_small by lia.
  cbn [fst snd ev_task ev_occ ev_phase]. rewrite (index_of_nth _ (proj2 (proj2 Hwf)) i v E), E. f_equal. lia.
Qed.

Lemma threshold_satisfied c t tp r gg mop : In c (edges g) -> nth_error (vertices g) (e_src c) = Some t -> nth_error (vertices g) (e_dst c) = Some tp ->
  fine_gcd c = Ok gg -> greatest_multiple_le gg (e_preload c) mop ->
  generate_channel StronglyOptimized c t tp (N (e_src c)) (Z.of_nat 1) (Z.of_nat 1) = Ok r ->
  ((forall x, In x r -> satisfies omega (starts_of g s) x) <->
   (forall k j a, (k < v_phases t)%nat -> (j < v_phases tp)%nat -> threshold c gg mop k j a ->
    (St (sp_event t) + exec_duration t k + omega * weight_of c t tp (N (e_src c) / Z.of_nat (v_phases t)) k j a <= St (sp_event tp))%Q)).
Proof.
  intros Ic V1 V2 Eg Hm Er. destruct (edge_shape g Hwf c Ic) as (vs' & vd' & V1' & V2' & Hs & Hd & Hc).
  rewrite V1 in V1'. rewrite V2 in V2'. injection V1' as <-. injection V2' as <-.
  destruct (cycles_pos _ _ V1) as (_ & P1 & Q1). destruct (cycles_pos _ _ V2) as (_ & P2 & Q2). pose proof (cycles_balanced c t tp Ic V1 V2) as B.
  destruct (generate_channel_spec StronglyOptimized c t tp 1 1 (N (e_src c)) Hs Hd Hc ltac:(lia) ltac:(lia) (N_pos _ _ V1)) as (gg' & mop' & cs & G1 & _ & _ & G2 & G3 & G4).
  rewrite Er in G3. assert (cs = r) as -> by congruence. rewrite Eg in G1. injection G1 as <-. rewrite (greatest_multiple_unique _ _ _ _ G2 Hm) in G4.
  rewrite (Hno t (nth_error_In _ _ V1)), (Hno tp (nth_error_In _ _ V2)), !Nat.mul_1_l, !Nat.add_0_l in G4. change (Z.of_nat 1) with 1 in G4. rewrite !Z.mul_1_r in G4.
  set (ni := N (e_src c) / Z.of_nat (v_phases t)) in *. set (nj := N (e_dst c) / Z.of_nat (v_phases tp)) in *.
  pose proof Hc as (_ & _ & _ & _ & _ & HW & HR & _). pose proof Hs as (HPs & _). pose proof Hd as (HPd & _).
  assert (EQ : forall k j a, (k < v_phases t)%nat -> (j < v_phases tp)%nat ->
    (satisfies omega (starts_of g s) (mkConstraint (event_at t k) (event_at tp j)
       (- (inject_Z (a * Z.of_nat (v_phases t) * 1) / inject_Z (sumZ (e_in c) * N (e_src c)))) (exec_duration t k) (e_id c)) <->
     (St (sp_event t) + exec_duration t k + omega * weight_of c t tp ni k j a <= St (sp_event tp))%Q)).
  { intros k j a Lk Lj. unfold satisfies. cbn [c_source c_target c_w c_d]. rewrite (starts_at _ _ _ V1 Lk), (starts_at _ _ _ V2 Lj), (sp_times_at _ _ _ V1), (sp_times_at _ _ _ V2).
    unfold weight_of. rewrite <- Q1, <- Q2, Z.mul_1_r. rewrite !inject_Z_mult.
    assert (Bq : (inject_Z (sumZ (e_in c)) * inject_Z ni == inject_Z (sumZ (e_out c)) * inject_Z nj)%Q) by (rewrite <- !inject_Z_mult, B; reflexivity).
    pose proof (nz_inject (sumZ (e_in c)) ltac:(lia)) as Z1. pose proof (nz_inject ni ltac:(lia)) as Z2. pose proof (nz_inject nj ltac:(lia)) as Z3.
    pose proof (nz_inject (Z.of_nat (v_phases t)) ltac:(lia)) as Z4. pose proof (nz_inject (Z.of_nat (v_phases tp)) ltac:(lia)) as Z5.
    pose proof (nz_inject (sumZ (e_out c)) ltac:(lia)) as Z6.
    set (W := inject_Z (sumZ (e_in c))) in *. set (R := inject_Z (sumZ (e_out c))) in *. set (qi := inject_Z ni) in *. set (qj := inject_Z nj) in *.
    set (Ps := inject_Z (Z.of_nat (v_phases t))) in *. set (Pd := inject_Z (Z.of_nat (v_phases tp))) in *.
    set (qk := inject_Z (Z.of_nat k)). set (qjj := inject_Z (Z.of_nat j)). set (qa := inject_Z a). set (d := exec_duration t k). set (A := St (sp_event t)). set (D := St (sp_event tp)).
    clearbody W R qi qj Ps Pd qk qjj qa d A D.
    assert (E1 : (omega * ((qa - qjj * R / Pd + qk * W / Ps) / (W * qi)) ==
                  qk * (omega / (qi * Ps)) + omega * (qa * Ps / (W * (qi * Ps))) - qjj * (omega / (qj * Pd)))%Q).
    { transitivity (qk * (omega / (qi * Ps)) + omega * (qa * Ps / (W * (qi * Ps))) - qjj * omega * (R / (W * qi)) / Pd)%Q; [field; auto|].
      rewrite Bq. field. repeat split; assumption. }
    rewrite E1. split; intros H; lra. }
  split.
  - intros H k j a Lk Lj T. apply (EQ k j a Lk Lj). apply H. apply G4. exists k, j, a. destruct T as [T1 T2].
    split; [assumption|]. split; [assumption|]. split; [assumption|]. split; [assumption|]. reflexivity.
  - intros H x Ix. apply G4 in Ix. destruct Ix as (k & j & a & Lk & Lj & T1 & T2 & ->). apply EQ; auto. apply H; auto. split; assumption.
Qed.

Lemma sp_valid_iff : schedule_valid g s <-> spaced_out omega /\ thresholds_hold omega St.
Proof.
  pose proof (starts_of_periodic g N K1 omega s Hwf Hno (fun _ _ => eq_refl) sp_periodic) as SAME.
  assert (AT : forall i v m, nth_error (vertices g) i = Some v ->
    (s i m == kperiodic_start (starts_of g s) v 1 (task_period omega (Z.of_nat 1) (Z.of_nat (v_phases v)) (N i)) m)%Q).
  { intros i v m E. specialize (SAME i m (vertex_lt g _ _ E)). unfold kperiodic_schedule in SAME. rewrite E in SAME. exact SAME. }
  assert (CV : spaced_out omega -> forall c, In c (edges g) -> (channel_valid g s c <->
     forall t tp gg mop k j a, nth_error (vertices g) (e_src c) = Some t -> nth_error (vertices g) (e_dst c) = Some tp ->
      fine_gcd c = Ok gg -> greatest_multiple_le gg (e_preload c) mop -> (k < v_phases t)%nat -> (j < v_phases tp)%nat -> threshold c gg mop k j a ->
      (St (sp_event t) + exec_duration t k + omega * weight_of c t tp (N (e_src c) / Z.of_nat (v_phases t)) k j a <= St (sp_event tp))%Q)).
  { intros SO c Ic. destruct (edge_shape g Hwf c Ic) as (t & tp & V1 & V2 & Hs & Hd & Hc).
    pose proof (proj2 serialised_iff SO _ _ V1) as S1. pose proof (proj2 serialised_iff SO _ _ V2) as S2. unfold task_serialised in S1, S2.
    destruct (generate_channel_spec StronglyOptimized c t tp 1 1 (N (e_src c)) Hs Hd Hc ltac:(lia) ltac:(lia) (N_pos _ _ V1)) as (gg & mop & r & G1 & _ & _ & G2 & G3 & _).
    pose proof (threshold_satisfied c t tp r gg mop Ic V1 V2 G1 G2 G3) as TS.
    assert (EN : forall m, end_of s g (e_src c) m = (s (e_src c) m + exec_duration t m)%Q) by (intros m; unfold end_of; rewrite V1; reflexivity).
    split.
    - intros CH t' tp' gg' mop' k j a V1' V2' Eg' Hm'. rewrite V1 in V1'. rewrite V2 in V2'. injection V1' as <-. injection V2' as <-.
      rewrite G1 in Eg'. injection Eg' as <-. rewrite (greatest_multiple_unique _ _ _ _ Hm' G2). revert k j a. apply (proj1 TS).
      apply (orders_satisfied StronglyOptimized c t tp 1 1 (N (e_src c)) (N (e_dst c)) Hs Hd Hc ltac:(lia) ltac:(lia) (N_pos _ _ V1) (N_pos _ _ V2) (Hbal c Ic)); auto.
      + apply Hno. eapply nth_error_In; eassumption.
      + apply Hno. eapply nth_error_In; eassumption.
      + intros e f U. rewrite <- (AT _ _ e V1), <- (AT _ _ f V2). rewrite <- EN.
        revert e f U. apply (useful_ordered_necessary (e_preload c) _ (prod_rate c)).
        * apply (prod_rate_nn c t tp Hs Hc).
        * intros m. rewrite !EN. apply (serialised_mono_end _ _ Hs S1 m).
        * apply (serialised_mono_start _ _ Hd S2).
        * exact CH.
    - intros H. unfold channel_valid. apply useful_ordered_sufficient.
      + apply (prod_rate_nn c t tp Hs Hc).
      + apply (cons_rate_nn c t tp Hd Hc).
      + intros m. rewrite !EN. apply (serialised_mono_end _ _ Hs S1 m).
      + apply (serialised_mono_start _ _ Hd S2).
      + apply Hc.
      + apply cyclic_unbounded; [destruct Hc as (-> & _); apply Hs | apply Hc | apply (prod_rate_nn c t tp Hs Hc)].
      + intros e f U. rewrite EN. unfold start_of. rewrite (AT _ _ e V1), (AT _ _ f V2). revert e f U.
        apply (satisfied_orders StronglyOptimized c t tp 1 1 (N (e_src c)) (N (e_dst c)) Hs Hd Hc ltac:(lia) ltac:(lia) (N_pos _ _ V1) (N_pos _ _ V2) (Hbal c Ic) omega (starts_of g s) r Om); auto.
        * apply (proj2 (no_init_ok g Hwf Hno)). assumption.
        * apply (proj2 TS). intros k j a Lk Lj T. apply (H t tp gg mop k j a); auto. }
  split.
  - intros [H1 H2]. pose proof (proj1 serialised_iff H2) as SO. split; [assumption|].
    intros c t tp gg mop k j a Ic V1 V2 Eg Hm Lk Lj T. apply (proj1 (CV SO c Ic) (H1 c Ic) t tp gg mop k j a); auto.
  - intros [SO TH]. split; [|apply serialised_iff; assumption]. intros c Ic. apply (CV SO c Ic).
    intros t tp gg mop k j a V1 V2 Eg Hm Lk Lj T. apply (TH c t tp gg mop k j a); auto.
Qed.
End V.

(** The event graph says exactly when the evenly spaced schedule is valid. *)
Lemma sp_exact omega St cs : (0 <= omega)%Q -> sp_event_graph false g N = Ok cs ->
  ((forall x, In x cs -> satisfies omega St x) <-> schedule_valid g (sp_times g N omega St)).
Proof.
  intros Om E. destruct sp_event_graph_spec as (cs' & E' & _ & _ & _ & SAT). rewrite E in E'. injection E' as <-.
  rewrite (SAT omega St Om), (sp_valid_iff omega St Om). reflexivity.
Qed.
End G.
