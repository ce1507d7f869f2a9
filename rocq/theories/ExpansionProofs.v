(** Proofs about the expansion graph. *)
From Coq Require Import QArith Lqa ZifyBool ZifyNat.
From Verif Require Import Base Graph KPeriodic ScheduleSpec ScheduleCore KPeriodicSpec KPeriodicGraph KPeriodicChannel RepVecSpec Normal NormalSpec NormalProofs Expansion ExpansionSpec.
Open Scope Z_scope.

(** * Numbers of one channel *)
Lemma gcd_scaled p q z1 z2 : 0 < p -> 0 < z1 -> z1 * q = z2 * p -> p * Z.gcd z1 z2 = z1 * Z.gcd p q.
Proof.
  intros Hp Hz E. rewrite <- (Z.abs_eq p) at 1 by lia. rewrite <- Z.gcd_mul_mono_l.
  rewrite <- (Z.abs_eq z1) at 2 by lia. rewrite <- Z.gcd_mul_mono_l. f_equal; nia.
Qed.

Lemma gcd_le p q : 0 < p -> 0 < q -> 0 < Z.gcd p q /\ Z.gcd p q <= p /\ Z.gcd p q <= q.
Proof.
  intros Hp Hq. assert (0 < Z.gcd p q). { pose proof (Z.gcd_nonneg p q). destruct (Z.eq_dec (Z.gcd p q) 0) as [E|]; [|lia]. apply Z.gcd_eq_0_l in E. lia. }
  split; [assumption|]. split; apply Z.divide_pos_le; try assumption; [apply Z.gcd_divide_l|apply Z.gcd_divide_r].
Qed.

Lemma step_bound G u v r : 0 < G -> 0 <= r < G -> (G * v <= G * u + r <-> G * v <= G * u).
Proof. intros. split; intros; [|lia]. assert (v < u + 1) by nia. nia. Qed.

Lemma same_sign p z X Y : 0 < p -> 0 < z -> p * Y = z * X -> (0 <= X <-> 0 <= Y).
Proof. intros. split; intros; nia. Qed.

Lemma scaled_useful p q M z1 z2 m x y : 0 < p -> 0 < q -> 0 < z1 -> 0 < z2 -> z1 * q = z2 * p -> m * p = z1 * (M / Z.gcd p q * Z.gcd p q) ->
  (Z.max 0 (p - q) <= M + p * x - q * y < p <-> Z.max 0 (z1 - z2) <= m + z1 * x - z2 * y <= z1 - Z.gcd z1 z2).
Proof.
  intros Hp Hq H1 H2 E Em. pose proof (gcd_scaled p q z1 z2 Hp H1 E) as Eg. destruct (gcd_le p q Hp Hq) as (G0 & G1 & G2).
  destruct (Z.gcd_divide_l p q) as [p' Ep]. destruct (Z.gcd_divide_r p q) as [q' Eq].
  set (G := Z.gcd p q) in *. pose proof (Z.div_mod M G ltac:(lia)) as DM. pose proof (Z.mod_pos_bound M G G0) as MB.
  set (k := M / G) in *. set (r := M mod G) in *.
  set (X := k * G + p * x - q * y). assert (EX : p * (m + z1 * x - z2 * y) = z1 * X).
  { replace (p * (m + z1 * x - z2 * y)) with (m * p + z1 * p * x - z2 * p * y) by ring. rewrite Em, <- E. unfold X. ring. }
  assert (X' : X = G * (k + p' * x - q' * y)).
  { unfold X. transitivity (k * G + (p' * G) * x - (q' * G) * y); [rewrite <- Ep, <- Eq; reflexivity|ring]. } set (u := k + p' * x - q' * y) in *.
  assert (EM : M + p * x - q * y = X + r) by (unfold X; lia).
  assert (Epq : p - q = G * (p' - q')) by lia. assert (Epp : p = G * p') by lia.
  assert (A1 : 0 <= M + p * x - q * y <-> 0 <= X).
  { rewrite EM, X'. pose proof (step_bound G u 0 r G0 MB). lia. }
  assert (A2 : p - q <= M + p * x - q * y <-> p - q <= X).
  { rewrite EM, X', Epq. apply step_bound; assumption. }
  assert (A3 : M + p * x - q * y < p <-> X <= p - G).
  { rewrite EM, X'. rewrite Epp. pose proof (step_bound G u p' r G0 MB). clear - H G0 MB. split; intros A.
    - assert (~ G * p' <= G * u) by lia. assert (u < p') by nia. nia.
    - nia. }
  set (Y := m + z1 * x - z2 * y) in *. clearbody X Y u k r.
  assert (B1 : 0 <= X <-> 0 <= Y) by (apply (same_sign p z1); assumption).
  assert (B2 : 0 <= X - (p - q) <-> 0 <= Y - (z1 - z2)) by (apply (same_sign p z1); try assumption; rewrite !Z.mul_sub_distr_l, EX; lia).
  assert (B3 : 0 <= p - G - X <-> 0 <= z1 - Z.gcd z1 z2 - Y) by (apply (same_sign p z1); try assumption; rewrite !Z.mul_sub_distr_l, EX; lia).
  clear EX X' EM Epq Epp Eg E Em DM Ep Eq.
  lia.
Qed.

Lemma scaled_divides p q M z1 z2 m : 0 < p -> 0 < z1 -> z1 * q = z2 * p -> m * p = z1 * (M / Z.gcd p q * Z.gcd p q) -> (Z.gcd z1 z2 | m).
Proof.
  intros Hp H1 E Em. pose proof (gcd_scaled p q z1 z2 Hp H1 E) as Eg. exists (M / Z.gcd p q). apply (Z.mul_cancel_r _ _ p); [lia|]. rewrite Em, <- Z.mul_assoc, (Z.mul_comm _ p), Eg. ring.
Qed.

Lemma sumf_const p n : sumf (fun _ => p) n = p * Z.of_nat n.
Proof. induction n as [|n IH]; cbn [sumf]; lia. Qed.

Definition steady (x period : Q) : nat -> Q := fun m => (x + inject_Z (Z.of_nat m) * period)%Q.
Lemma steady_mono x T : (0 <= T)%Q -> mono (steady x T).
Proof.
  intros H m. unfold steady. rewrite Nat2Z.inj_succ, <- Z.add_1_r, inject_Z_plus. ring_simplify. 
  assert (0 <= inject_Z 1 * T)%Q by (change (inject_Z 1) with 1%Q; lra). lra.
Qed.

(** * A channel with steady ends *)
Section Steady.
Variables (p q M z1 z2 m : Z) (om x d y : Q).
Hypothesis (Hp : 0 < p) (Hq : 0 < q) (HM : 0 <= M) (H1 : 0 < z1) (H2 : 0 < z2).
Hypothesis (E : z1 * q = z2 * p) (Em : m * p = z1 * (M / Z.gcd p q * Z.gcd p q)).
Hypothesis (Om : (0 <= om)%Q).

Lemma period_nn z : 0 < z -> (0 <= om * inject_Z z)%Q.
Proof using Om. clear - Om. intros H. apply Qmult_le_0_compat; [assumption|]. change 0%Q with (inject_Z 0). rewrite <- Zle_Qle. lia. Qed.

Lemma steady_channel :
  never_negative M (steady (x + d) (om * inject_Z z1)) (fun _ => p) (steady y (om * inject_Z z2)) (fun _ => q) <->
  (x + d + om * inject_Z (z2 - Z.gcd z1 z2 - m) <= y)%Q.
Proof using All.
  pose proof (steady_mono (x + d) _ (period_nn z1 H1)) as M1. pose proof (steady_mono y _ (period_nn z2 H2)) as M2.
  destruct (gcd_le z1 z2 H1 H2) as (G0 & G1 & G2).
  assert (U : forall e f, useful M (fun _ => p) (fun _ => q) e f <-> Z.max 0 (z1 - z2) <= m + z1 * (Z.of_nat e + 1) - z2 * (Z.of_nat f + 1) <= z1 - Z.gcd z1 z2).
  { intros e f. rewrite <- (scaled_useful p q M z1 z2 m) by assumption. unfold useful. rewrite !sumf_const, !Nat2Z.inj_succ, <- !Z.add_1_r. tauto. }
  assert (LE : forall e f, (steady (x + d) (om * inject_Z z1) e <= steady y (om * inject_Z z2) f)%Q <-> (x + d + om * inject_Z (z1 * Z.of_nat e - z2 * Z.of_nat f) <= y)%Q).
  { intros e f. unfold steady, Zminus. rewrite inject_Z_plus, inject_Z_opp, !inject_Z_mult.
    setoid_replace (om * (inject_Z z1 * inject_Z (Z.of_nat e) + - (inject_Z z2 * inject_Z (Z.of_nat f))))%Q with (inject_Z (Z.of_nat e) * (om * inject_Z z1) - inject_Z (Z.of_nat f) * (om * inject_Z z2))%Q by ring.
    split; intros; lra. }
  split.
  - intros NN. 
    destruct (gcd_nonneg_combination z1 z2 (z2 - Z.gcd z1 z2 - m) H1 H2) as (e & f & He & Hf & Eef).
    { apply Z.divide_sub_r; [apply Z.divide_sub_r; [apply Z.gcd_divide_r|apply Z.divide_refl]|]. apply (scaled_divides p q M); assumption. }
    pose proof (useful_ordered_necessary M (steady (x + d) (om * inject_Z z1)) (fun _ => p) (steady y (om * inject_Z z2)) (fun _ => q)) as N.
    specialize (N ltac:(intros; lia) M1 M2 NN (Z.to_nat e) (Z.to_nat f)).
    rewrite U, LE, !Z2Nat.id in N by assumption. rewrite <- Eef. 
    replace (e * z1 - f * z2) with (z1 * e - z2 * f) by ring. apply N. lia.
  - intros H. apply useful_ordered_sufficient; try assumption; try (intros; lia).
    + intros b. exists (Z.to_nat b). rewrite sumf_const. nia.
    + intros e f Hu. apply U in Hu. apply LE. eapply Qle_trans; [|exact H]. apply Qplus_le_r.
      rewrite (Qmult_comm om), (Qmult_comm om). apply Qmult_le_compat_r; [|assumption]. rewrite <- Zle_Qle. lia.
Qed.
End Steady.

(** * The channels of the graph, one execution per period *)
Definition once : nat -> Z := fun _ => 1.
Lemma one_to_1 : one_to 1 = [1]. Proof. reflexivity. Qed.

Lemma denoted_once g zs om St i v m : nth_error (vertices g) i = Some v ->
  denoted g zs once om St i m = (St (mkEvent (v_id v) 1 1) + inject_Z (Z.of_nat m) * group_period om (nth i zs 0%Z) 1)%Q.
Proof. intros E. unfold denoted. rewrite E. unfold once. change (Z.to_nat 1) with 1%nat. cbv zeta. rewrite Nat.mod_1_r, Nat.div_1_r. reflexivity. Qed.

Lemma nn_ext M pe pe' pr pr' cs cs' co co' : (forall n, pe n == pe' n)%Q -> (forall n, pr n = pr' n) -> (forall n, cs n == cs' n)%Q -> (forall n, co n = co' n) ->
  never_negative M pe pr cs co -> never_negative M pe' pr' cs' co'.
Proof.
  intros A B C D H t nc. destruct (H t nc) as [np Hn]. exists np. 
  assert (X : forall a a' r r' n, (forall k, a k == a' k)%Q -> (forall k, r k = r' k) -> moved_by a r n t = moved_by a' r' n t).
  { clear. intros a a' r r' n A B. unfold moved_by. apply sumf_ext. intros k _. rewrite B. 
    assert (Qle_bool (a k) t = Qle_bool (a' k) t) as ->; [|reflexivity]. apply eq_true_iff_eq. rewrite !Qle_bool_iff, A. tauto. }
  rewrite <- (X cs cs' co co'), <- (X pe pe' pr pr') by assumption. assumption.
Qed.
Lemma nn_iff M pe pe' pr pr' cs cs' co co' : (forall n, pe n == pe' n)%Q -> (forall n, pr n = pr' n) -> (forall n, cs n == cs' n)%Q -> (forall n, co n = co' n) ->
  (never_negative M pe pr cs co <-> never_negative M pe' pr' cs' co').
Proof. intros A B C D. split; apply nn_ext; auto; intros; symmetry; auto. Qed.

Lemma cyclic_one {A} (d x : A) m : cyclic d [] [x] m = x.
Proof. unfold cyclic. cbn [length Nat.ltb Nat.leb]. rewrite Nat.mod_1_r. reflexivity. Qed.

Section Graph.
Variables (g : graph) (zs : list Z) (al : alphas).
Hypothesis (WF : graph_wf g) (NI : no_init g) (SP : single_phase_graph g) (NO : normalised g zs al).

Lemma weight_pos i v : nth_error (vertices g) i = Some v -> 0 < nth i zs 0.
Proof using NO. clear - NO. intros E. apply (proj1 (proj2 NO)). apply nth_error_Some. congruence. Qed.

Lemma vertex_shape i v : nth_error (vertices g) i = Some v -> exists d, v_durations v = [d] /\ v_init_durations v = [] /\ (0 <= d)%Q.
Proof using WF NI SP.
  clear - WF NI SP. intros E. apply nth_error_In in E. destruct (proj1 WF v E) as (_ & L & LI & NN). rewrite (SP v E) in L. rewrite (NI v E) in LI.
  destruct (v_durations v) as [|d [|]]; try discriminate. destruct (v_init_durations v); [|discriminate]. exists d. repeat split. apply NN. left. reflexivity.
Qed.

Lemma chan_shape_of k c : nth_error (edges g) k = Some c -> exists vs vd p q a m, nth_error (vertices g) (e_src c) = Some vs /\ nth_error (vertices g) (e_dst c) = Some vd /\
  e_in c = [p] /\ e_out c = [q] /\ e_in_init c = [] /\ e_out_init c = [] /\ 0 < p /\ 0 < q /\ 0 <= e_preload c /\ al k = Some a /\
  nth (e_src c) zs 0 * q = nth (e_dst c) zs 0 * p /\ norm_mop c a = Ok m /\ m * p = nth (e_src c) zs 0 * (e_preload c / Z.gcd p q * Z.gcd p q).
Proof using All.
  intros Ek. pose proof (nth_error_In _ _ Ek) as Ic. destruct (proj1 (proj2 WF) c Ic) as (vs & vd & Es & Ed & L1 & L2 & L3 & L4 & NN & P1 & P2 & PM).
  rewrite (SP vs (nth_error_In _ _ Es)) in L1. rewrite (SP vd (nth_error_In _ _ Ed)) in L2. rewrite (NI vs (nth_error_In _ _ Es)) in L3. rewrite (NI vd (nth_error_In _ _ Ed)) in L4.
  destruct (e_in c) as [|p [|]] eqn:Ei; try discriminate. destruct (e_out c) as [|q [|]] eqn:Eo; try discriminate.
  destruct (e_in_init c) eqn:Eii; [|discriminate]. destruct (e_out_init c) eqn:Eoi; [|discriminate].
  cbn in P1, P2. rewrite Z.add_0_r in P1, P2.
  destruct (proj2 (proj2 NO) k c Ek) as (a & Ea & Ap & Z1 & Z2 & _). rewrite Ei in Z1. rewrite Eo in Z2. cbn [sumZ fold_right] in Z1, Z2. rewrite Z.add_0_r in Z1, Z2.
  set (z1 := nth (e_src c) zs 0) in *. set (z2 := nth (e_dst c) zs 0) in *.
  assert (EZ : z1 * q = z2 * p).
  { apply inject_Z_injective. rewrite !inject_Z_mult, <- Z1, <- Z2. ring. }
  destruct (Z.gcd_bezout p q (Z.gcd p q) eq_refl) as (u & v & Huv).
  set (b := e_preload c / Z.gcd p q) in *.
  assert (Em : (inject_Z (b * Z.gcd p q) * a == inject_Z (b * (u * z1 + v * z2)))%Q).
  { rewrite <- Huv. repeat first [rewrite inject_Z_mult|rewrite inject_Z_plus]. rewrite <- Z1, <- Z2. ring. }
  exists vs, vd, p, q, a, (b * (u * z1 + v * z2)). do 10 (split; [first [assumption|reflexivity]|]). split; [exact EZ|]. split.
  - unfold norm_mop, fine_gcd, edge_in_phase. rewrite Ei, Eo. cbn [Z.leb Z.compare at_index Z.sub Z.add Z.opp Z.pos_sub Z.ltb Z.to_nat nth_error bind fold_left].
    rewrite Z.gcd_diag, (Z.abs_eq p) by lia. destruct (gcd_le p q P1 P2) as (G0 & _). rewrite (proj2 (Z.eqb_neq _ _)) by lia. fold b.
    unfold normal_value. cbv zeta. assert (is_integer (inject_Z (b * Z.gcd p q) * a) = true) as -> by (apply is_integer_iff; eexists; exact Em). cbn [cassert bind]. rewrite (proj2 (integer_lowest_den _ _ Em)). reflexivity.
  - fold b. clearbody b. rewrite <- Huv. transitivity (b * (u * z1 * p + v * (z2 * p))); [ring|]. rewrite <- EZ. ring.
Qed.

(** The constraint of a channel when every task has one execution per period, and what it
    asks of the times. *)
Lemma e3_once k c : nth_error (edges g) k = Some c -> exists a x, al k = Some a /\ e3_edges g once zs c a = Ok [x] /\
  forall om St, (0 <= om)%Q -> (satisfies om St x <-> channel_valid g (later 2 (denoted g zs once om St)) c).
Proof using All.
  intros Ek. destruct (chan_shape_of k c Ek) as (vs & vd & p & q & a & m & Es & Ed & Ei & Eo & Eii & Eoi & P1 & P2 & PM & Ea & EZ & Em & Emp).
  destruct (vertex_shape _ _ Es) as (d & Dd & Di & Dn). pose proof (weight_pos _ _ Es) as W1. pose proof (weight_pos _ _ Ed) as W2.
  exists a. set (z1 := nth (e_src c) zs 0) in *. set (z2 := nth (e_dst c) zs 0) in *.
  destruct (gcd_le z1 z2 W1 W2) as (G0 & G1 & G2).
  pose proof (scaled_divides p q (e_preload c) z1 z2 m P1 W1 EZ Emp) as [m' Dm].
  destruct (Z.gcd_divide_l z1 z2) as [z1' Dz1]. destruct (Z.gcd_divide_r z1 z2) as [z2' Dz2].
  set (G := Z.gcd z1 z2) in *.
  assert (Q1 : (z1 - G - m + (z1 * 1 - z2 * 1)) / G = z1' - 1 - m' + z1' - z2').
  { symmetry. apply Z.div_unique_exact; [lia|]. lia. }
  assert (Q2 : ceil_div (Z.max (z1 - z2) 0 - m + (z1 * 1 - z2 * 1)) G = Z.max (z1' - z2') 0 - m' + z1' - z2').
  { unfold ceil_div. rewrite <- (Z.div_unique_exact (- (Z.max (z1 - z2) 0 - m + (z1 * 1 - z2 * 1))) G (- (Z.max (z1' - z2') 0 - m' + z1' - z2'))); [lia|lia|].
    clear - Dm Dz1 Dz2 G0. assert (Z.max (z1 - z2) 0 = Z.max (z1' - z2') 0 * G). { rewrite <- Z.mul_max_distr_nonneg_r by lia. f_equal; lia. } nia. }
  assert (Hle : Z.max (z1' - z2') 0 - m' + z1' - z2' <= z1' - 1 - m' + z1' - z2').
  { clear - G0 G1 G2 Dz1 Dz2. assert (1 <= z1') by nia. assert (1 <= z2') by nia. lia. }
  eexists. split; [exact Ea|]. split.
  { unfold e3_edges. rewrite Es, Ed. cbv zeta. fold z1 z2. rewrite Em. cbn [bind]. unfold only_duration. rewrite Dd. cbn [bind]. unfold once. rewrite !Z.mul_1_l. fold G.
    rewrite (proj2 (Z.eqb_neq G 0)) by lia. rewrite (proj2 (Z.leb_le _ _)) by lia. cbn [cassert bind]. rewrite one_to_1. cbn [flat_map]. unfold e3_edge. cbv zeta. fold z1 z2.
    rewrite Q1, Q2, (proj2 (Z.leb_le _ _) Hle). cbn [app]. reflexivity. }
  intros om St Om.
  assert (CV : channel_valid g (later 2 (denoted g zs once om St)) c <->
    never_negative (e_preload c) (steady ((St (occurrence vs 1) + om * inject_Z (2 * z1)) + d) (om * inject_Z z1)) (fun _ => p) (steady (St (occurrence vd 1) + om * inject_Z (2 * z2)) (om * inject_Z z2)) (fun _ => q)).
  { unfold channel_valid. apply nn_iff.
    - intros n. unfold end_of. rewrite Es. unfold later. rewrite (denoted_once _ _ _ _ _ _ _ Es). unfold exec_duration. rewrite Dd, Di, cyclic_one. fold z1. unfold steady, group_period, occurrence.
      rewrite Z.mul_1_r, Nat2Z.inj_add, inject_Z_plus, inject_Z_mult. change (inject_Z (Z.of_nat 2)) with (inject_Z 2). ring.
    - intros n. unfold prod_rate. rewrite Ei, Eii. apply cyclic_one.
    - intros n. unfold start_of, later. rewrite (denoted_once _ _ _ _ _ _ _ Ed). fold z2. unfold steady, group_period, occurrence.
      rewrite Z.mul_1_r, Nat2Z.inj_add, inject_Z_plus, inject_Z_mult. change (inject_Z (Z.of_nat 2)) with (inject_Z 2). ring.
    - intros n. unfold cons_rate. rewrite Eo, Eoi. apply cyclic_one. }
  rewrite CV. clear CV. rewrite (steady_channel p q (e_preload c) z1 z2 m); try assumption. fold G.
  unfold satisfies. cbn [c_source c_target c_w c_d].
  assert (EW : (om * inject_Z (- (z1' - 1 - m' + z1' - z2') * G) == om * inject_Z (2 * z2) - om * inject_Z (2 * z1) - om * inject_Z (z2 - G - m))%Q).
  { setoid_replace (om * inject_Z (2 * z2) - om * inject_Z (2 * z1) - om * inject_Z (z2 - G - m))%Q with (om * inject_Z (2 * z2 - 2 * z1 - (z2 - G - m)))%Q.
    - apply Qmult_comp; [reflexivity|]. apply inject_Z_injective. clear - Dm Dz1 Dz2. lia.
    - unfold Zminus. rewrite !inject_Z_plus, !inject_Z_opp, !inject_Z_plus, !inject_Z_opp. ring. }
  rewrite EW. split; intros H; lra.
Qed.

(** * The whole graph *)
Lemma e3_all_in K es cs : e3_all g K zs al es = Ok cs -> forall x, In x cs <-> exists k c a l, In (k, c) es /\ al k = Some a /\ e3_edges g K zs c a = Ok l /\ In x l.
Proof.
  clear. revert cs. induction es as [|[k c] es IH]; intros cs H x; cbn [e3_all] in H.
  - injection H as <-. split; [intros []|]. intros (k & c & a & l & [] & _).
  - destruct (al k) as [a|] eqn:Ea; [|discriminate]. destruct (e3_edges g K zs c a) as [l| | |] eqn:El; try discriminate. cbn [bind] in H.
    destruct (e3_all g K zs al es) as [r| | |] eqn:Er; try discriminate. cbn [bind] in H. injection H as <-. rewrite in_app_iff, (IH r eq_refl). split.
    + intros [I|(k' & c' & a' & l' & I & R)]; [exists k, c, a, l; repeat split; auto; left; reflexivity|]. exists k', c', a', l'. split; [right; assumption|assumption].
    + intros (k' & c' & a' & l' & [[= <- <-]|I] & Ea' & El' & I'); [left|right].
      * rewrite Ea in Ea'. injection Ea' as <-. rewrite El in El'. injection El' as <-. assumption.
      * exists k', c', a', l'. auto.
Qed.

Lemma e3_total K k c : (forall i, (i < length (vertices g))%nat -> 1 <= K i) -> nth_error (edges g) k = Some c -> exists a l, al k = Some a /\ e3_edges g K zs c a = Ok l.
Proof using All.
  intros KP Ek. destruct (chan_shape_of k c Ek) as (vs & vd & p & q & a & m & Es & Ed & _ & _ & _ & _ & _ & _ & _ & Ea & _ & Em & _).
  destruct (vertex_shape _ _ Es) as (d & Dd & _). pose proof (weight_pos _ _ Es) as W1. pose proof (weight_pos _ _ Ed) as W2.
  pose proof (KP (e_src c) ltac:(apply nth_error_Some; congruence)) as K1. pose proof (KP (e_dst c) ltac:(apply nth_error_Some; congruence)) as K2.
  exists a. eexists. split; [exact Ea|]. unfold e3_edges. rewrite Es, Ed. cbv zeta. rewrite Em. cbn [bind]. unfold only_duration. rewrite Dd. cbn [bind].
  destruct (gcd_le (K (e_src c) * nth (e_src c) zs 0) (K (e_dst c) * nth (e_dst c) zs 0)) as (G0 & _); [nia|nia|]. rewrite (proj2 (Z.eqb_neq _ 0)) by lia.
  destruct (gcd_le (nth (e_src c) zs 0) (nth (e_dst c) zs 0)) as (_ & G1 & G2); [assumption|assumption|]. rewrite (proj2 (Z.leb_le _ _)) by lia. cbn [cassert bind]. reflexivity.
Qed.

Lemma e3_all_total K : (forall i, (i < length (vertices g))%nat -> 1 <= K i) -> forall es, (forall k c, In (k, c) es -> nth_error (edges g) k = Some c) -> exists cs, e3_all g K zs al es = Ok cs.
Proof using All.
  intros KP. induction es as [|[k c] es IH]; intros H; cbn [e3_all]; [eauto|].
  destruct (e3_total K k c KP (H k c (or_introl eq_refl))) as (a & l & -> & ->). cbn [bind]. destruct IH as (cs & ->); [intros; apply H; right; assumption|]. cbn [bind]. eauto.
Qed.

Definition own_edges (K : nat -> Z) : list constraint :=
  flat_map (fun iv => e1_edges (snd iv) (K (fst iv)) ++ [e2_edge (snd iv) (nth (fst iv) zs 0) (K (fst iv))]) (indexed (vertices g)).

Lemma expansion_ok fuel K : normalize fuel g = Ok (Some (zs, al)) -> (forall i, (i < length (vertices g))%nat -> 1 <= K i) ->
  exists ch, e3_all g K zs al (listed g) = Ok ch /\ expansion fuel g K = Ok (own_edges K ++ ch).
Proof using All.
  intros E KP. destruct (e3_all_total K KP (listed g) (fun k c => proj1 (listed_in g k c))) as (ch & Ec). exists ch. split; [assumption|].
  unfold expansion. rewrite E. cbn [bind]. assert (forallb (fun v => (v_phases v =? 1)%nat) (vertices g) = true) as ->.
  { apply forallb_forall. intros v Hv. apply Nat.eqb_eq, SP, Hv. }
  cbn [cassert bind]. rewrite Ec. reflexivity.
Qed.

(** ** The edges of the tasks *)
Lemma one_to_in n x : In x (one_to n) <-> 1 <= x <= n.
Proof.
  clear. unfold one_to. rewrite in_map_iff. split; [intros (y & <- & H); apply in_seq in H; lia|]. intros H. exists (Z.to_nat x). split; [lia|]. apply in_seq. lia.
Qed.

Lemma own_spec K om St : (forall i, (i < length (vertices g))%nat -> 1 <= K i) ->
  (forall x, In x (own_edges K) -> satisfies om St x) <-> in_order g (denoted g zs K om St).
Proof using All.
  clear. intros KP. unfold own_edges. split.
  - intros H i m Hi. destruct (nth_error (vertices g) i) as [v|] eqn:Ev; [|apply nth_error_None in Ev; lia].
    assert (H1 : forall k, 1 <= k < K i -> (St (occurrence v k) <= St (occurrence v (k + 1)))%Q).
    { intros k Hk. specialize (H (mkConstraint (occurrence v k) (occurrence v (k + 1)) 0 0 0)). unfold satisfies in H. cbn [c_source c_target c_w c_d] in H.
      setoid_replace (St (occurrence v k)) with (St (occurrence v k) + 0 - om * 0)%Q by ring. apply H. apply in_flat_map. exists (i, v). split; [apply indexed_in; assumption|].
      apply in_or_app. left. cbn [fst snd]. unfold e1_edges. apply in_map_iff. exists k. split; [reflexivity|]. apply one_to_in. lia. }
    assert (H2 : (St (occurrence v (K i)) <= St (occurrence v 1) + group_period om (nth i zs 0%Z) (K i))%Q).
    { specialize (H (e2_edge v (nth i zs 0%Z) (K i))). unfold satisfies in H. cbn [e2_edge c_source c_target c_w c_d] in H. unfold group_period.
      assert (St (occurrence v (K i)) + 0 - om * inject_Z (nth i zs 0%Z * K i) <= St (occurrence v 1))%Q; [|lra]. apply H. apply in_flat_map. exists (i, v). split; [apply indexed_in; assumption|].
      apply in_or_app. right. left. reflexivity. }
    specialize (KP i Hi). unfold denoted. rewrite Ev. cbv zeta. fold (occurrence v (Z.of_nat (m mod Z.to_nat (K i)) + 1)). fold (occurrence v (Z.of_nat (S m mod Z.to_nat (K i)) + 1)).
    set (k := Z.to_nat (K i)) in *. assert (k <> 0)%nat by lia. pose proof (Nat.mod_upper_bound m k H0). pose proof (Nat.div_mod m k H0) as DM.
    destruct (Nat.eq_dec (S (m mod k)) k) as [El|Nl].
    + assert (S m / k = S (m / k))%nat as ->. { symmetry. apply (Nat.div_unique _ _ _ 0); nia. } assert (S m mod k = 0)%nat as ->. { symmetry. apply (Nat.mod_unique _ _ (S (m / k))); nia. }
      replace (Z.of_nat (m mod k) + 1) with (K i) by lia. change (Z.of_nat 0 + 1) with 1. rewrite Nat2Z.inj_succ, <- Z.add_1_r, inject_Z_plus. change (inject_Z 1) with 1%Q. lra.
    + assert (S m / k = m / k)%nat as ->. { symmetry. apply (Nat.div_unique _ _ _ (S (m mod k))); lia. } assert (S m mod k = S (m mod k))%nat as ->. { symmetry. apply (Nat.mod_unique _ _ (m / k)); lia. }
      rewrite Nat2Z.inj_succ, <- Z.add_1_r. specialize (H1 (Z.of_nat (m mod k) + 1) ltac:(lia)). lra.
  - intros H x Hx. apply in_flat_map in Hx as ([i v] & Hi & Hx). apply indexed_in in Hi. cbn [fst snd] in Hx. assert (Li : (i < length (vertices g))%nat) by (apply nth_error_Some; congruence).
    specialize (KP i Li). specialize (H i). unfold denoted in H. rewrite Hi in H. cbv zeta in H. apply in_app_or in Hx as [Hx|[<-|[]]].
    + apply in_map_iff in Hx as (k & <- & Hk). apply one_to_in in Hk. specialize (H (Z.to_nat (k - 1)) Li). unfold satisfies. cbn [c_source c_target c_w c_d].
      rewrite !Nat.mod_small, !Nat.div_small in H by lia. replace (Z.of_nat (Z.to_nat (k - 1)) + 1) with k in H by lia. replace (Z.of_nat (S (Z.to_nat (k - 1))) + 1) with (k + 1) in H by lia. unfold occurrence. lra.
    + specialize (H (Z.to_nat (K i - 1)) Li). unfold satisfies. cbn [e2_edge c_source c_target c_w c_d]. replace (S (Z.to_nat (K i - 1))) with (Z.to_nat (K i)) in H by lia.
      rewrite (Nat.mod_small (Z.to_nat (K i - 1))), (Nat.div_small (Z.to_nat (K i - 1))), Nat.mod_same, Nat.div_same in H by lia.
      replace (Z.of_nat (Z.to_nat (K i - 1)) + 1) with (K i) in H by lia. change (Z.of_nat 0 + 1) with 1 in H. unfold occurrence, group_period in *. change (inject_Z (Z.of_nat 0)) with 0%Q in H. change (inject_Z (Z.of_nat 1)) with 1%Q in H. lra.
Qed.

Lemma order_once om St : (0 <= om)%Q -> in_order g (denoted g zs once om St).
Proof using NO.
  clear - NO. intros Om i m Hi. destruct (nth_error (vertices g) i) as [v|] eqn:Ev; [|apply nth_error_None in Ev; lia]. rewrite !(denoted_once _ _ _ _ _ _ _ Ev). unfold group_period. rewrite Z.mul_1_r.
  apply (steady_mono _ (om * inject_Z (nth i zs 0%Z))%Q). apply period_nn; [assumption|]. eapply weight_pos, Ev.
Qed.

Lemma expansion_once fuel cs : normalize fuel g = Ok (Some (zs, al)) -> expansion fuel g once = Ok cs ->
  forall om St, (0 <= om)%Q -> ((forall x, In x cs -> satisfies om St x) <-> channels_valid g (later 2 (denoted g zs once om St))).
Proof using All.
  intros E H om St Om. destruct (expansion_ok fuel once E) as (ch & Ec & Ex); [intros; unfold once; lia|]. rewrite Ex in H. injection H as <-. split.
  - intros A c Ic. apply In_nth_error in Ic as (k & Ek). destruct (e3_once k c Ek) as (a & x & Ea & El & Eq). apply (Eq om St Om). apply A. apply in_or_app. right.
    apply (e3_all_in _ _ _ Ec). exists k, c, a, [x]. split; [apply listed_in; assumption|]. repeat split; auto. left. reflexivity.
  - intros CV x Hx. apply in_app_or in Hx as [Hx|Hx].
    + apply (proj2 (own_spec once om St ltac:(intros; unfold once; lia)) (order_once om St Om) x Hx).
    + apply (e3_all_in _ _ _ Ec) in Hx as (k & c & a & l & I & Ea & El & I'). apply listed_in in I. destruct (e3_once k c I) as (a' & x' & Ea' & El' & Eq).
      rewrite Ea in Ea'. injection Ea' as <-. rewrite El in El'. injection El' as ->. destruct I' as [<-|[]]. apply (Eq om St Om). apply CV. eapply nth_error_In, I.
Qed.

Lemma channel_ext s s' c : In c (edges g) -> (forall i m, (i < length (vertices g))%nat -> s i m == s' i m)%Q -> channel_valid g s c -> channel_valid g s' c.
Proof using WF.
  clear - WF. intros Ic H. destruct (proj1 (proj2 WF) c Ic) as (vs & vd & Es & Ed & _). unfold channel_valid. apply nn_ext; auto.
  - intros n. unfold end_of. rewrite Es. rewrite H; [reflexivity|]. apply nth_error_Some. congruence.
  - intros n. unfold start_of. apply H. apply nth_error_Some. congruence.
Qed.

(** The times of the first executions of a schedule, as times of the events. *)
Definition event_times (f : nat -> Q) (e : event) : Q :=
  match find (fun iv => v_id (snd iv) =? ev_task e) (indexed (vertices g)) with Some iv => f (fst iv) | None => 0%Q end.
Lemma event_times_at f i v p k : nth_error (vertices g) i = Some v -> event_times f (mkEvent (v_id v) p k) = f i.
Proof using WF.
  clear - WF. intros E. unfold event_times. destruct (find _ _) as [[j u]|] eqn:F.
  - apply find_some in F as [I Eq]. apply indexed_in in I. cbn [fst snd ev_task] in *. apply Z.eqb_eq in Eq. f_equal.
    destruct WF as (_ & _ & ND). rewrite NoDup_nth_error in ND. apply ND; [rewrite map_length; apply nth_error_Some; congruence|]. rewrite !nth_error_map, I, E. cbn. congruence.
  - exfalso. pose proof (find_none _ _ F (i, v) (proj2 (indexed_in _ _ _) E)) as X. cbn [snd ev_task] in X. rewrite Z.eqb_refl in X. discriminate.
Qed.

Lemma feasible_once fuel cs om : normalize fuel g = Ok (Some (zs, al)) -> expansion fuel g once = Ok cs -> (0 <= om)%Q ->
  ((exists St, forall x, In x cs -> satisfies om St x) <-> exists s, even_rhythm g zs om s /\ channels_valid g s).
Proof using All.
  intros E H Om. split.
  - intros (St & A). apply (expansion_once fuel cs E H om St Om) in A. eexists. split; [|exact A]. intros i m Hi.
    destruct (nth_error (vertices g) i) as [v|] eqn:Ev; [|apply nth_error_None in Ev; lia]. unfold later. rewrite !(denoted_once _ _ _ _ _ _ _ Ev). unfold group_period.
    rewrite Z.mul_1_r, !Nat2Z.inj_add, !inject_Z_plus. change (inject_Z (Z.of_nat 0)) with 0%Q. ring.
  - intros (s & ER & CV). exists (event_times (fun i => s i 0%nat - 2 * (om * inject_Z (nth i zs 0%Z)))%Q). apply (expansion_once fuel cs E H om _ Om). intros c Ic.
    apply (channel_ext s); auto. intros i m Hi. destruct (nth_error (vertices g) i) as [v|] eqn:Ev; [|apply nth_error_None in Ev; lia].
    unfold later. rewrite (denoted_once _ _ _ _ _ _ _ Ev), (event_times_at _ _ _ _ _ Ev), (ER i m Hi). unfold group_period. rewrite Z.mul_1_r, Nat2Z.inj_add, inject_Z_plus. change (inject_Z (Z.of_nat 2)) with 2%Q. ring.
Qed.

Lemma nn_shift M pe pr cs co D : never_negative M pe pr cs co -> never_negative M (fun n => pe n + D)%Q pr (fun n => cs n + D)%Q co.
Proof.
  clear. intros H t nc. destruct (H (t - D)%Q nc) as (np & Hn). exists np.
  assert (X : forall a r n, moved_by (fun n => a n + D)%Q r n t = moved_by a r n (t - D)%Q).
  { intros a r n. unfold moved_by. apply sumf_ext. intros k _. assert (Qle_bool (a k + D) t = Qle_bool (a k) (t - D)) as ->; [|reflexivity]. apply eq_true_iff_eq. rewrite !Qle_bool_iff. split; intros; lra. }
  rewrite !X. assumption.
Qed.

(** When all tasks have the same weight the displacement is the same for all. *)
Lemma equal_weights fuel cs z : normalize fuel g = Ok (Some (zs, al)) -> expansion fuel g once = Ok cs -> (forall i, (i < length (vertices g))%nat -> nth i zs 0 = z) ->
  forall om St, (0 <= om)%Q -> ((forall x, In x cs -> satisfies om St x) <-> channels_valid g (denoted g zs once om St)).
Proof using All.
  intros E H EW om St Om. rewrite (expansion_once fuel cs E H om St Om). 
  assert (X : forall i m, (i < length (vertices g))%nat -> (later 2 (denoted g zs once om St) i m == denoted g zs once om St i m + 2 * (om * inject_Z z))%Q).
  { intros i m Hi. destruct (nth_error (vertices g) i) as [v|] eqn:Ev; [|apply nth_error_None in Ev; lia]. unfold later. rewrite !(denoted_once _ _ _ _ _ _ _ Ev), (EW i Hi). unfold group_period.
    rewrite Z.mul_1_r, Nat2Z.inj_add, inject_Z_plus. change (inject_Z (Z.of_nat 2)) with 2%Q. ring. }
  split; intros A c Ic; specialize (A c Ic); unfold channel_valid in *; destruct (proj1 (proj2 WF) c Ic) as (vs & vd & Es & Ed & _).
  - apply (nn_shift _ _ _ _ _ (- (2 * (om * inject_Z z)))%Q) in A. revert A. apply nn_ext; auto.
    + intros n. unfold end_of. rewrite Es, X by (apply nth_error_Some; congruence). ring.
    + intros n. unfold start_of. rewrite X by (apply nth_error_Some; congruence). ring.
  - apply (nn_shift _ _ _ _ _ (2 * (om * inject_Z z))%Q) in A. revert A. apply nn_ext; auto.
    + intros n. unfold end_of. rewrite Es, X by (apply nth_error_Some; congruence). ring.
    + intros n. unfold start_of. rewrite X by (apply nth_error_Some; congruence). ring.
Qed.

Lemma expansion_order fuel K cs : normalize fuel g = Ok (Some (zs, al)) -> (forall i, (i < length (vertices g))%nat -> 1 <= K i) -> expansion fuel g K = Ok cs ->
  forall om St, (forall x, In x cs -> satisfies om St x) -> in_order g (denoted g zs K om St).
Proof using All.
  intros E KP H om St A. destruct (expansion_ok fuel K E KP) as (ch & Ec & Ex). rewrite Ex in H. injection H as <-. apply own_spec; [assumption|]. intros x Hx. apply A, in_or_app. left. assumption.
Qed.

Lemma expansion_order_only fuel K cs : normalize fuel g = Ok (Some (zs, al)) -> (forall i, (i < length (vertices g))%nat -> 1 <= K i) -> expansion fuel g K = Ok cs -> edges g = [] ->
  forall om St, in_order g (denoted g zs K om St) -> forall x, In x cs -> satisfies om St x.
Proof using All.
  intros E KP H NE om St A. destruct (expansion_ok fuel K E KP) as (ch & Ec & Ex). rewrite Ex in H. injection H as <-. unfold listed in Ec. rewrite NE in Ec. cbn in Ec. injection Ec as <-. rewrite app_nil_r. apply own_spec; assumption.
Qed.
End Graph.
