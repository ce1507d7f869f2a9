(** Back-pressure sizing: always an answer; on synchronous graphs, when it is right. *)
From Coq Require Import QArith Qminmax Qround Lqa.
From Verif Require Import Base Graph Commons CommonsProofs ScheduleSpec KPeriodic KPeriodicChannel KIterSpec KIterProofs RepVecProofs SPeriodicSpec DseSpec Sizing SizingSpec SymbExecSpec Backpressure BackpressureSpec.
Open Scope Z_scope.

(** ** Evenly spaced moves *)
Lemma steps_moved (a p : Q) (w : Z) : (0 < p)%Q -> 0 < w -> forall n t, moved_by (fun m => (a + inject_Z (Z.of_nat m) * p)%Q) (fun _ => w) n t =
  w * Z.min (Z.of_nat n) (Z.max 0 (Qfloor ((t - a) / p) + 1)).
Proof.
  intros P W n t. unfold moved_by. induction n as [|n IH]; [cbn [sumf]; lia|]. cbn [sumf]. rewrite IH.
  assert (E : Qle_bool (a + inject_Z (Z.of_nat n) * p) t = (Z.of_nat n <=? Qfloor ((t - a) / p))).
  { apply eq_true_iff_eq. rewrite Qle_bool_iff, Z.leb_le. split; intros H.
    - rewrite <- (Qfloor_Z (Z.of_nat n)). apply Qfloor_resp_le. apply Qle_shift_div_l; [exact P|]. lra.
    - assert (H2 : (inject_Z (Z.of_nat n) <= (t - a) / p)%Q) by (eapply Qle_trans; [|apply Qfloor_le]; rewrite <- Zle_Qle; exact H).
      assert (H3 : (inject_Z (Z.of_nat n) * p <= (t - a) / p * p)%Q) by (apply Qmult_le_compat_r; [exact H2|lra]).
      assert (H4 : ((t - a) / p * p == t - a)%Q) by (field; lra). lra. }
  rewrite E. set (f := Qfloor ((t - a) / p)). destruct (Z.leb_spec (Z.of_nat n) f).
  - replace (Z.min (Z.of_nat n) (Z.max 0 (f + 1))) with (Z.of_nat n) by lia. replace (Z.min (Z.of_nat (S n)) (Z.max 0 (f + 1))) with (Z.of_nat n + 1) by lia. ring.
  - replace (Z.min (Z.of_nat (S n)) (Z.max 0 (f + 1))) with (Z.max 0 (f + 1)) by lia. replace (Z.min (Z.of_nat n) (Z.max 0 (f + 1))) with (Z.max 0 (f + 1)) by lia. ring.
Qed.

(** Producer and consumer at the same rate; the consumer starts late enough. *)
Lemma lines_apart (M w r : Z) (a p b q al : Q) : (0 < p)%Q -> (0 < q)%Q -> 0 < w -> 0 < r -> 0 <= M -> (inject_Z w == al * p)%Q -> (inject_Z r == al * q)%Q -> (0 < al)%Q ->
  (inject_Z (r - 1 - M) <= al * (b - a))%Q ->
  never_negative M (fun m => (a + inject_Z (Z.of_nat m) * p)%Q) (fun _ => w) (fun m => (b + inject_Z (Z.of_nat m) * q)%Q) (fun _ => r).
Proof.
  intros P Q0 W R0 M0 Ew Er Al H t nc. rewrite (steps_moved b q r Q0 R0). set (k := Qfloor ((t - b) / q)). set (f := Qfloor ((t - a) / p)). exists (Z.to_nat (Z.max 0 (f + 1))).
  rewrite (steps_moved a p w P W). fold f. rewrite Z2Nat.id by lia. rewrite Z.min_id.
  destruct (Z.le_gt_cases (k + 1) 0) as [K|K]; [replace (Z.max 0 (k + 1)) with 0 by lia; nia|].
  assert (C : r * (k + 1) <= M + w * Z.max 0 (f + 1)); [|nia].
  assert (K1 : (inject_Z k * q <= t - b)%Q).
  { assert (X : (inject_Z k <= (t - b) / q)%Q) by apply Qfloor_le. assert (Y : (inject_Z k * q <= (t - b) / q * q)%Q) by (apply Qmult_le_compat_r; [exact X|lra]). assert (Z0 : ((t - b) / q * q == t - b)%Q) by (field; lra). lra. }
  assert (F1 : (t - a < inject_Z (f + 1) * p)%Q).
  { assert (X : ((t - a) / p < inject_Z (f + 1))%Q) by apply Qlt_floor. assert (Z0 : ((t - a) / p * p == t - a)%Q) by (field; lra). rewrite <- Z0. apply Qmult_lt_compat_r; assumption. }
  assert (F2 : (al * (t - a) < inject_Z (w * (f + 1)))%Q).
  { rewrite inject_Z_mult, Ew. assert (X : (al * (t - a) < al * (inject_Z (f + 1) * p))%Q) by (apply Qmult_lt_l; assumption). assert (Y : (al * (inject_Z (f + 1) * p) == al * p * inject_Z (f + 1))%Q) by ring. lra. }
  assert (K2 : (inject_Z (r * k) <= al * (t - b))%Q).
  { rewrite inject_Z_mult, Er. assert (X : (al * (inject_Z k * q) <= al * (t - b))%Q) by (apply Qmult_le_l; assumption). assert (Y : (al * (inject_Z k * q) == al * q * inject_Z k)%Q) by ring. lra. }
  assert (C : (inject_Z (r * k) + inject_Z (r - 1 - M) < inject_Z (w * (f + 1)))%Q) by lra. rewrite <- inject_Z_plus, <- Zlt_Qlt in C. nia.
Qed.

(** ** The parts of the sizing *)
Section Parts.
Variables (g : graph) (N : nat -> Z) (period : Q).
Hypothesis WF : graph_wf g.
Hypothesis NP : forall i, (i < length (vertices g))%nat -> 0 < N i.
Hypothesis PP : (0 < period)%Q.

Lemma lam_prod c : In c (edges g) -> 0 < lambda_prod c <= sumZ (e_in c).
Proof.
  intros I. destruct (proj1 (proj2 WF) c I) as (vs & vd & _ & _ & _ & _ & _ & _ & Nn & W & R & _). unfold lambda_prod.
  destruct (fold_gcd_divides (e_out c) (sumZ (e_in c))) as [D _]. pose proof (fold_gcd_nonneg (e_out c) (sumZ (e_in c)) ltac:(lia)) as P.
  split; [|apply Z.divide_pos_le; assumption]. destruct D as [k Hk]. match type of P with 0 <= ?m => destruct (Z.eq_dec m 0) as [E0|E0]; [rewrite E0 in Hk; lia|lia] end.
Qed.
Lemma lam_cons c : In c (edges g) -> 0 < lambda_cons c <= sumZ (e_out c).
Proof.
  intros I. destruct (proj1 (proj2 WF) c I) as (vs & vd & _ & _ & _ & _ & _ & _ & Nn & W & R & _). unfold lambda_cons.
  destruct (fold_gcd_divides (e_in c) (sumZ (e_out c))) as [D _]. pose proof (fold_gcd_nonneg (e_in c) (sumZ (e_out c)) ltac:(lia)) as P.
  split; [|apply Z.divide_pos_le; assumption]. destruct D as [k Hk]. match type of P with 0 <= ?m => destruct (Z.eq_dec m 0) as [E0|E0]; [rewrite E0 in Hk; lia|lia] end.
Qed.

Lemma inj_pos z : 0 < z -> (0 < inject_Z z)%Q.
Proof. intros H. change 0%Q with (inject_Z 0). rewrite <- Zlt_Qlt. exact H. Qed.
Lemma time_div_ok a b : (0 < b)%Q -> time_div a b = Ok (a / b)%Q.
Proof. intros H. unfold time_div. destruct (Qeq_bool b 0) eqn:E; [|reflexivity]. apply Qeq_bool_iff in E. exfalso. lra. Qed.

Lemma mu_ok i v : nth_error (vertices g) i = Some v -> exists m, bp_mu N period i v = Ok m /\ (m == period * inject_Z (Z.of_nat (v_phases v)) / inject_Z (N i))%Q /\ (0 < m)%Q.
Proof.
  intros E. assert (Ni : (0 < inject_Z (N i))%Q) by (apply inj_pos, NP, nth_error_Some; congruence). destruct (proj1 WF v (nth_error_In _ _ E)) as (P & _).
  unfold bp_mu. rewrite time_div_ok by exact Ni. cbn [bind]. eexists. split; [reflexivity|]. split; [field; lra|].
  assert (0 < inject_Z (Z.of_nat (v_phases v)))%Q by (apply inj_pos; lia). apply Qmult_lt_0_compat; [|assumption]. apply Qlt_shift_div_l; [exact Ni|lra].
Qed.
Lemma alpha_ok c vs : In c (edges g) -> nth_error (vertices g) (e_src c) = Some vs ->
  exists a, alpha g N period c = Ok a /\ (0 < a)%Q /\ (a * period * inject_Z (Z.of_nat (v_phases vs)) == inject_Z (sumZ (e_in c) * N (e_src c)))%Q.
Proof.
  intros I E. destruct (mu_ok _ _ E) as (m & Em & Vm & Pm). unfold alpha, lookup_vertex. rewrite E. cbn [bind]. rewrite Em. cbn [bind]. rewrite time_div_ok by exact Pm. eexists. split; [reflexivity|].
  destruct (proj1 (proj2 WF) c I) as (? & ? & _ & _ & _ & _ & _ & _ & _ & W & _). pose proof (inj_pos _ W) as W'. split; [apply Qlt_shift_div_l; lra|].
  assert (Ni : (0 < inject_Z (N (e_src c)))%Q) by (apply inj_pos, NP, nth_error_Some; congruence). destruct (proj1 WF vs (nth_error_In _ _ E)) as (P & _). assert (Pv : (0 < inject_Z (Z.of_nat (v_phases vs)))%Q) by (apply inj_pos; lia).
  rewrite Vm, inject_Z_mult. field. lra.
Qed.

Lemma beta_loop_ok lam a : 0 < lam -> forall rates ends cumul, length rates = length ends -> cumul < lam -> lam <= cumul + sumZ rates -> exists b, beta_prod_loop lam a cumul rates ends = Ok b.
Proof.
  intros L. induction rates as [|r rates IH]; intros ends cumul Len C S0; [cbn in S0; lia|]. destruct ends as [|e ends]; [discriminate|]. cbn [beta_prod_loop].
  destruct (ceil_to_correct (cumul + r - r) lam L) as (m & -> & _). cbn [bind]. destruct (Z.leb_spec lam (cumul + r)); [eauto|]. apply IH; [cbn in Len; lia|lia|]. cbn [sumZ fold_right] in S0. fold (sumZ rates) in S0. lia.
Qed.
Lemma burst_length ds : forall t, length (burst_ends t ds) = length ds.
Proof. induction ds as [|d ds IH]; intros t; cbn; [reflexivity|]. rewrite IH. reflexivity. Qed.
Lemma beta_prod_ok c : In c (edges g) -> exists b, beta_prod g N period c = Ok b.
Proof.
  intros I. destruct (proj1 (proj2 WF) c I) as (vs & vd & V1 & V2 & L1 & _ & _ & _ & Nn & W & R & _). destruct (alpha_ok c vs I V1) as (a & Ea & _). unfold beta_prod, lookup_vertex. rewrite V1. cbn [bind]. rewrite Ea. cbn [bind].
  destruct (lam_prod c I). apply beta_loop_ok; [lia| |lia|lia]. rewrite burst_length. destruct (proj1 WF vs (nth_error_In _ _ V1)) as (_ & L & _). congruence.
Qed.

Lemma bound_ok before : forall cs h, (forall c, In c cs -> In c (edges g)) -> exists q, retime_bound g N period before cs h = Ok q.
Proof.
  induction cs as [|c cs IH]; intros h I; cbn [retime_bound]; [eauto|]. pose proof (I c (or_introl eq_refl)) as Ic. destruct (beta_prod_ok c Ic) as (b & ->). cbn [bind].
  destruct (proj1 (proj2 WF) c Ic) as (vs & vd & V1 & _). destruct (alpha_ok c vs Ic V1) as (a & -> & Pa & _). cbn [bind]. destruct (lam_prod c Ic).
  destruct (ceil_to_correct (sumZ (firstn before (e_in c)) + 1) (lambda_prod c) ltac:(lia)) as (m & -> & _). cbn [bind]. rewrite time_div_ok by exact Pa. cbn [bind]. apply IH. intros x Hx. apply I. right. exact Hx.
Qed.
Lemma retime_ok cs : (forall c, In c cs -> In c (edges g)) -> forall durs next acc, exists l, retime g N period cs durs next acc = Ok l /\ length l = (length durs + length acc)%nat.
Proof.
  intros I. induction durs as [|d durs IH]; intros next acc; cbn [retime]; [eexists; split; [reflexivity|cbn; lia]|]. destruct (bound_ok (length durs) cs next I) as (h & ->). cbn [bind].
  destruct (IH (h - d)%Q (((h - d)%Q, h) :: acc)) as (l & E & L). exists l. split; [exact E|]. cbn [length] in *. lia.
Qed.
Lemma retimed_ok i v : nth_error (vertices g) i = Some v -> exists l, retimed g N period i v = Ok l /\ length l = v_phases v /\
  (v_phases v = 1%nat -> exists d, v_durations v = [d] /\ l = [(0%Q, (0 + d)%Q)]).
Proof.
  intros E. destruct (proj1 WF v (nth_error_In _ _ E)) as (P & L & _). destruct (mu_ok i v E) as (m & Em & _). unfold retimed. rewrite Em. cbn [bind].
  destruct (retime_ok (outputs g i) (fun c H => proj1 (proj1 (filter_In _ _ _) H)) (rev (v_durations v)) m []) as (l & -> & Ll). cbn [bind]. rewrite rev_length, Nat.add_0_r in Ll.
  destruct (v_durations v) as [|d [|d2 ds]] eqn:Ed; cbn [length] in *; [lia| |].
  - eexists. split; [reflexivity|]. split; [cbn; lia|]. intros _. exists d. auto.
  - exists l. split; [reflexivity|]. split; [lia|]. intros Q. lia.
Qed.

Lemma cons_loop_ok lam a : forall rates at_ cumul best, length rates = length at_ -> (lam <= cumul + sumZ rates) -> (best = None -> cumul < lam) -> exists q, beta_cons_loop lam a cumul rates at_ best = Some q.
Proof.
  induction rates as [|r rates IH]; intros at_ cumul best Len S0 B; cbn [beta_cons_loop].
  - cbn in S0. destruct best; [eauto|]. specialize (B eq_refl). lia.
  - destruct at_ as [|t at_]; [discriminate|]. cbn [sumZ fold_right] in S0. fold (sumZ rates) in S0. apply IH; [cbn in Len; lia|lia|]. destruct (Z.leb_spec lam (cumul + r)); [|intros _; lia].
    destruct best; [destruct (Qle_bool _ _)|]; discriminate.
Qed.
Lemma feed_loop_ok lam a : forall rates at_ cumul best, length rates = length at_ -> (lam <= cumul + sumZ rates) -> (best = None -> cumul < lam) -> exists q, beta_feed_loop lam a cumul rates at_ best = Some q.
Proof.
  induction rates as [|r rates IH]; intros at_ cumul best Len S0 B; cbn [beta_feed_loop].
  - cbn in S0. destruct best; [eauto|]. specialize (B eq_refl). lia.
  - destruct at_ as [|t at_]; [discriminate|]. cbn [sumZ fold_right] in S0. fold (sumZ rates) in S0. apply IH; [cbn in Len; lia|lia|]. destruct (Z.leb_spec lam (cumul + r)); [|intros _; lia].
    destruct best; [destruct (Qle_bool _ _)|]; discriminate.
Qed.

Lemma gcd_ok c : In c (edges g) -> exists f, fine_gcd c = Ok f /\ 0 < f.
Proof.
  intros I. destruct (proj1 (proj2 WF) c I) as (vs & vd & V1 & V2 & L1 & L2 & L3 & L4 & Nn & W & R & _). destruct (proj1 WF vs (nth_error_In _ _ V1)) as (P & _).
  destruct (fine_gcd_spec c) as (f & E & Pf & _); [lia|intros x Hx; apply Nn; apply in_app_iff in Hx; apply in_app_iff; destruct Hx; [auto|right; apply in_app_iff; auto]|exact W|]. eauto.
Qed.

Lemma beta_ij_ok c : In c (edges g) -> exists b, beta_ij g N period c = Ok b.
Proof.
  intros I. destruct (proj1 (proj2 WF) c I) as (vs & vd & V1 & V2 & L1 & L2 & _). destruct (alpha_ok c vs I V1) as (a & Ea & Pa & _). destruct (retimed_ok _ _ V2) as (l & El & Ll & _).
  unfold beta_ij, lookup_vertex. rewrite V2. cbn [bind]. rewrite Ea. cbn [bind]. rewrite El. cbn [bind]. destruct (lam_cons c I).
  destruct (cons_loop_ok (lambda_cons c) a (e_out c) (map fst l) 0 None ltac:(rewrite map_length; lia) ltac:(lia) ltac:(intros; lia)) as (q & ->). cbn [finite bind].
  destruct (beta_prod_ok c I) as (b & ->). cbn [bind]. destruct (gcd_ok c I) as (f & -> & Pf). cbn [bind]. destruct (floor_to_correct (e_preload c) f Pf) as (u & -> & _). cbn [bind]. rewrite time_div_ok by exact Pa. cbn [bind]. eauto.
Qed.
Lemma size_ok x c : In c (edges g) -> exists z, bp_size g N period x c = Ok z.
Proof.
  intros I. destruct (proj1 (proj2 WF) c I) as (vs & vd & V1 & V2 & L1 & L2 & _). destruct (alpha_ok c vs I V1) as (a & Ea & Pa & _). destruct (retimed_ok _ _ V2) as (l2 & El2 & Ll2 & _). destruct (retimed_ok _ _ V1) as (l1 & El1 & Ll1 & _).
  unfold bp_size, lookup_vertex. rewrite V1, V2. cbn [bind]. rewrite Ea. cbn [bind]. rewrite El1, El2. cbn [bind]. destruct (lam_cons c I). destruct (lam_prod c I).
  destruct (feed_loop_ok (lambda_cons c) a (e_out c) (map (fun gh => x (Start (e_dst c) 0%Z) + snd gh)%Q l2) 0 None ltac:(rewrite map_length; lia) ltac:(lia) ltac:(intros; lia)) as (q & ->). cbn [finite bind].
  destruct (cons_loop_ok (lambda_prod c) a (e_in c) (map (fun gh => x (Start (e_src c) 0%Z) + fst gh)%Q l1) 0 None ltac:(rewrite map_length; lia) ltac:(lia) ltac:(intros; lia)) as (q' & ->). cbn [finite bind].
  destruct (gcd_ok c I) as (f & -> & Pf). cbn [bind]. unfold ceil_time. destruct (Z.eqb_spec f 0); [lia|]. eauto.
Qed.

(** The program is the rows of the channels, one each. *)
Lemma bp_concat : forall cs, (forall c, In c cs -> In c (edges g)) -> exists p, concat_lp (map (bp_rows g N period) cs) = Ok p /\ columns p = [] /\
  forall c, In c cs -> exists b, beta_ij g N period c = Ok b /\
    In (mkRow (if (e_src c =? e_dst c)%nat then [] else [(Start (e_dst c) 0, 1%Q); (Start (e_src c) 0, (-1)%Q)]) b) (rows p).
Proof.
  induction cs as [|c cs IH]; intros I; cbn [map concat_lp]; [eexists; split; [reflexivity|]; split; [reflexivity|]; intros c []|].
  destruct (beta_ij_ok c (I c (or_introl eq_refl))) as (b & Eb). unfold bp_rows at 1. rewrite Eb. cbn [bind]. destruct (IH (fun x Hx => I x (or_intror Hx))) as (p & -> & Cp & Rp). cbn [bind].
  eexists. split; [reflexivity|]. cbn [app_lp columns rows app]. split; [exact Cp|]. intros c0 [<-|H0]; [exists b; split; [exact Eb|left; reflexivity]|]. destruct (Rp c0 H0) as (b0 & E0 & H). exists b0. split; [exact E0|right; exact H].
Qed.

Lemma sizes_ok x : forall cs, (forall c, In c cs -> In c (edges g)) -> exists zs, bp_sizes g N period x cs = Ok zs /\ length zs = length cs /\ forall k c, nth_error cs k = Some c -> bp_size g N period x c = Ok (nth k zs 0).
Proof.
  induction cs as [|c cs IH]; intros I; cbn [bp_sizes]; [eexists; split; [reflexivity|]; split; [reflexivity|]; intros [|k] c; discriminate|].
  destruct (size_ok x c (I c (or_introl eq_refl))) as (z & Ez). rewrite Ez. cbn [bind]. destruct (IH (fun y Hy => I y (or_intror Hy))) as (zs & -> & L & H). cbn [bind]. eexists. split; [reflexivity|]. split; [cbn; lia|].
  intros [|k] c0 E; cbn in E |- *; [injection E as <-; exact Ez|apply H, E].
Qed.

Lemma sizing_answers solve : exists r, backpressure g N period solve = Ok r /\
  match r with
  | None => exists p, bp_lp g N period = Ok p /\ solve p = None
  | Some (zs, total, more) => length zs = length (edges g) /\ total = sumZ zs /\ more = total + 2 * Z.of_nat (length (vertices g)) /\
      exists p x, bp_lp g N period = Ok p /\ solve p = Some x /\ forall k c, nth_error (edges g) k = Some c -> bp_size g N period x c = Ok (nth k zs 0)
  end.
Proof.
  unfold backpressure, cassert. destruct (Qle_bool period 0) eqn:E; [apply Qle_bool_iff in E; exfalso; lra|]. cbn [negb bind]. unfold bp_lp. destruct (bp_concat (edges g) (fun c H => H)) as (p & -> & Cp & Rp). cbn [bind].
  set (q := app_lp _ p). destruct (solve q) as [x|] eqn:S0; [|eexists; split; [reflexivity|]; exists q; auto].
  destruct (sizes_ok x (edges g) (fun c H => H)) as (zs & -> & L & H). cbn [bind]. eexists. split; [reflexivity|]. split; [exact L|]. split; [reflexivity|]. split; [reflexivity|]. exists q, x. auto.
Qed.
End Parts.

(** ** Synchronous graphs *)
Section Synchronous.
Variables (g : graph) (N : nat -> Z) (period : Q).
Hypothesis WF : graph_wf g.
Hypothesis NI : no_init g.
Hypothesis SP : single_phase g.
Hypothesis B : balanced g N.
Hypothesis NP : forall i, (i < length (vertices g))%nat -> 0 < N i.
Hypothesis PP : (0 < period)%Q.

Lemma shape c : In c (edges g) -> exists vs vd ds dd w r, nth_error (vertices g) (e_src c) = Some vs /\ nth_error (vertices g) (e_dst c) = Some vd /\
  v_durations vs = [ds] /\ v_durations vd = [dd] /\ v_init_durations vs = [] /\ v_init_durations vd = [] /\ v_phases vs = 1%nat /\ v_phases vd = 1%nat /\ e_in c = [w] /\ e_out c = [r] /\ e_in_init c = [] /\ e_out_init c = [] /\
  0 < w /\ 0 < r /\ 0 <= e_preload c /\ w * N (e_src c) = r * N (e_dst c).
Proof.
  intros I. destruct (proj1 (proj2 WF) c I) as (vs & vd & V1 & V2 & L1 & L2 & L3 & L4 & Nn & W & R & M). pose proof (nth_error_In _ _ V1) as I1. pose proof (nth_error_In _ _ V2) as I2.
  pose proof (SP _ I1) as P1. pose proof (SP _ I2) as P2. pose proof (NI _ I1) as Z1. pose proof (NI _ I2) as Z2. destruct (proj1 WF _ I1) as (_ & D1 & D1' & _). destruct (proj1 WF _ I2) as (_ & D2 & D2' & _).
  rewrite P1 in *. rewrite P2 in *. rewrite Z1 in *. rewrite Z2 in *. pose proof (B c I) as Bc.
  destruct (e_in c) as [|w [|]] eqn:Ew; try discriminate. destruct (e_out c) as [|r [|]] eqn:Er; try discriminate. destruct (e_in_init c) eqn:Ei; try discriminate. destruct (e_out_init c) eqn:Eo; try discriminate.
  destruct (v_durations vs) as [|ds [|]] eqn:Ed1; try discriminate. destruct (v_durations vd) as [|dd [|]] eqn:Ed2; try discriminate. destruct (v_init_durations vs) eqn:Q1; try discriminate. destruct (v_init_durations vd) eqn:Q2; try discriminate.
  exists vs, vd, ds, dd, w, r. cbn [sumZ fold_right length] in *. repeat (split; [assumption || reflexivity || lia|]). nia.
Qed.

Lemma alpha_single c w r vs : In c (edges g) -> nth_error (vertices g) (e_src c) = Some vs -> v_phases vs = 1%nat -> e_in c = [w] -> w * N (e_src c) = r * N (e_dst c) -> (0 < inject_Z (N (e_dst c)))%Q ->
  exists a, alpha g N period c = Ok a /\ (0 < a)%Q /\ (inject_Z w == a * (period / inject_Z (N (e_src c))))%Q /\ (inject_Z r == a * (period / inject_Z (N (e_dst c))))%Q /\ (a * period == inject_Z (w * N (e_src c)))%Q.
Proof.
  intros I V P Ew Bw Nd. destruct (alpha_ok g N period WF NP PP c vs I V) as (a & Ea & Pa & Va). rewrite P, Ew in Va. cbn [sumZ fold_right] in Va. rewrite Z.add_0_r in Va. change (inject_Z (Z.of_nat 1)) with 1%Q in Va. rewrite Qmult_1_r in Va.
  assert (Ns : (0 < inject_Z (N (e_src c)))%Q) by (apply inj_pos, NP, nth_error_Some; congruence).
  exists a. split; [exact Ea|]. split; [exact Pa|]. split; [|split; [|exact Va]].
  - setoid_replace (a * (period / inject_Z (N (e_src c))))%Q with (a * period / inject_Z (N (e_src c)))%Q by (field; lra). rewrite Va, inject_Z_mult. field. lra.
  - setoid_replace (a * (period / inject_Z (N (e_dst c))))%Q with (a * period / inject_Z (N (e_dst c)))%Q by (field; lra). rewrite Va, Bw, inject_Z_mult. field. lra.
Qed.

Lemma beta_single c vs ds w a : nth_error (vertices g) (e_src c) = Some vs -> v_durations vs = [ds] -> e_in c = [w] -> 0 < lambda_prod c <= w -> alpha g N period c = Ok a ->
  exists b, beta_prod g N period c = Ok b /\ (b == 1 - a * ds)%Q.
Proof.
  intros V D E L A. unfold beta_prod, lookup_vertex. rewrite V. cbn [bind]. rewrite A, D, E. cbn [bind burst_ends beta_prod_loop]. replace (0 + w - w) with 0 by lia. unfold ceil_to. destruct (Z.eqb_spec (lambda_prod c) 0); [lia|]. cbn [bind].
  destruct (Z.leb_spec (lambda_prod c) (0 + w)); [|lia]. eexists. split; [reflexivity|]. rewrite Z.div_0_l by lia. cbn [Z.opp Z.mul Z.add]. change (inject_Z 1) with 1%Q. ring.
Qed.

Lemma row_single c : In c (edges g) -> exists vs vd ds dd w r a b f, nth_error (vertices g) (e_src c) = Some vs /\ nth_error (vertices g) (e_dst c) = Some vd /\ v_durations vs = [ds] /\ v_durations vd = [dd] /\ e_in c = [w] /\ e_out c = [r] /\
  alpha g N period c = Ok a /\ (0 < a)%Q /\ fine_gcd c = Ok f /\ 0 < f /\ beta_ij g N period c = Ok b /\ (b == (inject_Z (r - 1) + a * ds) / a - inject_Z (e_preload c / f * f))%Q.
Proof.
  intros I. destruct (shape c I) as (vs & vd & ds & dd & w & r & V1 & V2 & D1 & D2 & _ & _ & P1 & P2 & Ew & Er & _ & _ & W & R & M & Bw). exists vs, vd, ds, dd, w, r.
  assert (Nd : (0 < inject_Z (N (e_dst c)))%Q) by (apply inj_pos, NP, nth_error_Some; congruence). destruct (alpha_single c w r vs I V1 P1 Ew Bw Nd) as (a & Ea & Pa & _).
  pose proof (lam_prod g WF c I) as LP. pose proof (lam_cons g WF c I) as LC. rewrite Ew in LP. rewrite Er in LC. cbn [sumZ fold_right] in LP, LC. rewrite Z.add_0_r in LP, LC.
  destruct (beta_single c vs ds w a V1 D1 Ew LP Ea) as (bp & Eb & Vb). destruct (retimed_ok g N period WF NP PP _ _ V2) as (l & El & _ & Sl). destruct (Sl P2) as (d & Ed & ->). rewrite D2 in Ed. injection Ed as <-.
  destruct (gcd_ok g WF c I) as (f & Ef & Pf). destruct (floor_to_correct (e_preload c) f Pf) as (u & Eu & (Du & Lu & Gu)).
  exists a. unfold beta_ij, lookup_vertex. rewrite V2. cbn [bind]. rewrite Ea. cbn [bind]. rewrite El, Er. cbn [bind map fst beta_cons_loop]. destruct (Z.leb_spec (lambda_cons c) (0 + r)); [|lia]. cbn [finite bind]. rewrite Eb. cbn [bind]. rewrite Ef. cbn [bind]. rewrite Eu. cbn [bind]. rewrite time_div_ok by exact Pa. cbn [bind].
  assert (Uf : u = e_preload c / f * f) by (unfold floor_to in Eu; destruct (Z.eqb_spec f 0); [lia|]; injection Eu as <-; reflexivity).
  eexists. exists f. repeat (split; [assumption || reflexivity|]). rewrite Vb, <- Uf. unfold Zminus. rewrite Z.add_0_l, inject_Z_plus. change (inject_Z (- (1))) with (-(1))%Q. field. lra.
Qed.

Lemma size_single x c ds dd w r a : In c (edges g) -> nth_error (vertices g) (e_src c) <> None -> (forall vs, nth_error (vertices g) (e_src c) = Some vs -> v_durations vs = [ds]) -> (forall vd, nth_error (vertices g) (e_dst c) = Some vd -> v_durations vd = [dd]) ->
  e_in c = [w] -> e_out c = [r] -> alpha g N period c = Ok a -> (0 < a)%Q ->
  exists z f, bp_size g N period x c = Ok z /\ fine_gcd c = Ok f /\ (f | z) /\ (inject_Z (w - 1) + a * (x (Start (e_dst c) 0) + dd - x (Start (e_src c) 0)) <= inject_Z z)%Q /\
    (inject_Z z < inject_Z (w - 1) + a * (x (Start (e_dst c) 0) + dd - x (Start (e_src c) 0)) + inject_Z f)%Q.
Proof.
  intros I _ D1 D2 Ew Er Ea Pa. destruct (shape c I) as (vs & vd & ds' & dd' & w' & r' & V1 & V2 & _ & _ & _ & _ & P1 & P2 & _). specialize (D1 vs V1). specialize (D2 vd V2).
  pose proof (lam_prod g WF c I) as LP. pose proof (lam_cons g WF c I) as LC. rewrite Ew in LP. rewrite Er in LC. cbn [sumZ fold_right] in LP, LC. rewrite Z.add_0_r in LP, LC.
  destruct (retimed_ok g N period WF NP PP _ _ V2) as (l2 & El2 & _ & Sl2). destruct (Sl2 P2) as (d2 & Ed2 & ->). rewrite D2 in Ed2. injection Ed2 as <-.
  destruct (retimed_ok g N period WF NP PP _ _ V1) as (l1 & El1 & _ & Sl1). destruct (Sl1 P1) as (d1 & Ed1 & ->). rewrite D1 in Ed1. injection Ed1 as <-.
  destruct (gcd_ok g WF c I) as (f & Ef & Pf). unfold bp_size, lookup_vertex. rewrite V1, V2. cbn [bind]. rewrite Ea. cbn [bind]. rewrite El1, El2. cbn [bind]. rewrite Ew, Er. cbn [map fst snd beta_feed_loop beta_cons_loop].
  destruct (Z.leb_spec (lambda_cons c) (0 + r)); [|lia]. destruct (Z.leb_spec (lambda_prod c) (0 + w)); [|lia]. cbn [finite bind]. rewrite Ef. cbn [bind]. unfold ceil_time. destruct (Z.eqb_spec f 0); [lia|]. eexists. exists f. split; [reflexivity|]. split; [reflexivity|]. split; [eexists; reflexivity|].
  replace (0 + r + 1 - r) with 1 by lia. rewrite Z.add_0_l. set (q := (- (_ - _))%Q). assert (Fq : (0 < inject_Z f)%Q) by (apply inj_pos; exact Pf).
  assert (V : (q == inject_Z (w - 1) + a * (x (Start (e_dst c) 0%Z) + dd - x (Start (e_src c) 0%Z)))%Q) by (unfold q, Zminus; rewrite inject_Z_plus; change (inject_Z (- (1))) with (-(1))%Q; change (inject_Z 1) with 1%Q; ring).
  assert (Y3 : (q / inject_Z f * inject_Z f == q)%Q) by (field; lra). rewrite inject_Z_mult. split.
  - assert (Y : (q / inject_Z f <= inject_Z (Qceiling (q / inject_Z f)))%Q) by apply Qle_ceiling. assert (Y2 : (q / inject_Z f * inject_Z f <= inject_Z (Qceiling (q / inject_Z f)) * inject_Z f)%Q) by (apply Qmult_le_compat_r; [exact Y|lra]). lra.
  - pose proof (Qceiling_lt (q / inject_Z f)) as Y. unfold Zminus in Y. rewrite inject_Z_plus in Y. change (inject_Z (- (1))) with (-(1))%Q in Y. assert (Y2 : ((inject_Z (Qceiling (q / inject_Z f)) + - (1)) * inject_Z f < q / inject_Z f * inject_Z f)%Q) by (apply Qmult_lt_compat_r; [exact Fq|exact Y]). lra.
Qed.

(** The starts of the program, repeated at even intervals. *)
Definition bp_schedule (x : var -> Q) : schedule := fun i m => (x (Start i 0) + inject_Z (Z.of_nat m) * (period / inject_Z (N i)))%Q.

Lemma never_negative_ext M f f' w w' h h' r r' : (forall n, (f n == f' n)%Q) -> (forall n, w n = w' n) -> (forall n, (h n == h' n)%Q) -> (forall n, r n = r' n) -> never_negative M f w h r -> never_negative M f' w' h' r'.
Proof.
  intros F W H R E t nc. destruct (E t nc) as (np & L). exists np.
  assert (G : forall (u u' : nat -> Q) (v v' : nat -> Z), (forall n, (u n == u' n)%Q) -> (forall n, v n = v' n) -> forall n, moved_by u v n t = moved_by u' v' n t).
  { clear. intros u u' v v' U V n. unfold moved_by. induction n as [|n IH]; [reflexivity|]. cbn [sumf]. rewrite IH, V. replace (Qle_bool (u n) t) with (Qle_bool (u' n) t); [reflexivity|]. apply eq_true_iff_eq. rewrite !Qle_bool_iff, (U n). reflexivity. }
  rewrite (G f f' w w' F W), (G h h' r r' H R) in L. exact L.
Qed.

Lemma cyclic_one {A} (d x : A) m : cyclic d [] [x] m = x.
Proof. unfold cyclic. cbn [length Nat.ltb Nat.leb]. rewrite Nat.mod_1_r. reflexivity. Qed.

Lemma sizes_work x p zs : bp_lp g N period = Ok p -> feasible p x -> (forall k c, nth_error (edges g) k = Some c -> bp_size g N period x c = Ok (nth k zs 0)) ->
  (forall c, In c (edges g) -> calm N period c) -> steps_fit g N period -> runs_evenly g N period (with_room g zs).
Proof.
  intros Ep [Fr _] Sz Ca Fit. exists (bp_schedule x). split; [intros i m _; unfold bp_schedule; cbn [Z.of_nat]; setoid_replace (inject_Z 0 * (period / inject_Z (N i)))%Q with 0%Q by (change (inject_Z 0) with 0%Q; ring); ring|].
  assert (K : forall c, In c (edges g) -> exists vs vd ds dd w r a, nth_error (vertices g) (e_src c) = Some vs /\ nth_error (vertices g) (e_dst c) = Some vd /\ v_durations vs = [ds] /\ v_durations vd = [dd] /\ v_init_durations vs = [] /\ v_init_durations vd = [] /\
    e_in c = [w] /\ e_out c = [r] /\ e_in_init c = [] /\ e_out_init c = [] /\ 0 < w /\ 0 < r /\ 0 <= e_preload c /\ alpha g N period c = Ok a /\ (0 < a)%Q /\ (0 < period / inject_Z (N (e_src c)))%Q /\ (0 < period / inject_Z (N (e_dst c)))%Q /\
    (inject_Z w == a * (period / inject_Z (N (e_src c))))%Q /\ (inject_Z r == a * (period / inject_Z (N (e_dst c))))%Q /\ (inject_Z (r - 1 - e_preload c) <= a * (x (Start (e_dst c) 0) - (x (Start (e_src c) 0) + ds)))%Q).
  { intros c I. destruct (shape c I) as (vs & vd & ds & dd & w & r & V1 & V2 & D1 & D2 & D3 & D4 & P1 & P2 & Ew & Er & Ei & Eo & W & R & M & Bw).
    assert (Nd : (0 < inject_Z (N (e_dst c)))%Q) by (apply inj_pos, NP, nth_error_Some; congruence). assert (Ns : (0 < inject_Z (N (e_src c)))%Q) by (apply inj_pos, NP, nth_error_Some; congruence).
    destruct (alpha_single c w r vs I V1 P1 Ew Bw Nd) as (a & Ea & Pa & Aw & Ar & Ap).
    destruct (row_single c I) as (vs' & vd' & ds' & dd' & w' & r' & a' & b & f & V1' & V2' & D1' & D2' & Ew' & Er' & Ea' & _ & Ef & Pf & Eb & Vb). set (u := e_preload c / f * f) in *. assert (Bu : 0 <= u <= e_preload c) by (unfold u; pose proof (Z.mul_div_le (e_preload c) f Pf); pose proof (Z.div_pos (e_preload c) f M Pf); nia). clearbody u.
    rewrite V1 in V1'. rewrite V2 in V2'. injection V1' as <-. injection V2' as <-. rewrite D1 in D1'. rewrite D2 in D2'. rewrite Ew in Ew'. rewrite Er in Er'. rewrite Ea in Ea'. injection D1' as <-. injection D2' as <-. injection Ew' as <-. injection Er' as <-. injection Ea' as <-.
    exists vs, vd, ds, dd, w, r, a. do 15 (split; [assumption|]). split; [apply Qlt_shift_div_l; lra|]. split; [apply Qlt_shift_div_l; lra|]. split; [exact Aw|]. split; [exact Ar|].
    (* the row *)
    unfold bp_lp in Ep. destruct (bp_concat g N period WF NP PP (edges g) (fun c H => H)) as (q & Eq & _ & Rq). rewrite Eq in Ep. cbn [bind] in Ep. injection Ep as <-. destruct (Rq c I) as (b' & Eb' & Hb). rewrite Eb in Eb'. injection Eb' as <-.
    pose proof (Fr _ ltac:(cbn [app_lp rows app]; exact Hb)) as F. cbn [row_low] in F.
    assert (F2 : (b <= x (Start (e_dst c) 0) - x (Start (e_src c) 0))%Q).
    { unfold row_value in F. cbn [row_coefs] in F. destruct (Nat.eqb_spec (e_src c) (e_dst c)) as [E|E]; cbn [fold_right fst snd] in F; [rewrite E; lra|lra]. }
    assert (U : (a * inject_Z u <= inject_Z (e_preload c))%Q).
    { destruct (Ca c I) as [Z0|Q1]; [replace u with 0 by lia; rewrite Z0; change (inject_Z 0) with 0%Q; lra|]. rewrite Ew in Q1. cbn [sumZ fold_right] in Q1. rewrite Z.add_0_r in Q1.
      assert (A1 : (a <= 1)%Q) by (destruct (Qlt_le_dec 1 a) as [L|L]; [exfalso; assert (period < a * period)%Q by nra; lra|exact L]). assert (U0 : (inject_Z u <= inject_Z (e_preload c))%Q) by (rewrite <- Zle_Qle; lia). assert (U1 : (0 <= inject_Z u)%Q) by (change 0%Q with (inject_Z 0); rewrite <- Zle_Qle; lia). nra. }
    rewrite Vb in F2. set (xd := x (Start (e_dst c) 0)) in *. set (xs := x (Start (e_src c) 0)) in *.
    assert (F3 : (a * ((inject_Z (r - 1) + a * ds) / a - inject_Z u) <= a * (xd - xs))%Q) by (apply Qmult_le_l; assumption).
    assert (F4 : (a * ((inject_Z (r - 1) + a * ds) / a - inject_Z u) == inject_Z (r - 1) + a * ds - a * inject_Z u)%Q) by (field; lra).
    unfold Zminus in *. rewrite !inject_Z_plus in *. rewrite !inject_Z_opp in *. lra. }
  split; [split|].
  - intros c I. destruct (K c I) as (vs & vd & ds & dd & w & r & a & V1 & V2 & D1 & D2 & D3 & D4 & Ew & Er & Ei & Eo & W & R & M & Ea & Pa & Qs & Qd & Aw & Ar & H). unfold channel_valid.
    apply (never_negative_ext _ (fun m => (x (Start (e_src c) 0) + ds + inject_Z (Z.of_nat m) * (period / inject_Z (N (e_src c))))%Q) _ (fun _ => w) _ (fun m => (x (Start (e_dst c) 0%Z) + inject_Z (Z.of_nat m) * (period / inject_Z (N (e_dst c))))%Q) _ (fun _ => r)).
    + intros n. unfold end_of. rewrite V1. unfold bp_schedule, exec_duration. rewrite D1, D3, cyclic_one. ring.
    + intros n. unfold prod_rate. rewrite Ew, Ei, cyclic_one. reflexivity.
    + intros n. reflexivity.
    + intros n. unfold cons_rate. rewrite Er, Eo, cyclic_one. reflexivity.
    + apply (lines_apart _ _ _ _ _ _ _ a); assumption.
  - intros i v E m. unfold start_of, bp_schedule, exec_duration. pose proof (nth_error_In _ _ E) as Iv. pose proof (SP v Iv) as P1. pose proof (NI v Iv) as Z1. destruct (proj1 WF v Iv) as (_ & L & L' & _). rewrite P1 in L. rewrite Z1 in L'.
    destruct (v_durations v) as [|d [|]] eqn:D; try discriminate. destruct (v_init_durations v) eqn:D'; try discriminate. rewrite cyclic_one. pose proof (Fit i v d E ltac:(rewrite D; left; reflexivity)) as F.
    assert (Ni : (0 < inject_Z (N i))%Q) by (apply inj_pos, NP, nth_error_Some; congruence). assert (F2 : (d <= period / inject_Z (N i))%Q) by (apply Qle_shift_div_l; assumption).
    rewrite Nat2Z.inj_succ. unfold Z.succ. rewrite inject_Z_plus. change (inject_Z 1) with 1%Q. lra.
  - intros k c E. pose proof (nth_error_In _ _ E) as I. destruct (K c I) as (vs & vd & ds & dd & w & r & a & V1 & V2 & D1 & D2 & D3 & D4 & Ew & Er & Ei & Eo & W & R & M & Ea & Pa & Qs & Qd & Aw & Ar & H).
    destruct (size_single x c ds dd w r a I ltac:(congruence) ltac:(intros; congruence) ltac:(intros; congruence) Ew Er Ea Pa) as (z & f & Ez & _ & _ & Bz & _). rewrite (Sz k c E) in Ez. injection Ez as Ez. unfold with_room. rewrite E, Ez.
    assert (NN : never_negative (Z.max 0 z) (end_of (bp_schedule x) g (e_dst c)) (cons_rate c) (start_of (bp_schedule x) (e_src c)) (prod_rate c)).
    { apply (never_negative_ext _ (fun m => (x (Start (e_dst c) 0) + dd + inject_Z (Z.of_nat m) * (period / inject_Z (N (e_dst c))))%Q) _ (fun _ => r) _ (fun m => (x (Start (e_src c) 0%Z) + inject_Z (Z.of_nat m) * (period / inject_Z (N (e_src c))))%Q) _ (fun _ => w)).
      + intros n. unfold end_of. rewrite V2. unfold bp_schedule, exec_duration. rewrite D2, D4, cyclic_one. ring.
      + intros n. unfold cons_rate. rewrite Er, Eo, cyclic_one. reflexivity.
      + intros n. reflexivity.
      + intros n. unfold prod_rate. rewrite Ew, Ei, cyclic_one. reflexivity.
      + apply (lines_apart _ _ _ _ _ _ _ a); try assumption; [lia|]. assert (Zq : (inject_Z z <= inject_Z (Z.max 0 z))%Q) by (rewrite <- Zle_Qle; lia).
        set (zm := Z.max 0 z) in *. clearbody zm. unfold Zminus in *. rewrite !inject_Z_plus in *. rewrite !inject_Z_opp in *. lra. }
    intros t np. destruct (NN t np) as (nc & L). exists nc. lia.
Qed.

(** The points of the linear program. *)
Lemma points p x : bp_lp g N period = Ok p -> (feasible p x <->
  (forall i, (i < length (vertices g))%nat -> (0 <= x (Start i 0))%Q) /\
  (forall c b, In c (edges g) -> beta_ij g N period c = Ok b -> (b <= x (Start (e_dst c) 0) - x (Start (e_src c) 0))%Q)).
Proof.
  intros Ep. unfold bp_lp in Ep. destruct (concat_lp (map (bp_rows g N period) (edges g))) as [q| | |] eqn:Eq; cbn [bind] in Ep; try discriminate. injection Ep as <-.
  assert (G : forall cs q, concat_lp (map (bp_rows g N period) cs) = Ok q -> columns q = [] /\ forall r, In r (rows q) <-> exists c b, In c cs /\ beta_ij g N period c = Ok b /\ r = mkRow (if (e_src c =? e_dst c)%nat then [] else [(Start (e_dst c) 0, 1%Q); (Start (e_src c) 0, (-1)%Q)]) b).
  { clear. induction cs as [|c cs IH]; intros q E; cbn [map concat_lp] in E.
    - injection E as <-. split; [reflexivity|]. intros r. split; [intros []|intros (c & b & [] & _)].
    - unfold bp_rows at 1 in E. destruct (beta_ij g N period c) as [b| | |] eqn:Eb; cbn [bind] in E; try discriminate. destruct (concat_lp (map (bp_rows g N period) cs)) as [q'| | |]; cbn [bind] in E; try discriminate. injection E as <-. destruct (IH q' eq_refl) as (C & R). split; [cbn [app_lp columns app]; exact C|].
      intros r. cbn [app_lp rows app]. split.
      + intros [<-|I]; [exists c, b; split; [left; reflexivity|split; [exact Eb|reflexivity]]|]. apply R in I. destruct I as (c' & b' & I & H). exists c', b'. split; [right; exact I|exact H].
      + intros (c' & b' & [<-|I] & E' & ->); [left; rewrite Eb in E'; injection E' as <-; reflexivity|right; apply R; exists c', b'; auto]. }
  destruct (G (edges g) q Eq) as (C & R). clear G. unfold feasible. cbn [app_lp rows columns]. rewrite C, app_nil_r. cbn [app].
  assert (V : forall c b, (row_value x (mkRow (if (e_src c =? e_dst c)%nat then [] else [(Start (e_dst c) 0%Z, 1%Q); (Start (e_src c) 0%Z, (-1)%Q)]) b) == x (Start (e_dst c) 0%Z) - x (Start (e_src c) 0%Z))%Q).
  { intros c b. unfold row_value. cbn [row_coefs]. destruct (Nat.eqb_spec (e_src c) (e_dst c)) as [E|E]; cbn [fold_right fst snd]; [rewrite E; ring|ring]. }
  split.
  - intros [Fr Fc]. split.
    + intros i Hi. destruct (Fc (mkColumn (Start i 0) false (LowBound 0) 1)) as [H _]; [apply (in_map (fun i => mkColumn (Start i 0) false (LowBound 0) 1)), in_seq; lia|exact H].
    + intros c b I E. specialize (Fr _ (proj2 (R _) (ex_intro _ c (ex_intro _ b (conj I (conj E eq_refl)))))). cbn [row_low] in Fr. rewrite V in Fr. exact Fr.
  - intros [H0 H1]. split.
    + intros r I. apply R in I. destruct I as (c & b & I & E & ->). cbn [row_low]. rewrite V. exact (H1 c b I E).
    + intros c I. apply in_map_iff in I. destruct I as (i & <- & I). apply in_seq in I. cbn [col_bound col_int col_var in_bound]. split; [apply H0; lia|discriminate].
Qed.
End Synchronous.
