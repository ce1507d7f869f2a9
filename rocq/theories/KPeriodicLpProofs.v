(** The rows of the linear program say what the constraints of the event graph say. *)
From Coq Require Import QArith Lqa.
From Verif Require Import Base Graph Commons CommonsProofs KPeriodic ScheduleSpec ScheduleCore KPeriodicSpec
  KPeriodicProofs KPeriodicChannel KPeriodicSelfloop KPeriodicGraph EventGraph EventGraphSpec EventGraphProofs KPeriodicEnd
  KPeriodicLp KPeriodicLpSpec.
Open Scope Z_scope.

(** Below a multiple of the step, one less and one step less are the same bound. *)
Lemma same_floor g G x a : 0 < g -> (g | x) -> (g | G) ->
  greatest_multiple_le G (x - 1) a <-> greatest_multiple_le G (x - g) a.
Proof.
  intros Hg Hx HG.
  assert (E : forall m, (G | m) -> (m <= x - 1 <-> m <= x - g)).
  { intros m Hm. assert (D : (g | m)) by (eapply Z.divide_trans; eassumption).
    destruct D as [u ->], Hx as [w ->]. split; intros H; [|lia].
    assert (u < w) by nia. nia. }
  unfold greatest_multiple_le. split; intros (H1 & H2 & H3); (split; [exact H1|split]).
  - apply E; assumption.
  - intros m Hm L. apply H3; [assumption|]. apply E; assumption.
  - apply E; assumption.
  - intros m Hm L. apply H3; [assumption|]. apply E; assumption.
Qed.

(** Sums of the first rates. *)
Lemma prefix_sum per p : (p <= length per)%nat -> sumf (cyclic 0 [] per) p = sumZ (firstn p per).
Proof.
  induction p as [|p IH]; intros H; [reflexivity|]. cbn [sumf]. rewrite IH by lia.
  unfold cyclic. cbn [length Nat.ltb Nat.leb]. rewrite Nat.sub_0_r, Nat.mod_small by lia. clear IH.
  revert p H. induction per as [|x per IH]; intros p H; [cbn in H; lia|]. cbn [length] in H.
  destruct p as [|p]; [cbn; lia|]. specialize (IH p ltac:(lia)). change (firstn (S (S p)) (x :: per)) with (x :: firstn (S p) per).
  change (firstn (S p) (x :: per)) with (x :: firstn p per). change (nth (S p) (x :: per) 0) with (nth p per 0).
  change (sumZ (x :: firstn (S p) per)) with (x + sumZ (firstn (S p) per)). change (sumZ (x :: firstn p per)) with (x + sumZ (firstn p per)). lia.
Qed.
Lemma rates_upto per k p : (0 < length per)%nat -> (p < length per)%nat ->
  sumf (cyclic 0 [] per) (S (k * length per + p)) = sumZ (firstn (S p) per) + Z.of_nat k * sumZ per.
Proof.
  intros HP Hp. replace (S (k * length per + p))%nat with (S p + k * length per)%nat by lia.
  rewrite cyclic_sum by (cbn; lia). rewrite prefix_sum by lia. reflexivity.
Qed.

Lemma weighted_difference St a b : (weighted St (difference a b) == St a - St b)%Q.
Proof.
  unfold difference. destruct (event_eqb a b) eqn:E.
  - apply event_eqb_eq in E. subst. cbn. ring.
  - cbn. ring.
Qed.

Lemma event_at_split v k p : v_init_phases v = 0%nat -> (p < v_phases v)%nat ->
  event_at v (k * v_phases v + p) = mkEvent (v_id v) (Z.of_nat p + 1) (Z.of_nat k + 1).
Proof.
  intros H0 Hp. unfold event_at, pos_at. rewrite H0. cbn [Nat.ltb Nat.leb fst snd]. rewrite Nat.sub_0_r.
  rewrite (Nat.add_comm (k * _) p), Nat.div_add, Nat.mod_add, Nat.div_small, Nat.mod_small by lia. reflexivity.
Qed.
Lemma pos_at_split v k p : v_init_phases v = 0%nat -> (p < v_phases v)%nat ->
  (Z.of_nat k + 1, Z.of_nat p + 1) = pos_at (v_init_phases v) (v_phases v) (k * v_phases v + p).
Proof.
  intros H0 Hp. unfold pos_at. rewrite H0. cbn [Nat.ltb Nat.leb fst snd]. rewrite Nat.sub_0_r.
  rewrite (Nat.add_comm (k * _) p), Nat.div_add, Nat.mod_add, Nat.div_small, Nat.mod_small by lia. reflexivity.
Qed.

Lemma collect_all {A} (l : list (outcome (list A))) : (forall x, In x l -> exists r, x = Ok r) ->
  exists cs, collect l = Ok cs /\ forall y, In y cs <-> exists r, In (Ok r) l /\ In y r.
Proof.
  intros H. destruct (collect_ok (fun x => x) l) as (cs & Hcs); [intros b Hb; apply (H b Hb)|]. rewrite map_id in Hcs.
  exists cs. split; [assumption|]. intros y. rewrite <- (map_id l) in Hcs. rewrite (collect_in (fun x => x) l cs Hcs y). split.
  - intros (b & r & Hb & -> & Hy). eauto.
  - intros (r & Hr & Hy). eauto.
Qed.

Section Channel.
Variables (c : edge) (vs vd : vertex) (Ki Kj : nat) (Ni : Z).
Hypothesis Hvs : vertex_wf vs.
Hypothesis Hvd : vertex_wf vd.
Hypothesis Hc : chan_shape c vs vd.
Hypothesis HKi : (0 < Ki)%nat.
Hypothesis HKj : (0 < Kj)%nat.
Hypothesis HNi : 0 < Ni.
Hypothesis Hcyc : (Z.of_nat (v_phases vs) | Ni).
Hypothesis I1 : v_init_phases vs = 0%nat.
Hypothesis I2 : v_init_phases vd = 0%nat.

Let Wc := edge_in_total c * Z.of_nat Ki.
Let Rc := edge_out_total c * Z.of_nat Kj.

(** One turn of the loops: the row stands for the constraint of the same two events. *)
Lemma row_spec g mop : fine_gcd c = Ok g -> 0 < g -> (forall x, In x (e_in c ++ e_out c) -> (g | x)) ->
  greatest_multiple_le g (e_preload c) mop ->
  forall k p k' p', (p < v_phases vs)%nat -> (p' < v_phases vd)%nat ->
  let i := (k * v_phases vs + p)%nat in let j := (k' * v_phases vd + p')%nat in
  exists l, precedence_row c vs vd Ni (Z.of_nat Ki) (Z.of_nat Kj) (Z.of_nat p + 1) (Z.of_nat k + 1) (Z.of_nat p' + 1) (Z.of_nat k' + 1) = Ok l /\
    forall omega St, (forall r, In r l -> row_holds omega St r) <->
      (forall a, greatest_multiple_le (Z.gcd Wc Rc) (- mop - sumf (prod_rate c) i + sumf (cons_rate c) (S j) - g) a ->
        Z.max 0 (prod_rate c i - cons_rate c j) - mop - sumf (prod_rate c) (S i) + sumf (cons_rate c) (S j) <= a ->
        satisfies omega St (mkConstraint (event_at vs i) (event_at vd j)
              (- (inject_Z (a * Z.of_nat (v_phases vs) * Z.of_nat Ki) / inject_Z (Wc * Ni)))%Q (exec_duration vs i) (e_id c))).
Proof.
  intros Hg Hgp Hgd Hmop k p k' p' Hp Hp' i j.
  pose proof Hvs as (HPs & Hds & Hdis & _). pose proof Hvd as (HPd & _).
  pose proof Hc as (L1 & L2 & L3 & L4 & Hnn & HW & HR & HM).
  assert (N1 : e_in_init c = []) by (destruct (e_in_init c); [reflexivity|cbn in L3; lia]).
  assert (N2 : e_out_init c = []) by (destruct (e_out_init c); [reflexivity|cbn in L4; lia]).
  assert (HWc : 0 < Wc) by (unfold Wc, edge_in_total; nia).
  assert (HRc : 0 < Rc) by (unfold Rc, edge_out_total; nia).
  assert (HG : 0 < Z.gcd Wc Rc).
  { pose proof (Z.gcd_nonneg Wc Rc). destruct (Z.eq_dec (Z.gcd Wc Rc) 0) as [E|]; [|lia]. apply Z.gcd_eq_0_l in E. lia. }
  assert (Gd : (g | Z.gcd Wc Rc)).
  { apply Z.gcd_greatest; unfold Wc, Rc; apply Z.divide_mul_l, sumZ_divide; intros x Hx; apply Hgd, in_or_app; auto. }
  assert (PD : forall m, (g | prod_rate c m)).
  { intros m. apply Hgd, in_or_app. left. unfold prod_rate. rewrite N1. apply (cyclic_in 0 [] (e_in c) m). lia. }
  assert (CD : forall m, (g | cons_rate c m)).
  { intros m. apply Hgd, in_or_app. right. unfold cons_rate. rewrite N2. apply (cyclic_in 0 [] (e_out c) m). lia. }
  unfold precedence_row. rewrite Hg. cbn [bind].
  destruct (floor_to_correct (e_preload c) g Hgp) as (mop' & -> & Hmop'). cbn [bind].
  rewrite (greatest_multiple_unique _ _ _ _ Hmop' Hmop). clear mop' Hmop'.
  unfold cdiv. destruct (Z.eqb_spec (Z.of_nat (v_phases vs)) 0); [lia|]. cbn [bind].
  rewrite (duration_access vs i (Z.of_nat k + 1) (Z.of_nat p + 1) Hvs (pos_at_split vs k p I1 Hp)). cbn [bind].
  assert (EI : edge_in_phase c (Z.of_nat p + 1) = Ok (prod_rate c i)).
  { apply (phase_access 0 (e_in_init c) (e_in c) (v_init_phases vs) (v_phases vs) i (Z.of_nat k + 1)); auto. apply pos_at_split; assumption. }
  assert (EO : edge_out_phase c (Z.of_nat p' + 1) = Ok (cons_rate c j)).
  { apply (phase_access 0 (e_out_init c) (e_out c) (v_init_phases vd) (v_phases vd) j (Z.of_nat k' + 1)); auto. apply pos_at_split; assumption. }
  rewrite EI, EO. cbn [bind].
  assert (SI : sumZ (firstn (Z.to_nat (Z.of_nat p + 1)) (e_in c)) + (Z.of_nat k + 1 - 1) * edge_in_total c = sumf (prod_rate c) (S i)).
  { unfold prod_rate, i. rewrite N1, <- L1, rates_upto by lia. replace (Z.to_nat (Z.of_nat p + 1)) with (S p) by lia. unfold edge_in_total. f_equal. f_equal. lia. }
  assert (SO : sumZ (firstn (Z.to_nat (Z.of_nat p' + 1)) (e_out c)) + (Z.of_nat k' + 1 - 1) * edge_out_total c = sumf (cons_rate c) (S j)).
  { unfold cons_rate, j. rewrite N2, <- L2, rates_upto by lia. replace (Z.to_nat (Z.of_nat p' + 1)) with (S p') by lia. unfold edge_out_total. f_equal. f_equal. lia. }
  rewrite SI, SO.
  replace (Z.gcd (Z.of_nat Ki * edge_in_total c) (Z.of_nat Kj * edge_out_total c)) with (Z.gcd Wc Rc) by (unfold Wc, Rc; f_equal; ring).
  destruct (ceil_to_correct (Z.max 0 (prod_rate c i - cons_rate c j) + sumf (cons_rate c) (S j) - sumf (prod_rate c) (S i) - mop) _ HG) as (amin & -> & Hmin). cbn [bind].
  replace (sumf (cons_rate c) (S j) - (sumf (prod_rate c) (S i) - prod_rate c i) - mop - 1)
    with ((- mop - sumf (prod_rate c) i + sumf (cons_rate c) (S j)) - 1) by (cbn [sumf]; ring).
  destruct (floor_to_correct ((- mop - sumf (prod_rate c) i + sumf (cons_rate c) (S j)) - 1) _ HG) as (amax & -> & Hmax). cbn [bind].
  apply (same_floor g) in Hmax; [|assumption| |assumption].
  2:{ destruct Hmop as (Md & _). apply Z.divide_add_r; [|apply sumf_divide; assumption]. apply Z.divide_sub_r; [apply Z.divide_opp_r; assumption|apply sumf_divide; assumption]. }
  assert (EQ : amin <= amax <-> Z.max 0 (prod_rate c i - cons_rate c j) - mop - sumf (prod_rate c) (S i) + sumf (cons_rate c) (S j) <= amax).
  { destruct Hmin as (M1 & M2 & M3). destruct Hmax as (X1 & _). split; intros H; [lia|]. apply M3; [assumption|lia]. }
  destruct Hcyc as [q Hq]. assert (Hqp : 0 < q) by nia.
  assert (EN : Z.quot Ni (Z.of_nat (v_phases vs)) = q) by (rewrite Hq; apply Z.quot_mul; lia). rewrite EN.
  destruct (Z.leb_spec amin amax) as [Le|Lt].
  - rewrite qdiv_ok by (unfold edge_in_total; nia). cbn [bind]. eexists. split; [reflexivity|]. intros omega St.
    assert (CO : (inject_Z (amax * Z.of_nat (v_phases vs) * Z.of_nat Ki) / inject_Z (Wc * Ni) == inject_Z amax / inject_Z (q * edge_in_total c))%Q).
    { unfold Wc. rewrite Hq. rewrite !inject_Z_mult.
      assert (nz : forall z, z <> 0 -> ~ (inject_Z z == 0)%Q) by (intros z Hz H; apply Hz; apply (proj1 (inject_Z_injective z 0)); exact H).
      field. repeat split; apply nz; unfold edge_in_total; lia. }
    assert (B : row_holds omega St (mkRow false (exec_duration vs i) (- (inject_Z amax / inject_Z (q * edge_in_total c)))
                  (difference (mkEvent (v_id vd) (Z.of_nat p' + 1) (Z.of_nat k' + 1)) (mkEvent (v_id vs) (Z.of_nat p + 1) (Z.of_nat k + 1)))) <->
                satisfies omega St (mkConstraint (event_at vs i) (event_at vd j)
              (- (inject_Z (amax * Z.of_nat (v_phases vs) * Z.of_nat Ki) / inject_Z (Wc * Ni)))%Q (exec_duration vs i) (e_id c))).
    { unfold row_holds, satisfies. cbn [row_fixed row_bound row_omega row_starts c_source c_target c_w c_d].
      unfold i, j. rewrite !event_at_split by assumption. rewrite weighted_difference, CO.
      set (x := St _). set (y := St _). set (z := (inject_Z amax / _)%Q). set (d := exec_duration _ _). clearbody x y z d.
      split; intros H; lra. }
    split.
    + intros H a Ha _. rewrite (greatest_multiple_unique _ _ _ _ Ha Hmax). apply B, H. left. reflexivity.
    + intros H r [<-|[]]. apply B, H; [assumption|]. apply EQ. assumption.
  - eexists. split; [reflexivity|]. intros omega St. split; [|intros _ r []].
    intros _ a Ha La. rewrite (greatest_multiple_unique _ _ _ _ Ha Hmax) in La. apply EQ in La. lia.
Qed.

(** All the rows of a channel together say what its constraints say. *)
Lemma channel_rows var : exists rows cs, precedence_rows c vs vd Ni (Z.of_nat Ki) (Z.of_nat Kj) = Ok rows /\
  generate_channel var c vs vd Ni (Z.of_nat Ki) (Z.of_nat Kj) = Ok cs /\
  forall omega St, (forall r, In r rows -> row_holds omega St r) <-> (forall x, In x cs -> satisfies omega St x).
Proof.
  destruct (generate_channel_spec var c vs vd Ki Kj Ni Hvs Hvd Hc HKi HKj HNi) as (g & mop & cs & Hg & Hgp & Hgd & Hmop & Hgen & Hin).
  pose proof Hvs as (HPs & _). pose proof Hvd as (HPd & _).
  unfold precedence_rows. rewrite I1, I2. cbn [Nat.eqb cassert bind].
  set (l := flat_map _ _).
  assert (ML : forall o, In o l <-> exists k p k' p', (k < Ki)%nat /\ (p < v_phases vs)%nat /\ (k' < Kj)%nat /\ (p' < v_phases vd)%nat /\
     precedence_row c vs vd Ni (Z.of_nat Ki) (Z.of_nat Kj) (Z.of_nat p + 1) (Z.of_nat k + 1) (Z.of_nat p' + 1) (Z.of_nat k' + 1) = o).
  { intros o. unfold l. split.
    - intros H. apply in_flat_map in H as (pi & Hpi & H). apply in_flat_map in H as (ki & Hki & H).
      apply in_flat_map in H as (pj & Hpj & H). apply in_map_iff in H as (kj & E & Hkj).
      apply zrange_in in Hpi, Hki, Hpj, Hkj.
      exists (Z.to_nat (ki - 1)), (Z.to_nat (pi - 1)), (Z.to_nat (kj - 1)), (Z.to_nat (pj - 1)).
      rewrite !Z2Nat.id, !Z.sub_add by lia. repeat split; try lia. exact E.
    - intros (k & p & k' & p' & H1 & H2 & H3 & H4 & E).
      apply in_flat_map. exists (Z.of_nat p + 1). split; [apply zrange_in; lia|].
      apply in_flat_map. exists (Z.of_nat k + 1). split; [apply zrange_in; lia|].
      apply in_flat_map. exists (Z.of_nat p' + 1). split; [apply zrange_in; lia|].
      apply in_map_iff. exists (Z.of_nat k' + 1). split; [exact E|apply zrange_in; lia]. }
  destruct (collect_all l) as (rows & -> & Hrows).
  { intros x Hx. apply ML in Hx as (k & p & k' & p' & H1 & H2 & H3 & H4 & <-).
    destruct (row_spec g mop Hg Hgp Hgd Hmop k p k' p' H2 H4) as (r & E & _). eauto. }
  exists rows, cs. split; [reflexivity|]. split; [assumption|]. intros omega St. split.
  - intros H x Hx. apply Hin in Hx as (i & j & a & Hi & Hj & Ha & La & ->).
    rewrite I1 in Hi. rewrite I2 in Hj. cbn [Nat.add] in Hi, Hj.
    assert (Mi : (i mod v_phases vs < v_phases vs)%nat) by (apply Nat.mod_upper_bound; lia).
    assert (Mj : (j mod v_phases vd < v_phases vd)%nat) by (apply Nat.mod_upper_bound; lia).
    assert (Di : (i / v_phases vs < Ki)%nat) by (apply Nat.div_lt_upper_bound; lia).
    assert (Dj : (j / v_phases vd < Kj)%nat) by (apply Nat.div_lt_upper_bound; lia).
    destruct (row_spec g mop Hg Hgp Hgd Hmop (i / v_phases vs) (i mod v_phases vs) (j / v_phases vd) (j mod v_phases vd) Mi Mj) as (r & E & Q).
    assert (Ei : (i / v_phases vs * v_phases vs + i mod v_phases vs = i)%nat) by (rewrite (Nat.div_mod i (v_phases vs)) at 3; lia).
    assert (Ej : (j / v_phases vd * v_phases vd + j mod v_phases vd = j)%nat) by (rewrite (Nat.div_mod j (v_phases vd)) at 3; lia).
    cbv zeta in Q. rewrite Ei, Ej in Q. apply (proj1 (Q omega St)); [|exact Ha|exact La].
    intros y Hy. apply H, Hrows. exists r. split; [|assumption]. apply ML.
    exists (i / v_phases vs)%nat, (i mod v_phases vs)%nat, (j / v_phases vd)%nat, (j mod v_phases vd)%nat. auto.
  - intros H y Hy. apply Hrows in Hy as (r & Hr & Hy). apply ML in Hr as (k & p & k' & p' & H1 & H2 & H3 & H4 & E).
    destruct (row_spec g mop Hg Hgp Hgd Hmop k p k' p' H2 H4) as (r' & E' & Q). rewrite E in E'. injection E' as <-.
    cbv zeta in Q. revert y Hy. apply (proj2 (Q omega St)). intros a Ha La. apply H, Hin.
    exists (k * v_phases vs + p)%nat, (k' * v_phases vd + p')%nat, a. rewrite I1, I2. cbn [Nat.add].
    split; [nia|]. split; [nia|]. split; [exact Ha|]. split; [exact La|]. reflexivity.
Qed.
End Channel.

(** The rows of a task. *)
Section Task.
Variables (t : vertex) (N : Z) (K : nat).
Hypothesis Ht : vertex_wf t.
Hypothesis HK : (0 < K)%nat.
Hypothesis HN : 0 < N.
Hypothesis I0 : v_init_phases t = 0%nat.
Hypothesis HR : 0 < v_reentrancy t.

Lemma ordered_positions P : ordered_phases 0 (Z.of_nat P) (Z.of_nat K) = positions (Z.of_nat K) 0 (Z.of_nat P).
Proof.
  unfold ordered_phases, positions. cbn [zrange map]. change (zrange 1 0) with (@nil Z). cbn [map app].
  apply flat_map_ext. intros k. destruct (k =? 1); reflexivity.
Qed.

Lemma order_rows_spec l : forall e d0,
  (forall j k p, nth_error l j = Some (k, p) -> exists d, vertex_duration t p = Ok d) ->
  exists rows, order_rows t (Some (e, d0)) l = Ok rows /\
    forall omega St, (forall r, In r rows -> row_holds omega St r) <->
      (forall j a b, nth_error ((e, d0) :: map (fun kp => (mkEvent (v_id t) (snd kp) (fst kp), match vertex_duration t (snd kp) with Ok d => d | _ => 0%Q end)) l) j = Some a ->
         nth_error (map (fun kp => mkEvent (v_id t) (snd kp) (fst kp)) l) j = Some b -> (St (fst a) + snd a <= St b)%Q).
Proof.
  induction l as [|[k p] l IH]; intros e d0 H; cbn [order_rows].
  - exists []. split; [reflexivity|]. intros omega St. split; [|intros _ r []]. intros _ j a b _ E. destruct j; discriminate E.
  - destruct (H 0%nat k p eq_refl) as [d Hd]. rewrite Hd. cbn [bind].
    destruct (IH (mkEvent (v_id t) p k) d) as (rows & -> & Q); [intros j k' p' E; apply (H (S j) k' p' E)|]. cbn [bind].
    eexists. split; [reflexivity|]. intros omega St. cbn [map fst snd]. rewrite Hd. split.
    + intros A j a b Ea Eb. destruct j as [|j].
      * cbn in Ea, Eb. injection Ea as <-. injection Eb as <-. cbn [fst snd].
        pose proof (A _ (or_introl eq_refl)) as B. unfold row_holds in B. cbn [row_fixed row_bound row_omega row_starts weighted] in B. lra.
      * cbn [nth_error] in Ea, Eb. revert Ea Eb. apply (proj1 (Q omega St)). intros r Hr. apply A. right. exact Hr.
    + intros A r [<-|Hr].
      * pose proof (A 0%nat _ _ eq_refl eq_refl) as B. cbn [fst snd] in B.
        unfold row_holds. cbn [row_fixed row_bound row_omega row_starts weighted]. lra.
      * revert r Hr. apply (proj2 (Q omega St)). intros j a b Ea Eb. apply (A (S j) a b); cbn [nth_error]; assumption.
Qed.

Lemma task_rows : exists rows cs, reentrancy_rows t N (Z.of_nat K) = Ok rows /\ generate_selfloop t N (Z.of_nat K) = Ok cs /\
  forall omega St, (forall r, In r rows -> row_holds omega St r) <-> (forall x, In x cs -> satisfies omega St x).
Proof.
  destruct (generate_selfloop_spec t N K Ht HK HN) as (cs & Hgen & Hin). cbv zeta in Hin.
  destruct (Z.leb_spec (v_reentrancy t) 0); [lia|]. rewrite I0 in Hin. cbn [Nat.add] in Hin.
  pose proof Ht as (HP & _). set (L := (K * v_phases t)%nat) in *. assert (HL : (0 < L)%nat) by (unfold L; nia).
  unfold reentrancy_rows. rewrite I0, ordered_positions.
  set (pos := positions (Z.of_nat K) 0 (Z.of_nat (v_phases t))).
  assert (Hlen : length pos = L) by (apply (positions_length K 0 (v_phases t)); exact HK).
  assert (Hnth : forall j, (j < L)%nat -> nth_error pos j = Some (pos_at 0 (v_phases t) j)).
  { intros j Hj. apply (positions_nth K 0 (v_phases t)); assumption. }
  assert (Hdur : forall j k p, nth_error pos j = Some (k, p) -> vertex_duration t p = Ok (exec_duration t j)).
  { intros j k p E. assert (Hj : (j < L)%nat) by (rewrite <- Hlen; apply nth_error_Some; congruence).
    rewrite Hnth in E by exact Hj. assert (E2 : pos_at 0 (v_phases t) j = (k, p)) by congruence. apply (duration_access t j k p Ht). rewrite I0. symmetry. exact E2. }
  destruct pos as [|[k0 p0] rest] eqn:EP; [cbn in Hlen; lia|]. cbn [order_rows].
  rewrite (Hdur 0%nat k0 p0 eq_refl). cbn [bind].
  destruct (order_rows_spec rest (mkEvent (v_id t) p0 k0) (exec_duration t 0)) as (rows & -> & Q).
  { intros j k p E. exists (exec_duration t (S j)). apply (Hdur (S j) k p E). }
  cbn [bind app]. destruct (Z.eqb_spec (v_reentrancy t) 0); [lia|].
  rewrite qdiv_ok by lia. cbn [bind].
  assert (LP : pos_at 0 (v_phases t) (L - 1) = (Z.of_nat K, Z.of_nat (v_phases t))).
  { pose proof (last_pos t K Ht HK) as E. rewrite I0 in E. cbn [Nat.add] in E. exact E. }
  assert (DL : vertex_duration t (Z.of_nat (v_phases t)) = Ok (exec_duration t (L - 1))).
  { apply (duration_access t (L - 1) (Z.of_nat K) (Z.of_nat (v_phases t)) Ht). rewrite I0. symmetry. exact LP. }
  rewrite DL. cbn [bind]. eexists. exists cs. split; [reflexivity|]. split; [exact Hgen|]. intros omega St.
  assert (EL : event_at t (L - 1) = mkEvent (v_id t) (Z.of_nat (v_phases t)) (Z.of_nat K)) by (unfold event_at; rewrite I0, LP; reflexivity).
  assert (E0 : event_at t 0 = mkEvent (v_id t) 1 1) by (pose proof (event_at_split t 0 0 I0 HP) as E; cbn [Nat.mul Nat.add] in E; exact E).
  assert (CH : forall j, charged t j = exec_duration t j) by (intros [|j]; unfold charged; [rewrite I0|]; reflexivity).
  (* the events and durations along the chain *)
  assert (EV : forall j, (j < L)%nat -> nth_error (map (fun kp => mkEvent (v_id t) (snd kp) (fst kp)) ((k0, p0) :: rest)) j = Some (event_at t j)).
  { intros j Hj. rewrite (map_nth_error _ _ _ (Hnth j Hj)). unfold event_at. rewrite I0. reflexivity. }
  assert (ED : forall j, (j < L)%nat -> nth_error ((mkEvent (v_id t) p0 k0, exec_duration t 0) :: map (fun kp => (mkEvent (v_id t) (snd kp) (fst kp), match vertex_duration t (snd kp) with Ok d => d | _ => 0%Q end)) rest) j = Some (event_at t j, exec_duration t j)).
  { intros j Hj. pose proof (Hnth j Hj) as Hn. destruct (pos_at 0 (v_phases t) j) as [k p] eqn:EQ.
    assert (Ee : event_at t j = mkEvent (v_id t) p k) by (unfold event_at; rewrite I0, EQ; reflexivity). rewrite Ee.
    destruct j as [|j]; cbn [nth_error] in *.
    - injection Hn as -> ->. reflexivity.
    - rewrite (map_nth_error _ _ _ Hn). cbn [fst snd]. rewrite (Hdur (S j) k p Hn). reflexivity. }
  assert (LR : length rest = (L - 1)%nat) by (cbn [length] in Hlen; lia).
  split.
  - intros A x Hx. apply Hin in Hx. destruct Hx as [(j & Hj & ->)|(_ & ->)]; unfold satisfies; cbn [c_source c_target c_w c_d].
    + assert (B : (St (event_at t j) + exec_duration t j <= St (event_at t (S j)))%Q).
      { pose proof (proj1 (Q omega St)) as Q1. specialize (Q1 (fun r Hr => A r (in_or_app _ _ _ (or_introl Hr)))).
        pose proof (EV (S j) Hj) as E1. cbn [map nth_error] in E1. specialize (Q1 j _ _ (ED j ltac:(lia)) E1). exact Q1. }
      rewrite CH. lra.
    + match type of A with (forall r, In r (_ ++ [?q]) -> _) => assert (B : row_holds omega St q) by (apply A, in_or_app; right; left; reflexivity) end. unfold row_holds in B. cbn [row_fixed row_bound row_omega row_starts] in B.
      rewrite weighted_difference, <- EL, <- E0 in B. lra.
  - intros A r Hr. apply in_app_or in Hr. destruct Hr as [Hr|[<-|[]]].
    + revert r Hr. apply (proj2 (Q omega St)). intros j a b Ea Eb.
      assert (Hj : (S j < L)%nat) by (assert (J : (j < length (map (fun kp : Z * Z => mkEvent (v_id t) (snd kp) (fst kp)) rest))%nat) by (apply nth_error_Some; congruence); rewrite map_length in J; lia).
      rewrite ED in Ea by lia. injection Ea as <-. pose proof (EV (S j) Hj) as E1. cbn [map nth_error] in E1. rewrite E1 in Eb. injection Eb as <-. cbn [fst snd].
      pose proof (A _ (proj2 (Hin _) (or_introl (ex_intro _ j (conj Hj eq_refl))))) as B. unfold satisfies in B. cbn [c_source c_target c_w c_d] in B. rewrite CH in B. lra.
    + pose proof (A _ (proj2 (Hin _) (or_intror (conj HR eq_refl)))) as B. unfold satisfies in B. cbn [c_source c_target c_w c_d] in B.
      unfold row_holds. cbn [row_fixed row_bound row_omega row_starts]. rewrite weighted_difference, <- EL, <- E0. lra.
Qed.
End Task.
