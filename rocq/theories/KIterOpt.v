(** Circuits of the event graph bound every schedule, periodic or not, once the tasks
    they cross have reached their relative repetition count. *)
From Coq Require Import QArith Qround Qfield Znumtheory Lqa.
From Verif Require Import Base Graph Commons CommonsProofs FractionProofs KPeriodic ScheduleSpec ScheduleCore KPeriodicSpec
  KPeriodicProofs KPeriodicChannel KPeriodicSelfloop KPeriodicGraph EventGraph EventGraphSpec EventGraphProofs
  KPeriodicEnd KPeriodicProps KIterSpec.
Open Scope Z_scope.

(** * One channel: every pair of executions on the lattice of a constraint is useful *)
Lemma channel_pairs_useful var c vs vd Ki Kj Ni cs :
  vertex_wf vs -> vertex_wf vd -> chan_shape c vs vd -> (0 < Ki)%nat -> (0 < Kj)%nat -> 0 < Ni ->
  v_init_phases vs = 0%nat -> v_init_phases vd = 0%nat ->
  generate_channel var c vs vd Ni (Z.of_nat Ki) (Z.of_nat Kj) = Ok cs ->
  forall x, In x cs -> exists i j a, (i < Ki * v_phases vs)%nat /\ (j < Kj * v_phases vd)%nat /\
    (Z.gcd (sumZ (e_in c) * Z.of_nat Ki) (sumZ (e_out c) * Z.of_nat Kj) | a) /\
    x = mkConstraint (event_at vs i) (event_at vd j)
          (- (inject_Z (a * Z.of_nat (v_phases vs) * Z.of_nat Ki) / inject_Z (sumZ (e_in c) * Z.of_nat Ki * Ni)))%Q
          (exec_duration vs i) (e_id c) /\
    forall n n' : nat, Z.of_nat n * (sumZ (e_in c) * Z.of_nat Ki) - Z.of_nat n' * (sumZ (e_out c) * Z.of_nat Kj) = a ->
      useful (e_preload c) (prod_rate c) (cons_rate c) (i + n * (Ki * v_phases vs)) (j + n' * (Kj * v_phases vd)).
Proof.
  intros Hvs Hvd Hc HKi HKj HNi Hi0 Hj0 Hgen x Hx.
  pose proof Hvs as (HPs & _). pose proof Hvd as (HPd & _).
  pose proof Hc as (L1 & L2 & L3 & L4 & Hnn & HW & HR & HM).
  destruct (generate_channel_spec var c vs vd Ki Kj Ni Hvs Hvd Hc HKi HKj HNi) as (g & mop & cs' & Hg & Hgp & Hgd & Hmop & Hgen' & Hin).
  rewrite Hgen in Hgen'. injection Hgen' as <-.
  apply Hin in Hx. destruct Hx as (i & j & a & Hi & Hj & Ha & Hmin & ->).
  rewrite Hi0, Nat.add_0_l in Hi. rewrite Hj0, Nat.add_0_l in Hj.
  exists i, j, a. split; [exact Hi|]. split; [exact Hj|]. split; [exact (proj1 Ha)|]. split; [reflexivity|].
  intros n n' Hnn'.
  set (W := sumZ (e_in c)) in *. set (R := sumZ (e_out c)) in *.
  set (Wc := W * Z.of_nat Ki) in *. set (Rc := R * Z.of_nat Kj) in *.
  assert (Hio : forall y, In y (e_in_init c ++ e_out_init c) -> (g | y)).
  { destruct (e_in_init c) as [|z l]; [|cbn in L3; lia]. destruct (e_out_init c) as [|z l]; [|cbn in L4; lia].
    intros y []. }
  destruct (rates_divide c vs vd Ki Kj 1 1 Hvs Hvd Hc HKi HKj 0%Q (fun _ => 0%Q) g Hgd Hio) as [Hpd Hcd].
  set (e := (i + n * (Ki * v_phases vs))%nat). set (f := (j + n' * (Kj * v_phases vd))%nat).
  assert (Ie : idx (v_init_phases vs) (Ki * v_phases vs) e = i).
  { unfold idx. rewrite Hi0. cbn [Nat.ltb Nat.leb]. unfold e. rewrite Nat.sub_0_r, Nat.mod_add, Nat.mod_small by lia. reflexivity. }
  assert (If : idx (v_init_phases vd) (Kj * v_phases vd) f = j).
  { unfold idx. rewrite Hj0. cbn [Nat.ltb Nat.leb]. unfold f. rewrite Nat.sub_0_r, Nat.mod_add, Nat.mod_small by lia. reflexivity. }
  assert (Te : iter (v_init_phases vs) (Ki * v_phases vs) e = n).
  { unfold iter. rewrite Hi0. cbn [Nat.ltb Nat.leb]. unfold e. rewrite Nat.sub_0_r, Nat.div_add, Nat.div_small by lia. reflexivity. }
  assert (Tf : iter (v_init_phases vd) (Kj * v_phases vd) f = n').
  { unfold iter. rewrite Hj0. cbn [Nat.ltb Nat.leb]. unfold f. rewrite Nat.sub_0_r, Nat.div_add, Nat.div_small by lia. reflexivity. }
  pose proof (sum_idx (e_in_init c) (e_in c) Ki e ltac:(lia) HKi) as Se.
  pose proof (sum_idx (e_out_init c) (e_out c) Kj f ltac:(lia) HKj) as Sf.
  pose proof (cyclic_idx 0 (e_in_init c) (e_in c) Ki e ltac:(lia) HKi) as Ce.
  pose proof (cyclic_idx 0 (e_out_init c) (e_out c) Kj f ltac:(lia) HKj) as Cf.
  rewrite L1, L3 in Se, Ce. rewrite L2, L4 in Sf, Cf.
  fold (prod_rate c) in Se, Ce. fold (cons_rate c) in Sf, Cf. fold W in Se. fold R in Sf.
  cbv zeta in Se, Sf. fold Wc in Se. fold Rc in Sf.
  rewrite Ie, Te in Se. rewrite If, Tf in Sf. rewrite Ie in Ce. rewrite If in Cf.
  assert (Hga : (g | a)).
  { eapply Z.divide_trans; [|exact (proj1 Ha)].
    apply Z.gcd_greatest; [unfold Wc, W|unfold Rc, R]; apply Z.divide_mul_l; apply sumZ_divide; intros; apply Hgd, in_or_app; auto. }
  unfold useful. rewrite Se, Sf, Ce, Cf.
  pose proof (proj1 (lattice_max g mop (e_preload c) (sumf (cons_rate c) (S j) - sumf (prod_rate c) i) a Hgp Hmop
     ltac:(apply Z.divide_sub_r; apply sumf_divide; assumption) Hga)) as L.
  pose proof (proj1 (lattice_min g mop (e_preload c)
     (Z.max 0 (prod_rate c i - cons_rate c j) - sumf (prod_rate c) (S i) + sumf (cons_rate c) (S j)) a Hgp Hmop
     ltac:(apply Z.divide_add_r; [apply Z.divide_sub_r; [apply max_divide; [apply Z.divide_0_r|apply Z.divide_sub_r; auto]|]|]; apply sumf_divide; assumption) Hga)) as L'.
  assert (HIS : sumf (prod_rate c) (S i) = sumf (prod_rate c) i + prod_rate c i) by reflexivity.
  destruct Ha as (_ & Ha & _). lia.
Qed.

Lemma archimedes (a b : Q) : (forall r : nat, inject_Z (Z.of_nat r) * a <= b)%Q -> (a <= 0)%Q.
Proof.
  intros H. destruct (Qlt_le_dec 0 a) as [Ha|Ha]; [|exact Ha]. exfalso.
  pose proof (H (Z.to_nat (Qceiling (b / a) + 1))) as Hr.
  assert (Hc : (b / a <= inject_Z (Qceiling (b / a)))%Q) by apply Qle_ceiling.
  assert (Hb : (0 <= b)%Q). { specialize (H 0%nat). change (inject_Z (Z.of_nat 0)) with 0%Q in H. lra. }
  assert (Hba : (0 <= b / a)%Q). { apply Qle_shift_div_l; [exact Ha|]. lra. }
  assert (Hz : 0 <= Qceiling (b / a)).
  { rewrite Zle_Qle. change (inject_Z 0) with 0%Q. lra. }
  rewrite Z2Nat.id in Hr by lia. rewrite inject_Z_plus in Hr. change (inject_Z 1) with 1%Q in Hr.
  assert (Eb : (b == b / a * a)%Q) by (field; lra).
  set (q := (b / a)%Q) in *. set (z := inject_Z (Qceiling q)) in *. clearbody q z.
  assert (q * a <= z * a)%Q by (apply Qmult_le_compat_r; lra). nra.
Qed.

Section Bound.
Variables (var : variant) (g : graph) (N K : nat -> Z) (G : Z).
Hypothesis Hwf : graph_wf g.
Hypothesis Hbal : balanced g N.
Hypothesis Hni : no_init g.
Hypothesis Hno : no_overlap g.
Hypothesis HN : positive_on g N.
Hypothesis HK : positive_on g K.
Hypothesis HG : 0 < G.
Hypothesis HKG : forall i v, nth_error (vertices g) i = Some v -> K i * Z.of_nat (v_phases v) * G = N i.
Variable s : schedule.
Hypothesis Hval : schedule_valid g s.

(** Start of the [n]-th repetition of an event. *)
Definition tau (e : event) (n : Z) : Q :=
  let i := index_of (vertices g) (ev_task e) in
  match nth_error (vertices g) i with
  | Some v => s i (Z.to_nat ((ev_occ e - 1) * Z.of_nat (v_phases v) + ev_phase e - 1)
                   + Z.to_nat n * (Z.to_nat (K i) * v_phases v))%nat
  | None => 0%Q
  end.

Lemma tau_event_at i v j n : nth_error (vertices g) i = Some v ->
  tau (event_at v j) n = s i (j + Z.to_nat n * (Z.to_nat (K i) * v_phases v))%nat.
Proof.
  intros E. unfold tau. pose proof (vertex_ok g Hwf i v E) as (HP & _).
  assert (Hi0 : v_init_phases v = 0%nat) by (apply Hni; eapply nth_error_In; exact E).
  unfold event_at, pos_at. rewrite Hi0. cbn [Nat.ltb Nat.leb ev_task ev_occ ev_phase fst snd]. rewrite Nat.sub_0_r.
  destruct Hwf as (_ & _ & Hnd). rewrite (index_of_nth _ Hnd i v E), E.
  replace (Z.to_nat ((Z.of_nat (j / v_phases v) + 1 - 1) * Z.of_nat (v_phases v) + (Z.of_nat (j mod v_phases v) + 1) - 1))
    with j; [reflexivity|].
  pose proof (Nat.div_mod j (v_phases v) ltac:(lia)) as D.
  set (q := (j / v_phases v)%nat) in *. set (r := (j mod v_phases v)%nat) in *. clearbody q r. subst j. nia.
Qed.

Lemma s_serialised i v : nth_error (vertices g) i = Some v -> serialised (s i) (exec_duration v).
Proof. intros E. apply (proj2 Hval i v E). Qed.
Lemma s_mono i v : nth_error (vertices g) i = Some v -> mono (s i).
Proof. intros E. eapply serialised_mono_start; [eapply vertex_ok; eauto|apply (s_serialised i v E)]. Qed.

Lemma constraint_shift cs x : generate_event_graph var g N K = Ok cs -> In x cs ->
  (0 <= c_d x)%Q /\ exists dl : Z, (c_w x == inject_Z dl / inject_Z G)%Q /\
    forall n, 0 <= n -> 0 <= n + dl -> (tau (c_source x) n + c_d x <= tau (c_target x) (n + dl))%Q.
Proof.
  intros Hg Hx. apply (generate_event_graph_in var g N K Hwf cs Hg) in Hx.
  assert (Gq : ~ (inject_Z G == 0)%Q) by (intros C; unfold Qeq in C; cbn in C; lia).
  destruct Hx as [(i & v & r & E & Hr & Hx)|(c & vs & vd & r & Hc & E1 & E2 & Hr & Hx)].
  - pose proof (vertex_ok g Hwf i v E) as Hv. pose proof (vertex_lt g i v E) as Hlt.
    destruct (K_nat g K HK i v E) as [Hk Hkp]. rewrite Hk in Hr.
    destruct (generate_selfloop_spec v (N i) (Z.to_nat (K i)) Hv Hkp (HN i Hlt)) as (r' & Hr' & Hin).
    rewrite Hr in Hr'. injection Hr' as <-. cbv zeta in Hin.
    pose proof (Hno v (nth_error_In _ _ E)) as Hre. destruct (Z.leb_spec (v_reentrancy v) 0); [lia|].
    assert (Hi0 : v_init_phases v = 0%nat) by (apply Hni; eapply nth_error_In; exact E).
    rewrite Hi0 in Hin. cbn [Nat.add] in Hin. pose proof (s_serialised i v E) as Hser.
    set (L := (Z.to_nat (K i) * v_phases v)%nat) in *.
    assert (HL : (0 < L)%nat) by (destruct Hv as (HP & _); unfold L; nia).
    assert (Hper : forall j n, exec_duration v (j + n * L)%nat = exec_duration v j).
    { intros j n. unfold exec_duration, cyclic. destruct Hv as (HP & Hd & Hdi & _).
      rewrite Hdi, Hi0. cbn [Nat.ltb Nat.leb]. rewrite !Nat.sub_0_r, Hd. unfold L.
      replace (j + n * (Z.to_nat (K i) * v_phases v))%nat with (j + (n * Z.to_nat (K i)) * v_phases v)%nat by ring.
      rewrite Nat.mod_add by lia. reflexivity. }
    apply Hin in Hx. destruct Hx as [(j & Hj & ->)|(_ & ->)]; cbn [c_source c_target c_w c_d].
    + assert (Hch : charged v j = exec_duration v j) by (unfold charged; destruct j; [rewrite Hi0|]; reflexivity).
      rewrite Hch. split; [rewrite Qmult_1_l; apply exec_duration_nn; exact Hv|].
      exists 0. split; [field; exact Gq|]. intros n Hn _. rewrite Z.add_0_r, !(tau_event_at i v _ _ E). fold L.
      rewrite Qmult_1_l. pose proof (Hser (j + Z.to_nat n * L)%nat) as Hs. rewrite Hper in Hs. exact Hs.
    + split; [rewrite Qmult_1_l; apply exec_duration_nn; exact Hv|].
      exists 1. split.
      { rewrite <- (HKG i v E). rewrite !inject_Z_mult.
        assert (P1 : ~ (inject_Z (K i) == 0)%Q) by (intros C; unfold Qeq in C; cbn in C; lia).
        assert (P2 : ~ (inject_Z (Z.of_nat (v_phases v)) == 0)%Q).
        { destruct Hv as (HP & _). intros C; unfold Qeq in C; cbn in C; lia. }
        rewrite <- Hk. change (inject_Z 1) with 1%Q. field. auto. }
      intros n Hn _. rewrite !(tau_event_at i v _ _ E). fold L. rewrite Qmult_1_l, Nat.add_0_l.
      pose proof (Hser (L - 1 + Z.to_nat n * L)%nat) as Hs. rewrite Hper in Hs.
      replace (S (L - 1 + Z.to_nat n * L)) with (Z.to_nat (n + 1) * L)%nat in Hs; [exact Hs|].
      rewrite Z2Nat.inj_add by lia. change (Z.to_nat 1) with 1%nat. lia.
  - destruct (edge_shape g Hwf c Hc) as (vs' & vd' & E1' & E2' & Hs & Hd & Hsh).
    rewrite E1 in E1'. rewrite E2 in E2'. injection E1' as <-. injection E2' as <-.
    destruct (K_nat g K HK _ _ E1) as [Hk1 Hkp1]. destruct (K_nat g K HK _ _ E2) as [Hk2 Hkp2].
    rewrite Hk1, Hk2 in Hr.
    destruct (channel_pairs_useful var c vs vd _ _ (N (e_src c)) r Hs Hd Hsh Hkp1 Hkp2 (HN _ (vertex_lt g _ _ E1))
       (Hni _ (nth_error_In _ _ E1)) (Hni _ (nth_error_In _ _ E2)) Hr x Hx) as (i & j & a & Hi & Hj & Hda & -> & Huse).
    cbn [c_source c_target c_w c_d]. split; [apply exec_duration_nn; exact Hs|].
    pose proof Hsh as (L1 & L2 & _ & _ & _ & HW & HR & _).
    rewrite <- Hk1, <- Hk2 in *.
    pose proof (HKG _ _ E1) as G1. pose proof (HKG _ _ E2) as G2. pose proof (Hbal c Hc) as Hb. rewrite L1, L2 in Hb.
    destruct Hs as (HPs & Hs'). destruct Hd as (HPd & Hd').
    assert (HWR : sumZ (e_in c) * K (e_src c) = sumZ (e_out c) * K (e_dst c)).
    { rewrite <- G1, <- G2 in Hb.
      apply (Z.mul_reg_r _ _ (Z.of_nat (v_phases vs) * Z.of_nat (v_phases vd) * G)); [nia|]. nia. }
    rewrite <- HWR in *. rewrite Z.gcd_diag in Hda.
    set (Wc := sumZ (e_in c) * K (e_src c)) in *. assert (HWc : 0 < Wc) by (unfold Wc; nia).
    rewrite Z.abs_eq in Hda by lia. destruct Hda as [t Ht]. exists (- t). split.
    { subst a. rewrite <- G1. rewrite !inject_Z_mult, inject_Z_opp.
      assert (P1 : ~ (inject_Z (K (e_src c)) == 0)%Q) by (intros C; unfold Qeq in C; cbn in C; lia).
      assert (P2 : ~ (inject_Z (Z.of_nat (v_phases vs)) == 0)%Q) by (intros C; unfold Qeq in C; cbn in C; lia).
      assert (P3 : ~ (inject_Z Wc == 0)%Q) by (intros C; unfold Qeq in C; cbn in C; lia).
      field. auto. }
    intros n Hn Hn'. rewrite (tau_event_at _ _ _ _ E1), (tau_event_at _ _ _ _ E2).
    assert (Hu : useful (e_preload c) (prod_rate c) (cons_rate c)
       (i + Z.to_nat n * (Z.to_nat (K (e_src c)) * v_phases vs)) (j + Z.to_nat (n + - t) * (Z.to_nat (K (e_dst c)) * v_phases vd))).
    { apply Huse. rewrite !Z2Nat.id by lia. subst a. ring. }
    assert (Hord := useful_ordered_necessary (e_preload c) (end_of s g (e_src c)) (prod_rate c) (start_of s (e_dst c)) (cons_rate c)
       (prod_rate_nn c vs vd (conj HPs Hs') Hsh)).
    assert (Hle := Hord ltac:(intros m; unfold end_of; rewrite E1; apply (serialised_mono_end (s (e_src c)) vs (conj HPs Hs') (s_serialised _ _ E1)))
       (s_mono _ _ E2) (proj1 Hval c Hc) _ _ Hu).
    unfold end_of, start_of in Hle. rewrite E1 in Hle.
    assert (Hper : exec_duration vs (i + Z.to_nat n * (Z.to_nat (K (e_src c)) * v_phases vs)) = exec_duration vs i).
    { unfold exec_duration, cyclic. destruct Hs' as (Hd1 & Hd2 & _).
      rewrite Hd2, (Hni _ (nth_error_In _ _ E1)). cbn [Nat.ltb Nat.leb]. rewrite !Nat.sub_0_r, Hd1.
      replace (i + Z.to_nat n * (Z.to_nat (K (e_src c)) * v_phases vs))%nat
        with (i + (Z.to_nat n * Z.to_nat (K (e_src c))) * v_phases vs)%nat by ring.
      rewrite Nat.mod_add by lia. reflexivity. }
    rewrite Hper in Hle. exact Hle.
Qed.

Variable cs : list constraint.
Hypothesis Hgen : generate_event_graph var g N K = Ok cs.

Lemma path_shift : forall l u v, incl l cs -> path u l v ->
  (0 <= sumQ c_d l)%Q /\
  exists (dl n0 : Z), 0 <= n0 /\ (sumQ c_w l == inject_Z dl / inject_Z G)%Q /\
    forall n, n0 <= n -> 0 <= n + dl /\ (tau u n + sumQ c_d l <= tau v (n + dl))%Q.
Proof.
  assert (Gq : ~ (inject_Z G == 0)%Q) by (intros C; unfold Qeq in C; cbn in C; lia).
  induction l as [|x l IH]; intros u v Hi Hp.
  - cbn [path] in Hp. subst v. rewrite !sumQ_nil. split; [lra|]. exists 0, 0. split; [lia|]. split; [field; exact Gq|].
    intros n Hn. rewrite Z.add_0_r. split; [lia|]. lra.
  - cbn [path] in Hp. destruct Hp as [<- Hp].
    destruct (IH _ _ (fun y Hy => Hi y (or_intror Hy)) Hp) as (D & dl & n0 & H0 & Hw & Hall).
    destruct (constraint_shift cs x Hgen (Hi x (or_introl eq_refl))) as (Dx & dx & Hwx & Hx).
    rewrite !sumQ_cons. split; [lra|].
    exists (dx + dl), (Z.max (Z.max 0 (- dx)) (n0 - dx)). split; [lia|]. split.
    { rewrite Hw, Hwx, inject_Z_plus. field. exact Gq. }
    intros n Hn. destruct (Hall (n + dx) ltac:(lia)) as [A B]. rewrite Z.add_assoc. split; [exact A|].
    specialize (Hx n ltac:(lia) ltac:(lia)). lra.
Qed.

Lemma tau_shape u l v : incl l cs -> path u l v -> l <> [] ->
  exists i w j, nth_error (vertices g) i = Some w /\ forall n, tau u n = s i (j + Z.to_nat n * (Z.to_nat (K i) * v_phases w))%nat.
Proof.
  intros Hi Hp Hne. destruct l as [|x l]; [congruence|]. cbn [path] in Hp. destruct Hp as [<- _].
  pose proof (generated_closed var g N K Hwf HN HK cs Hgen x (Hi x (or_introl eq_refl))) as [Hs _].
  apply event_list_in in Hs as (i & w & E & He). apply vertex_events_in in He.
  rewrite (Hni w) in He by (eapply nth_error_In; exact E).
  exists i, w, (Z.to_nat ((ev_occ (c_source x) - 1) * Z.of_nat (v_phases w) + ev_phase (c_source x) - 1)).
  split; [exact E|]. intros n. unfold tau.
  assert (Ht : ev_task (c_source x) = v_id w) by lia. rewrite Ht.
  destruct Hwf as (_ & _ & Hnd). rewrite (index_of_nth _ Hnd i w E), E. reflexivity.
Qed.

Variable omega : Q.
Hypothesis Hpace : keeps_pace g N s omega.
Hypothesis Hnz : non_zeno g s.

Lemma circuit_bound : circuits_fit cs omega.
Proof.
  intros l (Hne & Hi & u & Hp). destruct (path_shift l u u Hi Hp) as (D & dl & n0 & H0 & Hw & Hall).
  destruct (tau_shape u l u Hi Hp Hne) as (i & w & j & E & Htau).
  pose proof (vertex_lt g i w E) as Hlt. pose proof (s_mono i w E) as Hm.
  assert (HGp : (0 < inject_Z G)%Q) by (change 0%Q with (inject_Z 0); rewrite <- Zlt_Qlt; exact HG).
  set (L := (Z.to_nat (K i) * v_phases w)%nat) in *.
  assert (HL : (0 < L)%nat). { destruct (K_nat g K HK i w E). destruct (vertex_ok g Hwf i w E) as (HP & _). unfold L. nia. }
  assert (Hmono : forall a b, 0 <= a <= b -> (tau u a <= tau u b)%Q).
  { intros a b Hab. rewrite !Htau. apply (mono_le _ Hm). nia. }
  (* laps *)
  assert (Hlaps : 0 <= dl -> forall r : nat, (tau u n0 + inject_Z (Z.of_nat r) * sumQ c_d l <= tau u (n0 + Z.of_nat r * dl))%Q).
  { intros Hd. induction r as [|r IHr].
    - change (inject_Z (Z.of_nat 0)) with 0%Q. replace (n0 + Z.of_nat 0 * dl) with n0 by lia. lra.
    - destruct (Hall (n0 + Z.of_nat r * dl) ltac:(nia)) as [_ Hs].
      rewrite Nat2Z.inj_succ. unfold Z.succ. rewrite inject_Z_plus. change (inject_Z 1) with 1%Q.
      replace (n0 + (Z.of_nat r + 1) * dl) with (n0 + Z.of_nat r * dl + dl) by ring. lra. }
  rewrite Hw. destruct (Z.lt_trichotomy dl 0) as [Hd|[Hd|Hd]].
  - (* negative total shift: contradiction with the absence of Zeno behaviour *)
    exfalso.
    assert (Hback : forall r : nat, (tau u (n0 - Z.of_nat r * dl) <= tau u n0)%Q).
    { induction r as [|r IHr].
      - replace (n0 - Z.of_nat 0 * dl) with n0 by lia. lra.
      - destruct (Hall (n0 - Z.of_nat (S r) * dl) ltac:(nia)) as [_ Hs].
        replace (n0 - Z.of_nat (S r) * dl + dl) with (n0 - Z.of_nat r * dl) in Hs by lia. lra. }
    destruct (Hnz i (tau u n0) Hlt) as (m & Hm').
    specialize (Hback m). rewrite (Htau (n0 - Z.of_nat m * dl)) in Hback.
    assert ((s i m <= s i (j + Z.to_nat (n0 - Z.of_nat m * dl) * L)%nat)%Q).
    { apply (mono_le _ Hm). assert (Z.of_nat m <= n0 - Z.of_nat m * dl) by nia. nia. }
    lra.
  - subst dl. destruct (Hall n0 ltac:(lia)) as [_ Hs]. rewrite Z.add_0_r in Hs.
    setoid_replace (inject_Z 0 / inject_Z G)%Q with 0%Q by (field; lra). lra.
  - destruct Hpace as (B & HB).
    assert (HNp : (0 < inject_Z (N i))%Q) by (change 0%Q with (inject_Z 0); rewrite <- Zlt_Qlt; apply HN; exact Hlt).
    assert (HA : (sumQ c_d l - omega * (inject_Z dl / inject_Z G) <= 0)%Q); [|lra].
    apply (archimedes _ (B + omega * ((inject_Z (Z.of_nat j) / inject_Z (N i)) + inject_Z n0 / inject_Z G) - tau u n0)%Q).
    intros r. specialize (Hlaps ltac:(lia) r). rewrite (Htau (n0 + Z.of_nat r * dl)) in Hlaps.
    specialize (HB i (j + Z.to_nat (n0 + Z.of_nat r * dl) * L)%nat Hlt).
    assert (EN : (inject_Z (Z.of_nat (j + Z.to_nat (n0 + Z.of_nat r * dl) * L)) / inject_Z (N i) ==
        inject_Z (Z.of_nat j) / inject_Z (N i) + (inject_Z n0 + inject_Z (Z.of_nat r) * inject_Z dl) / inject_Z G)%Q).
    { rewrite Nat2Z.inj_add, Nat2Z.inj_mul, Z2Nat.id by nia.
      rewrite <- (HKG i w E). unfold L. rewrite Nat2Z.inj_mul. destruct (K_nat g K HK i w E) as [<- Hkp].
      rewrite !inject_Z_plus, !inject_Z_mult, inject_Z_plus, inject_Z_mult.
      assert (P1 : ~ (inject_Z (K i) == 0)%Q).
      { pose proof (HK i Hlt). intros C; unfold Qeq in C; cbn in C; lia. }
      assert (P2 : ~ (inject_Z (Z.of_nat (v_phases w)) == 0)%Q).
      { destruct (vertex_ok g Hwf i w E) as (HP & _). intros C; unfold Qeq in C; cbn in C; lia. }
      field. repeat split; auto; lra. }
    rewrite EN in HB.
    assert (EG : ((inject_Z n0 + inject_Z (Z.of_nat r) * inject_Z dl) / inject_Z G ==
                  inject_Z n0 / inject_Z G + inject_Z (Z.of_nat r) * (inject_Z dl / inject_Z G))%Q) by (field; lra).
    rewrite EG in HB. clear EN EG.
    set (a := (inject_Z n0 / inject_Z G)%Q) in *. set (b := (inject_Z dl / inject_Z G)%Q) in *.
    set (c := (inject_Z (Z.of_nat j) / inject_Z (N i))%Q) in *. set (q := inject_Z (Z.of_nat r)) in *.
    set (sd := sumQ c_d l) in *. set (t0 := tau u n0) in *. set (t1 := s i _) in *. clearbody a b c q sd t0 t1.
    nra.
Qed.
End Bound.
