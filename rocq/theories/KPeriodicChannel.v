(** The constraints generated for one channel: which pairs of events, which lattice
    point alpha; and their meaning for the K-periodic schedule. *)
From Coq Require Import QArith Qfield Znumtheory.
From Verif Require Import Base Graph Commons CommonsProofs FractionProofs KPeriodic ScheduleSpec ScheduleCore KPeriodicSpec KPeriodicProofs.
Open Scope Z_scope.

Lemma mul_lt_le g k q : 0 < g -> g * k < g * (q + 1) -> g * k <= g * q.
Proof. intros Hg H. apply Z.mul_lt_mono_pos_l in H; [|exact Hg]. apply Z.mul_le_mono_nonneg_l; lia. Qed.

Lemma alpha_max_opt_correct l g : 0 < g ->
  exists m, alpha_max_opt l g = Ok m /\ greatest_multiple_le g l m.
Proof.
  intros Hg. unfold alpha_max_opt. rewrite cmod_ok by lia. cbn [bind].
  pose proof (Z.quot_rem' l g) as Hqr.
  pose proof (Z.rem_bound_abs l g ltac:(lia)) as Hb.
  eexists; split; [reflexivity|].
  assert (Hd : forall m', (g | m') -> exists k, m' = g * k) by (intros m' [k ->]; exists k; ring).
  destruct (Z.leb_spec 0 (Z.rem l g)); (split; [|split]).
  - exists (Z.quot l g). lia.
  - lia.
  - intros m' Hm' Hle. destruct (Hd m' Hm') as [k ->]. pose proof (mul_lt_le g k (Z.quot l g) Hg). lia.
  - exists (Z.quot l g - 1). lia.
  - lia.
  - intros m' Hm' Hle. destruct (Hd m' Hm') as [k ->]. pose proof (mul_lt_le g k (Z.quot l g - 1) Hg). lia.
Qed.

Lemma alpha_min_opt_correct l g : 0 < g ->
  exists m, alpha_min_opt l g = Ok m /\ least_multiple_ge g l m.
Proof.
  intros Hg. unfold alpha_min_opt. rewrite cmod_ok by lia. cbn [bind].
  pose proof (Z.quot_rem' l g) as Hqr.
  pose proof (Z.rem_bound_abs l g ltac:(lia)) as Hb.
  eexists; split; [reflexivity|].
  assert (Hd : forall m', (g | m') -> exists k, m' = g * k) by (intros m' [k ->]; exists k; ring).
  destruct (Z.leb_spec (Z.rem l g) 0); (split; [|split]).
  - exists (Z.quot l g). lia.
  - lia.
  - intros m' Hm' Hle. destruct (Hd m' Hm') as [k ->]. pose proof (mul_lt_le g (Z.quot l g) k Hg). lia.
  - exists (Z.quot l g + 1). lia.
  - lia.
  - intros m' Hm' Hle. destruct (Hd m' Hm') as [k ->]. pose proof (mul_lt_le g (Z.quot l g + 1) k Hg). lia.
Qed.

Lemma greatest_multiple_unique g l m m' :
  greatest_multiple_le g l m -> greatest_multiple_le g l m' -> m = m'.
Proof. intros [H1 [H2 H3]] [H1' [H2' H3']]. apply Z.le_antisymm; auto. Qed.

Lemma least_multiple_unique g l m m' :
  least_multiple_ge g l m -> least_multiple_ge g l m' -> m = m'.
Proof. intros [H1 [H2 H3]] [H1' [H2' H3']]. apply Z.le_antisymm; auto. Qed.

Lemma qdiv_ok a b : b <> 0 -> qdiv a b = Ok (inject_Z a / inject_Z b)%Q.
Proof. intros H. unfold qdiv. destruct (Z.eqb_spec b 0); [contradiction|reflexivity]. Qed.

Lemma alpha_max_correct var l g : 0 < g ->
  exists m, alpha_max var l g = Ok m /\ greatest_multiple_le g l m.
Proof. intros Hg. destruct var; [apply floor_to_correct|apply alpha_max_opt_correct|apply alpha_max_opt_correct]; exact Hg. Qed.
Lemma alpha_min_correct var l g : 0 < g ->
  exists m, alpha_min var l g = Ok m /\ least_multiple_ge g l m.
Proof. intros Hg. destruct var; [apply ceil_to_correct|apply alpha_min_opt_correct|apply alpha_min_opt_correct]; exact Hg. Qed.

(** The constraint recorded for a pair of events and a lattice point. *)
Definition mk_chan (e : chan_env) (ki pi kj pj a : Z) (d : Q) : constraint :=
  mkConstraint (mkEvent (ce_source_id e) pi ki) (mkEvent (ce_target_id e) pj kj)
    (- (inject_Z (a * ce_source_phases e * ce_maxki e) / inject_Z (ce_Wc e * ce_Ni e)))%Q d (ce_id e).

Lemma inner_body_spec var e ki pi kj pj wak vakp nm1 n nd d :
  0 < ce_gcdz e -> ce_Wc e * ce_Ni e <> 0 ->
  exists l, inner_body var e ki pi kj pj wak vakp nm1 n nd d = Ok l /\
    forall x, In x l <->
      exists a, greatest_multiple_le (ce_gcdz e) (- ce_mop e - nm1 + nd - ce_stepa e) a /\
                Z.max 0 (wak - vakp) - ce_mop e - n + nd <= a /\
                x = mk_chan e ki pi kj pj a d.
Proof.
  intros Hg Hw. unfold inner_body.
  destruct (alpha_max_correct var (- ce_mop e - nm1 + nd - ce_stepa e) _ Hg) as [amax [-> Hmax]].
  cbn [bind].
  destruct (alpha_min_correct var (Z.max 0 (wak - vakp) - ce_mop e - n + nd) _ Hg) as [amin [-> Hmin]].
  cbn [bind]. rewrite qdiv_ok by exact Hw. cbn [bind].
  assert (Hiff : amin <= amax <-> Z.max 0 (wak - vakp) - ce_mop e - n + nd <= amax).
  { destruct Hmin as [Ha [Hb Hc]], Hmax as [Ha' [Hb' Hc']]. split; intros; [lia|]. apply Hc; assumption. }
  destruct (early_exit var && (amax <? Z.max 0 (wak - vakp) - ce_mop e - n + nd)) eqn:E.
  - eexists; split; [reflexivity|]. apply andb_true_iff in E. destruct E as [_ E]. apply Z.ltb_lt in E.
    intros x. split; [intros []|]. intros [a [Ha [Hl _]]].
    rewrite (greatest_multiple_unique _ _ _ _ Ha Hmax) in Hl. lia.
  - destruct (Z.leb_spec amin amax) as [Hle|Hgt].
    + eexists; split; [reflexivity|]. intros x. split.
      * intros [<-|[]]. exists amax. split; [exact Hmax|]. split; [apply Hiff; exact Hle | reflexivity].
      * intros [a [Ha [Hl ->]]]. rewrite (greatest_multiple_unique _ _ _ _ Ha Hmax). left. reflexivity.
    + eexists; split; [reflexivity|]. intros x. split; [intros []|]. intros [a [Ha [Hl ->]]].
      rewrite (greatest_multiple_unique _ _ _ _ Ha Hmax) in Hl. apply Hiff in Hl. lia.
Qed.

(** The compile-time variants agree. *)
Lemma inner_body_variant var e ki pi kj pj wak vakp nm1 n nd d : 0 < ce_gcdz e ->
  inner_body var e ki pi kj pj wak vakp nm1 n nd d = inner_body NotOptimized e ki pi kj pj wak vakp nm1 n nd d.
Proof.
  intros Hg. unfold inner_body.
  destruct (alpha_max_correct var (- ce_mop e - nm1 + nd - ce_stepa e) _ Hg) as [amax [-> Hmax]].
  destruct (alpha_max_correct NotOptimized (- ce_mop e - nm1 + nd - ce_stepa e) _ Hg) as [amax' [-> Hmax']].
  rewrite (greatest_multiple_unique _ _ _ _ Hmax' Hmax). cbn [bind early_exit andb].
  destruct (alpha_min_correct var (Z.max 0 (wak - vakp) - ce_mop e - n + nd) _ Hg) as [amin [-> Hmin]].
  destruct (alpha_min_correct NotOptimized (Z.max 0 (wak - vakp) - ce_mop e - n + nd) _ Hg) as [amin' [-> Hmin']].
  rewrite (least_multiple_unique _ _ _ _ Hmin' Hmin). cbn [bind].
  destruct (early_exit var); cbn [andb]; [|reflexivity].
  destruct (Z.ltb_spec amax (Z.max 0 (wak - vakp) - ce_mop e - n + nd)) as [Hlt|Hge]; [|reflexivity].
  destruct (Z.leb_spec amin amax); [|reflexivity].
  destruct Hmin as [_ [Hb _]]. lia.
Qed.

Lemma inner_loop_variant var e c ki pi wak nm1 n d : 0 < ce_gcdz e -> forall targets acc,
  inner_loop var e c ki pi wak nm1 n d targets acc = inner_loop NotOptimized e c ki pi wak nm1 n d targets acc.
Proof.
  intros Hg. induction targets as [|[kj pj] rest IH]; intros acc; cbn [inner_loop]; [reflexivity|].
  destruct (edge_out_phase c pj); cbn [bind]; try reflexivity.
  rewrite (inner_body_variant var) by exact Hg. rewrite IH. reflexivity.
Qed.

Lemma outer_loop_variant var e c src targets : 0 < ce_gcdz e -> forall sources acc,
  outer_loop var e c src sources targets acc = outer_loop NotOptimized e c src sources targets acc.
Proof.
  intros Hg. induction sources as [|[ki pi] rest IH]; intros acc; cbn [outer_loop]; [reflexivity|].
  destruct (vertex_duration src pi); cbn [bind]; try reflexivity.
  destruct (edge_in_phase c pi); cbn [bind]; try reflexivity.
  rewrite (inner_loop_variant var) by exact Hg. rewrite IH. reflexivity.
Qed.

Section Loops.
Variables (var : variant) (e : chan_env) (c : edge) (src : vertex).
Hypothesis Hg : 0 < ce_gcdz e.
Hypothesis Hw : ce_Wc e * ce_Ni e <> 0.

Lemma inner_loop_spec ki pi wak nm1 n d : forall targets ro acc,
  (forall j k p, nth_error targets j = Some (k, p) -> edge_out_phase c p = Ok (ro j)) ->
  exists cs, inner_loop var e c ki pi wak nm1 n d targets acc = Ok cs /\
    forall x, In x cs <->
      exists j kj pj a, nth_error targets j = Some (kj, pj) /\
        greatest_multiple_le (ce_gcdz e) (- ce_mop e - nm1 + (acc + sumf ro (S j)) - ce_stepa e) a /\
        Z.max 0 (wak - ro j) - ce_mop e - n + (acc + sumf ro (S j)) <= a /\
        x = mk_chan e ki pi kj pj a d.
Proof.
  induction targets as [|[kj pj] rest IH]; intros ro acc Hro.
  - exists []. split; [reflexivity|]. intros x; split; [intros []|].
    intros (j & ? & ? & ? & H & _). destruct j; discriminate H.
  - cbn [inner_loop]. rewrite (Hro 0%nat kj pj eq_refl). cbn [bind].
    destruct (inner_body_spec var e ki pi kj pj wak (ro 0%nat) nm1 n (acc + ro 0%nat) d Hg Hw)
      as [l [-> Hl]]. cbn [bind].
    destruct (IH (fun j => ro (S j)) (acc + ro 0%nat)) as [cs [-> Hcs]].
    { intros j k p H. apply (Hro (S j) k p H). }
    cbn [bind]. eexists; split; [reflexivity|]. intros x. rewrite in_app_iff, Hl, Hcs.
    assert (Hsum : forall j, acc + ro 0%nat + sumf (fun j0 => ro (S j0)) (S j) = acc + sumf ro (S (S j))).
    { intros j. pose proof (sumf_app ro 1 (S j)) as A. cbn [Nat.add] in A. rewrite A. cbn [sumf]. lia. }
    split.
    + intros [(a & H1 & H2 & H3) | (j & kj' & pj' & a & H0 & H1 & H2 & H3)].
      * exists 0%nat, kj, pj, a. cbn [sumf nth_error]. rewrite Z.add_0_l. auto.
      * exists (S j), kj', pj', a. cbn [nth_error]. rewrite Hsum in H1, H2. auto.
    + intros (j & kj' & pj' & a & H0 & H1 & H2 & H3). destruct j as [|j].
      * left. cbn [nth_error] in H0. injection H0 as <- <-. cbn [sumf] in H1, H2.
        rewrite Z.add_0_l in H1, H2. exists a. auto.
      * right. cbn [nth_error] in H0. exists j, kj', pj', a. rewrite Hsum. auto.
Qed.

Lemma outer_loop_spec targets ro :
  (forall j k p, nth_error targets j = Some (k, p) -> edge_out_phase c p = Ok (ro j)) ->
  forall sources ri dd acc,
  (forall j k p, nth_error sources j = Some (k, p) ->
     edge_in_phase c p = Ok (ri j) /\ vertex_duration src p = Ok (dd j)) ->
  exists cs, outer_loop var e c src sources targets acc = Ok cs /\
    forall x, In x cs <->
      exists i ki pi j kj pj a, nth_error sources i = Some (ki, pi) /\ nth_error targets j = Some (kj, pj) /\
        greatest_multiple_le (ce_gcdz e)
          (- ce_mop e - (acc + sumf ri i) + sumf ro (S j) - ce_stepa e) a /\
        Z.max 0 (ri i - ro j) - ce_mop e - (acc + sumf ri (S i)) + sumf ro (S j) <= a /\
        x = mk_chan e ki pi kj pj a (dd i).
Proof.
  intros Hro. induction sources as [|[ki pi] rest IH]; intros ri dd acc Hri.
  - exists []. split; [reflexivity|]. intros x; split; [intros []|].
    intros (i & ? & ? & ? & ? & ? & ? & H & _). destruct i; discriminate H.
  - cbn [outer_loop]. destruct (Hri 0%nat ki pi eq_refl) as [Hr Hd]. rewrite Hd. cbn [bind].
    rewrite Hr. cbn [bind].
    destruct (inner_loop_spec ki pi (ri 0%nat) acc (acc + ri 0%nat) (dd 0%nat) targets ro 0 Hro)
      as [l [-> Hl]]. cbn [bind].
    destruct (IH (fun j => ri (S j)) (fun j => dd (S j)) (acc + ri 0%nat)) as [cs [-> Hcs]].
    { intros j k p H. apply (Hri (S j) k p H). }
    cbn [bind]. eexists; split; [reflexivity|]. intros x. rewrite in_app_iff, Hl, Hcs.
    assert (Hsum : forall i, acc + ri 0%nat + sumf (fun j => ri (S j)) i = acc + sumf ri (S i)).
    { intros i. pose proof (sumf_app ri 1 i) as A. cbn [Nat.add] in A. rewrite A. cbn [sumf]. lia. }
    split.
    + intros [(j & kj & pj & a & H0 & H1 & H2 & H3) | (i & ki' & pi' & j & kj & pj & a & H0 & H1 & H2 & H3 & H4)].
      * exists 0%nat, ki, pi, j, kj, pj, a. rewrite Z.add_0_l in H1, H2. cbn [nth_error].
        change (sumf ri 0) with 0. change (sumf ri 1) with (0 + ri 0%nat). rewrite Z.add_0_r, Z.add_0_l. auto.
      * exists (S i), ki', pi', j, kj, pj, a. cbn [nth_error]. rewrite Hsum in H2, H3. auto.
    + intros (i & ki' & pi' & j & kj & pj & a & H0 & H1 & H2 & H3 & H4). destruct i as [|i].
      * left. cbn [nth_error] in H0. injection H0 as <- <-. exists j, kj, pj, a.
        change (sumf ri 0) with 0 in H2. change (sumf ri 1) with (0 + ri 0%nat) in H3.
        rewrite Z.add_0_r in H2. rewrite Z.add_0_l in H3. rewrite Z.add_0_l. auto.
      * right. cbn [nth_error] in H0. exists i, ki', pi', j, kj, pj, a. rewrite !Hsum. auto 8.
Qed.
End Loops.

(** * Accessors along the position list *)
Lemma at_index_nth {A} (d : A) l j : (j < length l)%nat -> at_index l (Z.of_nat j) = Ok (nth j l d).
Proof.
  intros H. unfold at_index. destruct (Z.ltb_spec (Z.of_nat j) 0); [lia|].
  rewrite Nat2Z.id, (nth_error_nth' _ d H). reflexivity.
Qed.

Lemma phase_access {A} (d : A) init per i0 P j k p : length init = i0 -> length per = P -> (0 < P)%nat ->
  (k, p) = pos_at i0 P j ->
  (if p <=? 0 then at_index init (p + Z.of_nat (length init) - 1) else at_index per (p - 1))
  = Ok (cyclic d init per j).
Proof.
  intros <- <- HP. unfold pos_at, cyclic. destruct (Nat.ltb_spec j (length init)); intros E; injection E as -> ->.
  - destruct (Z.leb_spec (Z.of_nat j + 1 - Z.of_nat (length init)) 0); [|lia].
    rewrite <- (at_index_nth d) by assumption. f_equal. lia.
  - destruct (Z.leb_spec (Z.of_nat ((j - length init) mod length per) + 1) 0); [lia|].
    rewrite <- (at_index_nth d) by (apply Nat.mod_upper_bound; lia). f_equal. lia.
Qed.

Lemma duration_access v j k p : vertex_wf v ->
  (k, p) = pos_at (v_init_phases v) (v_phases v) j ->
  vertex_duration v p = Ok (exec_duration v j).
Proof.
  intros (HP & Hd & Hi & _) E.
  pose proof (phase_access 0%Q (v_init_durations v) (v_durations v) _ _ j k p Hi Hd HP E) as A.
  unfold exec_duration. rewrite <- A. unfold vertex_duration. rewrite Hi.
  destruct (Z.leb_spec p 0) as [|Hp]; [reflexivity|].
  rewrite cmod_ok by lia. cbn [bind]. rewrite Z.rem_small; [reflexivity|].
  unfold pos_at in E. destruct (Nat.ltb_spec j (v_init_phases v)); injection E as -> ->; [lia|].
  pose proof (Nat.mod_upper_bound (j - v_init_phases v) (v_phases v)). lia.
Qed.

(** * Divisibility by the fine GCD *)
Lemma fold_gcd_divides l : forall a, (fold_left Z.gcd l a | a) /\ forall x, In x l -> (fold_left Z.gcd l a | x).
Proof.
  induction l as [|y l IH]; intros a; cbn [fold_left].
  - split; [apply Z.divide_refl | intros x []].
  - destruct (IH (Z.gcd a y)) as [H1 H2]. split.
    + eapply Z.divide_trans; [exact H1 | apply Z.gcd_divide_l].
    + intros x [<-|Hx]; [|apply H2; exact Hx].
      eapply Z.divide_trans; [exact H1 | apply Z.gcd_divide_r].
Qed.

Lemma fold_gcd_nonneg l : forall a, 0 <= a -> 0 <= fold_left Z.gcd l a.
Proof. induction l as [|y l IH]; intros a Ha; cbn [fold_left]; [exact Ha|]. apply IH, Z.gcd_nonneg. Qed.

Lemma sumZ_divide g l : (forall x, In x l -> (g | x)) -> (g | sumZ l).
Proof.
  induction l as [|y l IH]; intros H; cbn; [apply Z.divide_0_r|].
  apply Z.divide_add_r; [apply H; left; reflexivity | apply IH; intros; apply H; right; assumption].
Qed.

Lemma sumf_divide g f n : (forall m, (g | f m)) -> (g | sumf f n).
Proof. induction n as [|n IH]; intros H; cbn [sumf]; [apply Z.divide_0_r|]. apply Z.divide_add_r; auto. Qed.

Lemma fine_gcd_spec c : (0 < length (e_in c))%nat -> (forall x, In x (e_in c ++ e_out c) -> 0 <= x) ->
  0 < sumZ (e_in c) ->
  exists g, fine_gcd c = Ok g /\ 0 < g /\ forall x, In x (e_in c ++ e_out c) -> (g | x).
Proof.
  intros HL Hnn Hs. unfold fine_gcd, edge_in_phase. cbn [Z.leb]. 
  change (1 <=? 0) with false. cbn iota. change (1 - 1) with (Z.of_nat 0).
  rewrite (at_index_nth 0) by exact HL. cbn [bind].
  set (g1 := fold_left Z.gcd (e_in c) (nth 0 (e_in c) 0)).
  set (g := fold_left Z.gcd (e_out c) g1). exists g. split; [reflexivity|].
  destruct (fold_gcd_divides (e_in c) (nth 0 (e_in c) 0)) as [_ D1]. fold g1 in D1.
  destruct (fold_gcd_divides (e_out c) g1) as [D2 D3]. fold g in D2, D3.
  assert (D : forall x, In x (e_in c ++ e_out c) -> (g | x)).
  { intros x Hx. apply in_app_iff in Hx. destruct Hx as [Hx|Hx]; [|auto].
    eapply Z.divide_trans; [exact D2 | apply D1; exact Hx]. }
  split; [|exact D].
  assert (0 <= g).
  { apply fold_gcd_nonneg, fold_gcd_nonneg, Hnn, in_or_app. left. apply nth_In. exact HL. }
  destruct (Z.eq_dec g 0) as [E|]; [|lia].
  assert (Hz : (g | sumZ (e_in c))) by (apply sumZ_divide; intros; apply D, in_or_app; auto).
  rewrite E in Hz. apply Z.divide_0_l in Hz. lia.
Qed.

(** * One channel *)
Definition chan_shape (c : edge) (vs vd : vertex) : Prop :=
  length (e_in c) = v_phases vs /\ length (e_out c) = v_phases vd /\
  length (e_in_init c) = v_init_phases vs /\ length (e_out_init c) = v_init_phases vd /\
  (forall x, In x (e_in c ++ e_out c ++ e_in_init c ++ e_out_init c) -> 0 <= x) /\
  0 < sumZ (e_in c) /\ 0 < sumZ (e_out c) /\ 0 <= e_preload c.

(** The fine GCD also divides the rates of the initial phases. *)
Definition init_rates_ok (c : edge) : Prop :=
  forall g, fine_gcd c = Ok g -> forall x, In x (e_in_init c ++ e_out_init c) -> (g | x).

Definition event_at (v : vertex) (j : nat) : event :=
  let kp := pos_at (v_init_phases v) (v_phases v) j in mkEvent (v_id v) (snd kp) (fst kp).

(** Position form of kperiodic_start. *)
Lemma kstart_idx (S : event -> Q) v K T m : (0 < K)%nat -> (0 < v_phases v)%nat ->
  let L := (K * v_phases v)%nat in
  (kperiodic_start S v K T m ==
   S (event_at v (idx (v_init_phases v) L m)) + inject_Z (Z.of_nat (iter (v_init_phases v) L m)) * T)%Q.
Proof.
  intros HK HP L. unfold kperiodic_start, idx, iter, event_at, pos_at.
  destruct (Nat.ltb_spec m (v_init_phases v)) as [Hlt|Hge].
  - rewrite (proj2 (Nat.ltb_lt _ _) Hlt). cbn [fst snd]. change (inject_Z (Z.of_nat 0)) with 0%Q. ring.
  - destruct (Nat.ltb_spec (v_init_phases v + (m - v_init_phases v) mod L) (v_init_phases v)); [lia|].
    cbn [fst snd]. set (r := (m - v_init_phases v)%nat).
    replace (v_init_phases v + r mod L - v_init_phases v)%nat with (r mod L)%nat by lia.
    unfold L. replace (r mod (K * v_phases v))%nat with (r mod v_phases v + v_phases v * ((r / v_phases v) mod K))%nat
      by (rewrite (Nat.mul_comm K), Nat.mod_mul_r by lia; reflexivity).
    pose proof (Nat.mod_upper_bound r (v_phases v) ltac:(lia)) as Hb.
    replace ((r mod v_phases v + v_phases v * ((r / v_phases v) mod K)) / v_phases v)%nat with ((r / v_phases v) mod K)%nat.
    2:{ rewrite Nat.mul_comm, Nat.div_add, (Nat.div_small (r mod v_phases v)) by lia. reflexivity. }
    replace ((r mod v_phases v + v_phases v * ((r / v_phases v) mod K)) mod v_phases v)%nat with (r mod v_phases v)%nat.
    2:{ rewrite Nat.mul_comm, Nat.mod_add, Nat.mod_mod by lia. reflexivity. }
    reflexivity.
Qed.

Lemma exec_duration_idx v K m : vertex_wf v -> (0 < K)%nat ->
  exec_duration v m = exec_duration v (idx (v_init_phases v) (K * v_phases v) m).
Proof.
  intros (HP & Hd & Hi & _) HK. unfold exec_duration. rewrite (cyclic_idx _ _ _ K m) by lia.
  rewrite Hd, Hi. reflexivity.
Qed.

(** Lattice reformulation of the thresholds used by the code. *)
Lemma lattice_max g mop M X a : 0 < g -> greatest_multiple_le g M mop -> (g | X) -> (g | a) ->
  (a <= X - mop - g <-> a + M < X).
Proof.
  intros Hg [Hm [Hle Hgr]] HX Ha.
  assert (HM : M < mop + g).
  { destruct (Z.lt_ge_cases M (mop + g)) as [|Hge]; [assumption|].
    specialize (Hgr (mop + g)). specialize (Hgr ltac:(apply Z.divide_add_r; [exact Hm|apply Z.divide_refl]) Hge). lia. }
  split; intros H; [lia|].
  destruct Hm as [m ->], HX as [x ->], Ha as [y ->].
  assert (y * g + m * g < x * g) by lia. rewrite <- Z.mul_add_distr_r in H0.
  apply Z.mul_lt_mono_pos_r in H0; [|exact Hg].
  assert ((y + m + 1) * g <= x * g) by (apply Z.mul_le_mono_nonneg_r; lia). lia.
Qed.

Lemma lattice_min g mop M Y a : 0 < g -> greatest_multiple_le g M mop -> (g | Y) -> (g | a) ->
  (Y - mop <= a <-> Y <= a + M).
Proof.
  intros Hg Hm HY Ha.
  pose proof (lattice_max g mop M Y a Hg Hm HY Ha) as L. destruct Hm as [Hm [Hle Hgr]].
  destruct (Z.lt_ge_cases (a + M) Y) as [Hlt|Hge]; [apply L in Hlt; lia|].
  split; [lia|]. intros _.
  destruct (Z.le_gt_cases (Y - mop) a) as [|Hgt]; [assumption|]. exfalso.
  assert (~ a <= Y - mop - g) by (intros C; apply L in C; lia).
  destruct Hm as [m ->], HY as [x ->], Ha as [y ->].
  assert (Hh : y * g < (x - m) * g) by lia. apply Z.mul_lt_mono_pos_r in Hh; [|exact Hg].
  apply H. assert (y * g <= (x - m - 1) * g) by (apply Z.mul_le_mono_nonneg_r; lia). lia.
Qed.

Lemma max_divide g a b : (g | a) -> (g | b) -> (g | Z.max a b).
Proof. intros. destruct (Z.max_spec a b) as [[_ ->]|[_ ->]]; assumption. Qed.

(** gcd multiples are differences of non-negative multiples. *)
Lemma gcd_nonneg_combination a b x : 0 < a -> 0 < b -> (Z.gcd a b | x) ->
  exists n n', 0 <= n /\ 0 <= n' /\ n * a - n' * b = x.
Proof.
  intros Ha Hb [k Hk].
  destruct (Z.gcd_bezout a b (Z.gcd a b) eq_refl) as (u & v & Huv).
  (* x = k*u*a + k*v*b ; shift by t*(b,a) *)
  exists (k * u + (Z.abs (k * u) + Z.abs (k * v)) * b), (- (k * v) + (Z.abs (k * u) + Z.abs (k * v)) * a).
  split; [nia|]. split; [nia|]. rewrite Hk, <- Huv. ring.
Qed.

Section Channel.
Variables (var : variant) (c : edge) (vs vd : vertex) (Ki Kj : nat) (Ni Nj : Z).
Hypothesis Hvs : vertex_wf vs.
Hypothesis Hvd : vertex_wf vd.
Hypothesis Hc : chan_shape c vs vd.
Hypothesis HKi : (0 < Ki)%nat.
Hypothesis HKj : (0 < Kj)%nat.
Hypothesis HNi : 0 < Ni.
Hypothesis HNj : 0 < Nj.
Hypothesis Hbal : sumZ (e_in c) * Ni * Z.of_nat (length (e_out c)) =
                  sumZ (e_out c) * Nj * Z.of_nat (length (e_in c)).

Let W := sumZ (e_in c).
Let R := sumZ (e_out c).
Let Wc := W * Z.of_nat Ki.
Let Rc := R * Z.of_nat Kj.
Let Li := (v_init_phases vs + Ki * v_phases vs)%nat.
Let Lj := (v_init_phases vd + Kj * v_phases vd)%nat.

Lemma prod_rate_nn m : 0 <= prod_rate c m.
Proof using Hvs Hc.
  clear - Hvs Hc.
  destruct Hc as (H1 & _ & _ & _ & Hnn & _). destruct Hvs as (HP & _). apply Hnn.
  pose proof (cyclic_in 0 (e_in_init c) (e_in c) m ltac:(lia)) as H.
  rewrite !in_app_iff in *. unfold prod_rate. tauto.
Qed.
Lemma cons_rate_nn m : 0 <= cons_rate c m.
Proof using Hvd Hc.
  clear - Hvd Hc.
  destruct Hc as (_ & H1 & _ & _ & Hnn & _). destruct Hvd as (HP & _). apply Hnn.
  pose proof (cyclic_in 0 (e_out_init c) (e_out c) m ltac:(lia)) as H.
  rewrite !in_app_iff in *. unfold cons_rate. tauto.
Qed.

Lemma generate_channel_spec :
  exists g mop cs, fine_gcd c = Ok g /\ 0 < g /\ (forall x, In x (e_in c ++ e_out c) -> (g | x)) /\
    greatest_multiple_le g (e_preload c) mop /\
    generate_channel var c vs vd Ni (Z.of_nat Ki) (Z.of_nat Kj) = Ok cs /\
    forall x, In x cs <->
      exists i j a, (i < Li)%nat /\ (j < Lj)%nat /\
        greatest_multiple_le (Z.gcd Wc Rc)
          (- mop - sumf (prod_rate c) i + sumf (cons_rate c) (S j) - g) a /\
        Z.max 0 (prod_rate c i - cons_rate c j) - mop - sumf (prod_rate c) (S i)
          + sumf (cons_rate c) (S j) <= a /\
        x = mkConstraint (event_at vs i) (event_at vd j)
              (- (inject_Z (a * Z.of_nat (v_phases vs) * Z.of_nat Ki) / inject_Z (Wc * Ni)))%Q
              (exec_duration vs i) (e_id c).
Proof using Hvs Hvd Hc HKi HKj HNi.
  clear Hbal HNj Nj.
  pose proof Hvs as (HPs & Hds & Hdis & _). pose proof Hvd as (HPd & _).
  pose proof Hc as (L1 & L2 & L3 & L4 & Hnn & HW & HR & HM).
  destruct (fine_gcd_spec c) as (g & Hg & Hgp & Hgd); [lia| |exact HW|].
  { intros x Hx. apply Hnn. rewrite !in_app_iff in *. tauto. }
  destruct (floor_to_correct (e_preload c) g Hgp) as (mop & Hmop & Hmopd).
  exists g, mop. unfold generate_channel. rewrite Hg. cbn [bind]. rewrite Hmop. cbn [bind].
  fold W R. unfold edge_in_total, edge_out_total. fold W R. fold Wc Rc.
  rewrite L1, L2, L3, L4.
  set (env := mkEnv (v_id vs) (v_id vd) (e_id c) (Z.of_nat Ki) (Z.of_nat (v_phases vs)) mop Wc (Z.gcd Wc Rc) g Ni).
  assert (HWc : 0 < Wc) by (unfold Wc, W; nia).
  assert (HRc : 0 < Rc) by (unfold Rc, R; nia).
  assert (HG : 0 < ce_gcdz env).
  { cbn. pose proof (Z.gcd_nonneg Wc Rc). destruct (Z.eq_dec (Z.gcd Wc Rc) 0) as [E|]; [|lia].
    apply Z.gcd_eq_0_l in E. lia. }
  assert (HWN : ce_Wc env * ce_Ni env <> 0) by (cbn; nia).
  assert (Hro : forall j k p, nth_error (positions (Z.of_nat Kj) (Z.of_nat (v_init_phases vd)) (Z.of_nat (v_phases vd))) j
                 = Some (k, p) -> edge_out_phase c p = Ok (cons_rate c j)).
  { intros j k p H.
    assert (Hj : (j < Lj)%nat).
    { unfold Lj. rewrite <- positions_length by exact HKj. apply nth_error_Some. congruence. }
    rewrite positions_nth in H by (try lia; exact Hj). injection H as H.
    apply (phase_access 0 (e_out_init c) (e_out c) (v_init_phases vd) (v_phases vd) j k p); auto. }
  assert (Hri : forall j k p, nth_error (positions (Z.of_nat Ki) (Z.of_nat (v_init_phases vs)) (Z.of_nat (v_phases vs))) j
                 = Some (k, p) -> edge_in_phase c p = Ok (prod_rate c j) /\ vertex_duration vs p = Ok (exec_duration vs j)).
  { intros j k p H.
    assert (Hj : (j < Li)%nat).
    { unfold Li. rewrite <- positions_length by exact HKi. apply nth_error_Some. congruence. }
    rewrite positions_nth in H by (try lia; exact Hj). injection H as H. split.
    + apply (phase_access 0 (e_in_init c) (e_in c) (v_init_phases vs) (v_phases vs) j k p); auto.
    + apply (duration_access vs j k p); auto. }
  destruct (outer_loop_spec var env c vs HG HWN _ _ Hro _ _ _ 0 Hri) as (cs & Hcs & Hin).
  { exists cs. split; [reflexivity|]. split; [exact Hgp|]. split; [exact Hgd|].
    split; [exact Hmopd|]. split; [exact Hcs|]. intros x. rewrite Hin. split.
    + intros (i & ki & pi & j & kj & pj & a & H0 & H1 & H2 & H3 & ->).
      assert (Hi : (i < Li)%nat).
      { unfold Li. rewrite <- positions_length by exact HKi. apply nth_error_Some. congruence. }
      assert (Hj : (j < Lj)%nat).
      { unfold Lj. rewrite <- positions_length by exact HKj. apply nth_error_Some. congruence. }
      rewrite positions_nth in H0 by (try lia; exact Hi). injection H0 as H0.
      rewrite positions_nth in H1 by (try lia; exact Hj). injection H1 as H1.
      exists i, j, a. rewrite !Z.add_0_l in *. cbn [ce_mop ce_stepa ce_gcdz env] in H2, H3.
      unfold event_at. rewrite H0, H1. auto 6.
    + intros (i & j & a & Hi & Hj & H2 & H3 & ->).
      exists i, (fst (pos_at (v_init_phases vs) (v_phases vs) i)), (snd (pos_at (v_init_phases vs) (v_phases vs) i)),
             j, (fst (pos_at (v_init_phases vd) (v_phases vd) j)), (snd (pos_at (v_init_phases vd) (v_phases vd) j)), a.
      rewrite <- !surjective_pairing. rewrite !positions_nth by (try lia; assumption).
      rewrite !Z.add_0_l. cbn [ce_mop ce_stepa ce_gcdz env]. auto 6. }
Qed.


Section Sched.
Variables (omega : Q) (St : event -> Q).
Let Ti := task_period omega (Z.of_nat Ki) (Z.of_nat (v_phases vs)) Ni.
Let Tj := task_period omega (Z.of_nat Kj) (Z.of_nat (v_phases vd)) Nj.
Let pend := fun m => (kperiodic_start St vs Ki Ti m + exec_duration vs m)%Q.
Let cstart := kperiodic_start St vd Kj Tj.

Lemma shift_eq (n n' : Z) :
  (inject_Z n * Ti - inject_Z n' * Tj ==
   omega * (inject_Z ((n * Wc - n' * Rc) * Z.of_nat (v_phases vs) * Z.of_nat Ki) / inject_Z (Wc * Ni)))%Q.
Proof.
  pose proof Hvs as (HPs & _). pose proof Hvd as (HPd & _).
  pose proof Hc as (L1 & L2 & L3 & L4 & Hnn & HW & HR & HM).
  pose proof Hbal as Hb. rewrite L1, L2 in Hb. fold W R in Hb, HW, HR.
  unfold Ti, Tj, task_period, Wc, Rc. fold W R.
  rewrite !inject_Z_mult. unfold Z.sub. rewrite inject_Z_plus, inject_Z_opp, !inject_Z_mult.
  assert (Hbq : (inject_Z W * inject_Z Ni * inject_Z (Z.of_nat (v_phases vd)) ==
                inject_Z R * inject_Z Nj * inject_Z (Z.of_nat (v_phases vs)))%Q).
  { rewrite <- !inject_Z_mult. rewrite Hb. reflexivity. }
  assert (nz : forall z, z <> 0 -> ~ (inject_Z z == 0)%Q).
  { intros z Hz E. apply Hz. unfold Qeq in E. cbn in E. lia. }
  pose proof (nz W ltac:(lia)). pose proof (nz Ni ltac:(lia)). pose proof (nz Nj ltac:(lia)).
  pose proof (nz (Z.of_nat Ki) ltac:(lia)).
  set (qW := inject_Z W) in *. set (qN := inject_Z Ni) in *. set (qNj := inject_Z Nj) in *.
  set (qK := inject_Z (Z.of_nat Ki)) in *. set (qP := inject_Z (Z.of_nat (v_phases vs))) in *.
  set (qR := inject_Z R) in *. set (qPd := inject_Z (Z.of_nat (v_phases vd))) in *.
  set (qKj := inject_Z (Z.of_nat Kj)) in *. clearbody qW qN qNj qK qP qR qPd qKj.
  assert (E : (qPd / qNj == qR * qP / (qW * qN))%Q).
  { transitivity ((qW * qN * qPd) / (qW * qN * qNj))%Q; [field; auto|]. rewrite Hbq. field; auto. }
  transitivity (inject_Z n * (omega * (qK * qP) / qN) - inject_Z n' * omega * qKj * (qPd / qNj))%Q; [field; auto|].
  rewrite E. field. auto.
Qed.

Lemma ordered_iff e f :
  (pend e <= cstart f)%Q <->
  (St (event_at vs (idx (v_init_phases vs) (Ki * v_phases vs) e)) + exec_duration vs e +
   omega * (inject_Z ((Z.of_nat (iter (v_init_phases vs) (Ki * v_phases vs) e) * Wc -
                       Z.of_nat (iter (v_init_phases vd) (Kj * v_phases vd) f) * Rc)
                       * Z.of_nat (v_phases vs) * Z.of_nat Ki) / inject_Z (Wc * Ni))
   <= St (event_at vd (idx (v_init_phases vd) (Kj * v_phases vd) f)))%Q.
Proof.
  unfold pend, cstart. rewrite !kstart_idx by (first [exact HKi|exact HKj|apply Hvs|apply Hvd]).
  rewrite <- shift_eq.
  set (a := St _). set (b := St _).
  set (n := inject_Z (Z.of_nat (iter (v_init_phases vs) _ e))).
  set (n' := inject_Z (Z.of_nat (iter (v_init_phases vd) _ f))).
  rewrite (Qle_minus_iff (a + n * Ti + exec_duration vs e)), (Qle_minus_iff (a + exec_duration vs e + _)).
  setoid_replace (b + n' * Tj + - (a + n * Ti + exec_duration vs e))%Q
    with (b + - (a + exec_duration vs e + (n * Ti - n' * Tj)))%Q by ring.
  reflexivity.
Qed.




Lemma rates_divide g : (forall x, In x (e_in c ++ e_out c) -> (g | x)) ->
  (forall x, In x (e_in_init c ++ e_out_init c) -> (g | x)) ->
  (forall m, (g | prod_rate c m)) /\ (forall m, (g | cons_rate c m)).
Proof.
  pose proof Hvs as (HPs & _). pose proof Hvd as (HPd & _).
  pose proof Hc as (L1 & L2 & _).
  intros H1 H2. split; intros m.
  - pose proof (cyclic_in 0 (e_in_init c) (e_in c) m ltac:(lia)) as H. apply in_app_iff in H.
    destruct H; [apply H2|apply H1]; apply in_or_app; auto.
  - pose proof (cyclic_in 0 (e_out_init c) (e_out c) m ltac:(lia)) as H. apply in_app_iff in H.
    destruct H; [apply H2|apply H1]; apply in_or_app; auto.
Qed.


(** Constraints satisfied at omega >= 0 imply every useful pair ordered. *)
Lemma satisfied_orders cs : (0 <= omega)%Q -> init_rates_ok c ->
  generate_channel var c vs vd Ni (Z.of_nat Ki) (Z.of_nat Kj) = Ok cs ->
  (forall x, In x cs -> satisfies omega St x) ->
  forall e f, useful (e_preload c) (prod_rate c) (cons_rate c) e f -> (pend e <= cstart f)%Q.
Proof.
  intros Hom Hio Hgen Hsat e f [Hu1 Hu2].
  pose proof Hvs as (HPs & _). pose proof Hvd as (HPd & _).
  pose proof Hc as (L1 & L2 & L3 & L4 & Hnn & HW & HR & HM).
  destruct generate_channel_spec as (g & mop & cs' & Hg & Hgp & Hgd & Hmop & Hgen' & Hin).
  rewrite Hgen in Hgen'. injection Hgen' as <-.
  destruct (rates_divide g Hgd (Hio g Hg)) as [Hpd Hcd].
  pose proof (sum_idx (e_in_init c) (e_in c) Ki e ltac:(lia) HKi) as Se.
  pose proof (sum_idx (e_out_init c) (e_out c) Kj f ltac:(lia) HKj) as Sf.
  pose proof (cyclic_idx 0 (e_in_init c) (e_in c) Ki e ltac:(lia) HKi) as Ce.
  pose proof (cyclic_idx 0 (e_out_init c) (e_out c) Kj f ltac:(lia) HKj) as Cf.
  rewrite L1, L3 in Se, Ce. rewrite L2, L4 in Sf, Cf.
  fold (prod_rate c) in Se, Ce. fold (cons_rate c) in Sf, Cf. fold W in Se. fold R in Sf.
  cbv zeta in Se, Sf. apply (proj2 (ordered_iff e f)).
  rewrite (exec_duration_idx vs Ki e Hvs HKi).
  set (i := idx (v_init_phases vs) (Ki * v_phases vs) e) in *.
  set (j := idx (v_init_phases vd) (Kj * v_phases vd) f) in *.
  set (n := Z.of_nat (iter (v_init_phases vs) (Ki * v_phases vs) e)) in *.
  set (n' := Z.of_nat (iter (v_init_phases vd) (Kj * v_phases vd) f)) in *.
  fold Wc in Se. fold Rc in Sf.
  set (a0 := n * Wc - n' * Rc). assert (Ea0 : a0 = n * Wc - n' * Rc) by reflexivity.
  assert (Hi : (i < Li)%nat) by (apply idx_lt; nia).
  assert (Hj : (j < Lj)%nat) by (apply idx_lt; nia).
  rewrite Se, Sf, Ce, Cf in Hu1. rewrite Se, Sf, Ce in Hu2.
  assert (HWg : (g | Wc)).
  { unfold Wc. apply Z.divide_mul_l. apply sumZ_divide. intros; apply Hgd, in_or_app; auto. }
  assert (HRg : (g | Rc)).
  { unfold Rc. apply Z.divide_mul_l. apply sumZ_divide. intros; apply Hgd, in_or_app; auto. }
  assert (Hga : (g | a0)).
  { unfold a0. apply Z.divide_sub_r; apply Z.divide_mul_r; assumption. }
  assert (Hza : (Z.gcd Wc Rc | a0)).
  { unfold a0. apply Z.divide_sub_r; apply Z.divide_mul_r; [apply Z.gcd_divide_l|apply Z.gcd_divide_r]. }
  assert (HGz : 0 < Z.gcd Wc Rc).
  { pose proof (Z.gcd_nonneg Wc Rc). destruct (Z.eq_dec (Z.gcd Wc Rc) 0) as [E|]; [|lia].
    apply Z.gcd_eq_0_l in E. unfold Wc, W in E. nia. }
  set (I := sumf (prod_rate c)) in *. set (O := sumf (cons_rate c)) in *.
  assert (HIS : I (S i) = I i + prod_rate c i) by reflexivity.
  assert (Hmax : a0 <= - mop - I i + O (S j) - g).
  { pose proof (proj2 (lattice_max g mop (e_preload c) (O (S j) - I i) a0 Hgp Hmop
       ltac:(apply Z.divide_sub_r; apply sumf_divide; assumption) Hga)) as L. lia. }
  assert (Hmin : Z.max 0 (prod_rate c i - cons_rate c j) - mop - I (S i) + O (S j) <= a0).
  { pose proof (proj2 (lattice_min g mop (e_preload c)
       (Z.max 0 (prod_rate c i - cons_rate c j) - I (S i) + O (S j)) a0 Hgp Hmop
       ltac:(apply Z.divide_add_r; [apply Z.divide_sub_r; [apply max_divide; [apply Z.divide_0_r|apply Z.divide_sub_r; auto]|]|]; apply sumf_divide; assumption) Hga)) as L. lia. }
  destruct (alpha_max_opt_correct (- mop - I i + O (S j) - g) _ HGz) as (a & _ & Ha).
  assert (Haa : a0 <= a) by (apply Ha; assumption).
  pose proof (Hsat _ (proj2 (Hin _) (ex_intro _ i (ex_intro _ j (ex_intro _ a
     (conj Hi (conj Hj (conj Ha (conj (Z.le_trans _ _ _ Hmin Haa) eq_refl))))))))) as HS.
  unfold satisfies in HS. cbn [c_source c_target c_w c_d] in HS.
  eapply Qle_trans; [|exact HS]. unfold Qminus.
  setoid_replace (- (omega * - (inject_Z (a * Z.of_nat (v_phases vs) * Z.of_nat Ki) / inject_Z (Wc * Ni))))%Q
    with (omega * (inject_Z (a * Z.of_nat (v_phases vs) * Z.of_nat Ki) / inject_Z (Wc * Ni)))%Q by ring.
  apply Qplus_le_compat; [apply Qle_refl|].
  rewrite (Qmult_comm omega), (Qmult_comm omega). apply Qmult_le_compat_r; [|exact Hom].
  apply Qmult_le_compat_r.
  - rewrite <- Zle_Qle. rewrite <- !Z.mul_assoc. apply Z.mul_le_mono_nonneg_r; [nia|exact Haa].
  - apply Qinv_le_0_compat. change 0%Q with (inject_Z 0). rewrite <- Zle_Qle. unfold Wc, W. nia.
Qed.


Lemma orders_satisfied cs : v_init_phases vs = 0%nat -> v_init_phases vd = 0%nat ->
  generate_channel var c vs vd Ni (Z.of_nat Ki) (Z.of_nat Kj) = Ok cs ->
  (forall e f, useful (e_preload c) (prod_rate c) (cons_rate c) e f -> (pend e <= cstart f)%Q) ->
  forall x, In x cs -> satisfies omega St x.
Proof.
  intros Hi0 Hj0 Hgen Huse x Hx.
  pose proof Hvs as (HPs & _). pose proof Hvd as (HPd & _).
  pose proof Hc as (L1 & L2 & L3 & L4 & Hnn & HW & HR & HM).
  destruct generate_channel_spec as (g & mop & cs' & Hg & Hgp & Hgd & Hmop & Hgen' & Hin).
  rewrite Hgen in Hgen'. injection Hgen' as <-.
  apply Hin in Hx. destruct Hx as (i & j & a & Hi & Hj & Ha & Hmin & ->).
  assert (HWc : 0 < Wc) by (unfold Wc, W; nia).
  assert (HRc : 0 < Rc) by (unfold Rc, R; nia).
  destruct (gcd_nonneg_combination Wc Rc a HWc HRc (proj1 Ha)) as (n & n' & Hn & Hn' & Hnn').
  assert (Hio : forall y, In y (e_in_init c ++ e_out_init c) -> (g | y)).
  { destruct (e_in_init c) as [|z l]; [|cbn in L3; lia]. destruct (e_out_init c) as [|z l]; [|cbn in L4; lia].
    intros y []. }
  destruct (rates_divide g Hgd Hio) as [Hpd Hcd].
  set (e := (i + Z.to_nat n * (Ki * v_phases vs))%nat). set (f := (j + Z.to_nat n' * (Kj * v_phases vd))%nat).
  unfold Li in Hi. unfold Lj in Hj. rewrite Hi0, Nat.add_0_l in Hi. rewrite Hj0, Nat.add_0_l in Hj.
  assert (Ie : idx (v_init_phases vs) (Ki * v_phases vs) e = i).
  { unfold idx. rewrite Hi0. cbn [Nat.ltb Nat.leb]. unfold e. rewrite Nat.sub_0_r, Nat.mod_add, Nat.mod_small by lia. reflexivity. }
  assert (If : idx (v_init_phases vd) (Kj * v_phases vd) f = j).
  { unfold idx. rewrite Hj0. cbn [Nat.ltb Nat.leb]. unfold f. rewrite Nat.sub_0_r, Nat.mod_add, Nat.mod_small by lia. reflexivity. }
  assert (Te : iter (v_init_phases vs) (Ki * v_phases vs) e = Z.to_nat n).
  { unfold iter. rewrite Hi0. cbn [Nat.ltb Nat.leb]. unfold e. rewrite Nat.sub_0_r, Nat.div_add, Nat.div_small by lia. reflexivity. }
  assert (Tf : iter (v_init_phases vd) (Kj * v_phases vd) f = Z.to_nat n').
  { unfold iter. rewrite Hj0. cbn [Nat.ltb Nat.leb]. unfold f. rewrite Nat.sub_0_r, Nat.div_add, Nat.div_small by lia. reflexivity. }
  pose proof (sum_idx (e_in_init c) (e_in c) Ki e ltac:(lia) HKi) as Se.
  pose proof (sum_idx (e_out_init c) (e_out c) Kj f ltac:(lia) HKj) as Sf.
  pose proof (cyclic_idx 0 (e_in_init c) (e_in c) Ki e ltac:(lia) HKi) as Ce.
  pose proof (cyclic_idx 0 (e_out_init c) (e_out c) Kj f ltac:(lia) HKj) as Cf.
  rewrite L1, L3 in Se, Ce. rewrite L2, L4 in Sf, Cf.
  fold (prod_rate c) in Se, Ce. fold (cons_rate c) in Sf, Cf. fold W in Se. fold R in Sf.
  cbv zeta in Se, Sf. fold Wc in Se. fold Rc in Sf.
  rewrite Ie, Te, Z2Nat.id in Se by lia. rewrite If, Tf, Z2Nat.id in Sf by lia. rewrite Ie in Ce. rewrite If in Cf.
  assert (Hga : (g | a)).
  { eapply Z.divide_trans; [|exact (proj1 Ha)].
    apply Z.gcd_greatest; [unfold Wc, W|unfold Rc, R]; apply Z.divide_mul_l; apply sumZ_divide; intros; apply Hgd, in_or_app; auto. }
  assert (Hu : useful (e_preload c) (prod_rate c) (cons_rate c) e f).
  { unfold useful. rewrite Se, Sf, Ce, Cf.
    pose proof (proj1 (lattice_max g mop (e_preload c) (sumf (cons_rate c) (S j) - sumf (prod_rate c) i) a Hgp Hmop
       ltac:(apply Z.divide_sub_r; apply sumf_divide; assumption) Hga)) as L.
    pose proof (proj1 (lattice_min g mop (e_preload c)
       (Z.max 0 (prod_rate c i - cons_rate c j) - sumf (prod_rate c) (S i) + sumf (cons_rate c) (S j)) a Hgp Hmop
       ltac:(apply Z.divide_add_r; [apply Z.divide_sub_r; [apply max_divide; [apply Z.divide_0_r|apply Z.divide_sub_r; auto]|]|]; apply sumf_divide; assumption) Hga)) as L'.
    assert (HIS : sumf (prod_rate c) (S i) = sumf (prod_rate c) i + prod_rate c i) by reflexivity.
    destruct Ha as (_ & Ha & _). lia. }
  apply Huse in Hu. apply (proj1 (ordered_iff e f)) in Hu.
  rewrite (exec_duration_idx vs Ki e Hvs HKi), Ie, If, Te, Tf, !Z2Nat.id, Hnn' in Hu by lia.
  unfold satisfies. cbn [c_source c_target c_w c_d]. eapply Qle_trans; [|exact Hu].
  apply Qle_lteq. right. unfold Qminus. ring.
Qed.
End Sched.
End Channel.
