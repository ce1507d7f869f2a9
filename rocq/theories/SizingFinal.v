(** Soundness and optimality of the computed sizes. *)
From Coq Require Import QArith Qround Lqa Lia.
From Verif Require Import Base Graph Commons CommonsProofs KPeriodic ScheduleSpec ScheduleCore KPeriodicSpec KPeriodicProofs KPeriodicChannel KPeriodicGraph KPeriodicEnd
  KIterSpec SPeriodicProofs DseSpec Sizing SizingSpec SizingCore SizingLp SizingFeasible SizingProofs.
Open Scope Z_scope.

Lemma lower_bound (l : list Q) : exists D, forall q, In q l -> (0 <= q + D)%Q.
Proof.
  induction l as [|q l [D IH]]; [exists 0%Q; intros q []|]. destruct (Qlt_le_dec (q + D) 0) as [Lt|Le].
  - exists (- q)%Q. intros y [<-|I]; [lra|]. specialize (IH y I). lra.
  - exists D. intros y [<-|I]; auto.
Qed.

Section G.
Variables (L : layout) (ilp : bool) (theta : nat -> Z) (g : graph) (N : nat -> Z) (period : Q).
Hypothesis Hwf : graph_wf g.
Hypothesis Hbal : balanced g N.
Hypothesis Hno : no_init g.
Hypothesis Hcyc : whole_cycles g N.
Hypothesis Hper : (0 < period)%Q.
Variable off : nat -> nat -> Q.

Notation mu_of := (mu_of g N period).
Notation tick := (tick g N period).
Notation tick' := (tick' g N period).
Notation T := (T L off).
Notation channel_holds := (channel_holds L ilp theta g N period off).

Lemma fine_divides c vs vd : In c (edges g) -> nth_error (vertices g) (e_src c) = Some vs -> nth_error (vertices g) (e_dst c) = Some vd ->
  exists fg, 0 < fg /\ greatest_multiple_le fg (e_preload c) (mop_of c) /\ (fg | gz c) /\
    (forall m, (fg | prod_rate c m)) /\ (forall m, (fg | cons_rate c m)) /\ (forall m, (fg | sumf (prod_rate c) m)) /\ (forall m, (fg | sumf (cons_rate c) m)).
Proof using Hwf Hno Hcyc.
  clear Hper Hbal L theta off ilp. intros Hin Vs Vd.
  destruct (chan_facts g N Hwf Hno Hcyc c vs vd Hin Vs Vd) as ((P1 & _) & (P2 & _) & I1 & I2 & (L1 & L2 & L3 & L4 & _) & Z1 & Z2 & _).
  destruct (mop_spec g N Hwf Hno Hcyc c vs vd Hin Vs Vd) as (fg & E & Fp & D & Em). exists fg.
  assert (D1 : forall m, (fg | prod_rate c m)).
  { intros m. apply D. rewrite in_app_iff. pose proof (cyclic_in 0 (e_in_init c) (e_in c) m ltac:(lia)) as I. rewrite I1 in L3.
    apply length_zero_iff_nil in L3. rewrite L3 in I. left. unfold prod_rate. rewrite L3. exact I. }
  assert (D2 : forall m, (fg | cons_rate c m)).
  { intros m. apply D. rewrite in_app_iff. pose proof (cyclic_in 0 (e_out_init c) (e_out c) m ltac:(lia)) as I. rewrite I2 in L4.
    apply length_zero_iff_nil in L4. rewrite L4 in I. right. unfold cons_rate. rewrite L4. exact I. }
  assert (D3 : forall l, (forall y, In y l -> (fg | y)) -> (fg | sumZ l)).
  { induction l as [|y l IH]; intros H; [apply Z.divide_0_r|]. cbn. apply Z.divide_add_r; [apply H; left; reflexivity|apply IH; intros; apply H; right; assumption]. }
  split; [exact Fp|]. split.
  - rewrite Em. split; [apply down_divide|]. split; [apply down_le; exact Fp|]. intros m Dm Lm. apply down_ge; assumption.
  - split; [|repeat split; try assumption; intros; apply sumf_divide; assumption].
    apply Z.gcd_greatest; apply D3; intros y I; apply D; apply in_or_app; auto.
Qed.

(** ** From a point to a schedule. *)
Definition spaced (x : var -> Q) : Prop := forall i v, nth_error (vertices g) i = Some v ->
  (forall a, (S a < v_phases v)%nat -> (T x i a + exec_duration v a <= T x i (S a))%Q) /\
  (forall a, S a = v_phases v -> (T x i a + exec_duration v a <= T x i 0 + mu_of i)%Q).

Definition point_schedule (x : var -> Q) : schedule := fun i m =>
  let P := v_phases (vertex_at g i) in (T x i (m mod P) + inject_Z (Z.of_nat (m / P)) * mu_of i)%Q.

Lemma point_schedule_periodic x : one_periodic g N period (point_schedule x).
Proof.
  intros i v m E. unfold point_schedule. cbv beta. rewrite (vertex_at_ok _ _ _ E). destruct (vertex_ok g Hwf i v E) as (Pp & _).
  change (Z.to_nat 1) with 1%nat. rewrite Nat.mul_1_l.
  replace ((m + v_phases v) mod v_phases v)%nat with (m mod v_phases v)%nat by (replace (m + v_phases v)%nat with (m + 1 * v_phases v)%nat by lia; rewrite Nat.mod_add by lia; reflexivity).
  replace ((m + v_phases v) / v_phases v)%nat with (m / v_phases v + 1)%nat by (replace (m + v_phases v)%nat with (m + 1 * v_phases v)%nat by lia; rewrite Nat.div_add by lia; reflexivity).
  rewrite Nat2Z.inj_add, inject_Z_plus. unfold SizingLp.mu_of, task_period. rewrite (vertex_at_ok _ _ _ E), Z.mul_1_l. change (inject_Z (Z.of_nat 1)) with 1%Q. ring.
Qed.
Lemma point_schedule_at x i v a : nth_error (vertices g) i = Some v -> (a < v_phases v)%nat -> (point_schedule x i a == T x i a)%Q.
Proof.
  intros E La. unfold point_schedule. rewrite (vertex_at_ok _ _ _ E), Nat.mod_small, Nat.div_small by lia. change (inject_Z (Z.of_nat 0)) with 0%Q. ring.
Qed.
Lemma point_schedule_serialised x : spaced x -> forall i v, nth_error (vertices g) i = Some v -> task_serialised (point_schedule x) i v.
Proof.
  intros H i v E m. unfold start_of, point_schedule. rewrite (vertex_at_ok _ _ _ E). pose proof (vertex_ok g Hwf i v E) as W. destruct W as (Pp & _).
  rewrite (exec_duration_mod v m) by (first [eapply vertex_ok; eassumption | apply Hno; eapply nth_error_In; exact E]).
  pose proof (Nat.div_mod m (v_phases v) ltac:(lia)) as D. pose proof (Nat.mod_upper_bound m (v_phases v) ltac:(lia)) as U.
  set (q := (m / v_phases v)%nat) in *. set (a := (m mod v_phases v)%nat) in *. destruct (H i v E) as [H1 H2].
  destruct (Nat.eq_dec (S a) (v_phases v)) as [Last|Not].
  - assert (Em : S m = (0 + (q + 1) * v_phases v)%nat) by nia. rewrite Em. rewrite Nat.mod_add, Nat.div_add by lia.
    rewrite Nat.mod_small, Nat.div_small by lia. specialize (H2 a Last). rewrite Nat.add_0_l, Nat2Z.inj_add, inject_Z_plus. change (inject_Z (Z.of_nat 1)) with 1%Q. lra.
  - assert (Em : S m = (S a + q * v_phases v)%nat) by nia. rewrite Em. rewrite Nat.mod_add, Nat.div_add by lia.
    rewrite Nat.mod_small, Nat.div_small by lia. specialize (H1 a ltac:(lia)). rewrite Nat.add_0_l. lra.
Qed.

Lemma local_value_le x k ai aj : (ilp = true -> exists z, (x (Local k ai aj) == inject_Z z)%Q) -> (inject_Z (local_value ilp x k ai aj) <= x (Local k ai aj))%Q.
Proof.
  intros H. unfold local_value. destruct ilp.
  - destruct (H eq_refl) as [z E]. rewrite (round_away_integer _ _ E), E. lra.
  - apply Qfloor_le.
Qed.

Lemma head_facts x k c : (forall col, In col (head_columns ilp theta g k c) -> column_ok x col) ->
  (k = 0%nat -> (x LoopFix == inject_Z (Z.of_nat (length (vertices g))))%Q) /\ (x (Mop k) == inject_Z (e_preload c))%Q /\ (0 <= x (Feedback k))%Q /\
  (ilp = true -> exists z, (x (Feedback k) == inject_Z z)%Q).
Proof.
  intros H. unfold head_columns in H.
  assert (H' : forall col, In col [mkColumn (Mop k) ilp (FixBound (inject_Z (e_preload c))) (inject_Z (theta k));
     mkColumn (Feedback k) ilp (LowBound 0) (inject_Z (theta k))] -> column_ok x col) by (intros; apply H; apply in_or_app; right; assumption).
  destruct (H' _ (or_introl eq_refl)) as [A1 _]. destruct (H' _ (or_intror (or_introl eq_refl))) as [A2 A3]. cbn in A1, A2, A3.
  split; [|repeat split; assumption]. intros ->. cbn in H. destruct (H _ (or_introl eq_refl)) as [A _]. exact A.
Qed.

Lemma guess_nonneg x k : (0 <= x (Feedback k))%Q -> (ilp = true -> exists z, (x (Feedback k) == inject_Z z)%Q) -> 0 <= first_guess ilp x k.
Proof.
  intros P I. unfold first_guess. destruct ilp.
  - destruct (I eq_refl) as [z E]. rewrite (round_away_integer _ _ E). rewrite E in P. change 0%Q with (inject_Z 0) in P. rewrite <- Zle_Qle in P. exact P.
  - pose proof (Qle_ceiling (x (Feedback k))) as C. rewrite Zle_Qle. change (inject_Z 0) with 0%Q. lra.
Qed.

Lemma point_sound x k c cap : spaced x -> nth_error (edges g) k = Some c -> channel_holds x k c -> channel_size ilp x g k c = Ok cap ->
  channel_valid g (point_schedule x) c /\
  within_capacity cap (e_preload c) (start_of (point_schedule x) (e_src c)) (prod_rate c) (end_of (point_schedule x) g (e_dst c)) (cons_rate c).
Proof.
  intros Hsp Ek [Hcols Hpairs] Hsize. pose proof (nth_error_In _ _ Ek) as Hin. destruct (ends g Hwf c Hin) as (vs & vd & Vs & Vd).
  pose proof (point_schedule_serialised x Hsp) as Ser. pose proof (point_schedule_periodic x) as Per.
  destruct (fine_divides c vs vd Hin Vs Vd) as (fg & Fp & Gm & Dz & D1 & D2 & D3 & D4).
  destruct (chan_facts g N Hwf Hno Hcyc c vs vd Hin Vs Vd) as (W1 & W2 & I1 & I2 & Sh & Z1 & Z2 & Pp & N1 & N2 & Gp).
  destruct (mu_tick g N period Hwf Hbal Hno Hcyc Hper c vs vd Hin Vs Vd) as (_ & _ & Tk & Tp).
  destruct (head_facts x k c Hcols) as (_ & _ & Fb & Fi). rewrite (vertex_at_ok _ _ _ Vs), (vertex_at_ok _ _ _ Vd) in Hpairs.
  split.
  - apply (tokens_suffice g N period Hwf Hbal Hno Hcyc Hper (point_schedule x) Per Ser c vs vd Hin Vs Vd). intros i j a Li Lj Da He Hd. destruct (Hpairs i j Li Lj) as [HN _]. rewrite (vertex_at_ok _ _ _ Vs) in HN.
    rewrite (point_schedule_at x _ _ _ Vs Li), (point_schedule_at x _ _ _ Vd Lj).
    assert (Df : (fg | a)) by (eapply Z.divide_trans; eassumption).
    assert (A1 : amin c (mop_of c) i j <= a).
    { unfold amin. apply up_ge; [exact Gp|exact Da|]. unfold early in He.
      apply (lattice_min fg (mop_of c) (e_preload c)); [exact Fp|exact Gm| |exact Df|lia].
      apply Z.divide_sub_r; [apply Z.divide_add_r; [apply max_divide; [apply Z.divide_0_r|apply Z.divide_sub_r; auto]|apply D4]|apply D3]. }
    assert (A2 : a <= amax c (mop_of c) i j).
    { unfold amax. apply down_ge; [exact Gp|exact Da|]. unfold due in Hd.
      assert (a <= sumf (cons_rate c) (S j) - sumf (prod_rate c) i - mop_of c - fg); [|lia].
      apply (lattice_max fg (mop_of c) (e_preload c)); [exact Fp|exact Gm|apply Z.divide_sub_r; auto|exact Df|lia]. }
    specialize (HN ltac:(lia)). assert ((inject_Z a * tick c <= inject_Z (amax c (mop_of c) i j) * tick c)%Q); [|lra].
    apply Qmult_le_compat_r; [rewrite <- Zle_Qle; exact A2|lra].
  - destruct (channel_size_spec ilp g N Hwf Hno Hcyc x k c vs vd Hin Vs Vd) as (r & Er & R1 & R2 & _). rewrite Hsize in Er. injection Er as ->.
    pose proof (guess_nonneg x k Fb Fi) as Gn.
    apply (room_suffices g N period Hwf Hbal Hno Hcyc Hper (point_schedule x) Per Ser c vs vd Hin Vs Vd (r + e_preload c)); [lia|].
    replace (r + e_preload c - e_preload c) with r by lia. intros i j a Li Lj Da He Hd. unfold early in He. unfold due in Hd. cbn [sumf] in He, Hd.
    assert (Ac : active c i j) by (unfold active; lia).
    specialize (R2 i j Li Lj Ac). destruct (Hpairs i j Li Lj) as [_ HF]. destruct (HF (proj1 Ac) (proj2 Ac)) as (F1 & _ & F3). rewrite (vertex_at_ok _ _ _ Vd) in F1.
    pose proof (local_value_le x k _ _ F3) as Lv. unfold pair_bound in R2. set (lv := local_value ilp x k (Z.of_nat i + 1) (Z.of_nat j + 1)) in *.
    rewrite (point_schedule_at x _ _ _ Vs Li), (point_schedule_at x _ _ _ Vd Lj). destruct Da as [q ->]. cbn [sumf] in R2.
    assert (q <= lv) by nia. rewrite Tk in F1.
    assert ((inject_Z (q * gz c) * tick c <= x (Local k (Z.of_nat i + 1) (Z.of_nat j + 1)) * inject_Z (gz c) * tick c)%Q); [|lra].
    apply Qmult_le_compat_r; [|lra]. rewrite inject_Z_mult. apply Qmult_le_compat_r; [|apply Qlt_le_weak, pos_inject; exact Gp].
    eapply Qle_trans; [|exact Lv]. rewrite <- Zle_Qle. assumption.
Qed.

(** ** From a schedule to a point. *)
Definition slack (cap : nat -> Z) (k : nat) (c : edge) (i j : nat) : Z :=
  (sumf (prod_rate c) (S i) - sumf (cons_rate c) j - (cap k - e_preload c) - 1) / gz c.
Definition represents (x : var -> Q) (s : schedule) (cap : nat -> Z) : Prop :=
  (exists D, forall i v a, nth_error (vertices g) i = Some v -> (a < v_phases v)%nat -> (T x i a == s i a + D)%Q) /\
  (x LoopFix == inject_Z (Z.of_nat (length (vertices g))))%Q /\
  (forall k c, nth_error (edges g) k = Some c -> (x (Mop k) == inject_Z (e_preload c))%Q /\ (x (Feedback k) == inject_Z (cap k - e_preload c))%Q /\
     forall i j, (x (Local k (Z.of_nat i + 1) (Z.of_nat j + 1)) == inject_Z (slack cap k c i j))%Q).

Lemma point_complete x s cap : one_periodic g N period s -> schedule_valid g s -> fits g cap s -> represents x s cap ->
  forall k c, nth_error (edges g) k = Some c -> channel_holds x k c.
Proof.
  intros Per [Hval Ser] Hfit ([D HT] & HL & HK) k c Ek. pose proof (nth_error_In _ _ Ek) as Hin. destruct (ends g Hwf c Hin) as (vs & vd & Vs & Vd).
  destruct (fine_divides c vs vd Hin Vs Vd) as (fg & Fp & Gm & Dz & D1 & D2 & D3 & D4).
  destruct (chan_facts g N Hwf Hno Hcyc c vs vd Hin Vs Vd) as (W1 & W2 & I1 & I2 & Sh & Z1 & Z2 & Pp & N1 & N2 & Gp).
  destruct (mu_tick g N period Hwf Hbal Hno Hcyc Hper c vs vd Hin Vs Vd) as (_ & _ & Tk & Tp).
  destruct (HK k c Ek) as (K1 & K2 & K3).
  destruct (room_need g N period Hwf Hbal Hno Hcyc Hper s Per Ser c vs vd Hin Vs Vd (cap k) (Hfit k c Ek)) as [Cp Room].
  pose proof (tokens_need g N period Hwf Hbal Hno Hcyc Hper s Per Ser c vs vd Hin Vs Vd (Hval c Hin)) as Tok.
  split.
  - intros col I. unfold head_columns in I. apply in_app_or in I. destruct I as [I|[<-|[<-|[]]]].
    + destruct (k =? 0)%nat; [|destruct I]. destruct I as [<-|[]]. split; cbn; [exact HL|intros _; eexists; exact HL].
    + split; cbn; [exact K1|intros _; eexists; exact K1].
    + split; cbn; [|intros _; eexists; exact K2]. rewrite K2. change 0%Q with (inject_Z 0). rewrite <- Zle_Qle. lia.
  - rewrite (vertex_at_ok _ _ _ Vs), (vertex_at_ok _ _ _ Vd). intros i j Li Lj. unfold pair_holds. rewrite (vertex_at_ok _ _ _ Vs), (vertex_at_ok _ _ _ Vd).
    rewrite (HT _ _ _ Vs Li), (HT _ _ _ Vd Lj). split.
    + intros _. specialize (Tok i j (amax c (mop_of c) i j) (down_divide _ _)).
      assert (Du : due (e_preload c) (prod_rate c) (cons_rate c) i j (amax c (mop_of c) i j)).
      { unfold due. pose proof (down_le (sumf (cons_rate c) (S j) - sumf (prod_rate c) i - mop_of c - 1) (gz c) Gp) as B. fold (amax c (mop_of c) i j) in B.
        assert (Df : (fg | amax c (mop_of c) i j)) by (eapply Z.divide_trans; [exact Dz|apply down_divide]).
        assert (X : amax c (mop_of c) i j + e_preload c < sumf (cons_rate c) (S j) - sumf (prod_rate c) i); [|lia].
        apply (lattice_max fg (mop_of c) (e_preload c)); [exact Fp|exact Gm|apply Z.divide_sub_r; auto|exact Df|].
        destruct Gm as [[m Em] _]. destruct Df as [d Ed]. destruct (D4 (S j)) as [u Eu]. destruct (D3 i) as [w Ew]. rewrite Ed, Em, Eu, Ew in B |- *.
        assert (d < u - w - m) by nia. nia. }
      specialize (Tok Du). lra.
    + intros A1 A2. rewrite (K3 i j), K2, Tk. set (sl := slack cap k c i j).
      assert (Sl : sl * gz c <= sumf (prod_rate c) (S i) - sumf (cons_rate c) j - (cap k - e_preload c) - 1 < sl * gz c + gz c).
      { apply (down_le (sumf (prod_rate c) (S i) - sumf (cons_rate c) j - (cap k - e_preload c) - 1) (gz c) Gp). }
      split; [|split; [|intros _; exists sl; apply K3]].
      * specialize (Room i j (sl * gz c) ltac:(exists sl; reflexivity)). rewrite inject_Z_mult in Room.
        assert (Du : due (cap k - e_preload c) (cons_rate c) (prod_rate c) j i (sl * gz c)) by (unfold due; lia). specialize (Room Du). lra.
      * rewrite <- inject_Z_mult, <- inject_Z_plus, <- Zle_Qle. lia.
Qed.

(** ** The totals. *)
Lemma sizes_spec x : (forall k c, nth_error (edges g) k = Some c -> exists z, channel_size ilp x g k c = Ok z) ->
  exists sizes, channel_sizes ilp x g = Ok sizes /\ length sizes = length (edges g) /\
    forall k c, nth_error (edges g) k = Some c -> channel_size ilp x g k c = Ok (nth k sizes 0).
Proof.
  intros H. unfold channel_sizes, indexed.
  assert (G : forall l a, (forall k c, nth_error l k = Some c -> exists z, channel_size ilp x g (a + k) c = Ok z) ->
    exists sizes, collect (map (fun kc => do z <- channel_size ilp x g (fst kc) (snd kc); Ok [z]) (combine (seq a (length l)) l)) = Ok sizes /\
      length sizes = length l /\ forall k c, nth_error l k = Some c -> channel_size ilp x g (a + k) c = Ok (nth k sizes 0)).
  { induction l as [|c l IH]; intros a Hl.
    - exists []. repeat split. intros [|k] c E; discriminate.
    - cbn [length seq combine map collect fst snd]. destruct (Hl 0%nat c eq_refl) as [z Ez]. rewrite Nat.add_0_r in Ez. rewrite Ez. cbn [bind].
      destruct (IH (S a)) as (sizes & E & Le & Hn).
      { intros k c' E. destruct (Hl (S k) c' E) as [z' Ez']. exists z'. rewrite <- Ez'. f_equal. lia. }
      rewrite E. cbn [bind app]. exists (z :: sizes). cbn [length]. repeat split; [congruence|].
      intros [|k] c' E'; cbn in E'; [injection E' as <-; rewrite Nat.add_0_r; exact Ez|]. specialize (Hn k c' E'). cbn [nth]. rewrite <- Hn. f_equal. lia. }
  destruct (G (edges g) 0%nat H) as (sizes & A). exists sizes. exact A.
Qed.

Lemma total_is_storage sizes : length sizes = length (edges g) -> total_size theta sizes = storage g theta (fun k => nth k sizes 0).
Proof.
  intros E. unfold storage, total_size, indexed. rewrite <- E. clear E.
  assert (G : forall l a, sumZ (map (fun ks => snd ks * theta (fst ks)) (combine (seq a (length l)) l)) = sumf (fun k => nth k l 0 * theta (a + k)%nat) (length l)).
  { induction l as [|z l IH]; intros a; [reflexivity|]. cbn [length seq combine map]. change (S (length l)) with (1 + length l)%nat.
    rewrite sumf_app. cbn [sumf nth]. cbn [sumZ fold_right fst snd]. unfold sumZ in IH. rewrite IH. rewrite Nat.add_0_r. rewrite Z.add_0_l. f_equal.
    apply sumf_ext. intros m _. cbn [nth Nat.add]. f_equal. f_equal. lia. }
  rewrite G. apply sumf_ext. intros; reflexivity.
Qed.

Lemma sumq_sumf f z n : (forall k, (k < n)%nat -> (f k == inject_Z (z k))%Q) -> (sumq f n == inject_Z (sumf z n))%Q.
Proof.
  intros H. unfold sumq.
  assert (G : forall m a, (a + m <= n)%nat -> (fold_right (fun k acc => f k + acc) 0 (seq a m) == inject_Z (sumf (fun k => z (a + k)%nat) m))%Q).
  { induction m as [|m IH]; intros a La; [reflexivity|]. cbn [seq fold_right]. rewrite IH by lia. rewrite (H a) by lia.
    change (S m) with (1 + m)%nat. rewrite sumf_app. rewrite inject_Z_plus. cbn [sumf]. rewrite Nat.add_0_r, Z.add_0_l.
    rewrite (sumf_ext (fun k => z (S a + k)%nat) (fun k => z (a + (1 + k))%nat)) by (intros; f_equal; lia). reflexivity. }
  rewrite (G n 0%nat ltac:(lia)). rewrite (sumf_ext (fun k => z (0 + k)%nat) z) by (intros; reflexivity). reflexivity.
Qed.

Definition base_cost : Q := if (length (edges g) =? 0)%nat then 0%Q else (2 * inject_Z (Z.of_nat (length (vertices g))))%Q.

Lemma edge_in_range k : (k < length (edges g))%nat -> exists c, nth_error (edges g) k = Some c.
Proof. intros H. destruct (nth_error (edges g) k) eqn:E; [eexists; reflexivity|]. apply nth_error_None in E. lia. Qed.

(** The cost of the point of a schedule is the storage of its capacities. *)
Lemma objective_of_schedule x s cap : represents x s cap ->
  (objective (channels_pure L ilp theta g N period off) x == base_cost + inject_Z (storage g theta cap))%Q.
Proof.
  intros (_ & HL & HK). rewrite channels_objective. unfold base_cost, storage. rewrite (sumq_sumf _ (fun k => cap k * theta k)).
  - destruct (length (edges g) =? 0)%nat; [reflexivity|]. rewrite HL. reflexivity.
  - intros k Lk. destruct (edge_in_range k Lk) as [c Ec]. destruct (HK k c Ec) as (K1 & K2 & _). rewrite K1, K2, <- inject_Z_plus, <- inject_Z_mult.
    replace (theta k * (e_preload c + (cap k - e_preload c))) with (cap k * theta k) by lia. reflexivity.
Qed.

(** An integer point is read back exactly. *)
Lemma integer_size x k c cap : ilp = true -> nth_error (edges g) k = Some c -> channel_holds x k c -> channel_size ilp x g k c = Ok cap ->
  (x (Feedback k) == inject_Z (cap - e_preload c))%Q.
Proof.
  intros Hi Ek [Hcols Hpairs] Hsize. pose proof (nth_error_In _ _ Ek) as Hin. destruct (ends g Hwf c Hin) as (vs & vd & Vs & Vd).
  destruct (head_facts x k c Hcols) as (_ & _ & Fb & Fi). destruct (Fi Hi) as [z Ez]. rewrite (vertex_at_ok _ _ _ Vs), (vertex_at_ok _ _ _ Vd) in Hpairs.
  destruct (channel_size_spec ilp g N Hwf Hno Hcyc x k c vs vd Hin Vs Vd) as (r & Er & R1 & _ & R3). rewrite Hsize in Er. injection Er as ->.
  replace (r + e_preload c - e_preload c) with r by lia.
  assert (Gz : first_guess ilp x k = z) by (unfold first_guess; rewrite Hi; apply round_away_integer; exact Ez). rewrite Gz in R1, R3.
  assert (r <= z); [|rewrite Ez; replace r with z by lia; reflexivity].
  destruct R3 as [->|(i & j & Li & Lj & A & ->)]; [lia|]. destruct (Hpairs i j Li Lj) as [_ HF]. destruct (HF (proj1 A) (proj2 A)) as (_ & F2 & F3).
  destruct (F3 Hi) as [y Ey]. unfold pair_bound, local_value. rewrite Hi, (round_away_integer _ _ Ey). rewrite Ey, Ez, <- inject_Z_mult, <- inject_Z_plus, <- Zle_Qle in F2. lia.
Qed.
Lemma objective_of_point x sizes : ilp = true -> (forall k c, nth_error (edges g) k = Some c -> channel_holds x k c) ->
  (forall k c, nth_error (edges g) k = Some c -> channel_size ilp x g k c = Ok (nth k sizes 0)) ->
  (objective (channels_pure L ilp theta g N period off) x == base_cost + inject_Z (storage g theta (fun k => nth k sizes 0%Z)))%Q.
Proof.
  intros Hi HC HS. rewrite channels_objective. unfold base_cost, storage. rewrite (sumq_sumf _ (fun k => nth k sizes 0 * theta k)).
  - destruct (length (edges g) =? 0)%nat eqn:E0; [reflexivity|]. apply Nat.eqb_neq in E0. destruct (edge_in_range 0 ltac:(lia)) as [c Ec].
    destruct (HC 0%nat c Ec) as [Hcols _]. destruct (head_facts x 0 c Hcols) as (HL & _). rewrite (HL eq_refl). reflexivity.
  - intros k Lk. destruct (edge_in_range k Lk) as [c Ec]. destruct (HC k c Ec) as [Hcols HP]. destruct (head_facts x k c Hcols) as (_ & K1 & _).
    rewrite (integer_size x k c _ Hi Ec (conj Hcols HP) (HS k c Ec)), K1, <- inject_Z_plus, <- inject_Z_mult.
    replace (theta k * (e_preload c + (nth k sizes 0 - e_preload c))) with (nth k sizes 0 * theta k) by lia. reflexivity.
Qed.

Lemma sizes_exist x : exists sizes, channel_sizes ilp x g = Ok sizes /\ length sizes = length (edges g) /\
    forall k c, nth_error (edges g) k = Some c -> channel_size ilp x g k c = Ok (nth k sizes 0).
Proof.
  apply sizes_spec. intros k c Ek. pose proof (nth_error_In _ _ Ek) as Hin. destruct (ends g Hwf c Hin) as (vs & vd & Vs & Vd).
  destruct (channel_size_spec ilp g N Hwf Hno Hcyc x k c vs vd Hin Vs Vd) as (r & Er & _). eexists; exact Er.
Qed.
End G.
