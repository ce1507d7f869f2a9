(** The linear programs of Sizing.v, in closed form. *)
From Coq Require Import QArith Qround Lqa Lia.
From Verif Require Import Base Graph Commons CommonsProofs KPeriodic ScheduleSpec ScheduleCore KPeriodicProofs KPeriodicChannel KPeriodicGraph KPeriodicEnd
  KIterSpec SPeriodicProofs DseSpec Sizing SizingSpec.
Open Scope Z_scope.

Definition concat_pure (l : list lp) : lp := mkLp (flat_map columns l) (flat_map rows l).
Lemma concat_pure_cons x l : concat_pure (x :: l) = app_lp x (concat_pure l).
Proof. reflexivity. Qed.
Lemma concat_lp_ok {A} (f : A -> outcome lp) (h : A -> lp) l : (forall a, In a l -> f a = Ok (h a)) ->
  concat_lp (map f l) = Ok (concat_pure (map h l)).
Proof.
  induction l as [|a l IH]; intros H; [reflexivity|]. cbn [map concat_lp]. rewrite (H a (or_introl eq_refl)). cbn [bind].
  rewrite IH by (intros b Hb; apply H; right; exact Hb). reflexivity.
Qed.
Lemma time_over_ok a b : b <> 0 -> time_over a b = Ok (a / inject_Z b)%Q.
Proof. intros H. unfold time_over. destruct (Z.eqb_spec b 0); [contradiction|reflexivity]. Qed.

Definition up (v c : Z) : Z := - ((- v) / c) * c.
Definition down (v c : Z) : Z := v / c * c.
Lemma ceil_ok v c : 0 < c -> ceil_to v c = Ok (up v c).
Proof. intros H. unfold ceil_to, up. destruct (Z.eqb_spec c 0); [lia|reflexivity]. Qed.
Lemma floor_ok v c : 0 < c -> floor_to v c = Ok (down v c).
Proof. intros H. unfold floor_to, down. destruct (Z.eqb_spec c 0); [lia|reflexivity]. Qed.
Lemma down_le v c : 0 < c -> down v c <= v < down v c + c.
Proof. intros H. unfold down. pose proof (Z.div_mod v c ltac:(lia)). pose proof (Z.mod_pos_bound v c H). lia. Qed.
Lemma down_divide v c : (c | down v c).
Proof. exists (v / c). reflexivity. Qed.
Lemma up_ge v c a : 0 < c -> (c | a) -> (up v c <= a <-> v <= a).
Proof.
  intros H [q ->]. unfold up. pose proof (Z.div_mod (- v) c ltac:(lia)). pose proof (Z.mod_pos_bound (- v) c H).
  split; intros X; [nia|]. assert (- q <= (- v) / c); [|nia]. apply Z.div_le_lower_bound; lia.
Qed.
Lemma down_ge v c a : 0 < c -> (c | a) -> (a <= down v c <-> a <= v).
Proof.
  intros H D. pose proof (down_le v c H). split; [lia|]. intros X. destruct D as [q ->]. unfold down in *.
  assert (q <= v / c) by (apply Z.div_le_lower_bound; lia). nia.
Qed.

Lemma zrange_seq n : zrange 1 (Z.of_nat n) = map (fun i => Z.of_nat i + 1) (seq 0 n).
Proof. unfold zrange. replace (Z.to_nat (Z.of_nat n - 1 + 1)) with n by lia. apply map_ext. intros; lia. Qed.

Definition no_vertex : vertex := mkVertex 0 0 0 [] [] 0.
Definition vertex_at (g : graph) (i : nat) : vertex := nth i (vertices g) no_vertex.
Lemma vertex_at_ok g i v : nth_error (vertices g) i = Some v -> vertex_at g i = v.
Proof. intros E. unfold vertex_at. apply nth_error_nth. exact E. Qed.

Section L.
Variables (L : layout) (ilp : bool) (theta : nat -> Z) (g : graph) (N : nat -> Z) (period : Q).
Hypothesis Hwf : graph_wf g.
Hypothesis Hbal : balanced g N.
Hypothesis Hno : no_init g.
Hypothesis Hcyc : whole_cycles g N.
(** The offset of phase [a] of task [i]. *)
Variable off : nat -> nat -> Q.
Hypothesis Hoff : forall i v a, nth_error (vertices g) i = Some v -> (a < v_phases v)%nat -> l_offset L i (Z.of_nat a + 1) = Ok (off i a).
Hypothesis Hskip : forall i j a b, l_skip L i j a b = true -> l_var L i a = l_var L j b.

Definition mu_of (i : nat) : Q := (period * inject_Z (Z.of_nat (v_phases (vertex_at g i))) / inject_Z (N i))%Q.
Definition tick (c : edge) : Q := (mu_of (e_src c) / inject_Z (sumZ (e_in c)))%Q.
Definition tick' (c : edge) : Q := (mu_of (e_dst c) / inject_Z (sumZ (e_out c)))%Q.
Definition gz (c : edge) : Z := Z.gcd (sumZ (e_in c)) (sumZ (e_out c)).

Definition amax (c : edge) (mop : Z) (i j : nat) : Z := down (sumf (cons_rate c) (S j) - sumf (prod_rate c) i - mop - 1) (gz c).
Definition amin (c : edge) (mop : Z) (i j : nat) : Z :=
  up (Z.max 0 (prod_rate c i - cons_rate c j) + sumf (cons_rate c) (S j) - sumf (prod_rate c) (S i) - mop) (gz c).

Definition normal_rows (k : nat) (c : edge) (mop : Z) (i j : nat) : list row :=
  let si := l_var L (e_src c) (Z.of_nat i + 1) in
  let sj := l_var L (e_dst c) (Z.of_nat j + 1) in
  let skip := l_skip L (e_src c) (e_dst c) (Z.of_nat i + 1) (Z.of_nat j + 1) in
  if amin c mop i j <=? amax c mop i j
  then [mkRow (if skip then [] else [(sj, 1%Q); (si, (-1)%Q)])
          (off (e_src c) i - off (e_dst c) j + exec_duration (vertex_at g (e_src c)) i + inject_Z (amax c mop i j) * tick c)]
  else [].
Definition pair_pure (k : nat) (c : edge) (mop : Z) (i j : nat) : lp :=
  let ai := Z.of_nat i + 1 in
  let aj := Z.of_nat j + 1 in
  let si := l_var L (e_src c) ai in
  let sj := l_var L (e_dst c) aj in
  let skip := l_skip L (e_src c) (e_dst c) ai aj in
  if Z.min (prod_rate c i) (cons_rate c j) >? 0 then
    mkLp [mkColumn (Local k ai aj) ilp NoBound 0]
         (normal_rows k c mop i j ++
          [mkRow ((Local k ai aj, - (tick' c * inject_Z (gz c)))%Q :: (if skip then [] else [(si, 1%Q); (sj, (-1)%Q)]))
             (exec_duration (vertex_at g (e_dst c)) j - off (e_src c) i + off (e_dst c) j);
           mkRow [(Local k ai aj, inject_Z (gz c)); (Feedback k, 1%Q)] (inject_Z (- sumf (cons_rate c) j + sumf (prod_rate c) (S i) - gz c))])
  else mkLp [] (normal_rows k c mop i j).
Definition mop_of (c : edge) : Z := down (e_preload c) (match fine_gcd c with Ok x => x | _ => 1 end).
Definition head_columns (k : nat) (c : edge) : list column :=
  (if (k =? 0)%nat then [mkColumn LoopFix ilp (FixBound (inject_Z (Z.of_nat (length (vertices g))))) 2] else []) ++
    [mkColumn (Mop k) ilp (FixBound (inject_Z (e_preload c))) (inject_Z (theta k));
     mkColumn (Feedback k) ilp (LowBound 0) (inject_Z (theta k))].
Definition channel_pure (k : nat) (c : edge) : lp :=
  app_lp (mkLp (head_columns k c) [])
    (concat_pure (map (fun i => concat_pure (map (fun j => pair_pure k c (mop_of c) i j) (seq 0 (v_phases (vertex_at g (e_dst c))))))
       (seq 0 (v_phases (vertex_at g (e_src c)))))).

Section C.
Variables (k : nat) (c : edge) (vs vd : vertex).
Hypothesis Hin : In c (edges g).
Hypothesis Vs : nth_error (vertices g) (e_src c) = Some vs.
Hypothesis Vd : nth_error (vertices g) (e_dst c) = Some vd.

Lemma chan_facts : vertex_wf vs /\ vertex_wf vd /\ v_init_phases vs = 0%nat /\ v_init_phases vd = 0%nat /\ chan_shape c vs vd /\
  0 < sumZ (e_in c) /\ 0 < sumZ (e_out c) /\ 0 <= e_preload c /\ 0 < N (e_src c) /\ 0 < N (e_dst c) /\ 0 < gz c.
Proof using Hwf Hno Hcyc Hin Vs Vd. clear Hskip Hoff off Hbal theta k L.
  destruct (edge_shape g Hwf c Hin) as (vs' & vd' & V1 & V2 & W1 & W2 & Sh).
  rewrite Vs in V1. rewrite Vd in V2. injection V1 as <-. injection V2 as <-.
  destruct Hwf as (_ & He & _). destruct (He c Hin) as (? & ? & _ & _ & _ & _ & _ & _ & _ & Z1 & Z2 & Pp).
  repeat (split; [try assumption; try (apply Hno; eapply nth_error_In; eassumption)|]); try assumption;
    try (eapply Hcyc; eassumption).
  unfold gz. pose proof (Z.gcd_nonneg (sumZ (e_in c)) (sumZ (e_out c))). enough (Z.gcd (sumZ (e_in c)) (sumZ (e_out c)) <> 0) by lia.
  intros X. apply Z.gcd_eq_0_l in X. lia.
Qed.

Lemma pair_ok mop i j : (i < v_phases vs)%nat -> (j < v_phases vd)%nat ->
  pair_lp L ilp k c (mu_of (e_src c)) (mu_of (e_dst c)) (sumZ (e_in c)) (sumZ (e_out c)) mop (gz c) (Z.of_nat i + 1)
    (exec_duration vs i) (off (e_src c) i) (prod_rate c i) (sumf (prod_rate c) i + prod_rate c i) (sumf (prod_rate c) i)
    (Z.of_nat j + 1) (exec_duration vd j) (off (e_dst c) j) (cons_rate c j) (sumf (cons_rate c) j + cons_rate c j) (sumf (cons_rate c) j)
  = Ok (pair_pure k c mop i j).
Proof.
  intros Li Lj. destruct chan_facts as (W1 & W2 & I1 & I2 & Sh & Z1 & Z2 & _ & _ & _ & Gp).
  unfold pair_lp. rewrite ceil_ok, floor_ok, !time_over_ok by lia. cbn [bind].
  unfold pair_pure, normal_rows. rewrite (vertex_at_ok _ _ _ Vs), (vertex_at_ok _ _ _ Vd).
  unfold amin, amax, tick, tick'. cbn [sumf].
  destruct (Z.min _ _ >? 0); reflexivity.
Qed.

Lemma inner_ok mop i n : forall a, (i < v_phases vs)%nat -> (a + n <= v_phases vd)%nat ->
  inner_lp L ilp k c vd (mu_of (e_src c)) (mu_of (e_dst c)) (sumZ (e_in c)) (sumZ (e_out c)) mop (gz c) (Z.of_nat i + 1)
    (exec_duration vs i) (off (e_src c) i) (prod_rate c i) (sumf (prod_rate c) i + prod_rate c i) (sumf (prod_rate c) i)
    (map (fun j => Z.of_nat j + 1) (seq a n)) (sumf (cons_rate c) a)
  = Ok (concat_pure (map (fun j => pair_pure k c mop i j) (seq a n))).
Proof.
  destruct chan_facts as (W1 & W2 & I1 & I2 & Sh & _).
  induction n as [|n IH]; intros a Li La; [reflexivity|]. cbn [seq map inner_lp].
  rewrite (phase_duration vd a W2 I2) by lia. cbn [bind]. rewrite (Hoff _ _ a Vd) by lia. cbn [bind].
  rewrite (out_access c vs vd Sh I1 I2 1 0 (fun _ _ => Z.divide_1_l _)) by lia. cbn [bind]. rewrite pair_ok by lia. cbn [bind].
  change (sumf (cons_rate c) a + cons_rate c a) with (sumf (cons_rate c) (S a)). rewrite IH by lia. reflexivity.
Qed.

Lemma outer_ok mop n : forall a, (a + n <= v_phases vs)%nat ->
  outer_lp L ilp k c vs vd (mu_of (e_src c)) (mu_of (e_dst c)) (sumZ (e_in c)) (sumZ (e_out c)) mop (gz c)
    (map (fun i => Z.of_nat i + 1) (seq a n)) (sumf (prod_rate c) a)
  = Ok (concat_pure (map (fun i => concat_pure (map (fun j => pair_pure k c mop i j) (seq 0 (v_phases vd)))) (seq a n))).
Proof.
  destruct chan_facts as (W1 & W2 & I1 & I2 & Sh & _).
  induction n as [|n IH]; intros a La; [reflexivity|]. cbn [seq map outer_lp].
  rewrite (phase_duration vs a W1 I1) by lia. cbn [bind]. rewrite (Hoff _ _ a Vs) by lia. cbn [bind].
  rewrite (in_access c vs vd Sh I1 I2 1 0 (fun _ _ => Z.divide_1_l _)) by lia. cbn [bind]. rewrite zrange_seq.
  change 0 with (sumf (cons_rate c) 0) at 1. rewrite inner_ok by lia. cbn [bind].
  change (sumf (prod_rate c) a + prod_rate c a) with (sumf (prod_rate c) (S a)). rewrite IH by lia. reflexivity.
Qed.

Lemma mop_spec : exists fg, fine_gcd c = Ok fg /\ 0 < fg /\ (forall x, In x (e_in c ++ e_out c) -> (fg | x)) /\ mop_of c = down (e_preload c) fg.
Proof using Hwf Hno Hcyc Hin Vs Vd. clear Hskip Hoff off Hbal theta k L.
  destruct chan_facts as (W1 & W2 & I1 & I2 & Sh & Z1 & Z2 & _).
  destruct (fine_gcd_spec c) as (fg & E & P & D).
  - destruct Sh, W1. lia.
  - destruct Sh as (_ & _ & _ & _ & X). intros x Hx. apply X. rewrite in_app_iff in *. destruct Hx; [left; assumption|right; rewrite in_app_iff; tauto].
  - assumption.
  - exists fg. repeat split; try assumption. unfold mop_of. rewrite E. reflexivity.
Qed.

Lemma channel_ok : channel_lp L ilp theta g N period k c = Ok (channel_pure k c).
Proof.
  destruct chan_facts as (W1 & W2 & I1 & I2 & Sh & Z1 & Z2 & _ & N1 & N2 & Gp).
  unfold channel_lp, lookup_vertex. rewrite Vs. cbn [bind]. rewrite Vd. cbn [bind]. unfold mu. rewrite !time_over_ok by lia. cbn [bind].
  destruct mop_spec as (fg & E & Fp & _ & Em). rewrite E. cbn [bind]. rewrite floor_ok by lia. cbn [bind]. rewrite <- Em.
  unfold edge_in_total, edge_out_total. fold (gz c).
  assert (M1 : (period * inject_Z (Z.of_nat (v_phases vs)) / inject_Z (N (e_src c)))%Q = mu_of (e_src c)) by (unfold mu_of; rewrite (vertex_at_ok _ _ _ Vs); reflexivity).
  assert (M2 : (period * inject_Z (Z.of_nat (v_phases vd)) / inject_Z (N (e_dst c)))%Q = mu_of (e_dst c)) by (unfold mu_of; rewrite (vertex_at_ok _ _ _ Vd); reflexivity).
  rewrite M1, M2, zrange_seq. change 0 with (sumf (prod_rate c) 0) at 1. rewrite outer_ok by lia. cbn [bind].
  unfold channel_pure. rewrite (vertex_at_ok _ _ _ Vs), (vertex_at_ok _ _ _ Vd). reflexivity.
Qed.
End C.

Definition channels_pure : lp := concat_pure (map (fun kc => channel_pure (fst kc) (snd kc)) (indexed (edges g))).
Lemma ends c : In c (edges g) -> exists vs vd, nth_error (vertices g) (e_src c) = Some vs /\ nth_error (vertices g) (e_dst c) = Some vd.
Proof. intros I. destruct Hwf as (_ & He & _). destruct (He c I) as (vs & vd & A & B & _). exists vs, vd. split; assumption. Qed.
Lemma channels_ok : channels_lp L ilp theta g N period = Ok channels_pure.
Proof.
  unfold channels_lp, channels_pure. apply concat_lp_ok. intros [k c] I. cbn [fst snd].
  apply indexed_in in I. apply nth_error_In in I. destruct (ends c I) as (vs & vd & A & B). eapply channel_ok; eassumption.
Qed.
End L.
