(** The K-vector update, the incremental event graph update, termination. *)
From Coq Require Import QArith Znumtheory Lqa Permutation.
From Verif Require Import Base Graph Commons CommonsProofs FractionProofs KPeriodic ScheduleSpec KPeriodicSpec
  KPeriodicProofs KPeriodicChannel KPeriodicSelfloop KPeriodicGraph EventGraph EventGraphSpec EventGraphProofs
  KPeriodicEnd KPeriodicProps KIter KIterSpec.
Open Scope Z_scope.

Section Vec.
Variables (g : graph) (N : nat -> Z).
Hypothesis Hwf : graph_wf g.
Hypothesis Hcyc : whole_cycles g N.

Lemma cycles_spec i v : nth_error (vertices g) i = Some v ->
  full_cycles g N i = Ok (cycles g N i) /\ 0 < cycles g N i /\ N i = cycles g N i * Z.of_nat (v_phases v).
Proof.
  intros E. unfold full_cycles, lookup_vertex, cycles. rewrite E. cbn [bind].
  destruct (Hcyc i v E) as [HN [q Hq]]. destruct (vertex_ok g Hwf i v E) as [HP _].
  set (P := Z.of_nat (v_phases v)) in *. assert (0 < P) by (unfold P; lia).
  rewrite cdiv_ok by lia. rewrite Hq. rewrite Z.div_mul, Z.quot_mul by lia. split; [reflexivity|]. split; [nia|reflexivity].
Qed.

Lemma edge_ends c : In c (edges g) -> exists vs vd,
  nth_error (vertices g) (e_src c) = Some vs /\ nth_error (vertices g) (e_dst c) = Some vd.
Proof. intros H. destruct (edge_shape g Hwf c H) as (vs & vd & H1 & H2 & _). eauto. Qed.

Definition gcd_list (cc : list edge) (acc : Z) : Z := fold_left (fun a c => Z.gcd a (cycles g N (e_src c))) cc acc.

Lemma local_gcd_ok cc : incl cc (edges g) -> forall acc, local_gcd g N cc acc = Ok (gcd_list cc acc).
Proof.
  induction cc as [|c cc IH]; intros Hi acc; [reflexivity|]. cbn [local_gcd].
  destruct (edge_ends c (Hi c (or_introl eq_refl))) as (vs & vd & H1 & _).
  destruct (cycles_spec _ _ H1) as [-> _]. cbn [bind]. apply IH. intros x Hx. apply Hi. right; auto.
Qed.

Lemma gcd_list_spec cc : forall acc, 0 <= acc -> 0 <= gcd_list cc acc /\ (gcd_list cc acc | acc) /\
  (forall i, on_circuit cc i -> (gcd_list cc acc | cycles g N i)) /\
  (forall d, (d | acc) -> (forall i, on_circuit cc i -> (d | cycles g N i)) -> (d | gcd_list cc acc)).
Proof.
  induction cc as [|c cc IH]; intros acc Ha; cbn [gcd_list fold_left].
  - split; [exact Ha|]. split; [apply Z.divide_refl|]. split; [intros i (c & [] & _)|]. auto.
  - change (fold_left _ cc ?x) with (gcd_list cc x).
    destruct (IH (Z.gcd acc (cycles g N (e_src c))) (Z.gcd_nonneg _ _)) as (H0 & H1 & H2 & H3).
    split; [exact H0|]. split; [eapply Z.divide_trans; [exact H1|apply Z.gcd_divide_l]|]. split.
    + intros i (c' & [<-|Hc'] & <-); [eapply Z.divide_trans; [exact H1|apply Z.gcd_divide_r]|].
      apply H2. exists c'. auto.
    + intros d Hd Hall. apply H3; [apply Z.gcd_greatest; [exact Hd|apply Hall; exists c; cbn; auto]|].
      intros i (c' & Hc' & <-). apply Hall. exists c'. cbn; auto.
Qed.

Lemma is_cycle_gcd_list cc : is_cycle_gcd g N cc (gcd_list cc 0).
Proof.
  destruct (gcd_list_spec cc 0 (Z.le_refl 0)) as (H0 & _ & H2 & H3). split; [exact H0|]. split; [exact H2|].
  intros d Hd. apply H3; [apply Z.divide_0_r|exact Hd].
Qed.

Lemma is_cycle_gcd_pos cc G c : In c cc -> In c (edges g) -> is_cycle_gcd g N cc G -> 0 < G.
Proof.
  intros Hc He (H0 & H1 & _). destruct (edge_ends c He) as (vs & _ & E & _).
  destruct (cycles_spec _ _ E) as (_ & Hp & _). destruct (H1 (e_src c)) as [k Hk]; [exists c; auto|].
  destruct (Z.eq_dec G 0) as [->|]; [lia|lia].
Qed.

Lemma is_cycle_gcd_unique cc cc' G G' : (forall i, on_circuit cc i <-> on_circuit cc' i) ->
  is_cycle_gcd g N cc G -> is_cycle_gcd g N cc' G' -> G = G'.
Proof.
  intros E (H0 & H1 & H2) (H0' & H1' & H2'). apply Z.divide_antisym_nonneg; auto.
  - apply H2'. intros i Hi. apply H1, E, Hi.
  - apply H2. intros i Hi. apply H1', E, Hi.
Qed.

(** The cycle count relative to a common divisor. *)
Lemma div_divides q G : 0 < G -> 0 < q -> (G | q) -> 0 < q / G /\ q = G * (q / G).
Proof.
  intros HG Hq [k ->]. rewrite Z.div_mul by lia. split; [nia|ring].
Qed.

Definition new_k (cc : list edge) (G : Z) (K : nat -> Z) (i : nat) : Z := Z.lcm (K i) (cycles g N i / G).

Lemma lcm_pos a b : 0 < a -> 0 < b -> 0 < Z.lcm a b.
Proof.
  intros Ha Hb. pose proof (Z.lcm_nonneg a b). destruct (Z.eq_dec (Z.lcm a b) 0) as [E|]; [|lia].
  apply Z.lcm_eq_0 in E. lia.
Qed.

Lemma new_k_ok i v K G : nth_error (vertices g) i = Some v -> 0 < G -> (G | cycles g N i) ->
  0 < K i -> (K i | cycles g N i) -> let k := Z.lcm (K i) (cycles g N i / G) in
  0 < k /\ (K i | k) /\ (k | cycles g N i) /\ k <= cycles g N i.
Proof.
  intros E HG Hd HK HKd k. destruct (cycles_spec i v E) as (_ & Hq & _).
  destruct (div_divides _ _ HG Hq Hd) as [Hr Er].
  assert (Hk : 0 < k) by (apply lcm_pos; assumption).
  assert (Hkd : (k | cycles g N i)).
  { apply Z.lcm_least; [exact HKd|]. exists G. lia. }
  split; [exact Hk|]. split; [apply Z.divide_lcm_l|]. split; [exact Hkd|]. apply Z.divide_pos_le; assumption.
Qed.

Definition kdiv (K : nat -> Z) : Prop :=
  forall i v, nth_error (vertices g) i = Some v -> 0 < K i /\ (K i | cycles g N i).

Lemma divides_iteration_kdiv K : divides_iteration g N K <-> kdiv K.
Proof.
  split; intros H i v E; destruct (H i v E) as [H1 H2]; (split; [exact H1|]); destruct (cycles_spec i v E) as (_ & Hq & Hn);
    destruct (vertex_ok g Hwf i v E) as [HP _].
  - rewrite Hn in H2. apply Z.mul_divide_cancel_r in H2; [exact H2|lia].
  - rewrite Hn. apply Z.mul_divide_mono_r. exact H2.
Qed.

Lemma update_loop_spec G : 0 < G -> forall cc, incl cc (edges g) ->
  (forall i, on_circuit cc i -> (G | cycles g N i)) ->
  forall K ch, kdiv K ->
  exists K' ch', update_loop g N G cc K ch = Ok (K', ch') /\ kdiv K' /\
    (forall i, on_circuit cc i -> K' i = Z.lcm (K i) (cycles g N i / G)) /\
    (forall i, ~ on_circuit cc i -> K' i = K i) /\
    (ch' = false <-> ch = false /\ forall i, on_circuit cc i -> K' i = K i).
Proof.
  intros HG. induction cc as [|c cc IH]; intros Hi Hd K ch HK.
  - exists K, ch. split; [reflexivity|]. split; [exact HK|]. split; [intros i (c & [] & _)|]. split; [auto|].
    split; [intros ->; split; auto|intros [-> _]; reflexivity].
  - destruct (edge_ends c (Hi c (or_introl eq_refl))) as (vs & vd & E1 & E2).
    destruct (cycles_spec _ _ E1) as (F1 & Q1 & _). destruct (cycles_spec _ _ E2) as (F2 & Q2 & _).
    cbn [update_loop]. rewrite F1, F2. cbn [bind]. rewrite cdiv_ok by lia. cbn [bind].
    assert (Hon : on_circuit (c :: cc) (e_src c)) by (exists c; cbn; auto).
    rewrite Z.quot_div_nonneg by lia.
    set (q := cycles g N (e_src c)) in *. set (nk := Z.lcm (K (e_src c)) (q / G)).
    destruct (HK _ _ E1) as [Hk1 Hk2].
    destruct (new_k_ok _ _ K G E1 HG (Hd _ Hon) Hk1 Hk2) as (N1 & N2 & N3 & N4). fold q in N1, N2, N3, N4. fold nk in N1, N2, N3, N4.
    set (K1 := set_k K (e_src c) nk).
    assert (HK1 : kdiv K1).
    { intros i v E. unfold K1, set_k. destruct (Nat.eqb_spec i (e_src c)) as [->|_]; [split; assumption|apply (HK i v E)]. }
    assert (A1 : K1 (e_src c) = nk) by (unfold K1, set_k; rewrite Nat.eqb_refl; reflexivity).
    rewrite A1. rewrite (proj2 (Z.leb_le nk q) N4). cbn [cassert bind].
    assert (A2 : K1 (e_dst c) <= cycles g N (e_dst c)).
    { destruct (HK1 _ _ E2) as [B1 B2]. apply Z.divide_pos_le; assumption. }
    rewrite (proj2 (Z.leb_le _ _) A2). cbn [cassert bind].
    destruct (IH (fun x Hx => Hi x (or_intror Hx))) with (K := K1) (ch := ch || negb (nk =? K (e_src c)))
      as (K' & ch' & EQ & H1 & H2 & H3 & H4); [|exact HK1|].
    { intros i (c' & Hc' & <-). apply Hd. exists c'. cbn; auto. }
    exists K', ch'. split; [exact EQ|]. split; [exact H1|].
    assert (Hsame : K' (e_src c) = nk).
    { destruct (in_dec Nat.eq_dec (e_src c) (map e_src cc)) as [I|I].
      - rewrite H2. 2: { apply in_map_iff in I as (c' & Ec & Ic). exists c'. auto. }
        rewrite A1. fold q. unfold nk. rewrite <- Z.lcm_assoc, Z.lcm_diag.
        rewrite Z.abs_eq; [reflexivity|]. apply Z.div_pos; lia.
      - rewrite H3, A1; [reflexivity|]. intros (c' & Hc' & Ec). apply I. rewrite <- Ec. apply in_map. exact Hc'. }
    split; [|split].
    + intros i (c' & [<-|Hc'] & <-); [exact Hsame|].
      destruct (Nat.eq_dec (e_src c') (e_src c)) as [Ee|Ne]; [rewrite Ee; exact Hsame|].
      rewrite H2 by (exists c'; auto). unfold K1, set_k. destruct (Nat.eqb_spec (e_src c') (e_src c)); [contradiction|reflexivity].
    + intros i Hn. rewrite H3 by (intros (c' & Hc' & Ec); apply Hn; exists c'; cbn; auto).
      unfold K1, set_k. destruct (Nat.eqb_spec i (e_src c)) as [->|_]; [contradiction|reflexivity].
    + rewrite H4, orb_false_iff, negb_false_iff, Z.eqb_eq. split.
      * intros ((Hc1 & Hc2) & Hall). split; [exact Hc1|]. intros i (c' & [<-|Hc'] & <-); [congruence|].
        destruct (Nat.eq_dec (e_src c') (e_src c)) as [Ee|Ne]; [rewrite Ee; congruence|].
        rewrite (Hall (e_src c')) by (exists c'; auto). unfold K1, set_k.
        destruct (Nat.eqb_spec (e_src c') (e_src c)); [contradiction|reflexivity].
      * intros (Hc1 & Hall). assert (Hs : nk = K (e_src c)) by (rewrite <- Hsame; apply Hall; exact Hon).
        split; [split; [exact Hc1|exact Hs]|]. intros i (c' & Hc' & <-).
        rewrite (Hall (e_src c')) by (exists c'; cbn; auto). unfold K1, set_k.
        destruct (Nat.eqb_spec (e_src c') (e_src c)) as [->|]; [congruence|reflexivity].
Qed.

Lemma update_vector_spec cc K : incl cc (edges g) -> kdiv K ->
  exists G K' ch, update_vector g N K cc = Ok (K', ch) /\ is_cycle_gcd g N cc G /\ kdiv K' /\
    (forall i, on_circuit cc i -> K' i = Z.lcm (K i) (cycles g N i / G)) /\
    (forall i, ~ on_circuit cc i -> K' i = K i) /\
    (ch = false <-> forall i, on_circuit cc i -> K' i = K i).
Proof.
  intros Hi HK. exists (gcd_list cc 0). unfold update_vector. rewrite local_gcd_ok by exact Hi. cbn [bind].
  pose proof (is_cycle_gcd_list cc) as HG. destruct cc as [|c cc].
  - exists K, false. split; [reflexivity|]. split; [exact HG|]. split; [exact HK|].
    split; [intros i (c & [] & _)|]. split; [reflexivity|]. split; auto.
  - assert (Hp : 0 < gcd_list (c :: cc) 0).
    { apply (is_cycle_gcd_pos (c :: cc) _ c); [left; reflexivity|apply Hi; left; reflexivity|exact HG]. }
    destruct (update_loop_spec _ Hp (c :: cc) Hi (proj1 (proj2 HG)) K false HK) as (K' & ch & E & H1 & H2 & H3 & H4).
    exists K', ch. split; [exact E|]. split; [exact HG|]. split; [exact H1|]. split; [exact H2|]. split; [exact H3|].
    rewrite H4. split; [intros [_ H]; exact H|intros H; split; [reflexivity|exact H]].
Qed.
End Vec.

(** * sameset *)
Lemma same_edge_true c1 c2 : same_edge c1 c2 = true <-> e_id c1 = e_id c2.
Proof. apply Z.eqb_eq. Qed.

Lemma sameset_spec l1 l2 : NoDup (map e_id l1) -> NoDup (map e_id l2) ->
  (sameset l1 l2 = true <-> forall id, In id (map e_id l1) <-> In id (map e_id l2)).
Proof.
  intros N1 N2. unfold sameset. destruct (Nat.eqb_spec (length l1) (length l2)) as [E|NE].
  - assert (Hb : forallb (fun c1 => existsb (fun c2 => same_edge c1 c2) l2) l1 = true <-> incl (map e_id l1) (map e_id l2)).
    { rewrite forallb_forall. split.
      - intros H id Hid. apply in_map_iff in Hid as (c & <- & Hc). specialize (H c Hc).
        apply existsb_exists in H as (c2 & H2 & E2). apply same_edge_true in E2. rewrite E2. apply in_map. exact H2.
      - intros H c Hc. apply existsb_exists. specialize (H (e_id c) (in_map e_id _ _ Hc)).
        apply in_map_iff in H as (c2 & E2 & H2). exists c2. split; [exact H2|]. apply same_edge_true. auto. }
    rewrite Hb. split.
    + intros Hi id. split; [apply Hi|]. intros Hid. revert id Hid.
      change (incl (map e_id l2) (map e_id l1)). apply NoDup_length_incl; [exact N1| |exact Hi].
      rewrite !map_length. lia.
    + intros H id Hid. apply H. exact Hid.
  - split; [discriminate|]. intros H. exfalso. apply NE.
    rewrite <- (map_length e_id l1), <- (map_length e_id l2). apply Nat.le_antisymm; apply NoDup_incl_length; auto; intros x Hx; apply H; exact Hx.
Qed.

(** * The incremental update *)
Section Upd.
Variables (var : variant) (g : graph) (N : nat -> Z).
Hypothesis Hwf : graph_wf g.
Hypothesis Hcyc : whole_cycles g N.
Hypothesis Hni : no_init g.
Hypothesis Hids : edge_ids_ok g.

Lemma HN_pos : positive_on g N.
Proof.
  intros i Hi. destruct (nth_error (vertices g) i) as [v|] eqn:E; [apply (Hcyc i v E)|].
  apply nth_error_None in E. lia.
Qed.
Lemma kdiv_pos K : kdiv g N K -> positive_on g K.
Proof.
  intros H i Hi. destruct (nth_error (vertices g) i) as [v|] eqn:E; [apply (H i v E)|].
  apply nth_error_None in E. lia.
Qed.

Lemma edge_id_inj c c' : In c (edges g) -> In c' (edges g) -> e_id c = e_id c' -> c = c'.
Proof.
  destruct Hids as [Hn _]. generalize (edges g) Hn. clear.
  induction l as [|x l IH]; cbn; intros Hn H1 H2 E; [contradiction|]. inversion Hn; subst.
  destruct H1 as [<-|H1], H2 as [<-|H2]; auto.
  - exfalso. apply H3. rewrite E. apply in_map. auto.
  - exfalso. apply H3. rewrite <- E. apply in_map. auto.
Qed.

Lemma vertex_id_inj i j v w : nth_error (vertices g) i = Some v -> nth_error (vertices g) j = Some w ->
  v_id v = v_id w -> i = j /\ v = w.
Proof.
  intros H1 H2 E. destruct Hwf as (_ & _ & Hn).
  pose proof (index_of_nth _ Hn i v H1) as A. pose proof (index_of_nth _ Hn j w H2) as B.
  rewrite E in A. assert (Hij : i = j) by congruence. split; [exact Hij|]. rewrite Hij in H1. congruence.
Qed.

(** The two ends of a generated constraint. *)
Lemma selfloop_ends v n k r x : vertex_wf v -> 0 < n -> 0 < k -> generate_selfloop v n k = Ok r -> In x r ->
  ev_task (c_source x) = v_id v /\ ev_task (c_target x) = v_id v.
Proof.
  intros Hv Hn Hk Hg Hx. destruct (generate_selfloop_spec v n (Z.to_nat k) Hv ltac:(lia) Hn) as (r' & Hr & Hin).
  rewrite Z2Nat.id in Hr by lia. rewrite Hg in Hr. injection Hr as <-. cbv zeta in Hin.
  apply Hin in Hx. destruct Hx as [(j & _ & ->)|(_ & ->)]; cbn [c_source c_target]; auto.
Qed.
Lemma channel_ends c vs vd n ki kj r x : vertex_wf vs -> vertex_wf vd -> chan_shape c vs vd -> 0 < n -> 0 < ki -> 0 < kj ->
  generate_channel var c vs vd n ki kj = Ok r -> In x r ->
  ev_task (c_source x) = v_id vs /\ ev_task (c_target x) = v_id vd /\ c_channel x = e_id c.
Proof.
  intros Hs Hd Hsh Hn Hk1 Hk2 Hg Hx.
  destruct (generate_channel_spec var c vs vd (Z.to_nat ki) (Z.to_nat kj) n Hs Hd Hsh ltac:(lia) ltac:(lia) Hn)
    as (? & ? & r' & _ & _ & _ & _ & Hr & Hin).
  rewrite !Z2Nat.id in Hr by lia. rewrite Hg in Hr. injection Hr as <-.
  apply Hin in Hx. destruct Hx as (i & j & a & _ & _ & _ & _ & ->). cbn [c_source c_target c_channel]. auto.
Qed.

Lemma remove_step_spec K K' cc : incl cc (edges g) -> kdiv g N K' -> forall cs,
  exists kept, remove_step g N K K' cc cs = Ok kept /\
   forall x, In x kept <-> In x cs /\ forall c v, In c cc -> nth_error (vertices g) (e_src c) = Some v ->
      K (e_src c) < K' (e_src c) ->
      old_event v (K (e_src c)) (c_source x) = false /\ old_event v (K (e_src c)) (c_target x) = false.
Proof.
  intros Hi HK'. induction cc as [|c cc IH]; intros cs.
  - exists cs. split; [reflexivity|]. intros x. split; [intros H; split; [exact H|intros c v []]|tauto].
  - cbn [remove_step]. destruct (edge_ends g Hwf c (Hi c (or_introl eq_refl))) as (vs & vd & E1 & E2).
    unfold lookup_vertex. rewrite E1. cbn [bind].
    assert (Hle : K' (e_src c) <= N (e_src c)).
    { destruct (cycles_spec g N Hwf Hcyc _ _ E1) as (_ & Hq & Hn). destruct (HK' _ _ E1) as [Hp Hd].
      apply Z.divide_pos_le in Hd; [|exact Hq]. destruct (vertex_ok g Hwf _ _ E1) as [HP _]. nia. }
    specialize (IH (fun x Hx => Hi x (or_intror Hx))).
    destruct (Z.ltb_spec (K (e_src c)) (K' (e_src c))) as [Hlt|Hge].
    + rewrite (proj2 (Z.leb_le _ _) Hle). cbn [cassert bind].
      destruct (IH (remove_connected vs (K (e_src c)) cs)) as (kept & Hk & Hin). exists kept. split; [exact Hk|].
      intros x. rewrite Hin. unfold remove_connected. rewrite filter_In, andb_true_iff, !negb_true_iff. split.
      * intros ((Hx & Ha & Hb) & Hall). split; [exact Hx|]. intros c' v [<-|Hc'] Ev Hl; [|eauto].
        rewrite E1 in Ev. injection Ev as <-. auto.
      * intros (Hx & Hall). split; [split; [exact Hx|]|].
        -- apply (Hall c vs); [left; reflexivity|exact E1|exact Hlt].
        -- intros c' v Hc'. apply Hall. right; auto.
    + destruct (IH cs) as (kept & Hk & Hin). exists kept. split; [exact Hk|]. intros x. rewrite Hin. split.
      * intros (Hx & Hall). split; [exact Hx|]. intros c' v [<-|Hc'] Ev Hl; [lia|eauto].
      * intros (Hx & Hall). split; [exact Hx|]. intros c' v Hc'. apply Hall. right; auto.
Qed.

Lemma loops_step_spec K K' cc : incl cc (edges g) -> kdiv g N K' ->
  exists l, loops_step g N K K' cc = Ok l /\
   forall x, In x l <-> exists c v r, In c cc /\ K (e_src c) <> K' (e_src c) /\ nth_error (vertices g) (e_src c) = Some v /\
      generate_selfloop v (N (e_src c)) (K' (e_src c)) = Ok r /\ In x r.
Proof.
  intros Hi HK'. induction cc as [|c cc IH].
  - exists []. split; [reflexivity|]. intros x. split; [intros []|intros (c & v & r & [] & _)].
  - cbn [loops_step]. destruct (IH (fun x Hx => Hi x (or_intror Hx))) as (l & Hl & Hin). clear IH.
    destruct (edge_ends g Hwf c (Hi c (or_introl eq_refl))) as (vs & vd & E1 & E2).
    destruct (Z.eqb_spec (K (e_src c)) (K' (e_src c))) as [E|NE].
    + exists l. split; [exact Hl|]. intros x. rewrite Hin. split.
      * intros (c' & v & r & H1 & H2). exists c', v, r. split; [right; exact H1|exact H2].
      * intros (c' & v & r & [<-|H1] & H2); [tauto|]. exists c', v, r. auto.
    + unfold lookup_vertex. rewrite E1. cbn [bind].
      pose proof (vertex_ok g Hwf _ _ E1) as Hv. destruct (HK' _ _ E1) as [Hp _].
      pose proof (HN_pos _ (vertex_lt g _ _ E1)) as HNp.
      destruct (generate_selfloop_spec vs (N (e_src c)) (Z.to_nat (K' (e_src c))) Hv ltac:(lia) HNp) as (r0 & Hr0 & _).
      rewrite Z2Nat.id in Hr0 by lia. rewrite Hr0. cbn [bind]. rewrite Hl. cbn [bind].
      eexists; split; [reflexivity|]. intros x. rewrite in_app_iff, Hin. split.
      * intros [H|(c' & v & r & H1 & H2)].
        -- exists c, vs, r0. cbn; auto 6.
        -- exists c', v, r. split; [right; exact H1|exact H2].
      * intros (c' & v & r & [<-|H1] & H2 & H3 & H4 & H5).
        -- left. congruence.
        -- right. exists c', v, r. auto.
Qed.

Lemma regenerate_ok K c : kdiv g N K -> In c (edges g) -> exists r, regenerate var g N K c = Ok r.
Proof.
  intros HK Hc. destruct (edge_shape g Hwf c Hc) as (vs & vd & E1 & E2 & Hs & Hd & Hsh).
  unfold regenerate, lookup_vertex. rewrite E1, E2. cbn [bind].
  destruct (HK _ _ E1) as [H1 _]. destruct (HK _ _ E2) as [H2 _].
  destruct (generate_channel_spec var c vs vd (Z.to_nat (K (e_src c))) (Z.to_nat (K (e_dst c))) (N (e_src c)) Hs Hd Hsh ltac:(lia) ltac:(lia))
    as (? & ? & r & _ & _ & _ & _ & Hr & _).
  - apply HN_pos. eapply vertex_lt; exact E1.
  - rewrite !Z2Nat.id in Hr by lia. exists r. exact Hr.
Qed.

Lemma channels_step_spec K K' cc : incl cc (edges g) -> kdiv g N K' ->
  exists l, channels_step var g N K K' cc = Ok l /\
   forall x, In x l <-> exists cur c r, In cur cc /\ K (e_src cur) <> K' (e_src cur) /\ In c (edges g) /\
      ((e_src c = e_src cur /\ (e_id c <> e_id cur \/ K (e_dst cur) = K' (e_dst cur))) \/ e_dst c = e_src cur) /\
      regenerate var g N K' c = Ok r /\ In x r.
Proof.
  intros Hi HK'. induction cc as [|cur cc IH].
  - exists []. split; [reflexivity|]. intros x. split; [intros []|intros (c & v & r & [] & _)].
  - cbn [channels_step]. destruct (IH (fun x Hx => Hi x (or_intror Hx))) as (l & Hl & Hin). clear IH.
    destruct (Z.eqb_spec (K (e_src cur)) (K' (e_src cur))) as [E|NE].
    + exists l. split; [exact Hl|]. intros x. rewrite Hin. split.
      * intros (c' & v & r & H1 & H2). exists c', v, r. split; [right; exact H1|exact H2].
      * intros (c' & v & r & [<-|H1] & H2); [tauto|]. exists c', v, r. auto.
    + set (fo := fun c => (e_src c =? e_src cur)%nat && (negb (same_edge c cur) || (K (e_dst cur) =? K' (e_dst cur)))).
      set (fi := fun c => (e_dst c =? e_src cur)%nat).
      destruct (collect_ok (regenerate var g N K') (filter fo (edges g))) as [lo Hlo].
      { intros c Hc. apply filter_In in Hc as [Hc _]. apply regenerate_ok; assumption. }
      destruct (collect_ok (regenerate var g N K') (filter fi (edges g))) as [li Hli].
      { intros c Hc. apply filter_In in Hc as [Hc _]. apply regenerate_ok; assumption. }
      rewrite Hlo. cbn [bind]. rewrite Hli. cbn [bind]. rewrite Hl. cbn [bind].
      eexists; split; [reflexivity|]. intros x.
      rewrite !in_app_iff, Hin, (collect_in _ _ _ Hlo), (collect_in _ _ _ Hli). split.
      * intros [(c & r & H1 & H2 & H3)|[(c & r & H1 & H2 & H3)|(c' & v & r & H1 & H2)]].
        -- apply filter_In in H1 as [H1 Hf]. unfold fo in Hf. apply andb_true_iff in Hf as [Hf1 Hf2].
           apply Nat.eqb_eq in Hf1. apply orb_true_iff in Hf2. rewrite negb_true_iff, Z.eqb_eq in Hf2.
           exists cur, c, r. split; [left; reflexivity|]. split; [exact NE|]. split; [exact H1|]. split; [|auto].
           left. split; [exact Hf1|]. destruct Hf2 as [Hf2|Hf2]; [left|right; exact Hf2].
           intros Ee. apply same_edge_true in Ee. congruence.
        -- apply filter_In in H1 as [H1 Hf]. apply Nat.eqb_eq in Hf.
           exists cur, c, r. split; [left; reflexivity|]. auto 6.
        -- exists c', v, r. split; [right; exact H1|exact H2].
      * intros (c' & c & r & [<-|H1] & H2 & H3 & H4 & H5 & H6).
        -- destruct H4 as [[H4 H4']|H4].
           ++ left. exists c, r. split; [|auto]. apply filter_In. split; [exact H3|]. unfold fo.
              rewrite H4, Nat.eqb_refl. cbn [andb]. apply orb_true_iff. rewrite negb_true_iff, Z.eqb_eq.
              destruct H4' as [H4'|H4']; [left|right; exact H4'].
              destruct (same_edge c cur) eqn:Es; [|reflexivity]. apply same_edge_true in Es. contradiction.
           ++ right. left. exists c, r. split; [|auto]. apply filter_In. split; [exact H3|]. apply Nat.eqb_eq. exact H4.
        -- right. right. exists c', c, r. auto 8.
Qed.

Lemma update_regenerates K cc cs0 cs : incl cc (edges g) -> kdiv g N K ->
  generate_event_graph var g N K = Ok cs0 -> (forall x, In x cs <-> In x cs0) ->
  exists r, update_event_graph var g N K cc cs = Ok r /\
   match r with
   | None => forall i, on_circuit cc i -> forall G, is_cycle_gcd g N cc G -> Z.lcm (K i) (cycles g N i / G) = K i
   | Some (cs', K') => kdiv g N K' /\
       (forall i, on_circuit cc i -> forall G, is_cycle_gcd g N cc G -> K' i = Z.lcm (K i) (cycles g N i / G)) /\
       (forall i, ~ on_circuit cc i -> K' i = K i) /\
       (exists i, on_circuit cc i /\ K' i <> K i) /\
       exists cs1, generate_event_graph var g N K' = Ok cs1 /\ forall x, In x cs' <-> In x cs1
   end.
Proof.
  intros Hi HK Hg Hcs. destruct (update_vector_spec g N Hwf Hcyc cc K Hi HK) as (G & K' & ch & E & HG & HK' & U1 & U2 & U3).
  assert (U1' : forall i, on_circuit cc i -> forall G', is_cycle_gcd g N cc G' -> K' i = Z.lcm (K i) (cycles g N i / G')).
  { intros i Hon G' HG'. rewrite (is_cycle_gcd_unique g N cc cc G' G (fun _ => iff_refl _) HG' HG). apply U1, Hon. }
  unfold update_event_graph. rewrite E. cbn [bind fst snd]. destruct ch.
  2: { exists None. split; [reflexivity|]. intros i Hon G' HG'. rewrite <- (U1' i Hon G' HG'). apply U3; auto. }
  destruct (remove_step_spec K K' cc Hi HK' cs) as (kept & -> & Hkept). cbn [bind].
  destruct (loops_step_spec K K' cc Hi HK') as (loops & -> & Hloops). cbn [bind].
  destruct (channels_step_spec K K' cc Hi HK') as (chans & -> & Hchans). cbn [bind].
  eexists; split; [reflexivity|]. cbn iota. split; [exact HK'|]. split; [exact U1'|]. split; [exact U2|].
  assert (Hdec : forall i, on_circuit cc i \/ ~ on_circuit cc i).
  { intros i. destruct (in_dec Nat.eq_dec i (map e_src cc)) as [I|I].
    - left. apply in_map_iff in I as (c & Ec & Ic). exists c. auto.
    - right. intros (c & Ic & <-). apply I, in_map, Ic. }
  assert (Hch : forall i, K i <> K' i -> exists c, In c cc /\ e_src c = i).
  { intros i Hne. destruct (Hdec i) as [H|H]; [exact H|]. exfalso. apply Hne. symmetry. apply U2, H. }
  split.
  { destruct (existsb (fun c => negb (K' (e_src c) =? K (e_src c))) cc) eqn:Ex.
    - apply existsb_exists in Ex as (c & Hc & Hn). apply negb_true_iff, Z.eqb_neq in Hn.
      exists (e_src c). split; [exists c; auto|exact Hn].
    - exfalso. assert (true = false); [|discriminate]. apply U3. intros i (c & Hc & <-).
      destruct (Z.eq_dec (K' (e_src c)) (K (e_src c))) as [|Hne]; [assumption|].
      assert (existsb (fun c => negb (K' (e_src c) =? K (e_src c))) cc = true); [|congruence].
      apply existsb_exists. exists c. split; [exact Hc|]. apply negb_true_iff, Z.eqb_neq. exact Hne. }
  pose proof (kdiv_pos _ HK) as HKp. pose proof (kdiv_pos _ HK') as HKp'.
  destruct (generate_event_graph_ok var g N K' Hwf HN_pos HKp') as (cs1 & Hg1).
  exists cs1. split; [exact Hg1|]. intros x.
  rewrite !in_app_iff, Hkept, Hloops, Hchans, Hcs.
  rewrite (generate_event_graph_in var g N K Hwf cs0 Hg), (generate_event_graph_in var g N K' Hwf cs1 Hg1).
  (* K only grows *)
  assert (Hgrow : forall i v, nth_error (vertices g) i = Some v -> K i <= K' i).
  { intros i v Ev. destruct (Hdec i) as [H|H]; [|rewrite U2 by exact H; lia].
    apply Z.divide_pos_le; [apply (HK' i v Ev)|]. rewrite U1 by exact H. apply Z.divide_lcm_l. }
  pose proof (generated_closed var g N K Hwf HN_pos HKp cs0 Hg) as Hcl.
  (* an old constraint is kept exactly when both its tasks keep their periodicity *)
  assert (Hkeep : forall i j v w, In x cs0 -> nth_error (vertices g) i = Some v -> nth_error (vertices g) j = Some w ->
     ev_task (c_source x) = v_id v -> ev_task (c_target x) = v_id w ->
     ((forall c u, In c cc -> nth_error (vertices g) (e_src c) = Some u -> K (e_src c) < K' (e_src c) ->
        old_event u (K (e_src c)) (c_source x) = false /\ old_event u (K (e_src c)) (c_target x) = false) <->
      K i = K' i /\ K j = K' j)).
  { intros i j v w Hx Ei Ej Hs Ht.
    assert (Hold : forall e, In e (event_list g K) -> forall k u, nth_error (vertices g) k = Some u -> ev_task e = v_id u ->
        old_event u (K k) e = true).
    { intros e He k u Ek Hk. apply event_list_in in He as (k' & u' & Ek' & He).
      assert (Hid : ev_task e = v_id u' /\ 1 <= ev_phase e <= Z.of_nat (v_phases u') /\ 1 <= ev_occ e <= K k').
      { apply vertex_events_in in He. rewrite (Hni u') in He by (eapply nth_error_In; exact Ek'). lia. }
      destruct Hid as (Hid & Hph & Hoc). rewrite Hk in Hid.
      destruct (vertex_id_inj _ _ _ _ Ek Ek' Hid) as [<- <-].
      unfold old_event. rewrite Hk, Z.eqb_refl. rewrite !andb_true_iff, !Z.leb_le.
      rewrite (Hni u) by (eapply nth_error_In; exact Ek). lia. }
    assert (Hnold : forall e k u k' u', nth_error (vertices g) k = Some u -> nth_error (vertices g) k' = Some u' ->
        ev_task e = v_id u -> k <> k' -> old_event u' (K k') e = false).
    { intros e k u k' u' Ek Ek' Hk Hne. unfold old_event.
      destruct (Z.eqb_spec (ev_task e) (v_id u')) as [E'|_]; [|reflexivity].
      exfalso. apply Hne. rewrite Hk in E'. apply (vertex_id_inj _ _ _ _ Ek Ek' E'). }
    destruct (Hcl x Hx) as [Cs Ct]. split.
    - intros Hall. split.
      + destruct (Z.eq_dec (K i) (K' i)) as [|Hne]; [assumption|]. exfalso.
        destruct (Hch i Hne) as (c & Hc & <-). pose proof (Hgrow _ _ Ei).
        destruct (Hall c v Hc Ei ltac:(lia)) as [H1 _]. rewrite (Hold _ Cs _ _ Ei Hs) in H1. discriminate.
      + destruct (Z.eq_dec (K j) (K' j)) as [|Hne]; [assumption|]. exfalso.
        destruct (Hch j Hne) as (c & Hc & <-). pose proof (Hgrow _ _ Ej).
        destruct (Hall c w Hc Ej ltac:(lia)) as [_ H1]. rewrite (Hold _ Ct _ _ Ej Ht) in H1. discriminate.
    - intros [Ki Kj] c u Hc Eu Hlt. split.
      + apply (Hnold _ i v); auto. intros Ei'. rewrite <- Ei' in Hlt. lia.
      + apply (Hnold _ j w); auto. intros Ei'. rewrite <- Ei' in Hlt. lia. }
  assert (Hloop_ends : forall i v r K0, kdiv g N K0 -> nth_error (vertices g) i = Some v -> generate_selfloop v (N i) (K0 i) = Ok r ->
      In x r -> ev_task (c_source x) = v_id v /\ ev_task (c_target x) = v_id v).
  { intros i v r K0 H0 Ev Hr Hx. apply (selfloop_ends v (N i) (K0 i) r x); auto.
    - eapply vertex_ok; eauto.
    - apply HN_pos. eapply vertex_lt; eauto.
    - apply (H0 i v Ev). }
  assert (Hchan_ends : forall c vs vd r K0, kdiv g N K0 -> In c (edges g) -> nth_error (vertices g) (e_src c) = Some vs ->
      nth_error (vertices g) (e_dst c) = Some vd ->
      generate_channel var c vs vd (N (e_src c)) (K0 (e_src c)) (K0 (e_dst c)) = Ok r -> In x r ->
      ev_task (c_source x) = v_id vs /\ ev_task (c_target x) = v_id vd).
  { intros c vs vd r K0 H0 Hc E1 E2 Hr Hx. destruct (edge_shape g Hwf c Hc) as (vs' & vd' & E1' & E2' & Hs & Hd & Hsh).
    rewrite E1 in E1'. rewrite E2 in E2'. injection E1' as <-. injection E2' as <-.
    destruct (channel_ends c vs vd (N (e_src c)) (K0 (e_src c)) (K0 (e_dst c)) r x) as (A & B & _); auto.
    - apply HN_pos. eapply vertex_lt; eauto.
    - apply (H0 _ _ E1).
    - apply (H0 _ _ E2). }
  split.
  - intros [(Hx & Hall)|[(c & v & r & Hc & Hne & Ev & Hr & Hx)|(cur & c & r & Hcur & Hne & Hc & _ & Hr & Hx)]].
    + destruct Hx as [(i & v & r & Ev & Hr & Hx)|(c & vs & vd & r & Hc & E1 & E2 & Hr & Hx)].
      * left. exists i, v, r. destruct (Hloop_ends i v r K HK Ev Hr Hx) as [Hs Ht].
        destruct (proj1 (Hkeep i i v v ltac:(apply (generate_event_graph_in var g N K Hwf cs0 Hg); left; exists i, v, r; auto) Ev Ev Hs Ht) Hall) as [<- _].
        auto.
      * right. exists c, vs, vd, r. destruct (Hchan_ends c vs vd r K HK Hc E1 E2 Hr Hx) as [Hs Ht].
        destruct (proj1 (Hkeep _ _ vs vd ltac:(apply (generate_event_graph_in var g N K Hwf cs0 Hg); right; exists c, vs, vd, r; auto 6) E1 E2 Hs Ht) Hall) as [<- <-].
        auto 6.
    + left. exists (e_src c), v, r. auto.
    + right. destruct (edge_ends g Hwf c Hc) as (vs & vd & E1 & E2).
      unfold regenerate, lookup_vertex in Hr. rewrite E1, E2 in Hr. cbn [bind] in Hr. exists c, vs, vd, r. auto 6.
  - intros [(i & v & r & Ev & Hr & Hx)|(c & vs & vd & r & Hc & E1 & E2 & Hr & Hx)].
    + destruct (Z.eq_dec (K i) (K' i)) as [Ek|Hne].
      * left. rewrite <- Ek in Hr. destruct (Hloop_ends i v r K HK Ev Hr Hx) as [Hs Ht].
        assert (Hx0 : In x cs0) by (apply (generate_event_graph_in var g N K Hwf cs0 Hg); left; exists i, v, r; auto).
        split; [left; exists i, v, r; auto|]. apply (Hkeep i i v v); auto.
      * right. left. destruct (Hch i Hne) as (c & Hc & <-). exists c, v, r. auto 6.
    + destruct (Z.eq_dec (K (e_dst c)) (K' (e_dst c))) as [Ekd|Hned].
      * destruct (Z.eq_dec (K (e_src c)) (K' (e_src c))) as [Eks|Hnes].
        -- left. rewrite <- Ekd, <- Eks in Hr. destruct (Hchan_ends c vs vd r K HK Hc E1 E2 Hr Hx) as [Hs Ht].
           assert (Hx0 : In x cs0) by (apply (generate_event_graph_in var g N K Hwf cs0 Hg); right; exists c, vs, vd, r; auto 6).
           split; [right; exists c, vs, vd, r; auto 6|]. apply (Hkeep (e_src c) (e_dst c) vs vd); auto.
        -- right. right. destruct (Hch _ Hnes) as (cur & Hcur & Ecur). exists cur, c, r.
           split; [exact Hcur|]. split; [rewrite Ecur; exact Hnes|]. split; [exact Hc|]. split.
           { left. split; [auto|]. destruct (Z.eq_dec (e_id c) (e_id cur)) as [Eid|Nid]; [right|left; exact Nid].
             rewrite <- (edge_id_inj c cur Hc (Hi _ Hcur) Eid). exact Ekd. }
           split; [|exact Hx]. unfold regenerate, lookup_vertex. rewrite E1, E2. exact Hr.
      * right. right. destruct (Hch _ Hned) as (cur & Hcur & Ecur). exists cur, c, r.
        split; [exact Hcur|]. split; [rewrite Ecur; exact Hned|]. split; [exact Hc|]. split; [right; auto|].
        split; [|exact Hx]. unfold regenerate, lookup_vertex. rewrite E1, E2. exact Hr.
Qed.
End Upd.
