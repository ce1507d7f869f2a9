(** The marking loop of the random generator. *)
From Coq Require Import QArith Permutation Lqa.
From Verif Require Import Base Fraction Commons CommonsProofs Graph ScheduleSpec ScheduleCore KPeriodic KPeriodicProofs KPeriodicChannel KPeriodicSelfloop KPeriodicGraph KPeriodicEnd KPeriodicProps EventGraph EventGraphSpec EventGraphProofs
  KIter KIterSpec KIterProofs KIterLoop KIterProps RepVec RepVecSpec RepVecProofs RepVecProps SimSpec Howard HowardProofs HowardTotal HowardFinal HowardKIter SymbExecSpec LiveProofs LiveProps RandomGen RandomGenSpec RandomGenProofs.
Open Scope Z_scope.

(** ** Changing initial tokens changes nothing else. *)
Definition same_rates (c c' : edge) : Prop := e_src c' = e_src c /\ e_dst c' = e_dst c /\ e_in c' = e_in c /\ e_out c' = e_out c.

Lemma connected_loop_same rec rec' rp a f es es' : Forall2 same_rates es es' -> (forall b fr, rec' b fr = rec b fr) ->
  forall fr, connected_loop rec' rp a f es' fr = connected_loop rec rp a f es fr.
Proof.
  intros F R. induction F as [|c c' es es' (E1 & E2 & E3 & E4) F IH]; intros fr; [reflexivity|]. cbn [connected_loop]. unfold connected, edge_in_total, edge_out_total. rewrite E1, E2, E3, E4.
  destruct ((e_src c =? a)%nat || (e_dst c =? a)%nat); [|apply IH].
  destruct (cdiv rp (Z.of_nat (length (e_in c)))) as [qi| | |]; cbn [bind]; try reflexivity. destruct (cdiv rp (Z.of_nat (length (e_out c)))) as [qo| | |]; cbn [bind]; try reflexivity.
  match goal with |- (if ?b then _ else _) = _ => destruct b; [reflexivity|] end.
  match goal with |- bind ?x _ = _ => destruct x as [ab| | |]; cbn [bind]; try reflexivity end.
  match goal with |- bind ?x _ = _ => destruct x as [fb| | |]; cbn [bind]; try reflexivity end.
  match goal with |- (if ?b then _ else _) = _ => destruct b; [reflexivity|] end.
  match goal with |- (if ?b then _ else _) = _ => destruct b; [|apply IH] end.
  rewrite R. match goal with |- bind ?x _ = _ => destruct x as [rr| | |]; cbn [bind]; try reflexivity end.
  match goal with |- (if ?b then _ else _) = _ => destruct b; [reflexivity|apply IH] end.
Qed.
Lemma calc_same g g' rp : Forall2 same_rates (edges g) (edges g') -> forall fuel a fr, calc_fractions fuel g' rp a fr = calc_fractions fuel g rp a fr.
Proof.
  intros F. induction fuel as [|fuel IH]; intros a fr; cbn [calc_fractions]; [reflexivity|]. destruct (frac_eqb (fr a) fzero); [reflexivity|]. apply connected_loop_same; assumption.
Qed.
Lemma all_same g g' rp : Forall2 same_rates (edges g) (edges g') -> forall fuel vs fr, all_fractions fuel g' rp vs fr = all_fractions fuel g rp vs fr.
Proof.
  intros F fuel. induction vs as [|v vs IH]; intros fr; cbn [all_fractions]; [reflexivity|]. destruct (frac_eqb (fr v) fzero); [|apply IH].
  rewrite (calc_same g g' rp F). match goal with |- bind ?x _ = _ => destruct x as [rr| | |]; cbn [bind]; try reflexivity end. destruct (fst rr); [apply IH|reflexivity].
Qed.
Lemma period_fold l l' : Forall2 same_rates l l' -> forall z,
  fold_left (fun rp c => Z.lcm (Z.lcm rp (Z.of_nat (length (e_in c)))) (Z.of_nat (length (e_out c)))) l' z =
  fold_left (fun rp c => Z.lcm (Z.lcm rp (Z.of_nat (length (e_in c)))) (Z.of_nat (length (e_out c)))) l z.
Proof. induction 1 as [|c c' es es' (E1 & E2 & E3 & E4) F IH]; intros z; cbn [fold_left]; [reflexivity|]. rewrite E3, E4. apply IH. Qed.

Lemma more_rates g g' : more_tokens g g' -> Forall2 same_rates (edges g) (edges g').
Proof. intros [_ F]. induction F as [|c c' l l' H F IH]; constructor; [|exact IH]. destruct H as (_ & A & B & C & D & _). split; auto. Qed.
Lemma more_vector g g' fuel : more_tokens g g' -> compute_repetition_vector fuel g' = compute_repetition_vector fuel g.
Proof.
  intros H. pose proof (more_rates _ _ H) as F. destruct H as [V _]. unfold compute_repetition_vector, rate_period. rewrite (period_fold _ _ F). fold (rate_period g). rewrite V.
  destruct (cassert (0 <? rate_period g)); cbn [bind]; try reflexivity. rewrite (all_same g g' _ F).
  match goal with |- bind ?x _ = _ => destruct x as [[fr|]| | |]; cbn [bind]; try reflexivity end. unfold calc_repetition. rewrite V. reflexivity.
Qed.

Lemma Forall2_left {A B} (P : A -> B -> Prop) l l' y : Forall2 P l l' -> In y l' -> exists x, In x l /\ P x y.
Proof. induction 1 as [|a b l l' H F IH]; intros []; [subst; exists a; cbn; auto|]. destruct (IH H0) as (x & I & Q). exists x. cbn; auto. Qed.
Lemma Forall2_right {A B} (P : A -> B -> Prop) l l' x : Forall2 P l l' -> In x l -> exists y, In y l' /\ P x y.
Proof. induction 1 as [|a b l l' H F IH]; intros []; [subst; exists b; cbn; auto|]. destruct (IH H0) as (y & I & Q). exists y. cbn; auto. Qed.
Lemma more_ids g g' : more_tokens g g' -> map e_id (edges g') = map e_id (edges g).
Proof. intros [_ F]. induction F as [|c c' l l' H F IH]; cbn; [reflexivity|]. rewrite IH, (proj1 H). reflexivity. Qed.
Lemma more_refl g : more_tokens g g.
Proof. split; [reflexivity|]. induction (edges g); constructor; [|assumption]. unfold same_but_tokens. repeat (split; [reflexivity|]). lia. Qed.
Lemma more_trans g g' g'' : more_tokens g g' -> more_tokens g' g'' -> more_tokens g g''.
Proof.
  intros [V F] [V' F']. split; [congruence|]. clear V V'. revert F'. generalize (edges g''). induction F as [|c c' l l' H F IH]; intros l2 F2; inversion F2; subst; constructor; [|auto].
  unfold same_but_tokens in *. intuition (try congruence; try lia).
Qed.

(** What the analysis needs of a graph; kept when tokens are added. *)
Record ready (g : graph) (N : nat -> Z) : Prop := mkReady {
  rd_wf : graph_wf g; rd_balanced : balanced g N; rd_no_init : no_init g; rd_no_overlap : no_overlap g; rd_cycles : whole_cycles g N;
  rd_ids : edge_ids_ok g; rd_nonempty : vertices g <> []; rd_durations : positive_durations g }.
Lemma more_ready g g' N : more_tokens g g' -> ready g N -> ready g' N.
Proof.
  intros M [WF B NI NO C ID NE PD]. pose proof M as [V F]. constructor; try (unfold no_init, no_overlap, whole_cycles, positive_durations in *; rewrite V; assumption).
  - destruct WF as (W1 & W2 & W3). split; [rewrite V; exact W1|]. split; [|rewrite V; exact W3]. intros c' I. destruct (Forall2_left _ _ _ _ F I) as (c & Ic & E1 & E2 & E3 & E4 & E5 & E6 & E7 & E8).
    destruct (W2 c Ic) as (vs & vd & H). exists vs, vd. rewrite V, E2, E3, E4, E5, E6, E7. intuition lia.
  - intros c' I. destruct (Forall2_left _ _ _ _ F I) as (c & Ic & E1 & E2 & E3 & E4 & E5 & _). rewrite E2, E3, E4, E5. apply B, Ic.
  - split; [rewrite (more_ids _ _ M); apply ID|]. intros c' I. destruct (Forall2_left _ _ _ _ F I) as (c & Ic & E1 & _). rewrite E1. apply ID, Ic.
Qed.

(** ** Weights of the constraints *)
Lemma sum_cons_le c n m : (forall k, 0 <= cons_rate c k) -> (n <= m)%nat -> sumf (cons_rate c) n <= sumf (cons_rate c) m.
Proof. intros NN H. induction H as [|m H IH]; [lia|]. cbn [sumf]. pose proof (NN m). lia. Qed.
Lemma sum_prod_nn c n : (forall k, 0 <= prod_rate c k) -> 0 <= sumf (prod_rate c) n.
Proof. intros NN. induction n; cbn [sumf]; [lia|]. pose proof (NN n). lia. Qed.

Lemma carried_spec g N c vs : ready g N -> In c (edges g) -> nth_error (vertices g) (e_src c) = Some vs ->
  carried N c * Z.of_nat (v_phases vs) = sumZ (e_in c) * N (e_src c) /\ sumZ (e_in c) <= carried N c /\ 0 < carried N c.
Proof.
  intros R I V. destruct (edge_shape g (rd_wf g N R) c I) as (vs' & vd & V1 & V2 & Hs & Hd & L1 & L2 & L3 & L4 & Hnn & HW & HR & HM).
  rewrite V in V1. injection V1 as <-. destruct (rd_cycles g N R _ _ V) as [NP [q Hq]]. unfold carried. rewrite L1, Hq. destruct Hs as (HP & _).
  replace (sumZ (e_in c) * (q * Z.of_nat (v_phases vs))) with (sumZ (e_in c) * q * Z.of_nat (v_phases vs)) by ring. rewrite Z.div_mul by lia. split; [reflexivity|]. assert (0 < q) by nia. nia.
Qed.
Lemma carried_target g N c vd : ready g N -> In c (edges g) -> nth_error (vertices g) (e_dst c) = Some vd ->
  carried N c * Z.of_nat (v_phases vd) = sumZ (e_out c) * N (e_dst c).
Proof.
  intros R I V. destruct (edge_shape g (rd_wf g N R) c I) as (vs & vd' & V1 & V2 & Hs & Hd & L1 & L2 & L3 & L4 & Hnn & HW & HR & HM).
  rewrite V in V2. injection V2 as <-. destruct (carried_spec g N c vs R I V1) as (E & _). pose proof (rd_balanced g N R c I) as B. rewrite L1, L2, <- E in B. destruct Hs as (HP & _). destruct Hd as (HP2 & _).
  apply Z.mul_reg_r with (Z.of_nat (v_phases vs)); [lia|]. rewrite <- B. ring.
Qed.

Section Weights.
Variables (var : variant) (g : graph) (N K : nat -> Z) (cs0 cs : list constraint).
Hypothesis R : ready g N.
Hypothesis HK : kdiv g N K.
Hypothesis GEN : generate_event_graph var g N K = Ok cs0.
Hypothesis MEM : forall x, In x cs <-> In x cs0.

(** Later in the order of a task's executions. *)
Definition after (a b : event) : Prop := ev_occ a < ev_occ b \/ ev_occ a = ev_occ b /\ ev_phase a < ev_phase b.
Lemma after_trans a b c : after a b -> after b c -> after a c.
Proof. unfold after. lia. Qed.

Lemma weight_kind x : In x cs -> ((0 < c_w x)%Q \/ (c_w x == 0)%Q /\ after (c_source x) (c_target x)) /\ c_channel x = 0 \/
  exists c gc, In c (edges g) /\ c_channel x = e_id c /\ fine_gcd c = Ok gc /\ 0 < gc <= carried N c /\
    (inject_Z (e_preload c - gc - carried N c) <= c_w x * inject_Z (carried N c))%Q /\ (-(1) <= c_w x)%Q.
Proof.
  intros I. apply MEM in I. pose proof (rd_wf g N R) as WF. apply (generate_event_graph_in var g N K WF cs0 GEN) in I.
  pose proof (HN_pos g N (rd_cycles g N R)) as HNp. pose proof (kdiv_pos g N K HK) as HKp.
  destruct I as [(i & v & r & Hv & Hr & Hx)|(e & vs & vd & r & He & V1 & V2 & Hr & Hx)].
  - left. destruct (K_nat g K HKp i v Hv) as [Hk Hkp].
    destruct (generate_selfloop_spec v (N i) (Z.to_nat (K i)) (vertex_ok g WF i v Hv) Hkp (HNp i (vertex_lt g _ _ Hv))) as (r' & Hr' & Hin).
    rewrite <- Hk, Hr in Hr'. injection Hr' as <-. apply Hin in Hx. pose proof (vertex_ok g WF i v Hv) as (HP & _). destruct Hx as [(j & Hj & ->)|(_ & ->)]; cbn [c_w c_channel c_source c_target]; (split; [|reflexivity]).
    + right. split; [reflexivity|]. unfold after, event_at, pos_at. rewrite (rd_no_init g N R v (nth_error_In _ _ Hv)). cbn [Nat.ltb Nat.leb ev_occ ev_phase fst snd]. rewrite !Nat.sub_0_r.
      pose proof (Nat.div_mod j (v_phases v) ltac:(lia)) as D1. pose proof (Nat.div_mod (S j) (v_phases v) ltac:(lia)) as D2.
      pose proof (Nat.mod_upper_bound j (v_phases v) ltac:(lia)). pose proof (Nat.mod_upper_bound (S j) (v_phases v) ltac:(lia)). pose proof (Nat.div_le_mono j (S j) (v_phases v) ltac:(lia) ltac:(lia)) as D3.
      destruct (Nat.eq_dec (j / v_phases v) (S j / v_phases v)) as [E|E]; [right; split; [f_equal; f_equal; exact E|]; rewrite <- E in D2; lia|left; lia].
    + left. apply Qlt_shift_div_l; [change 0%Q with (inject_Z 0); rewrite <- Zlt_Qlt; apply HNp; eapply vertex_lt; eassumption|].
      rewrite Qmult_0_l. change 0%Q with (inject_Z 0). rewrite <- Zlt_Qlt. lia.
  - right. destruct (edge_shape g WF e He) as (vs' & vd' & V1' & V2' & Hs & Hd & Hsh).
    rewrite V1 in V1'. rewrite V2 in V2'. injection V1' as <-. injection V2' as <-.
    destruct (K_nat g K HKp _ _ V1) as [Hk1 Hkp1]. destruct (K_nat g K HKp _ _ V2) as [Hk2 Hkp2]. pose proof (HNp _ (vertex_lt g _ _ V1)) as N1. pose proof (HNp _ (vertex_lt g _ _ V2)) as N2.
    destruct (generate_channel_spec var e vs vd _ _ (N (e_src e)) Hs Hd Hsh Hkp1 Hkp2 N1) as (gc & mop & r' & Fg & Gp & Gd & Gm & Hr' & Hin).
    rewrite <- Hk1, <- Hk2, Hr in Hr'. injection Hr' as <-. apply Hin in Hx. destruct Hx as (i & j & a & Hi & Hj & Ga & _ & ->). cbn [c_w c_channel].
    destruct (carried_spec g N e vs R He V1) as (C1 & C2 & C3). pose proof (carried_target g N e vd R He V2) as C4. set (M := carried N e) in *.
    pose proof Hsh as (L1 & L2 & L3 & L4 & Hnn & HW & HR & HM). pose proof (rd_no_init g N R _ (nth_error_In _ _ V1)) as I1. pose proof (rd_no_init g N R _ (nth_error_In _ _ V2)) as I2.
    pose proof (fun k => prod_rate_nn e vs vd Hs Hsh k) as Pn. pose proof (fun k => cons_rate_nn e vs vd Hd Hsh k) as Cn.
    exists e, gc. split; [exact He|]. split; [reflexivity|]. split; [exact Fg|].
    assert (GW : gc <= sumZ (e_in e)) by (apply Z.divide_pos_le; [exact HW|]; apply sumZ_divide; intros x Ix; apply Gd, in_app_iff; auto). split; [lia|].
    assert (S1 : sumf (cons_rate e) (S j) <= M).
    { rewrite I2 in Hj. cbn [Nat.add] in Hj. etransitivity; [apply (sum_cons_le e (S j) (Z.to_nat (K (e_dst e)) * v_phases vd)); [exact Cn|lia]|].
      unfold cons_rate. rewrite <- L2. pose proof (cyclic_sum (e_out_init e) (e_out e) 0 (Z.to_nat (K (e_dst e)))) as CS. rewrite L4, I2, L2 in CS. destruct Hd as (HPd & _). specialize (CS ltac:(lia) ltac:(lia)). cbn [Nat.add] in CS. rewrite L2. rewrite CS. cbn [sumf].
      destruct (HK _ _ V2) as [KP KD]. destruct (cycles_spec g N WF (rd_cycles g N R) _ _ V2) as (_ & Q1 & Q2). apply Z.divide_pos_le in KD; [|nia]. rewrite <- Hk2. nia. }
    pose proof (sum_prod_nn e i Pn) as S2. destruct Ga as (_ & Ga & _). destruct Gm as ([q Hq] & Gm & Gmax). pose proof (Gmax (mop + gc) ltac:(exists (q + 1); lia)) as Gm2.
    assert (A1 : e_preload e - gc - M <= - a) by lia.
    assert (A2 : - M <= - a).
    { assert (0 <= mop); [|lia]. destruct (Z.le_gt_cases 0 mop) as [X|X]; [exact X|]. pose proof (Gmax 0 ltac:(exists 0; lia)). lia. }
    assert (WQ : (- (inject_Z (a * Z.of_nat (v_phases vs) * Z.of_nat (Z.to_nat (K (e_src e)))) / inject_Z (sumZ (e_in e) * Z.of_nat (Z.to_nat (K (e_src e))) * N (e_src e))) == inject_Z (- a) / inject_Z M)%Q).
    { replace (sumZ (e_in e) * Z.of_nat (Z.to_nat (K (e_src e))) * N (e_src e)) with (M * Z.of_nat (v_phases vs) * Z.of_nat (Z.to_nat (K (e_src e)))) by (rewrite C1; ring).
      destruct Hs as (HPs & _). rewrite !inject_Z_mult, inject_Z_opp. field. assert (P : forall z, 0 < z -> ~ (inject_Z z == 0)%Q) by (intros z Hz Z0; change 0%Q with (inject_Z 0) in Z0; apply (proj1 (inject_Z_injective _ _)) in Z0; lia). repeat split; apply P; lia. }
    assert (MQ : (0 < inject_Z M)%Q) by (change 0%Q with (inject_Z 0); rewrite <- Zlt_Qlt; exact C3).
    split; rewrite WQ.
    + assert (E : (inject_Z (- a) / inject_Z M * inject_Z M == inject_Z (- a))%Q) by (field; intros Z0; rewrite Z0 in MQ; apply (Qlt_irrefl _ MQ)).  apply (Qle_trans _ (inject_Z (- a))); [rewrite <- Zle_Qle; exact A1|].
      apply Qle_lteq. right. symmetry. exact E.
    + apply Qle_shift_div_l; [exact MQ|]. setoid_replace (-(1) * inject_Z M)%Q with (inject_Z (- M)) by (rewrite inject_Z_opp; ring). rewrite <- Zle_Qle. exact A2.
Qed.

Lemma flat_map_length_const {A B} (f : A -> list B) n : (forall x, length (f x) = n) -> forall l, length (flat_map f l) = (length l * n)%nat.
Proof. intros H. induction l as [|x l IH]; [reflexivity|]. cbn [flat_map length]. rewrite app_length, H, IH. cbn. lia. Qed.

Lemma event_count : Z.of_nat (length (event_list g K)) <= sumf N (length (vertices g)).
Proof.
  unfold event_list, indexed.
  assert (H : forall vs a, (forall i v, nth_error vs i = Some v -> v_init_phases v = 0%nat /\ 0 < K (a + i)%nat /\ (K (a + i)%nat * Z.of_nat (v_phases v) | N (a + i)%nat) /\ 0 < N (a + i)%nat) ->
    Z.of_nat (length (flat_map (fun iv => vertex_events (snd iv) (K (fst iv))) (combine (seq a (length vs)) vs))) <= sumf (fun i => N (a + i)%nat) (length vs)).
  { induction vs as [|v vs IH]; intros a H; [cbn; lia|]. cbn [length seq combine flat_map fst snd]. rewrite app_length, Nat2Z.inj_add.
    assert (E : sumf (fun i => N (a + i)%nat) (S (length vs)) = N a + sumf (fun i => N (S a + i)%nat) (length vs)).
    { clear. induction (length vs) as [|n IH]; [cbn [sumf]; rewrite Nat.add_0_r; lia|]. cbn [sumf] in *. rewrite IH. replace (a + S n)%nat with (S a + n)%nat by lia. lia. }
    rewrite E. apply Z.add_le_mono.
    - destruct (H 0%nat v eq_refl) as (A & B & C & D). rewrite Nat.add_0_r in *. apply Z.divide_pos_le in C; [|exact D]. etransitivity; [|exact C].
      unfold vertex_events. rewrite A. cbn [app map zrange seq Z.to_nat Z.sub]. rewrite app_length. cbn [length map zrange]. change (length (map (fun i => mkEvent (v_id v) (1 - i) 1) (zrange 1 (Z.of_nat 0)))) with 0%nat. cbn [Nat.add].
      rewrite (flat_map_length_const _ (v_phases v)) by (intros j; rewrite map_length, zrange_length; lia). rewrite zrange_length. rewrite Nat2Z.inj_mul. lia.
    - apply IH. intros i w Hw. specialize (H (S i) w Hw). replace (S a + i)%nat with (a + S i)%nat by lia. exact H. }
  apply (H (vertices g) 0%nat). intros i v E. destruct (HK i v E) as [A B]. destruct (rd_cycles g N R i v E) as [C D]. cbn [Nat.add].
  split; [apply (rd_no_init g N R), (nth_error_In _ _ E)|]. split; [exact A|]. split; [|exact C].
  assert (DI : divides_iteration g N K) by (apply (divides_iteration_kdiv g N (rd_wf g N R) (rd_cycles g N R)); exact HK). apply (DI i v E).
Qed.
End Weights.
