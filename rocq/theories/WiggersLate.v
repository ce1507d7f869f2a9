(** Where the Wiggers offsets put each phase. *)
From Coq Require Import QArith Qminmax Lqa Lia ZifyBool ZifyNat.
From Verif Require Import Base Graph Commons KPeriodic ScheduleSpec ScheduleCore KIterSpec SPeriodicProofs Sizing SizingSpec SizingLp SizingProofs SizingOffsets KPeriodicGraph
  Wiggers WiggersSpec WiggersProofs.
Open Scope Z_scope.

Lemma gcd_fold_spec l : forall x d, (d | fold_left Z.gcd l x) <-> (d | x) /\ forall y, In y l -> (d | y).
Proof.
  induction l as [|y l IH]; intros x d; cbn [fold_left]; [split; [intros H; split; [exact H|intros y []]|intros [H _]; exact H]|]. rewrite IH. split.
  - intros [H1 H2]. split; [eapply Z.divide_trans; [exact H1|apply Z.gcd_divide_l]|]. intros z [<-|Hz]; [eapply Z.divide_trans; [exact H1|apply Z.gcd_divide_r]|exact (H2 z Hz)].
  - intros [H1 H2]. split; [apply Z.gcd_greatest; [exact H1|apply H2; left; reflexivity]|]. intros z Hz. apply H2. right. exact Hz.
Qed.
Lemma lambda_packet c : 0 < sumZ (e_in c) -> packet c (wig_lambda c).
Proof. intros H. split; [apply (lambda_bounds c H)|]. intros d. exact (gcd_fold_spec (e_out c) (sumZ (e_in c)) d). Qed.

Lemma sumZ_app l1 l2 : sumZ (l1 ++ l2) = sumZ l1 + sumZ l2.
Proof. induction l1 as [|x l1 IH]; [reflexivity|]. change (x + sumZ (l1 ++ l2) = x + sumZ l1 + sumZ l2). rewrite IH. lia. Qed.
Lemma received_S c a : (a < length (e_in c))%nat -> received c (S a) = received c a + nth a (e_in c) 0.
Proof.
  unfold received. intros H. generalize dependent (e_in c). clear. intros l. revert a. induction l as [|x l IH]; intros [|a] H; cbn [length] in H; try lia; [cbn; lia|].
  cbn [firstn nth]. change (x + sumZ (firstn (S a) l) = x + sumZ (firstn a l) + nth a l 0). rewrite IH by lia. lia.
Qed.
Lemma received_total c a : sumZ (e_in c) = received c a + sumZ (skipn a (e_in c)).
Proof. unfold received. rewrite <- sumZ_app, firstn_skipn. reflexivity. Qed.
Lemma received_nn c a : (forall x, In x (e_in c) -> 0 <= x) -> 0 <= received c a.
Proof.
  unfold received. generalize (e_in c). intros l. revert a. induction l as [|x l IH]; intros [|a] H; cbn [firstn]; try (cbn; lia).
  change (0 <= x + sumZ (firstn a l)). pose proof (H x (or_introl eq_refl)). specialize (IH a (fun y Hy => H y (or_intror Hy))). lia.
Qed.

Lemma ceil_small p l : 0 <= p < l -> ceil_to p l = Ok (if p =? 0 then 0 else l).
Proof.
  intros H. unfold ceil_to. destruct (l =? 0) eqn:E; [lia|]. f_equal. destruct (Z.eqb_spec p 0) as [->|]; [cbn; lia|]. assert (- p / l = -1) as ->; [|lia].
  symmetry. apply (Z.div_unique_pos (- p) l (-1) (l - p)); lia.
Qed.
Lemma ceil_next p l : 0 <= p -> 0 < l -> ceil_to (p + 1) l = Ok (l * (p / l + 1)).
Proof.
  intros Hp Hl. unfold ceil_to. destruct (l =? 0) eqn:E; [lia|]. f_equal. assert (- (p + 1) / l = - (p / l + 1)) as ->; [|lia].
  symmetry. pose proof (Z.div_mod p l ltac:(lia)). pose proof (Z.mod_pos_bound p l Hl). apply (Z.div_unique_pos (- (p + 1)) l _ (l - 1 - p mod l)); lia.
Qed.

Lemma produced_value c n : forall a acc, (a + n <= length (e_in c))%nat -> wig_produced c (map (fun j => Z.of_nat j + 1) (seq a n)) acc = Ok (acc + received c (a + n) - received c a).
Proof.
  induction n as [|n IH]; intros a acc H; cbn [seq map wig_produced]; [rewrite Nat.add_0_r; f_equal; lia|]. rewrite in_phase_nth by lia. cbn [bind]. rewrite IH by lia.
  rewrite (received_S c a) by lia. f_equal. replace (S a + n)%nat with (a + S n)%nat by lia. lia.
Qed.

Section V.
Variable v : vertex.
Hypothesis W : vertex_wf v.
Hypothesis I0 : v_init_phases v = 0%nat.
Let ss := map (elapsed v) (seq 0 (v_phases v)).

Lemma beta_value c alpha lambda n : 0 < lambda -> length (e_in c) = v_phases v -> (forall x, In x (e_in c) -> 0 <= x) -> lambda <= sumZ (e_in c) -> forall a, (a + S n = v_phases v)%nat -> received c a < lambda ->
  exists a0, (a0 < v_phases v)%nat /\ received c a0 < lambda <= received c (S a0) /\
    wig_beta v c alpha lambda ss (map (fun j => Z.of_nat j + 1) (seq a (S n))) (received c a) = Ok (inject_Z (if (received c a0 =? 0) then 1 else lambda + 1) - alpha * elapsed v (S a0))%Q.
Proof using W I0.
  intros Lp Le Nn Lt. induction n as [|n IH]; intros a Ha Hl; remember (seq (S a)) as sq; cbn [seq map wig_beta]; subst sq;
    rewrite in_phase_nth by lia; cbn [bind]; replace (received c a + nth a (e_in c) 0 - nth a (e_in c) 0) with (received c a) by lia;
    pose proof (received_nn c a Nn) as Rn; rewrite (ceil_small (received c a) lambda) by lia; cbn [bind]; rewrite <- (received_S c a) by lia.
  - pose proof (received_total c (S a)) as T. assert (sumZ (skipn (S a) (e_in c)) = 0) as Z0 by (rewrite skipn_all2 by lia; reflexivity).
    destruct (lambda <=? received c (S a)) eqn:E; [|lia]. unfold ss. rewrite (ss_at v a) by lia. cbn [bind]. rewrite (phase_duration v a W I0) by lia. cbn [bind]. exists a.
    split; [lia|]. split; [lia|]. destruct (received c a =? 0); [reflexivity|]. reflexivity.
  - destruct (lambda <=? received c (S a)) eqn:E.
    + unfold ss. rewrite (ss_at v a) by lia. cbn [bind]. rewrite (phase_duration v a W I0) by lia. cbn [bind]. exists a. split; [lia|]. split; [lia|]. destruct (received c a =? 0); reflexivity.
    + apply IH; lia.
Qed.

(** The curve kept for a channel of this task. *)
Definition line_curve (cycle : Q) (w : curve) : Prop :=
  length (e_in (w_edge w)) = v_phases v /\ (forall x, In x (e_in (w_edge w)) -> 0 <= x) /\ 0 < sumZ (e_in (w_edge w)) /\ w_lambda w = wig_lambda (w_edge w) /\ (0 < w_alpha w)%Q /\
  (w_alpha w == inject_Z (sumZ (e_in (w_edge w))) / cycle)%Q /\
  exists a0, (a0 < v_phases v)%nat /\ received (w_edge w) a0 < w_lambda w <= received (w_edge w) (S a0) /\
    (w_beta w == inject_Z (if (received (w_edge w) a0 =? 0) then 1 else w_lambda w + 1) - w_alpha w * elapsed v (S a0))%Q.

Lemma line_good cycle w : line_curve cycle w -> good_curve v w.
Proof using. clear. intros (L & Nn & Sp & El & Ap & _). split; [rewrite El; apply (lambda_bounds _ Sp)|]. split; [exact Ap|exact L]. Qed.

Lemma bound_value cycle w a : (0 < cycle)%Q -> line_curve cycle w -> (a < v_phases v)%nat -> exists b, wig_bound w (Z.of_nat a + 1) = Ok b /\ line_time (w_edge w) v cycle a b.
Proof using. clear W I0.
  intros Cp (L & Nn & Sp & El & Ap & Ea & a0 & H0 & H1 & Eb) Ha. unfold wig_bound. replace (Z.of_nat a + 1 - 1) with (Z.of_nat a) by lia. rewrite zrange_seq, produced_value by lia. cbn [bind Nat.add].
  replace (0 + received (w_edge w) a - received (w_edge w) 0) with (received (w_edge w) a) by (unfold received; cbn; lia). pose proof (lambda_bounds _ Sp) as LB. rewrite <- El in LB.
  rewrite ceil_next by (first [apply received_nn; exact Nn|lia]). cbn [bind]. rewrite qdiv_ok by exact Ap. eexists. split; [reflexivity|]. exists (w_lambda w), a0.
  split; [rewrite El; apply lambda_packet; exact Sp|]. split; [exact H0|]. split; [exact H1|]. cbv zeta. set (lev := if _ =? 0 then 1 else _) in *. clearbody lev.
  rewrite Eb. unfold Z.sub. rewrite inject_Z_plus, inject_Z_opp. set (M := inject_Z (w_lambda w * _)). clearbody M. set (T := inject_Z (sumZ _)) in *.
  assert (Tp : (0 < T)%Q) by (unfold T, Qlt; cbn; lia). clearbody T. set (E := elapsed v (S a0)). clearbody E. rewrite Ea. field. split; lra.
Qed.

Lemma bounds_late cycle a s d ws : (0 < cycle)%Q -> (a < v_phases v)%nat -> (forall w, In w ws -> line_curve cycle w) ->
  forall h0, (s + d <= h0)%Q -> exists h, wig_bounds (Z.of_nat a + 1) s d ws h0 = Ok h /\ (s + d <= h)%Q /\ (h <= h0)%Q /\
    (forall w, In w ws -> exists b, line_time (w_edge w) v cycle a b /\ ((h <= b)%Q \/ (h == s + d)%Q)) /\
    ((h == h0)%Q \/ (h == s + d)%Q \/ exists w b, In w ws /\ line_time (w_edge w) v cycle a b /\ (h == b)%Q).
Proof using. clear W I0.
  intros Cp Ha Gw. induction ws as [|w ws IH]; intros h0 L1; cbn [wig_bounds].
  - exists h0. split; [reflexivity|]. split; [exact L1|]. split; [lra|]. split; [intros w []|left; reflexivity].
  - destruct (bound_value cycle w a Cp (Gw w (or_introl eq_refl)) Ha) as (b & -> & Lt). cbn [bind]. cbv zeta.
    set (h2 := if Qless (b - d) s then Qmax (Qmin h0 b) (s + d) else Qmin h0 b).
    assert (H2 : (s + d <= h2)%Q /\ (h2 <= h0)%Q /\ ((h2 <= b)%Q \/ (h2 == s + d)%Q) /\ ((h2 == h0)%Q \/ (h2 == s + d)%Q \/ (h2 == b)%Q)).
    { unfold h2. destruct (Qless (b - d) s) eqn:E.
      - apply Qless_true in E. assert (X : (Qmax (Qmin h0 b) (s + d) == s + d)%Q) by (apply Q.max_r; pose proof (Q.le_min_r h0 b); lra). rewrite X. split; [lra|]. split; [lra|]. split; [right; reflexivity|right; left; reflexivity].
      - apply Qless_false in E. pose proof (Q.le_min_l h0 b). pose proof (Q.le_min_r h0 b). split; [apply Q.min_glb; lra|]. split; [lra|]. split; [left; lra|].
        destruct (Q.min_spec h0 b) as [[_ X]|[_ X]]; [left; exact X|right; right; exact X]. }
    clearbody h2. destruct H2 as (A1 & A2 & A3 & A4). destruct IH with (h0 := h2) as (h & -> & B1 & B2 & B3 & B4); [intros w' Hw; apply Gw; right; exact Hw|exact A1|].
    exists h. split; [reflexivity|]. split; [exact B1|]. split; [lra|]. split.
    + intros w' [<-|Hw]; [|exact (B3 w' Hw)]. exists b. split; [exact Lt|]. destruct A3; [left; lra|right; lra].
    + destruct B4 as [B4|[B4|(w' & b' & Hw & Lt' & B4)]]; [|right; left; exact B4|right; right; exists w', b'; split; [right; exact Hw|split; [exact Lt'|exact B4]]].
      destruct A4 as [A4|[A4|A4]]; [left; lra|right; left; lra|right; right; exists w, b; split; [left; reflexivity|split; [exact Lt|lra]]].
Qed.

Definition late_end (cycle : Q) (ws : list curve) (a : nat) (e y : Q) : Prop :=
  (forall w, In w ws -> exists b, line_time (w_edge w) v cycle a b /\ ((e <= b)%Q \/ (e == elapsed v (S a))%Q)) /\
  ((e == y)%Q \/ (e == elapsed v (S a))%Q \/ exists w b, In w ws /\ line_time (w_edge w) v cycle a b /\ (e == b)%Q).

Lemma retime_late cycle ws n : (0 < cycle)%Q -> (forall w, In w ws -> line_curve cycle w) -> forall next acc, (n < v_phases v)%nat -> (elapsed v n <= next)%Q ->
  exists r, wig_retime v ss ws (rev (map (fun j => Z.of_nat j + 1) (seq 0 n))) next acc = Ok (r ++ acc) /\ length r = n /\
    (forall a, (a < n)%nat -> late_end cycle ws a (nth a (r ++ [next]) 0 + exec_duration v a)%Q (nth (S a) (r ++ [next]) 0)%Q).
Proof using W I0.
  intros Cp Gw. induction n as [|n IH]; intros next acc Hn Hl.
  - exists []. cbn [app length]. split; [reflexivity|]. split; [reflexivity|]. intros a Ha; exfalso; clear - Ha; lia.
  - rewrite seq_S, map_app, rev_app_distr. cbn [Nat.add map rev app wig_retime]. unfold ss at 1. rewrite (ss_at v n) by lia. cbn [bind]. rewrite (phase_duration v n W I0) by lia. cbn [bind].
    cbn [elapsed] in Hl. destruct (Qless (next - exec_duration v n) (elapsed v n)) eqn:E; [apply Qless_true in E; lra|]. cbn [negb cassert bind].
    destruct (bounds_late cycle n (elapsed v n) (exec_duration v n) ws Cp ltac:(lia) Gw next Hl) as (h & -> & H1 & H2 & H3 & H4). cbn [bind].
    set (x := (h - exec_duration v n)%Q). assert (X1 : (elapsed v n <= x)%Q) by (unfold x; lra). assert (X2 : (x + exec_duration v n == h)%Q) by (unfold x; lra). clearbody x.
    destruct (IH x (x :: acc) ltac:(lia) X1) as (r & -> & Lr & R2). exists (r ++ [x]). split; [rewrite <- app_assoc; reflexivity|]. split; [rewrite app_length; cbn; lia|].
    intros a Ha. assert (Q1 : nth a ((r ++ [x]) ++ [next]) 0%Q = nth a (r ++ [x]) 0%Q) by (apply app_nth1; rewrite app_length; cbn; lia). rewrite Q1.
    destruct (Nat.eq_dec a n) as [->|].
    + assert (Q2 : nth n (r ++ [x]) 0%Q = x) by (rewrite app_nth2, Lr, Nat.sub_diag by lia; reflexivity).
      assert (Q3 : nth (S n) ((r ++ [x]) ++ [next]) 0%Q = next).
      { assert (Lx : length (r ++ [x]) = S n) by (rewrite app_length, Lr; cbn; lia). rewrite <- Lx. apply nth_middle. }
      rewrite Q2, Q3. split; cbn [elapsed].
      * intros w Hw. destruct (H3 w Hw) as (b & Lt & [D|D]); exists b; (split; [exact Lt|]); [left; lra|right; lra].
      * destruct H4 as [D|[D|(w & b & Hw & Lt & D)]]; [left; lra|right; left; lra|right; right; exists w, b; split; [exact Hw|split; [exact Lt|lra]]].
    + assert (Q3 : nth (S a) ((r ++ [x]) ++ [next]) 0%Q = nth (S a) (r ++ [x]) 0%Q) by (apply app_nth1; rewrite app_length; cbn; lia). rewrite Q3. apply R2. lia.
Qed.
End V.

Section G.
Variables (g : graph) (N : nat -> Z) (period : Q).
Hypothesis Hwf : graph_wf g.
Hypothesis Hno : no_init g.
Hypothesis Hcyc : whole_cycles g N.
Hypothesis Hper : (0 < period)%Q.

Definition curve_for (w : curve) : Prop := In (w_edge w) (edges g) /\
  exists v, nth_error (vertices g) (e_src (w_edge w)) = Some v /\ line_curve v (cycle_time N period (e_src (w_edge w)) v) w.

Lemma curve_line c : In c (edges g) -> exists w, wig_curve period g N c = Ok w /\ w_edge w = c /\ curve_for w.
Proof.
  intros Hc. destruct Hwf as (_ & He & _). destruct (He c Hc) as (vs & vd & E1 & E2 & L1 & L2 & _ & _ & Nn & S1 & _). unfold wig_curve. rewrite E1.
  destruct (mu_ok g N period Hwf Hcyc Hper _ _ E1) as (m & -> & Em & Pm). cbn [bind]. rewrite qdiv_ok by exact Pm. cbn [bind]. pose proof (vertex_ok g Hwf _ _ E1) as W. pose proof (Hno vs (nth_error_In _ _ E1)) as I0.
  rewrite (burst_ok vs W I0). cbn [bind]. rewrite zrange_seq, L1. pose proof (lambda_bounds c S1) as LB. pose proof W as (Pp & _).
  assert (Nn' : forall x, In x (e_in c) -> 0 <= x) by (intros x Hx; apply Nn, in_or_app; left; exact Hx).
  destruct (v_phases vs) as [|n] eqn:Ep; [lia|]. set (al := (inject_Z (edge_in_total c) / m)%Q).
  destruct (beta_value vs W I0 c al (wig_lambda c) n ltac:(lia) ltac:(lia) Nn' ltac:(lia) 0%nat ltac:(lia) ltac:(unfold received; cbn; lia)) as (a0 & H0 & H1 & Eb).
  rewrite Ep in Eb. change (received c 0) with 0 in Eb. rewrite Eb. cbn [bind]. eexists. split; [reflexivity|]. split; [reflexivity|]. split; [exact Hc|]. cbn [w_edge].
  exists vs. split; [exact E1|]. unfold line_curve. cbn [w_edge w_lambda w_alpha w_beta]. split; [lia|]. split; [exact Nn'|]. split; [exact S1|]. split; [reflexivity|].
  split; [|split; [unfold al; rewrite Em; reflexivity|exists a0; split; [exact H0|split; [exact H1|reflexivity]]]].
  unfold al. apply Qlt_shift_div_l; [exact Pm|]. unfold edge_in_total. assert ((0 < inject_Z (sumZ (e_in c)))%Q) by (unfold Qlt; cbn; lia). lra.
Qed.

Lemma curves_line l : (forall c, In c l -> In c (edges g)) -> exists ws, wig_curves period g N l = Ok ws /\ (forall w, In w ws -> curve_for w) /\ (forall c, In c l -> exists w, In w ws /\ w_edge w = c).
Proof.
  induction l as [|c l IH]; intros H; cbn [wig_curves]; [exists []; split; [reflexivity|split; [intros w []|intros c []]]|].
  destruct (curve_line c (H c (or_introl eq_refl))) as (w & -> & Ew & P1). cbn [bind]. destruct IH as (ws & -> & P & Q); [intros c' Hc; apply H; right; exact Hc|]. cbn [bind].
  eexists. split; [reflexivity|]. split.
  - intros w' [<-|Hw]; [exact P1|exact (P w' Hw)].
  - intros c' [<-|Hc]; [exists w; split; [left; reflexivity|exact Ew]|]. destruct (Q c' Hc) as (w' & Hw & E). exists w'. split; [right; exact Hw|exact E].
Qed.

Section Task.
Variable curves : list curve.
Hypothesis Hcur : forall w, In w curves -> curve_for w.
Hypothesis Hall : forall c, In c (edges g) -> exists w, In w curves /\ w_edge w = c.

Lemma task_late i v o : nth_error (vertices g) i = Some v -> ((2 <= v_phases v)%nat -> (elapsed v (v_phases v) <= cycle_time N period i v)%Q) ->
  wig_task period N curves i v = Ok o -> as_late g i v (cycle_time N period i v) o.
Proof.
  intros E Fit. unfold wig_task. set (ws := filter _ curves).
  assert (Gw : forall w, In w ws -> In (w_edge w) (edges g) /\ e_src (w_edge w) = i /\ line_curve v (cycle_time N period i v) w).
  { intros w Hw. apply filter_In in Hw as [Hw Es]. apply Nat.eqb_eq in Es. destruct (Hcur w Hw) as (He & v' & E' & L). split; [exact He|]. split; [exact Es|]. rewrite Es in E', L. rewrite E in E'. injection E' as <-. exact L. }
  assert (Cw : forall c, In c (edges g) -> e_src c = i -> exists w, In w ws /\ w_edge w = c).
  { intros c Hc Es. destruct (Hall c Hc) as (w & Hw & Ew). exists w. split; [|exact Ew]. apply filter_In. split; [exact Hw|]. rewrite Ew. apply Nat.eqb_eq. exact Es. }
  clearbody ws. destruct (mu_ok g N period Hwf Hcyc Hper i v E) as (m & -> & Em & Pm). cbn [bind].
  pose proof (vertex_ok g Hwf i v E) as W. pose proof (Hno v (nth_error_In _ _ E)) as I0. rewrite (burst_ok v W I0). cbn [bind]. pose proof W as (Pp & _).
  destruct (le_lt_dec (v_phases v) 1) as [P1|P1]; [intros _ a Ha; lia|]. specialize (Fit ltac:(lia)).
  destruct (v_phases v) as [|[|n]] eqn:Ep; [lia..|]. replace (Z.of_nat (S (S n))) with (Z.of_nat (S n) + 1) by lia. rewrite (phase_duration v (S n) W I0) by lia. cbn [bind].
  replace (Z.of_nat (S n) + 1 - 1) with (Z.of_nat (S n)) by lia. rewrite zrange_seq.
  set (x := (m - exec_duration v (S n))%Q). assert (Hx : (elapsed v (S n) <= x)%Q) by (unfold x; change (elapsed v (S (S n))) with (elapsed v (S n) + exec_duration v (S n))%Q in Fit; lra). clearbody x.
  destruct (retime_late v W I0 (cycle_time N period i v) ws (S n) ltac:(lra) (fun w Hw => proj2 (proj2 (Gw w Hw))) x [x] ltac:(lia) Hx) as (r & Er & Lr & R). rewrite Ep in Er. rewrite Er. cbn [bind].
  destruct (Z.of_nat (S n) + 1 =? 1) eqn:E1; [lia|]. intros Eo. assert (o = r ++ [x]) as -> by congruence. intros a Ha. rewrite Ep in Ha. cbv zeta. destruct (R a ltac:(lia)) as [R1 R2]. split.
  - intros c Hc Es. destruct (Cw c Hc Es) as (w & Hw & <-). exact (R1 w Hw).
  - destruct R2 as [D|[D|(w & b & Hw & Lt & D)]]; [left; exact D|right; left; exact D|right; right]. destruct (Gw w Hw) as (A & B & _). exists (w_edge w), b. auto.
Qed.

Lemma tasks_each ivs l : wig_tasks period N curves ivs = Ok l -> Forall2 (fun iv o => wig_task period N curves (fst iv) (snd iv) = Ok o) ivs l.
Proof using.
  clear. revert l. induction ivs as [|[i v] ivs IH]; intros l; cbn [wig_tasks]; [intros [=<-]; constructor|]. destruct (wig_task period N curves i v) as [o| | |] eqn:Eo; cbn [bind]; try discriminate.
  destruct (wig_tasks period N curves ivs) as [r| | |] eqn:Er; cbn [bind]; try discriminate. intros [=<-]. constructor; [exact Eo|apply IH; reflexivity].
Qed.
End Task.

Lemma wiggers_late l : several_fit g N period -> wiggers_offsets period g N = Ok l ->
  forall i v, nth_error (vertices g) i = Some v -> exists o, nth_error l i = Some o /\ as_late g i v (cycle_time N period i v) o.
Proof.
  intros F. unfold wiggers_offsets. destruct (curves_line (edges g) (fun c H => H)) as (ws & -> & Pw & Cw). cbn [bind]. intros E i v Hi.
  destruct (forall2_indexed _ _ 0%nat l (tasks_each ws _ _ E)) as [_ G]. destruct (G i v Hi) as (o & Eo & To). exists o. split; [exact Eo|]. exact (task_late ws Pw Cw i v o Hi (F i v Hi) To).
Qed.
End G.
