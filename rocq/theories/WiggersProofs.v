(** The offsets of Wiggers. *)
From Coq Require Import QArith Qminmax Lqa Lia ZifyBool ZifyNat.
From Verif Require Import Base Graph Commons KPeriodic ScheduleSpec ScheduleCore KIterSpec SPeriodicProofs Sizing SizingSpec SizingLp SizingProofs SizingOffsets KPeriodicGraph
  Wiggers WiggersSpec.
Open Scope Z_scope.

Lemma Qless_true a b : Qless a b = true <-> (a < b)%Q.
Proof. unfold Qless. destruct (Qle_bool b a) eqn:E; cbn [negb]; [apply Qle_bool_iff in E; split; [discriminate|lra]|]. split; [intros _|reflexivity].
  apply Qnot_le_lt. intros L. apply Qle_bool_iff in L. congruence. Qed.
Lemma Qless_false a b : Qless a b = false <-> (b <= a)%Q.
Proof. unfold Qless. destruct (Qle_bool b a) eqn:E; cbn [negb]; [apply Qle_bool_iff in E; split; [intros _; exact E|reflexivity]|]. split; [discriminate|].
  intros L. apply Qle_bool_iff in L. congruence. Qed.

Lemma at_index_nth {A} (l : list A) (a : nat) d : (a < length l)%nat -> at_index l (Z.of_nat a) = Ok (nth a l d).
Proof.
  intros H. unfold at_index. destruct (Z.of_nat a <? 0) eqn:E; [lia|]. rewrite Nat2Z.id. rewrite (nth_error_nth' l d H). reflexivity.
Qed.
Lemma in_phase_nth c a : (a < length (e_in c))%nat -> edge_in_phase c (Z.of_nat a + 1) = Ok (nth a (e_in c) 0).
Proof. intros H. unfold edge_in_phase. destruct (Z.of_nat a + 1 <=? 0) eqn:E; [lia|]. replace (Z.of_nat a + 1 - 1) with (Z.of_nat a) by lia. exact (at_index_nth _ _ _ H). Qed.
Lemma ceil_to_ok v c : 0 < c -> exists r, ceil_to v c = Ok r.
Proof. intros H. unfold ceil_to. destruct (c =? 0) eqn:E; [lia|]. eexists. reflexivity. Qed.
Lemma qdiv_ok a b : (0 < b)%Q -> qdiv a b = Ok (a / b)%Q.
Proof. intros H. unfold qdiv. destruct (Qeq_bool b 0) eqn:E; [apply Qeq_bool_iff in E; lra|reflexivity]. Qed.

Lemma gcd_fold_divides l : forall x, (fold_left Z.gcd l x | x).
Proof. induction l as [|y l IH]; intros x; cbn [fold_left]; [exists 1; lia|]. eapply Z.divide_trans; [apply IH|apply Z.gcd_divide_l]. Qed.
Lemma gcd_fold_nn l : forall x, 0 <= x -> 0 <= fold_left Z.gcd l x.
Proof. induction l as [|y l IH]; intros x H; cbn [fold_left]; [exact H|]. apply IH, Z.gcd_nonneg. Qed.
Lemma lambda_bounds c : 0 < sumZ (e_in c) -> 0 < wig_lambda c <= sumZ (e_in c).
Proof.
  intros H. unfold wig_lambda, edge_in_total. pose proof (gcd_fold_divides (e_out c) (sumZ (e_in c))) as D. pose proof (gcd_fold_nn (e_out c) (sumZ (e_in c)) ltac:(lia)) as P.
  pose proof (Z.divide_pos_le _ _ H D). set (x := fold_left _ _ _) in *. clearbody x. destruct (Z.eq_dec x 0) as [->|]; [apply Z.divide_0_l in D; lia|lia].
Qed.

Lemma sumZ_skipn l : forall a, (a < length l)%nat -> sumZ (skipn a l) = nth a l 0 + sumZ (skipn (S a) l).
Proof. induction l as [|x l IH]; intros [|a] H; cbn [length] in H; try lia; [reflexivity|]. cbn [skipn nth]. rewrite IH by lia. reflexivity. Qed.

Section V.
Variable v : vertex.
Hypothesis W : vertex_wf v.
Hypothesis I0 : v_init_phases v = 0%nat.
Let ss := map (elapsed v) (seq 0 (v_phases v)).

Lemma ss_at a : (a < v_phases v)%nat -> at_index ss (Z.of_nat a + 1 - 1) = Ok (elapsed v a).
Proof using. clear W I0.
  intros H. replace (Z.of_nat a + 1 - 1) with (Z.of_nat a) by lia. rewrite (at_index_nth _ _ 0%Q) by (unfold ss; rewrite map_length, seq_length; exact H).
  unfold ss. rewrite nth_map_seq by exact H. reflexivity.
Qed.

Lemma beta_ok c alpha lambda n : 0 < lambda -> length (e_in c) = v_phases v -> forall a cumul, (a + S n = v_phases v)%nat -> lambda <= cumul + sumZ (skipn a (e_in c)) ->
  exists b, wig_beta v c alpha lambda ss (map (fun j => Z.of_nat j + 1) (seq a (S n))) cumul = Ok b.
Proof using W I0.
  intros Lp Le. induction n as [|n IH]; intros a cumul Ha Hl; remember (seq (S a)) as sq; cbn [seq map wig_beta]; subst sq;
    rewrite in_phase_nth by lia; cbn [bind]; destruct (ceil_to_ok (cumul + nth a (e_in c) 0 - nth a (e_in c) 0) lambda Lp) as [r ->]; cbn [bind];
    rewrite (sumZ_skipn _ a) in Hl by lia.
  - assert (sumZ (skipn (S a) (e_in c)) = 0) as Z0 by (rewrite skipn_all2 by lia; reflexivity).
    destruct (lambda <=? cumul + nth a (e_in c) 0) eqn:E; [|lia]. rewrite ss_at by lia. cbn [bind]. rewrite (phase_duration v a W I0) by lia. cbn [bind]. eexists. reflexivity.
  - destruct (lambda <=? cumul + nth a (e_in c) 0) eqn:E.
    + rewrite ss_at by lia. cbn [bind]. rewrite (phase_duration v a W I0) by lia. cbn [bind]. eexists. reflexivity.
    + apply IH; lia.
Qed.

Lemma produced_ok c n : forall a acc, (a + n <= length (e_in c))%nat -> exists r, wig_produced c (map (fun j => Z.of_nat j + 1) (seq a n)) acc = Ok r.
Proof using. clear W I0.
  induction n as [|n IH]; intros a acc H; cbn [seq map wig_produced]; [eexists; reflexivity|]. rewrite in_phase_nth by lia. cbn [bind]. apply IH. lia.
Qed.

Definition good_curve (w : curve) : Prop := 0 < w_lambda w /\ (0 < w_alpha w)%Q /\ length (e_in (w_edge w)) = v_phases v.

Lemma bound_ok w a : good_curve w -> (a < v_phases v)%nat -> exists b, wig_bound w (Z.of_nat a + 1) = Ok b.
Proof using. clear W I0.
  intros (Lp & Ap & Le) H. unfold wig_bound. replace (Z.of_nat a + 1 - 1) with (Z.of_nat a) by lia. rewrite zrange_seq. destruct (produced_ok (w_edge w) a 0 0 ltac:(lia)) as [p ->]. cbn [bind].
  destruct (ceil_to_ok (p + 1) (w_lambda w) Lp) as [m ->]. cbn [bind]. rewrite qdiv_ok by exact Ap. eexists. reflexivity.
Qed.

Lemma bounds_ok a s d next ws : (a < v_phases v)%nat -> (forall w, In w ws -> good_curve w) -> (s + d <= next)%Q ->
  forall h0, (s + d <= h0)%Q -> (h0 <= next)%Q -> exists h, wig_bounds (Z.of_nat a + 1) s d ws h0 = Ok h /\ (s + d <= h)%Q /\ (h <= next)%Q.
Proof using. clear W I0.
  intros Ha Gw Hn. induction ws as [|w ws IH]; intros h0 L1 L2; cbn [wig_bounds]; [exists h0; auto|].
  destruct (bound_ok w a (Gw w (or_introl eq_refl)) Ha) as [b ->]. cbn [bind]. apply IH; [intros w' Hw; apply Gw; right; exact Hw| |].
  - destruct (Qless (b - d) s) eqn:E.
    + apply Q.le_max_r.
    + apply Qless_false in E. apply Q.min_glb; lra.
  - pose proof (Q.le_min_l h0 b). destruct (Qless (b - d) s); [apply Q.max_lub; lra|lra].
Qed.

Lemma retime_ok ws n : (forall w, In w ws -> good_curve w) -> forall next acc, (n < v_phases v)%nat -> (elapsed v n <= next)%Q ->
  exists r, wig_retime v ss ws (rev (map (fun j => Z.of_nat j + 1) (seq 0 n))) next acc = Ok (r ++ acc) /\ length r = n /\
    (forall a, (a < n)%nat -> (elapsed v a <= nth a r 0)%Q) /\
    (forall a, (a < n)%nat -> (nth a (r ++ [next]) 0 + exec_duration v a <= nth (S a) (r ++ [next]) 0)%Q).
Proof using W I0.
  intros Gw. induction n as [|n IH]; intros next acc Hn Hl.
  - exists []. cbn [app length]. split; [reflexivity|]. split; [reflexivity|]. split; intros a Ha; exfalso; clear - Ha; lia.
  - rewrite seq_S, map_app, rev_app_distr. cbn [Nat.add map rev app wig_retime]. rewrite ss_at by lia. cbn [bind]. rewrite (phase_duration v n W I0) by lia. cbn [bind].
    cbn [elapsed] in Hl. destruct (Qless (next - exec_duration v n) (elapsed v n)) eqn:E; [apply Qless_true in E; lra|]. cbn [negb cassert bind].
    destruct (bounds_ok n (elapsed v n) (exec_duration v n) next ws ltac:(lia) Gw Hl next Hl ltac:(lra)) as (h & -> & H1 & H2). cbn [bind].
    set (x := (h - exec_duration v n)%Q). assert (X1 : (elapsed v n <= x)%Q) by (unfold x; lra). assert (X2 : (x + exec_duration v n <= next)%Q) by (unfold x; lra). clearbody x.
    destruct (IH x (x :: acc) ltac:(lia) X1) as (r & -> & Lr & R1 & R2). exists (r ++ [x]). split; [rewrite <- app_assoc; reflexivity|]. split; [rewrite app_length; cbn; lia|]. split.
    + intros a Ha. destruct (Nat.eq_dec a n) as [->|]; [rewrite app_nth2, Lr, Nat.sub_diag by lia; exact X1|]. rewrite app_nth1 by lia. apply R1. lia.
    + intros a Ha. assert (Q1 : nth a ((r ++ [x]) ++ [next]) 0%Q = nth a (r ++ [x]) 0%Q) by (apply app_nth1; rewrite app_length; cbn; lia). rewrite Q1.
      destruct (Nat.eq_dec a n) as [->|].
      * assert (Q2 : nth n (r ++ [x]) 0%Q = x) by (rewrite app_nth2, Lr, Nat.sub_diag by lia; reflexivity).
        assert (Q3 : nth (S n) ((r ++ [x]) ++ [next]) 0%Q = next).
        { assert (Lx : length (r ++ [x]) = S n) by (rewrite app_length, Lr; cbn; lia). rewrite <- Lx. apply nth_middle. }
        rewrite Q2, Q3. exact X2.
      * assert (Q3 : nth (S a) ((r ++ [x]) ++ [next]) 0%Q = nth (S a) (r ++ [x]) 0%Q) by (apply app_nth1; rewrite app_length; cbn; lia). rewrite Q3. apply R2. lia.
Qed.

Lemma retime_rejects ws n next acc : (S n < v_phases v)%nat -> (next < elapsed v (S n))%Q ->
  wig_retime v ss ws (rev (map (fun j => Z.of_nat j + 1) (seq 0 (S n)))) next acc = Rejected.
Proof using W I0.
  intros Hn Hl. rewrite seq_S, map_app, rev_app_distr. cbn [Nat.add map rev app wig_retime]. rewrite ss_at by lia. cbn [bind]. rewrite (phase_duration v n W I0) by lia. cbn [bind].
  cbn [elapsed] in Hl. assert (E : Qless (next - exec_duration v n) (elapsed v n) = true) by (apply Qless_true; lra). rewrite E. reflexivity.
Qed.
End V.

Section G.
Variables (g : graph) (N : nat -> Z) (period : Q).
Hypothesis Hwf : graph_wf g.
Hypothesis Hno : no_init g.
Hypothesis Hcyc : whole_cycles g N.
Hypothesis Hper : (0 < period)%Q.

Lemma mu_ok i v : nth_error (vertices g) i = Some v -> exists m, wig_mu period v (N i) = Ok m /\ (m == cycle_time N period i v)%Q /\ (0 < m)%Q.
Proof.
  intros E. destruct (Hcyc i v E) as [Np _]. pose proof (vertex_ok g Hwf i v E) as (Pp & _). unfold wig_mu. rewrite time_over_ok by lia. cbn [bind]. eexists. split; [reflexivity|].
  assert (A : (0 < inject_Z (N i))%Q) by (unfold Qlt; cbn; lia). assert (B : (0 < inject_Z (Z.of_nat (v_phases v)))%Q) by (unfold Qlt; cbn; lia). split.
  - unfold cycle_time. field. lra.
  - assert ((0 < period / inject_Z (N i))%Q) by (apply Qlt_shift_div_l; [exact A|lra]). nra.
Qed.

Lemma curve_ok c : In c (edges g) -> exists w, wig_curve period g N c = Ok w /\ w_edge w = c /\ 0 < w_lambda w /\ (0 < w_alpha w)%Q.
Proof.
  intros Hc. destruct Hwf as (_ & He & _). destruct (He c Hc) as (vs & vd & E1 & E2 & L1 & L2 & _ & _ & _ & S1 & _). unfold wig_curve. rewrite E1.
  destruct (mu_ok _ _ E1) as (m & -> & Em & Pm). cbn [bind]. rewrite qdiv_ok by exact Pm. cbn [bind]. pose proof (vertex_ok g Hwf _ _ E1) as W. pose proof (Hno vs (nth_error_In _ _ E1)) as I0.
  rewrite (burst_ok vs W I0). cbn [bind]. rewrite zrange_seq, L1. pose proof (lambda_bounds c S1) as LB. destruct W as (Pp & W'). pose proof (conj Pp W' : vertex_wf vs) as W.
  destruct (v_phases vs) as [|n] eqn:Ep; [lia|]. destruct (beta_ok vs W I0 c (inject_Z (edge_in_total c) / m)%Q (wig_lambda c) n ltac:(lia) ltac:(lia) 0%nat 0 ltac:(lia) ltac:(cbn [skipn]; lia)) as [b Eb].
  rewrite Ep in Eb. rewrite Eb. cbn [bind]. eexists. split; [reflexivity|]. cbn [w_edge w_lambda w_alpha]. split; [reflexivity|]. split; [lia|].
  apply Qlt_shift_div_l; [exact Pm|]. unfold edge_in_total. assert ((0 < inject_Z (sumZ (e_in c)))%Q) by (unfold Qlt; cbn; lia). lra.
Qed.

Lemma curves_ok l : (forall c, In c l -> In c (edges g)) -> exists ws, wig_curves period g N l = Ok ws /\ (forall w, In w ws -> In (w_edge w) (edges g) /\ 0 < w_lambda w /\ (0 < w_alpha w)%Q).
Proof.
  induction l as [|c l IH]; intros H; cbn [wig_curves]; [exists []; split; [reflexivity|intros w []]|].
  destruct (curve_ok c (H c (or_introl eq_refl))) as (w & -> & Ew & P1 & P2). cbn [bind]. destruct IH as (ws & -> & P); [intros c' Hc; apply H; right; exact Hc|]. cbn [bind].
  eexists. split; [reflexivity|]. intros w' [<-|Hw]; [rewrite Ew; split; [apply H; left; reflexivity|auto]|exact (P w' Hw)].
Qed.

Definition task_offsets (i : nat) (v : vertex) (o : list Q) : Prop :=
  (v_phases v = 1%nat -> o = [0%Q]) /\ ((2 <= v_phases v)%nat -> pushed_back v (cycle_time N period i v) o).

Section Task.
Variable curves : list curve.
Hypothesis Hcur : forall w, In w curves -> In (w_edge w) (edges g) /\ 0 < w_lambda w /\ (0 < w_alpha w)%Q.

Lemma out_curves i v : nth_error (vertices g) i = Some v -> forall w, In w (filter (fun w => (e_src (w_edge w) =? i)%nat) curves) -> good_curve v w.
Proof using Hwf Hcur.
  intros E w Hw. apply filter_In in Hw as [Hw Es]. apply Nat.eqb_eq in Es. destruct (Hcur w Hw) as (He & P1 & P2). split; [exact P1|]. split; [exact P2|].
  destruct Hwf as (_ & Hed & _). destruct (Hed _ He) as (vs & vd & E1 & E2 & L1 & _). rewrite Es, E in E1. injection E1 as ->. exact L1.
Qed.

Lemma task_ok i v : nth_error (vertices g) i = Some v -> ((2 <= v_phases v)%nat -> (elapsed v (v_phases v) <= cycle_time N period i v)%Q) ->
  exists o, wig_task period N curves i v = Ok o /\ task_offsets i v o.
Proof.
  intros E Fit. pose proof (out_curves i v E) as Gw. unfold wig_task. set (ws := filter _ curves) in *. clearbody ws. destruct (mu_ok i v E) as (m & -> & Em & Pm). cbn [bind].
  pose proof (vertex_ok g Hwf i v E) as W. pose proof (Hno v (nth_error_In _ _ E)) as I0. rewrite (burst_ok v W I0). cbn [bind]. pose proof W as (Pp & _).
  destruct (v_phases v) as [|n] eqn:Ep; [lia|]. replace (Z.of_nat (S n)) with (Z.of_nat n + 1) by lia. rewrite (phase_duration v n W I0) by lia. cbn [bind].
  replace (Z.of_nat n + 1 - 1) with (Z.of_nat n) by lia. rewrite zrange_seq. destruct n as [|n].
  - cbn. eexists. split; [reflexivity|]. split; [reflexivity|intros; lia].
  - specialize (Fit ltac:(lia)). set (x := (m - exec_duration v (S n))%Q). assert (Hx : (elapsed v (S n) <= x)%Q) by (unfold x; change (elapsed v (S (S n))) with (elapsed v (S n) + exec_duration v (S n))%Q in Fit; lra).
    assert (Hm : (x + exec_duration v (S n) == cycle_time N period i v)%Q) by (unfold x; lra). clearbody x.
    destruct (retime_ok v W I0 ws (S n) Gw x [x] ltac:(lia) Hx) as (r & Er & Lr & R1 & R2). rewrite Ep in Er. rewrite Er. cbn [bind].
    destruct (Z.of_nat (S n) + 1 =? 1) eqn:E1; [lia|]. eexists. split; [reflexivity|]. split; [intros; lia|]. intros _. unfold pushed_back. rewrite Ep.
    split; [rewrite app_length, Lr; cbn; lia|]. split; [|split].
    + intros a Ha. destruct (Nat.eq_dec a (S n)) as [->|]; [rewrite app_nth2, Lr, Nat.sub_diag by lia; exact Hx|]. rewrite app_nth1 by lia. apply R1. lia.
    + intros a Ha. apply R2. lia.
    + intros a Ha. assert (a = S n) by lia. subst a. rewrite app_nth2, Lr, Nat.sub_diag by lia. exact Hm.
Qed.

Lemma task_rejects i v : nth_error (vertices g) i = Some v -> (2 <= v_phases v)%nat -> (cycle_time N period i v < elapsed v (v_phases v))%Q ->
  wig_task period N curves i v = Rejected.
Proof using Hwf Hno Hcyc Hper.
  intros E H2 Fit. unfold wig_task. set (ws := filter _ curves) in *. destruct (mu_ok i v E) as (m & -> & Em & Pm). cbn [bind].
  pose proof (vertex_ok g Hwf i v E) as W. pose proof (Hno v (nth_error_In _ _ E)) as I0. rewrite (burst_ok v W I0). cbn [bind].
  destruct (v_phases v) as [|[|n]] eqn:Ep; [lia..|]. replace (Z.of_nat (S (S n))) with (Z.of_nat (S n) + 1) by lia. rewrite (phase_duration v (S n) W I0) by lia. cbn [bind].
  replace (Z.of_nat (S n) + 1 - 1) with (Z.of_nat (S n)) by lia. rewrite zrange_seq.
  change (elapsed v (S (S n))) with (elapsed v (S n) + exec_duration v (S n))%Q in Fit.
  rewrite <- Ep, (retime_rejects v W I0 ws n _ _ ltac:(lia)) by lra. reflexivity.
Qed.

Definition several_fit_at (iv : nat * vertex) : Prop := (2 <= v_phases (snd iv))%nat -> (elapsed (snd iv) (v_phases (snd iv)) <= cycle_time N period (fst iv) (snd iv))%Q.

Lemma tasks_ok ivs : (forall iv, In iv ivs -> nth_error (vertices g) (fst iv) = Some (snd iv) /\ several_fit_at iv) ->
  exists l, wig_tasks period N curves ivs = Ok l /\ Forall2 (fun iv o => task_offsets (fst iv) (snd iv) o) ivs l.
Proof.
  induction ivs as [|[i v] ivs IH]; intros H; cbn [wig_tasks]; [exists []; split; [reflexivity|constructor]|].
  destruct (H _ (or_introl eq_refl)) as [E F]. destruct (task_ok i v E F) as (o & -> & To). cbn [bind].
  destruct IH as (l & -> & Fl); [intros iv Hi; apply H; right; exact Hi|]. cbn [bind]. eexists. split; [reflexivity|]. constructor; [exact To|exact Fl].
Qed.

Lemma tasks_reject ivs iv0 : (forall iv, In iv ivs -> nth_error (vertices g) (fst iv) = Some (snd iv)) ->
  In iv0 ivs -> ~ several_fit_at iv0 -> wig_tasks period N curves ivs = Rejected.
Proof.
  intros H. induction ivs as [|[i v] ivs IH]; intros Hi Nf; [destruct Hi|]. cbn [wig_tasks]. pose proof (H _ (or_introl eq_refl)) as E. cbn [fst snd] in E.
  assert (D : (2 <= v_phases v)%nat /\ (cycle_time N period i v < elapsed v (v_phases v))%Q \/ several_fit_at (i, v)).
  { destruct (le_lt_dec 2 (v_phases v)) as [L|L]; [|right; intros L'; cbn in L'; lia]. destruct (Qlt_le_dec (cycle_time N period i v) (elapsed v (v_phases v))) as [Q|Q]; [left; auto|right; intros _; exact Q]. }
  destruct D as [[L Q]|F]; [rewrite (task_rejects i v E L Q); reflexivity|]. destruct (task_ok i v E F) as (o & -> & _). cbn [bind].
  destruct Hi as [<-|Hi]; [contradiction|]. rewrite IH; [reflexivity|intros iv Hv; apply H; right; exact Hv|exact Hi|exact Nf].
Qed.
End Task.

Lemma indexed_nth {A} (l : list A) iv : In iv (indexed l) -> nth_error l (fst iv) = Some (snd iv).
Proof.
  clear. unfold indexed. assert (G : forall a, In iv (combine (seq a (length l)) l) -> exists j, fst iv = (a + j)%nat /\ nth_error l j = Some (snd iv)).
  { induction l as [|x l IH]; intros a H; [destruct H|]. cbn [length seq combine] in H. destruct H as [<-|H]; [exists 0%nat; cbn; split; [lia|reflexivity]|].
    destruct (IH _ H) as (j & Ej & En). exists (S j). split; [lia|exact En]. }
  intros H. destruct (G 0%nat H) as (j & Ej & En). rewrite Ej. exact En.
Qed.
Lemma forall2_indexed {A B} (P : nat * A -> B -> Prop) (l : list A) : forall a (r : list B), Forall2 P (combine (seq a (length l)) l) r ->
  length r = length l /\ forall i x, nth_error l i = Some x -> exists y, nth_error r i = Some y /\ P ((a + i)%nat, x) y.
Proof.
  clear. induction l as [|x l IH]; intros a r H; cbn [length seq combine] in H; inversion H; subst; [split; [reflexivity|intros [|i] y E; discriminate]|].
  destruct (IH _ _ H4) as [L F]. split; [cbn; lia|]. intros [|i] z E; cbn in E.
  - injection E as <-. eexists. split; [reflexivity|]. rewrite Nat.add_0_r. exact H2.
  - destruct (F i z E) as (y' & En & Py). exists y'. split; [exact En|]. replace (a + S i)%nat with (S a + i)%nat by lia. exact Py.
Qed.

Lemma wiggers_ok : several_fit g N period -> exists l, wiggers_offsets period g N = Ok l /\ length l = length (vertices g) /\
  forall i v, nth_error (vertices g) i = Some v -> exists o, nth_error l i = Some o /\ task_offsets i v o.
Proof.
  intros F. unfold wiggers_offsets. destruct (curves_ok (edges g) (fun c H => H)) as (ws & -> & Pw). cbn [bind].
  destruct (tasks_ok ws Pw (indexed (vertices g))) as (l & -> & Fl).
  - intros iv Hi. pose proof (indexed_nth _ _ Hi) as E. split; [exact E|]. intros L. exact (F _ _ E L).
  - exists l. split; [reflexivity|]. exact (forall2_indexed _ _ 0%nat l Fl).
Qed.
Lemma indexed_in {A} (l : list A) i x : nth_error l i = Some x -> In (i, x) (indexed l).
Proof.
  clear. intros E. unfold indexed. assert (G : forall a, In ((a + i)%nat, x) (combine (seq a (length l)) l)); [|exact (G 0%nat)].
  revert i E. induction l as [|y l IH]; intros [|i] E a; cbn in E; try discriminate; cbn [length seq combine]; [injection E as ->; left; f_equal; lia|].
  right. replace (a + S i)%nat with (S a + i)%nat by lia. apply IH, E.
Qed.
Lemma wiggers_rejects i v : nth_error (vertices g) i = Some v -> (2 <= v_phases v)%nat -> (cycle_time N period i v < elapsed v (v_phases v))%Q -> wiggers_offsets period g N = Rejected.
Proof.
  intros E L Q. unfold wiggers_offsets. destruct (curves_ok (edges g) (fun c H => H)) as (ws & -> & Pw). cbn [bind].
  apply (tasks_reject ws Pw (indexed (vertices g)) (i, v)); [intros iv Hi; exact (indexed_nth _ _ Hi)|exact (indexed_in _ _ _ E)|].
  intros F. specialize (F L). cbn [fst snd] in F. lra.
Qed.
End G.
