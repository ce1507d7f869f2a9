(** The linear program of the MINMAX offsets. *)
From Coq Require Import QArith Qminmax Lqa Lia ZifyBool ZifyNat.
From Verif Require Import Base Graph Commons KPeriodic ScheduleSpec ScheduleCore KIterSpec SPeriodicProofs Sizing SizingSpec SizingLp SizingProofs SizingOffsets KPeriodicGraph
  Wiggers WiggersSpec WiggersProofs WiggersLate MinMax MinMaxSpec.
Open Scope Z_scope.

Definition sat (x : mvar -> Q) (r : mrow) : Prop := if m_low r then (m_bound r <= mvalue x r)%Q else (mvalue x r <= m_bound r)%Q.
Definition all_sat (x : mvar -> Q) (l : list mrow) : Prop := forall r, In r l -> sat x r.
Lemma all_nil x : all_sat x [] <-> True. Proof. split; [intros; exact I|intros _ r []]. Qed.
Lemma all_cons x r l : all_sat x (r :: l) <-> sat x r /\ all_sat x l.
Proof. split; [intros H; split; [apply H; left; reflexivity|intros r' Hr; apply H; right; exact Hr]|intros [A B] r' [<-|Hr]; [exact A|exact (B r' Hr)]]. Qed.
Lemma all_app x l1 l2 : all_sat x (l1 ++ l2) <-> all_sat x l1 /\ all_sat x l2.
Proof. split; [intros H; split; intros r Hr; apply H, in_or_app; auto|intros [A B] r Hr; apply in_app_or in Hr as [Hr|Hr]; auto]. Qed.

Lemma packets c : wig_lambda c = out_packet c /\ lambda_cons c = in_packet c.
Proof. unfold wig_lambda, lambda_cons, out_packet, in_packet, edge_in_total, edge_out_total. split; apply fold_symmetric; [apply Z.gcd_assoc|intros; apply Z.gcd_comm|apply Z.gcd_assoc|intros; apply Z.gcd_comm]. Qed.
Lemma floor_down x l : 0 < l -> floor_to x l = Ok (down x l).
Proof. intros H. unfold floor_to, down. destruct (l =? 0) eqn:E; [lia|]. f_equal. lia. Qed.

Lemma taken_S c a : (a < length (e_out c))%nat -> taken c (S a) = taken c a + nth a (e_out c) 0.
Proof.
  unfold taken. intros H. generalize dependent (e_out c). clear. intros l. revert a. induction l as [|x l IH]; intros [|a] H; cbn [length] in H; try lia; [cbn; lia|].
  cbn [firstn nth]. change (x + sumZ (firstn (S a) l) = x + sumZ (firstn a l) + nth a l 0). rewrite IH by lia. lia.
Qed.
Lemma out_phase_nth c a : (a < length (e_out c))%nat -> edge_out_phase c (Z.of_nat a + 1) = Ok (nth a (e_out c) 0).
Proof. intros H. unfold edge_out_phase. destruct (Z.of_nat a + 1 <=? 0) eqn:E; [lia|]. replace (Z.of_nat a + 1 - 1) with (Z.of_nat a) by lia. exact (at_index_nth _ _ _ H). Qed.

Definition ct (x : mvar -> Q) (j : nat) : Q := x (Ct (Z.of_nat j + 1)).

Lemma pair_sat x e j d mw delta eps : all_sat x (mm_pair e (Z.of_nat j + 1) d mw delta eps) <->
  (ct x j + d + mw * inject_Z delta <= x (Dl e))%Q /\ (mw * inject_Z eps - ct x j <= x (Ep e))%Q.
Proof.
  unfold mm_pair. rewrite !all_cons, all_nil. unfold sat, mvalue, ct. cbn [m_low m_bound m_coefs fold_right fst snd].
  set (A := (mw * inject_Z delta)%Q). set (B := (mw * inject_Z eps)%Q). set (X := x (Ct _)). set (Y := x (Dl e)). set (Z := x (Ep e)). clearbody A B X Y Z.
  split; [intros (H1 & H2 & _); split; lra|intros [H1 H2]; split; [lra|split; [lra|exact I]]].
Qed.

Section V.
Variable v : vertex.
Hypothesis W : vertex_wf v.
Hypothesis I0 : v_init_phases v = 0%nat.

Lemma order_ok n : forall a, (S a + n <= v_phases v)%nat -> exists rows, mm_order v (map (fun j => Z.of_nat j + 1) (seq (S a) n)) = Ok rows /\
  forall x, all_sat x rows <-> forall j, (a <= j < a + n)%nat -> (ct x j + exec_duration v j <= ct x (S j))%Q.
Proof.
  induction n as [|n IH]; intros a H; cbn [seq map mm_order].
  - exists []. split; [reflexivity|]. intros x. rewrite all_nil. split; [intros _ j Hj; lia|intros _; exact I].
  - replace (Z.of_nat (S a) + 1 - 1) with (Z.of_nat a + 1) by lia. rewrite (phase_duration v a W I0) by lia. cbn [bind]. destruct (IH (S a) ltac:(lia)) as (rows & -> & Hr). cbn [bind].
    eexists. split; [reflexivity|]. intros x. rewrite all_cons, Hr.
    assert (S0 : sat x (mkMrow [(Ct (Z.of_nat (S a) + 1), 1%Q); (Ct (Z.of_nat a + 1), (-1)%Q)] true (exec_duration v a)) <-> (ct x a + exec_duration v a <= ct x (S a))%Q).
    { unfold sat, mvalue, ct. cbn [m_low m_bound m_coefs fold_right fst snd]. set (A := x (Ct (Z.of_nat a + 1))). set (B := x (Ct (Z.of_nat (S a) + 1))). clearbody A B. split; lra. }
    rewrite S0. split.
    + intros [A B] j Hj. destruct (Nat.eq_dec j a) as [->|]; [exact A|apply B; lia].
    + intros A. split; [apply A; lia|intros j Hj; apply A; lia].
Qed.

Lemma out_ok e c mw n : 0 < sumZ (e_in c) -> length (e_in c) = v_phases v -> forall a, (a + n <= v_phases v)%nat ->
  exists rows, mm_out v e c mw (map (fun j => Z.of_nat j + 1) (seq a n)) (received c a) = Ok rows /\
  forall x, all_sat x rows <-> forall j, (a <= j < a + n)%nat -> (ct x j + exec_duration v j + mw * inject_Z (out_late c j) <= x (Dl e))%Q /\ (mw * inject_Z (out_early c j) - ct x j <= x (Ep e))%Q.
Proof.
  intros Sp Le. pose proof (lambda_bounds c Sp) as LB. destruct (packets c) as [P1 P2]. induction n as [|n IH]; intros a H; cbn [seq map mm_out].
  - exists []. split; [reflexivity|]. intros x. rewrite all_nil. split; [intros _ j Hj; lia|intros _; exact I].
  - rewrite in_phase_nth by lia. cbn [bind]. rewrite (phase_duration v a W I0) by lia. cbn [bind]. rewrite !floor_down by lia. cbn [bind]. rewrite <- (received_S c a) by lia.
    destruct (IH (S a) ltac:(lia)) as (rows & -> & Hr). cbn [bind]. eexists. split; [reflexivity|]. intros x. rewrite all_app, Hr, pair_sat, P1, P2.
    change (if in_packet c <? out_packet c then down (- received c a - 1) (out_packet c) else - received c a) with (out_late c a).
    change (if in_packet c <? out_packet c then down (received c (S a) - 1) (out_packet c) else received c (S a)) with (out_early c a). split.
    + intros [A B] j Hj. destruct (Nat.eq_dec j a) as [->|]; [exact A|apply B; lia].
    + intros A. split; [apply A; lia|intros j Hj; apply A; lia].
Qed.
Lemma in_ok e c mw n : 0 < sumZ (e_in c) -> length (e_out c) = v_phases v -> forall a, (a + n <= v_phases v)%nat ->
  exists rows, mm_in v e c mw (map (fun j => Z.of_nat j + 1) (seq a n)) (taken c a) = Ok rows /\
  forall x, all_sat x rows <-> forall j, (a <= j < a + n)%nat -> (ct x j + exec_duration v j + mw * inject_Z (in_late c j) <= x (Dl e))%Q /\ (mw * inject_Z (in_early c j) - ct x j <= x (Ep e))%Q.
Proof.
  intros Sp Le. pose proof (lambda_bounds c Sp) as LB. destruct (packets c) as [P1 P2]. induction n as [|n IH]; intros a H; cbn [seq map mm_in].
  - exists []. split; [reflexivity|]. intros x. rewrite all_nil. split; [intros _ j Hj; lia|intros _; exact I].
  - rewrite out_phase_nth by lia. cbn [bind]. rewrite (phase_duration v a W I0) by lia. cbn [bind]. rewrite !floor_down by lia. cbn [bind]. rewrite <- (taken_S c a) by lia.
    destruct (IH (S a) ltac:(lia)) as (rows & -> & Hr). cbn [bind]. eexists. split; [reflexivity|]. intros x. rewrite all_app, Hr, pair_sat, P1, P2.
    change (if out_packet c <? in_packet c then down (taken c (S a)) (out_packet c) else - taken c a) with (in_late c a).
    change (if out_packet c <? in_packet c then down (- taken c a) (out_packet c) else taken c (S a)) with (in_early c a). split.
    + intros [A B] j Hj. destruct (Nat.eq_dec j a) as [->|]; [exact A|apply B; lia].
    + intros A. split; [apply A; lia|intros j Hj; apply A; lia].
Qed.
End V.

Section G.
Variables (theta : nat -> Z) (g : graph) (N : nat -> Z) (period : Q).
Hypothesis Hwf : graph_wf g.
Hypothesis Hno : no_init g.
Hypothesis Hcyc : whole_cycles g N.
Hypothesis Hper : (0 < period)%Q.

Definition channel_sat (v : vertex) (mut : Q) (out : bool) (x : mvar -> Q) (kc : nat * edge) : Prop :=
  forall a, (a < v_phases v)%nat ->
    let pace := (mut / inject_Z (sumZ (if out then e_in (snd kc) else e_out (snd kc))))%Q in
    (ct x a + exec_duration v a + pace * inject_Z (if out then out_late (snd kc) a else in_late (snd kc) a) <= x (Dl (fst kc)))%Q /\
    (pace * inject_Z (if out then out_early (snd kc) a else in_early (snd kc) a) - ct x a <= x (Ep (fst kc)))%Q.

Lemma channels_ok i v mut out : nth_error (vertices g) i = Some v -> forall ecs, (forall kc, In kc ecs -> In (snd kc) (edges g)) ->
  exists rows, mm_channels i v mut out ecs = Ok rows /\
    forall x, all_sat x rows <-> forall kc, In kc ecs -> (if out then e_src (snd kc) else e_dst (snd kc)) = i -> channel_sat v mut out x kc.
Proof using Hwf Hno.
  clear Hcyc Hper theta N period. intros E. pose proof (vertex_ok g Hwf i v E) as W. pose proof (Hno v (nth_error_In _ _ E)) as I0. induction ecs as [|[k c] ecs IH]; intros H; cbn [mm_channels].
  - exists []. split; [reflexivity|]. intros x. rewrite all_nil. split; [intros _ kc []|intros _; exact I].
  - destruct IH as (rest & Er & Hr); [intros kc Hk; apply H; right; exact Hk|]. pose proof (H _ (or_introl eq_refl)) as Hc. cbn [snd] in Hc.
    destruct Hwf as (_ & He & _). destruct (He c Hc) as (vs & vd & E1 & E2 & L1 & L2 & _ & _ & _ & S1 & S2 & _).
    destruct (Nat.eqb_spec (if out then e_src c else e_dst c) i) as [Ei|Ei].
    + assert (Hh : exists rows, (do mutwa <- time_over mut (if out then edge_in_total c else edge_out_total c); (if out then mm_out else mm_in) v k c mutwa (zrange 1 (Z.of_nat (v_phases v))) 0) = Ok rows /\
        forall x, all_sat x rows <-> channel_sat v mut out x (k, c)).
      { unfold edge_in_total, edge_out_total. rewrite time_over_ok by (destruct out; lia). cbn [bind]. rewrite zrange_seq. unfold channel_sat. cbn [fst snd]. cbv zeta. destruct out.
        - rewrite Ei, E in E1. injection E1 as <-. destruct (out_ok v W I0 k c (mut / inject_Z (sumZ (e_in c)))%Q (v_phases v) S1 L1 0%nat ltac:(lia)) as (rows & Eo & Ho).
          exists rows. split; [exact Eo|]. intros x. rewrite Ho. split; intros A a Ha; apply A; lia.
        - rewrite Ei, E in E2. injection E2 as <-. destruct (in_ok v W I0 k c (mut / inject_Z (sumZ (e_out c)))%Q (v_phases v) S1 L2 0%nat ltac:(lia)) as (rows & Eo & Ho).
          exists rows. split; [exact Eo|]. intros x. rewrite Ho. split; intros A a Ha; apply A; lia. }
      destruct Hh as (hr & Eh & Hh). rewrite Eh. cbn [bind]. rewrite Er. cbn [bind]. eexists. split; [reflexivity|]. intros x. rewrite all_app, Hh, Hr. split.
      * intros [A B] kc [<-|Hk] Hi; [exact A|exact (B kc Hk Hi)].
      * intros A. split; [apply (A (k, c)); [left; reflexivity|exact Ei]|intros kc Hk Hi; apply A; [right; exact Hk|exact Hi]].
    + cbn [bind]. rewrite Er. cbn [bind]. eexists. split; [reflexivity|]. intros x. cbn [app]. rewrite Hr. split.
      * intros B kc [<-|Hk] Hi; [contradiction|exact (B kc Hk Hi)].
      * intros A kc Hk Hi. apply A; [right; exact Hk|exact Hi].
Qed.

Definition offsets_of (v : vertex) (x : mvar -> Q) : list Q := map (fun k => x (Ct k)) (zrange 1 (Z.of_nat (v_phases v))).
Lemma offsets_of_seq v x : offsets_of v x = map (ct x) (seq 0 (v_phases v)).
Proof using. clear. unfold offsets_of. rewrite zrange_seq, map_map. reflexivity. Qed.

Lemma objective_app c1 c2 x : (fold_right (fun c acc => m_cost c * x (m_var c) + acc) 0 (c1 ++ c2) == fold_right (fun c acc => m_cost c * x (m_var c) + acc) 0 c1 + fold_right (fun c acc => m_cost c * x (m_var c) + acc) 0 c2)%Q.
Proof using. clear. induction c1 as [|c c1 IH]; cbn [app fold_right]; [lra|]. rewrite IH. lra. Qed.
Lemma objective_free x ks : (fold_right (fun c acc => m_cost c * x (m_var c) + acc) 0 (map (fun k => mkMcol (Ct k) None 0) ks) == 0)%Q.
Proof using. clear. induction ks as [|k ks IH]; cbn [map fold_right m_cost]; [reflexivity|]. rewrite IH. lra. Qed.

Lemma objective_spread i n x rows : (mobjective (mkMlp (mm_cols theta g i n) rows) x == spread theta g i (fun k => x (Dl k)) (fun k => x (Ep k)))%Q.
Proof using.
  clear. unfold mobjective, spread, mm_cols. cbn [m_cols]. rewrite objective_app. cbn [fold_right m_cost]. rewrite objective_free.
  fold (indexed (edges g)). generalize (indexed (edges g)). intros L. assert (X : forall a : Q, (a + (0 * x (m_var (mkMcol (Ct 1) (Some 0) 0)) + 0) == a)%Q) by (intros; lra). rewrite X. clear X.
  induction L as [|[k c] L IH]; cbn [flat_map fold_right fst snd]; [reflexivity|]. rewrite objective_app, IH. apply Qplus_comp; [|reflexivity].
  destruct ((e_src c =? i)%nat || (e_dst c =? i)%nat); cbn [fold_right m_cost m_var]; lra.
Qed.

Lemma zrange2 n : (1 <= n)%nat -> zrange 2 (Z.of_nat n) = map (fun j => Z.of_nat j + 1) (seq 1 (n - 1)).
Proof using. clear. intros H. unfold zrange. replace (Z.to_nat (Z.of_nat n - 2 + 1)) with (n - 1)%nat by lia. rewrite <- (seq_shift (n - 1)), map_map. apply map_ext. intros; lia. Qed.

Lemma program_ok i v : nth_error (vertices g) i = Some v -> ~ self_loop g i ->
  exists p, mm_lp theta period g N i v = Ok p /\
    (forall x, mfeasible p x <-> admissible v (cycle_time N period i v) (offsets_of v x) /\ covers g i v (cycle_time N period i v) (offsets_of v x) (fun k => x (Dl k)) (fun k => x (Ep k))) /\
    (forall x, (mobjective p x == spread theta g i (fun k => x (Dl k)) (fun k => x (Ep k)))%Q).
Proof.
  intros E NL. pose proof (vertex_ok g Hwf i v E) as W. pose proof (Hno v (nth_error_In _ _ E)) as I0. pose proof W as (Pp & _). destruct (Hcyc i v E) as [Np _]. unfold mm_lp.
  rewrite time_over_ok by lia. cbn [bind]. set (mut := (period * (inject_Z (Z.of_nat (v_phases v)) / inject_Z (N i)))%Q).
  assert (Em : (mut == cycle_time N period i v)%Q). { unfold mut, cycle_time. field. assert ((0 < inject_Z (N i))%Q) by (unfold Qlt; cbn; lia). lra. } clearbody mut.
  destruct (v_phases v) as [|n] eqn:Ep; [lia|]. assert (Ed : vertex_duration v (Z.of_nat (S n)) = Ok (exec_duration v n)) by (replace (Z.of_nat (S n)) with (Z.of_nat n + 1) by lia; apply (phase_duration v n W I0); lia). rewrite Ed. cbn [bind].
  rewrite (zrange2 (S n)) by lia. replace (S n - 1)%nat with n by lia. destruct (order_ok v W I0 n 0%nat ltac:(lia)) as (rows1 & -> & H1). cbn [bind].
  assert (Hin : forall kc, In kc (indexed (edges g)) -> In (snd kc) (edges g)) by (intros kc Hk; apply indexed_nth in Hk; exact (nth_error_In _ _ Hk)).
  destruct (channels_ok i v mut true E _ Hin) as (rows2 & -> & H2). cbn [bind].
  destruct (existsb (fun c => (e_src c =? i)%nat && (e_dst c =? i)%nat) (edges g)) eqn:EX.
  { exfalso. apply existsb_exists in EX as (c & Hc & EE). apply andb_prop in EE as [A B]. apply Nat.eqb_eq in A, B. apply NL. exists c. auto. }
  cbn [negb cassert bind]. destruct (channels_ok i v mut false E _ Hin) as (rows3 & -> & H3). cbn [bind]. eexists. split; [reflexivity|].
  split; [|intros x; apply objective_spread]. intros x. unfold mfeasible. cbn [m_rows m_cols].
  change (forall r, In r (rows1 ++ mkMrow [(Ct (Z.of_nat (S n)), 1%Q)] false (mut - exec_duration v n)%Q :: rows2 ++ rows3) -> if m_low r then (m_bound r <= mvalue x r)%Q else (mvalue x r <= m_bound r)%Q)
    with (all_sat x (rows1 ++ mkMrow [(Ct (Z.of_nat (S n)), 1%Q)] false (mut - exec_duration v n)%Q :: rows2 ++ rows3)).
  rewrite all_app, all_cons, all_app, H1, H2, H3.
  assert (SL : sat x (mkMrow [(Ct (Z.of_nat (S n)), 1%Q)] false (mut - exec_duration v n)%Q) <-> (ct x n + exec_duration v n <= cycle_time N period i v)%Q).
  { unfold sat, mvalue, ct. cbn [m_low m_bound m_coefs fold_right fst snd]. replace (Z.of_nat (S n)) with (Z.of_nat n + 1) by lia. set (A := x (Ct _)). clearbody A. split; lra. }
  rewrite SL. assert (FX : (forall c q, In c (mm_cols theta g i (Z.of_nat (S n))) -> m_fix c = Some q -> (x (m_var c) == q)%Q) <-> (ct x 0 == 0)%Q).
  { unfold mm_cols. split.
    - intros A. apply (A (mkMcol (Ct 1) (Some 0%Q) 0) 0%Q); [apply in_or_app; right; left; reflexivity|reflexivity].
    - intros A c q Hc Eq. apply in_app_or in Hc as [Hc|[<-|Hc]].
      + apply in_flat_map in Hc as (kc & _ & Hc). destruct (_ || _); [destruct Hc as [<-|[<-|[]]]; discriminate|destruct Hc].
      + injection Eq as <-. exact A.
      + apply in_map_iff in Hc as (k & <- & _). discriminate. }
  rewrite FX. rewrite offsets_of_seq. unfold admissible, covers. rewrite Ep.
  assert (NT : forall a, (a < S n)%nat -> nth a (map (ct x) (seq 0 (S n))) 0%Q = ct x a) by (intros a Ha; apply nth_map_seq; exact Ha).
  split.
  - intros [[O1 [O2 [O3 O4]]] F]. split.
    + split; [rewrite map_length, seq_length; reflexivity|]. split; [rewrite NT by lia; exact F|]. split; [intros a Ha; rewrite !NT by lia; apply O1; lia|].
      intros a Ha. assert (a = n) by lia. subst a. rewrite NT by lia. exact O2.
    + intros k c a Hk Ha. rewrite NT by lia. pose proof (indexed_in _ _ _ Hk) as Hi. split; intros Es; cbv zeta.
      * specialize (O3 (k, c) Hi Es a ltac:(lia)). cbn [fst snd] in O3. cbv zeta in O3. rewrite Em in O3. exact O3.
      * specialize (O4 (k, c) Hi Es a ltac:(lia)). cbn [fst snd] in O4. cbv zeta in O4. rewrite Em in O4. exact O4.
  - intros [(_ & A1 & A2 & A3) C]. split; [|rewrite <- (NT 0%nat) by lia; exact A1]. split; [intros j Hj; specialize (A2 j ltac:(lia)); rewrite !NT in A2 by lia; exact A2|].
    split; [specialize (A3 n eq_refl); rewrite NT in A3 by lia; exact A3|]. split; intros [k c] Hi Es a Ha; apply indexed_nth in Hi; cbn [fst snd] in *; cbv zeta; destruct (C k c a Hi ltac:(lia)) as [C1 C2]; rewrite NT in C1, C2 by lia.
    + specialize (C1 Es). cbv zeta in C1. rewrite Em. exact C1.
    + specialize (C2 Es). cbv zeta in C2. rewrite Em. exact C2.
Qed.
End G.
