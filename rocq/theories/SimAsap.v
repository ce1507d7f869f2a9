(** The self-timed execution starts every firing as early as any valid schedule. *)
From Coq Require Import QArith Qreduction Lqa.
From Verif Require Import Base Graph ScheduleSpec Sim SimSpec SimProofs SimTime.
Open Scope Z_scope.

(** * Sums *)
Lemma sumf_ext f h n : (forall k, (k < n)%nat -> f k = h k) -> sumf f n = sumf h n.
Proof. induction n as [|n IH]; intros H; [reflexivity|]. cbn. rewrite IH by (intros; apply H; lia). rewrite H by lia. reflexivity. Qed.
Lemma sumf_nonneg f n : (forall k, 0 <= f k) -> 0 <= sumf f n.
Proof. intros H. induction n as [|n IH]; cbn; [lia|]. specialize (H n). lia. Qed.
Lemma sumf_mono f n m : (forall k, 0 <= f k) -> (n <= m)%nat -> sumf f n <= sumf f m.
Proof. intros H. induction 1 as [|m L IH]; [lia|]. cbn. specialize (H m). lia. Qed.
Lemma moved_all at_ rate n t : (forall k, (k < n)%nat -> (at_ k <= t)%Q) -> moved_by at_ rate n t = sumf rate n.
Proof.
  intros H. apply sumf_ext. intros k Hk. rewrite (proj2 (Qle_bool_iff _ _) (H k Hk)). reflexivity.
Qed.
Lemma moved_upto at_ rate n t e : (forall k, 0 <= rate k) -> (forall k, (at_ k <= t)%Q -> (k < e)%nat) ->
  moved_by at_ rate n t <= sumf rate e.
Proof.
  intros Hr H. destruct (Nat.le_gt_cases n e) as [L|L].
  - transitivity (sumf rate n); [|apply sumf_mono; auto]. unfold moved_by. clear L. induction n as [|n IH]; cbn; [lia|].
    specialize (Hr n). destruct (Qle_bool (at_ n) t); lia.
  - unfold moved_by. replace n with (e + (n - e))%nat by lia. clear L. induction (n - e)%nat as [|d IH].
    + rewrite Nat.add_0_r. clear H. induction e as [|e IH]; cbn; [lia|]. specialize (Hr e). destruct (Qle_bool (at_ e) t); lia.
    + rewrite Nat.add_succ_r. cbn [sumf]. destruct (Qle_bool (at_ (e + d)%nat) t) eqn:E; [|lia].
      apply Qle_bool_iff in E. apply H in E. lia.
Qed.

(** * The least of finitely many numbers *)
Lemma argmin (f : nat -> Q) n : (0 < n)%nat -> exists i, (i < n)%nat /\ forall j, (j < n)%nat -> (f i <= f j)%Q.
Proof.
  induction n as [|n IH]; [lia|]. intros _. destruct n as [|n].
  - exists 0%nat. split; [lia|]. intros j Hj. replace j with 0%nat by lia. lra.
  - destruct IH as (i & Hi & H); [lia|]. destruct (Qlt_le_dec (f (S n)) (f i)) as [L|L].
    + exists (S n). split; [lia|]. intros j Hj. destruct (Nat.eq_dec j (S n)) as [->|]; [lra|]. specialize (H j ltac:(lia)). lra.
    + exists i. split; [lia|]. intros j Hj. destruct (Nat.eq_dec j (S n)) as [->|]; [lra|]. apply H. lia.
Qed.

Section Asap.
Variables (g : graph) (caps : option (nat -> Z)) (w : nat) (rep : Z).
Hypotheses (WF : graph_wf g) (NI : no_init g) (EV : even_self_loops g)
  (GD : all_guarded g (match caps with Some _ => true | None => false end)) (PD : positive_durations g).

Lemma duration_pos i v n : nth_error (vertices g) i = Some v -> (0 < exec_duration v n)%Q.
Proof.
  intros Ev. pose proof (nth_error_In _ _ Ev) as Hv. pose proof (phases_pos g i v WF Ev) as P.
  destruct WF as (A & _). destruct (A v Hv) as (_ & L & LI & _).
  unfold exec_duration, cyclic. rewrite LI, (NI v Hv). change (n <? 0)%nat with false. cbv iota.
  apply (PD v); [assumption|]. apply nth_In. rewrite L. apply Nat.mod_upper_bound. lia.
Qed.

Variable s : schedule.
Hypotheses (SV : bounded_valid g caps s).

Lemma sched_step i v k : nth_error (vertices g) i = Some v -> (s i k + exec_duration v k <= s i (S k))%Q.
Proof. intros Ev. destruct SV as ((_ & S2) & _). apply (S2 i v Ev). Qed.
Lemma sched_mono i k l : (i < length (vertices g))%nat -> (k <= l)%nat -> (s i k <= s i l)%Q.
Proof.
  intros Hi. destruct (nth_error (vertices g) i) as [v|] eqn:Ev; [|apply nth_error_None in Ev; lia].
  induction 1 as [|l L IH]; [lra|]. pose proof (sched_step i v l Ev). pose proof (duration_pos i v l Ev). lra.
Qed.

(** Executions of [s] that start before now have been started. *)
Definition on_time (m : machine) : Prop :=
  forall i k, (i < length (vertices g))%nat -> (s i k < m_now m)%Q -> (k < started (m_log m) i)%nat.
Definition early (m : machine) : Prop :=
  forall i k, (i < length (vertices g))%nat -> (k < started (m_log m) i)%nat -> (nth k (starts (m_log m) i) 0 <= s i k)%Q.

(** Nobody is ready and nobody ends before [T]. *)
Definition quiet (m : machine) (T : Q) : Prop :=
  (forall j v, nth_error (vertices g) j = Some v -> ready g j v (m_actors m j) (m_state m) = false) /\
  (forall i r, (i < length (vertices g))%nat -> front (m_state m) i = Some r -> (T <= m_now m + r)%Q).

(** Firing [l] of [x] that ends by [t0] in [s] has ended, when [t0 < T] is not after the next start of [x] in [s]. *)
Lemma ended_by m T x l t0 : inv g caps m -> tinv g m -> early m -> quiet m T -> (x < length (vertices g))%nat -> (t0 < T)%Q ->
  (t0 <= s x (started (m_log m) x))%Q -> (end_of s g x l <= t0)%Q -> (l < ended (m_log m) x)%nat.
Proof.
  intros Hi Ht He [_ Hq] Hx HT Hmin Hend. destruct (nth_error (vertices g) x) as [v|] eqn:Ev; [|apply nth_error_None in Ev; lia].
  unfold end_of in Hend. rewrite Ev in Hend. pose proof (duration_pos x v l Ev) as Dp.
  assert (Ls : (l < started (m_log m) x)%nat).
  { destruct (Nat.lt_ge_cases l (started (m_log m) x)) as [|L]; [assumption|]. pose proof (sched_mono x _ _ Hx L). lra. }
  pose proof (He x l Hx Ls) as E1. pose proof (t_task g m Ht x v Ev) as [Q _ _ _].
  destruct Q as [(_ & _ & L)|(_ & r & p & Qe & R0 & _ & L & D & _)]; rewrite starts_length, ends_length in L; [lia|].
  destruct (Nat.eq_dec l (ended (m_log m) x)) as [->|]; [exfalso|lia].
  rewrite ends_length in D. specialize (Hq x r Hx). unfold front in Hq. rewrite Qe in Hq. specialize (Hq eq_refl). lra.
Qed.

(** A channel without enough tokens for the next firing of [y] contradicts the schedule. *)
Lemma short_channel m T x y pre prod cons t0 : inv g caps m -> tinv g m -> early m -> quiet m T ->
  (x < length (vertices g))%nat -> (y < length (vertices g))%nat -> (t0 < T)%Q ->
  (t0 <= s x (started (m_log m) x))%Q -> (s y (started (m_log m) y) <= t0)%Q ->
  (forall k, 0 <= prod k) -> never_negative pre (end_of s g x) prod (start_of s y) cons ->
  pre + sumf prod (ended (m_log m) x) < sumf cons (S (started (m_log m) y)) -> False.
Proof.
  intros Hi Ht He Hq Hx Hy HT Hmx Hmy Hp Hn Hs. destruct (Hn t0 (S (started (m_log m) y))) as [np Hle].
  rewrite moved_all in Hle.
  - pose proof (moved_upto (end_of s g x) prod np t0 (ended (m_log m) x) Hp) as U.
    assert (moved_by (end_of s g x) prod np t0 <= sumf prod (ended (m_log m) x)); [|lia].
    apply U. intros k Hk. eapply ended_by; eauto.
  - intros k Hk. unfold start_of. pose proof (sched_mono y k (started (m_log m) y) Hy ltac:(lia)). lra.
Qed.

Lemma unready_why j v m : inv g caps m -> nth_error (vertices g) j = Some v -> ready g j v (m_actors m j) (m_state m) = false ->
  a_busy (m_actors m j) = true \/
  (exists k c, nth_error (edges g) k = Some c /\ e_dst c = j /\ s_tokens (m_state m) k < cons_rate c (started (m_log m) j)) \/
  (exists cap k c, caps = Some cap /\ nth_error (edges g) k = Some c /\ e_src c = j /\ s_space (m_state m) k < prod_rate c (started (m_log m) j)).
Proof.
  intros Hi Ev R. destruct (a_busy (m_actors m j)) eqn:B; [auto|right].
  assert (Ea : m_actors m j = mkActor (Z.of_nat (started (m_log m) j)) false).
  { rewrite <- (inv_execs g caps m Hi j v Ev). destruct (m_actors m j); cbn in *; congruence. }
  unfold ready in R. apply andb_false_iff in R. destruct R as [R|R].
  - left. assert (H : exists x, In x (numbered g) /\ negb (e_dst (snd x) =? j)%nat ||
      negb ((s_tokens (m_state m) (fst x) <? current_rate v j (m_actors m j) (snd x)) || a_busy (m_actors m j)) = false).
    { clear -R. induction (numbered g) as [|x l IH]; [discriminate|]. cbn [forallb] in R. apply andb_false_iff in R. destruct R as [R|R].
      - exists x. split; [left; reflexivity|exact R].
      - destruct (IH R) as (y & Hy & E). exists y. split; [right; assumption|assumption]. }
    destruct H as ([k c] & Hk & E). apply in_numbered in Hk. cbn [fst snd] in E. apply orb_false_iff in E. destruct E as [E1 E2].
    apply negb_false_iff in E1. apply Nat.eqb_eq in E1. apply negb_false_iff in E2. rewrite B, orb_false_r in E2. apply Z.ltb_lt in E2.
    exists k, c. rewrite Ea, (current_dst g j v c WF NI EV Ev) in E2 by (eauto using nth_error_In). auto.
  - right. apply orb_false_iff in R. destruct R as [R0 R]. apply negb_false_iff in R0. rewrite (inv_bounded g caps m Hi) in R0.
    destruct caps as [cap|] eqn:Ec; [|discriminate].
    assert (H : exists x, In x (numbered g) /\ negb (e_src (snd x) =? j)%nat ||
      negb ((s_space (m_state m) (fst x) <? current_rate v j (m_actors m j) (snd x)) || a_busy (m_actors m j)) = false).
    { clear -R. induction (numbered g) as [|x l IH]; [discriminate|]. cbn [forallb] in R. apply andb_false_iff in R. destruct R as [R|R].
      - exists x. split; [left; reflexivity|exact R].
      - destruct (IH R) as (y & Hy & E). exists y. split; [right; assumption|assumption]. }
    destruct H as ([k c] & Hk & E). apply in_numbered in Hk. cbn [fst snd] in E. apply orb_false_iff in E. destruct E as [E1 E2].
    apply negb_false_iff in E1. apply Nat.eqb_eq in E1. apply negb_false_iff in E2. rewrite B, orb_false_r in E2. apply Z.ltb_lt in E2.
    exists cap, k, c. rewrite Ea, (current_src g j v c WF NI Ev) in E2 by (eauto using nth_error_In). auto.
Qed.

Lemma edge_ends k c : nth_error (edges g) k = Some c -> (e_src c < length (vertices g))%nat /\ (e_dst c < length (vertices g))%nat.
Proof.
  intros Ek. destruct WF as (_ & B & _). destruct (B c (nth_error_In _ _ Ek)) as (vs & vd & E1 & E2 & _).
  split; apply nth_error_Some; congruence.
Qed.

Lemma quiet_on_time m T : inv g caps m -> tinv g m -> early m -> quiet m T ->
  forall i k, (i < length (vertices g))%nat -> (s i k < T)%Q -> (k < started (m_log m) i)%nat.
Proof.
  intros Hi Ht He Hq i k Hl Hlt. destruct (Nat.lt_ge_cases k (started (m_log m) i)) as [|L]; [assumption|exfalso].
  destruct (argmin (fun j => s j (started (m_log m) j)) (length (vertices g))) as (y & Hy & Hmin); [lia|].
  set (t0 := s y (started (m_log m) y)) in *.
  assert (HT : (t0 < T)%Q). { pose proof (Hmin i Hl). pose proof (sched_mono i _ _ Hl L). cbv beta in *. lra. }
  destruct (nth_error (vertices g) y) as [v|] eqn:Ev; [|apply nth_error_None in Ev; lia].
  destruct (unready_why y v m Hi Ev (proj1 Hq y v Ev)) as [B|[(k' & c & Ek & D & Tk)|(cap & k' & c & Ec & Ek & D & Sp)]].
  - pose proof (t_task g m Ht y v Ev) as [Q _ _ _].
    destruct Q as [(B' & _)|(_ & r & p & Qe & R0 & _ & Ls & D & _)]; [congruence|]. rewrite starts_length, ends_length in Ls.
    rewrite ends_length in D. pose proof (He y (ended (m_log m) y) Hy ltac:(lia)) as E1.
    pose proof (sched_step y v (ended (m_log m) y) Ev) as E2. rewrite <- Ls in E2. fold t0 in E2.
    destruct Hq as [_ Hq]. specialize (Hq y r Hy). unfold front in Hq. rewrite Qe in Hq. specialize (Hq eq_refl). lra.
  - destruct (edge_ends k' c Ek) as [Hx _]. pose proof SV as ((S1 & _) & _).
    apply (short_channel m T (e_src c) y (e_preload c) (prod_rate c) (cons_rate c) t0); auto.
    + subst t0. lra.
    + intros n. eapply prod_nonneg; eauto using nth_error_In.
    + rewrite <- D. apply S1. eapply nth_error_In; eauto.
    + cbn [sumf]. rewrite (inv_tokens g caps m Hi k' c Ek), D in Tk. lia.
  - destruct (edge_ends k' c Ek) as [_ Hx]. pose proof SV as (_ & S2).
    apply (short_channel m T (e_dst c) y (cap k' - e_preload c) (cons_rate c) (prod_rate c) t0); auto.
    + subst t0. lra.
    + intros n. eapply cons_nonneg; eauto using nth_error_In.
    + rewrite <- D. apply S2; assumption.
    + cbn [sumf]. rewrite (inv_space g caps m Hi cap k' c Ec Ek), D in Sp. lia.
Qed.

Hypothesis nonneg : forall i k, (i < length (vertices g))%nat -> (0 <= s i k)%Q.

Lemma asap_tick m m' : inv g caps m -> tinv g m -> on_time m -> early m -> tick g w rep m = Ok (Running m') -> on_time m' /\ early m'.
Proof.
  intros Hi Ht Ho He T. pose proof (t_pc g m Ht) as Hp. unfold pc_inv in Hp. unfold tick in T. destruct (m_pc m) as [i|i|] eqn:Epc.
  - destruct (nth_error (vertices g) i) as [v|] eqn:Ev; [|injection T as <-; split; assumption].
    destruct (ready_to_end i (m_state m)) eqn:R; [|injection T as <-; split; assumption].
    set (full := ((i =? w)%nat && ((if (i =? w)%nat then m_count m + 1 else m_count m) =? rep))) in *.
    destruct (if full then from_repeated g (m_visited m) (m_state m) else []); [|discriminate].
    match type of T with context [exec_end g i v (m_actors m i) ?s1] => set (s1' := s1) in * end.
    destruct (exec_end g i v (m_actors m i) s1') as [[a' s']| | |] eqn:X; cbn [bind] in T; try discriminate.
    injection T as <-. split; [exact Ho|exact He].
  - destruct (nth_error (vertices g) i) as [v|] eqn:Ev; [|injection T as <-; split; assumption].
    destruct (ready g i v (m_actors m i) (m_state m)) eqn:R; [|injection T as <-; split; assumption].
    destruct (exec_start g i v (m_actors m i) (m_state m)) as [[a' s']| | |] eqn:X; cbn [bind] in T; try discriminate.
    injection T as <-. split.
    + intros j k Hj Hlt. cbn [m_log started m_now] in *. specialize (Ho j k Hj Hlt). destruct (i =? j)%nat; lia.
    + intros j k Hj. cbn [m_log started starts]. destruct (Nat.eqb_spec i j) as [<-|N]; [|apply He; assumption].
      intros Lk. destruct (Nat.eq_dec k (started (m_log m) i)) as [->|].
      * rewrite app_nth2; rewrite starts_length; [|lia]. rewrite Nat.sub_diag. cbn [nth].
        destruct (Qlt_le_dec (s i (started (m_log m) i)) (m_now m)) as [L|L]; [|assumption].
        specialize (Ho i _ Hj L). lia.
      * rewrite app_nth1 by (rewrite starts_length; lia). apply He; [assumption|lia].
  - destruct (Qeq_bool (fst (advance_time g (m_state m))) long_max) eqn:Em; [discriminate|].
    match type of T with Ok (Running ?x) = _ => assert (m' = x) as -> by congruence end. clear T.
    split; [|exact He]. intros i k Hl Hlt. cbn [m_now m_log] in *. rewrite Qred_correct in Hlt.
    apply (quiet_on_time m (m_now m + fst (advance_time g (m_state m)))); auto. split; [exact Hp|].
    intros j r Hj Fj. pose proof (next_end_spec g (m_state m)) as (_ & N2 & _). specialize (N2 j r Hj Fj).
    assert (Fst : fst (advance_time g (m_state m)) = next_end g (m_state m)).
    { unfold advance_time. destruct (Qeq_bool (next_end g (m_state m)) 0); [reflexivity|].
      destruct (Qeq_bool (next_end g (m_state m)) long_max); reflexivity. }
    rewrite Fst. lra.
Qed.
Lemma asap_runs m : runs_to g w rep (new_machine g caps) m -> on_time m /\ early m.
Proof.
  induction 1 as [|m m' R IH T].
  - split; intros i k Hl H; cbn in *; [|lia]. specialize (nonneg i k Hl). lra.
  - destruct IH as [A B]. eapply asap_tick; eauto; [eapply inv_runs; eauto|eapply tinv_runs; eauto].
Qed.

(** When the loop reports a deadlock, there is no such schedule. *)
Lemma deadlock_runs m : short_durations g -> (0 < length (vertices g))%nat ->
  runs_to g w rep (new_machine g caps) m -> tick g w rep m = Ok Deadlock -> False.
Proof.
  intros SD Hne R T. destruct (asap_runs m R) as [_ He].
  pose proof (inv_runs g caps w rep WF NI EV m R) as Hi. pose proof (tinv_runs g caps w rep WF NI EV GD m R) as Ht.
  pose proof (t_pc g m Ht) as Hp. unfold pc_inv in Hp.
  unfold tick in T. destruct (m_pc m) as [i|i|] eqn:Epc.
  - destruct (nth_error (vertices g) i) as [v|]; [|discriminate]. destruct (ready_to_end i (m_state m)); [|discriminate].
    set (full := ((i =? w)%nat && ((if (i =? w)%nat then m_count m + 1 else m_count m) =? rep))) in *.
    destruct (if full then from_repeated g (m_visited m) (m_state m) else []); [|discriminate].
    match type of T with context [exec_end g i v (m_actors m i) ?s1] => destruct (exec_end g i v (m_actors m i) s1) end; discriminate.
  - destruct (nth_error (vertices g) i) as [v|]; [|discriminate]. destruct (ready g i v _ _); [|discriminate].
    destruct (exec_start _ _ _ _ _); discriminate.
  - destruct (Qeq_bool (fst (advance_time g (m_state m))) long_max) eqn:Em; [|discriminate].
    assert (Fst : fst (advance_time g (m_state m)) = next_end g (m_state m)).
    { unfold advance_time. destruct (Qeq_bool (next_end g (m_state m)) 0); [reflexivity|].
      destruct (Qeq_bool (next_end g (m_state m)) long_max); reflexivity. }
    rewrite Fst in Em. apply Qeq_bool_eq in Em. destruct (next_end_spec g (m_state m)) as (_ & N2 & _).
    assert (NF : forall i r, (i < length (vertices g))%nat -> front (m_state m) i = Some r -> False).
    { intros i r Hl Fi. specialize (N2 i r Hl Fi). destruct (nth_error (vertices g) i) as [v|] eqn:Ev; [|apply nth_error_None in Ev; lia].
      pose proof (t_task g m Ht i v Ev) as [Q P _ _]. unfold front in Fi.
      destruct Q as [(_ & Qe & _)|(_ & r' & p & Qe & R0 & _ & Ls & D & _)]; rewrite Qe in Fi; [discriminate|]. injection Fi as ->.
      assert (In (nth (length (ends (m_log m) i)) (starts (m_log m) i) 0%Q) (starts (m_log m) i)) by (apply nth_In; lia).
      specialize (P _ H).
      assert (exec_duration v (length (ends (m_log m) i)) < long_max)%Q; [|lra].
      pose proof (nth_error_In _ _ Ev) as Hv. pose proof (phases_pos g i v WF Ev) as Pp.
      destruct WF as (A & _). destruct (A v Hv) as (_ & L & LI & _).
      unfold exec_duration, cyclic. rewrite LI, (NI v Hv). rewrite (proj2 (Nat.ltb_ge _ 0)) by lia.
      apply (SD v); [assumption|]. apply nth_In. rewrite L. apply Nat.mod_upper_bound. lia. }
    assert (Hlt : (started (m_log m) 0 < started (m_log m) 0)%nat); [|lia].
    apply (quiet_on_time m (s 0%nat (started (m_log m) 0%nat) + 1)%Q); auto; [|lra].
    split; [exact Hp|]. intros i r Hl Fi. destruct (NF i r Hl Fi).
Qed.
End Asap.

(** * Shifting a schedule in time *)
Lemma moved_shift at_ rate n t d : moved_by (fun k => (at_ k + d)%Q) rate n (t + d) = moved_by at_ rate n t.
Proof.
  apply sumf_ext. intros k _. destruct (Qle_bool (at_ k) t) eqn:E.
  - apply Qle_bool_iff in E. rewrite (proj2 (Qle_bool_iff _ _)); [reflexivity|lra].
  - destruct (Qle_bool (at_ k + d) (t + d)) eqn:E'; [|reflexivity]. apply Qle_bool_iff in E'.
    assert (at_ k <= t)%Q by lra. apply Qle_bool_iff in H. congruence.
Qed.
Lemma moved_ext at_ at' rate n t : (forall k, (k < n)%nat -> (at_ k == at' k)%Q) -> moved_by at_ rate n t = moved_by at' rate n t.
Proof.
  intros H. apply sumf_ext. intros k Hk. specialize (H k Hk). destruct (Qle_bool (at_ k) t) eqn:E, (Qle_bool (at' k) t) eqn:E'; try reflexivity; exfalso.
  - apply Qle_bool_iff in E. assert (at' k <= t)%Q by lra. apply Qle_bool_iff in H0. congruence.
  - apply Qle_bool_iff in E'. assert (at_ k <= t)%Q by lra. apply Qle_bool_iff in H0. congruence.
Qed.
Lemma never_negative_ext pre pe pe' prod cs cs' cons : (forall k, (pe k == pe' k)%Q) -> (forall k, (cs k == cs' k)%Q) ->
  never_negative pre pe prod cs cons -> never_negative pre pe' prod cs' cons.
Proof.
  intros H1 H2 H t nc. destruct (H t nc) as [np Hnp]. exists np.
  rewrite <- (moved_ext pe pe' prod np t) by auto. rewrite <- (moved_ext cs cs' cons nc t) by auto. exact Hnp.
Qed.
Lemma never_negative_shift pre pe prod cs cons d : never_negative pre pe prod cs cons ->
  never_negative pre (fun k => pe k + d)%Q prod (fun k => cs k + d)%Q cons.
Proof.
  intros H t nc. destruct (H (t - d)%Q nc) as [np Hnp]. exists np.
  assert (E : forall at_ rate n, moved_by (fun k => (at_ k + d)%Q) rate n t = moved_by at_ rate n (t - d)).
  { intros at_ rate n. rewrite <- (moved_shift at_ rate n (t - d) d). unfold moved_by. apply sumf_ext. intros k _.
    destruct (Qle_bool (at_ k + d) t) eqn:E, (Qle_bool (at_ k + d) (t - d + d)) eqn:E'; try reflexivity; exfalso.
    - apply Qle_bool_iff in E. assert (at_ k + d <= t - d + d)%Q by lra. apply Qle_bool_iff in H0. congruence.
    - apply Qle_bool_iff in E'. assert (at_ k + d <= t)%Q by lra. apply Qle_bool_iff in H0. congruence. }
  rewrite !E. exact Hnp.
Qed.
Definition shifted (s : schedule) (d : Q) : schedule := fun i k => (s i k + d)%Q.
Lemma end_shifted s g i d k : (end_of (shifted s d) g i k == end_of s g i k + d)%Q.
Proof. unfold end_of, shifted. destruct (nth_error (vertices g) i); [lra|reflexivity]. Qed.
Lemma bounded_valid_shift g caps s d : bounded_valid g caps s -> bounded_valid g caps (shifted s d).
Proof.
  intros ((S1 & S2) & S3). split; [split|].
  - intros c Hc. specialize (S1 c Hc). unfold channel_valid in *. apply (never_negative_shift _ _ _ _ _ d) in S1.
    eapply never_negative_ext; [| |exact S1]; intros k; cbv beta; [symmetry; apply end_shifted|reflexivity].
  - intros i v Ev m. specialize (S2 i v Ev m). unfold start_of, shifted in *. lra.
  - intros cap k c Ec Ek. specialize (S3 cap k c Ec Ek). apply (never_negative_shift _ _ _ _ _ d) in S3.
    eapply never_negative_ext; [| |exact S3]; intros l; cbv beta; [symmetry; apply end_shifted|reflexivity].
Qed.
(** Every valid schedule can be shifted to start after 0. *)
Lemma shift_nonneg g caps s : graph_wf g -> no_init g -> positive_durations g -> (0 < length (vertices g))%nat -> bounded_valid g caps s ->
  exists d, forall i k, (i < length (vertices g))%nat -> (0 <= shifted s d i k)%Q.
Proof.
  intros WF NI PD Hne SV. destruct (argmin (fun j => s j 0%nat) _ Hne) as (y & Hy & Hmin). exists (- s y 0%nat)%Q.
  intros i k Hi. pose proof (sched_mono g caps WF NI PD s SV i 0 k Hi ltac:(lia)). specialize (Hmin i Hi). unfold shifted. cbv beta in *. lra.
Qed.
