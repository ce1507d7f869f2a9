(** Invariants of the self-timed execution. *)
From Coq Require Import QArith Qreduction Lqa.
From Verif Require Import Base Graph ScheduleSpec Sim SimSpec.
Open Scope Z_scope.

Lemma upd_same {A} (f : nat -> A) i x : upd f i x i = x.
Proof. unfold upd. now rewrite Nat.eqb_refl. Qed.
Lemma upd_other {A} (f : nat -> A) i j x : j <> i -> upd f i x j = f j.
Proof. unfold upd. destruct (Nat.eqb_spec j i); congruence. Qed.

Lemma in_numbered g k c : In (k, c) (numbered g) <-> nth_error (edges g) k = Some c.
Proof.
  unfold numbered. generalize (edges g). intros l.
  assert (H : forall s, In (k, c) (combine (seq s (length l)) l) <-> (s <= k)%nat /\ nth_error l (k - s) = Some c).
  { induction l as [|x l IH]; intros s; cbn [length seq combine].
    - split; [intros []|]. intros [_ H]. destruct (k - s)%nat; discriminate.
    - cbn [In]. rewrite IH. split.
      + intros [E|[L E]].
        * injection E as <- <-. split; [lia|]. now rewrite Nat.sub_diag.
        * split; [lia|]. replace (k - s)%nat with (S (k - S s)) by lia. exact E.
      + intros [L E]. destruct (k - s)%nat as [|d] eqn:D.
        * left. cbn in E. injection E as <-. f_equal. lia.
        * right. split; [lia|]. replace (k - S s)%nat with d by lia. exact E. }
  rewrite (H 0%nat). rewrite Nat.sub_0_r. split; [tauto|]. intros E. split; [lia|exact E].
Qed.

Lemma sumf_S f n : sumf f (S n) = sumf f n + f n.
Proof. reflexivity. Qed.

Section Rates.
Variables (g : graph) (i : nat) (v : vertex) (c : edge).
Hypotheses (WF : graph_wf g) (NI : no_init g) (EV : even_self_loops g) (HV : nth_error (vertices g) i = Some v) (HC : In c (edges g)).

Lemma phases_pos : (0 < v_phases v)%nat.
Proof. destruct WF as (A & _). apply (A v). eapply nth_error_In; eauto. Qed.
Lemma dst_len : e_dst c = i -> length (e_out c) = v_phases v /\ e_out_init c = [].
Proof.
  intros E. destruct WF as (_ & B & _). destruct (B c HC) as (vs & vd & E1 & E2 & L1 & L2 & L3 & L4 & _).
  rewrite E in E2. rewrite HV in E2. injection E2 as <-. split; [exact L2|].
  apply length_zero_iff_nil. rewrite L4. apply NI. eapply nth_error_In; eauto.
Qed.
Lemma src_len : e_src c = i -> length (e_in c) = v_phases v /\ e_in_init c = [].
Proof.
  intros E. destruct WF as (_ & B & _). destruct (B c HC) as (vs & vd & E1 & E2 & L1 & L2 & L3 & L4 & _).
  rewrite E in E1. rewrite HV in E1. injection E1 as <-. split; [exact L1|].
  apply length_zero_iff_nil. rewrite L3. apply NI. eapply nth_error_In; eauto.
Qed.
Lemma exec_rate_at n l : length l = v_phases v -> (if (e_src c =? i)%nat then e_in c else e_out c) = l ->
  exec_rate v i c (Z.of_nat (n mod v_phases v) + 1) = nth (n mod length l) l 0.
Proof.
  intros L E. unfold exec_rate. rewrite E. pose proof phases_pos as P.
  pose proof (Nat.mod_upper_bound n (v_phases v) ltac:(lia)) as B.
  replace ((1 <=? Z.of_nat (n mod v_phases v) + 1) && (Z.of_nat (n mod v_phases v) + 1 <=? Z.of_nat (v_phases v))) with true.
  - rewrite L. f_equal. lia.
  - symmetry. apply andb_true_intro. split; apply Z.leb_le; lia.
Qed.
Lemma exec_rate_dst n : e_dst c = i -> exec_rate v i c (Z.of_nat (n mod v_phases v) + 1) = cons_rate c n.
Proof.
  intros E. destruct (dst_len E) as [L I]. unfold cons_rate, cyclic. rewrite I. cbn [length]. rewrite Nat.sub_0_r.
  change (n <? 0)%nat with false. cbv iota. apply exec_rate_at; [exact L|].
  destruct (Nat.eqb_spec (e_src c) i) as [E'|]; [|reflexivity]. apply EV; congruence.
Qed.
Lemma exec_rate_src n : e_src c = i -> exec_rate v i c (Z.of_nat (n mod v_phases v) + 1) = prod_rate c n.
Proof.
  intros E. destruct (src_len E) as [L I]. unfold prod_rate, cyclic. rewrite I. cbn [length]. rewrite Nat.sub_0_r.
  change (n <? 0)%nat with false. cbv iota. apply exec_rate_at; [exact L|]. now rewrite E, Nat.eqb_refl.
Qed.
Lemma rem_mod n p : (0 < p)%nat -> Z.rem (Z.of_nat n) (Z.of_nat p) = Z.of_nat (n mod p).
Proof. intros P. rewrite Z.rem_mod_nonneg by lia. now rewrite Nat2Z.inj_mod. Qed.
Lemma current_dst n b : e_dst c = i -> current_rate v i (mkActor (Z.of_nat n) b) c = cons_rate c n.
Proof.
  intros E. unfold current_rate, phase_count. cbn [a_execs]. rewrite E, Nat.eqb_refl. destruct (dst_len E) as [L _].
  rewrite L, rem_mod by apply phases_pos. now apply exec_rate_dst.
Qed.
Lemma current_src n b : e_src c = i -> current_rate v i (mkActor (Z.of_nat n) b) c = prod_rate c n.
Proof.
  intros E. unfold current_rate, phase_count. cbn [a_execs]. destruct (src_len E) as [L _].
  replace (if (e_dst c =? i)%nat then Z.of_nat (length (e_out c)) else Z.of_nat (length (e_in c))) with (Z.of_nat (v_phases v)).
  - rewrite rem_mod by apply phases_pos. now apply exec_rate_src.
  - destruct (Nat.eqb_spec (e_dst c) i) as [E'|]; [|congruence]. destruct (dst_len E') as [L' _]. congruence.
Qed.
End Rates.

Lemma rate_nonneg l n : (forall x, In x l -> 0 <= x) -> 0 <= nth n l 0.
Proof. intros H. destruct (Nat.lt_ge_cases n (length l)); [apply H, nth_In; assumption|rewrite nth_overflow; lia]. Qed.
Lemma prod_nonneg g c n : graph_wf g -> In c (edges g) -> 0 <= prod_rate c n.
Proof.
  intros (_ & B & _) Hc. destruct (B c Hc) as (? & ? & _ & _ & _ & _ & _ & _ & P & _).
  unfold prod_rate, cyclic. destruct (_ <? _)%nat; apply rate_nonneg; intros y Hy; apply P; rewrite !in_app_iff; auto.
Qed.
Lemma cons_nonneg g c n : graph_wf g -> In c (edges g) -> 0 <= cons_rate c n.
Proof.
  intros (_ & B & _) Hc. destruct (B c Hc) as (? & ? & _ & _ & _ & _ & _ & _ & P & _).
  unfold cons_rate, cyclic. destruct (_ <? _)%nat; apply rate_nonneg; intros y Hy; apply P; rewrite !in_app_iff; auto 6.
Qed.

(** * The invariant *)
Record inv (g : graph) (caps : option (nat -> Z)) (m : machine) : Prop := mkInv {
  inv_execs : forall i v, nth_error (vertices g) i = Some v -> a_execs (m_actors m i) = Z.of_nat (started (m_log m) i);
  inv_order : forall i v, nth_error (vertices g) i = Some v -> (ended (m_log m) i <= started (m_log m) i)%nat;
  inv_queue : forall i v, nth_error (vertices g) i = Some v ->
    map snd (s_queue (m_state m) i) =
    map (fun k => Z.of_nat (k mod v_phases v) + 1) (seq (ended (m_log m) i) (started (m_log m) i - ended (m_log m) i));
  inv_phase : forall i v, nth_error (vertices g) i = Some v ->
    s_phase (m_state m) i = Z.of_nat (started (m_log m) i mod v_phases v) + 1;
  inv_tokens : forall k c, nth_error (edges g) k = Some c ->
    s_tokens (m_state m) k = e_preload c + sumf (prod_rate c) (ended (m_log m) (e_src c)) - sumf (cons_rate c) (started (m_log m) (e_dst c));
  inv_tokens_pos : forall k c, nth_error (edges g) k = Some c -> 0 <= s_tokens (m_state m) k;
  inv_bounded : s_bounded (m_state m) = match caps with Some _ => true | None => false end;
  inv_space : forall cap k c, caps = Some cap -> nth_error (edges g) k = Some c ->
    s_space (m_state m) k = cap k - e_preload c - sumf (prod_rate c) (started (m_log m) (e_src c)) + sumf (cons_rate c) (ended (m_log m) (e_dst c));
  inv_space_pos : capacities_ok g caps -> caps <> None -> forall k c, nth_error (edges g) k = Some c -> 0 <= s_space (m_state m) k
}.


Section Invariant.
Variables (g : graph) (caps : option (nat -> Z)) (w : nat) (rep : Z).
Hypotheses (WF : graph_wf g) (NI : no_init g) (EV : even_self_loops g).

Lemma inv_new : inv g caps (new_machine g caps).
Proof.
  constructor; cbn; try reflexivity.
  - intros i v E. rewrite Nat.mod_0_l; [reflexivity|]. pose proof (phases_pos g i v WF E). lia.
  - intros k c E. rewrite E. lia.
  - intros k c E. rewrite E. destruct WF as (_ & B & _). destruct (B c) as (? & ? & W); [eapply nth_error_In; eauto|].
    apply W.
  - intros cap k c -> E. rewrite E. lia.
  - intros Hcap Hn k c E. destruct caps as [cap|]; [|congruence]. rewrite E. specialize (Hcap cap eq_refl k c E). lia.
Qed.

Lemma ready_tokens i v a s k c : ready g i v a s = true -> nth_error (edges g) k = Some c -> e_dst c = i ->
  current_rate v i a c <= s_tokens s k /\ a_busy a = false.
Proof.
  unfold ready. rewrite andb_true_iff, forallb_forall. intros [H _] E D.
  specialize (H (k, c) (proj2 (in_numbered g k c) E)). cbn [fst snd] in H. rewrite D, Nat.eqb_refl in H. cbn in H.
  rewrite negb_true_iff, orb_false_iff in H. destruct H as [H1 H2]. apply Z.ltb_ge in H1. auto.
Qed.
Lemma ready_space i v a s k c : ready g i v a s = true -> s_bounded s = true -> nth_error (edges g) k = Some c -> e_src c = i ->
  current_rate v i a c <= s_space s k /\ a_busy a = false.
Proof.
  unfold ready. rewrite andb_true_iff, orb_true_iff, !forallb_forall. intros [_ [H|H]] B E D; [rewrite B in H; discriminate|].
  specialize (H (k, c) (proj2 (in_numbered g k c) E)). cbn [fst snd] in H. rewrite D, Nat.eqb_refl in H. cbn in H.
  rewrite negb_true_iff, orb_false_iff in H. destruct H as [H1 H2]. apply Z.ltb_ge in H1. auto.
Qed.
Lemma nth_edge_in k c : nth_error (edges g) k = Some c -> In c (edges g).
Proof. apply nth_error_In. Qed.

Lemma inv_pc m m' : inv g caps m -> m_log m' = m_log m -> m_actors m' = m_actors m ->
  (forall i, map snd (s_queue (m_state m') i) = map snd (s_queue (m_state m) i)) ->
  s_phase (m_state m') = s_phase (m_state m) -> s_tokens (m_state m') = s_tokens (m_state m) ->
  s_space (m_state m') = s_space (m_state m) -> s_bounded (m_state m') = s_bounded (m_state m) -> inv g caps m'.
Proof.
  intros [A B C D E F G H I] L1 L2 L3 L4 L5 L6 L7. constructor; rewrite ?L1, ?L2, ?L4, ?L5, ?L6, ?L7; try assumption.
  intros i v Ev. rewrite L3. eauto.
Qed.

Lemma inv_end m i v t p q acts' s' : inv g caps m -> nth_error (vertices g) i = Some v -> s_queue (m_state m) i = (t, p) :: q ->
  forall s1, s_queue s1 = s_queue (m_state m) -> s_phase s1 = s_phase (m_state m) -> s_tokens s1 = s_tokens (m_state m) ->
  s_space s1 = s_space (m_state m) -> s_bounded s1 = s_bounded (m_state m) ->
  exec_end g i v (m_actors m i) s1 = Ok (acts', s') ->
  forall m', m_actors m' = upd (m_actors m) i acts' -> m_state m' = update_state g (m_actors m') s' ->
  m_log m' = Ended i (m_now m) :: m_log m -> inv g caps m'.
Proof.
  intros [A B C D E F G H I] Ev Eq s1 S1 S2 S3 S4 S5 X m' M1 M2 M3.
  unfold exec_end in X. rewrite S1, Eq in X. injection X as <- <-.
  pose proof (C i v Ev) as Ci. rewrite Eq in Ci. cbn [map snd] in Ci.
  set (st := started (m_log m) i) in *. set (en := ended (m_log m) i) in *.
  assert (Lt : (en < st)%nat).
  { destruct (Nat.lt_ge_cases en st); [assumption|]. replace (st - en)%nat with 0%nat in Ci by lia. discriminate. }
  replace (st - en)%nat with (S (st - S en)) in Ci by lia. cbn [seq map] in Ci. injection Ci as Cp Cq.
  constructor; rewrite ?M2, ?M3; cbn [started ended update_state s_queue s_phase s_tokens s_space s_bounded]; rewrite ?M1.
  - intros j u Ej. unfold upd. destruct (Nat.eqb_spec j i) as [->|]; [cbn [a_execs]|]; eauto.
  - intros j u Ej. destruct (Nat.eqb_spec i j) as [<-|]; [subst st en; lia|eauto].
  - intros j u Ej. unfold upd. destruct (Nat.eqb_spec j i) as [->|N].
    + rewrite Nat.eqb_refl. rewrite Ev in Ej. injection Ej as <-. exact Cq.
    + destruct (Nat.eqb_spec i j) as [|]; [congruence|eauto].
  - intros j u Ej. rewrite Ej. unfold actor_phase. replace (a_execs (upd (m_actors m) i (mkActor (a_execs (m_actors m i)) false) j))
      with (a_execs (m_actors m j)).
    + rewrite (A j u Ej). f_equal. apply rem_mod. apply (phases_pos g j u WF Ej).
    + unfold upd. destruct (Nat.eqb_spec j i) as [->|]; reflexivity.
  - intros k c Ek. unfold on_outputs. rewrite Ek, S3, (E k c Ek). rewrite Nat.eqb_sym.
    destruct (Nat.eqb_spec i (e_src c)) as [Es|]; [|reflexivity].
    rewrite Cp. rewrite (exec_rate_src g i v c WF NI Ev (nth_edge_in k c Ek)) by congruence.
    rewrite <- Es. cbn [sumf]. subst en. lia.
  - intros k c Ek. unfold on_outputs. rewrite Ek, S3. rewrite Nat.eqb_sym.
    destruct (Nat.eqb_spec i (e_src c)) as [Es|]; [|eauto].
    rewrite Cp. rewrite (exec_rate_src g i v c WF NI Ev (nth_edge_in k c Ek)) by congruence.
    pose proof (prod_nonneg g c en WF (nth_edge_in k c Ek)). specialize (F k c Ek). lia.
  - rewrite S5. exact G.
  - intros cap k c Ec Ek. rewrite S5, G, Ec. unfold on_inputs. rewrite Ek, S4, (H cap k c Ec Ek). rewrite Nat.eqb_sym.
    destruct (Nat.eqb_spec i (e_dst c)) as [Es|]; [|reflexivity].
    rewrite Cp. rewrite (exec_rate_dst g i v c WF NI EV Ev (nth_edge_in k c Ek)) by congruence.
    rewrite <- Es. cbn [sumf]. subst en. lia.
  - intros Hc Hn k c Ek. specialize (I Hc Hn k c Ek). destruct caps as [cap|]; [|congruence]. rewrite S5, G.
    unfold on_inputs. rewrite Ek, S4. rewrite Nat.eqb_sym.
    destruct (Nat.eqb_spec i (e_dst c)) as [Es|]; [|assumption].
    rewrite Cp. rewrite (exec_rate_dst g i v c WF NI EV Ev (nth_edge_in k c Ek)) by congruence.
    pose proof (cons_nonneg g c en WF (nth_edge_in k c Ek)). lia.
Qed.

Lemma inv_start m i v acts' s' : inv g caps m -> nth_error (vertices g) i = Some v -> ready g i v (m_actors m i) (m_state m) = true ->
  exec_start g i v (m_actors m i) (m_state m) = Ok (acts', s') ->
  forall m', m_actors m' = upd (m_actors m) i acts' -> m_state m' = update_state g (m_actors m') s' ->
  m_log m' = Started i (m_now m) :: m_log m -> inv g caps m'.
Proof.
  intros [A B C D E F G H I] Ev R X m' M1 M2 M3.
  unfold exec_start in X. destruct (vertex_duration v _) as [d| | |] eqn:Ed; cbn [bind] in X; try discriminate. injection X as <- <-.
  pose proof (A i v Ev) as Ai. pose proof (C i v Ev) as Ci. pose proof (B i v Ev) as Bi.
  set (st := started (m_log m) i) in *. set (en := ended (m_log m) i) in *.
  assert (Ea : m_actors m i = mkActor (Z.of_nat st) (a_busy (m_actors m i))) by (rewrite <- Ai; destruct (m_actors m i); reflexivity).
  assert (Rd : forall k c, nth_error (edges g) k = Some c -> e_dst c = i -> current_rate v i (m_actors m i) c = cons_rate c st).
  { intros k c Ek Ec. rewrite Ea. apply (current_dst g); eauto using nth_edge_in. }
  assert (Rs : forall k c, nth_error (edges g) k = Some c -> e_src c = i -> current_rate v i (m_actors m i) c = prod_rate c st).
  { intros k c Ek Ec. rewrite Ea. apply (current_src g); eauto using nth_edge_in. }
  constructor; rewrite ?M2, ?M3; cbn [started ended update_state s_queue s_phase s_tokens s_space s_bounded]; rewrite ?M1.
  - intros j u Ej. unfold upd. destruct (Nat.eqb_spec j i) as [->|].
    + rewrite Nat.eqb_refl. cbn [a_execs]. rewrite Ai. fold st. lia.
    + destruct (Nat.eqb_spec i j); [congruence|eauto].
  - intros j u Ej. specialize (B j u Ej). destruct (Nat.eqb_spec i j); lia.
  - intros j u Ej. unfold upd. destruct (Nat.eqb_spec j i) as [->|N].
    + rewrite Nat.eqb_refl. rewrite Ev in Ej. injection Ej as <-. rewrite map_app, Ci. fold st en.
      replace (S st - en)%nat with (st - en + 1)%nat by lia. rewrite seq_app, map_app. cbn [map seq snd]. f_equal. f_equal.
      unfold actor_phase. rewrite Ai. replace (en + (st - en))%nat with st by lia. f_equal. apply rem_mod, (phases_pos g i v WF Ev).
    + destruct (Nat.eqb_spec i j); [congruence|eauto].
  - intros j u Ej. rewrite Ej. unfold actor_phase, upd. destruct (Nat.eqb_spec j i) as [->|N].
    + rewrite Nat.eqb_refl. cbn [a_execs]. rewrite Ai. f_equal. replace (Z.of_nat st + 1) with (Z.of_nat (S st)) by lia.
      apply rem_mod. apply (phases_pos g i u WF Ej).
    + rewrite (A j u Ej). destruct (Nat.eqb_spec i j); [congruence|]. f_equal. apply rem_mod. apply (phases_pos g j u WF Ej).
  - intros k c Ek. unfold on_inputs. rewrite Ek, (E k c Ek). rewrite Nat.eqb_sym.
    destruct (Nat.eqb_spec i (e_dst c)) as [Es|]; [|reflexivity].
    rewrite (Rd k c Ek) by congruence. rewrite <- Es. cbn [sumf]. fold st. lia.
  - intros k c Ek. unfold on_inputs. rewrite Ek. rewrite Nat.eqb_sym.
    destruct (Nat.eqb_spec i (e_dst c)) as [Es|]; [|eauto].
    destruct (ready_tokens i v _ _ k c R Ek) as [T _]; [congruence|]. lia.
  - exact G.
  - intros cap k c Ec Ek. rewrite G, Ec. unfold on_outputs. rewrite Ek, (H cap k c Ec Ek). rewrite Nat.eqb_sym.
    destruct (Nat.eqb_spec i (e_src c)) as [Es|]; [|reflexivity].
    rewrite (Rs k c Ek) by congruence. rewrite <- Es. cbn [sumf]. fold st. lia.
  - intros Hc Hn k c Ek. specialize (I Hc Hn k c Ek). destruct caps as [cap|]; [|congruence]. rewrite G.
    unfold on_outputs. rewrite Ek. rewrite Nat.eqb_sym.
    destruct (Nat.eqb_spec i (e_src c)) as [Es|]; [|assumption].
    destruct (ready_space i v _ _ k c R G Ek) as [T _]; [congruence|]. lia.
Qed.

Lemma advance_fields s : let s' := snd (advance_time g s) in
  (forall i, map snd (s_queue s' i) = map snd (s_queue s i)) /\ s_phase s' = s_phase s /\ s_tokens s' = s_tokens s /\
  s_space s' = s_space s /\ s_bounded s' = s_bounded s.
Proof.
  unfold advance_time. destruct (Qeq_bool _ _); [cbn; auto 10|]. destruct (Qeq_bool _ _); [cbn; auto 10|]. cbn.
  split; [|auto]. intros i. rewrite map_map. apply map_ext. reflexivity.
Qed.

Lemma inv_tick m m' : inv g caps m -> tick g w rep m = Ok (Running m') -> inv g caps m'.
Proof.
  intros Hi T. unfold tick in T. destruct (m_pc m) as [i|i|] eqn:Epc.
  - destruct (nth_error (vertices g) i) as [v|] eqn:Ev; [|injection T as <-; eapply inv_pc; eauto; cbn; auto].
    destruct (ready_to_end i (m_state m)) eqn:R; [|injection T as <-; eapply inv_pc; eauto; cbn; auto].
    set (full := ((i =? w)%nat && ((if (i =? w)%nat then m_count m + 1 else m_count m) =? rep))) in *.
    destruct (if full then from_repeated g (m_visited m) (m_state m) else []); [|discriminate].
    unfold ready_to_end in R. destruct (s_queue (m_state m) i) as [|[t p] q] eqn:Eq; [discriminate|].
    match type of T with context [exec_end g i v (m_actors m i) ?s1] => set (s1' := s1) in * end.
    destruct (exec_end g i v (m_actors m i) s1') as [[a' s']| | |] eqn:X; cbn [bind] in T; try discriminate.
    injection T as <-. eapply (inv_end m i v t p q a' s' Hi Ev Eq s1'); try (subst s1'; destruct full; reflexivity); eauto.
  - destruct (nth_error (vertices g) i) as [v|] eqn:Ev; [|injection T as <-; eapply inv_pc; eauto; cbn; auto].
    destruct (ready g i v (m_actors m i) (m_state m)) eqn:R; [|injection T as <-; eapply inv_pc; eauto; cbn; auto].
    destruct (exec_start g i v (m_actors m i) (m_state m)) as [[a' s']| | |] eqn:X; cbn [bind] in T; try discriminate.
    injection T as <-. eapply inv_start; eauto.
  - destruct (Qeq_bool _ _); [discriminate|]. injection T as <-. destruct (advance_fields (m_state m)) as (Q1 & Q2 & Q3 & Q4 & Q5).
    eapply inv_pc; eauto.
Qed.
Lemma inv_runs m : runs_to g w rep (new_machine g caps) m -> inv g caps m.
Proof. induction 1; [apply inv_new|eapply inv_tick; eauto]. Qed.
End Invariant.
