(** The endless self-timed execution is a valid schedule and no schedule is faster. *)
From Coq Require Import QArith Qreduction Lqa Qabs Qround ConstructiveEpsilon.
From Verif Require Import Base Graph ScheduleSpec RepVec RepVecSpec RepVecProofs RepVecFinal RepVecProps KIterSpec
  Sim SimSpec SimProofs SimTime SimAsap SimRecur SimPeriod.
Open Scope Z_scope.

(** * Every prefix respects the channels *)
Definition moved_list (l : list Q) (rate : nat -> Z) (t : Q) : Z := moved_by (fun k => nth k l 0%Q) rate (length l) t.
Lemma moved_snoc l x rate t : moved_list (l ++ [x]) rate t = moved_list l rate t + (if Qle_bool x t then rate (length l) else 0).
Proof.
  unfold moved_list, moved_by. rewrite app_length. cbn [length]. rewrite Nat.add_1_r. cbn [sumf].
  rewrite app_nth2, Nat.sub_diag by lia. cbn [nth]. f_equal. apply sumf_ext. intros k Hk. rewrite app_nth1 by lia. reflexivity.
Qed.
Lemma moved_le at_ rate n t : (forall k, 0 <= rate k) -> moved_by at_ rate n t <= sumf rate n.
Proof.
  intros H. unfold moved_by. induction n as [|n IH]; cbn; [lia|]. specialize (H n). destruct (Qle_bool _ _); lia.
Qed.

Section Prefix.
Variables (g : graph) (caps : option (nat -> Z)) (w : nat) (rep : Z).
Hypotheses (WF : graph_wf g) (NI : no_init g) (EV : even_self_loops g)
  (GD : all_guarded g (match caps with Some _ => true | None => false end)) (CO : capacities_ok g caps).
Notation m0 := (new_machine g caps).

Definition prefix_ok (m : machine) : Prop := forall k c t, nth_error (edges g) k = Some c ->
  moved_list (starts (m_log m) (e_dst c)) (cons_rate c) t <= e_preload c + moved_list (ends (m_log m) (e_src c)) (prod_rate c) t /\
  (forall cap, caps = Some cap ->
   moved_list (starts (m_log m) (e_src c)) (prod_rate c) t <= cap k - e_preload c + moved_list (ends (m_log m) (e_dst c)) (cons_rate c) t).

Lemma late_ok m k c t : inv g caps m -> tinv g m -> nth_error (edges g) k = Some c -> (m_now m <= t)%Q ->
  moved_list (starts (m_log m) (e_dst c)) (cons_rate c) t <= e_preload c + moved_list (ends (m_log m) (e_src c)) (prod_rate c) t /\
  (forall cap, caps = Some cap ->
   moved_list (starts (m_log m) (e_src c)) (prod_rate c) t <= cap k - e_preload c + moved_list (ends (m_log m) (e_dst c)) (cons_rate c) t).
Proof.
  intros Hi Ht Ek Hn. pose proof (nth_error_In _ _ Ek) as Hc. destruct (edge_ends g WF k c Ek) as [Hs Hd].
  assert (En : forall x rate, (x < length (vertices g))%nat -> moved_list (ends (m_log m) x) rate t = sumf rate (ended (m_log m) x)).
  { intros x rate Hx. destruct (nth_error (vertices g) x) as [v|] eqn:Ev; [|apply nth_error_None in Ev; lia].
    unfold moved_list. rewrite moved_all; [now rewrite ends_length|]. intros j Hj.
    destruct (ti_ends _ _ _ _ _ _ (t_task g m Ht x v Ev) j Hj). lra. }
  rewrite !En by assumption. unfold moved_list. split.
  - pose proof (moved_le (fun k => nth k (starts (m_log m) (e_dst c)) 0%Q) (cons_rate c) (length (starts (m_log m) (e_dst c))) t (fun n => cons_nonneg g c n WF Hc)).
    rewrite starts_length in *. pose proof (inv_tokens_pos g caps m Hi k c Ek). rewrite (inv_tokens g caps m Hi k c Ek) in *. lia.
  - intros cap Ecap. pose proof (moved_le (fun k => nth k (starts (m_log m) (e_src c)) 0%Q) (prod_rate c) (length (starts (m_log m) (e_src c))) t (fun n => prod_nonneg g c n WF Hc)).
    rewrite starts_length in *. assert (P := inv_space_pos g caps m Hi CO ltac:(congruence) k c Ek). rewrite (inv_space g caps m Hi cap k c Ecap Ek) in *. lia.
Qed.

(** Before the current instant nothing more happens. *)
Lemma tick_past m m' : tick g w rep m = Ok (Running m') -> (m_now m <= m_now m')%Q -> 
  forall i rate t, (t < m_now m')%Q -> (m_now m' == m_now m)%Q \/ m_log m' = m_log m ->
  moved_list (starts (m_log m') i) rate t = moved_list (starts (m_log m) i) rate t /\
  moved_list (ends (m_log m') i) rate t = moved_list (ends (m_log m) i) rate t.
Proof.
  intros T Hn i rate t Ht [Hs|Hs]; [|rewrite Hs; auto].
  assert (X : Qle_bool (m_now m) t = false).
  { destruct (Qle_bool (m_now m) t) eqn:E; [|reflexivity]. apply Qle_bool_iff in E. lra. }
  unfold tick in T. destruct (m_pc m) as [j|j|].
  - destruct (nth_error (vertices g) j); [|injection T as <-; auto].
    destruct (ready_to_end j (m_state m)); [|injection T as <-; auto].
    set (full := ((j =? w)%nat && ((if (j =? w)%nat then m_count m + 1 else m_count m) =? rep))) in *.
    destruct (if full then from_repeated g (m_visited m) (m_state m) else []); [|discriminate].
    destruct (exec_end _ _ _ _ _); cbn [bind] in T; try discriminate. injection T as <-. cbn [m_log starts ends].
    destruct (j =? i)%nat; [|auto]. rewrite moved_snoc, X. split; [reflexivity|lia].
  - destruct (nth_error (vertices g) j); [|injection T as <-; auto].
    destruct (ready _ _ _ _ _); [|injection T as <-; auto].
    destruct (exec_start _ _ _ _ _); cbn [bind] in T; try discriminate. injection T as <-. cbn [m_log starts ends].
    destruct (j =? i)%nat; [|auto]. rewrite moved_snoc, X. split; [lia|reflexivity].
  - destruct (Qeq_bool _ _); [discriminate|].
    match type of T with Ok (Running ?x) = _ => assert (m' = x) as -> by congruence end. auto.
Qed.
Lemma tick_now m m' : inv g caps m -> tinv g m -> tick g w rep m = Ok (Running m') ->
  (m_now m <= m_now m')%Q /\ ((m_now m' == m_now m)%Q \/ m_log m' = m_log m).
Proof.
  intros Hi Ht T. pose proof (next_end_spec g (m_state m)) as (_ & _ & N3). unfold tick in T. destruct (m_pc m) as [j|j|].
  - destruct (nth_error (vertices g) j); [|injection T as <-; cbn; split; [lra|auto]].
    destruct (ready_to_end j (m_state m)); [|injection T as <-; cbn; split; [lra|auto]].
    set (full := ((j =? w)%nat && ((if (j =? w)%nat then m_count m + 1 else m_count m) =? rep))) in *.
    destruct (if full then from_repeated g (m_visited m) (m_state m) else []); [|discriminate].
    destruct (exec_end _ _ _ _ _); cbn [bind] in T; try discriminate. injection T as <-. cbn. split; [lra|left; lra].
  - destruct (nth_error (vertices g) j); [|injection T as <-; cbn; split; [lra|auto]].
    destruct (ready _ _ _ _ _); [|injection T as <-; cbn; split; [lra|auto]].
    destruct (exec_start _ _ _ _ _); cbn [bind] in T; try discriminate. injection T as <-. cbn. split; [lra|left; lra].
  - destruct (Qeq_bool (fst (advance_time g (m_state m))) long_max) eqn:Em; [discriminate|].
    match type of T with Ok (Running ?x) = _ => assert (m' = x) as -> by congruence end. cbn [m_now m_log]. split; [|auto].
    assert (Fst : fst (advance_time g (m_state m)) = next_end g (m_state m)).
    { unfold advance_time. destruct (Qeq_bool (next_end g (m_state m)) 0); [reflexivity|].
      destruct (Qeq_bool (next_end g (m_state m)) long_max); reflexivity. }
    rewrite Fst, Qred_correct. enough (0 <= next_end g (m_state m))%Q by lra.
    destruct N3 as [->|(i & Hl & Fi)]; [cbv; discriminate|].
    destruct (nth_error (vertices g) i) as [v|] eqn:Ev; [|apply nth_error_None in Ev; lia].
    destruct (ti_queue _ _ _ _ _ _ (t_task g m Ht i v Ev)) as [(_ & Qe & _)|(_ & r & p & Qe & R0 & _)]; unfold front in Fi; rewrite Qe in Fi; [discriminate|].
    injection Fi as Fi. rewrite <- Fi. assumption.
Qed.

Lemma prefix_runs m : runs_to g w rep m0 m -> prefix_ok m.
Proof.
  induction 1 as [|m m' R IH T]; intros k c t Ek.
  - destruct (Qlt_le_dec t 0) as [L|L].
    + cbn. unfold moved_list, moved_by. cbn. pose proof (nth_error_In _ _ Ek) as Hc. destruct WF as (_ & B & _).
      destruct (B c Hc) as (? & ? & _ & _ & _ & _ & _ & _ & _ & _ & _ & P). split; [lia|]. intros cap Ecap. specialize (CO cap Ecap k c Ek). lia.
    + apply late_ok; auto; [apply inv_new; assumption|apply tinv_new; assumption].
  - assert (R' : runs_to g w rep m0 m') by (econstructor; eauto).
    pose proof (inv_runs g caps w rep WF NI EV m R) as Hi. pose proof (tinv_runs g caps w rep WF NI EV GD m R) as Ht.
    destruct (tick_now m m' Hi Ht T) as [Hn Hs]. destruct (Qlt_le_dec t (m_now m')) as [L|L].
    + pose proof (tick_past m m' T Hn) as X. 
      destruct (X (e_dst c) (cons_rate c) t L Hs) as [-> ->]. destruct (X (e_src c) (prod_rate c) t L Hs) as [-> ->]. apply (IH k c t Ek).
    + apply late_ok; auto; [apply (inv_runs g caps w rep WF NI EV m' R')|apply (tinv_runs g caps w rep WF NI EV GD m' R')].
Qed.
End Prefix.

(** * The endless execution as a schedule *)
Fixpoint free_steps (g : graph) (caps : option (nat -> Z)) (n : nat) : option machine :=
  match n with
  | O => Some (new_machine g caps)
  | S n' => match free_steps g caps n' with
            | Some m => match tick g 0 0 m with Ok (Running m') => Some m' | _ => None end
            | None => None
            end
  end.
Lemma free_steps_runs g caps n m : free_steps g caps n = Some m -> runs_to g 0 0 (new_machine g caps) m.
Proof.
  revert m. induction n as [|n IH]; intros m; cbn; [intros [= <-]; constructor|].
  destruct (free_steps g caps n) as [x|]; [|discriminate]. destruct (tick g 0 0 x) as [[y| |]| | |] eqn:E; try discriminate.
  intros [= <-]. econstructor; eauto.
Qed.
Lemma runs_free_steps g caps m : runs_to g 0 0 (new_machine g caps) m -> exists n, free_steps g caps n = Some m.
Proof.
  induction 1 as [|m m' R [n IH] T]; [exists 0%nat; reflexivity|]. exists (S n). cbn. rewrite IH, T. reflexivity.
Qed.
Definition fired_in (g : graph) (caps : option (nat -> Z)) (i k n : nat) : option Q :=
  match free_steps g caps n with Some m => nth_error (starts (m_log m) i) k | None => None end.
Lemma choose_start g caps i k : (exists t, fires_at g caps i k t) -> { t | fires_at g caps i k t }.
Proof.
  intros H. assert (E : exists n, fired_in g caps i k n <> None).
  { destruct H as (t & m & R & E). destruct (runs_free_steps g caps m R) as [n En]. exists n. unfold fired_in. rewrite En, E. discriminate. }
  apply constructive_indefinite_ground_description_nat in E.
  2:{ intros n. destruct (fired_in g caps i k n); [left; discriminate|right; tauto]. }
  destruct E as [n En]. unfold fired_in in En. destruct (free_steps g caps n) as [m|] eqn:Em; [|tauto].
  destruct (nth_error (starts (m_log m) i) k) as [t|] eqn:Et; [|tauto]. exists t. exists m. split; [eapply free_steps_runs; eauto|assumption].
Qed.

Lemma choose_schedule g caps : (forall i k, (i < length (vertices g))%nat -> exists t, fires_at g caps i k t) ->
  exists s : schedule, forall i k, (i < length (vertices g))%nat -> fires_at g caps i k (s i k).
Proof.
  intros H. exists (fun i k => match lt_dec i (length (vertices g)) with left L => proj1_sig (choose_start g caps i k (H i k L)) | right _ => 0%Q end).
  intros i k Hi. destruct (lt_dec i (length (vertices g))) as [L|L]; [|lia]. exact (proj2_sig (choose_start g caps i k (H i k L))).
Qed.

Section Endless.
Variables (g : graph) (caps : option (nat -> Z)) (s : schedule).
Hypotheses (WF : graph_wf g) (NI : no_init g) (EV : even_self_loops g)
  (GD : all_guarded g (match caps with Some _ => true | None => false end)) (CO : capacities_ok g caps)
  (HS : forall i k, (i < length (vertices g))%nat -> fires_at g caps i k (s i k)).
Notation m0 := (new_machine g caps).

Lemma s_nth m i k : (i < length (vertices g))%nat -> runs_to g 0 0 m0 m -> (k < started (m_log m) i)%nat -> nth k (starts (m_log m) i) 0%Q = s i k.
Proof.
  intros Hi R Hk. assert (F : fires_at g caps i k (nth k (starts (m_log m) i) 0%Q)).
  { exists m. split; [assumption|]. apply nth_error_nth'. rewrite starts_length. assumption. }
  exact (fires_fun g caps _ _ _ _ F (HS i k Hi)).
Qed.
Lemma s_reached i k : (i < length (vertices g))%nat -> exists m, runs_to g 0 0 m0 m /\ (k < started (m_log m) i)%nat.
Proof. intros Hi. destruct (HS i k Hi) as (m & R & E). exists m. split; [assumption|]. rewrite <- starts_length. apply nth_error_Some. congruence. Qed.
Lemma s_end m i v k : nth_error (vertices g) i = Some v -> runs_to g 0 0 m0 m -> (k < ended (m_log m) i)%nat ->
  (nth k (ends (m_log m) i) 0 == end_of s g i k)%Q.
Proof.
  intros Ev R Hk. pose proof (tinv_runs g caps 0 0 WF NI EV GD m R) as Ht. pose proof (inv_runs g caps 0 0 WF NI EV m R) as Hi.
  assert (Hl : (i < length (vertices g))%nat) by (apply nth_error_Some; congruence).
  destruct (ti_ends _ _ _ _ _ _ (t_task g m Ht i v Ev) k) as [E _]; [rewrite ends_length; assumption|].
  rewrite E. unfold end_of. rewrite Ev. rewrite s_nth; auto; [reflexivity|]. pose proof (inv_order g caps m Hi i v Ev). lia.
Qed.

Lemma endless_channel pre x y prod cons : (x < length (vertices g))%nat -> (y < length (vertices g))%nat ->
  (forall k, 0 <= cons k) ->
  (forall m t, runs_to g 0 0 m0 m -> moved_list (starts (m_log m) y) cons t <= pre + moved_list (ends (m_log m) x) prod t) ->
  never_negative pre (end_of s g x) prod (start_of s y) cons.
Proof.
  intros Hx Hy Hc H t nc. destruct (s_reached y nc Hy) as (m & R & Hm). exists (ended (m_log m) x).
  specialize (H m t R). unfold moved_list in H. rewrite starts_length, ends_length in H.
  destruct (nth_error (vertices g) x) as [vx|] eqn:Ex; [|apply nth_error_None in Ex; lia].
  rewrite (moved_ext (fun k => nth k (ends (m_log m) x) 0%Q) (end_of s g x)) in H.
  2:{ intros k Hk. apply (s_end m x vx k Ex R Hk). }
  rewrite (moved_ext (fun k => nth k (starts (m_log m) y) 0%Q) (start_of s y)) in H.
  2:{ intros k Hk. unfold start_of. rewrite s_nth; auto; reflexivity. }
  assert (Mono : moved_by (start_of s y) cons nc t <= moved_by (start_of s y) cons (started (m_log m) y) t).
  { unfold moved_by. apply sumf_mono; [|lia]. intros k. destruct (Qle_bool _ _); [apply Hc|lia]. }
  lia.
Qed.

Lemma endless_valid : bounded_valid g caps s.
Proof.
  split; [split|].
  - intros c Hc. destruct (In_nth_error _ _ Hc) as [k Ek]. destruct (edge_ends g WF k c Ek) as [Hs Hd].
    apply endless_channel; auto; [intros n; apply (cons_nonneg g c n WF Hc)|].
    intros m t R. apply (prefix_runs g caps 0 0 WF NI EV GD CO m R k c t Ek).
  - intros i v Ev k. unfold start_of. assert (Hl : (i < length (vertices g))%nat) by (apply nth_error_Some; congruence).
    destruct (s_reached i (S k) Hl) as (m & R & Hm). pose proof (tinv_runs g caps 0 0 WF NI EV GD m R) as Ht.
    pose proof (ti_serial _ _ _ _ _ _ (t_task g m Ht i v Ev) k) as X. rewrite starts_length in X. specialize (X Hm).
    rewrite !s_nth in X by (auto; lia). exact X.
  - intros cap k c Ecap Ek. pose proof (nth_error_In _ _ Ek) as Hc. destruct (edge_ends g WF k c Ek) as [Hs Hd].
    apply endless_channel; auto; [intros n; apply (prod_nonneg g c n WF Hc)|].
    intros m t R. apply (prefix_runs g caps 0 0 WF NI EV GD CO m R k c t Ek). exact Ecap.
Qed.
Lemma endless_nonneg i k : (i < length (vertices g))%nat -> (0 <= s i k)%Q.
Proof.
  intros Hl. destruct (nth_error (vertices g) i) as [v|] eqn:Ev; [|apply nth_error_None in Ev; lia].
  destruct (s_reached i k Hl) as (m & R & Hm). pose proof (tinv_runs g caps 0 0 WF NI EV GD m R) as Ht.
  rewrite <- (s_nth m i k Hl R Hm). apply (ti_past _ _ _ _ _ _ (t_task g m Ht i v Ev)), nth_In. rewrite starts_length. assumption.
Qed.
Lemma endless_earliest s' : positive_durations g -> bounded_valid g caps s' -> (forall i k, (i < length (vertices g))%nat -> (0 <= s' i k)%Q) ->
  forall i k, (i < length (vertices g))%nat -> (s i k <= s' i k)%Q.
Proof.
  intros PD SV NN i k Hl. destruct (s_reached i k Hl) as (m & R & Hm).
  destruct (asap_runs g caps 0 0 WF NI EV GD PD s' SV NN m R) as [_ He]. rewrite <- (s_nth m i k Hl R Hm). apply He; assumption.
Qed.

Hypotheses (PD : positive_durations g) (NE : (0 < length (vertices g))%nat).
Lemma endless_grows i k l : (i < length (vertices g))%nat -> (k < l)%nat -> (s i k < s i l)%Q.
Proof.
  intros Hi L. destruct (nth_error (vertices g) i) as [v|] eqn:Ev; [|apply nth_error_None in Ev; lia].
  pose proof (sched_step g caps s endless_valid i v k Ev). pose proof (duration_pos g WF NI PD i v k Ev).
  pose proof (sched_mono g caps WF NI PD s endless_valid i (S k) l Hi ltac:(lia)). lra.
Qed.

(** With the periodic pattern. *)
Variables (N : nat -> Z) (n K0 : nat) (T : Q).
Hypotheses (NP : forall i, (i < length (vertices g))%nat -> 0 < N i) (n0 : (0 < n)%nat)
  (PER : forall i k, (i < length (vertices g))%nat -> (K0 <= k)%nat -> (s i (k + n * Z.to_nat (N i))%nat == s i k + T)%Q).

Lemma per_iter i k j : (i < length (vertices g))%nat -> (K0 <= k)%nat -> (s i (k + j * (n * Z.to_nat (N i)))%nat == s i k + inject_Z (Z.of_nat j) * T)%Q.
Proof.
  intros Hi Hk. induction j as [|j IH].
  { replace (k + 0 * (n * Z.to_nat (N i)))%nat with k by lia. change (inject_Z (Z.of_nat 0)) with 0%Q. lra. }
  replace (k + S j * (n * Z.to_nat (N i)))%nat with ((k + j * (n * Z.to_nat (N i))) + n * Z.to_nat (N i))%nat by lia.
  rewrite PER by (auto; lia). rewrite IH, Nat2Z.inj_succ. unfold Z.succ. rewrite inject_Z_plus. change (inject_Z 1) with 1%Q. lra.
Qed.
Lemma period_pos : (0 < T)%Q.
Proof.
  pose proof (PER 0%nat K0 NE (le_n _)) as E. pose proof (NP 0%nat NE) as NP0.
  pose proof (endless_grows 0%nat K0 (K0 + n * Z.to_nat (N 0%nat)) NE ltac:(nia)). lra.
Qed.
Lemma endless_non_zeno : non_zeno g s.
Proof.
  intros i t Hi. pose proof period_pos as TP. 
  destruct (Qlt_le_dec t 0) as [L|L]; [exists 0%nat; pose proof (endless_nonneg i 0%nat Hi); lra|].
  exists (K0 + S (Z.to_nat (Qceiling (t / T))) * (n * Z.to_nat (N i)))%nat. rewrite per_iter by auto.
  pose proof (endless_nonneg i K0 Hi). pose proof (Qle_ceiling (t / T)) as C. 
  assert (P0 : (0 <= t / T)%Q) by (apply Qle_shift_div_l; lra).
  assert (C0 : 0 <= Qceiling (t / T)). { change 0 with (Qceiling 0). apply Qceiling_resp_le. exact P0. }
  rewrite Nat2Z.inj_succ, Z2Nat.id by assumption. unfold Z.succ. rewrite inject_Z_plus. change (inject_Z 1) with 1%Q.
  assert (E : (t == (t / T) * T)%Q) by (field; lra). nra.
Qed.
Lemma bounded_list (f : nat -> Q) M : exists B, (0 <= B)%Q /\ forall k, (k < M)%nat -> (f k <= B)%Q.
Proof.
  induction M as [|M (B & B0 & H)]; [exists 0%Q; split; [lra|intros; lia]|].
  exists (B + Qabs (f M))%Q. pose proof (Qabs_nonneg (f M)). pose proof (Qle_Qabs (f M)). split; [lra|].
  intros k Hk. destruct (Nat.eq_dec k M) as [->|]; [lra|]. specialize (H k ltac:(lia)). lra.
Qed.
Lemma endless_pace : keeps_pace g N s (T / inject_Z (Z.of_nat n)).
Proof.
  pose proof period_pos as TP.
  assert (nq : (0 < inject_Z (Z.of_nat n))%Q) by (change 0%Q with (inject_Z 0); rewrite <- Zlt_Qlt; lia).
  assert (W : (0 < T / inject_Z (Z.of_nat n))%Q) by (apply Qlt_shift_div_l; lra).
  assert (X : forall i, (i < length (vertices g))%nat -> exists B, (0 <= B)%Q /\ forall k, (s i k <= B + (T / inject_Z (Z.of_nat n)) * (inject_Z (Z.of_nat k) / inject_Z (N i)))%Q).
  { intros i Hi. pose proof (NP i Hi) as NPi. destruct (bounded_list (s i) (K0 + n * Z.to_nat (N i))) as (B & B0 & HB). exists B. split; [assumption|].
    assert (Np : (0 < inject_Z (N i))%Q) by (change 0%Q with (inject_Z 0); rewrite <- Zlt_Qlt; lia).
    intros k. induction k as [k IH] using lt_wf_ind. destruct (Nat.lt_ge_cases k (K0 + n * Z.to_nat (N i))) as [L|L].
    - specialize (HB k L). assert (0 <= inject_Z (Z.of_nat k) / inject_Z (N i))%Q.
      { apply Qle_shift_div_l; [assumption|]. rewrite Qmult_0_l. change 0%Q with (inject_Z 0). rewrite <- Zle_Qle. lia. }
      nra.
    - specialize (IH (k - n * Z.to_nat (N i))%nat ltac:(nia)).
      pose proof (PER i (k - n * Z.to_nat (N i))%nat Hi ltac:(lia)) as E. replace (k - n * Z.to_nat (N i) + n * Z.to_nat (N i))%nat with k in E by lia.
      rewrite E. rewrite Nat2Z.inj_sub in IH by lia. rewrite Nat2Z.inj_mul, Z2Nat.id in IH by lia.
      unfold Z.sub in IH. rewrite inject_Z_plus, inject_Z_opp, inject_Z_mult in IH.
      assert (Y : (T / inject_Z (Z.of_nat n) * ((inject_Z (Z.of_nat k) + - (inject_Z (Z.of_nat n) * inject_Z (N i))) / inject_Z (N i)) ==
                   T / inject_Z (Z.of_nat n) * (inject_Z (Z.of_nat k) / inject_Z (N i)) - T)%Q) by (field; split; lra).
      rewrite Y in IH. lra. }
  assert (Z0 : forall M, exists B, forall i k, (i < M)%nat -> (i < length (vertices g))%nat -> (s i k <= B + (T / inject_Z (Z.of_nat n)) * (inject_Z (Z.of_nat k) / inject_Z (N i)))%Q).
  { induction M as [|M (B & HB)]; [exists 0%Q; intros; lia|].
    destruct (lt_dec M (length (vertices g))) as [L|L].
    - destruct (X M L) as (B' & B0' & HB'). exists (Qabs B + B')%Q. intros i k Hi Hl. pose proof (Qle_Qabs B). pose proof (Qabs_nonneg B).
      destruct (Nat.eq_dec i M) as [->|]; [specialize (HB' k); lra|]. specialize (HB i k ltac:(lia) Hl). lra.
    - exists B. intros i k Hi Hl. apply HB; lia. }
  destruct (Z0 (length (vertices g))) as (B & HB). exists B. intros i k Hi. apply HB; assumption.
Qed.
(** A bounded difference of slopes means no difference. *)
Lemma slope (a b C : Q) : (forall j : nat, inject_Z (Z.of_nat j) * a <= C + inject_Z (Z.of_nat j) * b)%Q -> (a <= b)%Q.
Proof.
  intros H. destruct (Qlt_le_dec b a) as [L|L]; [exfalso|assumption].
  assert (D : (0 < a - b)%Q) by lra. pose proof (H 0%nat) as C0. change (inject_Z (Z.of_nat 0)) with 0%Q in C0.
  assert (P0 : (0 <= C / (a - b))%Q) by (apply Qle_shift_div_l; lra).
  assert (Z0 : 0 <= Qceiling (C / (a - b))). { change 0 with (Qceiling 0). apply Qceiling_resp_le. exact P0. }
  specialize (H (S (Z.to_nat (Qceiling (C / (a - b)))))). rewrite Nat2Z.inj_succ, Z2Nat.id in H by assumption. unfold Z.succ in H. rewrite inject_Z_plus in H.
  pose proof (Qle_ceiling (C / (a - b))) as Cc. assert (E : (C == (C / (a - b)) * (a - b))%Q) by (field; lra).
  set (q := inject_Z (Qceiling (C / (a - b)))) in *. change (inject_Z 1) with 1%Q in H. nra.
Qed.
Lemma endless_optimal s' omega : bounded_valid g caps s' -> keeps_pace g N s' omega -> (T / inject_Z (Z.of_nat n) <= omega)%Q.
Proof.
  intros SV (B & HB). destruct (shift_nonneg g caps s' WF NI PD NE SV) as [d Hd].
  pose proof (endless_earliest (shifted s' d) PD (bounded_valid_shift g caps s' d SV) Hd 0%nat) as Early.
  pose proof (NP 0%nat NE) as NP0. set (D := (n * Z.to_nat (N 0%nat))%nat) in *.
  assert (nq : (0 < inject_Z (Z.of_nat n))%Q) by (change 0%Q with (inject_Z 0); rewrite <- Zlt_Qlt; lia).
  assert (Np : (0 < inject_Z (N 0%nat))%Q) by (change 0%Q with (inject_Z 0); rewrite <- Zlt_Qlt; lia).
  apply Qle_shift_div_r; [assumption|].
  apply (slope T (omega * inject_Z (Z.of_nat n)) (B + d + omega * (inject_Z (Z.of_nat K0) / inject_Z (N 0%nat)) - s 0%nat K0)).
  intros j. pose proof (per_iter 0%nat K0 j NE (le_n _)) as E. fold D in E.
  specialize (Early (K0 + j * D)%nat NE). unfold shifted in Early. specialize (HB 0%nat (K0 + j * D)%nat NE).
  rewrite Nat2Z.inj_add, Nat2Z.inj_mul in HB. subst D. rewrite Nat2Z.inj_mul, Z2Nat.id in HB by lia.
  rewrite inject_Z_plus, !inject_Z_mult in HB.
  assert (Y : (omega * ((inject_Z (Z.of_nat K0) + inject_Z (Z.of_nat j) * (inject_Z (Z.of_nat n) * inject_Z (N 0%nat))) / inject_Z (N 0%nat)) ==
    omega * (inject_Z (Z.of_nat K0) / inject_Z (N 0%nat)) + inject_Z (Z.of_nat j) * (omega * inject_Z (Z.of_nat n)))%Q) by (field; lra).
  rewrite Y in HB. lra.
Qed.
End Endless.
