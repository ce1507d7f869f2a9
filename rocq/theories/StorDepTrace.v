(** The second execution records what every later firing waits for. *)
From Coq Require Import QArith Qreduction Lqa.
From Verif Require Import Base Graph ScheduleSpec RepVec RepVecSpec RepVecProofs RepVecFinal RepVecProps Sim SimSpec SimProofs SimTime SimRecur SimPeriod SimOptimal SimFinal
  StorDep StorDepSpec StorDepDead StorDepPair.
Open Scope Z_scope.

Definition same_room (a b : state) : Prop := s_tokens a = s_tokens b /\ s_space a = s_space b.
Lemma causal_room g i v a s s' : same_room s s' -> causal_deps g i v a s = causal_deps g i v a s'.
Proof. intros [E1 E2]. unfold causal_deps. rewrite E1, E2. reflexivity. Qed.
Lemma core_room m f : core_eq m f -> same_room (m_state m) (m_state f).
Proof. intros (_ & _ & _ & _ & E5 & E6 & _). split; assumption. Qed.

(** * The first execution *)
Lemma run_prev_from g w rep m a : runs_to g w rep m a -> forall fuel prev x, run_prev fuel g w rep m prev = Ok x ->
  exists fuel' prev', run_prev fuel' g w rep a prev' = Ok x.
Proof.
  induction 1 as [|a a' R IH T]; intros fuel prev x H; [eauto|]. destruct (IH fuel prev x H) as (f & pr & H').
  destruct f as [|f]; cbn [run_prev] in H'; [discriminate|]. rewrite T in H'. cbn [bind] in H'. eauto.
Qed.
Lemma run_prev_pit g w rep fuel m prev f p x m' prev' : run_prev fuel g w rep m prev = Ok (x, m', prev') -> core_eq m f -> 0 <= m_count f ->
  same_room prev (m_state p) -> exists n p' f', pit g n (p, f) = Some (p', f') /\ core_eq m' f' /\ same_room prev' (m_state p') /\ 0 <= m_count f'.
Proof.
  revert m prev f p. induction fuel as [|fu IH]; intros m prev f p; cbn [run_prev]; [discriminate|].
  destruct (tick g w rep m) as [y| | |] eqn:T; cbn [bind]; try discriminate. intros H C N S.
  assert (Stop : (y, m, prev) = (x, m', prev') -> exists n p' f', pit g n (p, f) = Some (p', f') /\ core_eq m' f' /\ same_room prev' (m_state p') /\ 0 <= m_count f').
  { intros [= <- <- <-]. exists 0%nat, p, f. cbn [pit]. auto. }
  destruct y as [m1|n t|]; [|apply Stop; congruence|apply Stop; congruence].
  destruct (tick_core g w rep m f m1 C N T) as (f1 & Tf & C1 & N1).
  destruct (IH m1 _ f1 (match m_pc f with PAdvance => f1 | _ => p end) H C1 N1) as (n & p' & f' & E & Rest).
  { destruct C as (-> & _). destruct (m_pc f); auto using core_room. }
  exists (Datatypes.S n), p', f'. split; [|assumption]. cbn [pit]. unfold pstep. cbn [fst snd]. rewrite Tf. exact E.
Qed.

(** * The second execution *)
Lemma dep_tick_core g w rep rc r f f1 r' : core_eq (r_machine r) f -> 0 <= m_count f -> tick g 0 0 f = Ok (Running f1) ->
  dep_tick g w rep rc r = Ok (Searching r') ->
  core_eq (r_machine r') f1 /\ 0 <= m_count f1 /\
  r_prev r' = match m_pc f with PAdvance => m_state (r_machine r') | _ => r_prev r end /\ incl (r_deps r) (r_deps r') /\
  (forall i v, m_pc f = PStart i -> nth_error (vertices g) i = Some v -> ready g i v (m_actors f i) (m_state f) = true ->
     incl (causal_deps g i v (m_actors f i) (r_prev r)) (r_deps r')) /\
  (r_deps r' = r_deps r \/ exists i v a, nth_error (vertices g) i = Some v /\ r_deps r' = causal_deps g i v a (r_prev r) ++ r_deps r).
Proof.
  intros (E1 & E2 & E3 & E4 & E5 & E6 & E7 & E8 & E9) C T D. unfold dep_tick in D. unfold tick in T. rewrite <- E1 in *.
  destruct (m_pc (r_machine r)) as [i|i|].
  - destruct (nth_error (vertices g) i) as [v|] eqn:Ev.
    2:{ injection D as <-. injection T as <-. cbn. repeat split; auto using incl_refl; discriminate. }
    replace (ready_to_end i (m_state f)) with (ready_to_end i (m_state (r_machine r))) in T by (unfold ready_to_end; rewrite E3; reflexivity).
    destruct (ready_to_end i (m_state (r_machine r))) eqn:R.
    2:{ injection D as <-. injection T as <-. cbn. repeat split; auto using incl_refl; discriminate. }
    assert (F : ((i =? 0)%nat && ((if (i =? 0)%nat then m_count f + 1 else m_count f) =? 0)) = false).
    { destruct (i =? 0)%nat; [|reflexivity]. cbn. apply Z.eqb_neq. lia. }
    rewrite F in T.
    set (full := ((i =? w)%nat && ((if (i =? w)%nat then m_count (r_machine r) + 1 else m_count (r_machine r)) =? rep))) in *.
    destruct (full && negb (r_first r) && state_eq g (m_state (r_machine r)) rc); [discriminate|].
    unfold ready_to_end in R. destruct (s_queue (m_state (r_machine r)) i) as [|[t p] q] eqn:Eq; [discriminate|].
    match type of D with context [exec_end g i v (m_actors (r_machine r) i) ?s1] => set (s1' := s1) in * end.
    assert (S1 : s_queue s1' = s_queue (m_state (r_machine r)) /\ s_phase s1' = s_phase (m_state (r_machine r)) /\ s_tokens s1' = s_tokens (m_state (r_machine r)) /\
                 s_space s1' = s_space (m_state (r_machine r)) /\ s_bounded s1' = s_bounded (m_state (r_machine r))) by (subst s1'; destruct full; repeat split).
    destruct S1 as (A1 & A2 & A3 & A4 & A5).
    unfold exec_end in T, D. rewrite A1, Eq in D. rewrite <- E3, Eq in T. cbn [bind fst snd] in T, D. injection T as <-. injection D as <-.
    cbn [r_machine r_prev r_deps m_count]. split; [|split; [destruct (i =? 0)%nat; lia|split; [reflexivity|split; [apply incl_refl|split; [discriminate|auto]]]]].
    rewrite A2, A3, A4, A5. repeat split; cbn; rewrite <- ?E2, <- ?E3, <- ?E4, <- ?E5, <- ?E6, <- ?E7, <- ?E8, <- ?E9; reflexivity.
  - destruct (nth_error (vertices g) i) as [v|] eqn:Ev.
    2:{ injection D as <-. injection T as <-. cbn. repeat split; auto using incl_refl. intros j v [= <-]. congruence. }
    rewrite <- E2 in *. rewrite <- (ready_core g i v _ _ _ E5 E6 E7) in T.
    destruct (ready g i v (m_actors (r_machine r) i) (m_state (r_machine r))) eqn:R.
    2:{ injection D as <-. injection T as <-. cbn. repeat split; auto using incl_refl. intros j v' [= <-] Ev' Rj. rewrite Ev in Ev'. injection Ev' as <-.
        rewrite <- (ready_core g i v _ _ _ E5 E6 E7) in Rj. congruence. }
    unfold exec_start in T, D. destruct (vertex_duration v _) as [d| | |]; cbn [bind fst snd] in T, D; try discriminate. injection T as <-. injection D as <-.
    cbn [r_machine r_prev r_deps m_count]. split; [|split; [assumption|split; [reflexivity|split; [apply incl_appr, incl_refl|split]]]].
    + repeat split; cbn; rewrite <- ?E3, <- ?E4, <- ?E5, <- ?E6, <- ?E7, <- ?E8, <- ?E9; reflexivity.
    + intros j v' [= <-] Ev' _. rewrite Ev in Ev'. injection Ev' as <-. apply incl_appl, incl_refl.
    + right. eauto.
  - destruct (advance_core g _ _ E3) as [F1 F2].
    destruct (Qeq_bool (fst (advance_time g (m_state f))) long_max); [discriminate|].
    match type of T with Ok (Running ?x) = _ => assert (f1 = x) as -> by congruence end. clear T.
    match type of D with Ok (Searching ?x) = _ => assert (r' = x) as -> by congruence end. clear D.
    cbn [r_machine r_prev r_deps m_count m_state]. split; [|split; [assumption|split; [reflexivity|split; [apply incl_refl|split; [discriminate|auto]]]]].
    destruct (advance_rest g (m_state (r_machine r))) as (B1 & B2 & B3 & B4). destruct (advance_rest g (m_state f)) as (B1' & B2' & B3' & B4').
    repeat split; cbn [m_pc m_actors m_state m_now m_log]; congruence.
Qed.
Lemma causal_tasks g i v a s : graph_wf g -> task_deps g (causal_deps g i v a s).
Proof.
  intros WF x y H. unfold causal_deps in H. apply in_app_or in H.
  destruct H as [H|H]; apply in_map_iff in H; destruct H as ([k c] & [= <- <-] & H); apply filter_In in H; destruct H as [H _]; apply in_numbered in H;
    cbn [snd]; destruct (edge_in_range g k c WF H); split; apply vid_in; assumption.
Qed.
(** The firings that end, the tokens and the phases agree; the time since the last visit may not. *)
Definition agree (g : graph) (a b : state) : Prop :=
  (forall i, In i (seq 0 (length (vertices g))) -> (s_phase a i =? s_phase b i) = true) /\
  (forall k, In k (seq 0 (length (edges g))) -> (s_tokens a k =? s_tokens b k) = true) /\
  (forall i, In i (seq 0 (length (vertices g))) -> queue_eq (s_queue a i) (s_queue b i) = true).
Lemma state_eq_agree g a b : state_eq g a b = true -> agree g a b.
Proof. unfold state_eq. rewrite !andb_true_iff, !forallb_forall. intros [[[_ Hp] Ht] Hq]. split; [|split]; assumption. Qed.

Lemma dep_run_pit g w rep rc fuel r d : graph_wf g -> dep_run fuel g w rep rc r = Ok d ->
  forall f p, (forall j p' f', pit g j (p, f) = Some (p', f') -> exists f1, tick g 0 0 f' = Ok (Running f1)) ->
  core_eq (r_machine r) f -> 0 <= m_count f -> same_room (r_prev r) (m_state p) ->
  exists n pz z rz, pit g n (p, f) = Some (pz, z) /\ core_eq rz z /\ m_pc z = PEnd w /\ agree g (m_state rz) rc /\
    (r_first r = true -> (0 < n)%nat) /\ incl (r_deps r) d /\ (task_deps g (r_deps r) -> task_deps g d) /\
    (forall j p' f', (j < n)%nat -> pit g j (p, f) = Some (p', f') -> start_in g d p' f').
Proof.
  intros WF. revert r. induction fuel as [|fu IH]; intros r; cbn [dep_run]; [discriminate|].
  destruct (dep_tick g w rep rc r) as [x| | |] eqn:D; cbn [bind]; try discriminate. destruct x as [r'|d']; intros H f p Live C N S.
  - destruct (Live 0%nat p f eq_refl) as [f1 T]. destruct (dep_tick_core g w rep rc r f f1 r' C N T D) as (C1 & N1 & Pv & I1 & St & Dp).
    set (p1 := match m_pc f with PAdvance => f1 | _ => p end).
    assert (E0 : pstep g (p, f) = Some (p1, f1)) by (unfold pstep; cbn [fst snd]; rewrite T; reflexivity).
    destruct (IH r' H f1 p1) as (n & pz & z & rz & Z1 & Z2 & Z3 & Z4 & _ & Z6 & Z7 & Z8); auto.
    { intros j p' f' E. apply (Live (Datatypes.S j) p' f'). cbn [pit]. rewrite E0. exact E. }
    { rewrite Pv. subst p1. destruct (m_pc f); auto using core_room. }
    exists (Datatypes.S n), pz, z, rz. cbn [pit]. rewrite E0. do 4 (split; [assumption|]). split; [lia|]. split; [eapply incl_tran; eauto|].
    split.
    { intros TD. apply Z7. destruct Dp as [-> |(i & v & a & _ & ->)]; [assumption|]. intros x y Hin. apply in_app_or in Hin.
      destruct Hin as [Hin|Hin]; [eapply causal_tasks; eauto|apply TD; assumption]. }
    intros j p' f' L E. destruct j as [|j]; cbn [pit] in E.
    + injection E as <- <-. intros i v P Ev R. eapply incl_tran; [|exact Z6].
      rewrite <- (causal_room g i v (m_actors f i) (r_prev r) (m_state p) S). apply St; assumption.
    + rewrite E0 in E. eapply (Z8 j); [lia|exact E].
  - injection H as <-. exists 0%nat, p, f, (r_machine r). cbn [pit]. split; [reflexivity|]. split; [assumption|].
    unfold dep_tick in D. destruct (m_pc (r_machine r)) as [i|i|] eqn:Epc.
    2:{ destruct (nth_error (vertices g) i); [|discriminate]. destruct (ready _ _ _ _ _); [|discriminate]. destruct (exec_start _ _ _ _ _); discriminate. }
    2:{ discriminate. }
    destruct (nth_error (vertices g) i) as [v|]; [|discriminate]. destruct (ready_to_end i _); [|discriminate].
    set (full := ((i =? w)%nat && ((if (i =? w)%nat then m_count (r_machine r) + 1 else m_count (r_machine r)) =? rep))) in *.
    destruct (full && negb (r_first r) && state_eq g (m_state (r_machine r)) rc) eqn:E.
    2:{ destruct (exec_end _ _ _ _ _); discriminate. }
    injection D as <-. apply andb_true_iff in E. destruct E as [E Es]. apply andb_true_iff in E. destruct E as [Ef Er]. subst full.
    apply andb_true_iff in Ef. destruct Ef as [Ew _]. apply Nat.eqb_eq in Ew. subst i.
    split; [destruct C as (<- & _); assumption|]. split; [apply state_eq_agree; assumption|].
    split; [intros F; rewrite F in Er; discriminate|]. split; [apply incl_refl|]. split; [auto|]. intros; lia.
Qed.
(** The scan starts over from the first task: the tasks before [w] have nothing to end. *)
Definition at_pc (q : pc) (m : machine) : machine := mkMachine q (m_actors m) (m_state m) (m_count m) (m_visited m) (m_now m) (m_log m).
Lemma dep_run_skip g w rep rc d v m prev dd : nth_error (vertices g) w = Some v -> forall k fuel,
  (k <= w)%nat -> (forall j, (j < w)%nat -> ready_to_end j (m_state m) = false) ->
  dep_run fuel g w rep rc (mkRetrace (at_pc (PEnd (w - k)) m) prev dd true) = Ok d ->
  exists fuel', dep_run fuel' g w rep rc (mkRetrace (at_pc (PEnd w) m) prev dd true) = Ok d.
Proof.
  intros Ev. induction k as [|k IH]; intros fuel Hk NR H.
  - rewrite Nat.sub_0_r in H. eauto.
  - destruct fuel as [|fu]; [discriminate|]. cbn [dep_run] in H. unfold dep_tick in H at 1.
    cbn [r_machine at_pc m_pc m_state] in H.
    destruct (nth_error (vertices g) (w - S k)) as [v'|] eqn:E.
    2:{ apply nth_error_None in E. assert (w < length (vertices g))%nat by (apply nth_error_Some; congruence). lia. }
    rewrite (NR (w - S k)%nat ltac:(lia)) in H. cbn [bind] in H. replace (S (w - S k)) with (w - k)%nat in H by lia.
    apply (IH fu ltac:(lia) NR H).
Qed.

(** * Both *)
Lemma runs_first g w rep a c : runs_to g w rep a c -> c = a \/ exists m', tick g w rep a = Ok (Running m').
Proof. induction 1 as [|m m' R IH T]; [auto|]. right. destruct IH as [->|H]; eauto. Qed.
Lemma never_stops g cap : (0 < length (vertices g))%nat -> (forall i k, (i < length (vertices g))%nat -> exists t, fires_at g (Some cap) i k t) ->
  forall m, runs_to g 0 0 (new_machine g (Some cap)) m -> exists m', tick g 0 0 m = Ok (Running m').
Proof.
  intros NE AL m R. destruct (AL 0%nat (started (m_log m) 0) NE) as (t & c & Rc & E).
  assert (L : (started (m_log m) 0 < started (m_log c) 0)%nat) by (rewrite <- (starts_length (m_log c)); apply nth_error_Some; congruence).
  destruct (runs_linear g 0 0 _ _ _ R Rc) as [Rm|Rm].
  - destruct (runs_first _ _ _ _ _ Rm) as [->|H]; [lia|assumption].
  - destruct (runs_log _ _ _ _ _ Rm) as [l El]. rewrite El, started_app in L. lia.
Qed.

Section Traced.
Variables (g : graph) (cap : nat -> Z) (fuel ticks : nat).
Hypotheses (WF : graph_wf g) (NI : no_init g) (EV : even_self_loops g) (GD : all_guarded g true) (CG : connected_graph g)
  (NE : vertices g <> []) (FU : (length (vertices g) <= fuel)%nat) (PD : positive_durations g) (CO : capacities_ok g (Some cap)).
Notation m0 := (new_machine g (Some cap)).

Theorem traced corrected n T r : component_cycles corrected fuel ticks g cap = Ok (Periodic n T, r) ->
  exists pb fb d, pinv g cap pb fb /\ storage_deps corrected fuel g d = Ok r /\ task_deps g d /\
    forall j p m, pit g j (pb, fb) = Some (p, m) -> start_in g d p m.
Proof.
  intros H. pose proof (component_cycles_throughput _ _ _ _ _ _ _ H) as HT.
  destruct (component_exact g (Some cap) fuel ticks WF NI EV GD CG NE FU n T CO PD HT) as (N & EN & _ & TP & _).
  pose proof (endless_all g (Some cap) fuel ticks WF NI EV GD CG NE FU n T HT) as AL.
  assert (L0 : (0 < length (vertices g))%nat) by (destruct (vertices g); [congruence|cbn; lia]).
  pose proof (never_stops g cap L0 AL) as Live.
  destruct (component_cycles_inv _ _ _ _ _ _ _ H) as (w & rep & b & prev & P & R & d & D & S).
  destruct (run_prev_run _ _ _ _ _ _ _ _ _ R) as (_ & Rb & Tb).
  assert (RP : 0 < rep).
  { unfold prepare in P. rewrite EN in P. cbn [bind] in P. destruct (actors_ok g 0 (vertices g)); cbn [bind] in P; try discriminate.
    destruct (min_actor N) as [[w' rep']|] eqn:Em; [|discriminate]. injection P as -> ->.
    pose proof (min_actor_at _ _ _ Em) as Ew. destruct (C18_balance g fuel N (graph_wf_rates g WF) NE FU EN) as (LN & NP & _).
    assert (Lw : (w < length (vertices g))%nat) by (rewrite <- LN; apply nth_error_Some; congruence).
    rewrite <- (nth_error_nth _ _ 0 Ew). auto. }
  destruct (periodic_points g (Some cap) w rep WF NI EV GD RP b n T Rb Tb) as (a & Ra & Rab & Al & Tm & _ & _ & Lw).
  assert (Pb : m_pc b = PEnd w).
  { unfold tick in Tb. destruct (m_pc b) as [i|i|].
    2:{ destruct (nth_error (vertices g) i); [|discriminate]. destruct (ready _ _ _ _ _); [|discriminate]. destruct (exec_start _ _ _ _ _); discriminate. }
    2:{ destruct (Qeq_bool _ _); discriminate. }
    destruct (nth_error (vertices g) i) as [v|]; [|discriminate]. destruct (ready_to_end i _); [|discriminate].
    destruct (Nat.eqb_spec i w) as [->|]; [reflexivity|]. cbn [andb] in Tb. destruct (exec_end _ _ _ _ _); discriminate. }
  destruct (runs_core g w rep m0 a ltac:(cbn; lia) Ra) as (fa & Fa & Ca & Na).
  destruct (run_prev_from g w rep m0 a Ra _ _ _ R) as (f2 & prev2 & R2).
  destruct (run_prev_pit g w rep f2 a prev2 fa (mkMachine PAdvance (m_actors a) prev2 0 [] 0 []) _ _ _ R2 Ca Na) as (n1 & pb & fb & E1 & Cb & Sb & Nb).
  { split; reflexivity. }
  assert (Af : alike g fa fb).
  { destruct Ca as (A1 & A2 & A3 & A4 & A5 & A6 & A7 & A8 & A9). destruct Cb as (B1 & B2 & B3 & B4 & B5 & B6 & B7 & B8 & B9).
    unfold alike in *. rewrite <- A1, <- A2, <- A3, <- A5, <- A6, <- A9, <- B1, <- B2, <- B3, <- B5, <- B6, <- B9. exact Al. }
  assert (Tf : ~ (m_now fa == m_now fb)%Q).
  { destruct Ca as (_ & _ & _ & _ & _ & _ & _ & <- & _). destruct Cb as (_ & _ & _ & _ & _ & _ & _ & <- & _). intros E. lra. }
  destruct (pit_fresh g cap n1 _ fa fa pb fb Fa E1 Tf) as [E1' PI].
  pose proof (pinv_free g cap pb fb PI) as Ffb.
  destruct (nth_error (vertices g) w) as [v|] eqn:Ev; [|apply nth_error_None in Ev; lia].
  assert (NR : forall j, (j < w)%nat -> ready_to_end j (m_state b) = false).
  { intros j Hj. pose proof (t_pc g b (tinv_runs g (Some cap) w rep WF NI EV GD b Rb)) as X. unfold pc_inv in X. rewrite Pb in X.
    destruct (nth_error (vertices g) j) as [vj|] eqn:Ej; [|apply nth_error_None in Ej; lia]. apply (X j vj Hj Ej). }
  set (b0 := mkMachine (PEnd 0) (m_actors b) (mkState (s_queue (m_state b)) (s_phase (m_state b)) (s_tokens (m_state b)) (s_space (m_state b)) 0 (s_bounded (m_state b))) (-1)
                       (m_visited b) (m_now b) (m_log b)).
  assert (ED : retrace_from b prev = mkRetrace (at_pc (PEnd (w - w)) b0) prev [] true) by (rewrite Nat.sub_diag; reflexivity).
  rewrite ED in D. destruct (dep_run_skip g w rep (m_state b) d v b0 prev [] Ev w ticks (le_n w) NR D) as (f3 & D').
  assert (Cr : core_eq (at_pc (PEnd w) b0) fb).
  { destruct Cb as (B1 & B2 & B3 & B4 & B5 & B6 & B7 & B8 & B9). rewrite Pb in B1. repeat split; cbn; assumption. }
  destruct (dep_run_pit g w rep (m_state b) f3 _ d WF D' fb pb) as (n2 & pz & z & rz & E2 & Cz & Pz & Ag & P2 & _ & TD & Cov).
  { intros j p' f' E. apply Live. eapply runs_trans; [exact Ffb|eapply pit_runs; eauto]. }
  { exact Cr. } { exact Nb. } { exact Sb. }
  specialize (P2 eq_refl). cbn [r_deps] in TD.
  assert (Fz : runs_to g 0 0 m0 z) by (eapply runs_trans; [exact Ffb|eapply pit_runs; eauto]).
  assert (Az : alike g fb z).
  { apply alike_sym. apply (same_config g (Some cap) 0 0 WF NI EV GD z fb Fz Ffb).
    - destruct Cb as (<- & _). rewrite Pz, Pb. reflexivity.
    - destruct Ag as (A & _ & _). destruct Cz as (_ & _ & _ & <- & _). destruct Cb as (_ & _ & _ & <- & _). exact A.
    - destruct Ag as (_ & A & _). destruct Cz as (_ & _ & _ & _ & <- & _). destruct Cb as (_ & _ & _ & _ & <- & _). exact A.
    - destruct Ag as (_ & _ & A). destruct Cz as (_ & _ & <- & _). destruct Cb as (_ & _ & <- & _). exact A. }
  exists pb, fb, d. split; [assumption|]. split; [assumption|]. split; [apply TD; intros x y []|].
  eapply (window_covers g cap WF NI EV fa fb z pb pz n1 n2); eauto.
Qed.
End Traced.
