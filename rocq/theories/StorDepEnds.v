(** The second execution ends. *)
From Coq Require Import QArith Qreduction Lqa.
From Verif Require Import Base Graph ScheduleSpec RepVec RepVecSpec RepVecProofs RepVecFinal RepVecProps Sim SimSpec SimProofs SimTime SimRecur SimPeriod SimOptimal SimFinal
  StorDep StorDepSpec StorDepScc StorDepCycle StorDepDead StorDepPair StorDepTrace.
Open Scope Z_scope.

Lemma dep_run_more g w rep rc : forall fuel r d, dep_run fuel g w rep rc r = Ok d -> forall k, dep_run (fuel + k) g w rep rc r = Ok d.
Proof.
  induction fuel as [|fu IH]; intros r d H k; cbn [dep_run] in H; [discriminate|]. cbn [dep_run Nat.add].
  destruct (dep_tick g w rep rc r) as [[r'|d']| | |]; cbn [bind] in *; try discriminate; auto.
Qed.
Lemma run_prev_more g w rep : forall fuel m prev x, run_prev fuel g w rep m prev = Ok x -> forall k, run_prev (fuel + k) g w rep m prev = Ok x.
Proof.
  induction fuel as [|fu IH]; intros m prev x H k; cbn [run_prev] in H; [discriminate|]. cbn [run_prev Nat.add].
  destruct (tick g w rep m) as [[m'|n t|]| | |]; cbn [bind] in *; try discriminate; auto.
Qed.
Lemma run_run_prev g w rep : forall fuel m prev a, run fuel g w rep m = Ok a -> exists m' prev', run_prev fuel g w rep m prev = Ok (a, m', prev').
Proof.
  induction fuel as [|fu IH]; intros m prev a H; cbn [run] in H; [discriminate|]. cbn [run_prev].
  destruct (tick g w rep m) as [[m'|n t|]| | |]; cbn [bind] in *; try discriminate; try (injection H as <-; eauto). apply IH. exact H.
Qed.

Section Ends.
Variables (g : graph) (cap : nat -> Z) (w : nat) (rep : Z).
Hypotheses (WF : graph_wf g) (NI : no_init g) (EV : even_self_loops g) (GD : all_guarded g true).
Notation m0 := (new_machine g (Some cap)).
Notation free := (runs_to g 0 0).

(** The second execution does what the first one did: same counter, same time since the last visit. *)
Record in_step (first : Q) (m : machine) (r : retrace) (fm fr : machine) : Prop := mkInStep {
  st_m : core_eq m fm; st_r : core_eq (r_machine r) fr; st_fm : free m0 fm; st_fr : free m0 fr; st_alike : alike g fm fr;
  st_count : m_count m = m_count (r_machine r); st_time : (s_time (m_state m) == s_time (m_state (r_machine r)))%Q;
  st_first : r_first r = false \/ m_now m = first /\ exists i, m_pc m = PEnd i }.
Lemma follow_step first rc m r fm fr m' : in_step first m r fm fr -> tick g w rep m = Ok (Running m') ->
  exists x, dep_tick g w rep rc r = Ok x /\ forall r', x = Searching r' -> exists fm' fr', in_step first m' r' fm' fr'.
Proof.
  intros [Cm Cr Fm Fr Al Ec Et Ff] T. pose proof (free_count g cap fm Fm) as Nm. pose proof (free_count g cap fr Fr) as Nr.
  destruct (tick_core g w rep m fm m' Cm Nm T) as (fm' & Tm & Cm' & Nm').
  destruct (tick_alike g (Some cap) WF NI fm fr fm') as (fr' & Tr & Al' & _ & _ & _);
    [apply (inv_runs g (Some cap) 0 0 WF NI EV); assumption|apply (inv_runs g (Some cap) 0 0 WF NI EV); assumption|assumption|assumption|assumption|assumption|].
  assert (Q : forall i, (i < length (vertices g))%nat -> s_queue (m_state m) i = s_queue (m_state (r_machine r)) i).
  { intros i Hi. destruct Cm as (_ & _ & -> & _). destruct Cr as (_ & _ & -> & _). apply Al. assumption. }
  assert (P : m_pc m = m_pc (r_machine r)).
  { destruct Cm as (-> & _). destruct Cr as (-> & _). apply Al. }
  assert (G : exists x, dep_tick g w rep rc r = Ok x /\ forall r', x = Searching r' ->
     m_count m' = m_count (r_machine r') /\ (s_time (m_state m') == s_time (m_state (r_machine r')))%Q /\
     (r_first r' = false \/ m_now m' = first /\ exists i, m_pc m' = PEnd i)).
  { unfold dep_tick. unfold tick in T. rewrite <- P. destruct (m_pc m) as [i|i|] eqn:Epc.
    - destruct (nth_error (vertices g) i) as [v|] eqn:Ev.
      2:{ eexists. split; [reflexivity|]. intros r' [= <-]. injection T as <-. cbn. auto. }
      assert (Hi : (i < length (vertices g))%nat) by (apply nth_error_Some; congruence).
      unfold ready_to_end in *. rewrite (Q i Hi) in T. destruct (s_queue (m_state (r_machine r)) i) as [|[t p] q] eqn:Eq.
      { eexists. split; [reflexivity|]. intros r' [= <-]. injection T as <-. cbn. split; [assumption|]. split; [assumption|].
        destruct Ff as [F|[F _]]; eauto. }
      destruct (Qeq_bool t 0).
      2:{ eexists. split; [reflexivity|]. intros r' [= <-]. injection T as <-. cbn. split; [assumption|]. split; [assumption|].
        destruct Ff as [F|[F _]]; eauto. }
      rewrite Ec in T.
      set (full := ((i =? w)%nat && ((if (i =? w)%nat then m_count (r_machine r) + 1 else m_count (r_machine r)) =? rep))) in *.
      destruct (if full then from_repeated g (m_visited m) (m_state m) else []) eqn:Er; [|discriminate].
      destruct (full && negb (r_first r) && state_eq g (m_state (r_machine r)) rc).
      { eexists. split; [reflexivity|]. intros; discriminate. }
      unfold exec_end in *.
      assert (X1 : s_queue (if full then mkState (s_queue (m_state m)) (s_phase (m_state m)) (s_tokens (m_state m)) (s_space (m_state m)) 0 (s_bounded (m_state m)) else m_state m) i = (t, p) :: q)
        by (destruct full; cbn [s_queue]; rewrite (Q i Hi); exact Eq).
      rewrite X1 in T. cbn [bind fst snd] in T.
      assert (X2 : s_queue (if full then mkState (s_queue (m_state (r_machine r))) (s_phase (m_state (r_machine r))) (s_tokens (m_state (r_machine r))) (s_space (m_state (r_machine r))) 0 (s_bounded (m_state (r_machine r))) else m_state (r_machine r)) i = (t, p) :: q)
        by (destruct full; cbn [s_queue]; exact Eq).
      rewrite X2. cbn [bind fst snd]. eexists. split; [reflexivity|]. intros r' [= <-]. injection T as <-. cbn [m_count r_machine m_state m_now m_pc r_first].
      split; [destruct full; reflexivity|]. split; [destruct full; cbn; [reflexivity|assumption]|].
      destruct Ff as [F|[F _]]; eauto.
    - destruct (nth_error (vertices g) i) as [v|] eqn:Ev.
      2:{ eexists. split; [reflexivity|]. intros r' [= <-]. injection T as <-. cbn. destruct Ff as [F|[_ [j F]]]; [auto|congruence]. }
      assert (Rd : ready g i v (m_actors m i) (m_state m) = ready g i v (m_actors (r_machine r) i) (m_state (r_machine r))).
      { destruct Cm as (A1 & A2 & A3 & A4 & A5 & A6 & A7 & _). destruct Cr as (B1 & B2 & B3 & B4 & B5 & B6 & B7 & _).
        rewrite A2, B2. rewrite (ready_core g i v _ _ _ A5 A6 A7), (ready_core g i v _ _ _ B5 B6 B7).
        apply (ready_alike g (Some cap) WF NI); auto; apply (inv_runs g (Some cap) 0 0 WF NI EV); assumption. }
      rewrite Rd in T. destruct (ready g i v (m_actors (r_machine r) i) (m_state (r_machine r))) eqn:R.
      2:{ eexists. split; [reflexivity|]. intros r' [= <-]. injection T as <-. cbn. destruct Ff as [F|[_ [j F]]]; [auto|congruence]. }
      assert (D : exists x, exec_start g i v (m_actors (r_machine r) i) (m_state (r_machine r)) = Ok x).
      { destruct Cr as (B1 & B2 & B3 & B4 & B5 & B6 & B7 & _). unfold tick in Tr. rewrite <- B1, <- P, Ev in Tr.
        rewrite <- B2, <- (ready_core g i v _ _ _ B5 B6 B7), R in Tr. clear - Tr. unfold exec_start in *.
        destruct (vertex_duration v _); cbn [bind] in *; try discriminate. eauto. }
      destruct D as [[a1 s1] D]. rewrite D. cbn [bind fst snd]. destruct (exec_start_fields g i v _ _ _ _ D) as (d & Ed & -> & Eq' & Et' & _).
      destruct (exec_start g i v (m_actors m i) (m_state m)) as [[a2 s2]| | |] eqn:D2; cbn [bind fst snd] in T; try discriminate.
      destruct (exec_start_fields g i v _ _ _ _ D2) as (d2 & Ed2 & -> & Eq2 & Et2 & _).
      eexists. split; [reflexivity|]. intros r' [= <-]. injection T as <-. cbn. rewrite Et', Et2. destruct Ff as [F|[_ [j F]]]; [auto|congruence].
    - eexists. split; [reflexivity|]. intros r' [= <-]. cbn [r_machine m_count m_state r_first].
      assert (En : next_end g (m_state m) = next_end g (m_state (r_machine r))) by (apply next_end_ext; assumption).
      destruct (Qeq_bool (fst (advance_time g (m_state m))) long_max) eqn:Em; [discriminate|].
      match type of T with Ok (Running ?x) = _ => assert (m' = x) as -> by congruence end. clear T. cbn [m_count m_state].
      split; [assumption|]. split; [|destruct Ff as [F|[_ [j F]]]; [auto|congruence]].
      unfold advance_time in *. rewrite En in *. destruct (Qeq_bool (next_end g (m_state (r_machine r))) 0); [assumption|].
      destruct (Qeq_bool (next_end g (m_state (r_machine r))) long_max); cbn [snd s_time]; [assumption|]. rewrite !Qred_correct. lra. }
  destruct G as (x & D & H). exists x. split; [assumption|]. intros r' ->. destruct (H r' eq_refl) as (H1 & H2 & H3).
  destruct (dep_tick_core g w rep rc r fr fr' r' Cr Nr Tr D) as (Cr' & _).
  exists fm', fr'. constructor; auto; [exact (runs_step _ _ _ _ _ _ Fm Tm)|exact (runs_step _ _ _ _ _ _ Fr Tr)].
Qed.

Lemma follow_run first rc m b : runs_to g w rep m b -> forall r fm fr, in_step first m r fm fr ->
  (exists fuel d, dep_run fuel g w rep rc r = Ok d) \/
  exists k r' fm' fr', in_step first b r' fm' fr' /\ forall fuel d, dep_run fuel g w rep rc r' = Ok d -> dep_run (k + fuel) g w rep rc r = Ok d.
Proof.
  induction 1 as [|b b' R IH T]; intros r fm fr S; [right; exists 0%nat, r, fm, fr; auto|].
  destruct (IH r fm fr S) as [E|(k & r1 & fm1 & fr1 & S1 & H)]; [auto|].
  destruct (follow_step first rc b r1 fm1 fr1 b' S1 T) as (x & D & Hx). destruct x as [r2|d].
  - right. destruct (Hx r2 eq_refl) as (fm2 & fr2 & S2). exists (k + 1)%nat, r2, fm2, fr2. split; [assumption|].
    intros fuel d E. rewrite <- Nat.add_assoc. apply H. cbn [dep_run Nat.add]. rewrite D. cbn [bind]. exact E.
  - left. exists (k + 1)%nat, d. apply H. cbn [dep_run]. rewrite D. reflexivity.
Qed.
(** Back where the first execution gave its answer, the second one gives its own. *)
Lemma follow_found first b r fm fr n T : in_step first b r fm fr -> tick g w rep b = Ok (Periodic n T) -> m_now b <> first ->
  exists d, dep_run 1 g w rep (m_state b) r = Ok d.
Proof.
  intros [Cm Cr Fm Fr Al Ec Et Ff] Tk Nf. assert (F : r_first r = false) by tauto.
  assert (Q : forall i, (i < length (vertices g))%nat -> s_queue (m_state b) i = s_queue (m_state (r_machine r)) i).
  { intros i Hi. destruct Cm as (_ & _ & -> & _). destruct Cr as (_ & _ & -> & _). apply Al. assumption. }
  assert (P : m_pc b = m_pc (r_machine r)).
  { destruct Cm as (-> & _). destruct Cr as (-> & _). apply Al. }
  cbn [dep_run]. unfold dep_tick. unfold tick in Tk. rewrite <- P. destruct (m_pc b) as [i|i|].
  2:{ destruct (nth_error (vertices g) i); [|discriminate]. destruct (ready _ _ _ _ _); [|discriminate]. destruct (exec_start _ _ _ _ _); discriminate. }
  2:{ destruct (Qeq_bool _ _); discriminate. }
  destruct (nth_error (vertices g) i) as [v|] eqn:Ev; [|discriminate]. assert (Hi : (i < length (vertices g))%nat) by (apply nth_error_Some; congruence).
  assert (Rd : ready_to_end i (m_state b) = ready_to_end i (m_state (r_machine r))) by (unfold ready_to_end; rewrite (Q i Hi); reflexivity).
  rewrite Rd in Tk. destruct (ready_to_end i (m_state (r_machine r))); [|discriminate]. rewrite Ec in Tk.
  set (full := ((i =? w)%nat && ((if (i =? w)%nat then m_count (r_machine r) + 1 else m_count (r_machine r)) =? rep))) in *.
  destruct full; [|destruct (exec_end _ _ _ _ _); discriminate]. rewrite F.
  assert (SE : state_eq g (m_state (r_machine r)) (m_state b) = true).
  { unfold state_eq. rewrite !andb_true_iff, !forallb_forall. repeat split.
    - apply Qeq_bool_iff. symmetry. assumption.
    - intros j Hj. apply in_seq in Hj. destruct (nth_error (vertices g) j) as [vj|] eqn:Evj; [|apply nth_error_None in Evj; lia].
      apply Z.eqb_eq. destruct Cm as (_ & _ & _ & -> & _). destruct Cr as (_ & _ & _ & -> & _).
      rewrite (inv_phase _ _ _ (inv_runs g (Some cap) 0 0 WF NI EV fm Fm) j vj Evj), (inv_phase _ _ _ (inv_runs g (Some cap) 0 0 WF NI EV fr Fr) j vj Evj).
      destruct Al as (_ & _ & A & _). rewrite (A j vj Evj). reflexivity.
    - intros k Hk. apply in_seq in Hk. apply Z.eqb_eq. destruct Cm as (_ & _ & _ & _ & -> & _). destruct Cr as (_ & _ & _ & _ & -> & _). symmetry. apply Al. lia.
    - intros j Hj. apply in_seq in Hj. rewrite (Q j ltac:(lia)). generalize (s_queue (m_state (r_machine r)) j). clear.
      induction l as [|[t p] l IH]; [reflexivity|]. cbn [queue_eq]. rewrite IH, Z.eqb_refl. replace (Qeq_bool t t) with true; [reflexivity|].
      symmetry. apply Qeq_bool_iff. reflexivity. }
  rewrite SE. cbn [andb negb bind]. eauto.
Qed.
End Ends.

Lemma dep_run_scan g w rep rc d v m prev dd : nth_error (vertices g) w = Some v -> forall k fuel,
  (k <= w)%nat -> (forall j, (j < w)%nat -> ready_to_end j (m_state m) = false) ->
  dep_run fuel g w rep rc (mkRetrace (at_pc (PEnd w) m) prev dd true) = Ok d ->
  dep_run (k + fuel) g w rep rc (mkRetrace (at_pc (PEnd (w - k)) m) prev dd true) = Ok d.
Proof.
  intros Ev. induction k as [|k IH]; intros fuel Hk NR H.
  - rewrite Nat.sub_0_r. exact H.
  - cbn [dep_run Nat.add]. unfold dep_tick at 1. cbn [r_machine at_pc m_pc m_state].
    destruct (nth_error (vertices g) (w - S k)) as [v'|] eqn:E.
    2:{ apply nth_error_None in E. assert (w < length (vertices g))%nat by (apply nth_error_Some; congruence). lia. }
    rewrite (NR (w - S k)%nat ltac:(lia)). cbn [bind]. replace (S (w - S k)) with (w - k)%nat by lia.
    apply (IH fuel ltac:(lia) NR H).
Qed.

Lemma runs_split g w rep a b : runs_to g w rep a b -> b = a \/ exists a', tick g w rep a = Ok (Running a') /\ runs_to g w rep a' b.
Proof.
  induction 1 as [|b b' R IH T]; [auto|]. right. destruct IH as [->|(a' & Ta & R')]; [exists b'; split; [assumption|constructor]|].
  exists a'. split; [assumption|]. econstructor; eauto.
Qed.

Theorem cycles_end corrected fuel ticks g cap a : graph_wf g -> no_init g -> even_self_loops g -> all_guarded g true -> connected_graph g ->
  vertices g <> [] -> (length (vertices g) < fuel)%nat -> positive_durations g -> capacities_ok g (Some cap) ->
  component_throughput fuel ticks g (Some cap) = Ok a -> exists ticks' r, component_cycles corrected fuel ticks' g cap = Ok (a, r).
Proof.
  intros WF NI EV GD CG NE FU PD CO H. assert (FU' : (length (vertices g) <= fuel)%nat) by lia.
  assert (SD : forall d, task_deps g d -> exists r, storage_deps corrected fuel g d = Ok r).
  { intros d TD. destruct corrected; cbn [storage_deps].
    - destruct (storage_deps_scc_run g d TD fuel FU) as (r & S & _); [|eauto].
      intros c Hc. apply In_nth_error in Hc. destruct Hc as [k E]. destruct (edge_in_range g k c WF E). split; apply vid_in; assumption.
    - destruct (storage_deps_cycles_run g d TD fuel FU) as (r & S & _). eauto. }
  pose proof H as HT. unfold component_throughput in H. destruct (prepare fuel g (Some cap)) as [[[w rep] mi]| | |] eqn:P; cbn [bind fst snd] in H; try discriminate.
  assert (mi = new_machine g (Some cap)) as ->.
  { unfold prepare in P. destruct (compute_repetition_vector fuel g) as [[N|]| | |]; cbn [bind] in P; try discriminate.
    destruct (actors_ok g 0 (vertices g)); cbn [bind] in P; try discriminate. destruct (min_actor N) as [[w' rep']|]; [|discriminate]. congruence. }
  set (m0 := new_machine g (Some cap)) in *.
  destruct (run_run_prev g w rep ticks m0 (m_state m0) a H) as (b & prev & R).
  destruct (run_prev_run _ _ _ _ _ _ _ _ _ R) as (_ & Rb & Tb). destruct a as [mr|n T|].
  - exfalso. clear - H. revert H. generalize m0. induction ticks as [|t IH]; intros m; cbn [run]; [discriminate|].
    destruct (tick g w rep m) as [[m'|n T|]| | |]; cbn [bind]; try discriminate. apply IH.
  - destruct (component_exact g (Some cap) fuel ticks WF NI EV GD CG NE FU' n T CO PD HT) as (N & EN & _ & TP & _).
    assert (RP : 0 < rep).
    { unfold prepare in P. rewrite EN in P. cbn [bind] in P. destruct (actors_ok g 0 (vertices g)); cbn [bind] in P; try discriminate.
      destruct (min_actor N) as [[w' rep']|] eqn:Em; [|discriminate]. injection P as -> ->.
      pose proof (min_actor_at _ _ _ Em) as Ew. destruct (C18_balance g fuel N (graph_wf_rates g WF) NE FU' EN) as (LN & NP & _).
      assert (Lw : (w < length (vertices g))%nat) by (rewrite <- LN; apply nth_error_Some; congruence).
      rewrite <- (nth_error_nth _ _ 0 Ew). auto. }
    destruct (periodic_points g (Some cap) w rep WF NI EV GD RP b n T Rb Tb) as (a & Ra & Rab & Al & Tm & _ & Cn & Lw).
    destruct (nth_error (vertices g) w) as [v|] eqn:Ev; [|apply nth_error_None in Ev; lia].
    assert (Pb : m_pc b = PEnd w /\ ready_to_end w (m_state b) = true /\ m_count b + 1 = rep).
    { unfold tick in Tb. destruct (m_pc b) as [i|i|].
      2:{ destruct (nth_error (vertices g) i); [|discriminate]. destruct (ready _ _ _ _ _); [|discriminate]. destruct (exec_start _ _ _ _ _); discriminate. }
      2:{ destruct (Qeq_bool _ _); discriminate. }
      destruct (nth_error (vertices g) i) as [v'|]; [|discriminate]. destruct (ready_to_end i _) eqn:Re; [|discriminate].
      destruct (Nat.eqb_spec i w) as [->|]; [|cbn [andb] in Tb; destruct (exec_end _ _ _ _ _); discriminate]. split; [reflexivity|]. split; [assumption|].
      cbn [andb] in Tb. destruct (Z.eqb_spec (m_count b + 1) rep) as [E|]; [assumption|]. destruct (exec_end _ _ _ _ _); discriminate. }
    destruct Pb as (Pb & Qb & Kb).
    assert (Ka : m_count a + 1 = rep).
    { destruct (vis_runs g (Some cap) w rep RP a Ra) as [va [_ _ _ [Da Da'] _]].
      destruct (vis_runs g (Some cap) w rep RP b Rb) as [vb [_ _ _ [Db Db'] _]].
      assert (E : m_count b - m_count a = rep * (Z.of_nat n + Z.of_nat (length va) - Z.of_nat (length vb))) by lia.
      remember (Z.of_nat n + Z.of_nat (length va) - Z.of_nat (length vb)) as q. clear - E Da' Db' Kb.
      destruct (Z.eq_dec q 0) as [->|]; [lia|]. assert (q <= -1 \/ 1 <= q) as [L|L] by lia; nia. }
    assert (Nab : m_now b <> m_now a) by (intros E; rewrite E in Tm; lra).
    (* the step after the first visit *)
    destruct (runs_split g w rep a b Rab) as [->|(a' & Ta & Rab')]; [congruence|].
    destruct (runs_core g w rep m0 a ltac:(cbn; lia) Ra) as (fa & Fa & Ca & Na).
    destruct (runs_core g w rep m0 b ltac:(cbn; lia) Rb) as (fb & Fb & Cb & Nb).
    assert (Af : alike g fa fb).
    { destruct Ca as (A1 & A2 & A3 & A4 & A5 & A6 & A7 & A8 & A9). destruct Cb as (B1 & B2 & B3 & B4 & B5 & B6 & B7 & B8 & B9).
      unfold alike in *. rewrite <- A1, <- A2, <- A3, <- A5, <- A6, <- A9, <- B1, <- B2, <- B3, <- B5, <- B6, <- B9. exact Al. }
    set (b0 := mkMachine (PEnd 0) (m_actors b) (mkState (s_queue (m_state b)) (s_phase (m_state b)) (s_tokens (m_state b)) (s_space (m_state b)) 0 (s_bounded (m_state b))) (-1)
                         (m_visited b) (m_now b) (m_log b)).
    assert (ED : retrace_from b prev = mkRetrace (at_pc (PEnd (w - w)) b0) prev [] true) by (rewrite Nat.sub_diag; reflexivity).
    assert (Cr : core_eq (at_pc (PEnd w) b0) fb).
    { destruct Cb as (B1 & B2 & B3 & B4 & B5 & B6 & B7 & B8 & B9). rewrite Pb in B1. repeat split; cbn; assumption. }
    assert (NR : forall j, (j < w)%nat -> ready_to_end j (m_state b) = false).
    { intros j Hj. pose proof (t_pc g b (tinv_runs g (Some cap) w rep WF NI EV GD b Rb)) as X. unfold pc_inv in X. rewrite Pb in X.
      destruct (nth_error (vertices g) j) as [vj|] eqn:Ej; [|apply nth_error_None in Ej; lia]. apply (X j vj Hj Ej). }
    set (r0 := mkRetrace (at_pc (PEnd w) b0) prev [] true).
    destruct (tick_core g w rep a fa a' Ca Na Ta) as (fa' & Tfa & Ca' & Na').
    destruct (tick_alike g (Some cap) WF NI fa fb fa') as (fb' & Tfb & Af' & _);
      [apply (inv_runs g (Some cap) 0 0 WF NI EV); assumption|apply (inv_runs g (Some cap) 0 0 WF NI EV); assumption|assumption|assumption|assumption|assumption|].
    assert (First : exists r1, dep_tick g w rep (m_state b) r0 = Ok (Searching r1) /\ in_step g cap (m_now a) a' r1 fa' fb').
    { assert (Pa : m_pc a = PEnd w) by (destruct Al as (-> & _); assumption).
      assert (Qa : s_queue (m_state a) w = s_queue (m_state b) w) by (apply Al; assumption).
      assert (G : exists r1, dep_tick g w rep (m_state b) r0 = Ok (Searching r1) /\ m_count a' = m_count (r_machine r1) /\
        s_time (m_state a') = s_time (m_state (r_machine r1)) /\ m_now a' = m_now a /\ m_pc a' = PEnd w).
      { clear - Ta Pa Qa Qb Ka RP Ev. unfold tick in Ta. rewrite Pa, Ev in Ta. unfold ready_to_end in *. rewrite Qa in Ta.
        destruct (s_queue (m_state b) w) as [|[t p] q] eqn:Eq; [discriminate|]. rewrite Qb, Nat.eqb_refl, Ka, Z.eqb_refl in Ta. cbn [andb] in Ta.
        destruct (from_repeated g (m_visited a) (m_state a)); [|discriminate]. unfold exec_end in Ta. cbn [s_queue] in Ta. rewrite Qa in Ta. cbn [bind fst snd] in Ta.
        unfold r0, dep_tick, b0. cbn [r_machine at_pc m_pc m_state m_actors m_count m_visited m_now m_log s_queue r_first r_deps r_prev]. rewrite Ev. unfold ready_to_end. cbn [s_queue]. rewrite Eq, Qb, Nat.eqb_refl.
        cbn [m_count]. replace (-1 + 1 =? rep) with false by (symmetry; apply Z.eqb_neq; lia). cbn [andb].
        unfold exec_end. cbn [s_queue]. rewrite Eq. cbn [bind fst snd]. eexists. split; [reflexivity|]. injection Ta as <-. cbn. auto. }
      destruct G as (r1 & D & G1 & G2 & G3 & G4). exists r1. split; [assumption|].
      destruct (dep_tick_core g w rep (m_state b) r0 fb fb' r1 Cr Nb Tfb D) as (Cr1 & _).
      constructor; auto; [exact (runs_step _ _ _ _ _ _ Fa Tfa)|exact (runs_step _ _ _ _ _ _ Fb Tfb)|rewrite G2; reflexivity|eauto]. }
    destruct First as (r1 & D1 & St).
    assert (End : exists f d, dep_run f g w rep (m_state b) r1 = Ok d).
    { destruct (follow_run g cap w rep WF NI EV (m_now a) (m_state b) a' b Rab' r1 fa' fb' St) as [E|(k & r2 & fm & fr & S2 & E)]; [assumption|].
      destruct (follow_found g cap w rep WF NI EV (m_now a) b r2 fm fr n T S2 Tb Nab) as (d & E2). exists (k + 1)%nat, d. apply E. exact E2. }
    destruct End as (f & d & E). assert (E0 : dep_run (S f) g w rep (m_state b) r0 = Ok d) by (cbn [dep_run]; rewrite D1; exact E).
    pose proof (dep_run_scan g w rep (m_state b) d v b0 prev [] Ev w (S f) (le_n w) NR E0) as E1. rewrite <- ED in E1.
    assert (TD : task_deps g d).
    { destruct (dep_run_pit g w rep (m_state b) (S f) r0 d WF E0 fb (mkMachine PAdvance (m_actors a) prev 0 [] 0 [])) as (_ & _ & _ & _ & _ & _ & _ & _ & _ & _ & TD & _); auto.
      - intros j p' f' Ep. assert (L0 : (0 < length (vertices g))%nat) by lia.
        apply (never_stops g cap L0 (endless_all g (Some cap) fuel ticks WF NI EV GD CG NE FU' n T HT)). eapply runs_trans; [exact Fb|eapply pit_runs; eauto].
      - split; reflexivity.
      - apply TD. intros x y []. }
    destruct (SD _ TD) as [r S]. exists (ticks + (w + Datatypes.S f))%nat, r. unfold component_cycles. rewrite P. cbn [bind fst snd]. fold m0.
    rewrite (run_prev_more g w rep ticks _ _ _ R). cbn [bind fst snd].
    rewrite Nat.add_comm. rewrite (dep_run_more g w rep _ _ _ _ E1 ticks). cbn [bind]. rewrite S. reflexivity.
  - assert (TD : task_deps g (deadlock_deps g (m_actors b) (m_state b))).
    { intros x y Hxy. destruct (in_deadlock_deps g cap WF NI EV b x y (inv_runs g (Some cap) w rep WF NI EV b Rb) Hxy) as (i & j & Hi & Hj & <- & <- & _).
      split; apply vid_in; assumption. }
    destruct (SD _ TD) as [r S]. exists ticks, r. unfold component_cycles. rewrite P. cbn [bind fst snd]. fold m0. rewrite R. cbn [bind fst snd]. rewrite S. reflexivity.
Qed.
