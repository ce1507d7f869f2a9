(** Properties of the self-timed execution: C36-C39 and C65-C69. *)
From Coq Require Import QArith Qreduction Lqa Permutation.
From Verif Require Import Base Graph ScheduleSpec KPeriodic KPeriodicProps EventGraphSpec KIter KIterSpec KIterProps RepVec RepVecSpec RepVecProofs RepVecFinal RepVecProps
  Sim SimSpec SimProofs SimTime SimAsap SimRecur SimPeriod SimOptimal SimFinal SimTerm.
Open Scope Z_scope.

(** ** C36 *)
(** At every step of the simulation the tokens of channel [k] are the initial ones, plus what
    the executions that ended have produced, minus what the executions that started have
    consumed, and they are never negative.  Channels from a task to itself must be even. *)
Theorem C36_token_conservation_partial : forall g caps w rep m, graph_wf g -> no_init g -> even_self_loops g ->
  runs_to g w rep (new_machine g caps) m ->
  forall k c, nth_error (edges g) k = Some c ->
    s_tokens (m_state m) k =
      e_preload c + sumf (prod_rate c) (ended (m_log m) (e_src c)) - sumf (cons_rate c) (started (m_log m) (e_dst c)) /\
    0 <= s_tokens (m_state m) k.
Proof.
  intros g caps w rep m WF NI EV R k c Ek. pose proof (inv_runs g caps w rep WF NI EV m R) as I.
  split; [exact (inv_tokens g caps m I k c Ek)|exact (inv_tokens_pos g caps m I k c Ek)].
Qed.
Print Assumptions C36_token_conservation_partial.

(** A task with two phases and a channel to itself, produced [2; 0] and consumed [1; 1]: the
    simulation takes the production rates for the consumption rates. *)
Definition uneven (pre : Z) := mkGraph [mkVertex 1 2 0 [2; 1]%Q [] 1] [mkEdge 1 0 0 [2; 0] [1; 1] [] [] pre].
Lemma uneven_wf pre : 0 <= pre -> graph_wf (uneven pre) /\ no_init (uneven pre) /\ all_guarded (uneven pre) false /\ positive_durations (uneven pre) /\
  connected_graph (uneven pre) /\ short_durations (uneven pre).
Proof.
  intros Hp. split; [|split; [|split; [|split; [|split]]]].
  - split; [|split].
    + intros v [<-|[]]. (split; [cbn; lia|split; [reflexivity|split; [reflexivity|]]]); cbn; in_cases; unfold Qle; cbn; lia.
    + intros c [<-|[]]; eexists; eexists; (split; [reflexivity|split; [reflexivity|]]);
      repeat (split; [reflexivity|]); (split; [cbn; in_cases; lia|]); cbn; lia.
    + repeat constructor; cbn; intuition discriminate.
  - intros v [<-|[]]; reflexivity.
  - intros i Hi. left. exists (mkEdge 1 0 0 [2; 0] [1; 1] [] [] pre). split; [left; reflexivity|]. cbn in Hi |- *. lia.
  - intros v d [<-|[]]; cbn; in_cases; reflexivity.
  - intros i j Hi Hj. cbn in Hi, Hj. assert (i = 0%nat) as -> by lia. assert (j = 0%nat) as -> by lia. constructor.
  - intros v d [<-|[]]; cbn; in_cases; reflexivity.
Qed.

(** C36 fails on a channel from a task to itself that is not even: after one start one token
    should be left, the simulation has none. *)
Theorem C36_self_loop_refuted : exists g m k c, graph_wf g /\ no_init g /\ all_guarded g false /\ positive_durations g /\
  runs_to g 0 2 (new_machine g None) m /\ nth_error (edges g) k = Some c /\
  s_tokens (m_state m) k <> e_preload c + sumf (prod_rate c) (ended (m_log m) (e_src c)) - sumf (cons_rate c) (started (m_log m) (e_dst c)).
Proof.
  destruct (uneven_wf 2 ltac:(lia)) as (A & B & C & D & _).
  exists (uneven 2).
  assert (R : exists m, runs_to (uneven 2) 0 2 (new_machine (uneven 2) None) m /\ s_tokens (m_state m) 0%nat = 0 /\
              ended (m_log m) 0%nat = 0%nat /\ started (m_log m) 0%nat = 1%nat).
  { eexists. split.
    - eapply runs_step; [eapply runs_step; [eapply runs_step; [constructor|]|]|]; reflexivity.
    - repeat split. }
  destruct R as (m & R & T & E1 & E2).
  exists m, 0%nat, (mkEdge 1 0 0 [2; 0] [1; 1] [] [] 2). repeat (split; [assumption|]). split; [reflexivity|].
  rewrite T. cbn [e_src e_dst e_preload]. rewrite E1, E2. cbn. discriminate.
Qed.
Print Assumptions C36_self_loop_refuted.

(** [n] steps of the simulation. *)
Fixpoint ticks_from g w rep (n : nat) m := match n with
  | O => Some m
  | S n => match tick g w rep m with Ok (Running m') => ticks_from g w rep n m' | _ => None end
  end.
Lemma ticks_from_runs g w rep n : forall m m', ticks_from g w rep n m = Some m' -> runs_to g w rep m m'.
Proof.
  induction n as [|n IH]; intros m m' H; cbn in H; [injection H as <-; constructor|].
  destruct (tick g w rep m) as [[x| |]| | |] eqn:T; try discriminate. specialize (IH _ _ H).
  exact (runs_trans _ _ _ _ _ _ (runs_step _ _ _ _ _ _ (runs_refl _ _ _ _) T) IH).
Qed.

(** C36 also fails when tasks have initial phases, which the simulation leaves out. *)
Definition with_initial := mkGraph [mkVertex 1 1 1 [1]%Q [1]%Q 1; mkVertex 2 1 0 [1]%Q [] 1]
  [mkEdge 1 0 1 [1] [1] [5] [] 0; mkEdge 2 1 0 [1] [1] [] [1] 1].
Theorem C36_initial_phases_refuted : exists g m k c, graph_wf g /\ even_self_loops g /\ all_guarded g false /\ positive_durations g /\
  runs_to g 0 1 (new_machine g None) m /\ nth_error (edges g) k = Some c /\
  s_tokens (m_state m) k <> e_preload c + sumf (prod_rate c) (ended (m_log m) (e_src c)) - sumf (cons_rate c) (started (m_log m) (e_dst c)).
Proof.
  assert (R : exists m, runs_to with_initial 0 1 (new_machine with_initial None) m /\ s_tokens (m_state m) 0%nat = 1 /\
              ended (m_log m) 0%nat = 1%nat /\ started (m_log m) 1%nat = 0%nat).
  { assert (X : option_map (fun m => (s_tokens (m_state m) 0%nat, ended (m_log m) 0%nat, started (m_log m) 1%nat))
                  (ticks_from with_initial 0 1 9 (new_machine with_initial None)) = Some (1, 1%nat, 0%nat)) by (vm_compute; reflexivity).
    remember (ticks_from with_initial 0 1 9 (new_machine with_initial None)) as o eqn:E. symmetry in E. destruct o as [m|]; [|discriminate X].
    exists m. split; [exact (ticks_from_runs _ _ _ _ _ _ E)|]. cbn [option_map] in X. split; [congruence|]. split; congruence. }
  destruct R as (m & R & T & E1 & E2).
  exists with_initial, m, 0%nat, (mkEdge 1 0 1 [1] [1] [5] [] 0).
  split; [|split; [|split; [|split; [|split; [exact R|split; [reflexivity|]]]]]].
  - split; [|split].
    + intros v [<-|[<-|[]]]; (split; [cbn; lia|split; [reflexivity|split; [reflexivity|]]]); cbn; in_cases; unfold Qle; cbn; lia.
    + intros c [<-|[<-|[]]]; eexists; eexists; (split; [reflexivity|split; [reflexivity|]]);
      repeat (split; [reflexivity|]); (split; [cbn; in_cases; lia|]); cbn; lia.
    + repeat constructor; cbn; intuition discriminate.
  - intros c [<-|[<-|[]]]; discriminate.
  - intros [|[|i]] Hi; [left|left|cbn in Hi; lia].
    + exists (mkEdge 2 1 0 [1] [1] [] [1] 1). split; [right; left; reflexivity|reflexivity].
    + exists (mkEdge 1 0 1 [1] [1] [5] [] 0). split; [left; reflexivity|reflexivity].
  - intros v d [<-|[<-|[]]]; cbn; in_cases; reflexivity.
  - rewrite T. cbn [e_src e_dst e_preload]. rewrite E1, E2. cbn. discriminate.
Qed.
Print Assumptions C36_initial_phases_refuted.

(** ** C37 *)
(** With capacities, the free space of channel [k] is the capacity minus the initial tokens, minus
    what started executions of the producer have claimed, plus what ended executions of the
    consumer have released; tokens plus what the running executions hold plus free space make
    the capacity; when the capacities hold the initial tokens no space is ever negative, so
    the tokens never exceed the capacity. *)
Theorem C37_capacity_respected_partial : forall g cap w rep m, graph_wf g -> no_init g -> even_self_loops g ->
  capacities_ok g (Some cap) -> runs_to g w rep (new_machine g (Some cap)) m ->
  forall k c, nth_error (edges g) k = Some c ->
    s_space (m_state m) k = cap k - e_preload c - sumf (prod_rate c) (started (m_log m) (e_src c)) + sumf (cons_rate c) (ended (m_log m) (e_dst c)) /\
    0 <= s_space (m_state m) k /\
    0 <= sumf (prod_rate c) (started (m_log m) (e_src c)) - sumf (prod_rate c) (ended (m_log m) (e_src c)) /\
    0 <= sumf (cons_rate c) (started (m_log m) (e_dst c)) - sumf (cons_rate c) (ended (m_log m) (e_dst c)) /\
    s_tokens (m_state m) k + s_space (m_state m) k +
      (sumf (prod_rate c) (started (m_log m) (e_src c)) - sumf (prod_rate c) (ended (m_log m) (e_src c))) +
      (sumf (cons_rate c) (started (m_log m) (e_dst c)) - sumf (cons_rate c) (ended (m_log m) (e_dst c))) = cap k /\
    0 <= s_tokens (m_state m) k <= cap k.
Proof.
  intros g cap w rep m WF NI EV CO R k c Ek. pose proof (inv_runs g _ w rep WF NI EV m R) as I.
  pose proof (inv_tokens g _ m I k c Ek) as Tk. pose proof (inv_space g _ m I cap k c eq_refl Ek) as Sp.
  pose proof (inv_tokens_pos g _ m I k c Ek) as Tp. assert (Np := inv_space_pos g _ m I CO ltac:(discriminate) k c Ek).
  pose proof (nth_error_In _ _ Ek) as Hc. destruct (edge_ends g WF k c Ek) as [Hs Hd].
  assert (A : forall rate i, (i < length (vertices g))%nat -> (forall n, 0 <= rate n) -> sumf rate (ended (m_log m) i) <= sumf rate (started (m_log m) i)).
  { intros rate i Hi Hr. apply sumf_mono; [exact Hr|]. destruct (nth_error (vertices g) i) as [v|] eqn:Ev; [|apply nth_error_None in Ev; lia].
    apply (inv_order g _ m I i v Ev). }
  pose proof (A (prod_rate c) _ Hs (fun n => prod_nonneg g c n WF Hc)). pose proof (A (cons_rate c) _ Hd (fun n => cons_nonneg g c n WF Hc)). lia.
Qed.
Print Assumptions C37_capacity_respected_partial.

(** A capacity below the initial tokens is accepted: the space starts negative. *)
Theorem C37_small_capacity_refuted : exists g cap k c, graph_wf g /\ no_init g /\ even_self_loops g /\ nth_error (edges g) k = Some c /\
  0 <= cap k < e_preload c /\ s_space (m_state (new_machine g (Some cap))) k < 0 /\ cap k < s_tokens (m_state (new_machine g (Some cap))) k.
Proof.
  exists ex_graph, (fun _ => 3), 1%nat, (mkEdge 2 1 0 [2] [1; 2] [] [] 4). split; [exact ex_wf|]. split; [exact ex_no_init|].
  split; [intros c [<-|[<-|[]]]; discriminate|]. cbn. repeat split; lia.
Qed.
Print Assumptions C37_small_capacity_refuted.

(** ** C38 *)
(** When the simulation advances time: the step is not negative; if it reports no deadlock, time
    moves by the step, every running execution keeps a remaining time that is reduced by the
    step and not negative, and one of them is over; a deadlock is reported exactly when nothing
    is running. *)
Theorem C38_time_advance_partial : forall g caps w rep m, graph_wf g -> no_init g -> even_self_loops g ->
  all_guarded g (match caps with Some _ => true | None => false end) -> short_durations g ->
  runs_to g w rep (new_machine g caps) m -> m_pc m = PAdvance ->
  let s := m_state m in let step := fst (advance_time g s) in let s' := snd (advance_time g s) in
  (0 <= step)%Q /\
  (tick g w rep m = Ok Deadlock <-> forall i, (i < length (vertices g))%nat -> s_queue s i = []) /\
  (tick g w rep m <> Ok Deadlock ->
     (s_time s' == s_time s + step)%Q /\
     (forall i, (i < length (vertices g))%nat ->
        Forall2 (fun x x' => snd x' = snd x /\ (fst x' == fst x - step)%Q /\ (0 <= fst x')%Q) (s_queue s i) (s_queue s' i)) /\
     exists i t p q, (i < length (vertices g))%nat /\ s_queue s' i = (t, p) :: q /\ (t == 0)%Q).
Proof.
  intros g caps w rep m WF NI EV GD SD R Pc s step s'. pose proof (tinv_runs g caps w rep WF NI EV GD m R) as Ht.
  pose proof (next_end_spec g s) as (N1 & N2 & N3).
  assert (Fst : step = next_end g s).
  { subst step. unfold advance_time. destruct (Qeq_bool (next_end g s) 0); [reflexivity|]. destruct (Qeq_bool (next_end g s) long_max); reflexivity. }
  assert (QR : forall i, (i < length (vertices g))%nat -> s_queue s i = [] \/ exists r p, s_queue s i = [(r, p)] /\ (0 <= r)%Q /\ (r < long_max)%Q).
  { intros i Hi. destruct (nth_error (vertices g) i) as [v|] eqn:Ev; [|apply nth_error_None in Ev; lia]. pose proof (nth_error_In _ _ Ev) as Hv.
    pose proof (t_task g m Ht i v Ev) as TI.
    destruct (ti_queue _ _ _ _ _ _ TI) as [(_ & Qe & _)|(_ & r & p & Qe & R0 & _ & L & D & _)]; [left; exact Qe|right].
    exists r, p. split; [exact Qe|]. split; [exact R0|].
    assert (St : (nth (length (ends (m_log m) i)) (starts (m_log m) i) 0 <= m_now m)%Q) by (apply (ti_past _ _ _ _ _ _ TI), nth_In; lia).
    assert (Du : (exec_duration v (length (ends (m_log m) i)) < long_max)%Q).
    { apply (SD v _ Hv). unfold exec_duration, cyclic. destruct WF as (A & _). destruct (A v Hv) as (P & Ld & Li & _). rewrite Li, (NI v Hv).
      change (_ <? 0)%nat with false. cbv iota. apply nth_In. rewrite Ld. apply Nat.mod_upper_bound. lia. }
    lra. }
  assert (S0 : (0 <= step)%Q).
  { rewrite Fst. destruct N3 as [->|(i & Hi & Fi)]; [cbv; discriminate|]. destruct (QR i Hi) as [Q|(r & p & Q & R0 & _)]; unfold front in Fi; rewrite Q in Fi; [discriminate|].
    injection Fi as Fi. rewrite <- Fi. exact R0. }
  assert (Tk : tick g w rep m = if Qeq_bool step long_max then Ok Deadlock else
     Ok (Running (mkMachine (PEnd 0) (m_actors m) s' (m_count m) (m_visited m) (Qred (m_now m + step)) (m_log m)))).
  { unfold tick. rewrite Pc. reflexivity. }
  assert (DL : Qeq_bool step long_max = true <-> forall i, (i < length (vertices g))%nat -> s_queue s i = []).
  { rewrite Fst. split.
    - intros E i Hi. apply Qeq_bool_eq in E. destruct (QR i Hi) as [Q|(r & p & Q & _ & R1)]; [exact Q|exfalso].
      assert (next_end g s <= r)%Q by (apply (N2 i r Hi); unfold front; now rewrite Q). lra.
    - intros H. destruct N3 as [->|(i & Hi & Fi)]; [reflexivity|]. unfold front in Fi. rewrite (H i Hi) in Fi. discriminate. }
  split; [exact S0|]. split.
  - rewrite Tk, <- DL. destruct (Qeq_bool step long_max); split; congruence.
  - rewrite Tk. destruct (Qeq_bool step long_max) eqn:E; [congruence|]. intros _. clear DL.
    assert (Adv : (s_time s' == s_time s + step)%Q /\ forall i, s_queue s' i = if Qeq_bool step 0 then s_queue s i else map (fun x => (Qred (fst x - step), snd x)) (s_queue s i)).
    { subst s'. unfold advance_time. rewrite <- Fst. destruct (Qeq_bool step 0) eqn:Z0.
      - apply Qeq_bool_eq in Z0. cbn [snd]. split; [lra|reflexivity].
      - rewrite E. cbn [snd s_time s_queue]. split; [apply Qred_correct|reflexivity]. }
    destruct Adv as [Ad1 Ad2]. split; [exact Ad1|]. split.
    + intros i Hi. rewrite Ad2. destruct (QR i Hi) as [Q|(r & p & Q & R0 & _)]; rewrite Q; [destruct (Qeq_bool step 0); constructor|].
      assert (Le : (step <= r)%Q) by (rewrite Fst; apply (N2 i r Hi); unfold front; now rewrite Q).
      destruct (Qeq_bool step 0) eqn:Z0.
      * apply Qeq_bool_eq in Z0. repeat constructor; cbn; lra.
      * repeat constructor; cbn [fst snd map]; rewrite Qred_correct; lra.
    + destruct N3 as [Em|(i & Hi & Fi)]; [rewrite <- Fst in Em; rewrite Em in E; discriminate|].
      destruct (QR i Hi) as [Q|(r & p & Q & R0 & _)]; unfold front in Fi; rewrite Q in Fi; [discriminate|]. injection Fi as Fi.
      exists i. rewrite Ad2, Q. destruct (Qeq_bool step 0) eqn:Z0.
      * exists r, p, []. split; [exact Hi|]. split; [reflexivity|]. apply Qeq_bool_eq in Z0. rewrite Fi, <- Fst. exact Z0.
      * eexists _, _, _. split; [exact Hi|]. split; [reflexivity|]. cbn [fst]. rewrite Qred_correct, Fi, <- Fst. ring.
Qed.
Print Assumptions C38_time_advance_partial.

(** An execution of LONG_MAX time units is taken for the absence of any execution. *)
Definition endless_task := mkGraph [mkVertex 1 1 0 [long_max] [] 1] [mkEdge 1 0 0 [1] [1] [] [] 1].
Lemma endless_task_valid : schedule_valid endless_task (fun _ k => (inject_Z (Z.of_nat k) * long_max)%Q).
Proof.
  split.
  - intros c [<-|[]]. intros t nc. exists nc. cbn [e_preload e_src e_dst].
    set (pe := end_of _ _ _). set (cs := start_of _ _).
    assert (R : forall n, prod_rate (mkEdge 1 0 0 [1] [1] [] [] 1) n = 1 /\ cons_rate (mkEdge 1 0 0 [1] [1] [] [] 1) n = 1).
    { intros n. unfold prod_rate, cons_rate, cyclic. cbn [e_in e_out e_in_init e_out_init length]. change (n <? 0)%nat with false. cbv iota. rewrite Nat.mod_1_r. auto. }
    assert (X : forall n, (pe n == cs (S n))%Q).
    { intros n. unfold pe, cs, end_of, start_of. cbn [endless_task vertices nth_error]. unfold exec_duration, cyclic. cbn [v_init_durations v_durations length].
      change (n <? 0)%nat with false. cbv iota. rewrite Nat.mod_1_r. cbn [nth]. rewrite Nat2Z.inj_succ. unfold Z.succ. rewrite inject_Z_plus. ring. }
    transitivity (1 + moved_by pe (prod_rate (mkEdge 1 0 0 [1] [1] [] [] 1)) (nc - 1) t).
    + clearbody pe cs. unfold moved_by. induction nc as [|n IH]; [cbn; lia|]. cbn [sumf]. destruct n as [|n]; [cbn; destruct (Qle_bool _ _); rewrite ?(proj2 (R 0%nat)); lia|].
      replace (S (S n) - 1)%nat with (S n) by lia. replace (S n - 1)%nat with n in IH by lia. cbn [sumf]. rewrite (proj1 (R n)), (proj2 (R (S n))) in *.
      assert (E : Qle_bool (cs (S n)) t = Qle_bool (pe n) t).
      { specialize (X n). destruct (Qle_bool (cs (S n)) t) eqn:A, (Qle_bool (pe n) t) eqn:B; try reflexivity; exfalso;
        [apply Qle_bool_iff in A; assert (Y : (pe n <= t)%Q) by lra|apply Qle_bool_iff in B; assert (Y : (cs (S n) <= t)%Q) by lra]; apply Qle_bool_iff in Y; congruence. }
      cbn [sumf] in IH. rewrite E. destruct (Qle_bool (pe n) t); lia.
    + apply Zplus_le_compat_l, sumf_mono; [|lia]. intros n. rewrite (proj1 (R n)). destruct (Qle_bool _ _); lia.
  - intros [|i] v E; [|destruct i; discriminate]. injection E as <-. intros k. unfold start_of, exec_duration, cyclic. cbn [v_init_durations v_durations length].
    change (k <? 0)%nat with false. cbv iota. rewrite Nat.mod_1_r. cbn [nth]. rewrite Nat2Z.inj_succ. unfold Z.succ. rewrite inject_Z_plus.
    change (inject_Z 1) with 1%Q. lra.
Qed.
Theorem C38_long_duration_refuted : exists g, graph_wf g /\ no_init g /\ even_self_loops g /\ all_guarded g false /\ positive_durations g /\
  component_throughput 1 100 g None = Ok Deadlock /\ exists s, schedule_valid g s.
Proof.
  exists endless_task. split; [|split; [|split; [|split; [|split; [|split]]]]].
  - split; [|split].
    + intros v [<-|[]]; (split; [cbn; lia|split; [reflexivity|split; [reflexivity|]]]); cbn; in_cases; unfold Qle; cbn; lia.
    + intros c [<-|[]]; eexists; eexists; (split; [reflexivity|split; [reflexivity|]]);
      repeat (split; [reflexivity|]); (split; [cbn; in_cases; lia|]); cbn; lia.
    + repeat constructor; cbn; intuition discriminate.
  - intros v [<-|[]]; reflexivity.
  - intros c [<-|[]]; reflexivity.
  - intros i Hi. left. exists (mkEdge 1 0 0 [1] [1] [] [] 1). split; [left; reflexivity|]. cbn in Hi |- *. lia.
  - intros v d [<-|[]]; cbn; in_cases; reflexivity.
  - vm_compute. reflexivity.
  - eexists. exact endless_task_valid.
Qed.
Print Assumptions C38_long_duration_refuted.

(** ** C39 *)
(** When the analysis answers n iterations in time T, the simulation, left to run for ever, is
    periodic: from some execution on, execution k + n*N(i) of each task i starts exactly T after
    execution k, where N is the repetition vector. *)
Theorem C39_recurrence_is_periodic_partial : forall g caps fuel ticks n T, graph_wf g -> no_init g -> even_self_loops g ->
  all_guarded g (match caps with Some _ => true | None => false end) -> connected_graph g ->
  vertices g <> [] -> (length (vertices g) <= fuel)%nat ->
  component_throughput fuel ticks g caps = Ok (Periodic n T) ->
  exists N, compute_repetition_vector fuel g = Ok (Some N) /\ (0 < n)%nat /\
    exists K0, forall i k, (i < length (vertices g))%nat -> (K0 <= k)%nat ->
      exists t t', fires_at g caps i k t /\ fires_at g caps i (k + n * Z.to_nat (nth i N 0%Z))%nat t' /\ (t' == t + T)%Q.
Proof. intros. eapply component_periodic; eauto. Qed.
Print Assumptions C39_recurrence_is_periodic_partial.

(** [fires_at] is a function of the execution. *)
Theorem C39_start_is_unique : forall g caps i k t t', fires_at g caps i k t -> fires_at g caps i k t' -> t = t'.
Proof. exact fires_fun. Qed.
Print Assumptions C39_start_is_unique.

(** ** C65 *)
(** No execution can start earlier: in every schedule that respects the channels, the
    capacities and the order of the executions, and that starts nothing before time 0,
    execution k of task i starts no earlier than in the simulation. *)
Theorem C65_earliest : forall g caps w rep m s, graph_wf g -> no_init g -> even_self_loops g ->
  all_guarded g (match caps with Some _ => true | None => false end) -> positive_durations g ->
  runs_to g w rep (new_machine g caps) m ->
  bounded_valid g caps s -> (forall i k, (i < length (vertices g))%nat -> (0 <= s i k)%Q) ->
  forall i k t, (i < length (vertices g))%nat -> nth_error (starts (m_log m) i) k = Some t -> (t <= s i k)%Q.
Proof.
  intros g caps w rep m s WF NI EV GD PD R SV NN i k t Hi E. destruct (asap_runs g caps w rep WF NI EV GD PD s SV NN m R) as [_ H].
  assert (L : (k < started (m_log m) i)%nat) by (rewrite <- starts_length; apply nth_error_Some; congruence).
  specialize (H i k Hi L). rewrite (nth_error_nth _ _ 0%Q E) in H. exact H.
Qed.
Print Assumptions C65_earliest.

(** ** C66 *)
(** A reported deadlock is real: no schedule at all respects the channels and capacities. *)
Theorem C66_deadlock_is_real_partial : forall g caps fuel ticks, graph_wf g -> no_init g -> even_self_loops g ->
  all_guarded g (match caps with Some _ => true | None => false end) -> positive_durations g -> short_durations g ->
  vertices g <> [] -> (length (vertices g) <= fuel)%nat ->
  component_throughput fuel ticks g caps = Ok Deadlock -> forall s, ~ bounded_valid g caps s.
Proof. intros. eapply component_deadlock; eauto. Qed.
Print Assumptions C66_deadlock_is_real_partial.

(** Not so with an uneven channel from a task to itself. *)
Definition uneven_schedule : schedule := fun _ k => (inject_Z (Z.of_nat (k / 2)) * 3 + (if (k mod 2 =? 0)%nat then 0 else 2))%Q.
Lemma uneven_end k : (end_of uneven_schedule (uneven 1) 0 k == uneven_schedule 0%nat (S k))%Q.
Proof.
  unfold end_of, uneven_schedule. cbn [uneven vertices nth_error]. unfold exec_duration, cyclic. cbn [v_init_durations v_durations length].
  change (k <? 0)%nat with false. cbv iota. rewrite Nat.sub_0_r.
  pose proof (Nat.div_mod k 2 ltac:(lia)). pose proof (Nat.mod_upper_bound k 2 ltac:(lia)).
  destruct (k mod 2)%nat as [|[|]] eqn:E; [| |lia]; cbn [nth].
  - assert (E2 : (S k mod 2 = 1)%nat) by (replace (S k) with (1 + (k / 2) * 2)%nat by lia; now rewrite Nat.mod_add by lia).
    assert (E3 : (S k / 2 = k / 2)%nat) by (replace (S k) with (1 + (k / 2) * 2)%nat at 1 by lia; rewrite Nat.div_add by lia; reflexivity).
    rewrite E2, E3. cbn [Nat.eqb]. ring.
  - assert (E2 : (S k mod 2 = 0)%nat) by (replace (S k) with (0 + (k / 2 + 1) * 2)%nat by lia; now rewrite Nat.mod_add by lia).
    assert (E3 : (S k / 2 = k / 2 + 1)%nat) by (replace (S k) with (0 + (k / 2 + 1) * 2)%nat at 1 by lia; rewrite Nat.div_add by lia; reflexivity).
    rewrite E2, E3. cbn [Nat.eqb]. rewrite Nat2Z.inj_add, inject_Z_plus. change (inject_Z (Z.of_nat 1)) with 1%Q. ring.
Qed.
Lemma uneven_dur k : (1 <= exec_duration (mkVertex 1 2 0 [2; 1]%Q [] 1) k)%Q.
Proof.
  unfold exec_duration, cyclic. cbn [v_init_durations v_durations length]. change (k <? 0)%nat with false. cbv iota. rewrite Nat.sub_0_r.
  pose proof (Nat.mod_upper_bound k 2 ltac:(lia)). destruct (k mod 2)%nat as [|[|]]; cbn [nth]; lra || lia.
Qed.
Lemma uneven_valid : schedule_valid (uneven 1) uneven_schedule.
Proof.
  assert (Mono : forall k l, (k <= l)%nat -> (uneven_schedule 0%nat k <= uneven_schedule 0%nat l)%Q).
  { induction 1 as [|l L IH]; [lra|]. pose proof (uneven_end l) as E. unfold end_of in E. cbn [uneven vertices nth_error] in E. pose proof (uneven_dur l). lra. }
  split.
  - intros c [<-|[]]. intros t nc. exists (nc - 1)%nat. cbn [e_preload e_src e_dst].
    set (c := mkEdge 1 0 0 [2; 0] [1; 1] [] [] 1). set (pe := end_of uneven_schedule (uneven 1) 0).
    assert (Rc : forall n, cons_rate c n = 1).
    { intros n. unfold cons_rate, cyclic. cbn [c e_out e_out_init length]. change (n <? 0)%nat with false. cbv iota. rewrite Nat.sub_0_r.
      pose proof (Nat.mod_upper_bound n 2 ltac:(lia)). destruct (n mod 2)%nat as [|[|]]; cbn; lia. }
    assert (Rp : forall n, 0 <= prod_rate c n).
    { intros n. unfold prod_rate, cyclic. cbn [c e_in e_in_init length]. change (n <? 0)%nat with false. cbv iota. rewrite Nat.sub_0_r.
      pose proof (Nat.mod_upper_bound n 2 ltac:(lia)). destruct (n mod 2)%nat as [|[|]]; cbn; lia. }
    assert (Sp : forall n, sumf (prod_rate c) n = Z.of_nat n + Z.of_nat (n mod 2)).
    { induction n as [|n IH]; [reflexivity|]. cbn [sumf]. rewrite IH. unfold prod_rate, cyclic. cbn [c e_in e_in_init length]. change (n <? 0)%nat with false. cbv iota. rewrite Nat.sub_0_r.
      pose proof (Nat.mod_upper_bound n 2 ltac:(lia)). pose proof (Nat.div_mod n 2 ltac:(lia)). pose proof (Nat.div_mod (S n) 2 ltac:(lia)). pose proof (Nat.mod_upper_bound (S n) 2 ltac:(lia)).
      destruct (n mod 2)%nat as [|[|]] eqn:E; cbn [nth]; [| |lia]; assert ((S n mod 2 = 1 - n mod 2)%nat) by lia; lia. }
    induction nc as [|n IH]; [cbn; lia|]. unfold moved_by. cbn [sumf]. fold (moved_by (start_of uneven_schedule 0) (cons_rate c) n t).
    destruct (Qle_bool (start_of uneven_schedule 0 n) t) eqn:E.
    + apply Qle_bool_iff in E. replace (S n - 1)%nat with n by lia.
      assert (A : sumf (fun m => if Qle_bool (pe m) t then prod_rate c m else 0) n = sumf (prod_rate c) n).
      { apply sumf_ext. intros k Hk. rewrite (proj2 (Qle_bool_iff _ _)); [reflexivity|]. unfold pe. rewrite uneven_end.
        specialize (Mono (S k) n ltac:(lia)). unfold start_of in E. lra. }
      rewrite A, Sp. assert (B : moved_by (start_of uneven_schedule 0) (cons_rate c) n t <= Z.of_nat n).
      { clear -Rc. unfold moved_by. induction n as [|n IH]; [cbn; lia|]. cbn [sumf]. destruct (Qle_bool _ _); rewrite ?Rc; lia. }
      rewrite Rc. lia.
    + assert (A : moved_by pe (prod_rate c) (n - 1) t <= moved_by pe (prod_rate c) (S n - 1) t).
      { unfold moved_by. apply sumf_mono; [|lia]. intros k. destruct (Qle_bool (pe k) t); [apply Rp|lia]. }
      unfold moved_by in *. lia.
  - intros [|i] v E; [|destruct i; discriminate]. injection E as <-. intros k. pose proof (uneven_end k) as E. unfold end_of in E. cbn [uneven vertices nth_error] in E.
    unfold start_of. lra.
Qed.
Theorem C66_self_loop_refuted : exists g, graph_wf g /\ no_init g /\ all_guarded g false /\ positive_durations g /\ short_durations g /\ connected_graph g /\
  component_throughput 1 100 g None = Ok Deadlock /\ exists s, schedule_valid g s.
Proof.
  exists (uneven 1). destruct (uneven_wf 1 ltac:(lia)) as (A & B & C & D & E & F).
  split; [exact A|]. split; [exact B|]. split; [exact C|]. split; [exact D|]. split; [exact F|]. split; [exact E|].
  split; [vm_compute; reflexivity|]. eexists. exact uneven_valid.
Qed.
Print Assumptions C66_self_loop_refuted.

(** ** C67 *)
(** The reported throughput n/T is the maximum: the simulation is itself a valid schedule that
    takes T/n per iteration on average, and every valid schedule that takes omega per iteration
    on average has T/n <= omega. *)
Theorem C67_throughput_is_maximal_partial : forall g caps fuel ticks n T, graph_wf g -> no_init g -> even_self_loops g ->
  all_guarded g (match caps with Some _ => true | None => false end) -> connected_graph g ->
  vertices g <> [] -> (length (vertices g) <= fuel)%nat -> capacities_ok g caps -> positive_durations g ->
  component_throughput fuel ticks g caps = Ok (Periodic n T) ->
  exists N, compute_repetition_vector fuel g = Ok (Some N) /\ (0 < n)%nat /\ (0 < T)%Q /\
    (exists s, bounded_valid g caps s /\ non_zeno g s /\ keeps_pace g (as_vector N) s (T / inject_Z (Z.of_nat n)) /\
       forall i k, (i < length (vertices g))%nat -> fires_at g caps i k (s i k)) /\
    (forall s omega, bounded_valid g caps s -> keeps_pace g (as_vector N) s omega -> (T / inject_Z (Z.of_nat n) <= omega)%Q).
Proof. intros. eapply component_exact; eauto. Qed.
Print Assumptions C67_throughput_is_maximal_partial.

(** ** C68 *)
(** The simulation and K-Iter give the same throughput, and a deadlock reported by the
    simulation is a throughput of zero or less for K-Iter. *)
Theorem C68_agrees_with_kiter : forall solve arrange var g Nl fuel r K cs ticks n T, (forall l, Permutation (arrange l) l) ->
  graph_wf g -> vertices g <> [] -> no_init g -> no_overlap g -> edge_ids_ok g -> even_self_loops g -> all_guarded g false ->
  connected_graph g -> positive_durations g ->
  compute_repetition_vector (length (vertices g)) g = Ok (Some Nl) ->
  (S (Z.to_nat (sumf (cycles g (as_vector Nl)) (length (vertices g)))) <= fuel)%nat ->
  kiter solve arrange fuel var g (as_vector Nl) = Ok (r, K, cs) -> exact_answer cs (solve cs) ->
  component_throughput (length (vertices g)) ticks g None = Ok (Periodic n T) ->
  (kr_throughput r == inject_Z (Z.of_nat n) / T)%Q.
Proof.
  intros solve arrange var g Nl fuel r K cs ticks n T Ha WF NE NI NO ID EV GD CG PD EN Hf Hk He H.
  destruct (component_exact g None (length (vertices g)) ticks WF NI EV GD CG NE (le_n _) n T) as (N & EN' & Hn & TP & (s & SV & NZ & KP & _) & Opt); auto.
  { intros cap X. discriminate. }
  rewrite EN in EN'. injection EN' as <-.
  destruct (C55_kiter_end_to_end solve arrange var g Nl fuel r K cs Ha WF NE (guarded_lonely g None GD) NI NO ID EN Hf Hk He) as [P Z0].
  assert (nq : (0 < inject_Z (Z.of_nat n))%Q) by (change 0%Q with (inject_Z 0); rewrite <- Zlt_Qlt; lia).
  destruct (Qlt_le_dec 0 (kr_throughput r)) as [Q|Q].
  - destruct (P Q) as [(s' & _ & SV' & KP') Low]. specialize (Low s _ (proj1 SV) NZ KP).
    assert (Up : (T / inject_Z (Z.of_nat n) <= / kr_throughput r)%Q).
    { apply (Opt s'); [|exact KP']. split; [exact SV'|]. discriminate. }
    assert (E : (T / inject_Z (Z.of_nat n) == / kr_throughput r)%Q) by (apply Qle_antisym; assumption).
    assert (E2 : (kr_throughput r * T == inject_Z (Z.of_nat n))%Q).
    { assert (X : (T == / kr_throughput r * inject_Z (Z.of_nat n))%Q) by (rewrite <- E; field; lra). rewrite X. field. lra. }
    rewrite <- E2. field. lra.
  - exfalso. exact (Z0 Q s _ (proj1 SV) NZ KP).
Qed.
Print Assumptions C68_agrees_with_kiter.

Theorem C68_deadlock_agrees_with_kiter : forall solve arrange var g Nl fuel r K cs ticks, (forall l, Permutation (arrange l) l) ->
  graph_wf g -> vertices g <> [] -> no_init g -> no_overlap g -> edge_ids_ok g -> even_self_loops g -> all_guarded g false ->
  positive_durations g -> short_durations g ->
  compute_repetition_vector (length (vertices g)) g = Ok (Some Nl) ->
  (S (Z.to_nat (sumf (cycles g (as_vector Nl)) (length (vertices g)))) <= fuel)%nat ->
  kiter solve arrange fuel var g (as_vector Nl) = Ok (r, K, cs) -> exact_answer cs (solve cs) ->
  component_throughput (length (vertices g)) ticks g None = Ok Deadlock ->
  (kr_throughput r <= 0)%Q.
Proof.
  intros solve arrange var g Nl fuel r K cs ticks Ha WF NE NI NO ID EV GD PD SD EN Hf Hk He H.
  destruct (C55_kiter_end_to_end solve arrange var g Nl fuel r K cs Ha WF NE (guarded_lonely g None GD) NI NO ID EN Hf Hk He) as [P _].
  destruct (Qlt_le_dec 0 (kr_throughput r)) as [Q|Q]; [exfalso|exact Q].
  destruct (P Q) as [(s' & _ & SV' & _) _].
  refine (component_deadlock g None _ ticks WF NI EV GD NE (le_n _) PD SD H s' _). split; [exact SV'|]. discriminate.
Qed.
Print Assumptions C68_deadlock_agrees_with_kiter.

(** ** C69 *)
(** The simulation ends: on a strongly connected graph, or a connected graph with capacities that
    hold the initial tokens, whose repetition vector has a component below INT_MAX, some number
    of steps is enough for a deadlock or a throughput to be reported. *)
Theorem C69_simulation_ends_partial : forall g caps fuel N, graph_wf g -> no_init g -> even_self_loops g ->
  all_guarded g (match caps with Some _ => true | None => false end) -> vertices g <> [] -> (length (vertices g) <= fuel)%nat ->
  compute_repetition_vector fuel g = Ok (Some N) -> (exists i, (i < length (vertices g))%nat /\ nth i N 0 < int_max) ->
  strongly_connected g \/ (caps <> None /\ capacities_ok g caps /\ connected_graph g) ->
  exists ticks, component_throughput fuel ticks g caps = Ok Deadlock \/ exists n T, component_throughput fuel ticks g caps = Ok (Periodic n T).
Proof.
  intros g caps fuel N WF NI EV GD NE FU EN Sm Cn. destruct (component_ends g caps fuel N WF NI EV GD NE FU EN Sm Cn) as (ticks & a & E).
  exists ticks. destruct (component_inv _ _ _ _ _ E) as (N' & w & rep & _ & _ & R). destruct (run_stops _ _ _ _ _ _ R) as (_ & _ & _ & X).
  destruct a as [m|n T|]; [destruct (X m eq_refl)|right; eauto|left; exact E].
Qed.
Print Assumptions C69_simulation_ends_partial.

(** So the simulation decides whether the graph can run for ever. *)
Theorem C69_decides_liveness_partial : forall g caps fuel N, graph_wf g -> no_init g -> even_self_loops g ->
  all_guarded g (match caps with Some _ => true | None => false end) -> vertices g <> [] -> (length (vertices g) <= fuel)%nat ->
  compute_repetition_vector fuel g = Ok (Some N) -> (exists i, (i < length (vertices g))%nat /\ nth i N 0 < int_max) ->
  strongly_connected g \/ (caps <> None /\ connected_graph g) -> capacities_ok g caps ->
  positive_durations g -> short_durations g ->
  exists ticks,
    (component_throughput fuel ticks g caps = Ok Deadlock /\ forall s, ~ bounded_valid g caps s) \/
    (exists n T, component_throughput fuel ticks g caps = Ok (Periodic n T) /\ exists s, bounded_valid g caps s).
Proof.
  intros g caps fuel N WF NI EV GD NE FU EN Sm Cn CO PD SD.
  assert (CG : connected_graph g).
  { destruct Cn as [SC|[_ CG]]; [|exact CG]. intros i j Hi Hj. assert (F := SC i j Hi Hj). clear -F. induction F as [|c Hc F IH]; [constructor|exact (linked_fwd _ _ _ Hc IH)]. }
  destruct (C69_simulation_ends_partial g caps fuel N WF NI EV GD NE FU EN Sm) as (ticks & E); [tauto|]. exists ticks. destruct E as [E|(n & T & E)].
  - left. split; [exact E|]. exact (component_deadlock g caps fuel ticks WF NI EV GD NE FU PD SD E).
  - right. exists n, T. split; [exact E|]. destruct (component_exact g caps fuel ticks WF NI EV GD CG NE FU n T CO PD E) as (_ & _ & _ & _ & (s & SV & _) & _). eauto.
Qed.
Print Assumptions C69_decides_liveness_partial.

(** A task without channels is started again and again: compute_asap_throughput on a graph of
    one such task does not end. *)
Definition lone_task := mkGraph [mkVertex 1 1 0 [1]%Q [] 1] [].
Theorem C69_lone_task_refuted : graph_wf lone_task /\ no_init lone_task /\ strongly_connected lone_task /\
  forall ticks, component_throughput 1 ticks lone_task None = Timeout.
Proof.
  split; [|split; [|split]].
  - split; [|split].
    + intros v [<-|[]]; (split; [cbn; lia|split; [reflexivity|split; [reflexivity|]]]); cbn; in_cases; unfold Qle; cbn; lia.
    + intros c [].
    + repeat constructor; cbn; intuition discriminate.
  - intros v [<-|[]]; reflexivity.
  - intros i j Hi Hj. cbn in Hi, Hj. assert (i = 0%nat) as -> by lia. assert (j = 0%nat) as -> by lia. constructor.
  - assert (L : forall n m w rep, m_pc m = PStart 0 -> run n lone_task w rep m = Timeout).
    { induction n as [|n IH]; intros m w rep P; [reflexivity|]. cbn [run]. unfold tick. rewrite P. cbn [nth_error lone_task vertices].
      unfold ready, numbered. cbn [edges length seq combine forallb]. rewrite orb_true_r. cbn [andb].
      unfold exec_start, actor_phase. cbn [v_phases]. change (Z.of_nat 1) with 1. rewrite Z.rem_1_r. cbn [Z.add vertex_duration bind].
      change (vertex_duration (mkVertex 1 1 0 [1]%Q [] 1) 1) with (Ok (1%Q)). cbn [bind]. apply IH. reflexivity. }
    intros ticks. change (component_throughput 1 ticks lone_task None) with (run ticks lone_task 0 1 (new_machine lone_task None)).
    destruct ticks as [|[|[|n]]]; try reflexivity.
    change (run (S (S (S n))) lone_task 0 1 (new_machine lone_task None)) with (run (S n) lone_task 0 1 (mkMachine (PStart 0) (m_actors (new_machine lone_task None)) (m_state (new_machine lone_task None)) 0 [] 0 [])).
    apply L. reflexivity.
Qed.
Print Assumptions C69_lone_task_refuted.

(** When every repetition factor is INT_MAX or more, the reference task is an uninitialised
    identifier. *)
Definition huge_factors := mkGraph [mkVertex 1 1 0 [1]%Q [] 1; mkVertex 2 1 0 [1]%Q [] 1]
  [mkEdge 1 0 1 [2147483647] [2147483648] [] [] 0; mkEdge 2 1 0 [2147483648] [2147483647] [] [] 4611686016279904256].
Theorem C69_huge_factors_refuted : graph_wf huge_factors /\ no_init huge_factors /\ strongly_connected huge_factors /\ all_guarded huge_factors false /\
  compute_repetition_vector 2 huge_factors = Ok (Some [2147483648; 2147483647]) /\
  forall ticks, component_throughput 2 ticks huge_factors None = Undefined.
Proof.
  split; [|split; [|split; [|split; [|split]]]].
  - split; [|split].
    + intros v [<-|[<-|[]]]; (split; [cbn; lia|split; [reflexivity|split; [reflexivity|]]]); cbn; in_cases; unfold Qle; cbn; lia.
    + intros c [<-|[<-|[]]]; eexists; eexists; (split; [reflexivity|split; [reflexivity|]]);
      repeat (split; [reflexivity|]); (split; [cbn; in_cases; lia|]); cbn; lia.
    + repeat constructor; cbn; intuition discriminate.
  - intros v [<-|[<-|[]]]; reflexivity.
  - assert (A : flows huge_factors 0 1) by (apply (flows_step _ 0 (mkEdge 1 0 1 [2147483647] [2147483648] [] [] 0)); [left; reflexivity|constructor]).
    assert (B : flows huge_factors 1 0) by (apply (flows_step _ 1 (mkEdge 2 1 0 [2147483648] [2147483647] [] [] 4611686016279904256)); [right; left; reflexivity|constructor]).
    intros [|[|i]] [|[|j]] Hi Hj; cbn in Hi, Hj; try lia; try constructor; assumption.
  - intros [|[|i]] Hi; [left|left|cbn in Hi; lia].
    + exists (mkEdge 2 1 0 [2147483648] [2147483647] [] [] 4611686016279904256). split; [right; left; reflexivity|reflexivity].
    + exists (mkEdge 1 0 1 [2147483647] [2147483648] [] [] 0). split; [left; reflexivity|reflexivity].
  - vm_compute. reflexivity.
  - intros ticks. unfold component_throughput. assert (E : prepare 2 huge_factors None = Undefined) by (vm_compute; reflexivity). rewrite E. reflexivity.
Qed.
Print Assumptions C69_huge_factors_refuted.

(** * The example graph meets the hypotheses. *)
Example ex_sim_hyp : graph_wf ex_graph /\ no_init ex_graph /\ even_self_loops ex_graph /\ all_guarded ex_graph false /\ connected_graph ex_graph /\
  positive_durations ex_graph /\ short_durations ex_graph /\ vertices ex_graph <> [] /\ capacities_ok ex_graph (Some (fun _ => 5)).
Proof.
  split; [exact ex_wf|]. split; [exact ex_no_init|]. split; [intros c [<-|[<-|[]]]; discriminate|]. split; [|split; [|split; [|split; [|split]]]].
  - intros [|[|i]] Hi; [left|left|cbn in Hi; lia].
    + exists (mkEdge 2 1 0 [2] [1; 2] [] [] 4). split; [right; left; reflexivity|reflexivity].
    + exists (mkEdge 1 0 1 [1; 2] [2] [] [] 0). split; [left; reflexivity|reflexivity].
  - assert (A : linked ex_graph 0 1) by (apply (linked_fwd _ 0 (mkEdge 1 0 1 [1; 2] [2] [] [] 0)); [left; reflexivity|constructor]).
    assert (B : linked ex_graph 1 0) by (apply (linked_fwd _ 1 (mkEdge 2 1 0 [2] [1; 2] [] [] 4)); [right; left; reflexivity|constructor]).
    intros [|[|i]] [|[|j]] Hi Hj; cbn in Hi, Hj; try lia; try constructor; assumption.
  - intros v d [<-|[<-|[]]]; cbn; in_cases; reflexivity.
  - intros v d [<-|[<-|[]]]; cbn; in_cases; reflexivity.
  - discriminate.
  - intros cap [= <-] [|[|k]] c E; try (destruct k; discriminate); injection E as <-; cbn; lia.
Qed.
Example ex_sim_answer : component_throughput 2 200 ex_graph None = Ok (Periodic 1 6) /\ component_throughput 2 200 ex_graph (Some (fun _ => 5)) = Ok (Periodic 1 6) /\
  component_throughput 2 200 ex_graph (Some (fun k => match k with O => 3 | _ => 5 end)) = Ok (Periodic 1 8).
Proof. split; [vm_compute; reflexivity|]. split; vm_compute; reflexivity. Qed.
Example ex_sim_kiter : exists r, (kr_throughput r == inject_Z 1 / 6)%Q /\ exists K cs, ex_run = Ok (r, K, cs).
Proof. destruct ex_kiter as (r & K & cs & E & Th & _). exists r. split; [rewrite Th; reflexivity|]. eauto. Qed.
Example ex_sim_deadlock : component_throughput 2 200 (mkGraph (vertices ex_graph) [mkEdge 1 0 1 [1; 2] [2] [] [] 0; mkEdge 2 1 0 [2] [1; 2] [] [] 1]) None = Ok Deadlock.
Proof. vm_compute. reflexivity. Qed.
Example ex_sim_strong : strongly_connected ex_graph /\ compute_repetition_vector 2 ex_graph = Ok (Some [4; 3]) /\ nth 0 [4; 3] 0 < int_max.
Proof.
  split; [|split; [vm_compute; reflexivity|cbv; reflexivity]].
  assert (A : flows ex_graph 0 1) by (apply (flows_step _ 0 (mkEdge 1 0 1 [1; 2] [2] [] [] 0)); [left; reflexivity|constructor]).
  assert (B : flows ex_graph 1 0) by (apply (flows_step _ 1 (mkEdge 2 1 0 [2] [1; 2] [] [] 4)); [right; left; reflexivity|constructor]).
  intros [|[|i]] [|[|j]] Hi Hj; cbn in Hi, Hj; try lia; try constructor; assumption.
Qed.
