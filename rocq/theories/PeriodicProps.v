(** C77-C79: K-periodic, 1-periodic and N-periodic scheduling. *)
From Coq Require Import QArith Lqa Permutation.
From Verif Require Import Base Graph KPeriodic ScheduleSpec KPeriodicSpec KPeriodicProofs KPeriodicGraph EventGraph EventGraphSpec
  KPeriodicEnd KPeriodicProps KIter KIterSpec KIterProofs KIterLoop KIterProps SPeriodicSpec SimSpec Howard HowardProofs HowardKIter HowardProps Periodic PeriodicSpec PeriodicProofs.
Open Scope Z_scope.

(** ** C77: the schedule of CSDF_KPeriodicScheduling is valid and the best there is; it is
    returned for every graph that has a schedule.  The solver is only assumed to be exact on
    the last event graph. *)
Theorem C77_kperiodic_schedule_best : forall solve arrange fuel g N, (forall l, Permutation (arrange l) l) ->
  graph_wf g -> balanced g N -> no_init g -> no_overlap g -> whole_cycles g N -> edge_ids_ok g -> vertices g <> [] ->
  (Datatypes.S (Z.to_nat (sumf (cycles g N) (length (vertices g)))) <= fuel)%nat ->
  (forall r K cs, kiter solve arrange fuel StronglyOptimized g N = Ok (r, K, cs) -> exact_answer cs (solve cs)) ->
  (exists s omega, schedule_valid g s /\ non_zeno g s /\ keeps_pace g N s omega) ->
  exists sd, kperiodic_scheduling solve arrange fuel g N = Ok sd /\ (0 < sd_period sd)%Q /\
    length (sd_tasks sd) = length (vertices g) /\
    schedule_valid g (denoted (sd_tasks sd)) /\ keeps_pace g N (denoted (sd_tasks sd)) (sd_period sd) /\
    (forall s omega, schedule_valid g s -> non_zeno g s -> keeps_pace g N s omega -> (sd_period sd <= omega)%Q).
Proof.
  intros solve arrange fuel g N Pm WF B NI NO WC EI NE Fu X (s0 & omega0 & V0 & Z0 & P0).
  destruct (kiter_spec StronglyOptimized g N WF WC NI EI solve arrange Pm fuel Fu) as (K & cs & cs1 & Hk & HK & _).
  set (r := solve_graph solve arrange g cs) in *.
  destruct (kiter_best g N WF B NI NO WC solve arrange fuel r K cs Pm NE EI Fu Hk (X _ _ _ Hk)) as [[_ Opt] HKp].
  destruct (Opt s0 omega0 V0 Z0 P0) as [Pos _]. pose proof (HN_pos g N WC) as HN.
  destruct (kiter_optimal solve arrange StronglyOptimized g N fuel r K cs Pm WF B NI NO WC EI Fu Hk (X _ _ _ Hk)) as [P1 _].
  destruct (P1 Pos) as [(s & Hp & Hv & Hkp) _].
  destruct (schedule_returned g N K (kr_throughput r) WF B NI NO HN HKp Pos) as (ts & Hts & Len & _ & Val).
  destruct (period2scheduling_ok g N K (kr_throughput r) WF HN HKp NI Pos) as (cs' & ts' & Hg & Hts' & _ & _ & Same).
  assert (ts' = ts) as -> by congruence.
  unfold kperiodic_scheduling. rewrite Hk. cbn [bind]. destruct (Qeq_bool (kr_throughput r) 0) eqn:E; [apply Qeq_bool_iff in E; lra|].
  rewrite Hts. cbn [bind]. eexists. split; [reflexivity|]. cbn [sd_period sd_tasks]. split; [apply Qinv_lt_0_compat; assumption|].
  split; [assumption|]. split; [apply Val; exists s; auto|]. split.
  - assert (KP : keeps_pace g N (kperiodic_schedule g N K (/ kr_throughput r) (fst (compute_starting_time (event_list g K) cs' (Some (/ kr_throughput r)%Q)))) (/ kr_throughput r)).
    { apply (periodic_keeps_pace g N K _ _ HN HKp); [intros v I; apply WF, I|]. apply kperiodic_schedule_periodic; assumption. }
    destruct KP as (Bd & HB). exists Bd. intros i m L. rewrite <- (Same i m L). apply HB, L.
  - intros s' omega H1 H2 H3. apply (Opt s' omega H1 H2 H3).
Qed.
Print Assumptions C77_kperiodic_schedule_best.

(** ** C78: the schedule of CSDF_1PeriodicScheduling is valid and the best 1-periodic one. *)
Theorem C78_one_periodic_schedule_best : forall solve arrange g N cs,
  graph_wf g -> balanced g N -> no_init g -> no_overlap g -> whole_cycles g N ->
  generate_event_graph StronglyOptimized g N (fun _ => 1) = Ok cs -> exact_answer cs (solve cs) ->
  (exists s omega, schedule_valid g s /\ (0 <= omega)%Q /\ periodic_schedule g N (fun _ => 1) omega s) ->
  exists sd, one_periodic_scheduling solve arrange g N = Ok sd /\ (0 < sd_period sd)%Q /\
    length (sd_tasks sd) = length (vertices g) /\
    schedule_valid g (denoted (sd_tasks sd)) /\ periodic_schedule g N (fun _ => 1) (sd_period sd) (denoted (sd_tasks sd)) /\
    (forall s omega, schedule_valid g s -> (0 <= omega)%Q -> periodic_schedule g N (fun _ => 1) omega s -> (sd_period sd <= omega)%Q).
Proof.
  intros solve arrange g N cs WF B NI NO WC Hg X (s0 & omega0 & V0 & O0 & P0).
  assert (HK : positive_on g (fun _ => 1)) by (intros i L; lia). pose proof (HN_pos g N WC) as HN.
  destruct (periodic_best g N WF B NI NO WC (fun _ => 1) cs (solve cs) HK Hg X) as [Ex Opt].
  destruct (Opt s0 omega0 V0 O0 P0) as [Pos _]. destruct (Ex Pos) as (s & Hv & Hp).
  destruct (schedule_returned g N (fun _ => 1) (fst (solve cs)) WF B NI NO HN HK Pos) as (ts & Hts & Len & _ & Val).
  destruct (period2scheduling_ok g N (fun _ => 1) (fst (solve cs)) WF HN HK NI Pos) as (cs' & ts' & Hg' & Hts' & _ & _ & Same).
  assert (ts' = ts) as -> by congruence. assert (cs' = cs) as -> by congruence.
  assert (E1 : ts = retrieve_starts g N (fun _ => 1) (/ fst (solve cs)) (fst (compute_starting_time (event_list g (fun _ => 1)) cs (Some (/ fst (solve cs))%Q)))).
  { unfold period2scheduling in Hts. rewrite Hg in Hts. cbn [bind] in Hts. assert (0 < / fst (solve cs))%Q by (apply Qinv_lt_0_compat; assumption).
    destruct (Qle_bool (/ fst (solve cs)) 0) eqn:E; [apply Qle_bool_iff in E; lra|]. congruence. }
  unfold one_periodic_scheduling, one_periodic_vector. rewrite Hg. cbn [bind]. destruct (Qeq_bool (fst (solve cs)) 0) eqn:E; [apply Qeq_bool_iff in E; lra|].
  rewrite <- E1. eexists. split; [reflexivity|]. cbn [sd_period sd_tasks]. split; [apply Qinv_lt_0_compat; assumption|].
  split; [assumption|]. split; [apply Val; exists s; auto|]. split.
  - intros i v m Ev. pose proof (nth_error_Some (vertices g) i) as L. rewrite Ev in L. assert (Li : (i < length (vertices g))%nat) by (apply L; discriminate).
    rewrite <- !(Same i _ Li). apply kperiodic_schedule_periodic; assumption.
  - intros s' omega H1 H2 H3. apply (Opt s' omega H1 H2 H3).
Qed.
Print Assumptions C78_one_periodic_schedule_best.

(** The value printed for any K is that of the best K-periodic schedule. *)
Theorem C78_periodic_throughput_best : forall solve K g N cs,
  graph_wf g -> balanced g N -> no_init g -> no_overlap g -> whole_cycles g N -> positive_on g K ->
  generate_event_graph StronglyOptimized g N K = Ok cs -> exact_answer cs (solve cs) ->
  exists th, periodic_throughput solve K g N = Ok th /\ best_periodic_throughput g N K th.
Proof.
  intros solve K g N cs WF B NI NO WC HK Hg X. exists (fst (solve cs)). unfold periodic_throughput. rewrite Hg. split; [reflexivity|].
  apply (periodic_best g N WF B NI NO WC K cs); assumption.
Qed.
Print Assumptions C78_periodic_throughput_best.

(** ** C79: the N-periodic throughput is the maximum over all schedules, periodic or not, and
    equals what K-Iter reports. *)
Theorem C79_nperiodic_is_optimal : forall solve g N cs,
  graph_wf g -> balanced g N -> no_init g -> no_overlap g -> whole_cycles g N -> vertices g <> [] ->
  generate_event_graph StronglyOptimized g N (n_periodic_vector N) = Ok cs -> exact_answer cs (solve cs) ->
  exists th, periodic_throughput solve (n_periodic_vector N) g N = Ok th /\ best_throughput g N th.
Proof.
  intros solve g N cs WF B NI NO WC NE Hg X. exists (fst (solve cs)). unfold periodic_throughput. rewrite Hg. split; [reflexivity|].
  apply (nperiodic_best g N WF B NI NO WC cs); assumption.
Qed.
Print Assumptions C79_nperiodic_is_optimal.

Theorem C79_kiter_equals_nperiodic : forall solve arrange fuel g N r K cs csn th, (forall l, Permutation (arrange l) l) ->
  graph_wf g -> balanced g N -> no_init g -> no_overlap g -> whole_cycles g N -> edge_ids_ok g -> vertices g <> [] ->
  (Datatypes.S (Z.to_nat (sumf (cycles g N) (length (vertices g)))) <= fuel)%nat ->
  kiter solve arrange fuel StronglyOptimized g N = Ok (r, K, cs) -> exact_answer cs (solve cs) ->
  generate_event_graph StronglyOptimized g N (n_periodic_vector N) = Ok csn -> exact_answer csn (solve csn) ->
  periodic_throughput solve (n_periodic_vector N) g N = Ok th -> (0 < kr_throughput r)%Q \/ (0 < th)%Q ->
  (kr_throughput r == th)%Q.
Proof.
  intros solve arrange fuel g N r K cs csn th Pm WF B NI NO WC EI NE Fu Hk X Hg Xn Ht D.
  destruct (kiter_best g N WF B NI NO WC solve arrange fuel r K cs Pm NE EI Fu Hk X) as [Bk _].
  destruct (C79_nperiodic_is_optimal solve g N csn WF B NI NO WC NE Hg Xn) as (th' & E & Bn). assert (th' = th) as -> by congruence.
  apply (best_unique g N); auto.
Qed.
Print Assumptions C79_kiter_equals_nperiodic.

(** ** The hypotheses are met: 1-periodic period 9, N-periodic and K-Iter period 6 on the
    example graph, with Howard's algorithm as the solver. *)
Definition settled_b (cs : list constraint) : bool :=
  match min_cycle_ratio 0 None (ex_events cs) cs with
  | Ok q => r_settled q && match r_value q with Some _ => true | None => false end &&
      forallb (fun c => existsb (event_eqb (c_source c)) (ex_events cs) && existsb (event_eqb (c_target c)) (ex_events cs)) cs
  | _ => false
  end.
Lemma howard_solve_exact g N K cs : graph_wf g -> no_init g -> no_overlap g -> positive_durations g -> positive_on g N -> (1 < length (vertices g))%nat ->
  positive_on g K -> generate_event_graph StronglyOptimized g N K = Ok cs -> settled_b cs = true -> exact_answer cs (howard_solve cs).
Proof.
  intros WF NI NO PD HN T HK Hg H. unfold settled_b in H. unfold howard_solve. fold (ex_events cs). destruct (min_cycle_ratio 0 None (ex_events cs) cs) as [q| | |] eqn:E; try discriminate.
  apply andb_prop in H. destruct H as [H Cl]. apply andb_prop in H. destruct H as [St Sv]. rewrite forallb_forall in Cl.
  destruct (howard_exact StronglyOptimized g N K cs cs WF NI NO PD HN HK Hg (fun x => iff_refl _) (ex_events cs) q) as (v & V & X).
  - intros c I. specialize (Cl c I). apply andb_prop in Cl. destruct Cl as [A B]. apply existsb_In in A, B. auto.
  - left. assumption.
  - assumption.
  - assumption.
  - rewrite V. assumption.
Qed.
Definition run_b (g : graph) (N K : nat -> Z) (th : Q) : bool :=
  match generate_event_graph StronglyOptimized g N K with Ok cs => settled_b cs && Qeq_bool (fst (howard_solve cs)) th | _ => false end.
Lemma run_b_spec g N K th : graph_wf g -> no_init g -> no_overlap g -> positive_durations g -> positive_on g N -> (1 < length (vertices g))%nat ->
  positive_on g K -> run_b g N K th = true -> exists cs, generate_event_graph StronglyOptimized g N K = Ok cs /\
  exact_answer cs (howard_solve cs) /\ (fst (howard_solve cs) == th)%Q.
Proof.
  unfold run_b. intros WF NI NO PD HN T HK H. destruct (generate_event_graph StronglyOptimized g N K) as [cs| | |] eqn:E; try discriminate.
  apply andb_prop in H. destruct H as [A B]. exists cs. split; [reflexivity|]. split; [apply howard_solve_exact with g N K; assumption|apply Qeq_bool_iff, B].
Qed.
Lemma ex_run_b K th : positive_on ex_graph K -> run_b ex_graph ex_N K th = true -> exists cs, generate_event_graph StronglyOptimized ex_graph ex_N K = Ok cs /\
  exact_answer cs (howard_solve cs) /\ (fst (howard_solve cs) == th)%Q.
Proof. intros HK H. apply run_b_spec; try assumption; [exact ex_wf|exact ex_no_init|exact ex_no_overlap|exact ex_positive_durations|apply HN_pos, ex_whole_cycles|cbn; lia]. Qed.
Example ex_one_periodic : exists sd, one_periodic_scheduling howard_solve (fun l => l) ex_graph ex_N = Ok sd /\ (sd_period sd == 9)%Q /\
  schedule_valid ex_graph (denoted (sd_tasks sd)).
Proof.
  destruct (ex_run_b (fun _ => 1) (1 # 9)) as (cs & Hg & X & T); [intros i L; lia|vm_compute; reflexivity|].
  destruct (periodic_best ex_graph ex_N ex_wf ex_balanced ex_no_init ex_no_overlap ex_whole_cycles (fun _ => 1) cs (howard_solve cs) ltac:(intros i L; lia) Hg X) as [Ex _].
  destruct Ex as (s & V & P); [rewrite T; reflexivity|].
  destruct (C78_one_periodic_schedule_best howard_solve (fun l => l) ex_graph ex_N cs ex_wf ex_balanced ex_no_init ex_no_overlap ex_whole_cycles Hg X)
    as (sd & E & _ & _ & Vd & _). { exists s, (/ fst (howard_solve cs))%Q. split; [assumption|]. split; [rewrite T; discriminate|assumption]. }
  exists sd. split; [assumption|]. split; [|assumption]. unfold one_periodic_scheduling, one_periodic_vector in E. rewrite Hg in E. cbn [bind] in E.
  destruct (Qeq_bool (fst (howard_solve cs)) 0); [discriminate|]. apply (f_equal (fun x => match x with Ok y => sd_period y | _ => 0%Q end)) in E. cbn [sd_period] in E. rewrite <- E, T. reflexivity.
Qed.
Example ex_n_periodic : exists th, periodic_throughput howard_solve (n_periodic_vector ex_N) ex_graph ex_N = Ok th /\ (th == 1 # 6)%Q /\ best_throughput ex_graph ex_N th.
Proof.
  destruct (ex_run_b (n_periodic_vector ex_N) (1 # 6)) as (cs & Hg & X & T); [apply HN_pos, ex_whole_cycles|vm_compute; reflexivity|].
  destruct (C79_nperiodic_is_optimal howard_solve ex_graph ex_N cs ex_wf ex_balanced ex_no_init ex_no_overlap ex_whole_cycles ltac:(discriminate) Hg X) as (th & E & B).
  exists th. split; [assumption|]. split; [|assumption]. unfold periodic_throughput in E. rewrite Hg in E. cbn [bind] in E. assert (th = fst (howard_solve cs)) as -> by congruence. exact T.
Qed.

(** ** Finding: no sign test in CSDF_1PeriodicScheduling.  A live ring of three tasks (rates
    3:5, 2:3, 5:2, four tokens) has no 1-periodic schedule; the one handed out has a negative
    period. *)
Definition ring : graph := mkGraph [mkVertex 1 1 0 [1]%Q [] 1; mkVertex 2 1 0 [1]%Q [] 1; mkVertex 3 1 0 [1]%Q [] 1]
  [mkEdge 1 0 1 [3] [5] [] [] 0; mkEdge 2 1 2 [2] [3] [] [] 4; mkEdge 3 2 0 [5] [2] [] [] 0].
Definition ring_N (i : nat) : Z := match i with O => 5 | 1%nat => 3 | _ => 2 end.
Lemma ring_wf : graph_wf ring.
Proof.
  split; [|split].
  - intros v [<-|[<-|[<-|[]]]]; (split; [cbn; lia|split; [reflexivity|split; [reflexivity|]]]); cbn; in_cases; unfold Qle; cbn; lia.
  - intros c [<-|[<-|[<-|[]]]]; eexists; eexists; (split; [reflexivity|split; [reflexivity|]]);
      repeat (split; [reflexivity|]); (split; [cbn; in_cases; lia|]); cbn; lia.
  - repeat constructor; cbn; intuition discriminate.
Qed.
Theorem C78_no_periodic_schedule_refuted : exists g N sd s omega, graph_wf g /\ balanced g N /\ no_init g /\ no_overlap g /\ whole_cycles g N /\ positive_durations g /\
  schedule_valid g s /\ keeps_pace g N s omega /\
  one_periodic_scheduling howard_solve (fun l => l) g N = Ok sd /\ (sd_period sd < 0)%Q /\
  forall s' omega', schedule_valid g s' -> (0 <= omega')%Q -> ~ periodic_schedule g N (fun _ => 1) omega' s'.
Proof.
  assert (B : balanced ring ring_N) by (intros c [<-|[<-|[<-|[]]]]; reflexivity).
  assert (NI : no_init ring) by (intros v [<-|[<-|[<-|[]]]]; reflexivity).
  assert (NO : no_overlap ring) by (intros v [<-|[<-|[<-|[]]]]; reflexivity).
  assert (WC : whole_cycles ring ring_N).
  { intros [|[|[|[|i]]]] v; cbn; intros [= <-]; cbn; (split; [lia|]); [exists 5|exists 3|exists 2]; reflexivity. }
  assert (PD : positive_durations ring) by (intros v d [<-|[<-|[<-|[]]]]; cbn; in_cases; reflexivity).
  pose proof (HN_pos _ _ WC) as HN.
  destruct (run_b_spec ring ring_N (fun _ => 1) (-1 # 90)) as (cs & Hg & X & T); try assumption; [exact ring_wf|cbn; lia|intros i L; lia|vm_compute; reflexivity|].
  destruct (run_b_spec ring ring_N ring_N (1 # 9)) as (csn & Hgn & Xn & Tn); try assumption; [exact ring_wf|cbn; lia|vm_compute; reflexivity|].
  destruct (periodic_best ring ring_N ring_wf B NI NO WC ring_N csn (howard_solve csn) HN Hgn Xn) as [Ex _]. destruct Ex as (s & V & P); [rewrite Tn; reflexivity|].
  destruct (periodic_best ring ring_N ring_wf B NI NO WC (fun _ => 1) cs (howard_solve cs) ltac:(intros i L; lia) Hg X) as [_ Opt].
  exists ring, ring_N. eexists. exists s, (/ fst (howard_solve csn))%Q. split; [exact ring_wf|]. repeat (split; [assumption|]).
  split; [apply (periodic_keeps_pace ring ring_N ring_N _ _ HN HN); [intros v I; apply ring_wf, I|assumption]|]. split; [|split].
  - unfold one_periodic_scheduling, one_periodic_vector. rewrite Hg. cbn [bind]. destruct (Qeq_bool (fst (howard_solve cs)) 0) eqn:E; [apply Qeq_bool_iff in E; rewrite T in E; discriminate|reflexivity].
  - cbn [sd_period]. rewrite T. reflexivity.
  - intros s' omega' V' O' P'. destruct (Opt s' omega' V' O' P') as [L _]. rewrite T in L. discriminate L.
Qed.
Print Assumptions C78_no_periodic_schedule_refuted.
