(** C73-C76: strictly periodic scheduling. *)
From Coq Require Import QArith Lqa Permutation.
From Verif Require Import Base Graph Commons KPeriodic ScheduleSpec KPeriodicSpec KPeriodicProofs KPeriodicGraph EventGraph EventGraphSpec
  KPeriodicEnd KPeriodicProps KIter KIterSpec KIterProps
  SimSpec Howard HowardProofs HowardTotal HowardProps SPeriodicSpec SPeriodic SPeriodicProofs SPeriodicEnd.
Open Scope Z_scope.

(** ** C73: the constraints built are exactly those of a strictly periodic schedule. *)
Theorem C73_constraints_exact : forall g N, graph_wf g -> balanced g N -> no_init g -> whole_cycles g N ->
  exists cs, sp_event_graph false g N = Ok cs /\
    forall omega St, (0 <= omega)%Q ->
      ((forall x, In x cs -> satisfies omega St x) <-> schedule_valid g (sp_times g N omega St)).
Proof.
  intros g N WF B NI WC. destruct (sp_event_graph_spec g N WF B NI WC) as (cs & E & _). exists cs. split; [assumption|].
  intros omega St Om. apply sp_exact; assumption.
Qed.
Print Assumptions C73_constraints_exact.

Theorem C73_feasible_iff : forall g N cs omega, graph_wf g -> balanced g N -> no_init g -> whole_cycles g N ->
  sp_event_graph false g N = Ok cs -> (0 <= omega)%Q ->
  ((exists s, evenly_spaced g N omega s /\ schedule_valid g s) <-> circuits_fit cs omega).
Proof. intros g N cs omega WF B NI WC. apply sp_feasible_iff; assumption. Qed.
Print Assumptions C73_feasible_iff.

(** The schedule handed out has one start per task, is evenly spaced, and is valid as soon as
    any evenly spaced schedule of its period is. *)
Theorem C73_schedule_valid : forall eps g N r, graph_wf g -> balanced g N -> no_init g -> whole_cycles g N ->
  sp_scheduling eps g N = Ok r -> (0 <= sps_omega r)%Q ->
  length (sps_tasks r) = length (vertices g) /\
  evenly_spaced g N (sps_omega r) (denoted (sps_tasks r)) /\
  ((exists s, evenly_spaced g N (sps_omega r) s /\ schedule_valid g s) -> schedule_valid g (denoted (sps_tasks r))).
Proof. intros eps g N r WF B NI WC. apply sp_scheduling_valid; assumption. Qed.
Print Assumptions C73_schedule_valid.

(** ** C74: the throughput reported is that of the best evenly spaced schedule. *)
Theorem C74_always_answers : forall approx eps g N, graph_wf g -> balanced g N -> no_init g -> whole_cycles g N -> positive_durations g ->
  exists q, sp_throughput approx eps g N = Ok q.
Proof.
  assert (X : forall eps g N, graph_wf g -> balanced g N -> no_init g -> whole_cycles g N -> positive_durations g -> exists q, sp_throughput false eps g N = Ok q).
  { intros eps g N WF B NI WC PD. unfold sp_throughput. destruct (sp_event_graph_spec g N WF B NI WC) as (cs & E & _). rewrite E. cbn [bind].
    apply ocr_total; [apply sp_events_nodup; assumption|apply (sp_closed g N WF B NI WC); assumption|apply (sp_positive g N WF B NI WC); assumption]. }
  intros [] eps g N WF B NI WC PD; [|auto]. pose proof (slow_graph_slowed g WF) as SL.
  destruct (X eps (slow_graph g) N) as (q & E); [eapply slowed_wf|eapply slowed_balanced|eapply slowed_no_init|eapply slowed_cycles|eapply slowed_positive|]; try eassumption.
  exists q. unfold sp_throughput in *. rewrite approx_is_slow by assumption. rewrite sp_events_slow in E. assumption.
Qed.
Print Assumptions C74_always_answers.

(** For any solver answering exactly. *)
Theorem C74_best_with_exact_solver : forall g N cs a, graph_wf g -> balanced g N -> no_init g -> whole_cycles g N -> vertices g <> [] ->
  sp_event_graph false g N = Ok cs -> exact_answer cs a -> best_even_throughput g N (fst a).
Proof.
  intros g N cs [v l] WF B NI WC NE E (C & D & At & Low). apply (best_from_circuits g N WF B NI WC cs v NE E); [assumption|]. exists l. auto.
Qed.
Print Assumptions C74_best_with_exact_solver.

(** For the solver of the code, when it settles. *)
Theorem C74_best_partial : forall g N q, graph_wf g -> balanced g N -> no_init g -> whole_cycles g N -> vertices g <> [] -> positive_durations g ->
  sp_throughput false 0 g N = Ok q -> r_settled q = true -> exists v, r_value q = Some v /\ best_even_throughput g N v.
Proof.
  intros g N q WF B NI WC NE PD H. unfold sp_throughput in H. destruct (sp_event_graph false g N) as [cs| | |] eqn:E; cbn [bind] in H; try discriminate.
  apply (sp_howard_best g N WF B NI WC cs); assumption.
Qed.
Print Assumptions C74_best_partial.

(** The schedule built on a settled answer: best period, valid. *)
Theorem C74_schedule_best_partial : forall g N q r v, graph_wf g -> balanced g N -> no_init g -> whole_cycles g N -> vertices g <> [] -> positive_durations g ->
  sp_throughput false 0 g N = Ok q -> r_settled q = true -> r_value q = Some v -> (0 < v)%Q -> sp_scheduling 0 g N = Ok r ->
  sps_omega r = (/ v)%Q /\ evenly_spaced g N (/ v) (denoted (sps_tasks r)) /\ schedule_valid g (denoted (sps_tasks r)) /\
  (forall omega s, evenly_spaced g N omega s -> schedule_valid g s -> (/ v <= omega)%Q).
Proof.
  intros g N q r v WF B NI WC NE PD H ST V Vp R. destruct (C74_best_partial g N q WF B NI WC NE PD H ST) as (v' & V' & [Ex Opt]).
  assert (v' = v) as -> by congruence. assert (O : sps_omega r = (/ v)%Q).
  { unfold sp_throughput in H. unfold sp_scheduling in R. destruct (sp_event_graph false g N) as [cs| | |]; cbn [bind] in *; try discriminate.
    rewrite H in R. cbn [bind] in R. rewrite V in R. destruct (Qeq_bool v 0) eqn:Z; [apply Qeq_bool_iff in Z; lra|]. cbn [bind] in R. injection R as <-. reflexivity. }
  assert (Om : (0 <= sps_omega r)%Q) by (rewrite O; apply Qinv_le_0_compat; lra).
  destruct (C73_schedule_valid 0 g N r WF B NI WC R Om) as (_ & Ev & Va). rewrite O in Ev, Va.
  split; [assumption|]. split; [assumption|]. split; [apply Va, Ex, Vp|]. intros omega s E1 E2. apply (Opt omega s E1 E2).
Qed.
Print Assumptions C74_schedule_best_partial.

(** ** C75: the approximation with the longest phase. *)
(** Its constraints are those of the graph whose phases are all as long as the longest one,
    and a start time assignment that meets them schedules the graph itself. *)
Theorem C75_approximation_sound : forall g N, graph_wf g -> balanced g N -> no_init g -> whole_cycles g N ->
  exists g' cs, slowed g g' /\ sp_event_graph true g N = Ok cs /\
    forall omega St, (0 <= omega)%Q ->
      ((forall x, In x cs -> satisfies omega St x) <-> schedule_valid g' (sp_times g N omega St)) /\
      ((forall x, In x cs -> satisfies omega St x) -> schedule_valid g (sp_times g N omega St)).
Proof.
  intros g N WF B NI WC. pose proof (slow_graph_slowed g WF) as SL. exists (slow_graph g).
  pose proof (slowed_wf _ _ SL WF) as WF'. pose proof (slowed_balanced _ _ N SL B) as B'. pose proof (slowed_no_init _ _ SL NI) as NI'. pose proof (slowed_cycles _ _ N SL WC) as WC'.
  destruct (sp_event_graph_spec (slow_graph g) N WF' B' NI' WC') as (cs & E & _). exists cs. split; [assumption|].
  split; [rewrite approx_is_slow by assumption; assumption|]. intros omega St Om.
  assert (SS : same_schedule (slow_graph g) (sp_times (slow_graph g) N omega St) (sp_times g N omega St)).
  { intros i m _. unfold sp_times. cbn [vertices slow_graph]. rewrite nth_error_map. destruct (nth_error (vertices g) i); reflexivity. }
  assert (I : (forall x, In x cs -> satisfies omega St x) <-> schedule_valid (slow_graph g) (sp_times g N omega St)).
  { rewrite (sp_exact (slow_graph g) N WF' B' NI' WC' omega St cs Om E). split; apply schedule_valid_ext; auto using same_schedule_sym. }
  split; [assumption|]. intros H. apply (slowed_valid g (slow_graph g)); [assumption|assumption|]. apply I, H.
Qed.
Print Assumptions C75_approximation_sound.

(** The approximate throughput is the best of the slowed graph, so never above the exact one. *)
Theorem C75_never_above_partial : forall g N qa q va v, graph_wf g -> balanced g N -> no_init g -> whole_cycles g N -> vertices g <> [] -> positive_durations g ->
  sp_throughput true 0 g N = Ok qa -> r_settled qa = true -> r_value qa = Some va ->
  sp_throughput false 0 g N = Ok q -> r_settled q = true -> r_value q = Some v -> (0 < va)%Q -> (0 < v)%Q /\ (va <= v)%Q.
Proof.
  intros g N qa q va v WF B NI WC NE PD Ha Sa Va H St V Pos. pose proof (slow_graph_slowed g WF) as SL.
  assert (Ha' : sp_throughput false 0 (slow_graph g) N = Ok qa) by (unfold sp_throughput in *; rewrite sp_events_slow, <- approx_is_slow by assumption; assumption).
  assert (NE' : vertices (slow_graph g) <> []) by (cbn; destruct (vertices g); [congruence|discriminate]).
  destruct (C74_best_partial (slow_graph g) N qa (slowed_wf _ _ SL WF) (slowed_balanced _ _ N SL B) (slowed_no_init _ _ SL NI) (slowed_cycles _ _ N SL WC) NE'
    (slowed_positive _ _ SL PD) Ha' Sa) as (v1 & E1 & [Ex _]).
  assert (v1 = va) as -> by congruence. destruct (C74_best_partial g N q WF B NI WC NE PD H St) as (v2 & E2 & [_ Opt]). assert (v2 = v) as -> by congruence.
  destruct (Ex Pos) as (s & Ev & Vs). destruct (Opt (/ va)%Q s) as [P Le].
  - intros i m L. apply Ev. rewrite (slowed_length _ _ SL). assumption.
  - apply (slowed_valid g (slow_graph g)); assumption.
  - split; [assumption|]. destruct (Qlt_le_dec v va) as [Lt|]; [|assumption]. exfalso.
    apply Qmult_le_l with (z := v) in Le; [|assumption]. apply Qmult_le_l with (z := va) in Le; [|assumption].
    assert (va * (v * / v) == va)%Q by (field; lra). assert (va * (v * / va) == v)%Q by (field; lra). lra.
Qed.
Print Assumptions C75_never_above_partial.

(** ** C76: strict periodicity never beats K-Iter. *)
Theorem C76_never_beats_kiter : forall solve arrange var g N fuel r K cs omega s, (forall l, Permutation (arrange l) l) ->
  graph_wf g -> balanced g N -> no_init g -> no_overlap g -> whole_cycles g N -> edge_ids_ok g ->
  (Datatypes.S (Z.to_nat (sumf (cycles g N) (length (vertices g)))) <= fuel)%nat ->
  kiter solve arrange fuel var g N = Ok (r, K, cs) -> exact_answer cs (solve cs) ->
  (0 < omega)%Q -> evenly_spaced g N omega s -> schedule_valid g s ->
  (0 < kr_throughput r)%Q /\ (/ omega <= kr_throughput r)%Q.
Proof.
  intros solve arrange var g N fuel r K cs omega s Pm WF B NI NO WC EI Fu H X Om Ev Va.
  destruct (C55_kiter_optimal solve arrange var g N fuel r K cs Pm WF B NI NO WC EI Fu H X) as [P1 P2].
  assert (HN : forall i, (i < length (vertices g))%nat -> 0 < N i).
  { intros i L. destruct (nth_error (vertices g) i) as [v|] eqn:E; [|apply nth_error_None in E; lia]. apply (N_pos g N WC i v E). }
  pose proof (even_keeps_pace g N omega s HN Ev) as KP. pose proof (even_non_zeno g N omega s HN Om Ev) as NZ.
  destruct (Qlt_le_dec 0 (kr_throughput r)) as [L|L].
  - split; [assumption|]. pose proof (proj2 (P1 L) s omega Va NZ KP) as Le.
    apply Qmult_le_l with (z := kr_throughput r) in Le; [|assumption]. rewrite Qmult_inv_r in Le by lra.
    apply Qle_shift_inv_r; assumption.
  - destruct (P2 L s omega Va NZ KP).
Qed.
Print Assumptions C76_never_beats_kiter.

(** ** The example graph meets the hypotheses: best strictly periodic period 9 where K-Iter
    reaches 6; with the durations of A swapped 8, and 9 for the approximation. *)
Example ex_even : exists q, sp_throughput false 0 ex_graph ex_N = Ok q /\ r_settled q = true /\ r_value q = Some (1 # 9)%Q.
Proof. eexists. split; [vm_compute; reflexivity|]. split; reflexivity. Qed.
Example ex_even_best : best_even_throughput ex_graph ex_N (1 # 9).
Proof.
  destruct ex_even as (q & E & St & V).
  destruct (C74_best_partial ex_graph ex_N q ex_wf ex_balanced ex_no_init ex_whole_cycles ltac:(discriminate) ex_positive_durations E St) as (v & V' & Bst).
  assert (v = (1 # 9)%Q) as -> by congruence. assumption.
Qed.
Definition swapped : graph := mkGraph (mkVertex 1 2 0 [2; 1]%Q [] 1 :: tl (vertices ex_graph)) (edges ex_graph).
Example swapped_even : exists q, sp_throughput false 0 swapped ex_N = Ok q /\ r_settled q = true /\ r_value q = Some (1 # 8)%Q.
Proof. eexists. split; [vm_compute; reflexivity|]. split; reflexivity. Qed.
Example swapped_approx : exists q, sp_throughput true 0 swapped ex_N = Ok q /\ r_settled q = true /\ r_value q = Some (1 # 9)%Q.
Proof. eexists. split; [vm_compute; reflexivity|]. split; reflexivity. Qed.

(** ** Findings *)
(** A live graph: A produces one token at a time, B takes two in its first phase and gives
    them back in its third.  No evenly spaced schedule exists; the answer is a schedule of
    period -12, with no sign that anything went wrong. *)
Definition neg_graph : graph := mkGraph [mkVertex 1 1 0 [1]%Q [] 1; mkVertex 2 3 0 [1; 1; 1]%Q [] 1]
  [mkEdge 1 0 1 [1] [2; 0; 0] [] [] 0; mkEdge 2 1 0 [0; 0; 2] [1] [] [] 2].
Definition neg_N (i : nat) : Z := match i with O => 2 | _ => 3 end.
Lemma neg_wf : graph_wf neg_graph.
Proof.
  split; [|split].
  - intros v [<-|[<-|[]]]; (split; [cbn; lia|split; [reflexivity|split; [reflexivity|]]]); cbn; in_cases; unfold Qle; cbn; lia.
  - intros c [<-|[<-|[]]]; eexists; eexists; (split; [reflexivity|split; [reflexivity|]]);
      repeat (split; [reflexivity|]); (split; [cbn; in_cases; lia|]); cbn; lia.
  - repeat constructor; cbn; intuition discriminate.
Qed.
Definition neg_St (e : event) : Q := if ev_task e =? 1 then inject_Z (ev_occ e - 1) else inject_Z (1 + ev_phase e).
Definition neg_K (i : nat) : Z := match i with O => 2 | _ => 1 end.
Definition neg_live : bool :=
  match generate_event_graph StronglyOptimized neg_graph neg_N neg_K with Ok cs => forallb (sat_b 5 neg_St) cs | _ => false end.
Theorem C74_live_graph_refuted : exists g N r s, graph_wf g /\ balanced g N /\ no_init g /\ whole_cycles g N /\ positive_durations g /\
  schedule_valid g s /\ keeps_pace g N s 5 /\
  sp_scheduling long_double_epsilon g N = Ok r /\ (sps_omega r < 0)%Q /\
  forall omega s', evenly_spaced g N omega s' -> ~ schedule_valid g s'.
Proof.
  assert (B : balanced neg_graph neg_N) by (intros c [<-|[<-|[]]]; reflexivity).
  assert (NI : no_init neg_graph) by (intros v [<-|[<-|[]]]; reflexivity).
  assert (NO : no_overlap neg_graph) by (intros v [<-|[<-|[]]]; reflexivity).
  assert (WC : whole_cycles neg_graph neg_N) by (intros [|[|[|i]]] v; cbn; intros [= <-]; cbn; (split; [lia|]); try (exists 1; reflexivity); try (exists 2; reflexivity)).
  assert (PD : positive_durations neg_graph) by (intros v d [<-|[<-|[]]]; cbn; in_cases; reflexivity).
  assert (HN : positive_on neg_graph neg_N) by (intros [|[|i]] H; try reflexivity; cbn in H; lia).
  assert (HK : positive_on neg_graph neg_K) by (intros [|[|i]] H; try reflexivity; cbn in H; lia).
  destruct (C27_generation_total StronglyOptimized neg_graph neg_N neg_K neg_wf HN HK) as (cs & Hcs).
  assert (Hf : neg_live = true) by (vm_compute; reflexivity). unfold neg_live in Hf. rewrite Hcs in Hf. rewrite forallb_forall in Hf.
  exists neg_graph, neg_N. eexists. exists (kperiodic_schedule neg_graph neg_N neg_K 5 neg_St).
  split; [exact neg_wf|]. split; [assumption|]. split; [assumption|]. split; [assumption|]. split; [assumption|]. split; [|split; [|split; [|split]]].
  - apply (sound_iff StronglyOptimized neg_graph neg_N neg_K 5 neg_St cs neg_wf B NI NO HN HK); [unfold Qle; cbn; lia|assumption|].
    intros c I. apply Qle_bool_iff. exact (Hf c I).
  - apply (periodic_keeps_pace neg_graph neg_N neg_K 5 _ HN HK); [intros v [<-|[<-|[]]]; cbn; lia|].
    apply kperiodic_schedule_periodic; [exact neg_wf|assumption|assumption].
  - vm_compute. reflexivity.
  - reflexivity.
  - intros omega s' Ev Va. assert (exists q, sp_throughput false 0 neg_graph neg_N = Ok q /\ r_settled q = true /\ r_value q = Some (-1 # 12)%Q) as (q & E & St & V).
    { eexists. split; [vm_compute; reflexivity|]. split; reflexivity. }
    destruct (C74_best_partial neg_graph neg_N q neg_wf B NI WC ltac:(discriminate) PD E St) as (v & V' & [_ Opt]).
    assert (v = (-1 # 12)%Q) as -> by congruence. destruct (Opt omega s' Ev Va) as [L _]. discriminate L.
Qed.
Print Assumptions C74_live_graph_refuted.

(** One task of duration 5 alone: the solver answers infinity (C71_single_event_refuted) and
    the schedule returned has period 0, all executions at once. *)
Definition one_graph : graph := mkGraph [mkVertex 1 1 0 [5]%Q [] 1] [].
Theorem C74_single_task_refuted : exists g N r, graph_wf g /\ balanced g N /\ no_init g /\ whole_cycles g N /\ positive_durations g /\
  sp_scheduling long_double_epsilon g N = Ok r /\ sps_omega r = 0%Q /\ ~ schedule_valid g (denoted (sps_tasks r)) /\
  best_even_throughput g N (1 # 5).
Proof.
  assert (WF : graph_wf one_graph).
  { split; [|split].
    - intros v [<-|[]]; (split; [cbn; lia|split; [reflexivity|split; [reflexivity|]]]); cbn; in_cases; unfold Qle; cbn; lia.
    - intros c [].
    - repeat constructor; cbn; intuition discriminate. }
  assert (B : balanced one_graph (fun _ => 1)) by (intros c []). assert (NI : no_init one_graph) by (intros v [<-|[]]; reflexivity).
  assert (WC : whole_cycles one_graph (fun _ => 1)) by (intros [|[|i]] v; cbn; intros [= <-]; cbn; (split; [lia|]); exists 1; reflexivity).
  assert (PD : positive_durations one_graph) by (intros v d [<-|[]]; cbn; in_cases; reflexivity).
  exists one_graph, (fun _ => 1). eexists. split; [assumption|]. split; [assumption|]. split; [assumption|]. split; [assumption|]. split; [assumption|].
  split; [vm_compute; reflexivity|]. split; [reflexivity|]. split.
  - intros [_ H]. specialize (H 0%nat _ eq_refl 0%nat). vm_compute in H. apply H. reflexivity.
  - assert (exists q, sp_throughput false 0 one_graph (fun _ => 1) = Ok q /\ r_settled q = true /\ r_value q = Some (1 # 5)%Q) as (q & E & St & V).
    { eexists. split; [vm_compute; reflexivity|]. split; reflexivity. }
    destruct (C74_best_partial one_graph _ q WF B NI WC ltac:(discriminate) PD E St) as (v & V' & Bst).
    assert (v = (1 # 5)%Q) as -> by congruence. exact Bst.
Qed.
Print Assumptions C74_single_task_refuted.

(** The self constraints carry the identifier of their task as that of a channel: in the chain
    A -> B with a slow A the channel of identifier 1 is reported critical, although no circuit
    goes from A to B. *)
Definition chain_graph : graph := mkGraph [mkVertex 1 1 0 [5]%Q [] 1; mkVertex 2 1 0 [1]%Q [] 1] [mkEdge 1 0 1 [1] [1] [] [] 0].
Definition chain_cs : list constraint :=
  [mkConstraint (mkEvent 1 1 1) (mkEvent 1 1 1) 1 5 1; mkConstraint (mkEvent 2 1 1) (mkEvent 2 1 1) 1 1 2; mkConstraint (mkEvent 1 1 1) (mkEvent 2 1 1) 0 5 1].
Theorem C73_critical_channel_refuted : exists g N r c cs, graph_wf g /\ balanced g N /\ no_init g /\ whole_cycles g N /\ positive_durations g /\
  sp_scheduling long_double_epsilon g N = Ok r /\ sp_event_graph false g N = Ok cs /\ In c (edges g) /\ In c (sps_critical r) /\
  forall l x, circuit cs l -> In x l -> ~ (nth_error (map sp_event (vertices g)) (e_src c) = Some (c_source x) /\ nth_error (map sp_event (vertices g)) (e_dst c) = Some (c_target x)).
Proof.
  exists chain_graph, (fun _ => 1). eexists. exists (mkEdge 1 0 1 [1] [1] [] [] 0), chain_cs.
  split; [split; [|split]|].
  { intros v [<-|[<-|[]]]; (split; [cbn; lia|split; [reflexivity|split; [reflexivity|]]]); cbn; in_cases; unfold Qle; cbn; lia. }
  { intros c [<-|[]]; eexists; eexists; (split; [reflexivity|split; [reflexivity|]]); repeat (split; [reflexivity|]); (split; [cbn; in_cases; lia|]); cbn; lia. }
  { repeat constructor; cbn; intuition discriminate. }
  split; [intros c [<-|[]]; reflexivity|]. split; [intros v [<-|[<-|[]]]; reflexivity|].
  split; [intros [|[|[|i]]] v; cbn; intros [= <-]; cbn; (split; [lia|]); exists 1; reflexivity|].
  split; [intros v d [<-|[<-|[]]]; cbn; in_cases; reflexivity|].
  split; [vm_compute; reflexivity|]. split; [vm_compute; reflexivity|]. split; [left; reflexivity|]. split; [left; reflexivity|].
  cbn [e_src e_dst]. intros l x (_ & I & u & P) Ix [S T]. injection S as S. injection T as T.
  assert (Stay : forall l v, incl l chain_cs -> path (mkEvent 2 1 1) l v -> v = mkEvent 2 1 1 /\ forall x, In x l -> c_source x = mkEvent 2 1 1).
  { clear. induction l as [|c l IH]; intros v I P; [split; [symmetry; exact P|intros x []]|]. destruct P as [P1 P2].
    assert (c_target c = mkEvent 2 1 1) as E by (destruct (I c (or_introl eq_refl)) as [<-|[<-|[<-|[]]]]; [discriminate P1|reflexivity|reflexivity]).
    rewrite E in P2. destruct (IH v (fun y Y => I y (or_intror Y)) P2) as [E1 E2]. split; [assumption|]. intros x [<-|X]; [assumption|auto]. }
  assert (Reach : forall l w v, incl l chain_cs -> path w l v -> In x l -> v = mkEvent 2 1 1).
  { clear -Stay S T. induction l as [|c l IH]; intros w v I P Ix; [destruct Ix|]. destruct P as [P1 P2]. destruct Ix as [->|Ix].
    - rewrite <- T in P2. apply (Stay l v (fun y Y => I y (or_intror Y)) P2).
    - apply (IH (c_target c) v (fun y Y => I y (or_intror Y)) P2 Ix). }
  pose proof (Reach l u u I P Ix) as ->. destruct (Stay l _ I P) as [_ E]. specialize (E x Ix). rewrite <- S in E. discriminate E.
Qed.
Print Assumptions C73_critical_channel_refuted.
