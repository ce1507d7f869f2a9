(** Property C118: both ways of evaluating distributions give the same trade-off. *)
From Coq Require Import QArith Qreduction Lqa Permutation Sorted.
From Verif Require Import Base Graph ScheduleSpec KPeriodic KPeriodicProps EventGraphSpec KIter KIterSpec KIterProofs KIterLoop KIterFinal KIterProps
  RepVec RepVecSpec RepVecProofs RepVecProps Sim SimSpec SimProofs SimScc SimSccSpec SimSccProps
  StorDep StorDepProps Storage StorageSpec StorageProofs Dse DseSpec DseProofs DseProps DseKiterSpec DseKiterProofs RandomGenSpec RandomGenLoop RoomEnough DseExecSpec DseEndsProofs DseKiterProps DseExecProofs DseExecProps DseEndsProps DseAgreeProofs.
Open Scope Z_scope.

(** ** C118 *)
(** From the same starting point and with the target set by default, the exploration by
    self-timed execution (SYMB_EXEC_CORRECTED) and the exploration by K-Iter both end, and every
    answer of positive throughput of one has an answer of the same size and throughput in the other. *)
Theorem C118_modes_agree : forall solve arrange kfuel var g N step init thr critical ticks target stepf initf thrf criticalf r0 K0 cs0,
  no_init g -> even_self_loops g -> all_guarded g true -> connected_graph g -> vertices g <> [] -> positive_durations g -> short_durations g -> whole_lone_durations g ->
  compute_repetition_vector (S (length (vertices g))) g = Ok (Some N) ->
  channel_list (channel_ids g) -> valid (channel_ids g) init -> (forall e, In e (channel_ids g) -> 0 < e /\ 0 < step e) -> capacities_ok g (Some (room g init)) ->
  executes true g step init thr critical -> compute_asap_throughput (S (length (vertices g))) ticks g = Ok target -> (0 < target)%Q -> (target < long_max)%Q ->
  (forall l, Permutation (arrange l) l) -> explorable g (as_vector N) stepf initf -> (iteration_bound g (as_vector N) <= kfuel)%nat ->
  kiter_evaluates solve arrange kfuel var g (as_vector N) stepf initf thrf criticalf ->
  kiter solve arrange kfuel var g (as_vector N) = Ok (r0, K0, cs0) -> exact_answer cs0 (solve cs0) -> (0 < kr_throughput r0)%Q ->
  same_start g step init stepf initf ->
  exists F, forall fuel, (F <= fuel)%nat -> exists r rf,
    exploration fuel thr critical 0 step target (channel_ids g) init = Ok r /\
    exploration fuel thrf criticalf (Z.of_nat (length (edges g))) stepf (kr_throughput r0) (all_ids g) initf = Ok rf /\
    (forall x, In x (flat r) -> (0 < sd_thr x)%Q -> exists y, In y (flat rf) /\ sd_size y = sd_size x /\ (sd_thr y == sd_thr x)%Q) /\
    (forall y, In y (flat rf) -> (0 < sd_thr y)%Q -> exists x, In x (flat r) /\ sd_size x = sd_size y /\ (sd_thr x == sd_thr y)%Q).
Proof.
  intros solve arrange kfuel var g N step init thr critical ticks target stepf initf thrf criticalf r0 K0 cs0 NI EV GD CG NE PD SD WD EN CLi Vi Pos CO EX AS T0 T1 AR X FU KE Hk He R0 SS.
  destruct (C113_complete_exploration g N step init thr critical ticks target (x_wf _ _ _ _ X) NI EV GD CG NE PD SD WD EN CLi Vi Pos CO EX AS T0 T1) as (F1 & H1).
  destruct (C116_complete_exploration solve arrange kfuel var g (as_vector N) stepf initf thrf criticalf r0 K0 cs0 AR X FU KE Hk He R0) as (F2 & H2).
  exists (Nat.max F1 F2). intros fuel Lf. destruct (H1 fuel ltac:(lia)) as (r & Er & P1 & _ & A1 & B1). destruct (H2 fuel ltac:(lia)) as (rf & Ef & P2 & _ & A2 & B2).
  exists r, rf. split; [exact Er|]. split; [exact Ef|].
  pose proof (x_ids _ _ _ _ X) as IDS. pose proof (x_channels _ _ _ _ X) as CL. pose proof (x_first _ _ _ _ X) as FD.
  assert (G1 : forall x, In x (flat r) -> (0 < sd_thr x)%Q -> on_grid (channel_ids g) 0 step init x).
  { intros x Hx X0. pose proof (DseExecProps.C111_sound_evaluation g step init thr critical (x_wf _ _ _ _ X) NI EV GD CG NE PD SD Pos CO EX) as SE.
    destruct (C59_pareto_frontier (channel_ids g) 0 step init thr critical target fuel r CLi Vi (fun e He _ => proj2 (Pos e He)) SE T0 (init_nonneg g init (x_wf _ _ _ _ X) CO) Er) as (_ & A & _).
    destruct (A x Hx) as [[G _]|[_ Z]]; [exact G|lra]. }
  assert (G2 : forall y, In y (flat rf) -> (0 < sd_thr y)%Q -> on_grid (all_ids g) (Z.of_nat (length (edges g))) stepf initf y).
  { intros y Hy Y0. pose proof (C115_sound_evaluation solve arrange kfuel var g (as_vector N) stepf initf thrf criticalf AR X FU KE) as SE.
    destruct (C59_pareto_frontier (all_ids g) (Z.of_nat (length (edges g))) stepf initf thrf criticalf (kr_throughput r0) fuel rf CL (proj1 FD) (step_pos g stepf IDS (x_step _ _ _ _ X)) SE R0 (proj1 (proj2 FD)) Ef) as (_ & A & _).
    destruct (A y Hy) as [[G _]|[_ Z]]; [exact G|lra]. }
  (* an answer of one side is matched by an answer of the other that is no larger and no slower *)
  assert (D1 : forall x, In x (flat r) -> (0 < sd_thr x)%Q -> exists y, In y (flat rf) /\ sd_size y <= sd_size x /\ (0 < sd_thr y)%Q /\ (sd_thr x <= sd_thr y)%Q).
  { intros x Hx X0. destruct (A1 x Hx X0) as [(s & BV & NZ & KP) _]. destruct (to_feedback g step stepf init initf IDS CL (proj1 FD) SS x (G1 x Hx X0)) as (b & Gb & Sb & Eb).
    destruct (B2 b s _ Gb (bounded_ext g _ _ s (fun k c E => eq_sym (Eb k c E)) BV) NZ KP) as (y & Hy & Sy & Y0 & L). exists y. split; [exact Hy|]. split; [lia|]. split; [exact Y0|]. exact (inv_swap _ _ Y0 X0 L). }
  assert (D2 : forall y, In y (flat rf) -> (0 < sd_thr y)%Q -> exists x, In x (flat r) /\ sd_size x <= sd_size y /\ (0 < sd_thr x)%Q /\ (sd_thr y <= sd_thr x)%Q).
  { intros y Hy Y0. destruct (A2 y Hy Y0) as [(s & BV & NZ & KP) _]. destruct (from_feedback g step stepf init initf IDS CL Vi SS y (G2 y Hy Y0)) as (a & Ga & Sa & Ea).
    destruct (B1 a s _ Ga (bounded_ext g _ _ s Ea BV) KP) as (x & Hx & Sx & X0 & L). exists x. split; [exact Hx|]. split; [lia|]. split; [exact X0|]. exact (inv_swap _ _ X0 Y0 L). }
  split.
  - intros x Hx X0. destruct (D1 x Hx X0) as (y & Hy & Sy & Y0 & Ly). destruct (D2 y Hy Y0) as (x' & Hx' & Sx' & X0' & Lx'). exists y. split; [exact Hy|].
    destruct (P1 x' x Hx' Hx) as [Q1 Q2]. assert (Es : sd_size x' = sd_size x). { destruct (Z.lt_trichotomy (sd_size x') (sd_size x)) as [L|[L|L]]; [specialize (Q1 L); lra|exact L|lia]. }
    specialize (Q2 Es). split; [lia|]. lra.
  - intros y Hy Y0. destruct (D2 y Hy Y0) as (x & Hx & Sx & X0 & Lx). destruct (D1 x Hx X0) as (y' & Hy' & Sy' & Y0' & Ly'). exists x. split; [exact Hx|].
    destruct (P2 y' y Hy' Hy) as [Q1 Q2]. assert (Es : sd_size y' = sd_size y). { destruct (Z.lt_trichotomy (sd_size y') (sd_size y)) as [L|[L|L]]; [specialize (Q1 L); lra|exact L|lia]. }
    specialize (Q2 Es). split; [lia|]. lra.
Qed.
Print Assumptions C118_modes_agree.

(** The producer and the consumer of [two_tasks], one place each way of counting. *)
Definition one_place_plain : sd := sd_make 1 0%Q [(1, (0, 1))] 1.
Example C118_hyp : no_init two_tasks /\ even_self_loops two_tasks /\ all_guarded two_tasks true /\ connected_graph two_tasks /\ positive_durations two_tasks /\ short_durations two_tasks /\
  whole_lone_durations two_tasks /\ compute_repetition_vector 3 two_tasks = Ok (Some [1; 1]) /\ channel_list (channel_ids two_tasks) /\ valid (channel_ids two_tasks) one_place_plain /\
  capacities_ok two_tasks (Some (room two_tasks one_place_plain)) /\ compute_asap_throughput 3 400 two_tasks = Ok (1 # 2)%Q /\
  same_start two_tasks (fun _ => 1) one_place_plain (fun _ => 1) one_place /\
  exists thr critical r, executes true two_tasks (fun _ => 1) one_place_plain thr critical /\
    exploration 10 thr critical 0 (fun _ => 1) (1 # 2)%Q (channel_ids two_tasks) one_place_plain = Ok r /\
    map (fun x => (sd_size x, sd_thr x)) (flat r) = [(1, (1 # 3)%Q); (2, (1 # 2)%Q)].
Proof.
  assert (WF : graph_wf two_tasks) by apply C115_hyp.
  assert (NI : no_init two_tasks) by (intros v [<-|[<-|[]]]; reflexivity).
  assert (EV : even_self_loops two_tasks) by (intros c [<-|[]]; discriminate).
  assert (GD : all_guarded two_tasks true).
  { intros i Hi. cbn in Hi. destruct i as [|[|i]]; [| |lia]; [right; split; [reflexivity|]|left]; (eexists; split; [left; reflexivity|reflexivity]). }
  assert (CG : connected_graph two_tasks).
  { intros i j Hi Hj. cbn in Hi, Hj. destruct i as [|[|i]]; [| |lia]; (destruct j as [|[|j]]; [| |lia]); try apply linked_refl.
    - apply (linked_fwd two_tasks 0 (mkEdge 1 0 1 [1] [1] [] [] 0)); cbn; auto using linked_refl.
    - apply (linked_bwd two_tasks 1 (mkEdge 1 0 1 [1] [1] [] [] 0)); cbn; auto using linked_refl. }
  assert (PD : positive_durations two_tasks) by (intros v d [<-|[<-|[]]] [<-|[]]; reflexivity).
  assert (EN : compute_repetition_vector 3 two_tasks = Ok (Some [1; 1])) by (vm_compute; reflexivity).
  assert (CO : capacities_ok two_tasks (Some (room two_tasks one_place_plain))).
  { intros cap [= <-] [|k] c E; cbn in E; [|destruct k; discriminate]; injection E as <-; cbn; lia. }
  split; [exact NI|]. split; [exact EV|]. split; [exact GD|]. split; [exact CG|]. split; [exact PD|]. split; [intros v d [<-|[<-|[]]] [<-|[]]; reflexivity|].
  split; [intros v d [<-|[<-|[]]] _ [<-|[]]; eexists; reflexivity|]. split; [exact EN|]. split; [cbn; repeat constructor|]. split; [split; reflexivity|]. split; [exact CO|]. split; [vm_compute; reflexivity|].
  split. { intros [|k] c E; cbn in E; [|destruct k; discriminate]; injection E as <-. repeat split. }
  destruct (executes_exists two_tasks [1; 1] (fun _ => 1) one_place_plain WF NI EV GD CG) with (corrected := true) as (thr & critical & EX); auto.
  - discriminate.
  - cbn. intros e [<-|[]]. lia.
  - intros. lia.
  - exists 0%nat. cbn. split; [lia|]. reflexivity.
  - exists (run_thr two_tasks true 400 thr), (run_critical two_tasks true 400 critical). eexists. split; [apply executes_run; exact EX|]. split; [vm_compute; reflexivity|reflexivity].
Qed.
