(** Properties of the exploration by self-timed execution up to the throughput of the graph: C112, C113. *)
From Coq Require Import QArith Qreduction Lqa.
From Verif Require Import Base Graph ScheduleSpec KPeriodicProps RepVec RepVecSpec RepVecProofs RepVecProps KIterSpec Sim SimSpec SimProofs SimTime SimScc SimSccSpec SimSccProps
  StorDep StorDepProps Storage StorageSpec Dse DseSpec DseProofs DseProps DseExecSpec DseExecProofs DseExecProps RoomEnough DseEndsProofs.
Open Scope Z_scope.

(** ** C112 *)
(** Finite buffers lose no throughput: whatever schedule of the graph with unbounded channels,
    some size is enough for a schedule at the same pace, whatever larger sizes the channels have. *)
Theorem C112_finite_buffers : forall g N s omega, graph_wf g -> no_init g -> vertices g <> [] -> no_lonely_phases g ->
  compute_repetition_vector (S (length (vertices g))) g = Ok (Some N) ->
  schedule_valid g s -> (0 < omega)%Q -> keeps_pace g (as_vector N) s omega ->
  exists R, forall cap, (forall k c, nth_error (edges g) k = Some c -> R <= cap k) ->
    exists s', bounded_valid g (Some cap) s' /\ non_zeno g s' /\ keeps_pace g (as_vector N) s' omega.
Proof.
  intros g N s omega WF NI NE NL EN SV W0 KP. destruct (rv_for_scheduling g (S (length (vertices g))) N WF NE ltac:(lia) NL EN) as [Hb Hw].
  apply (room_enough g (as_vector N) omega WF NI) with (s := s); auto.
  - intros i Hi. apply nth_error_Some in Hi. destruct (nth_error (vertices g) i) as [v|] eqn:Ei; [|congruence]. apply (Hw i v Ei).
  - intros i v Ei. apply (Hw i v Ei).
Qed.
Print Assumptions C112_finite_buffers.

(** ** C113 *)
(** The target by default is the throughput of the graph with unbounded channels.  With it the
    exploration ends, one of its answers has that throughput, and the answers are the trade-off
    of the graph: no schedule within any distribution of the grid beats the answers no larger. *)
Theorem C113_complete_exploration : forall g N step init thr critical ticks target, graph_wf g -> no_init g -> even_self_loops g -> all_guarded g true -> connected_graph g ->
  vertices g <> [] -> positive_durations g -> short_durations g -> whole_lone_durations g -> compute_repetition_vector (S (length (vertices g))) g = Ok (Some N) ->
  channel_list (channel_ids g) -> valid (channel_ids g) init -> (forall e, In e (channel_ids g) -> 0 < e /\ 0 < step e) -> capacities_ok g (Some (room g init)) ->
  executes true g step init thr critical ->
  compute_asap_throughput (S (length (vertices g))) ticks g = Ok target -> (0 < target)%Q -> (target < long_max)%Q ->
  exists F, forall fuel, (F <= fuel)%nat -> exists r, exploration fuel thr critical 0 step target (channel_ids g) init = Ok r /\
    pareto r /\
    (exists x, In x (flat r) /\ (sd_thr x == target)%Q) /\
    (forall x, In x (flat r) -> (0 < sd_thr x)%Q ->
       (exists s, bounded_valid g (Some (room g x)) s /\ non_zeno g s /\ keeps_pace g (as_vector N) s (/ sd_thr x)) /\
       (forall s omega, bounded_valid g (Some (room g x)) s -> keeps_pace g (as_vector N) s omega -> (/ sd_thr x <= omega)%Q)) /\
    (forall b s omega, on_grid (channel_ids g) 0 step init b -> bounded_valid g (Some (room g b)) s -> keeps_pace g (as_vector N) s omega ->
       exists x, In x (flat r) /\ sd_size x <= sd_size b /\ (0 < sd_thr x)%Q /\ (/ sd_thr x <= omega)%Q).
Proof.
  intros g N step init thr critical ticks target WF NI EV GD CG NE PD SD WD EN CL Vi Pos CO EX AS T0 T1.
  assert (Mo : (1 < length (vertices g))%nat \/ edges g <> []).
  { right. destruct (vertices g) as [|v vs] eqn:Ev; [congruence|]. intros E0. destruct (GD 0%nat) as [(c & Hc & _)|[_ (c & Hc & _)]]; [rewrite Ev; cbn; lia| |]; rewrite E0 in Hc; destruct Hc. }
  destruct (C70_throughput_of_any_graph_partial g (S (length (vertices g))) ticks target WF NI EV PD SD WD Mo NE ltac:(lia) AS T1) as (N' & EN' & _ & _ & Ex).
  assert (N' = N) as -> by congruence. destruct (Ex T0) as [(s0 & SV0 & _ & KP0) OPT]. clear Ex.
  pose proof (C111_sound_evaluation g step init thr critical WF NI EV GD CG NE PD SD Pos CO EX) as SE.
  destruct (some_reach g N step init WF NI EV GD CG NE PD SD EN Pos CO Vi thr critical target EX T0 OPT s0 SV0 KP0) as (b0 & Gb0 & Tb0).
  destruct (C60_terminates_partial (channel_ids g) 0 step init thr critical target b0 CL Vi (fun e He _ => proj2 (Pos e He)) SE Gb0 Tb0 T0) as (F & HF).
  { exact (none_faster g N step init WF NI EV GD CG NE PD SD EN Pos CO thr critical target EX T0 OPT). }
  { exact (init_nonneg g init WF CO). }
  exists F. intros fuel Hf. destruct (HF fuel Hf) as (r & Hr). exists r. split; [assumption|].
  destruct (C111_true_frontier g N step init thr critical target fuel r WF NI EV GD CG NE PD SD EN CL Vi Pos CO EX T0 Hr) as (Pa & A & B).
  assert (Le : forall x, In x (flat r) -> (0 < sd_thr x)%Q -> (sd_thr x <= target)%Q).
  { intros x Hx X0. destruct (A x Hx) as [[E _]|[[E _]|(_ & (s & [SV _] & _ & KP) & _)]]; [lra|lra|]. apply (inv_swap); try assumption. eapply OPT; eauto. }
  assert (B' : forall b s omega, on_grid (channel_ids g) 0 step init b -> bounded_valid g (Some (room g b)) s -> keeps_pace g (as_vector N) s omega ->
       exists x, In x (flat r) /\ sd_size x <= sd_size b /\ (0 < sd_thr x)%Q /\ (/ sd_thr x <= omega)%Q).
  { intros b s omega G SV KP. destruct (B b s omega G SV KP) as (x & Hx & Sz & [[X0 L]|L]); exists x; split; try assumption; split; try assumption; [split; assumption|].
    assert (X0 : (0 < sd_thr x)%Q) by lra. split; [assumption|]. pose proof (Le x Hx X0) as L'. assert (E : (sd_thr x == target)%Q) by lra. rewrite E. apply (OPT s omega (proj1 SV) KP). }
  split; [assumption|]. split; [|split; [|exact B']].
  - destruct (thr_meaning g N step init WF NI EV GD CG NE PD SD EN Pos CO thr critical EX b0 Gb0) as (q & Eq & [[E0 _]|(Q0 & (s & SV & _ & KP) & _)]); [lra|].
    destruct (B' b0 s (/ q)%Q Gb0 SV KP) as (x & Hx & _ & X0 & L). exists x. split; [assumption|]. apply Qle_antisym; [apply Le; assumption|].
    rewrite <- Tb0, Eq. apply inv_swap; assumption.
  - intros x Hx X0. destruct (A x Hx) as [[E _]|[[E _]|(_ & H1 & H2)]]; [lra|lra|auto].
Qed.
Print Assumptions C113_complete_exploration.

(** The ring of C111. *)
Example C113_not_vacuous : whole_lone_durations ring /\ compute_asap_throughput 4 400 ring = Ok (1 # 7)%Q.
Proof.
  split; [|vm_compute; reflexivity]. intros v d Hv _ Hd. cbn in Hv. repeat (destruct Hv as [<-|Hv]; [cbn in Hd; destruct Hd as [<-|[]]; eexists; reflexivity|]). destruct Hv.
Qed.
(** A fork, whose first task has no input and could run ahead for ever: one schedule per 4. *)
Example C112_not_vacuous : graph_wf fork /\ no_init fork /\ no_lonely_phases fork /\ compute_repetition_vector 4 fork = Ok (Some [2; 2; 1]) /\
  exists s, schedule_valid fork s /\ keeps_pace fork (as_vector [2; 2; 1]) s 4.
Proof.
  pose proof fork_hyp as (WF & NI & EV & GD & CG & PD). split; [exact WF|]. split; [exact NI|]. split; [exact (guarded_phases fork GD)|].
  assert (EN : compute_repetition_vector 4 fork = Ok (Some [2; 2; 1])) by (vm_compute; reflexivity). split; [exact EN|].
  destruct (C70_throughput_of_any_graph_partial fork 4 400 (1 # 4) WF NI EV PD) as (N & EN' & _ & _ & H).
  - intros v d Hv Hd. cbn in Hv. repeat (destruct Hv as [<-|Hv]; [cbn in Hd; destruct Hd as [<-|[]]; reflexivity|]). destruct Hv.
  - intros v d Hv _ Hd. cbn in Hv. repeat (destruct Hv as [<-|Hv]; [cbn in Hd; destruct Hd as [<-|[]]; eexists; reflexivity|]). destruct Hv.
  - left. cbn. lia.
  - discriminate.
  - cbn. lia.
  - vm_compute. reflexivity.
  - reflexivity.
  - rewrite EN in EN'. injection EN' as <-. destruct (H eq_refl) as [(s & SV & _ & KP) _]. exists s. split; [exact SV|exact KP].
Qed.
