(** Properties of the storage dependencies: C107-C110. *)
From Coq Require Import QArith Qreduction Lqa.
From Verif Require Import Base Graph ScheduleSpec KPeriodicProps RepVec RepVecSpec RepVecProofs KIterSpec Sim SimSpec SimProofs SimTime SimFinal StorDep StorDepSpec StorDepScc StorDepCycle StorDepDead StorDepPeriod.
Open Scope Z_scope.

(** ** C107 *)
(** Whatever the dependencies between the tasks, the search asked for by SYMB_EXEC_CORRECTED ends,
    and lists the channels on the cycles of dependencies, no other one and none twice. *)
Theorem C107_component_search : forall g d fuel, graph_wf g -> task_deps g d -> (length (vertices g) < fuel)%nat ->
  exists r, storage_deps true fuel g d = Ok r /\ (forall k, In k r <-> on_cycle g d k) /\ NoDup r.
Proof.
  intros g d fuel WF TD F. destruct (storage_deps_scc_run g d TD fuel F) as (r & S & H).
  - intros c Hc. apply In_nth_error in Hc. destruct Hc as [k E]. destruct (edge_in_range g k c WF E). split; apply vid_in; assumption.
  - exists r. split; [exact S|]. split; [exact H|]. unfold storage_deps_scc in S.
    destruct (dep_stack_loop _ _ _ _ _) as [x| | |]; cbn [bind] in S; try discriminate.
    destruct (dep_component_loop _ _ _ _ _) as [y| | |]; cbn [bind] in S; try discriminate. injection S as <-. apply scc_channels_nodup.
Qed.
Print Assumptions C107_component_search.

(** Four tasks and channels; a waits for b and for d, d for b, b for c, c for a. *)
Definition two_ways := mkGraph (map (fun i => mkVertex i 1 0 [1]%Q [] 1) [1; 2; 3; 4])
  [mkEdge 1 0 1 [1] [1] [] [] 0; mkEdge 2 1 2 [1] [1] [] [] 0; mkEdge 3 2 0 [1] [1] [] [] 1; mkEdge 4 0 3 [1] [1] [] [] 0;
   mkEdge 5 3 1 [1] [1] [] [] 0].
Definition two_ways_deps : depgraph := [(1, 2); (2, 3); (3, 1); (1, 4); (4, 2)].
Lemma two_ways_wf : graph_wf two_ways /\ task_deps two_ways two_ways_deps.
Proof.
  split; [split; [|split]|].
  - intros v Hv. cbn in Hv. repeat (destruct Hv as [<-|Hv]; [(split; [cbn; lia|split; [reflexivity|split; [reflexivity|]]]); cbn; in_cases; unfold Qle; cbn; lia|]).
    destruct Hv.
  - intros c Hc. cbn in Hc. repeat (destruct Hc as [<-|Hc]; [eexists; eexists; (split; [reflexivity|split; [reflexivity|]]);
      repeat (split; [reflexivity|]); (split; [cbn; in_cases; lia|]); cbn; lia|]). destruct Hc.
  - repeat constructor; cbn; intuition discriminate.
  - intros u v H. cbn in H. repeat (destruct H as [[= <- <-]|H]; [cbn; tauto|]). destruct H.
Qed.
Example C107_not_vacuous : storage_deps true 5 two_ways two_ways_deps = Ok [0; 1; 2; 3; 4]%nat /\
  storage_deps true 5 two_ways [(1, 2); (2, 3); (1, 4); (4, 1)] = Ok [3]%nat.
Proof. split; vm_compute; reflexivity. Qed.

(** ** C108 *)
(** The search made by default ends, lists channels on cycles of dependencies only, and when there
    is a cycle lists all the channels of at least one. *)
Theorem C108_default_search : forall g d fuel, graph_wf g -> task_deps g d -> (length (vertices g) < fuel)%nat ->
  exists r, storage_deps false fuel g d = Ok r /\ (forall k, In k r -> on_cycle g d k) /\
    ((exists u l, l <> [] /\ chain d u l u) -> whole_cycle g d r).
Proof. intros g d fuel WF TD F. exact (storage_deps_cycles_run g d TD fuel F). Qed.
Print Assumptions C108_default_search.

(** It misses channels that are on cycles. *)
Theorem C108_complete_refuted : exists g d fuel r k, graph_wf g /\ task_deps g d /\ (length (vertices g) < fuel)%nat /\
  storage_deps false fuel g d = Ok r /\ on_cycle g d k /\ ~ In k r.
Proof.
  exists two_ways, two_ways_deps, 5%nat, [0; 1; 2]%nat, 3%nat. split; [apply two_ways_wf|]. split; [apply two_ways_wf|]. split; [cbn; lia|].
  split; [vm_compute; reflexivity|]. split; [|cbn; intuition discriminate].
  exists (mkEdge 4 0 3 [1] [1] [] [] 0). split; [reflexivity|]. split; [cbn; tauto|]. exists [2; 3; 1]. cbn. tauto.
Qed.
Print Assumptions C108_complete_refuted.

(** ** C109 *)
(** When the execution with the capacities [cap] stops, the channels listed are to blame, whichever
    the search: capacities that leave all of these as they are, or lower them, admit no schedule,
    no matter how large the others are. *)
Theorem C109_deadlock : forall corrected fuel ticks g cap r cap', graph_wf g -> no_init g -> even_self_loops g -> all_guarded g true ->
  positive_durations g -> short_durations g -> vertices g <> [] -> (length (vertices g) < fuel)%nat ->
  component_cycles corrected fuel ticks g cap = Ok (Deadlock, r) ->
  (forall k, In k r -> cap' k <= cap k) -> forall s, ~ bounded_valid g (Some cap') s.
Proof. exact deadlock_stays. Qed.
Print Assumptions C109_deadlock.

(** A produces 2 tokens for B, which consumes 3 and produces 3 for C, which returns one by one the
    tokens that A consumes; with room for 3 tokens A cannot start a second time. *)
Definition tight := mkGraph (map (fun i => mkVertex i 1 0 [inject_Z i] [] 1) [1; 2; 3])
  [mkEdge 1 0 1 [2] [3] [] [] 0; mkEdge 2 1 2 [3] [1] [] [] 0; mkEdge 3 2 0 [1] [2] [] [] 4].
Lemma tight_hyp : graph_wf tight /\ no_init tight /\ even_self_loops tight /\ all_guarded tight true /\ positive_durations tight /\ short_durations tight.
Proof.
  split; [split; [|split]|split; [|split; [|split; [|split]]]].
  - intros v Hv. cbn in Hv. repeat (destruct Hv as [<-|Hv]; [(split; [cbn; lia|split; [reflexivity|split; [reflexivity|]]]); cbn; in_cases; unfold Qle; cbn; lia|]).
    destruct Hv.
  - intros c Hc. cbn in Hc. repeat (destruct Hc as [<-|Hc]; [eexists; eexists; (split; [reflexivity|split; [reflexivity|]]);
      repeat (split; [reflexivity|]); (split; [cbn; in_cases; lia|]); cbn; lia|]). destruct Hc.
  - repeat constructor; cbn; intuition discriminate.
  - intros v Hv. cbn in Hv. repeat (destruct Hv as [<-|Hv]; [reflexivity|]). destruct Hv.
  - intros c Hc. cbn in Hc. repeat (destruct Hc as [<-|Hc]; [discriminate|]). destruct Hc.
  - intros i Hi. cbn in Hi. left. destruct i as [|[|[|i]]]; [| | |lia].
    + eexists. split; [right; right; left; reflexivity|reflexivity].
    + eexists. split; [left; reflexivity|reflexivity].
    + eexists. split; [right; left; reflexivity|reflexivity].
  - intros v d Hv. cbn in Hv. repeat (destruct Hv as [<-|Hv]; [cbn; in_cases; reflexivity|]). destruct Hv.
  - intros v d Hv. cbn in Hv. repeat (destruct Hv as [<-|Hv]; [cbn; in_cases; reflexivity|]). destruct Hv.
Qed.
Example C109_not_vacuous : component_cycles false 5 400 tight (fun _ => 4) = Ok (Periodic 1 21, []) /\
  component_cycles false 5 400 tight (fun k => if (k =? 0)%nat then 3 else 4) = Ok (Deadlock, [0]%nat) /\
  component_cycles true 5 400 tight (fun k => if (k =? 0)%nat then 3 else 4) = Ok (Deadlock, [0]%nat).
Proof. split; [|split]; vm_compute; reflexivity. Qed.

(** ** C110 *)
(** When the execution settles on [n] iterations every [T], the channels listed by the search asked
    for by SYMB_EXEC_CORRECTED are to blame for not being faster: with capacities that leave all of
    these as they are, or lower them, no schedule is faster, no matter how large the others are. *)
Theorem C110_period : forall fuel ticks g cap n T r cap' N, graph_wf g -> no_init g -> even_self_loops g -> all_guarded g true -> connected_graph g ->
  vertices g <> [] -> (length (vertices g) < fuel)%nat -> positive_durations g -> capacities_ok g (Some cap) ->
  component_cycles true fuel ticks g cap = Ok (Periodic n T, r) -> compute_repetition_vector fuel g = Ok (Some N) ->
  (forall k, In k r -> cap' k <= cap k) ->
  forall s omega, bounded_valid g (Some cap') s -> keeps_pace g (as_vector N) s omega -> (T / inject_Z (Z.of_nat n) <= omega)%Q.
Proof. exact period_stays. Qed.
Print Assumptions C110_period.

(** So does the execution say with these capacities: it stops, or is not faster. *)
Theorem C110_answers : forall fuel ticks ticks' g cap n T r cap' n' T', graph_wf g -> no_init g -> even_self_loops g -> all_guarded g true ->
  connected_graph g -> vertices g <> [] -> (length (vertices g) < fuel)%nat -> positive_durations g ->
  capacities_ok g (Some cap) -> capacities_ok g (Some cap') ->
  component_cycles true fuel ticks g cap = Ok (Periodic n T, r) -> (forall k, In k r -> cap' k <= cap k) ->
  component_throughput fuel ticks' g (Some cap') = Ok (Periodic n' T') ->
  (inject_Z (Z.of_nat n') / T' <= inject_Z (Z.of_nat n) / T)%Q.
Proof.
  intros fuel ticks ticks' g cap n T r cap' n' T' WF NI EV GD CG NE FU PD CO CO' H Le H'.
  destruct (component_exact g (Some cap') fuel ticks' WF NI EV GD CG NE ltac:(lia) n' T' CO' PD H') as (N & EN & Hn' & HT' & (s & SV & _ & KP & _) & _).
  pose proof (component_cycles_throughput _ _ _ _ _ _ _ H) as H0.
  destruct (component_exact g (Some cap) fuel ticks WF NI EV GD CG NE ltac:(lia) n T CO PD H0) as (_ & _ & Hn & HT & _).
  pose proof (C110_period fuel ticks g cap n T r cap' N WF NI EV GD CG NE FU PD CO H EN Le s _ SV KP) as Q.
  assert (Pn : (0 < inject_Z (Z.of_nat n))%Q) by (change 0%Q with (inject_Z 0); rewrite <- Zlt_Qlt; lia).
  assert (Pn' : (0 < inject_Z (Z.of_nat n'))%Q) by (change 0%Q with (inject_Z 0); rewrite <- Zlt_Qlt; lia).
  apply Qle_shift_div_r; [assumption|].
  assert (Q1 : (T * inject_Z (Z.of_nat n') <= T' * inject_Z (Z.of_nat n))%Q).
  { setoid_replace T with (T / inject_Z (Z.of_nat n) * inject_Z (Z.of_nat n))%Q using relation Qeq at 1 by (field; lra).
    setoid_replace T' with (T' / inject_Z (Z.of_nat n') * inject_Z (Z.of_nat n'))%Q using relation Qeq by (field; lra).
    apply (Qmult_le_compat_r _ _ (inject_Z (Z.of_nat n) * inject_Z (Z.of_nat n'))) in Q; [lra|]. apply Qmult_le_0_compat; lra. }
  setoid_replace (inject_Z (Z.of_nat n) / T * T')%Q with (T' * inject_Z (Z.of_nat n) / T)%Q using relation Qeq by (field; lra).
  apply Qle_shift_div_l; [assumption|]. lra.
Qed.
Print Assumptions C110_answers.

(** B feeds A and C, which also hears from A and waits for two tokens of each. *)
Definition fork := mkGraph (map (fun i => mkVertex (fst i) 1 0 [inject_Z (snd i)] [] 1) [(1, 2); (2, 1); (3, 2)])
  [mkEdge 1 1 0 [1] [1] [] [] 1; mkEdge 2 1 2 [1] [2] [] [] 1; mkEdge 3 0 2 [1] [2] [] [] 1].
Lemma fork_hyp : graph_wf fork /\ no_init fork /\ even_self_loops fork /\ all_guarded fork true /\ connected_graph fork /\ positive_durations fork.
Proof.
  split; [split; [|split]|split; [|split; [|split; [|split]]]].
  - intros v Hv. cbn in Hv. repeat (destruct Hv as [<-|Hv]; [(split; [cbn; lia|split; [reflexivity|split; [reflexivity|]]]); cbn; in_cases; unfold Qle; cbn; lia|]).
    destruct Hv.
  - intros c Hc. cbn in Hc. repeat (destruct Hc as [<-|Hc]; [eexists; eexists; (split; [reflexivity|split; [reflexivity|]]);
      repeat (split; [reflexivity|]); (split; [cbn; in_cases; lia|]); cbn; lia|]). destruct Hc.
  - repeat constructor; cbn; intuition discriminate.
  - intros v Hv. cbn in Hv. repeat (destruct Hv as [<-|Hv]; [reflexivity|]). destruct Hv.
  - intros c Hc. cbn in Hc. repeat (destruct Hc as [<-|Hc]; [discriminate|]). destruct Hc.
  - intros i Hi. cbn in Hi. destruct i as [|[|[|i]]]; [| | |lia].
    + left. eexists. split; [left; reflexivity|reflexivity].
    + right. split; [reflexivity|]. eexists. split; [left; reflexivity|reflexivity].
    + left. eexists. split; [right; left; reflexivity|reflexivity].
  - assert (C : forall i, (i < 3)%nat -> linked fork 1 i /\ linked fork i 1).
    { intros i Hi. destruct i as [|[|[|i]]]; [| | |lia].
      - split; [apply (linked_fwd fork 1 (mkEdge 1 1 0 [1] [1] [] [] 1))|apply (linked_bwd fork 0 (mkEdge 1 1 0 [1] [1] [] [] 1))]; cbn; auto using linked_refl.
      - split; apply linked_refl.
      - split; [apply (linked_fwd fork 1 (mkEdge 2 1 2 [1] [2] [] [] 1))|apply (linked_bwd fork 2 (mkEdge 2 1 2 [1] [2] [] [] 1))]; cbn; auto using linked_refl. }
    intros i j Hi Hj. cbn in Hi, Hj. destruct (C i Hi) as [_ A]. destruct (C j Hj) as [B _]. revert A B. generalize 1%nat. clear. intros u A B.
    induction B; [assumption| |]; [eapply linked_fwd|eapply linked_bwd]; eauto.
  - intros v d Hv. cbn in Hv. repeat (destruct Hv as [<-|Hv]; [cbn; in_cases; reflexivity|]). destruct Hv.
Qed.
Definition capacities (l : list Z) (k : nat) : Z := nth k l 0.
Example C110_not_vacuous : capacities_ok fork (Some (capacities [1; 3; 2])) /\
  component_cycles true 4 400 fork (capacities [1; 3; 2]) = Ok (Periodic 1 8, [0; 2]%nat) /\
  component_cycles true 4 400 fork (capacities [1; 30; 2]) = Ok (Periodic 1 8, [0; 2]%nat) /\
  component_cycles true 4 400 fork (capacities [1; 3; 3]) = Ok (Periodic 1 6, [0]%nat).
Proof.
  split; [|vm_compute; auto]. intros cap [= <-] [|[|[|k]]] c E; cbn in E; [| | |destruct k; discriminate]; injection E as <-; cbn; lia.
Qed.

(** The channels of the search made by default are not to blame: with larger capacities for the
    others, the execution is faster. *)
Theorem C110_default_refuted : exists fuel ticks g cap n T r cap' n' T', graph_wf g /\ no_init g /\ even_self_loops g /\ all_guarded g true /\
  connected_graph g /\ vertices g <> [] /\ (length (vertices g) < fuel)%nat /\ positive_durations g /\
  capacities_ok g (Some cap) /\ capacities_ok g (Some cap') /\
  component_cycles false fuel ticks g cap = Ok (Periodic n T, r) /\ (forall k, In k r -> cap' k <= cap k) /\
  component_throughput fuel ticks g (Some cap') = Ok (Periodic n' T') /\
  (inject_Z (Z.of_nat n) / T < inject_Z (Z.of_nat n') / T')%Q.
Proof.
  exists 4%nat, 400%nat, fork, (capacities [1; 3; 2]), 1%nat, 8%Q, [0]%nat, (capacities [1; 3; 3]), 1%nat, 6%Q.
  pose proof fork_hyp as (WF & NI & EV & GD & CG & PD). repeat (split; [first [assumption | discriminate | cbn; lia]|]).
  split; [apply C110_not_vacuous|]. split.
  { intros cap [= <-] [|[|[|k]]] c E; cbn in E; [| | |destruct k; discriminate]; injection E as <-; cbn; lia. }
  split; [vm_compute; reflexivity|]. split; [intros k [<-|[]]; cbn; lia|]. split; [vm_compute; reflexivity|]. reflexivity.
Qed.
Print Assumptions C110_default_refuted.
