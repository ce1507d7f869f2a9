(** Properties of the exploration by self-timed execution: C111. *)
From Coq Require Import QArith Qreduction Lqa.
From Verif Require Import Base Graph ScheduleSpec KPeriodicProps RepVec RepVecSpec RepVecProofs KIterSpec Sim SimSpec SimProofs SimTime
  StorDep StorDepProps Storage StorageSpec Dse DseSpec DseProofs DseProps DseExecSpec DseExecProofs.
Open Scope Z_scope.

(** ** C111 *)
(** On every distribution explored, the execution answers. *)
Theorem C111_answers : forall corrected g N step init d, graph_wf g -> no_init g -> even_self_loops g -> all_guarded g true -> connected_graph g -> vertices g <> [] ->
  positive_durations g -> compute_repetition_vector (S (length (vertices g))) g = Ok (Some N) ->
  (forall e, In e (channel_ids g) -> 0 < e /\ 0 < step e) -> capacities_ok g (Some (room g init)) ->
  (exists i, (i < length (vertices g))%nat /\ nth i N 0 < Sim.int_max) -> on_grid (channel_ids g) 0 step init d ->
  exists ticks a r, component_cycles corrected (S (length (vertices g))) ticks g (room g d) = Ok (a, r).
Proof.
  intros corrected g N step init d WF NI EV GD CG NE PD EN Pos CO Sm G. apply (always_answers g N WF NI EV GD CG NE PD EN corrected d Sm).
  apply (grid_fits g step init (fun e He => proj1 (Pos e He)) (fun e He => proj2 (Pos e He)) CO d G).
Qed.
Print Assumptions C111_answers.

(** The answers are a sound evaluation in the sense of C59 and C60: a distribution above another
    that is faster has more room on a channel reported for the other. *)
Theorem C111_sound_evaluation : forall g step init thr critical, graph_wf g -> no_init g -> even_self_loops g -> all_guarded g true -> connected_graph g ->
  vertices g <> [] -> positive_durations g -> short_durations g ->
  (forall e, In e (channel_ids g) -> 0 < e /\ 0 < step e) -> capacities_ok g (Some (room g init)) ->
  executes true g step init thr critical -> sound_evaluation (channel_ids g) 0 step init thr critical.
Proof.
  intros g step init thr critical WF NI EV GD CG NE PD SD Pos CO EX.
  exact (executes_sound g step init WF NI EV GD CG NE PD SD (fun e He => proj1 (Pos e He)) (fun e He => proj2 (Pos e He)) CO thr critical EX).
Qed.
Print Assumptions C111_sound_evaluation.

(** Hence the answer of the exploration with SYMB_EXEC_CORRECTED is the trade-off between storage
    and throughput of the graph itself.  Larger answers are strictly faster; each answer that is
    not the empty distribution of throughput 0 is the throughput of the best schedule within its
    capacities; and a schedule within the capacities of any distribution of the grid is no faster
    than an answer that is no larger, or an answer that is no larger reaches the target. *)
Theorem C111_true_frontier : forall g N step init thr critical target fuel r, graph_wf g -> no_init g -> even_self_loops g -> all_guarded g true -> connected_graph g ->
  vertices g <> [] -> positive_durations g -> short_durations g -> compute_repetition_vector (S (length (vertices g))) g = Ok (Some N) ->
  channel_list (channel_ids g) -> valid (channel_ids g) init -> (forall e, In e (channel_ids g) -> 0 < e /\ 0 < step e) -> capacities_ok g (Some (room g init)) ->
  executes true g step init thr critical -> (0 < target)%Q ->
  exploration fuel thr critical 0 step target (channel_ids g) init = Ok r ->
  pareto r /\
  (forall x, In x (flat r) ->
     (sd_thr x == 0)%Q /\ (forall e, In e (channel_ids g) -> quantity x e = 0) \/
     (sd_thr x == 0)%Q /\ (forall s, ~ bounded_valid g (Some (room g x)) s) \/
     (0 < sd_thr x)%Q /\
     (exists s, bounded_valid g (Some (room g x)) s /\ non_zeno g s /\ keeps_pace g (as_vector N) s (/ sd_thr x)) /\
     (forall s omega, bounded_valid g (Some (room g x)) s -> keeps_pace g (as_vector N) s omega -> (/ sd_thr x <= omega)%Q)) /\
  (forall b s omega, on_grid (channel_ids g) 0 step init b -> bounded_valid g (Some (room g b)) s -> keeps_pace g (as_vector N) s omega ->
     exists x, In x (flat r) /\ sd_size x <= sd_size b /\ ((0 < sd_thr x)%Q /\ (/ sd_thr x <= omega)%Q \/ (target <= sd_thr x)%Q)).
Proof.
  intros g N step init thr critical target fuel r WF NI EV GD CG NE PD SD EN CL Vi Pos CO EX T0 H.
  pose proof (C111_sound_evaluation g step init thr critical WF NI EV GD CG NE PD SD Pos CO EX) as SE.
  assert (Q0 : forall e, In e (channel_ids g) -> 0 <= quantity init e).
  { intros e He. apply in_map_iff in He. destruct He as (c & <- & Hc). destruct (In_nth_error _ _ Hc) as [k Ek].
    pose proof (CO _ eq_refl k c Ek) as X. unfold room in X. rewrite Ek in X. destruct WF as (_ & We & _). destruct (We c Hc) as (? & ? & _ & _ & _ & _ & _ & P). lia. }
  destruct (C59_pareto_frontier (channel_ids g) 0 step init thr critical target fuel r CL Vi (fun e He _ => proj2 (Pos e He)) SE T0 Q0 H) as (P & A & B).
  assert (M : forall d, on_grid (channel_ids g) 0 step init d -> exists q, (thr d == q)%Q /\
    (((q == 0)%Q /\ forall s, ~ bounded_valid g (Some (room g d)) s) \/
     ((0 < q)%Q /\ (exists s, bounded_valid g (Some (room g d)) s /\ non_zeno g s /\ keeps_pace g (as_vector N) s (/ q)) /\
      forall s omega, bounded_valid g (Some (room g d)) s -> keeps_pace g (as_vector N) s omega -> (/ q <= omega)%Q))).
  { intros d G. destruct (EX d G) as (t & a & ra & E & Et & _). exists (rate a). split; [assumption|].
    exact (exec_meaning g N step init WF NI EV GD CG NE PD SD EN (fun e He => proj1 (Pos e He)) (fun e He => proj2 (Pos e He)) CO t a ra d G E). }
  split; [assumption|]. split.
  - intros x Hx. destruct (A x Hx) as [[G Ex]|[Z Ex]]; [|left; split; [exact Ex|exact Z]]. destruct (M x G) as (q & Eq & [[E0 D]|(Pq & (s & SV & NZ & KP) & O)]).
    + right. left. split; [|assumption]. rewrite Ex. unfold clamp. destruct (Qle_bool 0 (thr x)); cbn [negb]; lra.
    + right. right. assert (Ec : (sd_thr x == q)%Q).
      { rewrite Ex. unfold clamp. destruct (Qle_bool 0 (thr x)) eqn:L; cbn [negb]; [assumption|]. assert (Qle_bool 0 (thr x) = true) by (apply Qle_bool_iff; lra). congruence. }
      split; [lra|]. split.
      * exists s. split; [assumption|]. split; [assumption|]. destruct KP as [C KP]. exists C. intros i m Hi. rewrite Ec. apply KP; assumption.
      * intros s' omega SV' KP'. rewrite Ec. eauto.
  - intros b s omega G SV KP. destruct (B b G) as (x & Hx & Sz & Or). exists x. split; [assumption|]. split; [assumption|].
    destruct Or as [L|L]; [left|right; assumption]. destruct (M b G) as (q & Eq & [[_ D]|(Pq & _ & O)]); [destruct (D s SV)|].
    assert (Px : (0 < sd_thr x)%Q) by lra. split; [assumption|]. eapply Qle_trans; [|apply (O s omega SV KP)].
    apply Qle_shift_inv_r; [assumption|]. rewrite Qmult_comm. apply Qle_shift_div_l; [assumption|]. lra.
Qed.
Print Assumptions C111_true_frontier.

(** A ring of three tasks, from the smallest capacities. *)
Definition ring := mkGraph (map (fun i => mkVertex (fst i) 1 0 [inject_Z (snd i)] [] 1) [(1, 2); (2, 1); (3, 2)])
  [mkEdge 1 0 2 [1] [1] [] [] 1; mkEdge 2 2 1 [1] [2] [] [] 1; mkEdge 3 1 0 [2] [1] [] [] 0].
Definition ring_init : sd := sd_make 3 0%Q [(1, (1, 1)); (2, (1, 2)); (3, (1, 2))] 5.
Definition ring_larger : sd := sd_make 3 0%Q [(1, (1, 2)); (2, (1, 2)); (3, (1, 2))] 6.
Lemma ring_hyp : graph_wf ring /\ no_init ring /\ even_self_loops ring /\ all_guarded ring true /\ connected_graph ring /\ positive_durations ring /\ short_durations ring.
Proof.
  split; [split; [|split]|split; [|split; [|split; [|split; [|split]]]]].
  - intros v Hv. cbn in Hv. repeat (destruct Hv as [<-|Hv]; [(split; [cbn; lia|split; [reflexivity|split; [reflexivity|]]]); cbn; in_cases; unfold Qle; cbn; lia|]).
    destruct Hv.
  - intros c Hc. cbn in Hc. repeat (destruct Hc as [<-|Hc]; [eexists; eexists; (split; [reflexivity|split; [reflexivity|]]);
      repeat (split; [reflexivity|]); (split; [cbn; in_cases; lia|]); cbn; lia|]). destruct Hc.
  - repeat constructor; cbn; intuition discriminate.
  - intros v Hv. cbn in Hv. repeat (destruct Hv as [<-|Hv]; [reflexivity|]). destruct Hv.
  - intros c Hc. cbn in Hc. repeat (destruct Hc as [<-|Hc]; [discriminate|]). destruct Hc.
  - intros i Hi. cbn in Hi. destruct i as [|[|[|i]]]; [| | |lia].
    + left. eexists. split; [right; right; left; reflexivity|reflexivity].
    + left. eexists. split; [right; left; reflexivity|reflexivity].
    + left. eexists. split; [left; reflexivity|reflexivity].
  - assert (C : forall i, (i < 3)%nat -> linked ring 0 i /\ linked ring i 0).
    { intros i Hi. destruct i as [|[|[|i]]]; [| | |lia].
      - split; apply linked_refl.
      - split; [apply (linked_bwd ring 0 (mkEdge 3 1 0 [2] [1] [] [] 0))|apply (linked_fwd ring 1 (mkEdge 3 1 0 [2] [1] [] [] 0))]; cbn; auto using linked_refl.
      - split; [apply (linked_fwd ring 0 (mkEdge 1 0 2 [1] [1] [] [] 1))|apply (linked_bwd ring 2 (mkEdge 1 0 2 [1] [1] [] [] 1))]; cbn; auto using linked_refl. }
    intros i j Hi Hj. cbn in Hi, Hj. destruct (C i Hi) as [_ A]. destruct (C j Hj) as [B _]. revert A B. generalize 0%nat. clear. intros u A B.
    induction B; [assumption| |]; [eapply linked_fwd|eapply linked_bwd]; eauto.
  - intros v d Hv. cbn in Hv. repeat (destruct Hv as [<-|Hv]; [cbn; in_cases; reflexivity|]). destruct Hv.
  - intros v d Hv. cbn in Hv. repeat (destruct Hv as [<-|Hv]; [cbn; in_cases; reflexivity|]). destruct Hv.
Qed.
Lemma ring_setting : compute_repetition_vector 4 ring = Ok (Some [2; 1; 2]) /\ channel_list (channel_ids ring) /\ valid (channel_ids ring) ring_init /\
  capacities_ok ring (Some (room ring ring_init)) /\ on_grid (channel_ids ring) 0 (fun _ => 1) ring_init ring_larger.
Proof.
  split; [vm_compute; reflexivity|]. split; [cbn; repeat constructor|]. split; [split; reflexivity|]. split.
  - intros cap [= <-] [|[|[|k]]] c E; cbn in E; [| | |destruct k; discriminate]; injection E as <-; cbn; lia.
  - split; [split; reflexivity|]. split; [intros e He; cbn in He; in_cases; reflexivity|]. intros e He. split; [intros _|intros L; cbn in He; in_cases; lia].
    cbn in He. in_cases; [exists 1|exists 0|exists 0]; cbn; lia.
Qed.
Lemma ring_executes corrected : exists thr critical, executes corrected ring (fun _ => 1) ring_init (run_thr ring corrected 400 thr) (run_critical ring corrected 400 critical).
Proof.
  pose proof ring_hyp as (WF & NI & EV & GD & CG & PD & _). pose proof ring_setting as (EN & _ & _ & CO & _).
  destruct (executes_exists ring [2; 1; 2] (fun _ => 1) ring_init WF NI EV GD CG) with (corrected := corrected) as (thr & critical & EX); auto.
  - discriminate.
  - cbn. intros e He. in_cases; lia.
  - intros. lia.
  - exists 0%nat. cbn. split; [lia|]. reflexivity.
  - exists thr, critical. apply executes_run. assumption.
Qed.
Example C111_not_vacuous : graph_wf ring /\ no_init ring /\ even_self_loops ring /\ all_guarded ring true /\ connected_graph ring /\
  positive_durations ring /\ short_durations ring /\ compute_repetition_vector 4 ring = Ok (Some [2; 1; 2]) /\ channel_list (channel_ids ring) /\
  valid (channel_ids ring) ring_init /\ capacities_ok ring (Some (room ring ring_init)) /\
  exists thr critical r, executes true ring (fun _ => 1) ring_init thr critical /\
    exploration 50 thr critical 0 (fun _ => 1) (1 # 7)%Q (channel_ids ring) ring_init = Ok r /\
    map (fun x => (sd_size x, sd_thr x)) (flat r) = [(5, (1 # 9)%Q); (6, (1 # 7)%Q)].
Proof.
  pose proof ring_hyp as (WF & NI & EV & GD & CG & PD & SD). pose proof ring_setting as (EN & CL & V & CO & _). repeat (split; [assumption|]).
  destruct (ring_executes true) as (thr & critical & EX). eexists _, _, _. split; [exact EX|]. split; [vm_compute; reflexivity|reflexivity].
Qed.

(** By default the exploration stops short of the target: from the smallest capacities of this
    ring no channel is reported, and the only answer is slower than the graph with one more place. *)
Theorem C111_default_refuted : exists g N step init thr critical target fuel r b, graph_wf g /\ no_init g /\ even_self_loops g /\ all_guarded g true /\ connected_graph g /\
  vertices g <> [] /\ positive_durations g /\ short_durations g /\ compute_repetition_vector (S (length (vertices g))) g = Ok (Some N) /\
  channel_list (channel_ids g) /\ valid (channel_ids g) init /\ (forall e, In e (channel_ids g) -> 0 < e /\ 0 < step e) /\ capacities_ok g (Some (room g init)) /\
  executes false g step init thr critical /\ (0 < target)%Q /\
  exploration fuel thr critical 0 step target (channel_ids g) init = Ok r /\
  on_grid (channel_ids g) 0 step init b /\ (target <= thr b)%Q /\ forall x, In x (flat r) -> (sd_thr x < target)%Q.
Proof.
  pose proof ring_hyp as (WF & NI & EV & GD & CG & PD & SD). pose proof ring_setting as (EN & CL & V & CO & GL).
  destruct (ring_executes false) as (thr & critical & EX).
  exists ring, [2; 1; 2], (fun _ => 1), ring_init, (run_thr ring false 400 thr), (run_critical ring false 400 critical), (1 # 7)%Q, 50%nat. eexists. exists ring_larger.
  repeat (split; [exact WF || exact NI || exact EV || exact GD || exact CG|]). split; [discriminate|]. split; [exact PD|]. split; [exact SD|]. split; [exact EN|].
  split; [exact CL|]. split; [exact V|]. split; [intros e He; cbn in He; in_cases; lia|]. split; [assumption|]. split; [exact EX|].
  split; [reflexivity|]. split; [vm_compute; reflexivity|]. split; [assumption|]. split; [vm_compute; discriminate|].
  intros x [<-|[]]. reflexivity.
Qed.
Print Assumptions C111_default_refuted.
