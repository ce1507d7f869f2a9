(** Properties of the throughput by simulation of a whole graph: C70. *)
From Coq Require Import QArith Qreduction Lqa Permutation.
From Verif Require Import Base Graph KPeriodic KPeriodicProps ScheduleSpec EventGraphSpec KIterSpec KIter KIterProps RepVec RepVecSpec RepVecProps
  Scc SccSpec SccProofs Sim SimSpec SimProps SimScc SimSccSpec SimSccSub SimSccIdle SimSccFinal SimSccEnds.
Open Scope Z_scope.

(** ** C70 *)
(** The value reported for any graph, strongly connected or not: 0 is reported only when no
    schedule of the whole graph exists; otherwise some schedule of the whole graph completes one
    iteration every 1/value on average, and none does better.  The durations of the tasks on no
    cycle are integers; the graph is not a single task without channels (C69). *)
Theorem C70_throughput_of_any_graph_partial : forall g fuel ticks thr,
  graph_wf g -> no_init g -> even_self_loops g -> positive_durations g -> short_durations g -> whole_lone_durations g ->
  (1 < length (vertices g))%nat \/ edges g <> [] -> vertices g <> [] -> (length (vertices g) < fuel)%nat ->
  compute_asap_throughput fuel ticks g = Ok thr -> (thr < long_max)%Q ->
  exists N, compute_repetition_vector fuel g = Ok (Some N) /\
    (0 <= thr)%Q /\
    ((thr == 0)%Q -> forall s, ~ schedule_valid g s) /\
    ((0 < thr)%Q ->
       (exists s, schedule_valid g s /\ non_zeno g s /\ keeps_pace g (as_vector N) s (/ thr)) /\
       (forall s omega, schedule_valid g s -> keeps_pace g (as_vector N) s omega -> (/ thr <= omega)%Q)).
Proof. exact asap_exact. Qed.
Print Assumptions C70_throughput_of_any_graph_partial.

(** It always answers on consistent graphs whose repetition factors are below INT_MAX. *)
Theorem C70_always_answers_partial : forall g fuel N,
  graph_wf g -> no_init g -> even_self_loops g -> positive_durations g -> whole_lone_durations g -> short_lone_cycles g ->
  (1 < length (vertices g))%nat \/ edges g <> [] -> vertices g <> [] -> (length (vertices g) < fuel)%nat ->
  compute_repetition_vector fuel g = Ok (Some N) -> (forall i, (i < length (vertices g))%nat -> nth i N 0 < int_max) ->
  exists ticks thr, compute_asap_throughput fuel ticks g = Ok thr.
Proof. exact asap_ends. Qed.
Print Assumptions C70_always_answers_partial.

(** Giving the simulation more steps does not change an answer. *)
Theorem C70_steps_do_not_matter : forall g fuel ticks more thr, compute_asap_throughput fuel ticks g = Ok thr ->
  compute_asap_throughput fuel (ticks + more) g = Ok thr.
Proof.
  intros g fuel ticks more thr. unfold compute_asap_throughput. destruct (compute_repetition_vector fuel g) as [[N|]| | |]; cbn [bind]; try discriminate.
  destruct (kosaraju fuel g) as [comps| | |]; cbn [bind]; try discriminate. destruct (1 <? length comps)%nat.
  - destruct (generate_sccs g comps) as [hs| | |]; cbn [bind]; try discriminate. generalize long_max. induction hs as [|h hs IH]; intros best; cbn [slowest]; [auto|].
    destruct (scaled_throughput fuel ticks g N h) as [o| | |] eqn:E; cbn [bind]; try discriminate. rewrite (scaled_more _ _ _ _ _ _ _ E). cbn [bind]. apply IH.
  - destruct (component_throughput fuel ticks g None) as [a| | |] eqn:E; cbn [bind]; try discriminate. rewrite (component_more _ _ _ _ _ _ E). auto.
Qed.
Print Assumptions C70_steps_do_not_matter.

(** The simulation and K-Iter agree on any graph. *)
Theorem C70_agrees_with_kiter_partial : forall solve arrange var g Nl f fuel r K cs ticks thr, (forall l, Permutation (arrange l) l) ->
  graph_wf g -> no_init g -> no_overlap g -> edge_ids_ok g -> even_self_loops g -> positive_durations g -> short_durations g -> whole_lone_durations g ->
  no_lonely_phases g -> (1 < length (vertices g))%nat \/ edges g <> [] -> vertices g <> [] -> (length (vertices g) < f)%nat ->
  compute_repetition_vector f g = Ok (Some Nl) ->
  (S (Z.to_nat (sumf (cycles g (as_vector Nl)) (length (vertices g)))) <= fuel)%nat ->
  kiter solve arrange fuel var g (as_vector Nl) = Ok (r, K, cs) -> exact_answer cs (solve cs) ->
  compute_asap_throughput f ticks g = Ok thr -> (0 < thr)%Q -> (thr < long_max)%Q ->
  (kr_throughput r == thr)%Q.
Proof.
  intros solve arrange var g Nl f fuel r K cs ticks thr Ha WF NI NO ID EV PD SD WD NL Mo NE FU EN Hf Hk He H T0 T1.
  destruct (asap_exact g f ticks thr WF NI EV PD SD WD Mo NE FU H T1) as (N & EN' & _ & _ & Ex). rewrite EN in EN'. injection EN' as <-.
  destruct (Ex T0) as [(s & SV & NZ & KP) Opt].
  destruct (rv_for_scheduling g f Nl WF NE ltac:(lia) NL EN) as [Hb Hw].
  destruct (C55_kiter_optimal solve arrange var g (as_vector Nl) fuel r K cs Ha WF Hb NI NO Hw ID Hf Hk He) as [P Z0].
  destruct (Qlt_le_dec 0 (kr_throughput r)) as [Q|Q]; [|exfalso; exact (Z0 Q s _ SV NZ KP)].
  destruct (P Q) as [(s' & _ & SV' & KP') Low]. specialize (Low s _ SV NZ KP). specialize (Opt s' _ SV' KP').
  assert (E : (/ thr == / kr_throughput r)%Q) by (apply Qle_antisym; assumption).
  rewrite <- (Qinv_involutive (kr_throughput r)), <- E. apply Qinv_involutive.
Qed.
Print Assumptions C70_agrees_with_kiter_partial.

(** generateSCCs: one graph per component, with exactly the tasks of the component, in order, and
    the channels among them. *)
Theorem C70_component_graphs : forall g fuel comps, graph_wf g -> (length (vertices g) < fuel)%nat -> kosaraju fuel g = Ok comps ->
  exists hs, generate_sccs g comps = Ok hs /\ length hs = length comps /\
    forall x h c, nth_error hs x = Some h -> nth_error comps x = Some c ->
      vertices h = filter (fun v => existsb (Z.eqb (v_id v)) c) (vertices g) /\
      (forall e, In e (edges g) -> forall vs vd, nth_error (vertices g) (e_src e) = Some vs -> nth_error (vertices g) (e_dst e) = Some vd ->
         In (v_id vs) c -> In (v_id vd) c ->
         exists e', In e' (edges h) /\ nth_error (vertices h) (e_src e') = Some vs /\ nth_error (vertices h) (e_dst e') = Some vd /\
           e_id e' = e_id e /\ e_in e' = e_in e /\ e_out e' = e_out e /\ e_preload e' = e_preload e) /\
      (forall e', In e' (edges h) -> exists e, In e (edges g) /\ e_id e = e_id e' /\
         nth_error (vertices h) (e_src e') = nth_error (vertices g) (e_src e) /\ nth_error (vertices h) (e_dst e') = nth_error (vertices g) (e_dst e) /\
         e_in e' = e_in e /\ e_out e' = e_out e /\ e_preload e' = e_preload e).
Proof.
  intros g fuel comps WF FU EK. rewrite generate_sccs_sub by apply WF. eexists. split; [reflexivity|]. split; [apply map_length|].
  intros x h c Eh Ec. rewrite nth_error_map, Ec in Eh. injection Eh as <-. split; [|split].
  - unfold sub. cbn [vertices]. unfold member. generalize (vertices g). induction l as [|v l IH]; [reflexivity|]. cbn [select filter nth_error].
    rewrite <- IH. reflexivity.
  - intros e Ie vs vd Es Ed Is Id. exists (moved (member c g) e).
    assert (Ks : member c g (e_src e) = true) by (apply (member_spec g c _ vs Es); assumption).
    assert (Kd : member c g (e_dst e) = true) by (apply (member_spec g c _ vd Ed); assumption).
    split; [apply SimSccParts.sub_edge; eauto 6|]. cbn [moved set_ends e_src e_dst e_id e_in e_out e_preload]. rewrite !SimSccParts.sub_vertex by assumption. repeat (split; [assumption || reflexivity|]). reflexivity.
  - intros e' I. apply SimSccParts.sub_edge in I. destruct I as (e & Ie & Ks & Kd & ->). exists e. split; [assumption|].
    cbn [moved set_ends e_src e_dst e_id e_in e_out e_preload]. rewrite !SimSccParts.sub_vertex by assumption. repeat (split; [reflexivity|]). reflexivity.
Qed.
Print Assumptions C70_component_graphs.

(** The duration of a task on no cycle is cut to an integer: two tasks of duration 3/2 are
    reported to run once per time unit. *)
Definition half_graph := mkGraph [mkVertex 1 1 0 [3 # 2]%Q [] 1; mkVertex 2 1 0 [3 # 2]%Q [] 1] [mkEdge 1 0 1 [1] [1] [] [] 0].
Lemma half_wf : graph_wf half_graph.
Proof.
  split; [|split].
  - intros v [<-|[<-|[]]]; (split; [cbn; lia|split; [reflexivity|split; [reflexivity|]]]); cbn; in_cases; unfold Qle; cbn; lia.
  - intros c [<-|[]]; eexists; eexists; (split; [reflexivity|split; [reflexivity|]]);
      repeat (split; [reflexivity|]); (split; [cbn; in_cases; lia|]); cbn; lia.
  - repeat constructor; cbn; intuition discriminate.
Qed.
Theorem C70_cut_duration_refuted : graph_wf half_graph /\ no_init half_graph /\ positive_durations half_graph /\ short_durations half_graph /\
  compute_repetition_vector 3 half_graph = Ok (Some [1; 1]) /\
  (forall ticks, compute_asap_throughput 3 ticks half_graph = Ok 1%Q) /\
  (forall s omega, schedule_valid half_graph s -> keeps_pace half_graph (as_vector [1; 1]) s omega -> (3 # 2 <= omega)%Q).
Proof.
  split; [exact half_wf|]. split; [intros v [<-|[<-|[]]]; reflexivity|].
  split; [intros v d [<-|[<-|[]]] [<-|[]]; reflexivity|]. split; [intros v d [<-|[<-|[]]] [<-|[]]; reflexivity|].
  split; [vm_compute; reflexivity|]. split; [intros ticks; vm_compute; reflexivity|].
  intros s omega [_ S] (B & HB). specialize (S 0%nat _ eq_refl).
  assert (G : forall m, (s 0%nat 0%nat + inject_Z (Z.of_nat m) * (3 # 2) <= s 0%nat m)%Q).
  { induction m as [|m IH]; [change (inject_Z (Z.of_nat 0)) with 0%Q; lra|]. specialize (S m). unfold start_of in S.
    assert (E : exec_duration (mkVertex 1 1 0 [3 # 2]%Q [] 1) m = (3 # 2)%Q).
    { unfold exec_duration, cyclic. cbn [v_init_durations v_durations length Nat.ltb Nat.leb]. rewrite Nat.mod_1_r. reflexivity. }
    rewrite E in S. rewrite Nat2Z.inj_succ. unfold Z.succ. rewrite inject_Z_plus. change (inject_Z 1) with 1%Q. lra. }
  apply (SimOptimal.slope (3 # 2) omega (B - s 0%nat 0%nat)). intros j. specialize (G j). specialize (HB 0%nat j ltac:(cbn; lia)).
  unfold as_vector in HB. cbn [nth] in HB. change (inject_Z 1) with 1%Q in HB. assert (E : (omega * (inject_Z (Z.of_nat j) / 1) == inject_Z (Z.of_nat j) * omega)%Q) by field.
  rewrite E in HB. lra.
Qed.
Print Assumptions C70_cut_duration_refuted.

(** * A graph of three components: the example cycle, a task after it and a task with a channel to itself. *)
Definition ex_chain := mkGraph (vertices ex_graph ++ [mkVertex 7 2 0 [1; 1]%Q [] 1; mkVertex 9 1 0 [5 # 2]%Q [] 1])
  (edges ex_graph ++ [mkEdge 3 1 2 [2] [1; 2] [] [] 0; mkEdge 4 2 3 [1; 0] [2] [] [] 0; mkEdge 5 3 3 [1] [1] [] [] 1]).
Example ex_chain_runs : kosaraju 5 ex_chain = Ok [[1; 2]; [7]; [9]] /\ compute_repetition_vector 5 ex_chain = Ok (Some [4; 3; 4; 1]) /\
  compute_asap_throughput 5 200 ex_chain = Ok (1 # 6)%Q.
Proof. split; [vm_compute; reflexivity|]. split; vm_compute; reflexivity. Qed.
Example ex_chain_hyp : graph_wf ex_chain /\ no_init ex_chain /\ even_self_loops ex_chain /\ positive_durations ex_chain /\ short_durations ex_chain /\
  whole_lone_durations ex_chain /\ short_lone_cycles ex_chain.
Proof.
  assert (Cy9 : cycle ex_chain 9 [9]).
  { split; [discriminate|]. cbn [walk]. split; [|reflexivity].
    exists (mkEdge 5 3 3 [1] [1] [] [] 1), (mkVertex 9 1 0 [5 # 2]%Q [] 1), (mkVertex 9 1 0 [5 # 2]%Q [] 1). cbn. intuition. }
  split; [|split; [|split; [|split; [|split; [|split]]]]].
  - split; [|split].
    + intros v I. cbn in I. repeat (destruct I as [<-|I]; [split; [cbn; lia|split; [reflexivity|split; [reflexivity|]]]; cbn; in_cases; unfold Qle; cbn; lia|]). destruct I.
    + intros c I. cbn in I. repeat (destruct I as [<-|I]; [eexists; eexists; (split; [reflexivity|split; [reflexivity|]]);
        repeat (split; [reflexivity|]); (split; [cbn; in_cases; lia|]); cbn; lia|]). destruct I.
    + repeat constructor; cbn; intuition discriminate.
  - intros v I. cbn in I. repeat (destruct I as [<-|I]; [reflexivity|]). destruct I.
  - intros c I. cbn in I. repeat (destruct I as [<-|I]; [try discriminate; reflexivity|]). destruct I.
  - intros v d I J. cbn in I. repeat (destruct I as [<-|I]; [cbn in J; revert d J; in_cases; reflexivity|]). destruct I.
  - intros v d I J. cbn in I. repeat (destruct I as [<-|I]; [cbn in J; revert d J; in_cases; reflexivity|]). destruct I.
  - intros v d I L J. cbn in I. repeat (destruct I as [<-|I]; [try (exfalso; exact (L _ Cy9)); cbn in J; revert d J; in_cases; (exists 1; reflexivity) || (exists 2; reflexivity) || (exists 3; reflexivity)|]). destruct I.
  - intros v I L. cbn in I. repeat (destruct I as [<-|I]; [vm_compute; discriminate|]). destruct I.
Qed.
(** A graph one of whose components cannot start: the task with a channel to itself has no token. *)
Definition stuck_chain := mkGraph (vertices ex_chain) (removelast (edges ex_chain) ++ [mkEdge 5 3 3 [1] [1] [] [] 0]).
Example stuck_chain_runs : compute_asap_throughput 5 200 stuck_chain = Ok 0%Q.
Proof. vm_compute. reflexivity. Qed.
