(** C128: the expansion graph of a single-phase graph. *)
From Coq Require Import QArith Lqa.
From Verif Require Import Base Graph KPeriodic ScheduleSpec KPeriodicSpec RepVecSpec Normal NormalSpec NormalProofs Expansion ExpansionSpec ExpansionProofs.
Open Scope Z_scope.

Lemma wf_rates g : graph_wf g -> rates_wf g.
Proof.
  intros (V & C & _). split; [intros v Hv; apply (V v Hv)|]. intros c Hc. destruct (C c Hc) as (vs & vd & A & B & L1 & L2 & _ & _ & NN & _).
  exists vs, vd. repeat split; auto. intros x Hx. apply NN. rewrite !in_app_iff in *. tauto.
Qed.

(** The graph is always built for a normalised single-phase graph without initial phases,
    whatever the (positive) number of executions per period. *)
Theorem C128_built : forall fuel g zs al K, graph_wf g -> no_init g -> single_phase_graph g -> normalize fuel g = Ok (Some (zs, al)) ->
  (forall i, (i < length (vertices g))%nat -> 1 <= K i) -> exists cs, expansion fuel g K = Ok cs.
Proof.
  intros fuel g zs al K WF NI SP E KP. destruct (expansion_ok g zs al WF NI SP (normalize_sound _ _ _ _ (wf_rates g WF) E) fuel K E KP) as (ch & _ & H). eauto.
Qed.
Print Assumptions C128_built.

(** Times that satisfy it start the executions of each task in order, and it asks nothing more
    of a graph without channels. *)
Theorem C128_order : forall fuel g zs al K cs om St, graph_wf g -> no_init g -> single_phase_graph g -> normalize fuel g = Ok (Some (zs, al)) ->
  (forall i, (i < length (vertices g))%nat -> 1 <= K i) -> expansion fuel g K = Ok cs ->
  ((forall x, In x cs -> satisfies om St x) -> in_order g (denoted g zs K om St)) /\
  (edges g = [] -> in_order g (denoted g zs K om St) -> forall x, In x cs -> satisfies om St x).
Proof.
  intros fuel g zs al K cs om St WF NI SP E KP H. pose proof (normalize_sound _ _ _ _ (wf_rates g WF) E) as NO.
  split; [apply (expansion_order g zs al WF NI SP NO fuel); assumption|]. intros NE. apply (expansion_order_only g zs al WF NI SP NO fuel K); assumption.
Qed.
Print Assumptions C128_order.

(** Every constraint is between executions that the schedule has: the [k]-th of a task, with [k] between 1
    and its number of executions per period. *)
Theorem C128_events : forall fuel g zs al K cs, graph_wf g -> no_init g -> single_phase_graph g -> normalize fuel g = Ok (Some (zs, al)) ->
  (forall i, (i < length (vertices g))%nat -> 1 <= K i) -> expansion fuel g K = Ok cs ->
  forall x, In x cs -> exists i v k j w k', nth_error (vertices g) i = Some v /\ c_source x = mkEvent (v_id v) 1 k /\ 1 <= k <= K i /\
    nth_error (vertices g) j = Some w /\ c_target x = mkEvent (v_id w) 1 k' /\ 1 <= k' <= K j.
Proof.
  intros fuel g zs al K cs WF NI SP E KP H. pose proof (normalize_sound _ _ _ _ (wf_rates g WF) E) as NO.
  destruct (expansion_ok g zs al WF NI SP NO fuel K E KP) as (ch & Ec & Ex). rewrite Ex in H. injection H as <-. intros x Hx. apply in_app_or in Hx as [Hx|Hx].
  - unfold own_edges in Hx. apply in_flat_map in Hx as ((i & v) & Hi & Hx). apply KPeriodicGraph.indexed_in in Hi. cbn [fst snd] in *.
    assert (Li : (i < length (vertices g))%nat) by (apply nth_error_Some; congruence). specialize (KP i Li).
    apply in_app_or in Hx as [Hx|[<-|[]]].
    + unfold e1_edges in Hx. apply in_map_iff in Hx as (k & <- & Hk). apply one_to_in in Hk. exists i, v, k, i, v, (k + 1). repeat split; try assumption; lia.
    + exists i, v, (K i), i, v, 1. repeat split; try assumption; lia.
  - apply (e3_all_in _ _ _ _ _ _ Ec) in Hx as (k & c & a & l & I & Ea & El & I'). unfold e3_edges in El.
    destruct (nth_error (vertices g) (e_src c)) as [vs|] eqn:Es; [|discriminate]. destruct (nth_error (vertices g) (e_dst c)) as [vd|] eqn:Ed; [|discriminate].
    destruct (norm_mop c a) as [mop| | |]; cbn [bind] in El; try discriminate. destruct (only_duration vs) as [dd| | |]; cbn [bind] in El; try discriminate.
    destruct (_ =? 0); [discriminate|]. destruct (cassert _) as [u| | |]; cbn [bind] in El; try discriminate. injection El as <-.
    apply in_flat_map in I' as (ai & Hai & I'). apply in_flat_map in I' as (aj & Haj & I'). apply one_to_in in Hai, Haj. unfold e3_edge in I'. destruct (_ <=? _); [|destruct I']. destruct I' as [<-|[]].
    exists (e_src c), vs, ai, (e_dst c), vd, aj. repeat split; try assumption; lia.
Qed.
Print Assumptions C128_events.

(** One execution per period: it can be satisfied at period [om] exactly when some schedule
    running every task once every [om] times its weight keeps all channels valid. *)
Theorem C128_feasible_partial : forall fuel g zs al cs om, graph_wf g -> no_init g -> single_phase_graph g -> normalize fuel g = Ok (Some (zs, al)) ->
  expansion fuel g (fun _ => 1) = Ok cs -> (0 <= om)%Q ->
  ((exists St, forall x, In x cs -> satisfies om St x) <-> exists s, even_rhythm g zs om s /\ channels_valid g s).
Proof. intros fuel g zs al cs om WF NI SP E. apply (feasible_once g zs al WF NI SP (normalize_sound _ _ _ _ (wf_rates g WF) E) fuel). assumption. Qed.
Print Assumptions C128_feasible_partial.

(** The times themselves are right only after every task is delayed by two of its own
    executions; with equal weights that changes nothing. *)
Theorem C128_times_partial : forall fuel g zs al cs om St, graph_wf g -> no_init g -> single_phase_graph g -> normalize fuel g = Ok (Some (zs, al)) ->
  expansion fuel g (fun _ => 1) = Ok cs -> (0 <= om)%Q ->
  ((forall x, In x cs -> satisfies om St x) <-> channels_valid g (later 2 (denoted g zs (fun _ => 1) om St))) /\
  ((exists z, forall i, (i < length (vertices g))%nat -> nth i zs 0 = z) ->
   ((forall x, In x cs -> satisfies om St x) <-> channels_valid g (denoted g zs (fun _ => 1) om St))).
Proof.
  intros fuel g zs al cs om St WF NI SP E H Om. pose proof (normalize_sound _ _ _ _ (wf_rates g WF) E) as NO.
  split; [apply (expansion_once g zs al WF NI SP NO fuel); assumption|]. intros (z & Hz). apply (equal_weights g zs al WF NI SP NO fuel cs z); assumption.
Qed.
Print Assumptions C128_times_partial.

(** * What fails *)
Definition unit_task (i : Z) : vertex := mkVertex i 1 0 [1%Q] [] 0.
Ltac wf_graph := split; [intros v Hv; cbn in Hv; repeat (destruct Hv as [<-|Hv]; [repeat split; cbn; try lia; intros x [<-|[]]; discriminate|]); destruct Hv|];
  split; [intros c Hc; cbn in Hc; repeat (destruct Hc as [<-|Hc]; [eexists; eexists; split; [reflexivity|]; split; [reflexivity|]; cbn; repeat split; try lia; intros x Hx; repeat (destruct Hx as [<-|Hx]; [lia|]); destruct Hx|]); destruct Hc|];
  cbn; repeat constructor; cbn; intuition lia.

(** A producer of one token feeding a consumer of two. *)
Definition halver : graph := mkGraph [unit_task 1; unit_task 2] [mkEdge 1 0 1 [1] [2] [] [] 0].
Lemma halver_wf : graph_wf halver. Proof. wf_graph. Qed.

(** Times satisfying the constraints under which the consumer takes tokens not yet there. *)
Theorem C128_times_refuted : exists fuel g zs al cs om St, graph_wf g /\ no_init g /\ single_phase_graph g /\ normalize fuel g = Ok (Some (zs, al)) /\
  expansion fuel g (fun _ => 1) = Ok cs /\ (0 < om)%Q /\ (forall x, In x cs -> satisfies om St x) /\ ~ channels_valid g (denoted g zs (fun _ => 1) om St).
Proof.
  exists 2%nat, halver, [1; 2]. eexists. eexists. exists 1%Q, (fun _ => 0%Q). split; [exact halver_wf|].
  split; [intros v [<-|[<-|[]]]; reflexivity|]. split; [intros v [<-|[<-|[]]]; reflexivity|].
  split; [vm_compute; reflexivity|]. split; [vm_compute; reflexivity|]. split; [reflexivity|]. split.
  - intros x Hx. repeat (destruct Hx as [<-|Hx]; [vm_compute; discriminate|]). destruct Hx.
  - intros CV. destruct (CV _ (or_introl eq_refl) 0%Q 1%nat) as (np & H).
    assert (moved_by (end_of (denoted halver [1; 2] (fun _ => 1) 1 (fun _ => 0%Q)) halver 0) (prod_rate (mkEdge 1 0 1 [1] [2] [] [] 0)) np 0%Q <= 0); [|cbn [e_preload e_src e_dst] in H; match type of H with ?a <= _ => change a with 2 in H end; lia].
    apply ScheduleCore.moved_prefix_le with (k := 0%nat); [intros m; unfold prod_rate; cbn [e_in e_in_init]; rewrite cyclic_one; lia|].
    intros m _ L. unfold end_of in L. cbn [e_src nth_error halver vertices] in L. rewrite (denoted_once _ _ _ _ _ (unit_task 1)) in L by reflexivity. cbn [unit_task v_durations v_init_durations exec_duration] in L.
    unfold exec_duration in L. cbn [v_durations v_init_durations unit_task] in L. rewrite cyclic_one in L. unfold group_period in L. change (inject_Z (nth 0 [1; 2] 0%Z * 1)) with 1%Q in L.
    assert (0 <= inject_Z (Z.of_nat m))%Q by (change 0%Q with (inject_Z 0); rewrite <- Zle_Qle; lia). lra.
Qed.
Print Assumptions C128_times_refuted.

(** A ring of two tasks with one token. *)
Definition ring : graph := mkGraph [unit_task 1; unit_task 2] [mkEdge 1 0 1 [1] [1] [] [] 1; mkEdge 2 1 0 [1] [1] [] [] 0].
Lemma ring_wf : graph_wf ring. Proof. wf_graph. Qed.

Definition ring_times : event -> Q := fun e => (inject_Z (2 * ev_occ e) - inject_Z (ev_task e))%Q.
Lemma ring_steady i v m : nth_error (vertices ring) i = Some v -> (denoted ring [1; 1]%Z (fun _ => 2%Z) 2 ring_times i m == steady (2 - inject_Z (v_id v)) (2 * inject_Z 1) m)%Q.
Proof.
  intros E. unfold denoted. rewrite E. unfold ring_times, steady, group_period. cbv zeta. cbn [ev_occ ev_task]. change (Z.to_nat 2) with 2%nat.
  assert (N1 : nth i [1; 1] 0 = 1). { destruct i as [|[|i]]; try reflexivity. cbn in E. destruct i; discriminate. }
  rewrite N1. pose proof (Nat.div_mod m 2 ltac:(lia)) as DM.
  assert (Z.of_nat m = 2 * Z.of_nat (m / 2) + Z.of_nat (m mod 2)) as -> by lia.
  rewrite ?inject_Z_mult, ?inject_Z_plus, ?inject_Z_mult, ?inject_Z_plus. change (inject_Z 1) with 1%Q. change (inject_Z 2) with 2%Q. ring.
Qed.

(** Two executions per period: the constraints cannot be satisfied at any period, although the
    two tasks can alternate for ever, with two executions of each per period. *)
Theorem C128_deadlock_refuted : exists fuel g zs al cs, graph_wf g /\ no_init g /\ single_phase_graph g /\ normalize fuel g = Ok (Some (zs, al)) /\
  expansion fuel g (fun _ => 2) = Ok cs /\ (forall om St, exists x, In x cs /\ ~ satisfies om St x) /\
  exists om St, (0 < om)%Q /\ in_order g (denoted g zs (fun _ => 2) om St) /\ channels_valid g (denoted g zs (fun _ => 2) om St).
Proof.
  exists 2%nat, ring, [1; 1]. eexists. eexists. split; [exact ring_wf|]. split; [intros v [<-|[<-|[]]]; reflexivity|]. split; [intros v [<-|[<-|[]]]; reflexivity|].
  split; [vm_compute; reflexivity|]. split; [vm_compute; reflexivity|]. split.
  - intros om St. 
    destruct (Qlt_le_dec (St (mkEvent 1 1 2)) (St (mkEvent 1 1 1))) as [L|L].
    { eexists. split; [left; reflexivity|]. unfold satisfies. cbn [c_source c_target c_w c_d]. lra. }
    destruct (Qlt_le_dec (St (mkEvent 2 1 1)) (St (mkEvent 1 1 2) + 1)) as [L'|L'].
    { eexists. split; [do 5 right; left; reflexivity|]. unfold satisfies. cbn [c_source c_target c_w c_d]. change (inject_Z 0) with 0%Q. lra. }
    eexists. split; [do 6 right; left; reflexivity|]. unfold satisfies. cbn [c_source c_target c_w c_d]. change (inject_Z 0) with 0%Q. lra.
  - exists 2%Q, ring_times. split; [reflexivity|]. split.
    + intros i m Hi. destruct (nth_error (vertices ring) i) as [v|] eqn:Ev; [|apply nth_error_None in Ev; lia]. rewrite !(ring_steady i v _ Ev). apply steady_mono. discriminate.
    + assert (X : forall c p q, In c (edges ring) -> nth_error (vertices ring) (e_src c) = Some (unit_task p) -> nth_error (vertices ring) (e_dst c) = Some (unit_task q) ->
          (2 - inject_Z p + 1 + 2 * inject_Z (1 - Z.gcd 1 1 - e_preload c) <= 2 - inject_Z q)%Q -> channel_valid ring (denoted ring [1; 1] (fun _ => 2) 2 ring_times) c).
      { intros c p q Ic Es Ed L. unfold channel_valid.
        assert (Hc : e_in c = [1] /\ e_out c = [1] /\ e_in_init c = [] /\ e_out_init c = [] /\ 0 <= e_preload c) by (destruct Ic as [<-|[<-|[]]]; cbn; repeat split; lia).
        destruct Hc as (C1 & C2 & C3 & C4 & C5).
        apply (nn_ext _ (steady (2 - inject_Z p + 1) (2 * inject_Z 1)) _ (fun _ => 1) _ (steady (2 - inject_Z q) (2 * inject_Z 1)) _ (fun _ => 1)).
        - intros n. unfold end_of. rewrite Es, (ring_steady _ _ _ Es). unfold exec_duration, steady. cbn [v_id unit_task v_durations v_init_durations]. rewrite cyclic_one. ring.
        - intros n. unfold prod_rate. rewrite C1, C3, cyclic_one. reflexivity.
        - intros n. unfold start_of. rewrite (ring_steady _ _ _ Ed). reflexivity.
        - intros n. unfold cons_rate. rewrite C2, C4, cyclic_one. reflexivity.
        - apply (steady_channel 1 1 (e_preload c) 1 1 (e_preload c)); try lia; [|discriminate|exact L]. change (Z.gcd 1 1) with 1. rewrite Z.div_1_r. lia. }
      intros c Ic. destruct Ic as [<-|[<-|[]]].
      * apply (X _ 1 2); [left; reflexivity|reflexivity|reflexivity|]. vm_compute. discriminate.
      * apply (X _ 2 1); [right; left; reflexivity|reflexivity|reflexivity|]. vm_compute. discriminate.
Qed.
Print Assumptions C128_deadlock_refuted.

(** * Concrete cases *)
Example ex_halver : option_map (map (fun x => (ev_occ (c_source x), ev_occ (c_target x), Qred (c_w x)))) (match expansion 2 halver (fun _ => 1) with Ok cs => Some cs | _ => None end)
  = Some [(1, 1, 1%Q); (1, 1, 2%Q); (1, 1, 1%Q)].
Proof. vm_compute. reflexivity. Qed.
Example ex_ring_once : exists cs St, expansion 2 ring (fun _ => 1) = Ok cs /\ forall x, In x cs -> satisfies 2 St x.
Proof.
  eexists. exists ring_times. split; [vm_compute; reflexivity|]. intros x Hx. repeat (destruct Hx as [<-|Hx]; [vm_compute; discriminate|]). destruct Hx.
Qed.
