(** compute_asap_throughput ends. *)
From Coq Require Import QArith Qreduction Lqa Qabs Permutation.
From Verif Require Import Base Graph ScheduleSpec ScheduleCore RepVec RepVecSpec RepVecProps KIterSpec Scc SccSpec SccProofs SccProps
  Sim SimSpec SimPeriod SimOptimal SimFinal SimTerm SimScc SimSccSpec SimSccSub SimSccCompose SimSccParts SimSccBusy SimSccIdle SimSccFinal.
Open Scope Z_scope.

Lemma run_more g w rep k : forall t m a, run t g w rep m = Ok a -> run (t + k) g w rep m = Ok a.
Proof.
  induction t as [|t IH]; intros m a; cbn [run Nat.add]; [discriminate|]. destruct (tick g w rep m) as [x| | |]; try discriminate. cbn [bind].
  destruct x as [m'|? ?|]; [apply IH|exact (fun H => H)|exact (fun H => H)].
Qed.
Lemma component_more fuel g caps k t a : component_throughput fuel t g caps = Ok a -> component_throughput fuel (t + k) g caps = Ok a.
Proof. unfold component_throughput. destruct (prepare fuel g caps); try discriminate. cbn [bind]. apply run_more. Qed.
Lemma scaled_more fuel g N h k t o : scaled_throughput fuel t g N h = Ok o -> scaled_throughput fuel (t + k) g N h = Ok o.
Proof.
  unfold scaled_throughput. destruct (0 <? _)%nat; [|auto]. destruct (prepare fuel h None) as [p| | |]; try discriminate. cbn [bind].
  destruct (run t h _ _ _) as [a| | |] eqn:E; try discriminate. rewrite (run_more _ _ _ k _ _ _ E). auto.
Qed.
Lemma slowest_ends fuel g N hs : (forall h, In h hs -> exists t o, scaled_throughput fuel t g N h = Ok o) ->
  exists t, forall best, exists r, slowest fuel t g N hs best = Ok r.
Proof.
  intros H. assert (X : exists t, forall h, In h hs -> exists o, scaled_throughput fuel t g N h = Ok o).
  { induction hs as [|h hs IH]; [exists 0%nat; intros h []|]. destruct IH as [t Ht]; [intros h' I; apply H; right; assumption|].
    destruct (H h (or_introl eq_refl)) as (t' & o & E). exists (t + t')%nat. intros h' [<-|I].
    - exists o. rewrite Nat.add_comm. apply scaled_more. exact E.
    - destruct (Ht h' I) as [o' E']. exists o'. apply scaled_more. exact E'. }
  destruct X as [t Ht]. exists t. clear H. induction hs as [|h hs IH]; intros best; cbn [slowest]; [eauto|].
  destruct (Ht h (or_introl eq_refl)) as [o ->]. cbn [bind]. apply IH. intros h' I. apply Ht. right. assumption.
Qed.

Lemma qsum_nonneg l : (forall d, In d l -> (0 < d)%Q) -> (0 <= qsum l)%Q.
Proof. induction l as [|d l IH]; intros H; cbn [qsum]; [lra|]. pose proof (H d (or_introl eq_refl)). specialize (IH (fun x I => H x (or_intror I))). lra. Qed.
Lemma accumulate_ok l : forall acc, 0 <= acc -> (forall d, In d l -> (0 < d)%Q) -> (forall d, In d l -> whole_number d) -> (inject_Z acc + qsum l <= inject_Z int_max)%Q ->
  exists t, accumulate_durations l acc = Ok t.
Proof.
  induction l as [|d l IH]; intros acc A P W L; cbn [accumulate_durations qsum] in *; [eauto|]. destruct (W d (or_introl eq_refl)) as [z Ez].
  rewrite (quot_whole _ (acc + z)) by (rewrite Ez, inject_Z_plus; reflexivity).
  pose proof (P d (or_introl eq_refl)) as P1. pose proof (qsum_nonneg l (fun x I => P x (or_intror I))) as P2.
  assert (Z0 : 0 < z) by (rewrite Ez in P1; change 0%Q with (inject_Z 0) in P1; rewrite <- Zlt_Qlt in P1; exact P1).
  assert (L' : (inject_Z (acc + z) + qsum l <= inject_Z int_max)%Q) by (rewrite inject_Z_plus, <- Ez; lra).
  assert (acc + z <= int_max) by (rewrite Zle_Qle; lra).
  destruct ((- int_max - 1 <=? acc + z) && (acc + z <=? int_max)) eqn:E; [|unfold int_max in *; lia].
  apply IH; [lia| | |exact L']; intros x I; [apply P|apply W]; right; assumption.
Qed.

Section Ends.
Variables (g : graph) (fuel : nat) (N : list Z) (comps : list (list Z)).
Hypotheses (WF : graph_wf g) (NI : no_init g) (EV : even_self_loops g) (PD : positive_durations g)
  (WD : whole_lone_durations g) (SL : short_lone_cycles g) (NEg : vertices g <> []) (FU : (length (vertices g) < fuel)%nat)
  (EN : compute_repetition_vector fuel g = Ok (Some N)) (SM : forall i, (i < length (vertices g))%nat -> nth i N 0 < int_max)
  (EK : kosaraju fuel g = Ok comps).

Lemma scaled_ends c : In c comps -> exists t o, scaled_throughput fuel t g N (sub (member c g) g) = Ok o.
Proof.
  intros Ic. set (k := member c g).
  destruct (C18_balance g fuel N (graph_wf_rates g WF) NEg ltac:(lia) EN) as (LN & NP & _).
  assert (NI' : forall i v, nth_error (vertices g) i = Some v -> ni_by_id g N (v_id v) = Ok (nth i N 0)).
  { intros i v Ei. unfold ni_by_id, vertex_by_id. rewrite (position_nth _ i v (proj2 (proj2 WF)) Ei). cbn [bind].
    rewrite (nth_error_nth' N 0); [reflexivity|]. rewrite LN. apply nth_error_Some. congruence. }
  destruct (edges (sub k g)) as [|e l] eqn:E.
  - destruct (comp_alone g fuel comps WF FU EK c Ic E) as [v Ev]. fold k in Ev. exists 0%nat. unfold scaled_throughput. rewrite E, Ev. cbn [length Nat.ltb Nat.leb].
    destruct (sub_position g k 0%nat ltac:(rewrite Ev; cbn; lia)) as (i & Li & Ki & Ri & _).
    assert (Ei : nth_error (vertices g) i = Some v) by (rewrite <- (sub_vertex g k i Ki), Ri, Ev; reflexivity).
    rewrite (NI' i v Ei). cbn [bind]. unfold vertex_by_id. rewrite (position_nth _ i v (proj2 (proj2 WF)) Ei). cbn [bind]. rewrite Ei.
    pose proof (nth_error_In _ _ Ei) as Iv. pose proof (comp_lone g fuel comps WF FU EK c v Ic E Ev) as Lo.
    destruct (proj1 WF v Iv) as (P0 & LD & _). unfold total_duration.
    destruct (Nat.ltb_spec 0 (length (v_durations v))) as [_|B]; [|lia]. cbn [cassert bind].
    destruct (accumulate_ok (v_durations v) 0) as [t Et]; [lia|intros d I; exact (PD v d Iv I)|intros d I; exact (WD v d Iv Lo I)| |].
    { pose proof (SL v Iv Lo). change (inject_Z 0) with 0%Q. lra. }
    rewrite Et. cbn [bind]. pose proof (accumulate_whole _ _ _ (fun d I => WD v d Iv Lo I) Et) as Eq.
    assert (T0 : (0 < inject_Z t)%Q).
    { rewrite Eq. change (inject_Z 0) with 0%Q. destruct (v_durations v) as [|d ds] eqn:Ed; [cbn in LD; lia|]. cbn [qsum].
      pose proof (PD v d Iv ltac:(rewrite Ed; left; reflexivity)).
      pose proof (qsum_nonneg ds (fun x I => PD v x Iv ltac:(rewrite Ed; right; exact I))). lra. }
    destruct (Qeq_bool (inject_Z t) 0) eqn:Z0; [apply Qeq_bool_iff in Z0; lra|]. eauto.
  - assert (NEe : edges (sub k g) <> []) by (rewrite E; discriminate).
    pose proof (comp_strong g fuel comps WF FU EK c Ic) as SC. fold k in SC.
    pose proof (busy_guarded g k WF SC NEe) as GD. pose proof (busy_nonempty g k fuel WF ltac:(lia) NEe) as NE.
    pose proof (sub_fuel g k fuel ltac:(lia)) as Fh. pose proof (sub_wf g k WF) as Wh.
    destruct (busy_solution g k fuel N WF NEg ltac:(lia) EN SC NEe) as [So _].
    assert (RV : exists N', compute_repetition_vector fuel (sub k g) = Ok (Some N')).
    { destruct (C20_consistency_exact (sub k g) fuel (graph_wf_rates _ Wh) NE Fh) as [[X _]|[_ X]]; [exact X|]. exfalso. apply X. split; [|eauto].
      intros c' I'. destruct (proj1 (proj2 Wh) c' I') as (? & ? & R). tauto. }
    destruct RV as [N' E']. destruct (busy_factor g k fuel N WF NEg ltac:(lia) EN SC NEe N' E') as (q & q0 & Hq).
    destruct (C18_balance (sub k g) fuel N' (graph_wf_rates _ Wh) NE Fh E') as (LN' & NP' & _).
    assert (Sm : exists j, (j < length (vertices (sub k g)))%nat /\ nth j N' 0 < int_max).
    { exists 0%nat. assert (L0 : (0 < length (vertices (sub k g)))%nat) by (destruct (vertices (sub k g)); [congruence|cbn; lia]). split; [assumption|].
      destruct (sub_position g k 0%nat L0) as (i & Li & Ki & Ri & _). pose proof (Hq i Li Ki) as Hi. rewrite Ri in Hi. specialize (SM i Li). specialize (NP' 0%nat L0). nia. }
    destruct (component_ends (sub k g) None fuel N' Wh (sub_no_init g k NI) (sub_even g k EV) GD NE Fh E' Sm (or_introl SC)) as (t & a & Ea).
    exists t. unfold scaled_throughput. rewrite E. cbn [length Nat.ltb Nat.leb].
    pose proof Ea as Ea'. unfold component_throughput in Ea. unfold prepare in Ea at 1.
    unfold prepare at 1. rewrite E' in *. cbn [bind] in *. destruct (actors_ok (sub k g) 0 (vertices (sub k g))) eqn:Eo; cbn [bind] in *; try discriminate.
    destruct (min_actor N') as [[w rep]|] eqn:Em; cbn [bind fst snd] in *; try discriminate. rewrite Ea. cbn [bind].
    destruct (run_stops _ _ _ _ _ _ Ea) as (_ & _ & _ & NR).
    assert (Th : exists x, throughput a = Ok x).
    { destruct a as [m|n T|]; [destruct (NR m eq_refl)| |cbn; eauto]. cbn [throughput].
      destruct (component_exact (sub k g) None fuel t Wh (sub_no_init g k NI) (sub_even g k EV) GD (strong_connected _ SC) NE Fh n T ltac:(discriminate) (sub_positive g k PD) Ea') as (_ & _ & _ & T0 & _).
      destruct (Qeq_bool T 0) eqn:Z0; [apply Qeq_bool_iff in Z0; lra|]. eauto. }
    destruct Th as [x ->]. cbn [bind]. pose proof (min_actor_at N' w rep Em) as Ew.
    assert (Lw : (w < length (vertices (sub k g)))%nat) by (rewrite <- LN'; apply nth_error_Some; congruence).
    destruct (sub_position g k w Lw) as (i & Li & Ki & Ri & _).
    destruct (nth_error (vertices g) i) as [v|] eqn:Ei; [|apply nth_error_None in Ei; lia].
    unfold id_of. rewrite <- Ri, sub_vertex, Ei by assumption. cbn [bind]. rewrite (NI' i v Ei). cbn [bind]. eauto.
Qed.
End Ends.

Lemma asap_ends g fuel N : graph_wf g -> no_init g -> even_self_loops g -> positive_durations g -> whole_lone_durations g -> short_lone_cycles g ->
  (1 < length (vertices g))%nat \/ edges g <> [] -> vertices g <> [] -> (length (vertices g) < fuel)%nat ->
  compute_repetition_vector fuel g = Ok (Some N) -> (forall i, (i < length (vertices g))%nat -> nth i N 0 < int_max) ->
  exists ticks thr, compute_asap_throughput fuel ticks g = Ok thr.
Proof.
  intros WF NI EV PD WD SL Mo NE FU EN SM. unfold compute_asap_throughput. rewrite EN. cbn [bind].
  destruct (C23_components g fuel (wf_ids g WF) FU) as (comps & EK & _). rewrite EK. cbn [bind].
  destruct (Nat.ltb_spec 1 (length comps)) as [L1|L1].
  - rewrite generate_sccs_sub by apply WF. cbn [bind].
    destruct (slowest_ends fuel g N (map (fun c => sub (member c g) g) comps)) as [t Ht].
    + intros h I. apply in_map_iff in I. destruct I as (c & <- & Ic). exact (scaled_ends g fuel N comps WF NI EV PD WD SL NE FU EN SM EK c Ic).
    + exists t. apply Ht.
  - pose proof (one_strong g fuel comps WF NE FU EK L1) as SC.
    assert (EE : edges g <> []).
    { destruct Mo as [M|M]; [|exact M]. intros Z. assert (F : flows g 0 1) by (apply SC; lia). remember 1%nat as one eqn:E1. destruct F as [|e Ie F]; [discriminate|]. rewrite Z in Ie. destruct Ie. }
    assert (GD : all_guarded g false) by (apply strong_guarded; [intros c Ic; apply (edge_bounds g WF c Ic)|assumption|assumption]).
    assert (L0 : (0 < length (vertices g))%nat) by (destruct (vertices g); [congruence|cbn; lia]).
    destruct (component_ends g None fuel N WF NI EV GD NE ltac:(lia) EN (ex_intro _ 0%nat (conj L0 (SM _ L0))) (or_introl SC)) as (t & a & Ea).
    exists t. rewrite Ea. cbn [bind]. destruct (component_inv _ _ _ _ _ Ea) as (N' & w & rep & _ & _ & R). destruct (run_stops _ _ _ _ _ _ R) as (_ & _ & _ & NR).
    destruct a as [m|n T|]; [destruct (NR m eq_refl)| |cbn; eauto]. cbn [throughput].
    destruct (component_exact g None fuel t WF NI EV GD (strong_connected _ SC) NE ltac:(lia) n T ltac:(discriminate) PD Ea) as (_ & _ & _ & T0 & _).
    destruct (Qeq_bool T 0) eqn:Z0; [apply Qeq_bool_iff in Z0; lra|]. eauto.
Qed.
