(** Properties C25-C30 and C33: event graphs, their circuits, K-periodic schedules. *)
From Coq Require Import QArith Lqa.
From Verif Require Import Base Graph Commons CommonsProofs KPeriodic ScheduleSpec ScheduleCore KPeriodicSpec
  KPeriodicProofs KPeriodicChannel KPeriodicSelfloop KPeriodicGraph EventGraph EventGraphSpec EventGraphProofs
  KPeriodicEnd KPeriodicMixed.
Open Scope Z_scope.

(** Tasks of positive reentrancy factor; positive counts. *)
Definition no_overlap (g : graph) : Prop := forall v, In v (vertices g) -> 0 < v_reentrancy v.
Definition positive_on (g : graph) (f : nat -> Z) : Prop :=
  forall i, (i < length (vertices g))%nat -> 0 < f i.

(** * Proofs *)
Lemma satisfiable_iff_fit evs cs omega : closed evs cs ->
  (exists S, forall c, In c cs -> satisfies omega S c) <-> circuits_fit cs omega.
Proof.
  intros Hc. split.
  - intros (S & HS). apply (sat_circuits_fit cs omega S HS).
  - intros Hf. exists (fst (compute_starting_time evs cs (Some omega))). apply (starts_satisfy evs cs omega Hc Hf).
Qed.

Lemma sound_iff var g N K omega St cs : graph_wf g -> balanced g N -> no_init g -> no_overlap g ->
  positive_on g N -> positive_on g K -> (0 <= omega)%Q -> generate_event_graph var g N K = Ok cs ->
  (schedule_valid g (kperiodic_schedule g N K omega St) <-> forall c, In c cs -> satisfies omega St c).
Proof.
  intros Hwf Hb Hni Hno HN HK Hom Hg. split.
  - apply (constraints_necessary var g N K Hwf Hb HN HK omega St cs Hg Hno Hni).
  - apply (constraints_sound var g N K Hwf Hb HN HK omega St cs Hg Hno (no_init_ok g Hwf Hni) Hom).
Qed.

Lemma periodic_exists_iff var g N K omega cs : graph_wf g -> balanced g N -> no_init g -> no_overlap g ->
  positive_on g N -> positive_on g K -> (0 <= omega)%Q -> generate_event_graph var g N K = Ok cs ->
  ((exists s, periodic_schedule g N K omega s /\ schedule_valid g s) <-> circuits_fit cs omega).
Proof.
  intros Hwf Hb Hni Hno HN HK Hom Hg. pose proof (generated_closed var g N K Hwf HN HK cs Hg) as Hcl. split.
  - intros (s & Hp & Hv). apply (satisfiable_iff_fit _ _ _ Hcl). exists (starts_of g s).
    apply (sound_iff var g N K omega (starts_of g s) cs); auto.
    eapply schedule_valid_ext; [exact Hwf| |exact Hv]. apply starts_of_periodic; auto.
  - intros Hf. destruct (proj2 (satisfiable_iff_fit _ _ _ Hcl) Hf) as (S & HS).
    exists (kperiodic_schedule g N K omega S). split; [apply kperiodic_schedule_periodic; auto|].
    apply (sound_iff var g N K omega S cs); auto.
Qed.

Lemma schedule_returned g N K th : graph_wf g -> balanced g N -> no_init g -> no_overlap g ->
  positive_on g N -> positive_on g K -> (0 < th)%Q ->
  exists ts, period2scheduling g N K th = Ok ts /\ length ts = length (vertices g) /\
    (forall i v t, nth_error (vertices g) i = Some v -> nth_error ts i = Some t ->
       length (ts_starts t) = (Z.to_nat (K i) * v_phases v)%nat /\
       (ts_period t == task_period (/ th) (K i) (Z.of_nat (v_phases v)) (N i))%Q) /\
    ((exists s, periodic_schedule g N K (/ th) s /\ schedule_valid g s) -> schedule_valid g (denoted ts)).
Proof.
  intros Hwf Hb Hni Hno HN HK Hth.
  destruct (period2scheduling_ok g N K th Hwf HN HK Hni Hth) as (cs & ts & Hg & Hts & Hl & Hsh & Hsame).
  exists ts. split; [exact Hts|]. split; [exact Hl|]. split; [exact Hsh|]. intros Hex.
  assert (Hom : (0 <= / th)%Q) by (apply Qinv_le_0_compat; lra).
  apply (periodic_exists_iff StronglyOptimized g N K (/ th) cs Hwf Hb Hni Hno HN HK Hom Hg) in Hex.
  eapply schedule_valid_ext; [exact Hwf|exact Hsame|].
  apply (sound_iff StronglyOptimized g N K (/ th) _ cs); auto.
  apply (starts_satisfy _ cs _ (generated_closed _ g N K Hwf HN HK cs Hg) Hex).
Qed.

Lemma refine_K var g N K K' omega cs cs' : graph_wf g -> balanced g N -> no_init g -> no_overlap g ->
  positive_on g N -> positive_on g K -> positive_on g K' ->
  (forall i, (i < length (vertices g))%nat -> (K i | K' i)) -> (0 <= omega)%Q ->
  generate_event_graph var g N K = Ok cs -> generate_event_graph var g N K' = Ok cs' ->
  circuits_fit cs omega -> circuits_fit cs' omega.
Proof.
  intros Hwf Hb Hni Hno HN HK HK' Hd Hom Hg Hg' Hf.
  apply (periodic_exists_iff var g N K omega cs Hwf Hb Hni Hno HN HK Hom Hg) in Hf.
  apply (periodic_exists_iff var g N K' omega cs' Hwf Hb Hni Hno HN HK' Hom Hg').
  destruct Hf as (s & Hp & Hv). exists s. split; [|exact Hv].
  apply (periodic_schedule_multiple g N K K' omega s); auto.
Qed.

(** * Theorems *)

(** C25: when no circuit is longer than the period allows, all constraints hold, no start
    is negative and the earliest is 0. *)
Theorem C25_start_times_satisfy : forall evs cs omega, closed evs cs -> circuits_fit cs omega ->
  let S := fst (compute_starting_time evs cs (Some omega)) in
  (forall c, In c cs -> (S (c_source c) + c_d c - omega * c_w c <= S (c_target c))%Q) /\
  (evs <> [] -> (forall e, In e evs -> (0 <= S e)%Q) /\ exists e, In e evs /\ (S e == 0)%Q).
Proof.
  intros evs cs omega Hc Hf S. split; [exact (starts_satisfy evs cs omega Hc Hf)|exact (starts_nonneg evs cs omega)].
Qed.
Print Assumptions C25_start_times_satisfy.

(** C25: the starts satisfy the constraints exactly when some assignment does. *)
Theorem C25_start_times_complete : forall evs cs omega, closed evs cs ->
  (forall c, In c cs -> satisfies omega (fst (compute_starting_time evs cs (Some omega))) c) <->
  (exists S, forall c, In c cs -> satisfies omega S c).
Proof.
  intros evs cs omega Hc. split; [intros H; exists (fst (compute_starting_time evs cs (Some omega))); exact H|].
  intros H. apply (starts_satisfy evs cs omega Hc). apply (satisfiable_iff_fit evs cs omega Hc). exact H.
Qed.
Print Assumptions C25_start_times_complete.

(** C25: generated event graphs are of the required form. *)
Theorem C25_generated_graphs_closed : forall var g N K cs, graph_wf g -> positive_on g N -> positive_on g K ->
  generate_event_graph var g N K = Ok cs -> closed (event_list g K) cs.
Proof. intros var g N K cs Hwf HN HK. exact (generated_closed var g N K Hwf HN HK cs). Qed.
Print Assumptions C25_generated_graphs_closed.

(** C26 (violated): a graph that no start times satisfy, for which success is reported. *)
Definition loop_event := mkEvent 1 1 1.
Definition loop_constraint := mkConstraint loop_event loop_event 1 5 0.
Theorem C26_infeasible_period_refuted :
  exists evs cs omega, closed evs cs /\ (~ exists S, forall c, In c cs -> satisfies omega S c) /\
    snd (compute_starting_time evs cs (Some omega)) = true.
Proof.
  exists [loop_event], [loop_constraint], 1%Q. split; [|split; [|reflexivity]].
  - intros c [<-|[]]. cbn. auto.
  - intros (S & H). specialize (H _ (or_introl eq_refl)). unfold satisfies in H. cbn in H. lra.
Qed.
Print Assumptions C26_infeasible_period_refuted.

(** C26: what the flag means: false exactly for the infinite period. *)
Theorem C26_flag_meaning_partial : forall evs cs omega,
  snd (compute_starting_time evs cs omega) = false <-> omega = None.
Proof. intros evs cs [o|]; split; intros H; first [reflexivity|discriminate H]. Qed.
Print Assumptions C26_flag_meaning_partial.

(** C27: generation always succeeds, and satisfied constraints give a valid schedule. *)
Theorem C27_generation_total : forall var g N K, graph_wf g -> positive_on g N -> positive_on g K ->
  exists cs, generate_event_graph var g N K = Ok cs.
Proof. intros var g N K Hwf HN HK. exact (generate_event_graph_ok var g N K Hwf HN HK). Qed.
Print Assumptions C27_generation_total.

Theorem C27_constraints_sound : forall var g N K omega S cs,
  graph_wf g -> balanced g N -> positive_on g N -> positive_on g K -> init_ok g -> no_overlap g ->
  (0 <= omega)%Q -> generate_event_graph var g N K = Ok cs ->
  (forall c, In c cs -> satisfies omega S c) ->
  schedule_valid g (kperiodic_schedule g N K omega S).
Proof.
  intros var g N K omega S cs Hwf Hb HN HK Hi Hno Hom Hg.
  exact (constraints_sound var g N K Hwf Hb HN HK omega S cs Hg Hno Hi Hom).
Qed.
Print Assumptions C27_constraints_sound.

(** C27: re-entrant tasks (factor <= 0) are covered when they have one phase and K = 1. *)
Theorem C27_constraints_sound_reentrant : forall var g N K omega S cs,
  graph_wf g -> balanced g N -> positive_on g N -> positive_on g K -> init_ok g ->
  (forall i v, nth_error (vertices g) i = Some v ->
     0 < v_reentrancy v \/ (v_phases v = 1%nat /\ v_init_phases v = 0%nat /\ K i = 1)) ->
  (0 <= omega)%Q -> generate_event_graph var g N K = Ok cs ->
  (forall c, In c cs -> satisfies omega S c) ->
  forall c, In c (edges g) -> channel_valid g (kperiodic_schedule g N K omega S) c.
Proof.
  intros var g N K omega S cs Hwf Hb HN HK Hi Hmix Hom Hg Hsat.
  exact (proj1 (mixed_sound var g N K Hwf Hb HN HK omega S cs Hg Hi Hom Hmix Hsat)).
Qed.
Print Assumptions C27_constraints_sound_reentrant.

(** C27: the schedule returned by period2scheduling is valid whenever any K-periodic
    schedule with that throughput is. *)
Theorem C27_returned_schedule_valid : forall g N K th, graph_wf g -> balanced g N -> no_init g -> no_overlap g ->
  positive_on g N -> positive_on g K -> (0 < th)%Q ->
  exists ts, period2scheduling g N K th = Ok ts /\ length ts = length (vertices g) /\
    (forall i v t, nth_error (vertices g) i = Some v -> nth_error ts i = Some t ->
       length (ts_starts t) = (Z.to_nat (K i) * v_phases v)%nat /\
       (ts_period t == task_period (/ th) (K i) (Z.of_nat (v_phases v)) (N i))%Q) /\
    ((exists s, periodic_schedule g N K (/ th) s /\ schedule_valid g s) -> schedule_valid g (denoted ts)).
Proof. exact schedule_returned. Qed.
Print Assumptions C27_returned_schedule_valid.

(** C28: every valid K-periodic schedule satisfies every constraint. *)
Theorem C28_constraints_necessary : forall var g N K omega S cs,
  graph_wf g -> balanced g N -> positive_on g N -> positive_on g K -> no_init g -> no_overlap g ->
  generate_event_graph var g N K = Ok cs ->
  schedule_valid g (kperiodic_schedule g N K omega S) ->
  forall c, In c cs -> satisfies omega S c.
Proof.
  intros var g N K omega S cs Hwf Hb HN HK Hni Hno Hg.
  exact (constraints_necessary var g N K Hwf Hb HN HK omega S cs Hg Hno Hni).
Qed.
Print Assumptions C28_constraints_necessary.

(** C28: a valid K-periodic schedule with period omega exists exactly when every circuit
    of the generated event graph fits in omega. *)
Theorem C28_feasible_iff_circuits_fit : forall var g N K omega cs,
  graph_wf g -> balanced g N -> no_init g -> no_overlap g -> positive_on g N -> positive_on g K ->
  (0 <= omega)%Q -> generate_event_graph var g N K = Ok cs ->
  ((exists s, periodic_schedule g N K omega s /\ schedule_valid g s) <-> circuits_fit cs omega).
Proof. exact periodic_exists_iff. Qed.
Print Assumptions C28_feasible_iff_circuits_fit.

(** C29 *)
Theorem C29_bounds_agree : forall var l g, 0 < g ->
  alpha_max var l g = alpha_max NotOptimized l g /\ alpha_min var l g = alpha_min NotOptimized l g.
Proof.
  intros var l g Hg.
  destruct (alpha_max_correct var l g Hg) as (m & -> & H1).
  destruct (alpha_max_correct NotOptimized l g Hg) as (m' & -> & H2).
  destruct (alpha_min_correct var l g Hg) as (n & -> & H3).
  destruct (alpha_min_correct NotOptimized l g Hg) as (n' & -> & H4).
  rewrite (greatest_multiple_unique _ _ _ _ H1 H2), (least_multiple_unique _ _ _ _ H3 H4). auto.
Qed.
Print Assumptions C29_bounds_agree.
Theorem C29_variants_agree : forall var g N K, graph_wf g -> positive_on g K ->
  generate_event_graph var g N K = generate_event_graph NotOptimized g N K.
Proof. intros var g N K Hwf HK. exact (generate_event_graph_variant var g N K Hwf HK). Qed.
Print Assumptions C29_variants_agree.

(** C30: the self-loop constraints hold exactly when executions do not overlap. *)
Theorem C30_selfloop_serialises : forall t N K omega S cs, vertex_wf t -> (0 < K)%nat -> 0 < N ->
  0 < v_reentrancy t -> (exec_duration t 0 <= exec_duration t (v_init_phases t))%Q ->
  generate_selfloop t N (Z.of_nat K) = Ok cs ->
  (forall c, In c cs -> satisfies omega S c) ->
  serialised (kperiodic_start S t K (task_period omega (Z.of_nat K) (Z.of_nat (v_phases t)) N)) (exec_duration t).
Proof.
  intros t N K omega S cs Ht HK HN Hr Hd Hg Hs. exact (selfloop_serialises t N K Ht HK HN omega S cs Hr Hd Hg Hs).
Qed.
Print Assumptions C30_selfloop_serialises.
Theorem C30_selfloop_exact : forall t N K omega S cs, vertex_wf t -> (0 < K)%nat -> 0 < N ->
  0 < v_reentrancy t -> v_init_phases t = 0%nat ->
  generate_selfloop t N (Z.of_nat K) = Ok cs ->
  ((forall c, In c cs -> satisfies omega S c) <->
   serialised (kperiodic_start S t K (task_period omega (Z.of_nat K) (Z.of_nat (v_phases t)) N)) (exec_duration t)).
Proof.
  intros t N K omega S cs Ht HK HN Hr Hi Hg. split.
  - intros Hs. apply (selfloop_serialises t N K Ht HK HN omega S cs Hr); auto. rewrite Hi. apply Qle_refl.
  - intros Hs. exact (serialised_selfloop t N K Ht HK HN omega S cs Hr Hi Hg Hs).
Qed.
Print Assumptions C30_selfloop_exact.

(** C33: refining K keeps every feasible period. *)
Theorem C33_refining_K_monotone : forall var g N K K' omega cs cs',
  graph_wf g -> balanced g N -> no_init g -> no_overlap g ->
  positive_on g N -> positive_on g K -> positive_on g K' ->
  (forall i, (i < length (vertices g))%nat -> (K i | K' i)) -> (0 <= omega)%Q ->
  generate_event_graph var g N K = Ok cs -> generate_event_graph var g N K' = Ok cs' ->
  (exists S, forall c, In c cs -> satisfies omega S c) ->
  (exists S, forall c, In c cs' -> satisfies omega S c).
Proof.
  intros var g N K K' omega cs cs' Hwf Hb Hni Hno HN HK HK' Hd Hom Hg Hg' Hs.
  apply (satisfiable_iff_fit _ _ _ (generated_closed var g N K' Hwf HN HK' cs' Hg')).
  apply (refine_K var g N K K' omega cs cs'); auto.
  apply (satisfiable_iff_fit _ _ _ (generated_closed var g N K Hwf HN HK cs Hg)). exact Hs.
Qed.
Print Assumptions C33_refining_K_monotone.

(** * A concrete graph meeting the hypotheses: A (2 phases) -> B and back. *)
Definition ex_A := mkVertex 1 2 0 [1; 2]%Q [] 1.
Definition ex_B := mkVertex 2 1 0 [1]%Q [] 1.
Definition ex_graph := mkGraph [ex_A; ex_B]
  [mkEdge 1 0 1 [1; 2] [2] [] [] 0; mkEdge 2 1 0 [2] [1; 2] [] [] 4].
Definition ex_N (i : nat) : Z := match i with O => 4 | _ => 3 end.
Definition ex_K (i : nat) : Z := match i with O => 2 | _ => 3 end.
Definition ex_one (i : nat) : Z := 1.

Ltac in_cases := intros; repeat match goal with
  | H : In _ (_ :: _) |- _ => destruct H as [<-|H]
  | H : In _ [] |- _ => destruct H
  | H : _ \/ _ |- _ => destruct H as [<-|H]
  | H : False |- _ => destruct H
  end.

Example ex_wf : graph_wf ex_graph.
Proof.
  split; [|split].
  - intros v [<-|[<-|[]]]; (split; [cbn; lia|split; [reflexivity|split; [reflexivity|]]]); cbn; in_cases; unfold Qle; cbn; lia.
  - intros c [<-|[<-|[]]]; eexists; eexists; (split; [reflexivity|split; [reflexivity|]]);
      repeat (split; [reflexivity|]); (split; [cbn; in_cases; lia|]); cbn; lia.
  - repeat constructor; cbn; intuition discriminate.
Qed.
Example ex_balanced : balanced ex_graph ex_N.
Proof. intros c [<-|[<-|[]]]; reflexivity. Qed.
Example ex_no_init : no_init ex_graph.
Proof. intros v [<-|[<-|[]]]; reflexivity. Qed.
Example ex_no_overlap : no_overlap ex_graph.
Proof. intros v [<-|[<-|[]]]; reflexivity. Qed.
Example ex_positive : positive_on ex_graph ex_N /\ positive_on ex_graph ex_K /\ positive_on ex_graph ex_one.
Proof. split; [|split]; intros [|[|i]] H; try reflexivity; cbn in H; lia. Qed.
Example ex_divides : forall i, (i < length (vertices ex_graph))%nat -> (ex_one i | ex_K i).
Proof. intros i _. exists (ex_K i). unfold ex_one. lia. Qed.

Definition sat_b (omega : Q) (S : event -> Q) (c : constraint) : bool :=
  Qle_bool (S (c_source c) + c_d c - omega * c_w c) (S (c_target c)).
(** At K = 1 the period 9 is feasible and 8 is not; at K = (2,3) the period 6 is. *)
Definition feasible_b (K : nat -> Z) (omega : Q) : bool :=
  match generate_event_graph StronglyOptimized ex_graph ex_N K with
  | Ok cs => forallb (sat_b omega (fst (compute_starting_time (event_list ex_graph K) cs (Some omega)))) cs
             && (0 <? Z.of_nat (length cs))
  | _ => false
  end.
Example ex_feasible : feasible_b ex_one 9 = true /\ feasible_b ex_one 8 = false /\ feasible_b ex_K 6 = true.
Proof. vm_compute. auto. Qed.

Example ex_valid_schedule : exists s, periodic_schedule ex_graph ex_N ex_K 6 s /\ schedule_valid ex_graph s.
Proof.
  destruct ex_positive as (HN & HK & _).
  destruct (C27_generation_total StronglyOptimized ex_graph ex_N ex_K ex_wf HN HK) as (cs & Hcs).
  pose proof (proj2 (proj2 ex_feasible)) as Hf. unfold feasible_b in Hf. rewrite Hcs in Hf.
  apply andb_true_iff in Hf as [Hf _]. rewrite forallb_forall in Hf.
  set (S := fst _) in Hf. exists (kperiodic_schedule ex_graph ex_N ex_K 6 S). split.
  - apply kperiodic_schedule_periodic; [exact ex_wf|exact ex_no_init|exact HK].
  - apply (C27_constraints_sound StronglyOptimized ex_graph ex_N ex_K 6 S cs ex_wf ex_balanced HN HK
      (no_init_ok _ ex_wf ex_no_init) ex_no_overlap); [unfold Qle; cbn; lia|exact Hcs|].
    intros c Hc. apply Qle_bool_iff. exact (Hf c Hc).
Qed.

(** * Findings: where the hypotheses of C27, C28 and C30 are needed *)
Lemma moved_by_tail at_ r M t : (forall m, 0 <= r m) -> (forall m, (M <= m)%nat -> (t < at_ m)%Q) ->
  forall n, moved_by at_ r n t <= moved_by at_ r M t.
Proof.
  intros Hr Ht n. destruct (le_lt_dec M n) as [H|H].
  - replace n with (M + (n - M))%nat by lia. induction (n - M)%nat as [|k IH]; [rewrite Nat.add_0_r; lia|].
    rewrite Nat.add_succ_r. unfold moved_by in *. cbn [sumf].
    destruct (Qle_bool (at_ (M + k)%nat) t) eqn:E; [|lia].
    apply Qle_bool_iff in E. specialize (Ht (M + k)%nat ltac:(lia)). lra.
  - unfold moved_by. apply sumf_mono; [|lia]. intros m. destruct (Qle_bool _ _); [apply Hr|lia].
Qed.

(** Re-entrant multi-phase producer (factor 0, the default of the SDF3 importer): phase 1
    takes 10, phase 2 takes 1, the consumer needs both tokens but is only made to wait
    for phase 2. *)
Definition re_A := mkVertex 1 2 0 [10; 1]%Q [] 0.
Definition re_B := mkVertex 2 1 0 [1]%Q [] 0.
Definition re_c := mkEdge 1 0 1 [1; 1] [2] [] [] 0.
Definition re_graph := mkGraph [re_A; re_B] [re_c].
Definition re_N (i : nat) : Z := match i with O => 2 | _ => 1 end.
Definition re_S (e : event) : Q := if ev_task e =? 1 then 0%Q else 1%Q.
Definition re_cs : list constraint :=
  match generate_event_graph StronglyOptimized re_graph re_N ex_one with Ok cs => cs | _ => [] end.
Theorem C27_reentrant_multiphase_refuted :
  exists g N K omega S cs c, graph_wf g /\ balanced g N /\ no_init g /\ positive_on g N /\ positive_on g K /\
    (0 <= omega)%Q /\ generate_event_graph StronglyOptimized g N K = Ok cs /\
    (forall x, In x cs -> satisfies omega S x) /\ In c (edges g) /\
    ~ channel_valid g (kperiodic_schedule g N K omega S) c.
Proof.
  exists re_graph, re_N, ex_one, 100%Q, re_S, re_cs, re_c.
  split; [|split; [|split; [|split; [|split; [|split; [|split; [|split; [|split]]]]]]]].
  - split; [|split].
    + intros v [<-|[<-|[]]]; (split; [cbn; lia|split; [reflexivity|split; [reflexivity|]]]); cbn; in_cases; unfold Qle; cbn; lia.
    + intros c [<-|[]]; eexists; eexists; (split; [reflexivity|split; [reflexivity|]]);
      repeat (split; [reflexivity|]); (split; [cbn; in_cases; lia|]); cbn; lia.
    + repeat constructor; cbn; intuition discriminate.
  - intros c [<-|[]]; reflexivity.
  - intros v [<-|[<-|[]]]; reflexivity.
  - intros [|[|i]] H; try reflexivity; cbn in H; lia.
  - intros i _. reflexivity.
  - unfold Qle; cbn; lia.
  - vm_compute. reflexivity.
  - intros x Hx. apply Qle_bool_iff. change (sat_b 100 re_S x = true).
    assert (H : forallb (sat_b 100 re_S) re_cs = true) by (vm_compute; reflexivity).
    rewrite forallb_forall in H. exact (H x Hx).
  - left; reflexivity.
  - intros H. destruct (H 1%Q 1%nat) as (np & Hn).
    assert (Ht : moved_by (end_of (kperiodic_schedule re_graph re_N ex_one 100 re_S) re_graph (e_src re_c)) (prod_rate re_c) np 1
                 <= moved_by (end_of (kperiodic_schedule re_graph re_N ex_one 100 re_S) re_graph (e_src re_c)) (prod_rate re_c) 2 1).
    { apply moved_by_tail.
      - intros m. pose proof (cyclic_in 0 [] [1; 1] m ltac:(cbn; lia)) as Hin. cbn [app In] in Hin.
        change (prod_rate re_c m) with (cyclic 0 [] [1; 1] m). lia.
      - intros m Hm. unfold end_of, kperiodic_schedule. cbn [nth_error re_graph vertices re_c e_src].
        unfold kperiodic_start. cbn [re_A v_init_phases v_phases v_id Nat.ltb Nat.leb]. rewrite Nat.sub_0_r.
        unfold re_S. cbn [ev_task]. change (1 =? 1) with true. cbn iota.
        change (Z.to_nat (ex_one 0)) with 1%nat. rewrite Nat.mul_1_l.
        assert (H2 : (1 <= m / 2)%nat) by (apply Nat.div_le_lower_bound; lia).
        assert (H3 : (0 <= exec_duration re_A m)%Q).
        { apply exec_duration_nn. split; [cbn; lia|split; [reflexivity|split; [reflexivity|]]]; cbn; in_cases; unfold Qle; cbn; lia. }
        assert (H4 : (task_period 100 (ex_one 0) (Z.of_nat 2) (re_N 0) == 100)%Q) by reflexivity.
        rewrite H4. assert (H5 : (1 <= inject_Z (Z.of_nat (m / 2)))%Q).
        { change 1%Q with (inject_Z 1). rewrite <- Zle_Qle. change 1 with (Z.of_nat 1). apply Nat2Z.inj_le. exact H2. }
        set (q := inject_Z _) in *. set (d := exec_duration re_A m) in *. clearbody q d. lra. }
    assert (E : moved_by (end_of (kperiodic_schedule re_graph re_N ex_one 100 re_S) re_graph (e_src re_c)) (prod_rate re_c) 2 1 = 1)
      by (vm_compute; reflexivity).
    assert (E2 : moved_by (start_of (kperiodic_schedule re_graph re_N ex_one 100 re_S) (e_dst re_c)) (cons_rate re_c) 1 1 = 2)
      by (vm_compute; reflexivity).
    rewrite E in Ht. rewrite E2 in Hn. cbn [e_preload re_c] in Hn. lia.
Qed.
Print Assumptions C27_reentrant_multiphase_refuted.

(** Initial rates that are not multiples of the fine GCD of the periodic rates: the
    channel gets no constraint at all. *)
Definition ini_A := mkVertex 1 1 1 [1]%Q [1]%Q 1.
Definition ini_B := mkVertex 2 1 0 [1]%Q [] 1.
Definition ini_c := mkEdge 1 0 1 [2] [2] [1] [] 1.
Definition ini_graph := mkGraph [ini_A; ini_B] [ini_c].
Definition ini_S (e : event) : Q := if (ev_task e =? 1) && (ev_phase e =? 1) then 1%Q else 0%Q.
Definition ini_cs : list constraint :=
  match generate_event_graph StronglyOptimized ini_graph ex_one ex_one with Ok cs => cs | _ => [] end.
Theorem C27_initial_rates_refuted :
  exists g N K omega S cs c, graph_wf g /\ balanced g N /\ no_overlap g /\ positive_on g N /\ positive_on g K /\
    (0 <= omega)%Q /\ generate_event_graph StronglyOptimized g N K = Ok cs /\
    (forall x, In x cs -> satisfies omega S x) /\ In c (edges g) /\
    ~ channel_valid g (kperiodic_schedule g N K omega S) c.
Proof.
  exists ini_graph, ex_one, ex_one, 100%Q, ini_S, ini_cs, ini_c.
  split; [|split; [|split; [|split; [|split; [|split; [|split; [|split; [|split]]]]]]]].
  - split; [|split].
    + intros v [<-|[<-|[]]]; (split; [cbn; lia|split; [reflexivity|split; [reflexivity|]]]); cbn; in_cases; unfold Qle; cbn; lia.
    + intros c [<-|[]]; eexists; eexists; (split; [reflexivity|split; [reflexivity|]]);
      repeat (split; [reflexivity|]); (split; [cbn; in_cases; lia|]); cbn; lia.
    + repeat constructor; cbn; intuition discriminate.
  - intros c [<-|[]]; reflexivity.
  - intros v [<-|[<-|[]]]; reflexivity.
  - intros i _. reflexivity.
  - intros i _. reflexivity.
  - unfold Qle; cbn; lia.
  - vm_compute. reflexivity.
  - intros x Hx. apply Qle_bool_iff. change (sat_b 100 ini_S x = true).
    assert (H : forallb (sat_b 100 ini_S) ini_cs = true) by (vm_compute; reflexivity).
    rewrite forallb_forall in H. exact (H x Hx).
  - left; reflexivity.
  - intros H. destruct (H 0%Q 1%nat) as (np & Hn).
    assert (Ht : moved_by (end_of (kperiodic_schedule ini_graph ex_one ex_one 100 ini_S) ini_graph (e_src ini_c)) (prod_rate ini_c) np 0
                 <= moved_by (end_of (kperiodic_schedule ini_graph ex_one ex_one 100 ini_S) ini_graph (e_src ini_c)) (prod_rate ini_c) 0 0).
    { apply moved_by_tail.
      - intros m. unfold prod_rate, cyclic. cbn [ini_c e_in e_in_init length Nat.ltb Nat.leb].
        destruct m; [cbn; lia|]. rewrite Nat.mod_1_r. cbn. lia.
      - intros m _. unfold end_of, kperiodic_schedule. cbn [nth_error ini_graph vertices ini_c e_src].
        assert (H3 : exec_duration ini_A m = 1%Q).
        { unfold exec_duration, cyclic. destruct m; [reflexivity|]. cbn [ini_A v_init_durations v_durations length Nat.ltb Nat.leb].
          rewrite Nat.mod_1_r. reflexivity. }
        rewrite H3. unfold kperiodic_start. cbn [ini_A v_init_phases v_phases v_id].
        destruct m as [|m]; [vm_compute; reflexivity|]. cbn [Nat.ltb Nat.leb].
        change (Z.to_nat (ex_one 0)) with 1%nat. rewrite Nat.mul_1_l, !Nat.mod_1_r, Nat.div_1_r.
        change (ini_S _) with 1%Q.
        assert (H4 : (task_period 100 (ex_one 0) (Z.of_nat 1) (ex_one 0) == 100)%Q) by reflexivity.
        rewrite H4. assert (H5 : (0 <= inject_Z (Z.of_nat (S m - 1)))%Q).
        { change 0%Q with (inject_Z 0). rewrite <- Zle_Qle. lia. }
        set (q := inject_Z _) in *. clearbody q. lra. }
    assert (E2 : moved_by (start_of (kperiodic_schedule ini_graph ex_one ex_one 100 ini_S) (e_dst ini_c)) (cons_rate ini_c) 1 0 = 2)
      by (vm_compute; reflexivity).
    rewrite E2 in Hn. unfold moved_by at 2 in Ht. cbn [sumf] in Ht. cbn [e_preload ini_c] in Hn. lia.
Qed.
Print Assumptions C27_initial_rates_refuted.

(** A long initial phase: the code charges the duration of phase 1 instead. *)
Definition lti_A := mkVertex 1 1 1 [1]%Q [5]%Q 1.
Definition lti_cs : list constraint := match generate_selfloop lti_A 1 1 with Ok cs => cs | _ => [] end.
Definition lti_S (e : event) : Q := if ev_phase e =? 1 then 1%Q else 0%Q.
Theorem C30_long_initial_phase_refuted :
  exists t N K omega S cs, vertex_wf t /\ (0 < K)%nat /\ 0 < N /\ 0 < v_reentrancy t /\
    generate_selfloop t N (Z.of_nat K) = Ok cs /\ (forall c, In c cs -> satisfies omega S c) /\
    ~ serialised (kperiodic_start S t K (task_period omega (Z.of_nat K) (Z.of_nat (v_phases t)) N)) (exec_duration t).
Proof.
  exists lti_A, 1, 1%nat, 10%Q, lti_S, lti_cs.
  split; [|split; [lia|split; [lia|split; [reflexivity|split; [reflexivity|split]]]]].
  - split; [cbn; lia|split; [reflexivity|split; [reflexivity|]]]; cbn; in_cases; unfold Qle; cbn; lia.
  - intros c Hc. apply Qle_bool_iff. change (sat_b 10 lti_S c = true).
    assert (H : forallb (sat_b 10 lti_S) lti_cs = true) by (vm_compute; reflexivity).
    rewrite forallb_forall in H. exact (H c Hc).
  - intros H. specialize (H 0%nat). apply Qle_bool_iff in H. vm_compute in H. discriminate.
Qed.
Print Assumptions C30_long_initial_phase_refuted.
