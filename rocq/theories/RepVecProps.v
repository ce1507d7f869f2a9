(** Properties C18 to C21: the repetition vector. *)
From Coq Require Import QArith Znumtheory Lqa Permutation.
From Verif Require Import Base Fraction Graph KPeriodic ScheduleSpec KPeriodicSpec KPeriodicEnd EventGraphSpec KPeriodicProps
  KIter KIterSpec KIterProps RepVec RepVecSpec RepVecProofs RepVecFinal.
Open Scope Z_scope.

(** Every task is the end of some channel or has a single phase. *)
Definition no_lonely_phases (g : graph) : Prop :=
  forall i v, nth_error (vertices g) i = Some v -> has_channel g i \/ v_phases v = 1%nat.

(** * Proofs *)
Lemma graph_wf_rates g : graph_wf g -> rates_wf g.
Proof.
  intros (Hv & He & _). split; [intros v Hin; apply (Hv v Hin)|]. intros c Hc. destruct (He c Hc) as (vs & vd & E1 & E2 & W).
  exists vs, vd. destruct W as (? & ? & ? & ? & Hpos & ?). repeat split; auto.
  intros x Hx. apply Hpos. rewrite !in_app_iff in *. tauto.
Qed.
Lemma lonely_counted g i v : rates_wf g -> no_lonely_phases g -> nth_error (vertices g) i = Some v -> (Z.of_nat (v_phases v) | rate_period g).
Proof.
  intros Hwf Hl E. assert (Hc : counted g i).
  { destruct (Hl i v E); [apply counted_channel|eapply counted_single]; eauto. }
  destruct Hc as (v' & E' & H). congruence.
Qed.

Lemma rv_sound g fuel N : rates_wf g -> vertices g <> [] -> (length (vertices g) <= fuel)%nat ->
  compute_repetition_vector fuel g = Ok (Some N) ->
  length N = length (vertices g) /\ solution g (as_vector N) /\
  (forall i v, nth_error (vertices g) i = Some v -> has_channel g i -> (Z.of_nat (v_phases v) | as_vector N i)).
Proof.
  intros Hwf Hne Hf E. destruct (compute_spec g fuel Hwf Hne Hf) as [(Nl & E' & L & _ & S & P & _)|[E' _]]; [|congruence].
  rewrite E in E'. injection E' as <-. split; [exact L|]. split; [exact S|].
  intros i v Ei Hc. apply (P i v Ei). destruct (counted_channel g i Hwf Hc) as (v' & Ei' & Hd). congruence.
Qed.

Lemma rv_cycle_gcd g fuel N : rates_wf g -> vertices g <> [] -> (length (vertices g) <= fuel)%nat -> no_lonely_phases g ->
  compute_repetition_vector fuel g = Ok (Some N) ->
  forall d, (forall i v, nth_error (vertices g) i = Some v -> (d | as_vector N i / Z.of_nat (v_phases v))) -> (d | 1).
Proof.
  intros Hwf Hne Hf Hl E. destruct (compute_spec g fuel Hwf Hne Hf) as [(Nl & E' & L & _ & S & P & G)|[E' _]]; [|congruence].
  rewrite E in E'. injection E' as <-. apply G. intros i Hi. destruct (nth_error (vertices g) i) as [v|] eqn:Ei.
  - exists v. split; [exact Ei|]. eapply lonely_counted; eauto.
  - apply nth_error_None in Ei. lia.
Qed.

Lemma rv_least g fuel N : rates_wf g -> vertices g <> [] -> (length (vertices g) <= fuel)%nat -> no_lonely_phases g -> connected_graph g ->
  compute_repetition_vector fuel g = Ok (Some N) ->
  forall M, solution g M -> (forall i v, nth_error (vertices g) i = Some v -> (Z.of_nat (v_phases v) | M i)) ->
  exists k, 0 < k /\ forall i, (i < length (vertices g))%nat -> M i = k * as_vector N i.
Proof.
  intros Hwf Hne Hf Hl Hcon E M HM Hph. destruct (compute_spec g fuel Hwf Hne Hf) as [(Nl & E' & L & Hmv & S & P & _)|[E' _]]; [|congruence].
  rewrite E in E'. injection E' as <-. apply (unique_multiple g); auto.
  - intros i v Ei. split; [apply Hph; exact Ei|]. apply (P i v Ei). eapply lonely_counted; eauto.
  - apply (rv_cycle_gcd g fuel N); assumption.
Qed.

Lemma rv_exact g fuel : rates_wf g -> vertices g <> [] -> (length (vertices g) <= fuel)%nat ->
  (exists N, compute_repetition_vector fuel g = Ok (Some N)) /\ (moves_tokens g /\ exists M, solution g M) \/
  compute_repetition_vector fuel g = Ok None /\ ~ (moves_tokens g /\ exists M, solution g M).
Proof.
  intros Hwf Hne Hf. destruct (compute_spec g fuel Hwf Hne Hf) as [(Nl & E' & L & Hmv & S & _)|H]; [left|right; exact H].
  split; [eauto|]. split; [exact Hmv|eauto].
Qed.

Lemma rv_for_scheduling g fuel N : graph_wf g -> vertices g <> [] -> (length (vertices g) <= fuel)%nat -> no_lonely_phases g ->
  compute_repetition_vector fuel g = Ok (Some N) -> balanced g (as_vector N) /\ whole_cycles g (as_vector N).
Proof.
  intros Hwf Hne Hf Hl E. pose proof (graph_wf_rates g Hwf) as Hr.
  destruct (compute_spec g fuel Hr Hne Hf) as [(Nl & E' & L & Hmv & S & P & _)|[E' _]]; [|congruence].
  rewrite E in E'. injection E' as <-. destruct S as [S1 S2]. split; [exact S2|].
  intros i v Ei. split; [apply S1, nth_error_Some; congruence|]. apply (P i v Ei). eapply lonely_counted; eauto.
Qed.

(** * Theorems *)

(** C18: when it succeeds, the result has one positive count per task, satisfies the
    balance equation of each channel, and is a multiple of the number of phases for each
    task with a channel. *)
Theorem C18_balance : forall g fuel N, rates_wf g -> vertices g <> [] -> (length (vertices g) <= fuel)%nat ->
  compute_repetition_vector fuel g = Ok (Some N) ->
  length N = length (vertices g) /\
  (forall i, (i < length (vertices g))%nat -> 0 < nth i N 0) /\
  (forall c, In c (edges g) ->
     sumZ (e_in c) * nth (e_src c) N 0 * Z.of_nat (length (e_out c)) = sumZ (e_out c) * nth (e_dst c) N 0 * Z.of_nat (length (e_in c))) /\
  (forall i v, nth_error (vertices g) i = Some v -> has_channel g i -> (Z.of_nat (v_phases v) | nth i N 0)).
Proof. intros g fuel N Hwf Hne Hf E. destruct (rv_sound g fuel N Hwf Hne Hf E) as (A & [B C] & D). auto. Qed.
Print Assumptions C18_balance.

(** C19: no smaller iteration has whole cycles: the cycle counts N(t)/phases(t) have no
    common divisor but 1; and on a connected graph every solution made of whole cycles is
    a multiple of the result. *)
Theorem C19_cycle_counts_coprime : forall g fuel N, rates_wf g -> vertices g <> [] -> (length (vertices g) <= fuel)%nat ->
  no_lonely_phases g -> compute_repetition_vector fuel g = Ok (Some N) ->
  forall d, (forall i v, nth_error (vertices g) i = Some v -> (d | nth i N 0 / Z.of_nat (v_phases v))) -> (d | 1).
Proof. exact rv_cycle_gcd. Qed.
Print Assumptions C19_cycle_counts_coprime.

Theorem C19_least_solution : forall g fuel N, rates_wf g -> vertices g <> [] -> (length (vertices g) <= fuel)%nat ->
  no_lonely_phases g -> connected_graph g -> compute_repetition_vector fuel g = Ok (Some N) ->
  forall M, solution g M -> (forall i v, nth_error (vertices g) i = Some v -> (Z.of_nat (v_phases v) | M i)) ->
  exists k, 0 < k /\ forall i, (i < length (vertices g))%nat -> M i = k * nth i N 0.
Proof. exact rv_least. Qed.
Print Assumptions C19_least_solution.

(** C20: it always answers, and answers false exactly when some channel moves no token on
    one side or the balance equations have no positive solution. *)
Theorem C20_consistency_exact : forall g fuel, rates_wf g -> vertices g <> [] -> (length (vertices g) <= fuel)%nat ->
  (exists N, compute_repetition_vector fuel g = Ok (Some N)) /\ (moves_tokens g /\ exists M, solution g M) \/
  compute_repetition_vector fuel g = Ok None /\ ~ (moves_tokens g /\ exists M, solution g M).
Proof. exact rv_exact. Qed.
Print Assumptions C20_consistency_exact.

(** The computed vector meets what the K-periodic theorems ask of it (C27, C55). *)
Theorem C18_fit_for_scheduling : forall g fuel N, graph_wf g -> vertices g <> [] -> (length (vertices g) <= fuel)%nat ->
  no_lonely_phases g -> compute_repetition_vector fuel g = Ok (Some N) ->
  balanced g (as_vector N) /\ whole_cycles g (as_vector N).
Proof. exact rv_for_scheduling. Qed.
Print Assumptions C18_fit_for_scheduling.

(** C55 with the vector the code computes. *)
Theorem C55_kiter_end_to_end : forall solve arrange var g Nl fuel r K cs, (forall l, Permutation (arrange l) l) ->
  graph_wf g -> vertices g <> [] -> no_lonely_phases g -> no_init g -> no_overlap g -> edge_ids_ok g ->
  compute_repetition_vector (length (vertices g)) g = Ok (Some Nl) ->
  let N := as_vector Nl in
  (S (Z.to_nat (sumf (cycles g N) (length (vertices g)))) <= fuel)%nat ->
  kiter solve arrange fuel var g N = Ok (r, K, cs) -> exact_answer cs (solve cs) ->
  ((0 < kr_throughput r)%Q ->
     (exists s, periodic_schedule g N K (/ kr_throughput r) s /\ schedule_valid g s /\ keeps_pace g N s (/ kr_throughput r)) /\
     (forall s omega, schedule_valid g s -> non_zeno g s -> keeps_pace g N s omega -> (/ kr_throughput r <= omega)%Q)) /\
  ((kr_throughput r <= 0)%Q -> forall s omega, schedule_valid g s -> non_zeno g s -> ~ keeps_pace g N s omega).
Proof.
  intros solve arrange var g Nl fuel r K cs Ha Hwf Hne Hl Hni Hno Hid E N Hf Hk He.
  destruct (rv_for_scheduling g _ Nl Hwf Hne (le_n _) Hl E) as [Hb Hw].
  exact (C55_kiter_optimal solve arrange var g N fuel r K cs Ha Hwf Hb Hni Hno Hw Hid Hf Hk He).
Qed.
Print Assumptions C55_kiter_end_to_end.

(** C21: a task without channel may get a count that is not a multiple of its number of
    phases (its phases never enter the rate period). *)
Theorem C21_isolated_task_refuted : exists g fuel N i v, rates_wf g /\ (length (vertices g) <= fuel)%nat /\
  compute_repetition_vector fuel g = Ok (Some N) /\ nth_error (vertices g) i = Some v /\ ~ (Z.of_nat (v_phases v) | nth i N 0).
Proof.
  exists (mkGraph [mkVertex 1 2 0 [1; 1]%Q [] 1] []), 1%nat, [1], 0%nat, (mkVertex 1 2 0 [1; 1]%Q [] 1).
  split; [split; [intros v [<-|[]]; cbn; lia|intros c []]|]. split; [cbn; lia|]. split; [vm_compute; reflexivity|].
  split; [reflexivity|]. cbn. intros [k Hk]. lia.
Qed.
Print Assumptions C21_isolated_task_refuted.

(** C19 does not extend to graphs that are not connected: there is a solution of whole
    cycles that is smaller on one task.  Tasks A -> B with N = (2, 1) beside a task C. *)
Definition two_parts : graph :=
  mkGraph [mkVertex 1 1 0 [1]%Q [] 1; mkVertex 2 1 0 [1]%Q [] 1; mkVertex 3 1 0 [1]%Q [] 1]
          [mkEdge 1 0 1 [1] [2] [] [] 0].
Theorem C19_disconnected_refuted : exists g fuel N M i, rates_wf g /\ no_lonely_phases g /\ (length (vertices g) <= fuel)%nat /\
  compute_repetition_vector fuel g = Ok (Some N) /\ solution g M /\
  (forall j v, nth_error (vertices g) j = Some v -> (Z.of_nat (v_phases v) | M j)) /\
  (i < length (vertices g))%nat /\ M i < nth i N 0 /\ forall j, M j <= nth j N 0.
Proof.
  exists two_parts, 3%nat, [2; 1; 2], (fun j => nth j [2; 1; 1] 0), 2%nat.
  split; [|split; [|split; [cbn; lia|split; [vm_compute; reflexivity|split; [|split; [|split; [cbn; lia|split; [cbn; lia|]]]]]]]].
  - split; [intros v [<-|[<-|[<-|[]]]]; cbn; lia|]. intros c [<-|[]]. do 2 eexists. repeat split; try reflexivity.
    intros x [<-|[<-|[]]]; lia.
  - intros [|[|[|i]]] v E; cbn in E; try (destruct i; discriminate); injection E as <-; right; reflexivity.
  - split; [intros [|[|[|i]]] Hi; cbn in *; lia|]. intros c [<-|[]]. reflexivity.
  - intros [|[|[|i]]] v E; cbn in E; try (destruct i; discriminate); injection E as <-; apply Z.divide_1_l.
  - intros [|[|[|i]]]; cbn; try lia; destruct i; lia.
Qed.
Print Assumptions C19_disconnected_refuted.

(** C20 needs a task: on the empty graph the code dereferences the first of zero tasks. *)
Theorem C20_empty_graph_refuted : forall fuel, compute_repetition_vector fuel (mkGraph [] []) = Undefined.
Proof. intros [|fuel]; reflexivity. Qed.
Print Assumptions C20_empty_graph_refuted.

(** * Concrete cases *)
Example ex_vector : compute_repetition_vector 2 ex_graph = Ok (Some [4; 3]).
Proof. vm_compute. reflexivity. Qed.
Example ex_no_lonely : no_lonely_phases ex_graph.
Proof. intros [|[|i]] v E; cbn in E; try (destruct i; discriminate); left; eexists; (split; [left; reflexivity|cbn; auto]). Qed.
Example ex_connected : connected_graph ex_graph.
Proof.
  set (c0 := hd (mkEdge 0 0 0 [] [] [] [] 0) (edges ex_graph)). assert (H0 : In c0 (edges ex_graph)) by (left; reflexivity).
  intros [|[|i]] [|[|j]] Hi Hj; cbn in Hi, Hj; try lia; try apply linked_refl.
  - apply (linked_fwd ex_graph 0 c0 H0). apply linked_refl.
  - apply (linked_bwd ex_graph 1 c0 H0). apply linked_refl.
Qed.
(** A cycle with an inconsistent rate is answered false. *)
Example ex_inconsistent : compute_repetition_vector 2
  (mkGraph [mkVertex 1 1 0 [1]%Q [] 1; mkVertex 2 1 0 [1]%Q [] 1] [mkEdge 1 0 1 [1] [2] [] [] 0; mkEdge 2 1 0 [1] [1] [] [] 0]) = Ok None.
Proof. vm_compute. reflexivity. Qed.
