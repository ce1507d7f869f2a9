(** C71, C72: the maximum/minimum cycle ratio solver and K-Iter running on it. *)
From Coq Require Import QArith Qabs Lqa Permutation.
From Verif Require Import Base Graph ScheduleSpec KPeriodic KPeriodicEnd KPeriodicProps
  EventGraph EventGraphSpec EventGraphProofs KIter KIterSpec KIterProofs KIterProps SimSpec Howard HowardProofs HowardTotal HowardFinal HowardKIter.
Open Scope Z_scope.

(** * C71 *)
(** The solver always answers when no circuit has a zero time (in particular when every arc has
    a positive one). *)
Theorem C71_always_answers : forall o eps bound evs cs, NoDup evs -> closed evs cs -> (forall l, circuit cs l -> ~ (sumQ c_d l == 0)%Q) ->
  exists q, ocr_howard o eps bound evs cs = Ok q.
Proof. exact ocr_total_circuits. Qed.
Print Assumptions C71_always_answers.

(** Settled or not, the critical cycle it returns is a circuit of the graph with the value
    returned as its ratio; without one, the value is the bound it started from. *)
Theorem C71_value_is_a_circuit : forall o eps bound evs cs q v, closed evs cs -> ocr_howard o eps bound evs cs = Ok q -> r_value q = Some v ->
  (circuit cs (r_cycle q) /\ ~ (sumQ c_d (r_cycle q) == 0)%Q /\ (v * sumQ c_d (r_cycle q) == sumQ c_w (r_cycle q))%Q) \/
  (r_cycle q = [] /\ v = match bound with Some b => b | None => mcr_bound o eps evs cs end).
Proof.
  intros o eps bound evs cs q v CL H V. destruct (ocr_spec _ _ _ _ _ _ CL H) as (m & At & _ & R & _). cbv beta zeta in *.
  assert (v = m) as -> by (rewrite R in V; destruct (better o m _); congruence).
  destruct At as [[-> E]|A]; [right; auto|left; exact A].
Qed.
Print Assumptions C71_value_is_a_circuit.

(** When the run stops because nothing improves, no circuit has a ratio below the minimum
    returned by more than 100 times the tolerance per arc. *)
Theorem C71_minimum_bounds_circuits_partial : forall eps bound evs cs q v, closed evs cs -> min_cycle_ratio eps bound evs cs = Ok q ->
  r_settled q = true -> r_value q = Some v ->
  forall l, circuit cs l -> (v * sumQ c_d l <= sumQ c_w l + inject_Z (Z.of_nat (length l)) * (100 * eps))%Q.
Proof.
  intros eps bound evs cs q v CL H ST V l C. destruct (ocr_spec _ _ _ _ _ _ CL H) as (m & _ & _ & R & Cert). cbv beta zeta in *.
  assert (v = m) as -> by (rewrite R in V; destruct (better _ m _); congruence).
  specialize (Cert ST l C). unfold multiplier, improve_ratio in Cert. lra.
Qed.
Print Assumptions C71_minimum_bounds_circuits_partial.

Theorem C71_maximum_bounds_circuits_partial : forall eps evs cs q v, closed evs cs -> max_cycle_ratio eps evs cs = Ok q ->
  r_settled q = true -> r_value q = Some v ->
  forall l, circuit cs l -> (sumQ c_w l <= v * sumQ c_d l + inject_Z (Z.of_nat (length l)) * (100 * eps))%Q.
Proof.
  intros eps evs cs q v CL H ST V l C. destruct (ocr_spec Maximum eps None evs cs q CL H) as (m & _ & _ & R & Cert). cbv beta zeta in *.
  assert (v = m) as -> by (rewrite R in V; destruct (better _ m _); congruence).
  specialize (Cert ST l C). unfold multiplier, improve_ratio in Cert. lra.
Qed.
Print Assumptions C71_maximum_bounds_circuits_partial.

(** With exact comparisons a settled run returns the minimum ratio over all circuits: a lower
    bound of every one, attained as soon as there is a circuit. *)
Theorem C71_minimum_exact_partial : forall evs cs q, closed evs cs -> (forall c, In c cs -> 0 < c_d c)%Q ->
  min_cycle_ratio 0 None evs cs = Ok q -> r_settled q = true ->
  exists v, r_value q = Some v /\
    (forall l, circuit cs l -> v <= sumQ c_w l / sumQ c_d l)%Q /\
    ((exists l, circuit cs l) -> exists l, circuit cs l /\ (v == sumQ c_w l / sumQ c_d l)%Q /\ (r_cycle q <> [] -> l = r_cycle q)).
Proof.
  intros evs cs q CL D H ST. destruct (settled_exact _ _ _ _ CL D H ST) as (v & V & Low & At & _ & _). exists v. split; [assumption|].
  assert (P : forall l, circuit cs l -> (0 < sumQ c_d l)%Q) by (intros l C; apply sum_positive; [apply C|intros c I; apply D, C, I]).
  split.
  - intros l C. specialize (Low l C). specialize (P l C). unfold multiplier in Low. apply Qle_shift_div_l; [assumption|]. lra.
  - intros Ex. destruct (At Ex) as (l & C & E & N). exists l. split; [assumption|]. split; [|assumption]. rewrite <- E. specialize (P l C). field. lra.
Qed.
Print Assumptions C71_minimum_exact_partial.

Theorem C71_maximum_exact_partial : forall evs cs q, closed evs cs -> (forall c, In c cs -> 0 < c_d c)%Q ->
  max_cycle_ratio 0 evs cs = Ok q -> r_settled q = true ->
  exists v, r_value q = Some v /\
    (forall l, circuit cs l -> sumQ c_w l / sumQ c_d l <= v)%Q /\
    ((exists l, circuit cs l) -> exists l, circuit cs l /\ (v == sumQ c_w l / sumQ c_d l)%Q /\ (r_cycle q <> [] -> l = r_cycle q)).
Proof.
  intros evs cs q CL D H ST. destruct (settled_exact Maximum evs cs q CL D H ST) as (v & V & Low & At & _ & _). exists v. split; [assumption|].
  assert (P : forall l, circuit cs l -> (0 < sumQ c_d l)%Q) by (intros l C; apply sum_positive; [apply C|intros c I; apply D, C, I]).
  split.
  - intros l C. specialize (Low l C). specialize (P l C). unfold multiplier in Low. apply Qle_shift_div_r; [assumption|]. lra.
  - intros Ex. destruct (At Ex) as (l & C & E & N). exists l. split; [assumption|]. split; [|assumption]. rewrite <- E. specialize (P l C). field. lra.
Qed.
Print Assumptions C71_maximum_exact_partial.

(** ** Findings *)
(** A chain of 101 events: one arc is improved per round, the loop gives up after 100 rounds,
    and the answer 1000 is returned although the circuit through all events has ratio
    102100/103. *)
Definition node (i : nat) : event := mkEvent (Z.of_nat i) 1 1.
Definition long_nodes : list event := map node (seq 0 101).
Definition long_arcs : list constraint :=
  [mkConstraint (node 0) (node 0) 1000 1 0; mkConstraint (node 0) (node 1) 1001 1 0] ++
  flat_map (fun i => [mkConstraint (node i) (node 0) 1000 1 0; mkConstraint (node i) (node (S i)) 1001 1 0]) (seq 1 99) ++
  [mkConstraint (node 100) (node 0) 1000 1 0; mkConstraint (node 100) (node 0) 2000 3 0].
Definition long_circuit : list constraint :=
  map (fun i => mkConstraint (node i) (node (S i)) 1001 1 0) (seq 0 100) ++ [mkConstraint (node 100) (node 0) 2000 3 0].
(** TIME_UNIT_LIMITS::epsilon(), models/EventGraph.h 47-48: that of an 80-bit long double. *)
Definition long_double_epsilon : Q := 1 # (2 ^ 63).
Definition answers (x : outcome ratio) (w : Q) : bool :=
  match x with Ok q => match r_value q with Some v => Qeq_bool v w | None => false end | _ => false end.
Lemma answers_spec x w : answers x w = true -> exists q v, x = Ok q /\ r_value q = Some v /\ (v == w)%Q.
Proof.
  destruct x as [q| | |]; cbn; [|discriminate..]. destruct (r_value q) as [v|] eqn:V; [|discriminate]. intros H. apply Qeq_bool_iff in H. exists q, v. auto.
Qed.
Lemma long_run : answers (min_cycle_ratio long_double_epsilon None long_nodes long_arcs) 1000 = true.
Proof. vm_compute. reflexivity. Qed.
Theorem C71_iteration_limit_refuted : exists evs cs q v l, NoDup evs /\ closed evs cs /\ (forall c, In c cs -> 0 < c_d c)%Q /\
  min_cycle_ratio long_double_epsilon None evs cs = Ok q /\ r_value q = Some v /\ circuit cs l /\ (sumQ c_w l / sumQ c_d l < v - 8)%Q.
Proof.
  assert (CL : closed long_nodes long_arcs).
  { assert (H : forallb (fun c => existsb (event_eqb (c_source c)) long_nodes && existsb (event_eqb (c_target c)) long_nodes) long_arcs = true) by (vm_compute; reflexivity).
    rewrite forallb_forall in H. intros c I. specialize (H c I). apply andb_prop in H. destruct H as [H1 H2]. split; apply existsb_In; assumption. }
  assert (D : (forall c, In c long_arcs -> 0 < c_d c)%Q).
  { assert (H : forallb (fun c => lessb 0 (c_d c)) long_arcs = true) by (vm_compute; reflexivity). rewrite forallb_forall in H. intros c I. apply lessb_true, H, I. }
  assert (ND : NoDup long_nodes).
  { apply (NoDup_map_inv ev_task). assert (E : map ev_task long_nodes = map Z.of_nat (seq 0 101)) by (vm_compute; reflexivity). rewrite E.
    apply FinFun.Injective_map_NoDup; [intros a b; apply Nat2Z.inj|apply seq_NoDup]. }
  destruct (answers_spec _ _ long_run) as (q & v & E & V & R).
  exists long_nodes, long_arcs, q, v, long_circuit. split; [assumption|]. split; [assumption|]. split; [assumption|]. split; [assumption|]. split; [assumption|]. split; [|rewrite R; vm_compute; reflexivity].
  split; [discriminate|]. split.
  - intros c I. unfold long_circuit in I. apply in_app_iff in I. unfold long_arcs. rewrite !in_app_iff. destruct I as [I|[<-|[]]]; [|right; right; right; left; reflexivity].
    apply in_map_iff in I. destruct I as ([|i] & <- & I); [left; right; left; reflexivity|]. apply in_seq in I. right. left. apply in_flat_map. exists (S i).
    split; [apply in_seq; lia|right; left; reflexivity].
  - exists (node 0). vm_compute. repeat split.
Qed.
Print Assumptions C71_iteration_limit_refuted.

(** The maximum cycle ratio of a graph without circuit is not reported as infinite. *)
Theorem C71_no_circuit_refuted : exists evs cs q v, NoDup evs /\ closed evs cs /\ (forall c, In c cs -> 0 < c_d c)%Q /\
  max_cycle_ratio long_double_epsilon evs cs = Ok q /\ r_settled q = true /\ r_value q = Some v /\ r_cycle q = [] /\ forall l, ~ circuit cs l.
Proof.
  exists [node 0; node 1], [mkConstraint (node 0) (node 1) 1 1 0]. eexists. eexists.
  split; [repeat constructor; cbn; intuition discriminate|]. split; [intros c [<-|[]]; cbn; auto|]. split; [intros c [<-|[]]; reflexivity|].
  split; [vm_compute; reflexivity|]. split; [reflexivity|]. split; [reflexivity|]. split; [reflexivity|].
  intros [|c [|c' l]] (N & I & u & P); [congruence| |].
  - destruct (I c (or_introl eq_refl)) as [<-|[]]. cbn in P. destruct P as [P1 P2]. subst u. discriminate P2.
  - destruct (I c (or_introl eq_refl)) as [<-|[]]. destruct (I c' (or_intror (or_introl eq_refl))) as [<-|[]]. cbn in P. destruct P as (_ & P & _). discriminate P.
Qed.
Print Assumptions C71_no_circuit_refuted.

(** A single event whose only arc is its own loop has minimum cycle ratio 1, and is answered
    infinity with no critical cycle. *)
Theorem C71_single_event_refuted : exists evs cs q l, NoDup evs /\ closed evs cs /\ (forall c, In c cs -> 0 < c_d c)%Q /\
  min_cycle_ratio long_double_epsilon None evs cs = Ok q /\ r_settled q = true /\ r_value q = None /\ r_cycle q = [] /\
  circuit cs l /\ (sumQ c_w l / sumQ c_d l == 1)%Q.
Proof.
  exists [node 0], [mkConstraint (node 0) (node 0) 1 1 0]. eexists. exists [mkConstraint (node 0) (node 0) 1 1 0].
  split; [repeat constructor; cbn; intuition discriminate|]. split; [intros c [<-|[]]; cbn; auto|]. split; [intros c [<-|[]]; reflexivity|].
  split; [vm_compute; reflexivity|]. split; [reflexivity|]. split; [reflexivity|]. split; [reflexivity|]. split; [|reflexivity].
  split; [discriminate|]. split; [apply incl_refl|]. exists (node 0). cbn. auto.
Qed.
Print Assumptions C71_single_event_refuted.

(** ** A graph with three circuits, and its two ratios. *)
Definition tri : list constraint :=
  [mkConstraint (node 0) (node 1) 4 2 0; mkConstraint (node 1) (node 2) 1 3 0; mkConstraint (node 2) (node 0) 3 1 0;
   mkConstraint (node 1) (node 0) 5 1 0; mkConstraint (node 2) (node 2) 2 1 0].
Example tri_closed : closed [node 0; node 1; node 2] tri.
Proof. intros c. cbn. intros H. repeat (destruct H as [<-|H]; [cbn; auto|]). destruct H. Qed.
Example tri_positive : forall c, In c tri -> (0 < c_d c)%Q.
Proof. intros c. cbn. intros H. repeat (destruct H as [<-|H]; [reflexivity|]). destruct H. Qed.
Example tri_minimum : exists q, min_cycle_ratio 0 None [node 0; node 1; node 2] tri = Ok q /\ r_settled q = true /\ r_value q = Some (4 # 3)%Q /\ length (r_cycle q) = 3%nat.
Proof. eexists. split; [vm_compute; reflexivity|]. auto. Qed.
Example tri_maximum : exists q, max_cycle_ratio 0 [node 0; node 1; node 2] tri = Ok q /\ r_settled q = true /\ r_value q = Some 3%Q /\ length (r_cycle q) = 2%nat.
Proof. eexists. split; [vm_compute; reflexivity|]. auto. Qed.

(** * C72 *)
(** When the last event graph K-Iter looked at was solved by a settled run of this solver, its
    throughput is the best of all valid schedules.  [two_events]: the graph has two tasks or a
    task with two phases; see C71_single_event_refuted for the other case. *)
Theorem C72_kiter_with_its_solver_partial : forall solve arrange var g N fuel r K cs evs q, (forall l, Permutation (arrange l) l) ->
  graph_wf g -> balanced g N -> no_init g -> no_overlap g -> whole_cycles g N -> edge_ids_ok g -> positive_durations g ->
  (1 < length (vertices g))%nat \/ (exists v, In v (vertices g) /\ (1 < v_phases v)%nat) ->
  (S (Z.to_nat (sumf (cycles g N) (length (vertices g)))) <= fuel)%nat ->
  kiter solve arrange fuel var g N = Ok (r, K, cs) ->
  Permutation evs (event_list g K) -> min_cycle_ratio 0 None evs cs = Ok q -> r_settled q = true ->
  r_value q = Some (fst (solve cs)) -> r_cycle q = snd (solve cs) ->
  ((0 < kr_throughput r)%Q ->
     (exists s, periodic_schedule g N K (/ kr_throughput r) s /\ schedule_valid g s /\ keeps_pace g N s (/ kr_throughput r)) /\
     (forall s omega, schedule_valid g s -> non_zeno g s -> keeps_pace g N s omega -> (/ kr_throughput r <= omega)%Q)) /\
  ((kr_throughput r <= 0)%Q -> forall s omega, schedule_valid g s -> non_zeno g s -> ~ keeps_pace g N s omega).
Proof.
  intros solve arrange var g N fuel r K cs evs q Ha WF Hb NI NO Hc Hid PD T Hf Hk Pe Hq St Hv Hcy.
  apply (C55_kiter_optimal solve arrange var g N fuel r K cs Ha WF Hb NI NO Hc Hid Hf Hk).
  exact (kiter_howard arrange solve var g N fuel r K cs evs q Ha WF Hb NI NO Hc Hid PD T Hf Hk Pe Hq St Hv Hcy).
Qed.
Print Assumptions C72_kiter_with_its_solver_partial.

(** The solver answers on every event graph K-Iter ends with. *)
Theorem C72_solver_answers : forall solve arrange var g N fuel r K cs evs eps bound, (forall l, Permutation (arrange l) l) ->
  graph_wf g -> no_init g -> no_overlap g -> whole_cycles g N -> edge_ids_ok g -> positive_durations g ->
  (S (Z.to_nat (sumf (cycles g N) (length (vertices g)))) <= fuel)%nat ->
  kiter solve arrange fuel var g N = Ok (r, K, cs) -> NoDup evs -> Permutation evs (event_list g K) ->
  exists q, min_cycle_ratio eps bound evs cs = Ok q.
Proof.
  intros solve arrange var g N fuel r K cs evs eps bound Ha WF NI NO Hc Hid PD Hf Hk ND Pe.
  destruct (kiter_members _ _ _ _ _ _ _ _ _ Ha WF NI Hc Hid Hf Hk) as (HK & cs1 & Hg & Mem). pose proof (HN_pos g N Hc) as HN.
  apply ocr_total; [assumption| |].
  - intros c I. apply Mem in I. destruct (generated_closed var g N K WF HN HK cs1 Hg c I) as [A B]. split; eapply Permutation_in; try (apply Permutation_sym; exact Pe); assumption.
  - apply (constraint_durations var g N K cs1 cs WF NI NO PD HN HK Hg Mem).
Qed.
Print Assumptions C72_solver_answers.

(** ** K-Iter running on the solver itself: period 6 on the example graph. *)
Fixpoint distinct (l : list event) : list event :=
  match l with [] => [] | e :: l' => if existsb (event_eqb e) l' then distinct l' else e :: distinct l' end.
Lemma distinct_In e l : In e (distinct l) -> In e l.
Proof. induction l as [|a l IH]; cbn; [auto|]. destruct (existsb (event_eqb a) l); cbn; intuition. Qed.
Lemma distinct_NoDup l : NoDup (distinct l).
Proof.
  induction l as [|a l IH]; cbn; [constructor|]. destruct (existsb (event_eqb a) l) eqn:E; [assumption|]. constructor; [|assumption].
  intros I. apply distinct_In, existsb_In in I. congruence.
Qed.
Definition howard_solve (cs : list constraint) : Q * list constraint :=
  match min_cycle_ratio 0 None (distinct (map c_source cs)) cs with
  | Ok q => (match r_value q with Some v => v | None => 0%Q end, r_cycle q)
  | _ => (0%Q, [])
  end.
Definition ex_events (cs : list constraint) : list event := distinct (map c_source cs).
Definition good_run (x : outcome (kresult * (nat -> Z) * list constraint)) : bool :=
  match x with
  | Ok (r, K, cs) =>
    Qeq_bool (kr_throughput r) (1 # 6) && (K 0%nat =? 2) && (K 1%nat =? 3) &&
    forallb (fun e => existsb (event_eqb e) (event_list ex_graph K)) (ex_events cs) &&
    forallb (fun e => existsb (event_eqb e) (ex_events cs)) (event_list ex_graph K) &&
    (length (event_list ex_graph K) =? length (ex_events cs))%nat &&
    match min_cycle_ratio 0 None (ex_events cs) cs with
    | Ok q => r_settled q && (length (r_cycle q) =? 4)%nat && match r_value q with Some v => true | None => false end
    | _ => false
    end
  | _ => false
  end.
Lemma good_run_spec x : good_run x = true -> exists r K cs q, x = Ok (r, K, cs) /\ (kr_throughput r == 1 # 6)%Q /\ K 0%nat = 2 /\ K 1%nat = 3 /\
  Permutation (ex_events cs) (event_list ex_graph K) /\ min_cycle_ratio 0 None (ex_events cs) cs = Ok q /\ r_settled q = true /\
  r_value q = Some (fst (howard_solve cs)) /\ r_cycle q = snd (howard_solve cs).
Proof.
  unfold good_run. destruct x as [[[r K] cs]| | |]; [|discriminate..]. intros H. repeat (apply andb_prop in H; destruct H as [H ?]).
  destruct (min_cycle_ratio 0 None (ex_events cs) cs) as [q| | |] eqn:E; try discriminate. destruct (r_value q) as [v|] eqn:V; [|rewrite andb_false_r in *; discriminate].
  rewrite andb_true_r in *. match goal with A : r_settled q && _ = true |- _ => apply andb_prop in A; destruct A as [ST _] end.
  exists r, K, cs, q. split; [reflexivity|]. split; [apply Qeq_bool_iff; assumption|]. split; [apply Z.eqb_eq; assumption|]. split; [apply Z.eqb_eq; assumption|].
  split; [|split; [assumption|split; [assumption|]]].
  - rewrite forallb_forall in *. assert (I : forall e, In e (ex_events cs) -> In e (event_list ex_graph K)) by (intros; apply existsb_In; auto).
    assert (J : forall e, In e (event_list ex_graph K) -> In e (ex_events cs)) by (intros; apply existsb_In; auto).
    assert (L : length (event_list ex_graph K) = length (ex_events cs)) by (apply Nat.eqb_eq; assumption).
    assert (ND : NoDup (ex_events cs)) by apply distinct_NoDup. apply NoDup_Permutation; [assumption| |firstorder].
    apply NoDup_incl_NoDup with (ex_events cs); [assumption|lia|exact I].
  - unfold howard_solve. fold (ex_events cs). rewrite E, V. auto.
Qed.
Example ex_positive_durations : positive_durations ex_graph.
Proof. intros v d I J. destruct I as [<-|[<-|[]]]; cbn in J; repeat (destruct J as [<-|J]; [reflexivity|]); destruct J. Qed.
Example ex_howard_run : exists r K cs, kiter howard_solve (fun l => l) 6 StronglyOptimized ex_graph ex_N = Ok (r, K, cs) /\ (kr_throughput r == 1 # 6)%Q /\
  (exists s, periodic_schedule ex_graph ex_N K (/ kr_throughput r) s /\ schedule_valid ex_graph s /\ keeps_pace ex_graph ex_N s (/ kr_throughput r)) /\
  (forall s omega, schedule_valid ex_graph s -> non_zeno ex_graph s -> keeps_pace ex_graph ex_N s omega -> (/ kr_throughput r <= omega)%Q).
Proof.
  destruct (good_run_spec (kiter howard_solve (fun l => l) 6 StronglyOptimized ex_graph ex_N)) as (r & K & cs & q & E & T & _ & _ & P & Q1 & Q2 & Q3 & Q4); [vm_compute; reflexivity|].
  exists r, K, cs. split; [assumption|]. split; [assumption|].
  refine (proj1 (C72_kiter_with_its_solver_partial howard_solve (fun l => l) StronglyOptimized ex_graph ex_N 6 r K cs (ex_events cs) q (fun l => Permutation_refl l)
    ex_wf ex_balanced ex_no_init ex_no_overlap ex_whole_cycles ex_edge_ids ex_positive_durations (or_introl _) _ E P Q1 Q2 Q3 Q4) _); [cbn; lia|vm_compute; lia|]. rewrite T. reflexivity.
Qed.
