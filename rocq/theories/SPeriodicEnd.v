(** Strictly periodic throughput, its approximation, the schedule returned. *)
From Coq Require Import QArith Lqa Permutation.
From Verif Require Import Base Graph Commons CommonsProofs KPeriodic ScheduleSpec ScheduleCore KPeriodicSpec
  KPeriodicProofs KPeriodicChannel KPeriodicGraph EventGraph EventGraphSpec EventGraphProofs KPeriodicEnd KPeriodicProps KIter KIterSpec KIterProofs KIterLoop KIterProps
  SimSpec Howard HowardProofs HowardTotal HowardFinal SPeriodicSpec SPeriodic SPeriodicProofs.
Open Scope Z_scope.

Lemma evenly_spaced_times g N omega St : evenly_spaced g N omega (sp_times g N omega St).
Proof.
  intros i m L. unfold sp_times. destruct (nth_error (vertices g) i) as [v|] eqn:E; [|apply nth_error_None in E; lia].
  change (inject_Z (Z.of_nat 0)) with 0%Q. ring.
Qed.

Definition first_starts (g : graph) (s : schedule) : event -> Q := fun e => s (index_of (vertices g) (ev_task e)) 0%nat.
Lemma times_of_even g N omega s : graph_wf g -> evenly_spaced g N omega s -> same_schedule g s (sp_times g N omega (first_starts g s)).
Proof.
  intros WF E i m L. rewrite (E i m L). unfold sp_times. destruct (nth_error (vertices g) i) as [v|] eqn:V; [|apply nth_error_None in V; lia].
  unfold first_starts. cbn [ev_task]. rewrite (index_of_nth _ (proj2 (proj2 WF)) i v V). reflexivity.
Qed.

Lemma same_schedule_sym g s s' : same_schedule g s s' -> same_schedule g s' s.
Proof. intros H i m L. symmetry. apply H. assumption. Qed.

Section G.
Variables (g : graph) (N : nat -> Z).
Hypothesis Hwf : graph_wf g.
Hypothesis Hbal : balanced g N.
Hypothesis Hno : no_init g.
Hypothesis Hcyc : whole_cycles g N.

Lemma sp_closed cs : sp_event_graph false g N = Ok cs -> closed (sp_events g) cs.
Proof. intros E. destruct (sp_event_graph_spec g N Hwf Hbal Hno Hcyc) as (cs' & E' & CL & _). rewrite E in E'. injection E' as <-. assumption. Qed.

Lemma sp_positive cs : positive_durations g -> sp_event_graph false g N = Ok cs -> forall c, In c cs -> (0 < c_d c)%Q.
Proof.
  intros PD E c I. destruct (sp_event_graph_spec g N Hwf Hbal Hno Hcyc) as (cs' & E' & _ & D & _). rewrite E in E'. injection E' as <-.
  destruct (D c I) as (v & k & Iv & Lk & ->). pose proof (proj1 Hwf v Iv) as Hv. rewrite (duration_nth v k Hv (Hno v Iv) Lk). apply (PD v); [assumption|]. apply nth_In. destruct Hv as (_ & L & _). lia.
Qed.

Lemma sp_feasible_iff cs omega : sp_event_graph false g N = Ok cs -> (0 <= omega)%Q ->
  ((exists s, evenly_spaced g N omega s /\ schedule_valid g s) <-> circuits_fit cs omega).
Proof.
  intros E Om. rewrite <- (satisfiable_iff_fit (sp_events g) cs omega (sp_closed cs E)). split.
  - intros (s & Ev & V). exists (first_starts g s). apply (sp_exact g N Hwf Hbal Hno Hcyc omega _ cs Om E).
    apply (schedule_valid_ext g s); [assumption|apply times_of_even; assumption|assumption].
  - intros (St & H). exists (sp_times g N omega St). split; [apply evenly_spaced_times|]. apply (sp_exact g N Hwf Hbal Hno Hcyc omega St cs Om E). assumption.
Qed.

Lemma even_omega_nonneg omega s : vertices g <> [] -> evenly_spaced g N omega s -> schedule_valid g s -> (0 <= omega)%Q.
Proof.
  intros NE Ev [_ Ser]. destruct (vertices g) as [|v l] eqn:E; [congruence|]. assert (V : nth_error (vertices g) 0 = Some v) by (rewrite E; reflexivity).
  rewrite <- E in *. pose proof (Ser 0%nat v V 0%nat) as H. unfold start_of in H. rewrite (Ev 0%nat 1%nat) in H by (rewrite E; cbn; lia).
  pose proof (exec_duration_nn v 0 (vertex_ok g Hwf 0 v V)). change (inject_Z (Z.of_nat 1)) with 1%Q in H.
  pose proof (pos_inject _ (N_pos g N Hcyc 0 v V)) as Np. assert (X : (0 <= omega / inject_Z (N 0%nat))%Q) by lra.
  apply Qmult_le_r with (/ inject_Z (N 0%nat))%Q; [apply Qinv_lt_0_compat; assumption|]. unfold Qdiv in X. lra.
Qed.

Lemma best_from_circuits cs v : vertices g <> [] -> sp_event_graph false g N = Ok cs ->
  (forall l, circuit cs l -> (v * sumQ c_d l <= sumQ c_w l)%Q) ->
  (exists l, circuit cs l /\ (0 < sumQ c_d l)%Q /\ (v * sumQ c_d l == sumQ c_w l)%Q) -> best_even_throughput g N v.
Proof.
  intros NE E Low (l & C & D & At). split.
  - intros V. apply (sp_feasible_iff cs); [assumption|apply Qinv_le_0_compat; lra|]. intros l' C'. specialize (Low l' C').
    apply Qmult_le_l with v; [assumption|]. rewrite Qmult_assoc, Qmult_inv_r, Qmult_1_l by lra. assumption.
  - intros omega s Ev Va. pose proof (even_omega_nonneg omega s NE Ev Va) as Om.
    pose proof (proj1 (sp_feasible_iff cs omega E Om) (ex_intro _ s (conj Ev Va)) l C) as F. rewrite <- At in F.
    assert (F' : (1 * sumQ c_d l <= (omega * v) * sumQ c_d l)%Q) by (rewrite <- Qmult_assoc; lra). apply Qmult_le_r in F'; [|assumption].
    assert (Vp : (0 < v)%Q).
    { destruct (Qlt_le_dec 0 v) as [|Neg]; [assumption|]. exfalso. assert (omega * v <= 0)%Q; [|lra].
      setoid_replace (omega * v)%Q with (- (omega * (- v)))%Q by ring. assert (0 <= omega * (- v))%Q by (apply Qmult_le_0_compat; lra). lra. }
    split; [assumption|]. apply Qmult_le_r with v; [assumption|]. rewrite (Qmult_comm (/ v)), Qmult_inv_r by lra. assumption.
Qed.

(** Each task lies on a circuit: its self constraint. *)
Lemma sp_has_circuit cs : vertices g <> [] -> sp_event_graph false g N = Ok cs -> exists l, circuit cs l.
Proof.
  intros NE E. destruct (sp_event_graph_spec g N Hwf Hbal Hno Hcyc) as (cs' & E' & _ & _ & Self & _). rewrite E in E'. injection E' as <-.
  assert (exists v, nth_error (vertices g) 0 = Some v) as (v & V) by (destruct (vertices g); [congruence|cbn; eauto]).
  destruct (max_duration_spec v (vertex_ok g Hwf 0 v V)) as (d & _ & Ld). destruct (Self 0%nat v d V Ld) as (d' & _ & I).
  eexists [_]. split; [discriminate|]. split; [intros x [<-|[]]; exact I|]. exists (sp_event v). cbn. auto.
Qed.

Lemma sp_howard_best cs q : vertices g <> [] -> positive_durations g -> sp_event_graph false g N = Ok cs ->
  min_cycle_ratio 0 None (sp_events g) cs = Ok q -> r_settled q = true -> exists v, r_value q = Some v /\ best_even_throughput g N v.
Proof.
  intros NE PD E H ST. pose proof (sp_closed cs E) as CL. pose proof (sp_positive cs PD E) as D.
  destruct (settled_exact _ _ _ _ CL D H ST) as (v & V & Low & At & _ & _). exists v. split; [assumption|].
  apply (best_from_circuits cs v NE E).
  - intros l C. specialize (Low l C). unfold multiplier in Low. lra.
  - destruct (At (sp_has_circuit cs NE E)) as (l & C & Eq & _). exists l. split; [assumption|]. split; [|assumption].
    apply sum_positive; [apply C|]. intros c Ic. apply D, C, Ic.
Qed.

Lemma sp_events_nodup : NoDup (sp_events g).
Proof.
  unfold sp_events. apply (NoDup_map_inv ev_task). rewrite map_map. cbn. apply Hwf.
Qed.

(** The schedule denoted by the starts and periods returned. *)
Lemma sp_retrieved omega St : same_schedule g (sp_times g N omega St) (denoted (sp_retrieve g N omega St)).
Proof.
  intros i m L. unfold sp_times, denoted, sp_retrieve. rewrite nth_error_map, indexed_nth.
  destruct (nth_error (vertices g) i) as [v|] eqn:V; [|apply nth_error_None in V; lia]. cbn [option_map fst snd ts_starts ts_period length].
  rewrite Nat.mod_1_r, Nat.div_1_r. cbn [nth]. reflexivity.
Qed.

Lemma sp_scheduling_valid eps r : sp_scheduling eps g N = Ok r -> (0 <= sps_omega r)%Q ->
  length (sps_tasks r) = length (vertices g) /\
  evenly_spaced g N (sps_omega r) (denoted (sps_tasks r)) /\
  ((exists s, evenly_spaced g N (sps_omega r) s /\ schedule_valid g s) -> schedule_valid g (denoted (sps_tasks r))).
Proof.
  unfold sp_scheduling. destruct (sp_event_graph false g N) as [cs| | |] eqn:E; cbn [bind]; [|discriminate..].
  destruct (min_cycle_ratio eps None (sp_events g) cs) as [q| | |] eqn:H; cbn [bind]; [|discriminate..].
  set (o := match r_value q with None => Ok 0%Q | Some res => _ end). destruct o as [omega| | |]; cbn [bind]; [|discriminate..].
  set (St := fst (compute_starting_time _ _ _)). intros X Om.
  assert (r = mkSPSchedule omega (sp_retrieve g N omega St) (critical_set g (r_cycle q))) as -> by congruence. cbn [sps_omega sps_tasks] in *.
  split; [unfold sp_retrieve; rewrite map_length; apply indexed_length|]. split.
  - intros i m L. pose proof (sp_retrieved omega St) as S. rewrite <- (S i m L), <- (S i 0%nat L). apply evenly_spaced_times. assumption.
  - intros Ex. apply (sp_feasible_iff cs omega E Om) in Ex. apply (schedule_valid_ext g (sp_times g N omega St)); [assumption|apply sp_retrieved|].
    apply (sp_exact g N Hwf Hbal Hno Hcyc omega St cs Om E). apply (starts_satisfy _ cs omega (sp_closed cs E) Ex).
Qed.
End G.

(** ** The approximation. *)
Lemma slowed_at g g' i v : slowed g g' -> nth_error (vertices g) i = Some v -> exists v', nth_error (vertices g') i = Some v' /\ slowed_vertex v v'.
Proof.
  intros [F _]. revert i. induction F as [|a b l l' H F IH]; intros [|i]; cbn; try discriminate.
  - intros [= <-]. eauto.
  - apply IH.
Qed.
Lemma slowed_at' g g' i v' : slowed g g' -> nth_error (vertices g') i = Some v' -> exists v, nth_error (vertices g) i = Some v /\ slowed_vertex v v'.
Proof.
  intros [F _]. revert i. induction F as [|a b l l' H F IH]; intros [|i]; cbn; try discriminate.
  - intros [= <-]. eauto.
  - apply IH.
Qed.
Lemma slowed_length g g' : slowed g g' -> length (vertices g') = length (vertices g).
Proof. intros [F _]. induction F; cbn; congruence. Qed.
Lemma slowed_ids g g' : slowed g g' -> map v_id (vertices g') = map v_id (vertices g).
Proof. intros [F _]. induction F as [|a b l l' (d & _ & ->) F IH]; cbn; congruence. Qed.

Lemma slowed_vertex_wf v v' : slowed_vertex v v' -> vertex_wf v -> vertex_wf v'.
Proof.
  intros (d & (D1 & D2) & ->) (HP & L1 & L2 & Nn). unfold vertex_wf. cbn. rewrite map_length. repeat split; auto.
  intros x X. apply in_app_iff in X. destruct X as [X|X]; apply Nn, in_app_iff; [left|right; assumption].
  apply in_map_iff in X. destruct X as (_ & <- & _). assumption.
Qed.

Lemma slowed_wf g g' : slowed g g' -> graph_wf g -> graph_wf g'.
Proof.
  intros SL (Wv & We & Nd). split; [|split].
  - intros v' I. apply In_nth_error in I. destruct I as (i & E). destruct (slowed_at' g g' i v' SL E) as (v & E' & S).
    apply (slowed_vertex_wf v v' S). apply Wv. eapply nth_error_In; eassumption.
  - intros c I. rewrite (proj2 SL) in I. destruct (We c I) as (vs & vd & V1 & V2 & R).
    destruct (slowed_at g g' _ _ SL V1) as (vs' & V1' & (d & _ & ->)). destruct (slowed_at g g' _ _ SL V2) as (vd' & V2' & (d' & _ & ->)).
    eexists. eexists. split; [exact V1'|]. split; [exact V2'|]. cbn. assumption.
  - rewrite (slowed_ids g g' SL). assumption.
Qed.
Lemma slowed_no_init g g' : slowed g g' -> no_init g -> no_init g'.
Proof.
  intros SL H v' I. apply In_nth_error in I. destruct I as (i & E). destruct (slowed_at' g g' i v' SL E) as (v & E' & (d & _ & ->)). cbn. apply H. eapply nth_error_In; eassumption.
Qed.
Lemma slowed_cycles g g' N : slowed g g' -> whole_cycles g N -> whole_cycles g' N.
Proof. intros SL H i v' E. destruct (slowed_at' g g' i v' SL E) as (v & E' & (d & _ & ->)). cbn. apply H. assumption. Qed.
Lemma slowed_balanced g g' N : slowed g g' -> balanced g N -> balanced g' N.
Proof. intros SL H c I. rewrite (proj2 SL) in I. apply H. assumption. Qed.
Lemma slowed_positive g g' : slowed g g' -> positive_durations g -> positive_durations g'.
Proof.
  intros SL H v' d I D. apply In_nth_error in I. destruct I as (i & E). destruct (slowed_at' g g' i v' SL E) as (v & E' & (m & [M _] & ->)). cbn in D.
  apply in_map_iff in D. destruct D as (_ & <- & _). apply (H v); [eapply nth_error_In; eassumption|assumption].
Qed.

Lemma slowed_duration v v' m : vertex_wf v -> slowed_vertex v v' -> (exec_duration v m <= exec_duration v' m)%Q.
Proof.
  intros (HP & L1 & L2 & _) (d & [_ D] & ->). unfold exec_duration, cyclic. cbn [v_durations v_init_durations]. rewrite map_length.
  destruct (m <? length (v_init_durations v))%nat; [apply Qle_refl|]. set (k := ((m - _) mod _)%nat). assert (Lk : (k < length (v_durations v))%nat) by (apply Nat.mod_upper_bound; lia).
  rewrite (nth_indep (map (fun _ => d) (v_durations v)) 0%Q d) by (rewrite map_length; assumption).
  rewrite (map_nth (fun _ => d) (v_durations v) d k). apply D, nth_In. assumption.
Qed.

Lemma moved_by_earlier (at1 at2 : nat -> Q) rate n t : (forall m, 0 <= rate m) -> (forall m, (at1 m <= at2 m)%Q) ->
  moved_by at2 rate n t <= moved_by at1 rate n t.
Proof.
  intros R E. apply sumf_le. intros m _. destruct (Qle_bool (at2 m) t) eqn:E2.
  - apply Qle_bool_iff in E2. rewrite (proj2 (Qle_bool_iff (at1 m) t)); [lia|]. specialize (E m). lra.
  - specialize (R m). destruct (Qle_bool (at1 m) t); lia.
Qed.

(** A schedule valid with the longer durations is valid. *)
Lemma slowed_valid g g' s : graph_wf g -> slowed g g' -> schedule_valid g' s -> schedule_valid g s.
Proof.
  intros WF SL [H1 H2]. split.
  - intros c I t nc. rewrite <- (proj2 SL) in I. destruct (H1 c I t nc) as (np & H). exists np. eapply Z.le_trans; [exact H|].
    rewrite (proj2 SL) in I. destruct (edge_shape g WF c I) as (vs & vd & V1 & V2 & Hs & Hd & Hc). destruct (slowed_at g g' _ _ SL V1) as (vs' & V1' & S).
    apply Z.add_le_mono_l. apply moved_by_earlier; [apply (prod_rate_nn c vs vd Hs Hc)|]. intros m. unfold end_of. rewrite V1, V1'.
    pose proof (slowed_duration vs vs' m Hs S). lra.
  - intros i v E m. destruct (slowed_at g g' _ _ SL E) as (v' & E' & S). specialize (H2 i v' E' m).
    pose proof (slowed_duration v v' m (vertex_ok g WF i v E) S). lra.
Qed.

(** The slowed graph the code works on. *)
Definition slow_vertex (v : vertex) : vertex :=
  mkVertex (v_id v) (v_phases v) (v_init_phases v)
    (map (fun _ => match max_duration v with Ok d => d | _ => 0%Q end) (v_durations v)) (v_init_durations v) (v_reentrancy v).
Definition slow_graph (g : graph) : graph := mkGraph (map slow_vertex (vertices g)) (edges g).

Lemma slow_graph_slowed g : graph_wf g -> slowed g (slow_graph g).
Proof.
  intros (Wv & _). split; [|reflexivity]. cbn. revert Wv. induction (vertices g) as [|v l IH]; intros Wv; cbn; constructor.
  - destruct (max_duration_spec v (Wv v (or_introl eq_refl))) as (d & E & L). exists d. split; [assumption|]. unfold slow_vertex. rewrite E. reflexivity.
  - apply IH. intros x I. apply Wv. right. assumption.
Qed.

Lemma fold_same (d : Q) (l : list Q) : (forall x, In x l -> x = d) -> fold_left (fun m x => if Qle_bool x m then m else x) l d = d.
Proof.
  intros H. induction l as [|x l IH]; [reflexivity|]. cbn [fold_left]. rewrite (H x (or_introl eq_refl)).
  replace (Qle_bool d d) with true by (symmetry; apply Qle_bool_iff, Qle_refl). apply IH. intros y I. apply H. right. assumption.
Qed.
Lemma max_duration_slow v d : max_duration v = Ok d -> max_duration (slow_vertex v) = Ok d.
Proof.
  intros E. unfold max_duration. cbn [v_durations slow_vertex]. rewrite E. unfold max_duration in E. destruct (v_durations v) as [|x l]; [discriminate|]. cbn [map].
  rewrite fold_same; [reflexivity|]. intros y I. apply in_map_iff in I. destruct I as (_ & <- & _). reflexivity.
Qed.
Lemma duration_slow v d k : vertex_wf v -> v_init_phases v = 0%nat -> max_duration v = Ok d -> 1 <= k <= Z.of_nat (v_phases v) -> vertex_duration (slow_vertex v) k = Ok d.
Proof.
  intros Hv I0 E K. pose proof (max_duration_spec v Hv) as (d' & E' & L). rewrite E in E'. injection E' as <-.
  assert (S : slowed_vertex v (slow_vertex v)) by (exists d; split; [assumption|]; unfold slow_vertex; rewrite E; reflexivity).
  replace k with (Z.of_nat (Z.to_nat (k - 1)) + 1) by lia. rewrite (phase_duration (slow_vertex v)); [|apply (slowed_vertex_wf v); assumption|assumption|cbn; lia].
  rewrite (duration_nth (slow_vertex v)); [|apply (slowed_vertex_wf v); assumption|assumption|cbn; lia]. cbn [v_durations slow_vertex]. rewrite E.
  destruct Hv as (_ & L1 & _). f_equal. rewrite (nth_indep (map _ _) 0%Q d) by (rewrite map_length; lia). apply (map_nth (fun _ => d) (v_durations v) d).
Qed.

Lemma phase_bags_slow v d ks : vertex_wf v -> v_init_phases v = 0%nat -> max_duration v = Ok d ->
  (forall k, In k ks -> 1 <= k <= Z.of_nat (v_phases v)) -> forall bags md, phase_bags true d v ks bags = phase_bags false md (slow_vertex v) ks bags.
Proof.
  intros Hv I0 E. induction ks as [|k ks IH]; intros K bags md; [reflexivity|]. cbn [phase_bags].
  rewrite (duration_slow v d k Hv I0 E (K k (or_introl eq_refl))). cbn [bind].
  assert (exists x, vertex_duration v k = Ok x) as (x & ->).
  { pose proof (K k (or_introl eq_refl)). replace k with (Z.of_nat (Z.to_nat (k - 1)) + 1) by lia. rewrite (phase_duration v) by (auto; lia). eauto. }
  cbn [bind]. apply IH. intros k' I. apply K. right. assumption.
Qed.

Lemma collect_ext {A B} (f f' : B -> outcome (list A)) l : (forall x, In x l -> f x = f' x) -> collect (map f l) = collect (map f' l).
Proof. induction l as [|x l IH]; intros H; [reflexivity|]. cbn. rewrite (H x (or_introl eq_refl)), IH by (intros; apply H; right; assumption). reflexivity. Qed.

Lemma indexed_map {A B} (f : A -> B) l : indexed (map f l) = map (fun ia => (fst ia, f (snd ia))) (indexed l).
Proof.
  unfold indexed. rewrite map_length. generalize 0%nat. induction l as [|x l IH]; intros a; [reflexivity|]. cbn. rewrite IH. reflexivity.
Qed.

Lemma sp_channel_slow g N t ni bag c : sp_channel (slow_graph g) N (slow_vertex t) ni bag c = sp_channel g N t ni bag c.
Proof.
  unfold sp_channel, lookup_vertex. cbn [vertices slow_graph]. rewrite nth_error_map. destruct (nth_error (vertices g) (e_dst c)) as [tp|]; reflexivity.
Qed.

Lemma approx_is_slow g N : graph_wf g -> no_init g -> sp_event_graph true g N = sp_event_graph false (slow_graph g) N.
Proof.
  intros WF NI. unfold sp_event_graph. cbn [vertices slow_graph]. rewrite indexed_map, !map_map. cbn [fst snd].
  rewrite (collect_ext (fun iv => sp_self (snd iv) (N (fst iv))) (fun x => sp_self (slow_vertex (snd x)) (N (fst x)))).
  2:{ intros [i v] I. apply indexed_in in I. cbn [fst snd]. unfold sp_self. destruct (qdiv 1 (N i)); cbn [bind]; try reflexivity.
      destruct (max_duration_spec v (vertex_ok g WF i v I)) as (d & E & _). rewrite (max_duration_slow v d E), E. reflexivity. }
  rewrite (collect_ext (fun iv => sp_task true g N (fst iv) (snd iv)) (fun x => sp_task false (slow_graph g) N (fst x) (slow_vertex (snd x)))); [reflexivity|].
  intros [i v] I. apply indexed_in in I. cbn [fst snd]. unfold sp_task. pose proof (vertex_ok g WF i v I) as Hv.
  destruct (max_duration_spec v Hv) as (d & E & _). rewrite (max_duration_slow v d E), E. cbn [bind]. cbn [v_phases slow_vertex].
  rewrite (phase_bags_slow v d _ Hv (NI v (nth_error_In _ _ I)) E (fun k => proj1 (zrange_in _ _ k)) [] d).
  destruct (phase_bags false d (slow_vertex v) _ []) as [bags| | |]; cbn [bind]; try reflexivity.
  destruct (cdiv (N i) (Z.of_nat (v_phases v))) as [ni| | |]; cbn [bind]; try reflexivity.
  apply collect_ext. intros bag _. apply collect_ext. intros c _. symmetry. apply sp_channel_slow.
Qed.

Lemma sp_events_slow g : sp_events (slow_graph g) = sp_events g.
Proof. unfold sp_events. cbn [vertices slow_graph]. rewrite map_map. reflexivity. Qed.

(** ** K-Iter does at least as well. *)
Lemma even_keeps_pace g N omega s : (forall i, (i < length (vertices g))%nat -> 0 < N i) -> evenly_spaced g N omega s -> keeps_pace g N s omega.
Proof.
  intros HN Ev. set (n := length (vertices g)). assert (B : exists B, forall i, (i < n)%nat -> (s i 0%nat <= B)%Q).
  { generalize n. clear. intros n. induction n as [|n (B & IH)]; [exists 0%Q; intros i L; lia|].
    destruct (Qlt_le_dec B (s n 0%nat)) as [L|L].
    - exists (s n 0%nat). intros i Hi. destruct (Nat.eq_dec i n) as [->|]; [apply Qle_refl|]. specialize (IH i ltac:(lia)). lra.
    - exists B. intros i Hi. destruct (Nat.eq_dec i n) as [->|]; [assumption|]. apply IH. lia. }
  destruct B as (B & HB). exists B. intros i m L. rewrite (Ev i m L). specialize (HB i L).
  assert (inject_Z (Z.of_nat m) * (omega / inject_Z (N i)) == omega * (inject_Z (Z.of_nat m) / inject_Z (N i)))%Q by (field; apply nz_inject; specialize (HN i L); lia). lra.
Qed.

Lemma even_non_zeno g N omega s : (forall i, (i < length (vertices g))%nat -> 0 < N i) -> (0 < omega)%Q -> evenly_spaced g N omega s -> non_zeno g s.
Proof.
  intros HN Om Ev i t L. specialize (HN i L). pose proof (pos_inject _ HN) as P. set (T := (omega / inject_Z (N i))%Q).
  assert (Tp : (0 < T)%Q) by (apply Qlt_shift_div_l; [assumption|lra]).
  set (x := ((t - s i 0%nat) / T)%Q). exists (Z.to_nat (Z.max 0 (Qround.Qfloor x + 1))). rewrite (Ev i _ L). fold T.
  rewrite Z2Nat.id by lia. assert (X : (x < inject_Z (Z.max 0 (Qround.Qfloor x + 1)))%Q).
  { eapply Qlt_le_trans; [apply Qround.Qlt_floor|]. rewrite <- Zle_Qle. lia. }
  apply Qmult_lt_r with (z := T) in X; [|assumption]. assert (x * T == t - s i 0%nat)%Q by (unfold x; field; lra). lra.
Qed.
