(** C80-C83: merging tasks along a schedule. *)
From Coq Require Import QArith Lqa Permutation ZifyBool ZifyNat.
From Verif Require Import Base Graph KPeriodic ScheduleSpec ScheduleCore KPeriodicSpec KPeriodicProofs KPeriodicGraph EventGraph EventGraphSpec KPeriodicEnd KPeriodicProps
  KIter KIterSpec KIterProofs KIterLoop KIterProps SPeriodicSpec SimSpec Howard HowardProofs HowardKIter HowardProps Periodic PeriodicSpec PeriodicProofs PeriodicProps
  Merge MergeSpec MergeProofs MergeEnd MergeBack.
Open Scope Z_scope.

(** ** C80: a valid schedule of the merged graph is a valid schedule of the original one,
    execution by execution. *)
Theorem C80_merged_schedule_is_valid : forall fuel mid nodes ts g N g' s',
  graph_wf g -> balanced g N -> schedule_valid g (denoted ts) -> take_time g nodes -> whole_patterns g N nodes ->
  merge fuel mid nodes ts g N = Ok g' -> schedule_valid g' s' ->
  exists s, schedule_valid g s /\ same_executions g nodes g' mid s s'.
Proof.
  intros fuel mid nodes ts g N g' s' WF B V D WP H V'. destruct (merge_facts g N ts nodes fuel mid g' WF B V D WP H) as (f & N1 & un & _ & _ & _ & _ & _ & U & _).
  exists (un s'). apply U, V'.
Qed.
Print Assumptions C80_merged_schedule_is_valid.

(** ** C81: the merged graph is well formed and consistent, and its throughput is that of the
    original or less, counted in iterations of the tasks that were not merged. *)
Lemma valid_mono g s : graph_wf g -> schedule_valid g s -> forall j m, (j < length (vertices g))%nat -> (s j m <= s j (S m))%Q.
Proof.
  intros (VW & _) [_ Se] j m L. destruct (nth_error (vertices g) j) as [v|] eqn:V; [|apply nth_error_None in V; lia]. specialize (Se j v V m). unfold start_of in Se.
  assert (0 <= exec_duration v m)%Q; [|lra]. destruct (VW v (nth_error_In _ _ V)) as (P & L' & _ & D). unfold exec_duration.
  assert (I := cyclic_in 0%Q (v_init_durations v) (v_durations v) m ltac:(lia)). apply D. apply in_or_app. apply in_app_or in I. tauto.
Qed.
Theorem C81_merge_consistent_never_faster : forall fuel mid nodes ts g N g',
  graph_wf g -> balanced g N -> positive_on g N -> schedule_valid g (denoted ts) -> take_time g nodes -> whole_patterns g N nodes ->
  ~ In mid (map v_id (vertices g)) -> merge fuel mid nodes ts g N = Ok g' ->
  graph_wf g' /\ exists f N', 0 < f /\ balanced g' N' /\ positive_on g' N' /\
    (forall i v, nth_error (vertices g) i = Some v -> ~ to_merge g nodes i -> exists j, nth_error (vertices g') j = Some v /\ N' j = f * N i) /\
    (forall th th', best_throughput g N th -> best_throughput g' N' th' -> (0 < th')%Q -> (0 < th)%Q /\ (th' * inject_Z f <= th)%Q).
Proof.
  intros fuel mid nodes ts g N g' WF B HN V D WP Fr H. destruct (merge_facts g N ts nodes fuel mid g' WF B V D WP H) as (f & N1 & un & Fp & B1 & W1 & P1 & K1 & U & Pc & Z1).
  specialize (W1 Fr). split; [assumption|]. exists f, N1. split; [assumption|]. split; [assumption|]. split; [intros j L; apply P1; [assumption|exact HN]|]. split.
  - intros i v Vi M. destruct (K1 i v Vi M) as (j & Vj & Nj & _). eauto.
  - intros th th' [_ Opt] [Ex _] Pos. destruct (Ex Pos) as (s' & V' & Nz & Kp). destruct (U s' V') as [Vu _].
    assert (Fq : (0 < inject_Z f)%Q) by (unfold Qlt; cbn; lia). assert (Ip : (0 < / th')%Q) by (apply Qinv_lt_0_compat; assumption).
    destruct (Opt (un s') (/ th' / inject_Z f)%Q Vu (Z1 s' V' (valid_mono g' s' W1 V') Nz) (Pc s' (/ th')%Q ltac:(lra) HN Kp)) as [Pt Le]. split; [assumption|].
    assert (X : (/ (th' * inject_Z f) == / th' / inject_Z f)%Q) by (field; lra). rewrite <- X in Le. assert (0 < th' * inject_Z f)%Q by (apply Qmult_lt_0_compat; assumption).
    set (y := (th' * inject_Z f)%Q) in *. apply Qmult_le_l with (z := th) in Le; [|assumption]. apply Qmult_le_l with (z := y) in Le; [|assumption].
    assert (y * (th * / th) == y)%Q by (field; lra). assert (y * (th * / y) == th)%Q by (field; lra). lra.
Qed.
Print Assumptions C81_merge_consistent_never_faster.

(** ** C82: the merge terminates and succeeds on every periodic schedule, in particular on
    the one the tool computes for itself. *)
Theorem C82_merge_succeeds : forall mid nodes ts g N omega,
  graph_wf g -> mergeable g N nodes -> take_time g nodes -> whole_patterns g N nodes ->
  (forall i, (i < length (vertices g))%nat -> exists t, nth_error ts i = Some t /\ ts_starts t <> []) ->
  schedule_valid g (denoted ts) -> (0 < omega)%Q -> repeats g N omega (denoted ts) ->
  exists F, forall fuel, (F <= fuel)%nat -> exists g', merge fuel mid nodes ts g N = Ok g'.
Proof.
  intros mid nodes ts g N omega WF (Ne & Nd & Kn) D WP Ts V Om Rep. apply (merge_total g N ts nodes WF Ne Nd) with (omega := omega); try assumption.
  intros id I. destruct (Kn id I) as (i & v & Vi & E & I0 & Np). destruct (Ts i) as (t & Ht & Nt); [apply nth_error_Some; congruence|]. exists i, v, t. repeat (split; [assumption|]).
  destruct (ts_starts t); [congruence|cbn; lia].
Qed.
Print Assumptions C82_merge_succeeds.

Lemma periodic_repeats g N K omega s : divides_iteration g N K -> positive_on g N -> periodic_schedule g N K omega s -> repeats g N omega s.
Proof.
  intros Dv HN P i c L. destruct (nth_error (vertices g) i) as [v|] eqn:V; [|apply nth_error_None in V; lia]. destruct (Dv i v V) as (HK & q & Hq). specialize (HN i L).
  assert (Q0 : 0 < q) by nia. replace (Z.to_nat (N i)) with (Z.to_nat q * (Z.to_nat (K i) * v_phases v))%nat by nia.
  rewrite (periodic_multiple (s i) _ _ (fun m => P i v m V)). unfold task_period. rewrite Hq, Z2Nat.id by lia. rewrite !inject_Z_mult.
  assert (0 < inject_Z q)%Q by (unfold Qlt; cbn; lia). assert (0 < inject_Z (K i))%Q by (unfold Qlt; cbn; lia).
  assert (0 < Z.of_nat (v_phases v)) by nia. assert (0 < inject_Z (Z.of_nat (v_phases v)))%Q by (unfold Qlt; cbn; lia). apply Qplus_inj_l. field. lra.
Qed.
Theorem C82_kperiodic_merge_succeeds : forall solve arrange fuelk mid nodes g N, (forall l, Permutation (arrange l) l) ->
  graph_wf g -> balanced g N -> no_init g -> no_overlap g -> whole_cycles g N -> edge_ids_ok g ->
  (Datatypes.S (Z.to_nat (sumf (cycles g N) (length (vertices g)))) <= fuelk)%nat ->
  (forall r K cs, kiter solve arrange fuelk StronglyOptimized g N = Ok (r, K, cs) -> exact_answer cs (solve cs)) ->
  (exists s omega, schedule_valid g s /\ non_zeno g s /\ keeps_pace g N s omega) ->
  mergeable g N nodes -> take_time g nodes -> whole_patterns g N nodes ->
  exists F, forall fuel, (F <= fuel)%nat -> exists ts g', merge_kperiodic solve arrange fuelk fuel mid nodes g N = Ok g' /\
    schedule_valid g (denoted ts) /\ merge fuel mid nodes ts g N = Ok g'.
Proof.
  intros solve arrange fuelk mid nodes g N Pm WF B NI NO WC EI Fu X (s0 & omega0 & V0 & Z0 & P0) Mg D WP.
  destruct (kiter_spec StronglyOptimized g N WF WC NI EI solve arrange Pm fuelk Fu) as (K & cs & cs1 & Hk & HK & _).
  assert (NE : vertices g <> []). { destruct Mg as (Ne & _ & Kn). destruct nodes as [|id ?]; [congruence|]. destruct (Kn id (or_introl eq_refl)) as (i & v & V & _). destruct (vertices g); [destruct i; discriminate|discriminate]. }
  set (r := solve_graph solve arrange g cs) in *.
  destruct (kiter_best g N WF B NI NO WC solve arrange fuelk r K cs Pm NE EI Fu Hk (X _ _ _ Hk)) as [[_ Opt] HKp].
  destruct (Opt s0 omega0 V0 Z0 P0) as [Pos _]. pose proof (HN_pos g N WC) as HN.
  destruct (kiter_optimal solve arrange StronglyOptimized g N fuelk r K cs Pm WF B NI NO WC EI Fu Hk (X _ _ _ Hk)) as [P1 _].
  destruct (P1 Pos) as [(s & Hp & Hv & Hkp) _].
  destruct (schedule_returned g N K (kr_throughput r) WF B NI NO HN HKp Pos) as (ts & Hts & Len & Sh & Val).
  destruct (period2scheduling_ok g N K (kr_throughput r) WF HN HKp NI Pos) as (cs' & ts' & Hg & Hts' & _ & _ & Same).
  assert (ts' = ts) as -> by congruence. assert (Vt : schedule_valid g (denoted ts)) by (apply Val; exists s; auto).
  assert (Ip : (0 < / kr_throughput r)%Q) by (apply Qinv_lt_0_compat; assumption).
  destruct (C82_merge_succeeds mid nodes ts g N (/ kr_throughput r)%Q WF Mg D WP) as (F & HF); try assumption.
  - intros i L. destruct (nth_error ts i) as [t|] eqn:T; [|apply nth_error_None in T; lia]. destruct (nth_error (vertices g) i) as [v|] eqn:V; [|apply nth_error_None in V; lia].
    exists t. split; [reflexivity|]. destruct (Sh i v t V T) as [Ls _]. specialize (HKp i L). destruct WF as (VW & _). destruct (VW v (nth_error_In _ _ V)) as (Pp & _). destruct (ts_starts t); [cbn in Ls; nia|discriminate].
  - apply (periodic_repeats g N K); [apply (divides_iteration_kdiv g N WF WC); exact HK|exact HN|]. intros i v m Ev.
    assert (Li : (i < length (vertices g))%nat) by (apply nth_error_Some; congruence). rewrite <- !(Same i _ Li). apply kperiodic_schedule_periodic; assumption.
  - exists F. intros fuel Hf. destruct (HF fuel Hf) as (g1 & E). exists ts, g1. split; [|split; assumption]. unfold merge_kperiodic, kperiodic_scheduling. rewrite Hk. cbn [bind].
    destruct (Qeq_bool (kr_throughput r) 0) eqn:E0; [apply Qeq_bool_iff in E0; lra|]. rewrite Hts. cbn [bind sd_tasks]. exact E.
Qed.
Print Assumptions C82_kperiodic_merge_succeeds.

(** ** C83: when the merged tasks never overlap in the schedule and their repetition counts
    are coprime, the merged graph still has that schedule: nothing is lost.  Missing: other
    repetition counts, for which the claim is false (below), and overlapping tasks. *)
Theorem C83_merge_keeps_schedule_partial : forall fuel mid nodes ts g N omega g',
  graph_wf g -> schedule_valid g (denoted ts) -> repeats g N omega (denoted ts) -> take_time g nodes -> whole_patterns g N nodes ->
  coprime_counts g N nodes -> never_overlap g nodes (denoted ts) ->
  merge fuel mid nodes ts g N = Ok g' ->
  exists s', schedule_valid g' s' /\ same_executions g nodes g' mid (denoted ts) s'.
Proof. intros fuel mid nodes ts g N omega g' WF V Rp D WP Co Ap H. exact (merge_back g N ts nodes fuel mid g' omega WF V Rp D WP Co Ap H). Qed.
Print Assumptions C83_merge_keeps_schedule_partial.

(** ** The hypotheses are met.  What the checks below share: a graph whose schedules Howard's
    algorithm settles. *)
Definition good (g : graph) (N : nat -> Z) : Prop :=
  graph_wf g /\ balanced g N /\ no_init g /\ no_overlap g /\ whole_cycles g N /\ edge_ids_ok g /\ positive_durations g /\ (1 < length (vertices g))%nat.
Ltac one_of := cbn in *; repeat match goal with H : _ \/ _ |- _ => destruct H as [H | H]; [subst|] | H : False |- _ => destruct H end.
Ltac good_tac := split; [split; [|split];
   [intros v I; one_of; (split; [cbn; lia|split; [reflexivity|split; [reflexivity|]]]); cbn; in_cases; unfold Qle; cbn; lia
   |intros c I; one_of; eexists; eexists; (split; [reflexivity|split; [reflexivity|]]); repeat (split; [reflexivity|]); (split; [cbn; in_cases; lia|]); cbn; lia
   |cbn; repeat constructor; cbn; intuition discriminate]|];
  split; [intros c I; one_of; reflexivity|]; split; [intros v I; one_of; reflexivity|]; split; [intros v I; one_of; reflexivity|];
  split; [intros i v; repeat (destruct i as [|i]; [cbn; intros [= <-]; cbn; (split; [lia|]); apply Znumtheory.Zmod_divide; [lia|reflexivity]|]); destruct i; discriminate|];
  split; [unfold edge_ids_ok; split; [cbn; repeat constructor; cbn; intuition discriminate|intros c I; one_of; cbn; lia]|];
  split; [intros v d I J; one_of; cbn in J; in_cases; reflexivity|cbn; lia].
Lemma good_best g N th : good g N -> run_b g N N th = true -> (0 < th)%Q -> exists th0, (th0 == th)%Q /\ best_throughput g N th0 /\
  exists s, schedule_valid g s /\ non_zeno g s /\ keeps_pace g N s (/ th0) .
Proof.
  intros (WF & B & NI & NO & WC & EI & PD & L) H Pos. pose proof (HN_pos g N WC) as HN. destruct (run_b_spec g N N th WF NI NO PD HN L HN H) as (cs & Hg & X & T).
  exists (fst (howard_solve cs)). split; [assumption|].
  assert (Bt : best_throughput g N (fst (howard_solve cs))) by (apply (nperiodic_best g N WF B NI NO WC cs); [destruct (vertices g); [cbn in L; lia|discriminate]|assumption|assumption]).
  split; [assumption|]. apply Bt. rewrite T. assumption.
Qed.
Lemma good_schedule g N K th ts : good g N -> divides_iteration g N K -> run_b g N K th = true -> (0 < th)%Q -> period2scheduling g N K th = Ok ts ->
  schedule_valid g (denoted ts) /\ repeats g N (/ th) (denoted ts).
Proof.
  intros (WF & B & NI & NO & WC & EI & PD & L) Dv H Pos Hts. pose proof (HN_pos g N WC) as HN.
  assert (HK : positive_on g K). { intros i Li. destruct (nth_error (vertices g) i) as [v|] eqn:V; [|apply nth_error_None in V; lia]. apply (Dv i v V). }
  destruct (run_b_spec g N K th WF NI NO PD HN L HK H) as (cs & Hg & X & T).
  destruct (periodic_best g N WF B NI NO WC K cs (howard_solve cs) HK Hg X) as [Ex _]. destruct Ex as (s & V & P); [rewrite T; assumption|].
  destruct (schedule_returned g N K th WF B NI NO HN HK Pos) as (ts1 & H1 & _ & _ & Val). assert (ts1 = ts) as -> by congruence.
  destruct (period2scheduling_ok g N K th WF HN HK NI Pos) as (cs' & ts' & _ & Hts' & _ & _ & Same). assert (ts' = ts) as -> by congruence. split.
  - apply Val. exists s. split; [|assumption]. intros i v m Ev. rewrite (P i v m Ev). unfold task_period. rewrite T. reflexivity.
  - apply (periodic_repeats g N K); try assumption. intros i v m Ev. assert (Li : (i < length (vertices g))%nat) by (apply nth_error_Some; congruence).
    rewrite <- !(Same i _ Li). apply kperiodic_schedule_periodic; assumption.
Qed.
Definition kiter_settled_b (g : graph) (N : nat -> Z) (fuel : nat) : bool :=
  match kiter howard_solve (fun l => l) fuel StronglyOptimized g N with Ok (_, _, cs) => settled_b cs | _ => false end.
Lemma kiter_settled g N fuel : good g N -> (Datatypes.S (Z.to_nat (sumf (cycles g N) (length (vertices g)))) <= fuel)%nat -> kiter_settled_b g N fuel = true ->
  forall r K cs, kiter howard_solve (fun l => l) fuel StronglyOptimized g N = Ok (r, K, cs) -> exact_answer cs (howard_solve cs).
Proof.
  intros (WF & B & NI & NO & WC & EI & PD & L) Fu H r K cs Hk. unfold kiter_settled_b in H. rewrite Hk in H.
  destruct (kiter_spec StronglyOptimized g N WF WC NI EI howard_solve (fun l => l) (fun l => Permutation_refl l) fuel Fu) as (K' & cs' & cs1 & Hk' & HK & Hg & Mem & _).
  assert (K' = K) as -> by congruence. assert (cs' = cs) as -> by congruence. pose proof (HN_pos g N WC) as HN. pose proof (kdiv_pos g N K HK) as HKp.
  unfold settled_b in H. unfold howard_solve. fold (ex_events cs). destruct (min_cycle_ratio 0 None (ex_events cs) cs) as [q| | |] eqn:E; try discriminate.
  apply andb_prop in H. destruct H as [H Cl]. apply andb_prop in H. destruct H as [St Sv]. rewrite forallb_forall in Cl.
  destruct (howard_exact StronglyOptimized g N K cs1 cs WF NI NO PD HN HKp Hg Mem (ex_events cs) q) as (v & V & X).
  - intros c I. specialize (Cl c I). apply andb_prop in Cl. destruct Cl as [A B']. apply existsb_In in A, B'. auto.
  - left. assumption.
  - assumption.
  - assumption.
  - rewrite V. assumption.
Qed.

(** A sends two tokens to B and B returns them; C follows B.  A and B are merged. *)
Definition one_phase (id : Z) : vertex := mkVertex id 1 0 [1]%Q [] 1.
Definition kept : graph := mkGraph [one_phase 1; one_phase 2; one_phase 3]
  [mkEdge 1 0 1 [1] [2] [] [] 0; mkEdge 2 1 0 [2] [1] [] [] 2; mkEdge 3 1 2 [1] [1] [] [] 0; mkEdge 4 2 1 [1] [1] [] [] 3].
Definition kept_N (i : nat) : Z := nth i [2; 1; 1] 1.
Example kept_good : good kept kept_N.
Proof. good_tac. Qed.
Definition sched_of (g : graph) (N K : nat -> Z) (th : Q) : list task_schedule := match period2scheduling g N K th with Ok ts => ts | _ => [] end.
Definition kept_ts : list task_schedule := Eval vm_compute in sched_of kept kept_N kept_N (1 # 3).
Example kept_starts : map ts_starts kept_ts = [[0; 1]; [8 # 4]; [12 # 4]]%Q.
Proof. reflexivity. Qed.
Example kept_schedule : schedule_valid kept (denoted kept_ts) /\ repeats kept kept_N 3 (denoted kept_ts).
Proof.
  apply (good_schedule kept kept_N kept_N (1 # 3)); [exact kept_good| |vm_compute; reflexivity|reflexivity|vm_compute; reflexivity].
  intros i v; repeat (destruct i as [|i]; [cbn; intros [= <-]; cbn; split; [lia|apply Z.divide_refl]|]); cbn; destruct i; discriminate.
Qed.
Lemma kept_merged i : to_merge kept [1; 2] i -> i = 0%nat \/ i = 1%nat.
Proof. intros (v & V & I). destruct i as [|[|[|i]]]; auto; [|destruct i; discriminate V]. injection V as <-. cbn in I. lia. Qed.
Example kept_mergeable : mergeable kept kept_N [1; 2] /\ take_time kept [1; 2] /\ whole_patterns kept kept_N [1; 2] /\ coprime_counts kept kept_N [1; 2].
Proof.
  assert (M0 : to_merge kept [1; 2] 0) by (eexists; split; [reflexivity|cbn; auto]). assert (M1 : to_merge kept [1; 2] 1) by (eexists; split; [reflexivity|cbn; auto]).
  split; [|split; [|split]].
  - split; [discriminate|]. split; [repeat constructor; cbn; intuition discriminate|]. intros id [<- | [<- | []]]; [exists 0%nat|exists 1%nat]; eexists; (split; [reflexivity|]); cbn; lia.
  - intros i v d V _ I. destruct i as [|[|[|i]]]; [cbn in V; injection V as <-; cbn in I; in_cases; reflexivity..|destruct i; discriminate].
  - intros d Hd i v V I. assert (v_phases v = 1%nat) as -> by (destruct i as [|[|[|i]]]; [cbn in V; injection V as <-; reflexivity..|destruct i; discriminate]).
    rewrite Z.mul_1_l. apply Hd. exists v. auto.
  - intros d Hd. apply (Hd 1%nat M1).
Qed.
Lemma kept_A c : (denoted kept_ts 0%nat c == inject_Z (3 * (Z.of_nat c / 2) + Z.of_nat c mod 2))%Q.
Proof.
  unfold denoted. cbn [kept_ts nth_error ts_starts ts_period length]. rewrite Nat2Z.inj_div. replace (Z.of_nat 2) with 2 by reflexivity. assert (H := Nat2Z.inj_mod c 2). replace (Z.of_nat 2) with 2 in H by reflexivity.
  assert (L : (c mod 2 < 2)%nat) by (apply Nat.mod_upper_bound; lia). rewrite <- H, inject_Z_plus, inject_Z_mult. destruct (c mod 2)%nat as [|[|n]]; [..|lia]; cbn [nth]; [change (inject_Z (Z.of_nat 0)) with 0%Q|change (inject_Z (Z.of_nat 1)) with 1%Q]; change (6 # 2)%Q with (6 # 2)%Q; rewrite (eq_refl : inject_Z 3 = 3%Q); field.
Qed.
Lemma kept_B c : (denoted kept_ts 1%nat c == inject_Z (3 * Z.of_nat c + 2))%Q.
Proof.
  unfold denoted. cbn [kept_ts nth_error ts_starts ts_period length]. rewrite Nat.mod_1_r, Nat.div_1_r, inject_Z_plus, inject_Z_mult. cbn [nth]. rewrite (eq_refl : inject_Z 3 = 3%Q), (eq_refl : inject_Z 2 = 2%Q). field.
Qed.
Lemma exec_one id c : (exec_duration (one_phase id) c == 1)%Q.
Proof. unfold exec_duration, one_phase, cyclic. cbn [v_init_durations v_durations length Nat.ltb Nat.leb]. rewrite Nat.mod_1_r. reflexivity. Qed.
Lemma apart x y : x < y -> (inject_Z x + 1 <= inject_Z y)%Q.
Proof. intros. change 1%Q with (inject_Z 1). rewrite <- inject_Z_plus, <- Zle_Qle. lia. Qed.
Example kept_never_overlap : never_overlap kept [1; 2] (denoted kept_ts).
Proof.
  intros i j vi vj c d Vi Vj Ii Ij Ne.
  assert (T : forall i v c, nth_error (vertices kept) i = Some v -> In (v_id v) [1; 2] -> exists x, (denoted kept_ts i c == inject_Z x)%Q /\ (exec_duration v c == 1)%Q /\
    (i = 0%nat /\ x = 3 * (Z.of_nat c / 2) + Z.of_nat c mod 2 \/ i = 1%nat /\ x = 3 * Z.of_nat c + 2)).
  { clear. intros i v c V I. destruct (kept_merged i (ex_intro _ v (conj V I))) as [-> | ->]; injection V as <-; eexists; [split; [apply kept_A|]|split; [apply kept_B|]]; (split; [apply exec_one|auto]). }
  destruct (T i vi c Vi Ii) as (x & X & Dx & Cx). destruct (T j vj d Vj Ij) as (y & Y & Dy & Cy). rewrite X, Y, Dx, Dy.
  assert (x < y \/ y < x) as [H | H]; [|left; apply apart, H|right; apply apart, H].
  assert (x <> y); [|lia]. intros E. apply Ne. destruct Cx as [[-> Ex] | [-> Ex]], Cy as [[-> Ey] | [-> Ey]]; [|exfalso; lia|exfalso; lia|]; f_equal; lia.
Qed.
Example kept_merge : exists g', merge 100 9 [1; 2] kept_ts kept kept_N = Ok g' /\ length (vertices g') = 2%nat /\ length (edges g') = 2%nat.
Proof. eexists. split; [vm_compute; reflexivity|]. split; reflexivity. Qed.
Example kept_live : exists s omega, schedule_valid kept s /\ non_zeno kept s /\ keeps_pace kept kept_N s omega.
Proof. destruct (good_best kept kept_N (1 # 3) kept_good) as (th & _ & _ & s & H); [vm_compute; reflexivity|reflexivity|]. exists s, (/ th)%Q. exact H. Qed.
(** All the hypotheses together: the tool's own merge of this graph succeeds; the merged graph
    has the schedule and no more. *)
Example kept_kperiodic : exists F, forall fuel, (F <= fuel)%nat -> exists ts g', merge_kperiodic howard_solve (fun l => l) 20 fuel 9 [1; 2] kept kept_N = Ok g' /\
  schedule_valid kept (denoted ts) /\ merge fuel 9 [1; 2] ts kept kept_N = Ok g'.
Proof.
  destruct kept_good as (WF & B & NI & NO & WC & EI & PD & L). destruct kept_mergeable as (M & T & WP & _).
  apply C82_kperiodic_merge_succeeds; try assumption; [intros l; apply Permutation_refl|vm_compute; lia| |exact kept_live].
  apply kiter_settled; [exact kept_good|vm_compute; lia|vm_compute; reflexivity].
Qed.
Example kept_both_ways : exists g' s', merge 100 9 [1; 2] kept_ts kept kept_N = Ok g' /\ schedule_valid g' s' /\ same_executions kept [1; 2] g' 9 (denoted kept_ts) s' /\
  (forall s1, schedule_valid g' s1 -> exists s, schedule_valid kept s /\ same_executions kept [1; 2] g' 9 s s1).
Proof.
  destruct kept_good as (WF & B & NI & NO & WC & EI & PD & L). destruct kept_mergeable as (M & T & WP & Co). destruct kept_schedule as [V R]. destruct kept_merge as (g' & E & _).
  destruct (C83_merge_keeps_schedule_partial 100 9 [1; 2] kept_ts kept kept_N 3 g' WF V R T WP Co kept_never_overlap E) as (s' & V' & S').
  exists g', s'. repeat (split; [assumption|]). intros s1 V1. exact (C80_merged_schedule_is_valid 100 9 [1; 2] kept_ts kept kept_N g' s1 WF B V T WP E V1).
Qed.

(** ** Finding: merging can deadlock a live graph.  A and B run three times each per iteration
    and are both folded into a task with one A and one B per round; C wants three A at once, D
    three B at once, and each returns three.  The original graph has a schedule of period 7;
    the merged graph has none at all. *)
Definition dead : graph := mkGraph [one_phase 2; one_phase 1; one_phase 3; one_phase 4]
  [mkEdge 1 0 2 [1] [3] [] [] 0; mkEdge 2 2 1 [3] [1] [] [] 2; mkEdge 3 1 3 [1] [3] [] [] 1; mkEdge 4 3 0 [3] [1] [] [] 1].
Definition dead_N (i : nat) : Z := nth i [3; 3; 1; 1] 1.
Example dead_good : good dead dead_N.
Proof. good_tac. Qed.
Definition dead_merged : graph := Eval vm_compute in match merge_kperiodic howard_solve (fun l => l) 20 100 9 [1; 2] dead dead_N with Ok g' => g' | _ => dead end.
Lemma dead_is_dead s : ~ schedule_valid dead_merged s.
Proof.
  intros [Ch Se]. assert (SeD := Se 1%nat). specialize (Se 2%nat). cbn [dead_merged vertices nth_error] in Se, SeD. specialize (Se _ eq_refl). specialize (SeD _ eq_refl).
  assert (Du : forall m, (exec_duration (mkVertex 9 2 0 [1%Q; 1%Q] [] 1) m == 1)%Q).
  { intros m. unfold exec_duration, cyclic. cbn [v_init_durations v_durations length Nat.ltb Nat.leb]. assert (L : ((m - 0) mod 2 < 2)%nat) by (apply Nat.mod_upper_bound; lia). destruct ((m - 0) mod 2)%nat as [|[|n]]; [reflexivity..|lia]. }
  assert (Mo : forall m, (s 2%nat m + 1 <= s 2%nat (S m))%Q) by (intros m; rewrite <- (Du m); apply Se).
  assert (DuD : forall m, (exec_duration (mkVertex 4 1 0 [1%Q] [] 1) m == 1)%Q) by (intros m; apply (exec_one 4)).
  assert (MoD : forall m, (s 1%nat m + 1 <= s 1%nat (S m))%Q) by (intros m; rewrite <- (DuD m); apply SeD).
  assert (M0 := Mo 0%nat). assert (M1 := Mo 1%nat).
  assert (Le : forall m, (2 <= m)%nat -> (s 2%nat 2%nat <= s 2%nat m)%Q). { intros m H. apply (mono_le (s 2%nat)); [intros k; specialize (Mo k); lra|lia]. }
  assert (LeD : forall m, (s 1%nat 0%nat <= s 1%nat m)%Q). { intros m. apply (mono_le (s 1%nat)); [intros k; specialize (MoD k); lra|lia]. }
  set (t := s 2%nat 2%nat) in *.
  (* the second A needs a first D *)
  assert (D0 : (s 1%nat 0%nat + 1 <= t)%Q).
  { destruct (Qlt_le_dec t (s 1%nat 0%nat + 1)) as [Lt | ?]; [exfalso|assumption].
    assert (C := Ch (nth 1 (edges dead_merged) (mkEdge 0 0 0 [] [] [] [] 0)) ltac:(cbn; auto)). destruct (C t 3%nat) as (np & H). clear C.
    cbn [dead_merged edges nth e_preload e_src e_dst] in H. rewrite moved_all in H.
    2: { intros m Hm. unfold start_of. destruct m as [|[|[|m]]]; [..|lia]; fold t; lra. }
    assert (T := moved_by_tail (end_of s dead_merged 1) (prod_rate (mkEdge 4 1 2 [3] [1; 0] [] [] 1)) 0 t). cbv beta in T.
    assert (E : moved_by (end_of s dead_merged 1) (prod_rate (mkEdge 4 1 2 [3] [1; 0] [] [] 1)) np t <= 0).
    { apply (Z.le_trans _ _ _ (T ltac:(intros m; unfold prod_rate, cyclic; cbn [e_in e_in_init length Nat.ltb Nat.leb]; rewrite Nat.mod_1_r; cbn; lia)
        ltac:(intros m _; unfold end_of; cbn [dead_merged vertices nth_error]; rewrite (DuD m); specialize (LeD m); lra) np)). cbn. lia. }
    change (sumf (cons_rate _) 3) with 2 in H. lia. }
  (* the first D needs two B, but only one ends before the second A *)
  assert (C := Ch (nth 2 (edges dead_merged) (mkEdge 0 0 0 [] [] [] [] 0)) ltac:(cbn; auto)). destruct (C (s 1%nat 0%nat) 1%nat) as (np & H). clear C.
  cbn [dead_merged edges nth e_preload e_src e_dst] in H. rewrite moved_all in H by (intros m Hm; replace m with 0%nat by lia; apply Qle_refl).
  change (sumf (cons_rate _) 1) with 3 in H.
  assert (T := moved_by_tail (end_of s dead_merged 2) (prod_rate (mkEdge 3 2 1 [0; 1] [3] [] [] 1)) 2 (s 1%nat 0%nat)). cbv beta in T.
  assert (P : forall m, 0 <= prod_rate (mkEdge 3 2 1 [0; 1] [3] [] [] 1) m <= 1).
  { intros m. assert (I := cyclic_in 0 [] [0; 1] m ltac:(cbn; lia)). change (prod_rate _ m) with (cyclic 0 [] [0; 1] m). cbn [app In] in I. lia. }
  assert (Q := T ltac:(intros m; apply P) ltac:(intros m Hm; unfold end_of; cbn [dead_merged vertices nth_error]; rewrite (Du m); specialize (Le m Hm); lra) np).
  assert (E : moved_by (end_of s dead_merged 2) (prod_rate (mkEdge 3 2 1 [0; 1] [3] [] [] 1)) 2 (s 1%nat 0%nat) <= 1).
  { unfold moved_by. cbn [sumf]. change (prod_rate _ 0%nat) with 0. change (prod_rate _ 1%nat) with 1. destruct (Qle_bool _ _), (Qle_bool _ _); lia. }
  lia.
Qed.
Theorem C83_merge_deadlocks_refuted : exists g N nodes g', graph_wf g /\ balanced g N /\ no_init g /\ no_overlap g /\ whole_cycles g N /\
  mergeable g N nodes /\ take_time g nodes /\ whole_patterns g N nodes /\
  (exists s omega, schedule_valid g s /\ non_zeno g s /\ keeps_pace g N s omega) /\
  merge_kperiodic howard_solve (fun l => l) 20 100 9 nodes g N = Ok g' /\ forall s', ~ schedule_valid g' s'.
Proof.
  exists dead, dead_N, [1; 2], dead_merged. assert (G := dead_good). destruct G as (WF & B & NI & NO & WC & EI & PD & L). repeat (split; [assumption|]).
  split; [|split; [|split; [|split; [|split]]]].
  - split; [discriminate|]. split; [repeat constructor; cbn; intuition discriminate|]. intros id [<- | [<- | []]]; [exists 1%nat|exists 0%nat]; eexists; (split; [reflexivity|]); cbn; lia.
  - intros i v d V _ I. destruct i as [|[|[|[|i]]]]; [cbn in V; injection V as <-; cbn in I; in_cases; reflexivity..|destruct i; discriminate].
  - intros d Hd i v V I. assert (v_phases v = 1%nat) as -> by (destruct i as [|[|[|[|i]]]]; [cbn in V; injection V as <-; reflexivity..|destruct i; discriminate]).
    rewrite Z.mul_1_l. apply Hd. exists v. auto.
  - destruct (good_best dead dead_N (1 # 7) dead_good) as (th & _ & _ & s & H); [vm_compute; reflexivity|reflexivity|]. exists s, (/ th)%Q. exact H.
  - vm_compute. reflexivity.
  - exact dead_is_dead.
Qed.
Print Assumptions C83_merge_deadlocks_refuted.

(** ** Finding: with several phases the merged graph can promise too much.  A (phases sending 1
    and 2 tokens to C) and B are merged; dividing the counts (2, 2) by their gcd cuts A's
    pattern in two: the merged task sends 2 tokens every other time, whatever A's phase.  The
    best period of the original is 4; the merged graph has a schedule of period 3. *)
Definition cut : graph := mkGraph [mkVertex 1 2 0 [1; 1]%Q [] 1; one_phase 2; one_phase 3]
  [mkEdge 1 0 1 [1; 1] [1] [] [] 0; mkEdge 2 1 0 [1] [1; 1] [] [] 1; mkEdge 3 0 2 [1; 2] [3] [] [] 0].
Definition cut_N (i : nat) : Z := nth i [2; 2; 1] 1.
Example cut_good : good cut cut_N.
Proof. good_tac. Qed.
Definition cut_merged : graph := Eval vm_compute in match merge_kperiodic howard_solve (fun l => l) 20 100 9 [1; 2] cut cut_N with Ok g' => g' | _ => cut end.
Definition cut_merged_N (i : nat) : Z := nth i [1; 3] 1.
Definition fast : schedule := fun i m => match i with O => inject_Z (3 * Z.of_nat m + 9) | _ => inject_Z (Z.of_nat m) end.
Lemma cut_rate n : Z.of_nat n <= 1 + sumf (cyclic 0 [1] [0; 2]) n.
Proof.
  assert (H : forall k, sumf (cyclic 0 [1] [0; 2]) (S (2 * k)) = 1 + 2 * Z.of_nat k).
  { induction k as [|k IH]; [reflexivity|]. replace (S (2 * S k)) with (S (S (S (2 * k)))) by lia. rewrite (eq_refl : sumf _ (S (S (S (2 * k)))) = sumf (cyclic 0 [1] [0; 2]) (S (2 * k)) + cyclic 0 [1] [0; 2] (S (2 * k)) + cyclic 0 [1] [0; 2] (S (S (2 * k)))), IH.
    assert (E : cyclic 0 [1] [0; 2] (S (2 * k)) = 0). { unfold cyclic. cbn [length]. destruct (Nat.ltb_spec (S (2 * k)) 1); [lia|]. replace ((S (2 * k) - 1) mod 2)%nat with 0%nat by lia. reflexivity. }
    assert (F : cyclic 0 [1] [0; 2] (S (S (2 * k))) = 2). { unfold cyclic. cbn [length]. destruct (Nat.ltb_spec (S (S (2 * k))) 1); [lia|]. replace ((S (S (2 * k)) - 1) mod 2)%nat with 1%nat by lia. reflexivity. }
    lia. }
  destruct n as [|n]; [cbn; lia|]. destruct (Nat.Even_or_Odd n) as [[k ->] | [k ->]]; [rewrite H; lia|]. replace (S (2 * k + 1)) with (S (S (2 * k))) by lia.
  rewrite (eq_refl : sumf _ (S (S (2 * k))) = sumf (cyclic 0 [1] [0; 2]) (S (2 * k)) + cyclic 0 [1] [0; 2] (S (2 * k))), H.
  assert (I := cyclic_in 0 [1] [0; 2] (S (2 * k)) ltac:(cbn; lia)). cbn [app In] in I. lia.
Qed.
Lemma fast_valid : schedule_valid cut_merged fast.
Proof.
  split.
  - intros c [<- | []]. unfold channel_valid. cbn [e_preload e_src e_dst]. set (c := mkEdge _ _ _ _ _ _ _ _). intros t nc. exists (3 * nc + 9)%nat. cbn [Z.add].
    assert (Pr : forall m, 0 <= prod_rate c m). { intros m. assert (I := cyclic_in 0 [1] [0; 2] m ltac:(cbn; lia)). change (prod_rate c m) with (cyclic 0 [1] [0; 2] m). cbn [app In] in I. lia. }
    assert (Mn : forall a b, (a <= b)%nat -> moved_by (end_of fast cut_merged 1) (prod_rate c) a t <= moved_by (end_of fast cut_merged 1) (prod_rate c) b t).
    { intros a b H. unfold moved_by. apply sumf_mono; [|lia]. intros m. destruct (Qle_bool _ _); [apply Pr|lia]. }
    assert (Cr : forall m, cons_rate c m = 3) by (intros m; unfold cons_rate, cyclic, c; cbn [e_out e_out_init length Nat.ltb Nat.leb]; rewrite Nat.mod_1_r; reflexivity).
    induction nc as [|nc IH]; [cbn [moved_by sumf]; apply (Mn 0%nat); lia|].
    destruct (Qlt_le_dec t (fast 0%nat nc)) as [Lt | Ge].
    + unfold moved_by at 1. cbn [sumf]. fold (moved_by (start_of fast 0) (cons_rate c) nc t). unfold start_of at 2. destruct (Qle_bool (fast 0%nat nc) t) eqn:E; [apply Qle_bool_iff in E; lra|].
      specialize (Mn (3 * nc + 9)%nat (3 * S nc + 9)%nat ltac:(lia)). lia.
    + rewrite moved_all; [|intros m Hm; eapply Qle_trans; [|exact Ge]; unfold start_of, fast; rewrite <- Zle_Qle; lia].
      rewrite (sumf_ext _ (fun _ => 3)) by (intros; apply Cr). assert (K : forall n, sumf (fun _ => 3) n = 3 * Z.of_nat n) by (induction n as [|n IHn]; [reflexivity|cbn [sumf]; lia]). rewrite K.
      specialize (Mn (3 * nc + 9)%nat (3 * S nc + 9)%nat ltac:(lia)). rewrite moved_all in Mn.
      * assert (R := cut_rate (3 * nc + 9)). change (prod_rate c) with (cyclic 0 [1] [0; 2]) in *. lia.
      * intros m Hm. eapply Qle_trans; [|exact Ge]. unfold end_of. cbn [cut_merged vertices nth_error].
        assert (D : (exec_duration (mkVertex 9 2 1 [1%Q; 1%Q] [1%Q] 1) m == 1)%Q). { assert (I := cyclic_in 0%Q [1%Q] [1%Q; 1%Q] m ltac:(cbn; lia)). unfold exec_duration. cbn [v_init_durations v_durations]. cbn [app In] in I. destruct I as [<- | [<- | [<- | []]]]; reflexivity. }
        rewrite D. unfold fast. apply apart. lia.
  - intros i v V m. destruct i as [|[|i]]; [injection V as <-|injection V as <-|destruct i; discriminate].
    + unfold start_of. rewrite (exec_one 3 m). unfold fast. apply apart. lia.
    + unfold start_of. assert (D : (exec_duration (mkVertex 9 2 1 [1%Q; 1%Q] [1%Q] 1) m == 1)%Q). { assert (I := cyclic_in 0%Q [1%Q] [1%Q; 1%Q] m ltac:(cbn; lia)). unfold exec_duration. cbn [v_init_durations v_durations]. cbn [app In] in I. destruct I as [<- | [<- | [<- | []]]]; reflexivity. }
      rewrite D. unfold fast. apply apart. lia.
Qed.
Theorem C81_cut_patterns_overestimate_refuted : exists g N nodes g' N' s' i v j, graph_wf g /\ balanced g N /\ no_init g /\ no_overlap g /\ whole_cycles g N /\
  mergeable g N nodes /\ take_time g nodes /\
  merge_kperiodic howard_solve (fun l => l) 20 100 9 nodes g N = Ok g' /\ balanced g' N' /\
  nth_error (vertices g) i = Some v /\ ~ to_merge g nodes i /\ nth_error (vertices g') j = Some v /\ N' j = N i /\
  schedule_valid g' s' /\ non_zeno g' s' /\ keeps_pace g' N' s' 3 /\
  (forall s omega, schedule_valid g s -> non_zeno g s -> keeps_pace g N s omega -> (4 <= omega)%Q).
Proof.
  exists cut, cut_N, [1; 2], cut_merged, cut_merged_N, fast, 2%nat, (one_phase 3), 0%nat. assert (G := cut_good). destruct G as (WF & B & NI & NO & WC & EI & PD & L). repeat (split; [assumption|]).
  split; [|split; [|split; [|split]]].
  - split; [discriminate|]. split; [repeat constructor; cbn; intuition discriminate|]. intros id [<- | [<- | []]]; [exists 0%nat|exists 1%nat]; eexists; (split; [reflexivity|]); cbn; lia.
  - intros i v d V _ I. destruct i as [|[|[|i]]]; [cbn in V; injection V as <-; cbn in I; in_cases; reflexivity..|destruct i; discriminate].
  - vm_compute. reflexivity.
  - intros c [<- | []]. reflexivity.
  - split; [reflexivity|]. split; [intros (v & V & I); injection V as <-; cbn in I; lia|]. split; [reflexivity|]. split; [reflexivity|]. split; [exact fast_valid|].
    split; [|split].
    + intros i t Li. exists (Z.to_nat (Z.max 0 (Qround.Qceiling t + 1))). assert (C := Qround.Qle_ceiling t). eapply Qle_lt_trans; [exact C|].
      unfold fast. destruct i as [|i]; rewrite <- Zlt_Qlt; lia.
    + exists 9%Q. intros i m Li. cbn [cut_merged vertices length] in Li. destruct i as [|[|i]]; [| |lia]; unfold fast, cut_merged_N; cbn [nth].
      * rewrite inject_Z_plus, inject_Z_mult, (eq_refl : inject_Z 3 = 3%Q), (eq_refl : inject_Z 9 = 9%Q), (eq_refl : inject_Z 1 = 1%Q). apply Qle_lteq. right. field.
      * rewrite (eq_refl : inject_Z 3 = 3%Q). assert (E : (9 + 3 * (inject_Z (Z.of_nat m) / 3) == 9 + inject_Z (Z.of_nat m))%Q) by field. rewrite E. lra.
    + intros s omega H1 H2 H3. destruct (good_best cut cut_N (1 # 4) cut_good) as (th & T & [_ Opt] & _); [vm_compute; reflexivity|reflexivity|]. destruct (Opt s omega H1 H2 H3) as [_ O]. rewrite T in O. exact O.
Qed.
Print Assumptions C81_cut_patterns_overestimate_refuted.
