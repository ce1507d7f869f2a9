(** C87, C88: the throughput of an SDF graph computed by expansion into its executions. *)
From Coq Require Import QArith Lqa Permutation.
From Verif Require Import Base Graph KPeriodic ScheduleSpec ScheduleCore KPeriodicSpec KPeriodicGraph EventGraph EventGraphSpec KPeriodicEnd KPeriodicProps KIter KIterSpec KIterProofs KIterLoop KIterProps SimSpec
  Howard HowardProofs HowardProps Periodic PeriodicSpec PeriodicProofs PeriodicProps Degroote DegrooteSpec DegrooteProofs DegrooteFinal.
Open Scope Z_scope.

(** ** C87.  The value printed by the deGroote algorithm. *)

(** A period fits all the circuits of the constraint graph exactly when a valid schedule repeats
    one iteration of the graph with that period. *)
Theorem C87_constraints_exact : forall g N omega, graph_wf g -> balanced g N -> no_init g -> sdf g -> single_server g -> whole_cycles g N ->
  exists cs, generate_lcg g N = Ok cs /\
    ((exists s, periodic_schedule g N N omega s /\ schedule_valid g s) <->
     forall l, circuit cs l -> (sumQ c_w l <= omega * sumQ c_d l)%Q).
Proof.
  intros g N omega W B NI S1 R1 C. destruct (lcg_ok g N W B NI S1 R1 C) as (cs & E). exists cs. split; [assumption|]. apply lcg_exact; assumption.
Qed.
Print Assumptions C87_constraints_exact.

(** With an exact solver the value is the throughput of the best schedule, periodic or not. *)
Theorem C87_throughput_exact : forall solve g N cs, graph_wf g -> balanced g N -> no_init g -> sdf g -> single_server g -> whole_cycles g N -> positive_durations g ->
  vertices g <> [] -> generate_lcg g N = Ok cs -> exact_maximum cs (solve cs) ->
  exists th, degroote_throughput solve g N = Ok th /\ (0 < th)%Q /\ best_throughput g N th.
Proof.
  intros solve g N cs W B NI S1 R1 C PD NE E X.
  pose proof (fits_positive g N W B NI S1 R1 C PD NE cs (fst (solve cs)) E (fits_of_maximum cs (solve cs) X)) as P.
  exists (/ fst (solve cs))%Q. unfold degroote_throughput. rewrite E. cbn [bind]. destruct (Qeq_bool (fst (solve cs)) 0) eqn:Z; [apply Qeq_bool_iff in Z; lra|].
  split; [reflexivity|]. split; [apply Qinv_lt_0_compat; assumption|]. apply lcg_best with cs; assumption.
Qed.
Print Assumptions C87_throughput_exact.

(** The same value as K-Iter. *)
Theorem C87_equals_kiter : forall solve solve' arrange fuel r K csk g N cs, (forall l, Permutation (arrange l) l) ->
  graph_wf g -> balanced g N -> no_init g -> sdf g -> single_server g -> whole_cycles g N -> positive_durations g ->
  vertices g <> [] -> edge_ids_ok g -> (iteration_bound g N <= fuel)%nat ->
  generate_lcg g N = Ok cs -> exact_maximum cs (solve cs) ->
  kiter solve' arrange fuel StronglyOptimized g N = Ok (r, K, csk) -> exact_answer csk (solve' csk) ->
  exists th, degroote_throughput solve g N = Ok th /\ (th == kr_throughput r)%Q.
Proof.
  intros solve solve' arrange fuel r K csk g N cs Pm W B NI S1 R1 C PD NE EI Fu E X H X'.
  destruct (C87_throughput_exact solve g N cs W B NI S1 R1 C PD NE E X) as (th & D & P & Be). exists th. split; [assumption|].
  pose proof (no_overlap_of g R1) as NO.
  destruct (kiter_best g N W B NI NO C solve' arrange fuel r K csk Pm NE EI Fu H X') as [Bk _].
  apply (best_unique g N th (kr_throughput r)); auto.
Qed.
Print Assumptions C87_equals_kiter.

(** With the code's own solver (Howard's algorithm, tolerance 0).  Missing: that it settles within
    its 1000 passes; when it does not, the value may be too large. *)
Theorem C87_own_solver_partial : forall g N cs q, graph_wf g -> balanced g N -> no_init g -> sdf g -> single_server g -> whole_cycles g N -> positive_durations g ->
  vertices g <> [] -> generate_lcg g N = Ok cs -> max_cycle_ratio 0 (lcg_events g N) cs = Ok q -> r_settled q = true ->
  exists v, r_value q = Some v /\ (0 < v)%Q /\ best_throughput g N (/ v).
Proof.
  intros g N cs q W B NI S1 R1 C PD NE E R ST. destruct (own_maximum g N W B NI S1 R1 C PD NE cs q E R ST) as (v & V & P & X).
  exists v. split; [assumption|]. split; [assumption|]. exact (lcg_best g N W B NI S1 R1 C cs (v, r_cycle q) NE E X P).
Qed.
Print Assumptions C87_own_solver_partial.

(** The solver answers on every graph that has a schedule. *)
Theorem C87_answers_on_live_graphs : forall g N s omega, graph_wf g -> balanced g N -> no_init g -> sdf g -> single_server g -> whole_cycles g N -> positive_durations g ->
  vertices g <> [] -> schedule_valid g s -> non_zeno g s -> keeps_pace g N s omega ->
  exists cs q, generate_lcg g N = Ok cs /\ max_cycle_ratio 0 (lcg_events g N) cs = Ok q.
Proof.
  intros g N s omega W B NI S1 R1 C PD NE V Z K. destruct (lcg_ok g N W B NI S1 R1 C) as (cs & E). exists cs.
  destruct (own_answers g N W B NI S1 R1 C PD NE cs 0%Q s omega E V Z K) as (q & R). exists q. auto.
Qed.
Print Assumptions C87_answers_on_live_graphs.

(** A circuit without tokens: the graph deadlocks. *)
Theorem C87_no_tokens_deadlock : forall g N cs l, graph_wf g -> balanced g N -> no_init g -> sdf g -> single_server g -> whole_cycles g N -> positive_durations g ->
  vertices g <> [] -> generate_lcg g N = Ok cs -> circuit cs l -> (sumQ c_d l == 0)%Q ->
  forall s omega, schedule_valid g s -> non_zeno g s -> ~ keeps_pace g N s omega.
Proof.
  intros g N cs l W B NI S1 R1 C PD NE E Ci D. destruct (sums_nonneg g N W B NI S1 R1 C PD NE cs l E Ci) as [_ Wp]. apply lcg_deadlock with cs l; assumption.
Qed.
Print Assumptions C87_no_tokens_deadlock.

(** ** C88.  The cleaned variant. *)

(** The cleaning loop ends, only removes arcs, keeps every circuit, and leaves no event with arcs on
    one side only. *)
Theorem C88_cleaning : forall evs cs fuel, (length cs < fuel)%nat ->
  exists cs', clean_lcg fuel evs cs = Ok cs' /\ incl cs' cs /\
    (forall l, circuit cs' l <-> circuit cs l) /\
    (forall e, In e evs -> ((exists c, In c cs' /\ c_source c = e) <-> (exists c, In c cs' /\ c_target c = e))).
Proof. intros evs cs fuel L. apply clean_spec. exact L. Qed.
Print Assumptions C88_cleaning.

(** The cleaned variant therefore also gives the throughput of the best schedule. *)
Theorem C88_clean_throughput_exact : forall solve fuel g N cs0, graph_wf g -> balanced g N -> no_init g -> sdf g -> single_server g -> whole_cycles g N -> positive_durations g ->
  vertices g <> [] -> generate_lcg g N = Ok cs0 -> (length cs0 < fuel)%nat ->
  exists cs, clean_lcg fuel (lcg_events g N) cs0 = Ok cs /\
    (exact_maximum cs (solve cs) ->
     exists th, degroote_clean_throughput solve fuel g N = Ok th /\ (0 < th)%Q /\ best_throughput g N th).
Proof.
  intros solve fuel g N cs0 W B NI S1 R1 C PD NE E L. destruct (clean_spec (lcg_events g N) fuel cs0 L) as (cs & Ec & _ & Ci & _). exists cs. split; [assumption|]. intros X.
  apply (maximum_circuits cs cs0 (solve cs)) in X; [|intros l; symmetry; apply Ci].
  pose proof (fits_positive g N W B NI S1 R1 C PD NE cs0 (fst (solve cs)) E (fits_of_maximum cs0 (solve cs) X)) as P.
  exists (/ fst (solve cs))%Q. unfold degroote_clean_throughput. rewrite E. cbn [bind]. rewrite Ec. cbn [bind]. destruct (Qeq_bool (fst (solve cs)) 0) eqn:Z; [apply Qeq_bool_iff in Z; lra|].
  split; [reflexivity|]. split; [apply Qinv_lt_0_compat; assumption|]. apply lcg_best with cs0; assumption.
Qed.
Print Assumptions C88_clean_throughput_exact.

(** ** The hypotheses are met: the ring of three tasks (rates 3:5, 2:3, 5:2, four tokens). *)
Lemma ring_balanced : balanced ring ring_N. Proof. intros c [<-|[<-|[<-|[]]]]; reflexivity. Qed.
Lemma ring_no_init : no_init ring. Proof. intros v [<-|[<-|[<-|[]]]]; reflexivity. Qed.
Lemma ring_sdf : sdf ring. Proof. intros v [<-|[<-|[<-|[]]]]; reflexivity. Qed.
Lemma ring_single : single_server ring. Proof. intros v [<-|[<-|[<-|[]]]]; reflexivity. Qed.
Lemma ring_cycles : whole_cycles ring ring_N.
Proof. intros [|[|[|[|i]]]] v; cbn; intros [= <-]; cbn; (split; [lia|]); [exists 5|exists 3|exists 2]; reflexivity. Qed.
Lemma ring_positive : positive_durations ring. Proof. intros v d [<-|[<-|[<-|[]]]]; cbn; in_cases; reflexivity. Qed.
Definition lcg_run (g : graph) (N : nat -> Z) (x : Q) : bool :=
  match generate_lcg g N with
  | Ok cs => match max_cycle_ratio 0 (lcg_events g N) cs with
             | Ok q => r_settled q && match r_value q with Some v => Qeq_bool v x | None => false end
             | _ => false end
  | _ => false end.
Lemma lcg_run_spec g N x : graph_wf g -> balanced g N -> no_init g -> sdf g -> single_server g -> whole_cycles g N -> positive_durations g -> vertices g <> [] ->
  lcg_run g N x = true -> exists cs q, generate_lcg g N = Ok cs /\ max_cycle_ratio 0 (lcg_events g N) cs = Ok q /\ r_settled q = true /\
  exact_maximum cs (x, r_cycle q) /\ (0 < x)%Q /\ best_throughput g N (/ x).
Proof.
  intros W B NI S1 R1 C PD NE H. unfold lcg_run in H.
  destruct (generate_lcg g N) as [cs| | |] eqn:E; try discriminate. destruct (max_cycle_ratio 0 (lcg_events g N) cs) as [q| | |] eqn:R; try discriminate.
  apply andb_prop in H as [ST V]. exists cs, q. split; [reflexivity|]. split; [assumption|]. split; [assumption|].
  destruct (own_maximum g N W B NI S1 R1 C PD NE cs q E R ST) as (v & V' & P & X).
  rewrite V' in V. apply Qeq_bool_iff in V. destruct X as (X1 & X2 & X3 & X4).
  assert (Y : exact_maximum cs (x, r_cycle q)). { split; [exact X1|]. split; [exact X2|]. cbn [fst snd] in *. split; [rewrite <- X3, V; reflexivity|]. intros l Ci. rewrite <- V. apply X4, Ci. }
  assert (Px : (0 < x)%Q) by (rewrite <- V; exact P). split; [exact Y|]. split; [exact Px|]. exact (lcg_best g N W B NI S1 R1 C cs (x, r_cycle q) NE E Y Px).
Qed.
Example ring_degroote : exists cs q, generate_lcg ring ring_N = Ok cs /\ max_cycle_ratio 0 (lcg_events ring ring_N) cs = Ok q /\ r_settled q = true /\
  exact_maximum cs (9%Q, r_cycle q) /\ (0 < 9)%Q /\ best_throughput ring ring_N (/ 9).
Proof.
  apply lcg_run_spec; [exact ring_wf|exact ring_balanced|exact ring_no_init|exact ring_sdf|exact ring_single|exact ring_cycles|exact ring_positive|discriminate|vm_compute; reflexivity].
Qed.

(** ** Finding: initial phases are silently ignored.  One task, a loop of one token, and an initial
    phase that takes the token without giving it back: every execution after the first is blocked,
    and the value is one execution per unit of time. *)
Definition init_loop : graph := mkGraph [mkVertex 1 1 1 [1]%Q [1]%Q 1] [mkEdge 1 0 0 [1] [1] [0] [1] 1].
Theorem C87_initial_phases_refuted : exists g N, graph_wf g /\ balanced g N /\ sdf g /\ single_server g /\ positive_durations g /\
  (exists cs r, generate_lcg g N = Ok cs /\ exact_maximum cs r /\ degroote_throughput (fun _ => r) g N = Ok 1%Q) /\
  forall s, ~ schedule_valid g s.
Proof.
  exists init_loop, (fun _ => 1). split; [|split; [|split; [|split; [|split; [|split]]]]].
  - split; [|split].
    + intros v [<-|[]]; (split; [cbn; lia|split; [reflexivity|split; [reflexivity|]]]); cbn; in_cases; unfold Qle; cbn; lia.
    + intros c [<-|[]]; eexists; eexists; (split; [reflexivity|split; [reflexivity|]]);
        repeat (split; [reflexivity|]); (split; [cbn; in_cases; lia|]); cbn; lia.
    + repeat constructor; cbn; intuition discriminate.
  - intros c [<-|[]]; reflexivity.
  - intros v [<-|[]]; reflexivity.
  - intros v [<-|[]]; reflexivity.
  - intros v d [<-|[]]; cbn; in_cases; reflexivity.
  - set (e := mkEvent 1 1 1). eexists. exists (1%Q, [mkConstraint e e 1 1 0]). split; [vm_compute; reflexivity|]. split; [|reflexivity].
    split; [|split; [|split]]; cbn [fst snd].
    + split; [discriminate|]. split; [intros c [<-|[]]; left; reflexivity|]. exists e. cbn. auto.
    + reflexivity.
    + reflexivity.
    + intros l (_ & I & _). assert (E : (sumQ c_w l == sumQ c_d l)%Q); [|rewrite E; lra]. induction l as [|c l IH]; [reflexivity|].
      unfold sumQ in *. cbn [map fold_right]. rewrite IH by (intros x X; apply I; right; exact X).
      destruct (I c (or_introl eq_refl)) as [<-|[<-|[]]]; reflexivity.
  - intros s [V S]. specialize (V _ (or_introl eq_refl)). specialize (S 0%nat _ eq_refl). unfold channel_valid in V. cbn [e_preload e_src e_dst] in V.
    destruct (V (s 0%nat 1%nat) 2%nat) as (np & H). unfold task_serialised, start_of in S.
    assert (Le : forall k, (1 <= k)%nat -> (s 0%nat 1%nat <= s 0%nat k)%Q).
    { induction k as [|k IH]; intros L; [lia|]. destruct k as [|k]; [apply Qle_refl|]. specialize (IH ltac:(lia)). specialize (S (Datatypes.S k)).
      unfold exec_duration, cyclic in S. cbn [v_init_durations v_durations length Nat.ltb Nat.leb] in S. rewrite Nat.mod_1_r in S. cbn [nth] in S. lra. }
    assert (R : moved_by (start_of s 0) (cons_rate (mkEdge 1 0 0 [1] [1] [0] [1] 1)) 2 (s 0%nat 1%nat) = 2).
    { unfold moved_by. cbn [sumf]. unfold start_of. rewrite (proj2 (Qle_bool_iff (s 0%nat 1%nat) (s 0%nat 1%nat)) (Qle_refl _)).
      specialize (S 0%nat). unfold exec_duration, cyclic in S. cbn in S. rewrite (proj2 (Qle_bool_iff (s 0%nat 0%nat) (s 0%nat 1%nat))) by lra. reflexivity. }
    rewrite R in H. clear R. assert (P : moved_by (end_of s init_loop 0) (prod_rate (mkEdge 1 0 0 [1] [1] [0] [1] 1)) np (s 0%nat 1%nat) = 0); [|lia].
    clear H. induction np as [|np IH]; [reflexivity|]. unfold moved_by in *. cbn [sumf]. rewrite IH. destruct np as [|np].
    + unfold prod_rate, cyclic. cbn. destruct (Qle_bool _ _); reflexivity.
    + unfold end_of. cbn [nth_error vertices init_loop]. unfold exec_duration, cyclic. cbn [v_init_durations v_durations length Nat.ltb Nat.leb]. rewrite Nat.mod_1_r. cbn [nth].
      destruct (Qle_bool (s 0%nat (Datatypes.S np) + 1) (s 0%nat 1%nat)) eqn:B; [|reflexivity]. apply Qle_bool_iff in B. specialize (Le (Datatypes.S np) ltac:(lia)). lra.
Qed.
Print Assumptions C87_initial_phases_refuted.
