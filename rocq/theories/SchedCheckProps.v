(** C123: the schedule checker. *)
From Coq Require Import QArith Lqa Permutation.
From Verif Require Import Base Graph ScheduleSpec SymbExecSpec SchedCheck SchedCheckSpec SchedCheckProofs.
Open Scope Z_scope.

Lemma accepts_valid g N max_id order s : checkable g max_id order s -> (forall i, In i order -> 0 <= N i) -> schedule_valid g (times s) ->
  exists fuel0, forall fuel, (fuel0 <= fuel)%nat -> is_valid_schedule fuel g N max_id order s = Ok true.
Proof. intros [] NP [V1 V2]. apply accepts; assumption. Qed.
Lemma exact_answer g N max_id order s Omega : checkable g max_id order s -> (forall i, In i order -> 0 < N i) -> balanced g N -> one_starter order s -> in_sequence g s -> same_pace order N Omega s ->
  exists fuel0, forall fuel, (fuel0 <= fuel)%nat -> exists r, is_valid_schedule fuel g N max_id order s = Ok r /\ (r = true <-> schedule_valid g (times s)).
Proof.
  intros C NP Bal One Ser Pace. destruct C.
  destruct (verdict g N max_id order s ltac:(assumption) ltac:(assumption) ltac:(assumption) ltac:(assumption) ltac:(assumption) ltac:(assumption) ltac:(assumption) ltac:(assumption) ltac:(assumption) ltac:(assumption) ltac:(assumption) ltac:(assumption) Ser NP One) as (f0 & H).
  exists f0. intros fuel Hf. destruct (H fuel Hf) as ((r & Er) & A & B). exists r. split; [exact Er|]. split.
  - intros ->. split; [|exact Ser]. apply (whole g N order s) with (Omega := Omega); try assumption. apply B, Er.
  - intros [V _]. specialize (A V). congruence.
Qed.

(** ** C123: for single-phase tasks that take time, a valid schedule is accepted; when moreover one task
    alone starts at 0, no task overlaps itself and all tasks keep pace, the answer is exact. *)
Theorem C123_accepts_valid : forall g N max_id order s, checkable g max_id order s -> (forall i, In i order -> 0 <= N i) -> schedule_valid g (times s) ->
  exists fuel0, forall fuel, (fuel0 <= fuel)%nat -> is_valid_schedule fuel g N max_id order s = Ok true.
Proof. exact accepts_valid. Qed.
Print Assumptions C123_accepts_valid.
Theorem C123_exact : forall g N max_id order s Omega, checkable g max_id order s -> (forall i, In i order -> 0 < N i) -> balanced g N -> one_starter order s -> in_sequence g s -> same_pace order N Omega s ->
  exists fuel0, forall fuel, (fuel0 <= fuel)%nat -> exists r, is_valid_schedule fuel g N max_id order s = Ok r /\ (r = true <-> schedule_valid g (times s)).
Proof. exact exact_answer. Qed.
Print Assumptions C123_exact.

(** A producer of two tokens that takes 2 and a consumer that takes 1, with two channels. *)
Definition ex_graph := mkGraph [mkVertex 1 1 0 [2%Q] [] 1; mkVertex 2 1 0 [1%Q] [] 1] [mkEdge 1 0 1 [2] [1] [] [] 0; mkEdge 2 1 0 [1] [2] [] [] 4].
Definition ex_counts (i : nat) : Z := match i with O => 1 | _ => 2 end.
Definition ex_times (late : Q) (i : nat) : given := match i with O => mkGiven [0%Q] 3 [3%Q] | _ => mkGiven [] 3 [late; (late + 1)%Q] end.
Lemma ex_first late : (start_time (ex_times late 1) 0 == late)%Q.
Proof. unfold start_time. cbn [ex_times g_initial g_period g_periodic length Nat.ltb Nat.leb Nat.sub Nat.modulo Nat.div Nat.divmod fst snd nth]. change (inject_Z (Z.of_nat 0)) with 0%Q. lra. Qed.
Lemma ex_checkable late : (0 <= late)%Q -> checkable ex_graph 3 [0%nat; 1%nat] (ex_times late).
Proof.
  intros P. constructor.
  - split; [|split].
    + intros v [<-|[<-|[]]]; (split; [cbn; lia|]; split; [reflexivity|]; split; [reflexivity|]; intros x [<-|[]]; discriminate).
    + intros c [<-|[<-|[]]]; (eexists; eexists; split; [reflexivity|]; split; [reflexivity|]; split; [reflexivity|]; split; [reflexivity|]; split; [reflexivity|]; split; [reflexivity|]; split; [intros x Hx; cbn in Hx; lia|cbn; lia]).
    + repeat constructor; cbn; lia.
  - intros v [<-|[<-|[]]]; reflexivity.
  - intros v [<-|[<-|[]]]; reflexivity.
  - unfold distinct_channels. cbn. repeat constructor; cbn; lia.
  - intros v x [<-|[<-|[]]] [<-|[]]; reflexivity.
  - intros v [<-|[<-|[]]]; reflexivity.
  - cbn. lia.
  - intros v [<-|[<-|[]]]; reflexivity.
  - apply Permutation_refl.
  - intros i [<-|[<-|[]]]; discriminate.
  - intros i [<-|[<-|[]]]; [vm_compute; discriminate|rewrite ex_first; exact P].
  - exists 0%nat. split; [left; reflexivity|reflexivity].
Qed.
Lemma ex_sequence late : in_sequence ex_graph (ex_times late).
Proof.
  intros [|[|i]] v E m; cbn in E; [| |destruct i; discriminate]; injection E as <-; unfold start_of, times.
  - assert (D : exec_duration (mkVertex 1 1 0 [2%Q] [] 1) m = 2%Q) by (unfold exec_duration, cyclic; cbn; destruct (m - 0)%nat; reflexivity). rewrite D.
    destruct m as [|m]; [vm_compute; discriminate|]. unfold start_time. cbn [ex_times g_initial g_period g_periodic length]. cbn [Nat.ltb Nat.leb Nat.sub]. rewrite !Nat.sub_0_r, !Nat.div_1_r, !Nat.mod_1_r. cbn [nth].
    rewrite Nat2Z.inj_succ. unfold Z.succ. rewrite inject_Z_plus. change (inject_Z 1) with 1%Q. lra.
  - assert (D : exec_duration (mkVertex 2 1 0 [1%Q] [] 1) m = 1%Q) by (unfold exec_duration, cyclic; cbn; destruct (m - 0)%nat; reflexivity). rewrite D.
    unfold start_time. cbn [ex_times g_initial g_period g_periodic length]. cbn [Nat.ltb Nat.leb]. rewrite !Nat.sub_0_r.
    pose proof (Nat.div_mod m 2 ltac:(lia)) as Dm. pose proof (Nat.mod_upper_bound m 2 ltac:(lia)) as Um. destruct (m mod 2)%nat as [|[|r]] eqn:Er; [| |lia].
    + assert (E1 : (S m mod 2 = 1)%nat) by (symmetry; apply (Nat.mod_unique (S m) 2 (m / 2)); lia). assert (E2 : (S m / 2 = m / 2)%nat) by (symmetry; apply (Nat.div_unique (S m) 2 (m / 2) 1); lia). rewrite E1, E2. cbn [nth]. lra.
    + assert (E1 : (S m mod 2 = 0)%nat) by (symmetry; apply (Nat.mod_unique (S m) 2 (S (m / 2))); lia). assert (E2 : (S m / 2 = S (m / 2))%nat) by (symmetry; apply (Nat.div_unique (S m) 2 (S (m / 2)) 0); lia). rewrite E1, E2. cbn [nth].
      rewrite Nat2Z.inj_succ. unfold Z.succ. rewrite inject_Z_plus. change (inject_Z 1) with 1%Q. lra.
Qed.
(** The consumer that starts at 2 is accepted, the one that starts at 1 is not. *)
Example C123_hyp : forall late, (0 < late)%Q -> checkable ex_graph 3 [0%nat; 1%nat] (ex_times late) /\ (forall i, In i [0%nat; 1%nat] -> 0 < ex_counts i) /\ balanced ex_graph ex_counts /\ one_starter [0%nat; 1%nat] (ex_times late) /\
  in_sequence ex_graph (ex_times late) /\ same_pace [0%nat; 1%nat] ex_counts 3 (ex_times late).
Proof.
  intros late P. split; [apply ex_checkable; lra|]. split; [intros i [<-|[<-|[]]]; reflexivity|]. split; [intros c [<-|[<-|[]]]; reflexivity|]. split; [|split; [apply ex_sequence|]].
  - intros i j [<-|[<-|[]]] [<-|[<-|[]]] A B; try reflexivity; rewrite ?ex_first in *; lra.
  - intros i [<-|[<-|[]]]; (split; [reflexivity|]); [exists 1|exists 1]; reflexivity.
Qed.
Example C123_answers : is_valid_schedule 50 ex_graph ex_counts 3 [0%nat; 1%nat] (ex_times 2) = Ok true /\ is_valid_schedule 50 ex_graph ex_counts 3 [0%nat; 1%nat] (ex_times 1) = Ok false.
Proof. split; vm_compute; reflexivity. Qed.

(** ** C123, wrong answers *)
(** Two tasks that start at 0: the consumption of one of them is never counted. *)
Definition both := mkGraph [mkVertex 1 1 0 [1%Q] [] 1; mkVertex 2 1 0 [1%Q] [] 1] [mkEdge 1 1 0 [1] [1] [] [] 0; mkEdge 2 1 0 [1] [1] [] [] 0].
Definition both_times (i : nat) : given := mkGiven [] 1 [0%Q].
Definition ones (i : nat) : Z := 1.
Lemma both_checkable : checkable both 3 [0%nat; 1%nat] both_times.
Proof.
  constructor.
  - split; [|split].
    + intros v [<-|[<-|[]]]; (split; [cbn; lia|]; split; [reflexivity|]; split; [reflexivity|]; intros x [<-|[]]; discriminate).
    + intros c [<-|[<-|[]]]; (eexists; eexists; split; [reflexivity|]; split; [reflexivity|]; split; [reflexivity|]; split; [reflexivity|]; split; [reflexivity|]; split; [reflexivity|]; split; [intros x Hx; cbn in Hx; lia|cbn; lia]).
    + repeat constructor; cbn; lia.
  - intros v [<-|[<-|[]]]; reflexivity.
  - intros v [<-|[<-|[]]]; reflexivity.
  - unfold distinct_channels. cbn. repeat constructor; cbn; lia.
  - intros v x [<-|[<-|[]]] [<-|[]]; reflexivity.
  - intros v [<-|[<-|[]]]; reflexivity.
  - cbn. lia.
  - intros v [<-|[<-|[]]]; reflexivity.
  - apply Permutation_refl.
  - intros i [<-|[<-|[]]]; discriminate.
  - intros i [<-|[<-|[]]]; vm_compute; discriminate.
  - exists 0%nat. split; [left; reflexivity|reflexivity].
Qed.
Lemma unit_start p x m : start_time (mkGiven [] p [x]) m = (x + p * inject_Z (Z.of_nat m))%Q.
Proof. unfold start_time. cbn [g_initial g_period g_periodic length]. cbn [Nat.ltb Nat.leb]. rewrite Nat.sub_0_r, Nat.div_1_r, Nat.mod_1_r. reflexivity. Qed.
Theorem C123_two_starters_refuted : exists g N max_id order s Omega fuel, checkable g max_id order s /\ (forall i, In i order -> 0 < N i) /\ balanced g N /\ in_sequence g s /\ same_pace order N Omega s /\
  is_valid_schedule fuel g N max_id order s = Ok true /\ ~ schedule_valid g (times s).
Proof.
  exists both, ones, 3, [0%nat; 1%nat], both_times, 1%Q, 50%nat. split; [exact both_checkable|]. split; [reflexivity|]. split; [intros c [<-|[<-|[]]]; reflexivity|]. split; [|split; [|split; [vm_compute; reflexivity|]]].
  - intros [|[|i]] v E m; cbn in E; [| |destruct i; discriminate]; injection E as <-; unfold start_of, times, both_times; rewrite !unit_start;
      (replace (exec_duration _ m) with 1%Q by (unfold exec_duration, cyclic; cbn; destruct (m - 0)%nat; reflexivity)); rewrite Nat2Z.inj_succ; unfold Z.succ; rewrite inject_Z_plus; change (inject_Z 1) with 1%Q; lra.
  - intros i _. split; [reflexivity|exists 1; reflexivity].
  - intros [V _]. destruct (V _ (or_introl eq_refl) 0%Q 1%nat) as (np & H). unfold moved_by at 2 in H. rewrite (sum_const _ 0) in H; [vm_compute in H; apply H; reflexivity|].
    intros m _. unfold end_of, both, times, both_times. cbn [vertices nth_error e_src]. rewrite unit_start. replace (exec_duration _ m) with 1%Q by (unfold exec_duration, cyclic; cbn; destruct (m - 0)%nat; reflexivity).
    destruct (Qle_bool _ 0) eqn:E; [|reflexivity]. exfalso. apply Qle_bool_iff in E. assert (X : (0 <= inject_Z (Z.of_nat m))%Q) by (change 0%Q with (inject_Z 0); rewrite <- Zle_Qle; lia). lra.
Qed.
Print Assumptions C123_two_starters_refuted.

(** Executions that overlap are not seen: the producer starts every unit of time and takes two. *)
Definition fast := mkGraph [mkVertex 1 1 0 [2%Q] [] 1; mkVertex 2 1 0 [1%Q] [] 1] [mkEdge 1 0 1 [1] [1] [] [] 1; mkEdge 2 0 1 [1] [1] [] [] 1].
Definition fast_times (i : nat) : given := match i with O => mkGiven [] 1 [0%Q] | _ => mkGiven [] 1 [1%Q] end.
Theorem C123_overlap_refuted : exists g N max_id order s Omega fuel, checkable g max_id order s /\ (forall i, In i order -> 0 < N i) /\ balanced g N /\ one_starter order s /\ same_pace order N Omega s /\
  is_valid_schedule fuel g N max_id order s = Ok true /\ ~ schedule_valid g (times s).
Proof.
  exists fast, ones, 3, [0%nat; 1%nat], fast_times, 1%Q, 50%nat. split; [|split; [reflexivity|split; [intros c [<-|[<-|[]]]; reflexivity|split; [|split; [|split; [vm_compute; reflexivity|]]]]]].
  - constructor.
    + split; [|split].
      * intros v [<-|[<-|[]]]; (split; [cbn; lia|]; split; [reflexivity|]; split; [reflexivity|]; intros x [<-|[]]; discriminate).
      * intros c [<-|[<-|[]]]; (eexists; eexists; split; [reflexivity|]; split; [reflexivity|]; split; [reflexivity|]; split; [reflexivity|]; split; [reflexivity|]; split; [reflexivity|]; split; [intros x Hx; cbn in Hx; lia|cbn; lia]).
      * repeat constructor; cbn; lia.
    + intros v [<-|[<-|[]]]; reflexivity.
    + intros v [<-|[<-|[]]]; reflexivity.
    + unfold distinct_channels. cbn. repeat constructor; cbn; lia.
    + intros v x [<-|[<-|[]]] [<-|[]]; reflexivity.
    + intros v [<-|[<-|[]]]; reflexivity.
    + cbn. lia.
    + intros v [<-|[<-|[]]]; reflexivity.
    + apply Permutation_refl.
    + intros i [<-|[<-|[]]]; discriminate.
    + intros i [<-|[<-|[]]]; vm_compute; discriminate.
    + exists 0%nat. split; [left; reflexivity|reflexivity].
  - intros i j [<-|[<-|[]]] [<-|[<-|[]]] A B; try reflexivity; vm_compute in A, B; discriminate.
  - intros i [<-|[<-|[]]]; (split; [reflexivity|exists 1; reflexivity]).
  - intros [_ S]. specialize (S 0%nat _ eq_refl 0%nat). vm_compute in S. apply S. reflexivity.
Qed.
Print Assumptions C123_overlap_refuted.

(** Several phases: a start at the very end of the previous execution is charged with the rate of the
    previous phase.  The schedule below is valid and refused. *)
Definition phased := mkGraph [mkVertex 1 1 0 [2%Q] [] 1; mkVertex 2 2 0 [1%Q; 1%Q] [] 1] [mkEdge 1 0 1 [1] [1; 0] [] [] 1; mkEdge 2 0 1 [1] [1; 0] [] [] 1].
Definition phased_times (i : nat) : given := match i with O => mkGiven [] 2 [0%Q] | _ => mkGiven [] 2 [0%Q; 1%Q] end.
Lemma phased_second m : (start_time (phased_times 1) m == inject_Z (Z.of_nat m))%Q.
Proof.
  unfold start_time. cbn [phased_times g_initial g_period g_periodic length]. cbn [Nat.ltb Nat.leb]. rewrite Nat.sub_0_r.
  pose proof (Nat.div_mod m 2 ltac:(lia)) as Dm. pose proof (Nat.mod_upper_bound m 2 ltac:(lia)) as Um. rewrite Dm at 3. rewrite Nat2Z.inj_add, Nat2Z.inj_mul, inject_Z_plus, inject_Z_mult. change (inject_Z (Z.of_nat 2)) with 2%Q.
  destruct (m mod 2)%nat as [|[|r]]; [| |lia]; cbn [nth]; [change (inject_Z (Z.of_nat 0)) with 0%Q|change (inject_Z (Z.of_nat 1)) with 1%Q]; lra.
Qed.
Lemma phased_consumed : forall m, sumf (fun k => nth (k mod 2) [1; 0] 0) m = Z.of_nat ((m + 1) / 2).
Proof.
  induction m as [|m IH]; [reflexivity|]. cbn [sumf]. rewrite IH. pose proof (Nat.div_mod m 2 ltac:(lia)) as Dm. pose proof (Nat.mod_upper_bound m 2 ltac:(lia)) as Um. destruct (m mod 2)%nat as [|[|r]]; [| |lia]; cbn [nth].
  - assert (E1 : ((m + 1) / 2 = m / 2)%nat) by (symmetry; apply (Nat.div_unique (m + 1) 2 (m / 2) 1); lia). assert (E2 : ((S m + 1) / 2 = m / 2 + 1)%nat) by (symmetry; apply (Nat.div_unique (S m + 1) 2 (m / 2 + 1) 0); lia). lia.
  - assert (E1 : ((m + 1) / 2 = m / 2 + 1)%nat) by (symmetry; apply (Nat.div_unique (m + 1) 2 (m / 2 + 1) 0); lia). assert (E2 : ((S m + 1) / 2 = m / 2 + 1)%nat) by (symmetry; apply (Nat.div_unique (S m + 1) 2 (m / 2 + 1) 1); lia). lia.
Qed.
Theorem C123_phases_refuted : exists g N max_id order s Omega fuel, graph_wf g /\ no_init g /\ takes_time g /\ (forall v, In v (vertices g) -> v_reentrancy v = 1) /\ balanced g N /\ same_pace order N Omega s /\
  is_valid_schedule fuel g N max_id order s = Ok false /\ schedule_valid g (times s).
Proof.
  exists phased, ex_counts, 3, [0%nat; 1%nat], phased_times, 2%Q, 50%nat. split; [|split; [|split; [|split; [|split; [|split; [|split; [vm_compute; reflexivity|]]]]]]].
  - split; [|split].
    + intros v [<-|[<-|[]]]; (split; [cbn; lia|]; split; [reflexivity|]; split; [reflexivity|]; intros x Hx; cbn in Hx; intuition (subst; discriminate)).
    + intros c [<-|[<-|[]]]; (eexists; eexists; split; [reflexivity|]; split; [reflexivity|]; split; [reflexivity|]; split; [reflexivity|]; split; [reflexivity|]; split; [reflexivity|]; split; [intros x Hx; cbn in Hx; lia|cbn; lia]).
    + repeat constructor; cbn; lia.
  - intros v [<-|[<-|[]]]; reflexivity.
  - intros v x [<-|[<-|[]]] Hx; cbn in Hx; intuition (subst; reflexivity).
  - intros v [<-|[<-|[]]]; reflexivity.
  - intros c [<-|[<-|[]]]; reflexivity.
  - intros i [<-|[<-|[]]]; (split; [reflexivity|exists 1; reflexivity]).
  - split.
    + assert (K : forall c, e_src c = 0%nat -> e_dst c = 1%nat -> e_preload c = 1 -> e_in c = [1] -> e_out c = [1; 0] -> e_in_init c = [] -> e_out_init c = [] -> channel_valid phased (times phased_times) c).
      { intros c E1 E2 E3 E4 E5 E6 E7 t nc. rewrite E1, E2, E3. unfold prod_rate, cons_rate. rewrite E4, E5, E6, E7.
        assert (Cn : exists k, (k = 0%nat \/ (inject_Z (Z.of_nat (k - 1)) <= t)%Q) /\ moved_by (start_of (times phased_times) 1) (cyclic 0 [] [1; 0]) nc t <= Z.of_nat ((k + 1) / 2)).
        { induction nc as [|nc (k & Hk & Mk)]; [exists 0%nat; split; [left; reflexivity|cbn; lia]|]. unfold moved_by in *. cbn [sumf]. destruct (Qle_bool (start_of (times phased_times) 1 nc) t) eqn:E; [|exists k; split; [exact Hk|lia]].
          exists (S nc). pose proof E as E'. apply Qle_bool_iff in E'. unfold start_of, times in E'. rewrite phased_second in E'. split; [right; replace (S nc - 1)%nat with nc by lia; exact E'|]. rewrite <- phased_consumed. cbn [sumf].
          assert (X : forall n, (n <= nc)%nat -> sumf (fun m => if Qle_bool (start_of (times phased_times) 1 m) t then cyclic 0 [] [1; 0] m else 0) n = sumf (fun k => nth (k mod 2) [1; 0] 0) n).
          { induction n as [|n IHn]; intros Hn; [reflexivity|]. cbn [sumf]. rewrite IHn by lia. f_equal. unfold cyclic. cbn [length Nat.ltb Nat.leb]. rewrite Nat.sub_0_r.
            assert (Y : Qle_bool (start_of (times phased_times) 1 n) t = true); [|rewrite Y; reflexivity]. apply Qle_bool_iff. unfold start_of, times. rewrite phased_second. assert (Z : (inject_Z (Z.of_nat n) <= inject_Z (Z.of_nat nc))%Q) by (rewrite <- Zle_Qle; lia). lra. }
          rewrite (X nc (le_n _)). unfold cyclic. cbn [length Nat.ltb Nat.leb]. rewrite Nat.sub_0_r. lia. }
        destruct Cn as (k & Hk & Mk). destruct Hk as [->|Hk]; [exists 0%nat; unfold moved_by at 2; cbn [sumf]; cbn in Mk; lia|].
        exists ((k + 1) / 2 - 1)%nat. assert (P : moved_by (end_of (times phased_times) phased 0) (cyclic 0 [] [1]) ((k + 1) / 2 - 1) t = 1 * Z.of_nat ((k + 1) / 2 - 1)).
        { unfold moved_by. apply sum_const. intros m Hm. assert (Y : Qle_bool (end_of (times phased_times) phased 0 m) t = true).
          { apply Qle_bool_iff. unfold end_of, phased, times, phased_times. cbn [vertices nth_error]. rewrite unit_start. replace (exec_duration _ m) with 2%Q by (unfold exec_duration, cyclic; cbn; destruct (m - 0)%nat; reflexivity).
            assert (L : (2 * (m + 1) <= k - 1)%nat) by (pose proof (Nat.mul_div_le (k + 1) 2 ltac:(lia)); lia). assert (Z : (inject_Z (Z.of_nat (2 * (m + 1))) <= inject_Z (Z.of_nat (k - 1)))%Q) by (rewrite <- Zle_Qle; lia).
            rewrite Nat2Z.inj_mul, Nat2Z.inj_add, inject_Z_mult, inject_Z_plus in Z. change (inject_Z (Z.of_nat 2)) with 2%Q in Z. change (inject_Z (Z.of_nat 1)) with 1%Q in Z. lra. }
          rewrite Y. unfold cyclic. cbn. destruct (m - 0)%nat; reflexivity. }
        rewrite P. lia. }
      intros c [<-|[<-|[]]]; apply K; reflexivity.
    + intros [|[|i]] v E m; cbn in E; [| |destruct i; discriminate]; injection E as <-; unfold start_of, times.
      * unfold phased_times. rewrite !unit_start. replace (exec_duration _ m) with 2%Q by (unfold exec_duration, cyclic; cbn; destruct (m - 0)%nat; reflexivity). rewrite Nat2Z.inj_succ. unfold Z.succ. rewrite inject_Z_plus. change (inject_Z 1) with 1%Q. lra.
      * rewrite !phased_second. assert (D : exec_duration (mkVertex 2 2 0 [1%Q; 1%Q] [] 1) m = 1%Q).
        { unfold exec_duration, cyclic. cbn [v_init_durations v_durations length Nat.ltb Nat.leb]. pose proof (Nat.mod_upper_bound (m - 0) 2 ltac:(lia)). destruct ((m - 0) mod 2)%nat as [|[|r]]; [reflexivity|reflexivity|lia]. }
        rewrite D. rewrite Nat2Z.inj_succ. unfold Z.succ. rewrite inject_Z_plus. change (inject_Z 1) with 1%Q. lra.
Qed.
Print Assumptions C123_phases_refuted.

(** The check of a graph with one task reads the first entry of an empty map; with fewer channels than
    tasks, a task identifier can exceed the vectors. *)
Definition alone := mkGraph [mkVertex 1 1 0 [1%Q] [] 1] [mkEdge 1 0 0 [1] [1] [] [] 1].
Lemma exec_one m : exec_duration (mkVertex 1 1 0 [1%Q] [] 1) m = 1%Q.
Proof. unfold exec_duration, cyclic. cbn. destruct (m - 0)%nat; reflexivity. Qed.
Lemma rate_one m : cyclic 0 [] [1] m = 1.
Proof. unfold cyclic. cbn. destruct (m - 0)%nat; reflexivity. Qed.
Theorem C123_defined_refuted :
  (exists g fuel s, graph_wf g /\ balanced g ones /\ schedule_valid g (times s) /\ (forall v, In v (vertices g) -> v_id v < 2) /\ is_valid_schedule fuel g ones 2 [0%nat] s = Undefined) /\
  (forall fuel g N max_id order s v, In v (vertices g) -> max_id <= v_id v -> is_valid_schedule fuel g N max_id order s = Undefined).
Proof.
  split.
  - exists alone, 50%nat, both_times. split; [|split; [intros c [<-|[]]; reflexivity|split; [|split; [|vm_compute; reflexivity]]]].
    + split; [|split; [|repeat constructor; cbn; lia]].
      * intros v [<-|[]]. split; [cbn; lia|]. split; [reflexivity|]. split; [reflexivity|]. intros x [<-|[]]; discriminate.
      * intros c [<-|[]]; (eexists; eexists; split; [reflexivity|]; split; [reflexivity|]; split; [reflexivity|]; split; [reflexivity|]; split; [reflexivity|]; split; [reflexivity|]; split; [intros x Hx; cbn in Hx; lia|cbn; lia]).
    + split.
      * intros c [<-|[]] t nc. exists (nc - 1)%nat. unfold prod_rate, cons_rate, moved_by. cbn [e_src e_dst e_in e_out e_in_init e_out_init e_preload]. destruct nc as [|nc]; [cbn; lia|]. replace (S nc - 1)%nat with nc by lia.
        induction nc as [|nc IH]; [cbn [sumf]; rewrite rate_one; destruct (Qle_bool _ t); lia|]. set (f := fun m => if Qle_bool (start_of (times both_times) 0 m) t then cyclic 0 [] [1] m else 0) in *. set (h := fun m => if Qle_bool (end_of (times both_times) alone 0 m) t then cyclic 0 [] [1] m else 0) in *.
        change (sumf f (S (S nc))) with (sumf f (S nc) + f (S nc)). change (sumf h (S nc)) with (sumf h nc + h nc). enough (f (S nc) = h nc) by lia. unfold f, h. rewrite !rate_one.
        unfold end_of, start_of, alone, times, both_times. cbn [vertices nth_error]. rewrite exec_one, !unit_start. assert (E : (0 + 1 * inject_Z (Z.of_nat (S nc)) == 0 + 1 * inject_Z (Z.of_nat nc) + 1)%Q) by (rewrite Nat2Z.inj_succ; unfold Z.succ; rewrite inject_Z_plus; change (inject_Z 1) with 1%Q; lra). rewrite E. reflexivity.
      * intros [|i] v E m; cbn in E; [|destruct i; discriminate]; injection E as <-; unfold start_of, times, both_times; rewrite !unit_start, exec_one. rewrite Nat2Z.inj_succ. unfold Z.succ. rewrite inject_Z_plus. change (inject_Z 1) with 1%Q. lra.
    + intros v [<-|[]]; reflexivity.
  - intros fuel g N max_id order s v Hv L. unfold is_valid_schedule. assert (E : existsb (fun v => max_id <=? v_id v) (vertices g) = true) by (apply existsb_exists; exists v; split; [exact Hv|apply Z.leb_le; exact L]). rewrite E. reflexivity.
Qed.
Print Assumptions C123_defined_refuted.
