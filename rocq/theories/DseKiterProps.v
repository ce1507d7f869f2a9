(** Properties C114, C115 and C116: the exploration with K-Iter as the evaluation. *)
From Coq Require Import QArith Qreduction Lqa Permutation Sorted.
From Verif Require Import Base Graph ScheduleSpec KPeriodic KPeriodicProps EventGraphSpec KIter KIterSpec KIterProofs KIterLoop KIterFinal KIterProps SimSpec
  Storage StorageSpec StorageProofs Dse DseSpec DseProofs DseProps DseKiterSpec DseKiterProofs RandomGenSpec RandomGenLoop RoomEnough DseEndsProofs DseKiterEnds.
Open Scope Z_scope.

(** ** C114 *)
(** The critical channels K-Iter returns are to blame: whatever happens to the other channels of
    the graph - more tokens, channels removed - no schedule is faster as long as the critical
    channels keep no more tokens than they had. *)
Theorem C114_critical_channels_to_blame : forall solve arrange var g N fuel r K cs, (forall l, Permutation (arrange l) l) ->
  graph_wf g -> balanced g N -> no_init g -> no_overlap g -> whole_cycles g N -> edge_ids_ok g ->
  (iteration_bound g N <= fuel)%nat -> kiter solve arrange fuel var g N = Ok (r, K, cs) -> exact_answer cs (solve cs) ->
  forall g' s omega, vertices g' = vertices g ->
    (forall c, In c (kr_critical r) -> exists c', In c' (edges g') /\ no_easier c' c) ->
    schedule_valid g' s -> non_zeno g' s -> keeps_pace g' N s omega -> (0 < kr_throughput r)%Q /\ (/ kr_throughput r <= omega)%Q.
Proof. exact blame. Qed.
Print Assumptions C114_critical_channels_to_blame.

(** ** C115 *)
(** On the distributions explored, K-Iter is a sound evaluation. *)
Theorem C115_sound_evaluation : forall solve arrange fuel var g N step init thr critical, (forall l, Permutation (arrange l) l) ->
  explorable g N step init -> (iteration_bound g N <= fuel)%nat -> kiter_evaluates solve arrange fuel var g N step init thr critical ->
  sound_evaluation (all_ids g) (Z.of_nat (length (edges g))) step init thr critical.
Proof.
  intros solve arrange fuel var g N step init thr critical AR [WF BA NI NO WC IDS CL FD ST] FU EV.
  exact (kiter_sound g N step init WF BA NI NO WC IDS CL FD ST solve arrange fuel var thr critical AR FU EV).
Qed.
Print Assumptions C115_sound_evaluation.
(** With an exact solver and tasks that take time, K-Iter always evaluates. *)
Theorem C115_evaluates : forall solve arrange fuel var g N step init, (forall l, Permutation (arrange l) l) -> exact_solver solve ->
  explorable g N step init -> vertices g <> [] -> positive_durations g -> (iteration_bound g N <= fuel)%nat ->
  kiter_evaluates solve arrange fuel var g N step init (kiter_thr solve arrange fuel var g N) (kiter_critical solve arrange fuel var g N).
Proof.
  intros solve arrange fuel var g N step init AR XS [WF BA NI NO WC IDS CL FD ST] NE PD FU.
  exact (kiter_evaluates_exact g N step init WF BA NI NO WC IDS CL FD ST solve arrange fuel var AR XS NE PD FU).
Qed.
Print Assumptions C115_evaluates.
(** The answers are the true trade-off between storage and throughput: each answer of positive
    throughput has a schedule at that pace within its capacities and none faster, each answer of
    throughput zero has none, and a schedule within the capacities of any distribution of the grid is
    no faster than an answer no larger, unless the target is reached with less. *)
Theorem C115_true_frontier : forall solve arrange fuel var g N step init thr critical target rounds r, (forall l, Permutation (arrange l) l) ->
  explorable g N step init -> (iteration_bound g N <= fuel)%nat -> kiter_evaluates solve arrange fuel var g N step init thr critical -> (0 < target)%Q ->
  exploration rounds thr critical (Z.of_nat (length (edges g))) step target (all_ids g) init = Ok r ->
  pareto r /\
  (forall x, In x (flat r) ->
     (sd_thr x == 0)%Q /\ (forall e, In e (all_ids g) -> quantity x e = 0) \/
     (sd_thr x == 0)%Q /\ (forall s omega, bounded_valid g (Some (buffers g x)) s -> non_zeno g s -> ~ keeps_pace g N s omega) \/
     (0 < sd_thr x)%Q /\
     (exists s, bounded_valid g (Some (buffers g x)) s /\ non_zeno g s /\ keeps_pace g N s (/ sd_thr x)) /\
     (forall s omega, bounded_valid g (Some (buffers g x)) s -> non_zeno g s -> keeps_pace g N s omega -> (/ sd_thr x <= omega)%Q)) /\
  (forall b s omega, on_grid (all_ids g) (Z.of_nat (length (edges g))) step init b -> bounded_valid g (Some (buffers g b)) s -> non_zeno g s -> keeps_pace g N s omega ->
     exists x, In x (flat r) /\ sd_size x <= sd_size b /\ (0 < sd_thr x)%Q /\ ((/ sd_thr x <= omega)%Q \/ (target <= sd_thr x)%Q)).
Proof.
  intros solve arrange fuel var g N step init thr critical target rounds r AR X FU EV T0 H.
  pose proof (C115_sound_evaluation solve arrange fuel var g N step init thr critical AR X FU EV) as SE. destruct X as [WF BA NI NO WC IDS CL FD ST].
  destruct (C59_pareto_frontier (all_ids g) (Z.of_nat (length (edges g))) step init thr critical target rounds r CL (proj1 FD) (step_pos g step IDS ST) SE T0 (proj1 (proj2 FD)) H) as (P & A & B).
  pose proof (load_meaning g N step init WF BA NI NO WC IDS CL FD ST solve arrange fuel var thr critical AR FU EV) as M.
  split; [exact P|]. split.
  - intros x Hx. destruct (A x Hx) as [[G Ex]|[Z Ex]]; [|left; split; [exact Ex|exact Z]]. right. destruct (M x G) as [M1 M2].
    destruct (Qlt_le_dec 0 (thr x)) as [Pq|Pq].
    + right. assert (Ec : (sd_thr x == thr x)%Q).
      { rewrite Ex. unfold clamp. destruct (Qle_bool 0 (thr x)) eqn:L; cbn [negb]; [reflexivity|]. assert (Qle_bool 0 (thr x) = true) by (apply Qle_bool_iff; lra). congruence. }
      destruct (M1 Pq) as [(s & SV & NZ & C & KP) O]. split; [lra|]. split.
      * exists s. split; [exact SV|]. split; [exact NZ|]. exists C. intros i m Hi. rewrite Ec. apply KP, Hi.
      * intros s' omega SV' NZ' KP'. rewrite Ec. eauto.
    + left. split; [|exact (M2 Pq)]. rewrite Ex. unfold clamp. destruct (Qle_bool 0 (thr x)) eqn:L; cbn [negb]; [|reflexivity]. apply Qle_bool_iff in L. lra.
  - intros b s omega G SV NZ KP. destruct (B b G) as (x & Hx & Sz & Or). exists x. split; [exact Hx|]. split; [exact Sz|].
    destruct (M b G) as [M1 M2]. destruct (Qlt_le_dec 0 (thr b)) as [Pb|Pb]; [|destruct (M2 Pb s omega SV NZ KP)].
    destruct Or as [L|L]; [|split; [lra|right; exact L]]. assert (Px : (0 < sd_thr x)%Q) by lra. split; [exact Px|]. left. destruct (M1 Pb) as [_ O].
    eapply Qle_trans; [|apply (O s omega SV NZ KP)]. apply Qle_shift_inv_r; [exact Px|]. rewrite Qmult_comm. apply Qle_shift_div_l; [exact Pb|]. lra.
Qed.
Print Assumptions C115_true_frontier.

(** ** C116 *)
(** Without a user-given target - the target is what K-Iter answers on the graph with unbounded
    channels - the exploration ends, one answer reaches the target, and the answers are the true trade-off. *)
Theorem C116_complete_exploration : forall solve arrange fuel var g N step init thr critical r0 K0 cs0, (forall l, Permutation (arrange l) l) ->
  explorable g N step init -> (iteration_bound g N <= fuel)%nat -> kiter_evaluates solve arrange fuel var g N step init thr critical ->
  kiter solve arrange fuel var g N = Ok (r0, K0, cs0) -> exact_answer cs0 (solve cs0) -> (0 < kr_throughput r0)%Q ->
  exists F, forall rounds, (F <= rounds)%nat -> exists r, exploration rounds thr critical (Z.of_nat (length (edges g))) step (kr_throughput r0) (all_ids g) init = Ok r /\
    pareto r /\
    (exists x, In x (flat r) /\ (sd_thr x == kr_throughput r0)%Q) /\
    (forall x, In x (flat r) -> (0 < sd_thr x)%Q ->
       (exists s, bounded_valid g (Some (buffers g x)) s /\ non_zeno g s /\ keeps_pace g N s (/ sd_thr x)) /\
       (forall s omega, bounded_valid g (Some (buffers g x)) s -> non_zeno g s -> keeps_pace g N s omega -> (/ sd_thr x <= omega)%Q)) /\
    (forall b s omega, on_grid (all_ids g) (Z.of_nat (length (edges g))) step init b -> bounded_valid g (Some (buffers g b)) s -> non_zeno g s -> keeps_pace g N s omega ->
       exists x, In x (flat r) /\ sd_size x <= sd_size b /\ (0 < sd_thr x)%Q /\ (/ sd_thr x <= omega)%Q).
Proof.
  intros solve arrange fuel var g N step init thr critical r0 K0 cs0 AR X FU EV Hk He T0. set (target := kr_throughput r0) in *.
  pose proof (C115_sound_evaluation solve arrange fuel var g N step init thr critical AR X FU EV) as SE.
  pose proof (fun rounds r => C115_true_frontier solve arrange fuel var g N step init thr critical target rounds r AR X FU EV T0) as TF.
  destruct X as [WF BA NI NO WC IDS CL FD ST].
  assert (ID : edge_ids_ok g).
  { split; [|intros c Hc; apply IDS, Hc]. apply sorted_nodup in CL. unfold all_ids, with_feedback in CL. cbn [edges] in CL. rewrite map_app in CL. exact (nodup_left _ _ CL). }
  destruct (kiter_optimal solve arrange var g N fuel r0 K0 cs0 AR WF BA NI NO WC ID FU Hk He) as [A _]. destruct (A T0) as [(s0 & _ & SV0 & KP0) OPT]. clear A. fold target in SV0, KP0, OPT.
  destruct (kiter_some_reach g N step init WF BA NI NO WC IDS CL FD ST solve arrange fuel var thr critical AR FU EV target T0 OPT s0 SV0 KP0) as (b0 & Gb0 & Tb0).
  pose proof (kiter_none_faster g N step init WF BA NI NO WC IDS CL FD ST solve arrange fuel var thr critical AR FU EV target T0 OPT) as NF.
  destruct (C60_terminates_partial (all_ids g) (Z.of_nat (length (edges g))) step init thr critical target b0 CL (proj1 FD) (step_pos g step IDS ST) SE Gb0 Tb0 T0 NF (proj1 (proj2 FD))) as (F & HF).
  exists F. intros rounds Hf. destruct (HF rounds Hf) as (r & Hr). exists r. split; [exact Hr|]. destruct (TF rounds r Hr) as (P & A & B). clear TF HF.
  assert (Le : forall x, In x (flat r) -> (0 < sd_thr x)%Q -> (sd_thr x <= target)%Q).
  { intros x Hx X0. destruct (A x Hx) as [[E _]|[[E _]|(_ & (s & [SV _] & NZ & KP) & _)]]; [lra|lra|]. apply inv_swap; [exact T0|exact X0|]. exact (OPT s _ SV NZ KP). }
  assert (B' : forall b s omega, on_grid (all_ids g) (Z.of_nat (length (edges g))) step init b -> bounded_valid g (Some (buffers g b)) s -> non_zeno g s -> keeps_pace g N s omega ->
       exists x, In x (flat r) /\ sd_size x <= sd_size b /\ (0 < sd_thr x)%Q /\ (/ sd_thr x <= omega)%Q).
  { intros b s omega G SV NZ KP. destruct (B b s omega G SV NZ KP) as (x & Hx & Sz & X0 & [L|L]); exists x; (split; [exact Hx|split; [exact Sz|split; [exact X0|]]]); [exact L|].
    assert (E : (sd_thr x == target)%Q) by (pose proof (Le x Hx X0); lra). rewrite E. exact (OPT s omega (proj1 SV) NZ KP). }
  split; [exact P|]. split; [|split; [|exact B']].
  - destruct (load_meaning g N step init WF BA NI NO WC IDS CL FD ST solve arrange fuel var thr critical AR FU EV b0 Gb0) as [M _].
    destruct (M ltac:(lra)) as [(s & SV & NZ & KP) _]. destruct (B' b0 s _ Gb0 SV NZ KP) as (x & Hx & _ & X0 & L). exists x. split; [exact Hx|].
    apply Qle_antisym; [exact (Le x Hx X0)|]. rewrite <- Tb0. apply inv_swap; [exact X0|lra|exact L].
  - intros x Hx X0. destruct (A x Hx) as [[E _]|[[E _]|(_ & H1 & H2)]]; [lra|lra|split; assumption].
Qed.
Print Assumptions C116_complete_exploration.

(** ** C117 *)
(** Whatever the target the user gives, the exploration with K-Iter ends, and its answers are the
    true trade-off up to that target. *)
Theorem C117_ends_for_any_target : forall solve arrange fuel var g N step init target, (forall l, Permutation (arrange l) l) -> exact_solver solve ->
  explorable g N step init -> vertices g <> [] -> positive_durations g -> (iteration_bound g N <= fuel)%nat -> (0 < target)%Q ->
  exists F, forall rounds, (F <= rounds)%nat -> exists r,
    exploration rounds (kiter_thr solve arrange fuel var g N) (kiter_critical solve arrange fuel var g N) (Z.of_nat (length (edges g))) step target (all_ids g) init = Ok r /\
    pareto r /\
    (forall x, In x (flat r) -> (0 < sd_thr x)%Q ->
       (exists s, bounded_valid g (Some (buffers g x)) s /\ non_zeno g s /\ keeps_pace g N s (/ sd_thr x)) /\
       (forall s omega, bounded_valid g (Some (buffers g x)) s -> non_zeno g s -> keeps_pace g N s omega -> (/ sd_thr x <= omega)%Q)) /\
    (forall b s omega, on_grid (all_ids g) (Z.of_nat (length (edges g))) step init b -> bounded_valid g (Some (buffers g b)) s -> non_zeno g s -> keeps_pace g N s omega ->
       exists x, In x (flat r) /\ sd_size x <= sd_size b /\ (0 < sd_thr x)%Q /\ ((/ sd_thr x <= omega)%Q \/ (target <= sd_thr x)%Q)).
Proof.
  intros solve arrange fuel var g N step init target AR XS X NE PD FU T0.
  pose proof (C115_evaluates solve arrange fuel var g N step init AR XS X NE PD FU) as EV.
  destruct (kiter_total solve arrange fuel var g N step init AR XS X NE PD FU) as (r0 & K0 & cs0 & Hk & He).
  destruct (kiter_ends solve arrange fuel var g N step init _ _ target r0 K0 cs0 AR X NE PD FU EV Hk He T0) as (F & HF).
  exists F. intros rounds L. destruct (HF rounds L) as (r & Hr). exists r. split; [exact Hr|].
  destruct (C115_true_frontier solve arrange fuel var g N step init _ _ target rounds r AR X FU EV T0 Hr) as (P & A & B). split; [exact P|]. split; [|exact B].
  intros x Hx X0. destruct (A x Hx) as [[E _]|[[E _]|(_ & H1 & H2)]]; [lra|lra|split; assumption].
Qed.
Print Assumptions C117_ends_for_any_target.

(** A producer and a consumer twice as slow, a buffer of one place to begin with: one place gives
    one iteration per 3, two places give one per 2, which is the best. *)
Definition two_tasks := mkGraph [mkVertex 1 1 0 [1%Q] [] 1; mkVertex 2 1 0 [2%Q] [] 1] [mkEdge 1 0 1 [1] [1] [] [] 0].
Definition one_place : sd := sd_make 2 0%Q [(1, (0, 0)); (2, (0, 1))] 1.
Example C115_hyp : explorable two_tasks (fun _ => 1) (fun _ => 1) one_place /\ positive_durations two_tasks /\ exact_solver try_all /\
  (iteration_bound two_tasks (fun _ => 1%Z) <= 5)%nat /\
  (exists K cs, kiter try_all (fun l => l) 5 StronglyOptimized two_tasks (fun _ => 1) = Ok (mkResult (1 # 2) [], K, cs)) /\
  exists r, exploration 10 (kiter_thr try_all (fun l => l) 5 StronglyOptimized two_tasks (fun _ => 1)) (kiter_critical try_all (fun l => l) 5 StronglyOptimized two_tasks (fun _ => 1))
    1 (fun _ => 1) (1 # 2)%Q [1; 2] one_place = Ok r /\ map (fun x => (sd_size x, sd_thr x)) (flat r) = [(1, (1 # 3)%Q); (2, (1 # 2)%Q)].
Proof.
  split; [constructor|split; [|split; [exact try_all_exact|split; [vm_compute; lia|split]]]].
  - split; [|split].
    + intros v [<-|[<-|[]]]; (split; [cbn; lia|split; [reflexivity|split; [reflexivity|]]]); intros x [<-|[]]; vm_compute; discriminate.
    + intros c [<-|[]]. eexists. eexists. split; [reflexivity|]. split; [reflexivity|]. repeat (split; [reflexivity|]). split; [|cbn; lia]. intros x [<-|[<-|[]]]; lia.
    + repeat constructor; cbn; intuition discriminate.
  - intros c [<-|[]]. reflexivity.
  - intros v [<-|[<-|[]]]; reflexivity.
  - intros v [<-|[<-|[]]]; cbn; lia.
  - intros i v E. split; [lia|]. destruct i as [|[|i]]; cbn in E; [| |destruct i; discriminate]; injection E as <-; exists 1; reflexivity.
  - intros c [<-|[]]. cbn. lia.
  - cbn. repeat constructor; lia.
  - split; [constructor; reflexivity|]. split; [intros e [<-|[<-|[]]]; vm_compute; discriminate|]. intros [|k] c E; cbn in E; [|destruct k; discriminate]. injection E as <-. split; [reflexivity|vm_compute; discriminate].
  - intros; lia.
  - intros v d [<-|[<-|[]]] [<-|[]]; reflexivity.
  - eexists. eexists. vm_compute. reflexivity.
  - eexists. split; [vm_compute; reflexivity|reflexivity].
Qed.
(** The same graph with a target between the two throughputs: the search passes over it and
    ends when no channel is critical any more. *)
Example C117_hyp : exists r, exploration 10 (kiter_thr try_all (fun l => l) 5 StronglyOptimized two_tasks (fun _ => 1)) (kiter_critical try_all (fun l => l) 5 StronglyOptimized two_tasks (fun _ => 1))
    1 (fun _ => 1) (2 # 5)%Q [1; 2] one_place = Ok r /\ map (fun x => (sd_size x, sd_thr x)) (flat r) = [(1, (1 # 3)%Q); (2, (1 # 2)%Q)].
Proof. eexists. split; [vm_compute; reflexivity|reflexivity]. Qed.
