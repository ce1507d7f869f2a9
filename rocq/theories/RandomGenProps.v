(** C102, C103: the random generator. *)
From Coq Require Import QArith Permutation.
From Verif Require Import Base Graph KPeriodic ScheduleSpec KPeriodicProps KIterSpec KIter KIterLoop KIterProps RepVec RepVecSpec RepVecProofs RepVecProps SymbExecSpec SimSpec RandomGen RandomGenSpec RandomGenProofs RandomGenMarking RandomGenLoop.
Open Scope Z_scope.

(** The graph drawn respects the configuration and is well formed. *)
Theorem C102_fits : forall rnd fuel cf g, random_structure rnd fuel cf = Ok g -> graph_fits cf g /\ graph_wf g.
Proof. intros rnd fuel cf g E. split; [|exact (structure_wf rnd fuel cf g E)]. destruct (structure_parts rnd fuel cf g E) as (ws & _ & _ & _ & F & _). exact F. Qed.
Print Assumptions C102_fits.

(** It is always consistent: the rates have a repetition vector. *)
Theorem C102_consistent : forall rnd fuel cf g, random_structure rnd fuel cf = Ok g ->
  exists N, compute_repetition_vector (length (vertices g)) g = Ok (Some N).
Proof. exact structure_consistent. Qed.
Print Assumptions C102_consistent.

(** Every acceptable configuration gives a graph, unless the stream draws the source of a
    channel for ever as its target. *)
Theorem C102_answers : forall rnd fuel cf, acceptable cf -> (cf_no_self_loop cf = true -> varied rnd fuel) -> exists g, random_structure rnd fuel cf = Ok g.
Proof. exact structure_total. Qed.
Print Assumptions C102_answers.

(** The configurations the assertions let through but that give no graph: no task or no
    channel, whatever the stream; one task without self-loop. *)
Theorem C102_empty_refuted : forall rnd fuel cf, (cf_max_vertices cf < 1 \/ cf_max_edges cf < 1) -> forall g, random_structure rnd fuel cf <> Ok g.
Proof.
  intros rnd fuel cf H g E. destruct (structure_parts rnd fuel cf g E) as (ws & _ & _ & _ & (F1 & F2 & _) & L1 & L2). lia.
Qed.
Print Assumptions C102_empty_refuted.
Theorem C102_undefined_refuted : exists cf, 0 <= cf_min_vertices cf <= cf_max_vertices cf /\ 0 <= cf_min_edges cf <= cf_max_edges cf /\ forall rnd fuel, random_structure rnd fuel cf = Undefined.
Proof.
  exists (mkConfig 1 1 0 0 10 1 1 0 false true). split; [cbn; lia|]. split; [cbn; lia|]. intros rnd fuel. unfold random_structure, pick. cbn. change (1 - 1 + 1) with 1. change (0 - 0 + 1) with 1. rewrite !Z.mod_1_r. reflexivity.
Qed.
Print Assumptions C102_undefined_refuted.
Theorem C102_lonely_task_rejected : forall rnd fuel cf g, cf_no_self_loop cf = true -> cf_max_vertices cf < 2 -> random_structure rnd fuel cf <> Ok g.
Proof.
  intros rnd fuel cf g NS M E. destruct (structure_parts rnd fuel cf g E) as (ws & Lw & _ & Fc & (F1 & _) & L1 & L2). destruct (edges g) as [|c es] eqn:Ee; [cbn in L2; lia|].
  destruct (Fc c (or_introl eq_refl)) as ((_ & _ & _ & _ & _ & D) & _ & src & dst & V1 & V2 & _). apply (D NS).
  assert (A : (e_src c < length (vertices g))%nat) by (apply nth_error_Some; congruence). assert (B : (e_dst c < length (vertices g))%nat) by (apply nth_error_Some; congruence). lia.
Qed.
Print Assumptions C102_lonely_task_rejected.
(** The drawing of a target has no bound of its own. *)
Theorem C102_redraw_unbounded_refuted : exists rnd, forall fuel, random_structure rnd fuel default_config = Timeout.
Proof.
  exists (fun _ => 0). intros fuel.
  assert (R : forall f n p, 1 <= n -> redraw (fun _ => 0) f n 1 1 p = Timeout).
  { induction f as [|f IH]; intros n p Hn; cbn [redraw]; [reflexivity|]. unfold pick. rewrite (proj2 (Z.ltb_ge n 1)) by lia. cbn [bind fst snd]. rewrite Z.mod_0_l by lia. apply IH. exact Hn. }
  unfold random_structure. set (red := redraw) in *.
  assert (C : forall vs ws i p, 2 <= Z.of_nat (length vs) -> new_channel (fun _ => 0) fuel default_config vs ws i p = Timeout).
  { intros vs ws i p Hl. unfold new_channel, pick. rewrite (proj2 (Z.ltb_ge (Z.of_nat (length vs)) 1)) by lia. cbn [bind fst snd default_config cf_no_self_loop]. rewrite !Z.mod_0_l by lia. change (1 + 0) with 1.
    unfold cassert. rewrite (proj2 (Z.ltb_lt 1 (Z.of_nat (length vs)))) by lia. cbn [negb orb bind]. rewrite R by lia. reflexivity. }
  cbn -[new_channels new_tasks]. change (Pos.to_nat 15) with (S 14). cbn [new_channels].
  destruct (new_tasks (fun _ => 0) default_config (Pos.to_nat 10) 1 2) as [ts| | |] eqn:E; [|vm_compute in E; discriminate..]. cbn [bind]. rewrite C; [reflexivity|].
  vm_compute in E. injection E as <-. cbn. lia.
Qed.
Print Assumptions C102_redraw_unbounded_refuted.

Example C102_defaults : acceptable default_config /\ acceptable sdf_config.
Proof. unfold acceptable, default_config, sdf_config; cbn; intuition lia. Qed.
Example C102_varied : varied Z.of_nat 2.
Proof.
  intros n s p Hn. destruct (Z.eq_dec (1 + Z.of_nat (p + 0) mod n) s) as [E|E]; [exists 1%nat|exists 0%nat; split; [lia|exact E]]. split; [lia|].
  rewrite <- E. replace (Z.of_nat (p + 1)) with (Z.of_nat p + 1) by lia. replace (p + 0)%nat with p by lia. pose proof (Z.div_mod (Z.of_nat p) n ltac:(lia)). pose proof (Z.div_mod (Z.of_nat p + 1) n ltac:(lia)).
  intros F. assert (G : (Z.of_nat p + 1) mod n = Z.of_nat p mod n) by lia. rewrite G in H0. assert (n * ((Z.of_nat p + 1) / n - Z.of_nat p / n) = 1) by lia. apply Z.eq_mul_1 in H1. lia.
Qed.
Example C102_case : match random_structure (fun p => Z.of_nat (p * p + 3 * p)) 50 sdf_config with Ok g => (length (vertices g), length (edges g)) = (10, 24)%nat | _ => False end.
Proof. vm_compute. reflexivity. Qed.

(** The marking of a consistent graph ends and leaves it live; only initial tokens change,
    channel by channel within a bound, and none at all on a graph already live.  The tokens
    last added were needed. *)
Theorem C103_marking : forall solve arrange rounds g N, (forall l, Permutation (arrange l) l) -> exact_solver solve ->
  (forall g' n, (S (Z.to_nat (sumf (cycles g' n) (length (vertices g')))) <= rounds g' n)%nat) ->
  graph_wf g -> no_init g -> no_overlap g -> no_lonely_phases g -> edge_ids_ok g -> vertices g <> [] -> positive_durations g ->
  compute_repetition_vector (length (vertices g)) g = Ok (Some N) ->
  exists g' enough, (forall fuel, (enough <= fuel)%nat -> set_initial_marking solve arrange rounds fuel g = Ok g') /\
    more_tokens g g' /\ live g' (as_vector N) /\ (live g (as_vector N) -> g' = g) /\
    (forall c', In c' (edges g') -> exists c, In c (edges g) /\ e_id c = e_id c' /\ e_preload c' <= token_bound g (as_vector N) c) /\
    (g' = g \/ exists c f, In c (edges g') /\ fine_gcd c = Ok f /\ 0 < f <= e_preload c /\ ~ live (set_preload g' c (e_preload c - f)) (as_vector N)).
Proof. exact marking_thm. Qed.
Print Assumptions C103_marking.

(** Every graph the generator returns for such a configuration is live, and it returns one. *)
Theorem C103_generated_live : forall solve arrange rounds rnd fuel0 cf g0, (forall l, Permutation (arrange l) l) -> exact_solver solve ->
  (forall g' n, (S (Z.to_nat (sumf (cycles g' n) (length (vertices g')))) <= rounds g' n)%nat) ->
  cf_max_phases cf = 1 -> cf_max_init_phases cf = 0 -> cf_no_reentrancy cf = false -> random_structure rnd fuel0 cf = Ok g0 ->
  exists g N enough, (forall fuel, (enough <= fuel)%nat -> generate solve arrange rounds rnd fuel cf = Ok g) /\ more_tokens g0 g /\
    compute_repetition_vector (length (vertices g)) g = Ok (Some N) /\ live g (as_vector N).
Proof. exact generated_thm. Qed.
Print Assumptions C103_generated_live.

(** Exact solvers exist: trying every simple circuit is one. *)
Theorem C103_exact_solver_exists : exact_solver try_all.
Proof. exact try_all_exact. Qed.
Print Assumptions C103_exact_solver_exists.

(** A run: two tasks, three channels; tokens are added until the graph is live. *)
Definition demo_rounds (g : graph) (n : nat -> Z) : nat := S (Z.to_nat (sumf (cycles g n) (length (vertices g)))).
Definition demo_config : config := mkConfig 2 2 2 2 3 4 1 0 false true.
Definition demo_draws (p : nat) : Z := nth p [0;0; 0;0;1;1; 0;0;2;0; 0;1;0;0;0; 1;0;0;0;0] 0.
Definition demo_graph : outcome graph := generate try_all (fun l => l) demo_rounds demo_draws 9 demo_config.
Example C103_run : exists g, random_structure demo_draws 9 demo_config = Ok g /\ map e_preload (edges g) = [0; 0] /\ compute_repetition_vector 2 g = Ok (Some [1; 2]) /\
  exists g', demo_graph = Ok g' /\ map e_preload (edges g') = [0; 2].
Proof. eexists. split; [vm_compute; reflexivity|]. split; [reflexivity|]. split; [vm_compute; reflexivity|]. eexists. split; [vm_compute; reflexivity|reflexivity]. Qed.
