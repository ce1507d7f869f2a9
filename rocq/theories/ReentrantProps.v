(** C119: K-Iter on graphs with reentrant tasks. *)
From Coq Require Import QArith Lqa Permutation.
From Verif Require Import Base Graph Sim SimSpec ScheduleSpec ScheduleCore KPeriodic KPeriodicSpec KPeriodicMixed KPeriodicGraph KPeriodicEnd KPeriodicProps EventGraph EventGraphSpec
  KIter KIterSpec KIterProofs KIterLoop KIterFinal KIterProps RandomGenLoop ReentrantSpec ReentrantProofs.
Open Scope Z_scope.

(** ** C119: the throughput that K-Iter announces is reached by a schedule when the tasks that may overlap
    themselves have a single phase and the exploration never had to unfold them.
    Missing for the full statement: reentrant tasks that are unfolded (refuted below) or have several phases. *)
Theorem C119_throughput_reached_partial : forall solve arrange var g N fuel r K cs, (forall l, Permutation (arrange l) l) ->
  graph_wf g -> balanced g N -> no_init g -> whole_cycles g N -> edge_ids_ok g ->
  (S (Z.to_nat (sumf (cycles g N) (length (vertices g)))) <= fuel)%nat ->
  kiter solve arrange fuel var g N = Ok (r, K, cs) -> exact_answer cs (solve cs) ->
  (forall i v, nth_error (vertices g) i = Some v -> 0 < v_reentrancy v \/ (v_phases v = 1%nat /\ v_init_phases v = 0%nat /\ K i = 1)) ->
  (0 < kr_throughput r)%Q ->
  exists s, periodic_schedule g N K (/ kr_throughput r) s /\ reentrant_valid g s /\ keeps_pace g N s (/ kr_throughput r).
Proof. exact reentrant_achieved. Qed.
Print Assumptions C119_throughput_reached_partial.

(** Two tasks that both may overlap themselves, with two tokens on either channel of a loop. *)
Definition pair_graph := mkGraph [mkVertex 1 1 0 [1%Q] [] 0; mkVertex 2 1 0 [1%Q] [] 0]
  [mkEdge 1 0 1 [1] [1] [] [] 2; mkEdge 2 1 0 [1] [1] [] [] 2].

Lemma pair_wf : graph_wf pair_graph /\ balanced pair_graph (fun _ => 1) /\ no_init pair_graph /\ whole_cycles pair_graph (fun _ => 1) /\ edge_ids_ok pair_graph.
Proof.
  split; [split; [|split]|split; [|split; [|split]]].
  - intros v [<-|[<-|[]]]; (split; [cbn; lia|split; [reflexivity|split; [reflexivity|]]]); intros x [<-|[]]; vm_compute; discriminate.
  - intros c [<-|[<-|[]]]; eexists; eexists; (split; [reflexivity|]; split; [reflexivity|]; repeat (split; [reflexivity|]); split; [|cbn; lia]; intros x [<-|[<-|[]]]; lia).
  - repeat constructor; cbn; intuition lia.
  - intros c [<-|[<-|[]]]; reflexivity.
  - intros v [<-|[<-|[]]]; reflexivity.
  - intros [|[|i]] v E; cbn in E; [| |destruct i; discriminate]; injection E as <-; split; try lia; exists 1; reflexivity.
  - split; [repeat constructor; cbn; intuition lia|]. intros c [<-|[<-|[]]]; cbn; lia.
Qed.
Lemma pair_solved : exists K cs, kiter try_all (fun l => l) 9 StronglyOptimized pair_graph (fun _ => 1) = Ok (mkResult (4 # 2) (edges pair_graph), K, cs) /\
  K 0%nat = 1 /\ K 1%nat = 1 /\ exact_answer cs (try_all cs).
Proof.
  eexists. eexists. split; [vm_compute; reflexivity|]. split; [reflexivity|]. split; [reflexivity|]. apply try_all_exact.
  - intros c [<-|[<-|[]]]; reflexivity.
  - eexists. apply circuit_b_iff. split; [|apply incl_refl]. reflexivity.
Qed.
Example C119_hyp : exists K cs, kiter try_all (fun l => l) 9 StronglyOptimized pair_graph (fun _ => 1) = Ok (mkResult (4 # 2) (edges pair_graph), K, cs) /\
  exact_answer cs (try_all cs) /\ graph_wf pair_graph /\ balanced pair_graph (fun _ => 1) /\ no_init pair_graph /\ whole_cycles pair_graph (fun _ => 1) /\ edge_ids_ok pair_graph /\
  (forall i v, nth_error (vertices pair_graph) i = Some v -> 0 < v_reentrancy v \/ (v_phases v = 1%nat /\ v_init_phases v = 0%nat /\ K i = 1)) /\
  exists s, periodic_schedule pair_graph (fun _ => 1) K (/ (4 # 2)) s /\ reentrant_valid pair_graph s /\ keeps_pace pair_graph (fun _ => 1) s (/ (4 # 2)).
Proof.
  destruct pair_solved as (K & cs & Hk & K0 & K1 & He). destruct pair_wf as (A & B & C & D & F). exists K, cs. repeat (split; [assumption|]).
  assert (M : forall i v, nth_error (vertices pair_graph) i = Some v -> 0 < v_reentrancy v \/ (v_phases v = 1%nat /\ v_init_phases v = 0%nat /\ K i = 1)).
  { intros [|[|i]] v E; cbn in E; [| |destruct i; discriminate]; injection E as <-; auto. }
  split; [exact M|]. apply (C119_throughput_reached_partial try_all (fun l => l) StronglyOptimized pair_graph (fun _ => 1) 9 (mkResult (4 # 2) (edges pair_graph)) K cs); auto; [vm_compute; lia|reflexivity].
Qed.

(** ** The other engine runs every task without overlap, whatever its factor: on the pair of tasks above it
    announces half of the throughput that K-Iter announces (and reaches, by [C119_hyp]). *)
Theorem C119_engines_agree_refuted : exists g N r K cs n T, graph_wf g /\ balanced g N /\ no_init g /\ whole_cycles g N /\ edge_ids_ok g /\
  even_self_loops g /\ all_guarded g false /\ positive_durations g /\
  kiter try_all (fun l => l) 9 StronglyOptimized g N = Ok (r, K, cs) /\ exact_answer cs (try_all cs) /\
  component_throughput 2 100 g None = Ok (Periodic n T) /\ (inject_Z (Z.of_nat n) / T < kr_throughput r)%Q /\
  exists s, reentrant_valid g s /\ keeps_pace g N s (/ kr_throughput r).
Proof.
  destruct C119_hyp as (K & cs & Hk & He & A & B & C & D & F & _ & s & _ & V & P).
  exists pair_graph, (fun _ => 1), (mkResult (4 # 2) (edges pair_graph)), K, cs, 1%nat, 1%Q. do 5 (split; [assumption|]). split; [|split; [|split]].
  - intros c [<-|[<-|[]]]; discriminate.
  - intros [|[|i]] L; cbn in L; [| |lia]; left; [exists (mkEdge 2 1 0 [1] [1] [] [] 2)|exists (mkEdge 1 0 1 [1] [1] [] [] 2)]; (split; [cbn; auto|reflexivity]).
  - intros v d [<-|[<-|[]]] [<-|[]]; reflexivity.
  - do 2 (split; [assumption|]). split; [vm_compute; reflexivity|]. split; [reflexivity|]. exists s. split; assumption.
Qed.
Print Assumptions C119_engines_agree_refuted.

(** ** Unfolded reentrant tasks: K-Iter announces twice the throughput that any schedule can have. *)
Lemma loop_wf : graph_wf loop_graph /\ balanced loop_graph loop_N /\ no_init loop_graph /\ whole_cycles loop_graph loop_N /\ edge_ids_ok loop_graph.
Proof.
  split; [split; [|split]|split; [|split; [|split]]].
  - intros v [<-|[<-|[]]]; (split; [cbn; lia|split; [reflexivity|split; [reflexivity|]]]); intros x [<-|[]]; vm_compute; discriminate.
  - intros c [<-|[<-|[]]]; eexists; eexists; (split; [reflexivity|]; split; [reflexivity|]; repeat (split; [reflexivity|]); split; [|cbn; lia]; intros x [<-|[<-|[]]]; lia).
  - repeat constructor; cbn; intuition lia.
  - intros c [<-|[<-|[]]]; reflexivity.
  - intros v [<-|[<-|[]]]; reflexivity.
  - intros [|[|i]] v E; cbn in E; [| |destruct i; discriminate]; injection E as <-; split; try (cbn; lia); [exists 1|exists 2]; reflexivity.
  - split; [repeat constructor; cbn; intuition lia|]. intros c [<-|[<-|[]]]; cbn; lia.
Qed.
Definition loop_starts (e : event) : Q := if ev_task e =? 1 then 1%Q else if ev_occ e =? 1 then 0%Q else 2%Q.
Lemma loop_solved : exists K cs, kiter try_all (fun l => l) 9 StronglyOptimized loop_graph loop_N = Ok (mkResult 1 [], K, cs) /\ exact_answer cs (try_all cs).
Proof.
  eexists. eexists. split; [vm_compute; reflexivity|]. match goal with |- exact_answer ?l _ => set (cs := l) end.
  assert (T : try_all cs = (1%Q, [hd (mkConstraint (mkEvent 0 0 0) (mkEvent 0 0 0) 0 0 0) cs])) by (vm_compute; reflexivity). rewrite T. split; [|split; [|split]]; cbn [fst snd].
  - apply circuit_b_iff. split; [reflexivity|]. intros x [<-|[]]. left. reflexivity.
  - reflexivity.
  - reflexivity.
  - assert (Fit : circuits_fit cs 1).
    { apply (satisfiable_iff_fit [mkEvent 1 1 1; mkEvent 2 1 1; mkEvent 2 1 2]).
      - intros x [<-|[<-|[<-|[<-|[]]]]]; cbn; auto.
      - exists loop_starts. intros x [<-|[<-|[<-|[<-|[]]]]]; vm_compute; discriminate. }
    intros l C. specialize (Fit l C). rewrite Qmult_1_l in *. exact Fit.
Qed.
Theorem C119_throughput_reached_refuted : exists g N r K cs, graph_wf g /\ balanced g N /\ no_init g /\ whole_cycles g N /\ edge_ids_ok g /\ single_phase g /\
  kiter try_all (fun l => l) 9 StronglyOptimized g N = Ok (r, K, cs) /\ exact_answer cs (try_all cs) /\ (0 < kr_throughput r)%Q /\
  (exists s omega, reentrant_valid g s /\ finitely_started g s /\ keeps_pace g N s omega) /\
  forall s omega, reentrant_valid g s -> finitely_started g s -> keeps_pace g N s omega -> (2 * / kr_throughput r <= omega)%Q.
Proof.
  destruct loop_solved as (K & cs & Hk & He). destruct loop_wf as (A & B & C & D & F). exists loop_graph, loop_N, (mkResult 1 []), K, cs. do 5 (split; [assumption|]).
  split; [intros v [<-|[<-|[]]]; split; reflexivity|]. do 2 (split; [assumption|]). split; [reflexivity|]. split.
  - assert (HN : forall i, (i < length (vertices loop_graph))%nat -> 0 < loop_N i) by (intros [|[|i]] L; cbn in *; lia).
    assert (H1 : forall i, (i < length (vertices loop_graph))%nat -> 0 < (fun _ : nat => 1) i) by (intros i L; lia).
    assert (P : periodic_schedule loop_graph loop_N (fun _ => 1) 4 (kperiodic_schedule loop_graph loop_N (fun _ => 1) 4 loop_starts)) by (apply kperiodic_schedule_periodic; auto).
    exists (kperiodic_schedule loop_graph loop_N (fun _ => 1) 4 loop_starts), 4%Q. split; [|split].
    + refine (mixed_sound StronglyOptimized loop_graph loop_N (fun _ => 1) A B HN H1 4 loop_starts _ _ (no_init_ok _ A C) _ _ _).
      * vm_compute. reflexivity.
      * vm_compute. discriminate.
      * intros [|[|i]] v E; cbn in E; [| |destruct i; discriminate]; injection E as <-; [left; reflexivity|right; repeat split; reflexivity].
      * intros x [<-|[<-|[<-|[]]]]; vm_compute; discriminate.
    + intros i t L. apply (steady_finite _ 2%Q); [reflexivity|]. intros m. destruct i as [|[|i]]; [| |cbn in L; lia].
      * specialize (P 0%nat _ m eq_refl). cbn [v_phases] in P. replace (m + Z.to_nat 1 * 1)%nat with (S m) in P by lia. rewrite P. apply Qplus_le_r. vm_compute. discriminate.
      * specialize (P 1%nat _ m eq_refl). cbn [v_phases] in P. replace (m + Z.to_nat 1 * 1)%nat with (S m) in P by lia. rewrite P. apply Qplus_le_r. vm_compute. discriminate.
    + apply (periodic_keeps_pace loop_graph loop_N (fun _ => 1)); auto. intros v [<-|[<-|[]]]; cbn; lia.
  - intros s omega (V & _) FS KP. apply (loop_slow s V omega FS KP).
Qed.
Print Assumptions C119_throughput_reached_refuted.
