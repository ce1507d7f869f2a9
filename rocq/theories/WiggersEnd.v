(** The sizing command with fixed offsets. *)
From Coq Require Import QArith Qminmax Lqa Lia ZifyBool ZifyNat.
From Verif Require Import Base Graph Commons KPeriodic ScheduleSpec ScheduleCore KIterSpec SPeriodicProofs Sizing SizingSpec SizingLp SizingProofs SizingOffsets KPeriodicGraph
  Wiggers WiggersSpec WiggersProofs.
Open Scope Z_scope.

Lemma positive_assert period : (0 < period)%Q -> cassert (negb (Qle_bool period 0)) = Ok tt.
Proof. intros H. destruct (Qle_bool period 0) eqn:E; [apply Qle_bool_iff in E; lra|reflexivity]. Qed.

Definition got (l : list (list Q)) (i : nat) : list Q := match nth_error l i with Some o => o | None => [] end.

Section G.
Variables (g : graph) (N : nat -> Z) (period : Q).
Hypothesis Hwf : graph_wf g.
Hypothesis Hno : no_init g.
Hypothesis Hcyc : whole_cycles g N.
Hypothesis Hper : (0 < period)%Q.

Lemma cycle_pos i v : nth_error (vertices g) i = Some v -> (0 < cycle_time N period i v)%Q.
Proof. intros E. destruct (mu_ok g N period Hwf Hcyc Hper i v E) as (m & _ & Em & Pm). lra. Qed.

Lemma burst_all vs : (forall v, In v vs -> vertex_wf v /\ v_init_phases v = 0%nat) ->
  burst_offsets vs = Ok (map (fun v => map (elapsed v) (seq 0 (v_phases v))) vs).
Proof.
  clear. induction vs as [|v vs IH]; intros H; cbn [burst_offsets map]; [reflexivity|]. destruct (H v (or_introl eq_refl)) as [W I0]. rewrite (burst_ok v W I0). cbn [bind].
  rewrite IH by (intros v' Hv; apply H; right; exact Hv). reflexivity.
Qed.

Definition average_task_is (i : nat) (v : vertex) (o : list Q) : Prop :=
  length o = v_phases v /\ (forall a, (a < v_phases v)%nat -> (nth a o 0 == elapsed v a * (cycle_time N period i v / elapsed v (v_phases v)))%Q).

Lemma average_task_ok i v : nth_error (vertices g) i = Some v -> exists o, average_offsets_task period v (N i) = Ok o /\ average_task_is i v o.
Proof.
  intros E. pose proof (vertex_ok g Hwf i v E) as W. pose proof (Hno v (nth_error_In _ _ E)) as I0. pose proof W as (Pp & _). pose proof (cycle_pos i v E) as Pc.
  destruct (Hcyc i v E) as [Np _]. unfold average_offsets_task. rewrite time_over_ok by lia. cbn [bind]. fold (cycle_time N period i v). set (c := cycle_time N period i v) in *.
  rewrite (positive_assert c) by exact Pc. cbn [bind]. rewrite zrange_seq. change 0%Q with (elapsed v 0) at 1. rewrite (sum_durations_ok v W I0 (v_phases v) 0%nat ltac:(lia)). cbn [bind].
  change (0 + v_phases v)%nat with (v_phases v). destruct (Z.eqb_spec (Z.of_nat (v_phases v)) 1) as [P1|P1].
  - eexists. split; [reflexivity|]. unfold average_task_is. fold c. assert (v_phases v = 1%nat) as -> by lia. split; [reflexivity|]. intros a La. assert (a = 0%nat) by lia. subst a. cbn [nth elapsed]. set (z := (c / (0 + exec_duration v 0))%Q). lra.
  - change 0%Q with (elapsed v (pred 0)) at 1. rewrite (average_loop_ok v W I0 c (elapsed v (v_phases v)) (v_phases v) 0%nat ltac:(lia)). eexists. split; [reflexivity|].
    split; [rewrite map_length, seq_length; reflexivity|]. intros a La. rewrite nth_map_seq by exact La. fold c. unfold average_at. destruct (Qeq_bool (elapsed v (v_phases v)) 0) eqn:Z0; [|reflexivity].
    apply Qeq_bool_iff in Z0. pose proof (elapsed_le v a (v_phases v) W ltac:(lia)). pose proof (elapsed_nn v a W). assert (Ea : (elapsed v a == 0)%Q) by lra. rewrite Ea. set (z := (c / _)%Q). lra.
Qed.

Lemma average_all ivs : (forall iv, In iv ivs -> nth_error (vertices g) (fst iv) = Some (snd iv)) ->
  exists l, average_tasks period N ivs = Ok l /\ Forall2 (fun iv o => average_offsets_task period (snd iv) (N (fst iv)) = Ok o /\ average_task_is (fst iv) (snd iv) o) ivs l.
Proof.
  induction ivs as [|[i v] ivs IH]; intros H; cbn [average_tasks]; [exists []; split; [reflexivity|constructor]|].
  destruct (average_task_ok i v (H _ (or_introl eq_refl))) as (o & Eo & To). rewrite Eo. cbn [bind]. destruct IH as (l & -> & Fl); [intros iv Hi; apply H; right; exact Hi|]. cbn [bind].
  eexists. split; [reflexivity|]. constructor; [split; [exact Eo|exact To]|exact Fl].
Qed.

Lemma wiggers_fits offs : work_fits g N period -> (forall i v, nth_error (vertices g) i = Some v -> task_offsets N period i v (offs i)) -> offsets_fit g N offs period.
Proof.
  intros HW HO i v E. destruct (HO i v E) as [O1 O2]. specialize (HW i v E). pose proof (vertex_ok g Hwf i v E) as (Pp & _). fold (cycle_time N period i v) in HW |- *. destruct (Nat.eq_dec (v_phases v) 1) as [P1|P1].
  - rewrite (O1 P1), P1. split; [reflexivity|]. split; [intros; lia|]. intros a Ha. assert (a = 0%nat) by lia. subst a. rewrite P1 in HW. cbn [elapsed nth] in *. lra.
  - destruct (O2 ltac:(lia)) as (L & B1 & B2 & B3). split; [exact L|]. split; [exact B2|]. intros a Ha. rewrite (B3 a Ha). specialize (B1 0%nat ltac:(lia)). cbn [elapsed] in B1. lra.
Qed.

Lemma nth_nonneg l : (forall a, (a < length l)%nat -> (0 <= nth a l 0)%Q) -> forallb (fun o => Qle_bool 0 o) l = true.
Proof. clear. intros H. apply forallb_forall. intros x Hx. destruct (In_nth _ _ 0%Q Hx) as (a & La & <-). apply Qle_bool_iff, H, La. Qed.

Lemma check_passes l : length l = length (vertices g) ->
  (forall i v, nth_error (vertices g) i = Some v -> length (got l i) = v_phases v /\ forall a, (a < v_phases v)%nat -> (0 <= nth a (got l i) 0)%Q) ->
  check_offsets period g (fun i => nth_error l i) = Ok tt.
Proof using Hper.
  intros L H. unfold check_offsets. rewrite positive_assert by exact Hper. cbn [bind].
  match goal with |- cassert ?b = _ => assert (b = true) as ->; [|reflexivity] end. apply forallb_forall. intros [i v] Hi. apply indexed_nth in Hi. cbn [fst snd] in Hi |- *.
  destruct (H i v Hi) as [L1 L2]. unfold got in L1, L2. destruct (nth_error l i) as [o|] eqn:E.
  - rewrite L1, Nat.eqb_refl. cbn [andb]. apply nth_nonneg. intros a La. apply L2. lia.
  - apply nth_error_None in E. assert (X : nth_error (vertices g) i <> None) by congruence. apply nth_error_Some in X. lia.
Qed.

Lemma generated minmax kind : kind = OffBurst \/ kind = OffAverage \/ kind = OffWiggers -> work_fits g N period ->
  exists l, command_offsets minmax kind period g N = Ok (fun i => nth_error l i) /\ check_offsets period g (fun i => nth_error l i) = Ok tt /\
    offsets_fit g N (got l) period /\ kind_is g N period kind (got l).
Proof.
  intros K HW. destruct K as [->|[->| ->]]; cbn [command_offsets].
  - rewrite burst_all by (intros v Hv; split; [apply (proj1 Hwf v Hv)|exact (Hno v Hv)]). cbn [bind]. set (l := map _ (vertices g)). exists l. split; [reflexivity|].
    assert (G : forall i v, nth_error (vertices g) i = Some v -> got l i = map (elapsed v) (seq 0 (v_phases v))) by (intros i v E; unfold got, l; rewrite (map_nth_error _ _ _ E); reflexivity).
    split; [|split].
    + apply check_passes; [unfold l; apply map_length|]. intros i v E. rewrite (G i v E). split; [rewrite map_length, seq_length; reflexivity|]. intros a La. rewrite nth_map_seq by exact La.
      apply elapsed_nn, (vertex_ok g Hwf i v E).
    + apply (burst_fit (fun _ => 0) g N period Hwf Hno); [exact HW|]. intros i v E. rewrite (G i v E). apply burst_ok; [exact (vertex_ok g Hwf i v E)|exact (Hno v (nth_error_In _ _ E))].
    + intros i v E a La. rewrite (G i v E), nth_map_seq by exact La. reflexivity.
  - unfold average_offsets. rewrite positive_assert by exact Hper. cbn [bind]. destruct (average_all (indexed (vertices g)) (fun iv H => indexed_nth _ _ H)) as (l & -> & Fl). cbn [bind].
    exists l. split; [reflexivity|]. destruct (forall2_indexed _ _ 0%nat l Fl) as [L F]. cbn [Nat.add fst snd] in F.
    assert (G : forall i v, nth_error (vertices g) i = Some v -> average_offsets_task period v (N i) = Ok (got l i) /\ average_task_is i v (got l i)).
    { intros i v E. destruct (F i v E) as (o & Eo & Po). unfold got. rewrite Eo. exact Po. }
    split; [|split].
    + apply check_passes; [exact L|]. intros i v E. destruct (G i v E) as (_ & L1 & A). split; [exact L1|]. intros a La. rewrite (A a La).
      pose proof (vertex_ok g Hwf i v E) as W. pose proof (elapsed_nn v a W) as P1. pose proof (elapsed_nn v (v_phases v) W) as P2. pose proof (cycle_pos i v E) as P3.
      apply Qmult_le_0_compat; [exact P1|]. unfold Qdiv. apply Qmult_le_0_compat; [lra|]. apply Qinv_le_0_compat. exact P2.
    + apply (average_fit (fun _ => 0) g N period Hwf Hno Hcyc); [exact HW|]. intros i v E. exact (proj1 (G i v E)).
    + intros i v E. exact (proj2 (proj2 (G i v E))).
  - destruct (wiggers_ok g N period Hwf Hno Hcyc Hper) as (l & -> & L & F); [intros i v E _; exact (HW i v E)|]. cbn [bind]. exists l. split; [reflexivity|].
    assert (G : forall i v, nth_error (vertices g) i = Some v -> task_offsets N period i v (got l i)) by (intros i v E; destruct (F i v E) as (o & Eo & Po); unfold got; rewrite Eo; exact Po).
    split; [|split; [apply wiggers_fits; [exact HW|exact G]|exact G]].
    apply check_passes; [exact L|]. intros i v E. pose proof (vertex_ok g Hwf i v E) as W. pose proof W as (Pp & _). destruct (G i v E) as [O1 O2]. destruct (Nat.eq_dec (v_phases v) 1) as [P1|P1].
    + rewrite (O1 P1), P1. split; [reflexivity|]. intros a La. assert (a = 0%nat) by lia. subst a. cbn [nth]. lra.
    + destruct (O2 ltac:(lia)) as (L1 & B1 & _). split; [exact L1|]. intros a La. specialize (B1 a La). pose proof (elapsed_nn v a W). lra.
Qed.
End G.
