(** Soundness when some tasks allow unlimited re-entrance (reentrancy <= 0). *)
From Coq Require Import QArith Qfield Lqa.
From Verif Require Import Base Graph Commons CommonsProofs KPeriodic ScheduleSpec ScheduleCore KPeriodicSpec
  KPeriodicProofs KPeriodicChannel KPeriodicSelfloop KPeriodicGraph.
Open Scope Z_scope.

(** A task with one phase, no initial phase and K = 1. *)
Definition simple_task (v : vertex) (k : Z) : Prop :=
  v_phases v = 1%nat /\ v_init_phases v = 0%nat /\ k = 1.

Section G.
Variables (var : variant) (g : graph) (N K : nat -> Z).
Hypothesis Hwf : graph_wf g.
Hypothesis Hbal : balanced g N.
Hypothesis HN : forall i, (i < length (vertices g))%nat -> 0 < N i.
Hypothesis HK : forall i, (i < length (vertices g))%nat -> 0 < K i.
Variables (omega : Q) (St : event -> Q) (cs : list constraint).
Hypothesis Hgen : generate_event_graph var g N K = Ok cs.
Let sch := kperiodic_schedule g N K omega St.
Let ks (i : nat) (v : vertex) : nat -> Q := kperiodic_start St v (Z.to_nat (K i))
     (task_period omega (Z.of_nat (Z.to_nat (K i))) (Z.of_nat (v_phases v)) (N i)).

Lemma sch_at' i v : nth_error (vertices g) i = Some v -> forall m, start_of sch i m = ks i v m.
Proof.
  intros H m. unfold start_of, sch, kperiodic_schedule, ks. rewrite H. destruct (K_nat g K HK i v H) as [<- _]. reflexivity.
Qed.

Lemma simple_start i v : nth_error (vertices g) i = Some v -> simple_task v (K i) -> forall m,
  (ks i v m == St (mkEvent (v_id v) 1 1) + inject_Z (Z.of_nat m) * (omega / inject_Z (N i)))%Q.
Proof.
  intros Hv (HP & Hi & Hk) m. unfold ks, kperiodic_start. rewrite HP, Hi, Hk. cbn [Nat.ltb Nat.leb].
  change (Z.to_nat 1) with 1%nat. rewrite Nat.sub_0_r, !Nat.mod_1_r, Nat.mul_1_l, Nat.div_1_r.
  change (Z.of_nat 0 + 1) with 1. unfold task_period. change (Z.of_nat 1 * Z.of_nat 1) with 1.
  change (inject_Z 1) with 1%Q. rewrite Qmult_1_r. reflexivity.
Qed.

Lemma simple_mono i v : nth_error (vertices g) i = Some v -> simple_task v (K i) -> (0 <= omega)%Q ->
  mono (ks i v) /\ mono (fun m => (ks i v m + exec_duration v m)%Q).
Proof.
  intros Hv Hs Hom.
  assert (HT : (0 <= omega / inject_Z (N i))%Q).
  { apply Qle_shift_div_l. 2: lra. change 0%Q with (inject_Z 0). rewrite <- Zlt_Qlt. apply HN, (vertex_lt g _ _ Hv). }
  assert (Hd : forall m, exec_duration v m = exec_duration v 0).
  { intros m. destruct Hs as (HP & Hi & _). pose proof (vertex_ok g Hwf i v Hv) as (_ & L1 & L2 & _).
    unfold exec_duration, cyclic. rewrite L1, L2, Hi, HP. cbn [Nat.ltb Nat.leb]. rewrite !Nat.mod_1_r. reflexivity. }
  split; intros m; cbv beta; rewrite ?(Hd m), ?(Hd (S m)), !(simple_start i v Hv Hs);
    rewrite Nat2Z.inj_succ; unfold Z.succ; rewrite inject_Z_plus; change (inject_Z 1) with 1%Q; nra.
Qed.

Lemma mixed_sound : init_ok g -> (0 <= omega)%Q ->
  (forall i v, nth_error (vertices g) i = Some v -> 0 < v_reentrancy v \/ simple_task v (K i)) ->
  (forall x, In x cs -> satisfies omega St x) ->
  (forall c, In c (edges g) -> channel_valid g sch c) /\
  (forall i v, nth_error (vertices g) i = Some v -> 0 < v_reentrancy v -> task_serialised sch i v).
Proof.
  intros [Hi1 Hi2] Hom Hmix Hsat.
  assert (Hser : forall i v, nth_error (vertices g) i = Some v -> 0 < v_reentrancy v -> task_serialised sch i v).
  { intros i v Hv Hre. unfold task_serialised. eapply serialised_ext; [intros m; symmetry; apply (sch_at' i v Hv)|].
    destruct (K_nat g K HK i v Hv) as [Hk Hkp].
    destruct (generate_selfloop_spec v (N i) (Z.to_nat (K i)) (vertex_ok g Hwf i v Hv) Hkp (HN i (vertex_lt g _ _ Hv)))
      as (r & Hr & _).
    apply (selfloop_serialises v (N i) (Z.to_nat (K i)) (vertex_ok g Hwf i v Hv) Hkp (HN i (vertex_lt g _ _ Hv)) omega St r).
    - exact Hre.
    - apply Hi1. eapply nth_error_In; exact Hv.
    - exact Hr.
    - intros x Hx. apply Hsat. apply (generate_event_graph_in var g N K Hwf cs Hgen). left. exists i, v, r. rewrite Hk. auto. }
  split; [|exact Hser].
  assert (Hmono : forall i v, nth_error (vertices g) i = Some v ->
     mono (ks i v) /\ mono (fun m => (ks i v m + exec_duration v m)%Q)).
  { intros i v Hv. destruct (Hmix i v Hv) as [Hre|Hsi]; [|apply simple_mono; auto].
    pose proof (Hser i v Hv Hre) as S1. unfold task_serialised in S1.
    apply (serialised_ext _ (ks i v)) in S1; [|apply (sch_at' _ _ Hv)].
    pose proof (vertex_ok g Hwf i v Hv). split; [eapply serialised_mono_start; eassumption|apply serialised_mono_end; assumption]. }
  intros c Hc. destruct (edge_shape g Hwf c Hc) as (vs & vd & V1 & V2 & Hs & Hd & Hsh).
  destruct (K_nat g K HK _ _ V1) as [Hk1 Hkp1]. destruct (K_nat g K HK _ _ V2) as [Hk2 Hkp2].
  unfold channel_valid.
  apply (never_negative_ext _ (fun m => ks (e_src c) vs m + exec_duration vs m)%Q _ _ (ks (e_dst c) vd)).
  { intros m. unfold end_of. rewrite V1. change (sch (e_src c) m) with (start_of sch (e_src c) m).
    rewrite (sch_at' _ _ V1). reflexivity. }
  { intros m. symmetry. apply (sch_at' _ _ V2). }
  apply useful_ordered_sufficient.
  - apply (prod_rate_nn c vs vd Hs Hsh).
  - apply (cons_rate_nn c vs vd Hd Hsh).
  - apply (Hmono _ _ V1).
  - apply (Hmono _ _ V2).
  - apply Hsh.
  - apply cyclic_unbounded; [destruct Hsh as (-> & _); apply Hs | apply Hsh | apply (prod_rate_nn c vs vd Hs Hsh)].
  - destruct (generate_channel_spec var c vs vd _ _ (N (e_src c)) Hs Hd Hsh Hkp1 Hkp2) as (? & ? & r & ? & ? & ? & ? & Hr & _).
    { apply HN, (vertex_lt g _ _ V1). }
    apply (satisfied_orders var c vs vd _ _ (N (e_src c)) (N (e_dst c)) Hs Hd Hsh Hkp1 Hkp2) with (cs := r).
    + apply HN, (vertex_lt g _ _ V1).
    + apply HN, (vertex_lt g _ _ V2).
    + apply Hbal. exact Hc.
    + exact Hom.
    + apply Hi2. exact Hc.
    + exact Hr.
    + intros y Hy. apply Hsat. apply (generate_event_graph_in var g N K Hwf cs Hgen). right. exists c, vs, vd, r.
      rewrite Hk1, Hk2. auto.
Qed.
End G.
