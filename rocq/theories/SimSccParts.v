(** What the analysis of one component says about the whole graph. *)
From Coq Require Import QArith Qreduction Lqa Qabs Permutation.
From Verif Require Import Base Graph ScheduleSpec ScheduleCore RepVec RepVecSpec RepVecProps KIterSpec Scc SccSpec SccProofs
  Sim SimSpec SimPeriod SimOptimal SimFinal SimScc SimSccSub SimSccCompose.
From Verif Require KPeriodicProofs.
Open Scope Z_scope.

Lemma first_bounded (f : nat -> Q) M : exists B, (0 <= B)%Q /\ forall k, (k < M)%nat -> (f k <= B)%Q.
Proof.
  induction M as [|M (B & B0 & H)]; [exists 0%Q; split; [lra|intros; lia]|].
  exists (B + Qabs (f M))%Q. pose proof (Qabs_nonneg (f M)). pose proof (Qle_Qabs (f M)). split; [lra|].
  intros k Hk. destruct (Nat.eq_dec k M) as [->|]; [lra|]. specialize (H k ltac:(lia)). lra.
Qed.

(** A sequence that gains [T] every [D] steps stays near its average. *)
Lemma steady (f : nat -> Q) (D K0 : nat) (T : Q) : (0 < D)%nat -> (0 <= T)%Q -> (forall k, (K0 <= k)%nat -> f (k + D)%nat == f k + T)%Q ->
  exists B, (0 <= B)%Q /\ forall m, (T * (inject_Z (Z.of_nat m) / inject_Z (Z.of_nat D)) - B <= f m /\ f m <= T * (inject_Z (Z.of_nat m) / inject_Z (Z.of_nat D)) + B)%Q.
Proof.
  intros D0 T0 P. assert (Dq : (0 < inject_Z (Z.of_nat D))%Q) by (change 0%Q with (inject_Z 0); rewrite <- Zlt_Qlt; lia).
  set (e := fun m => (f m - T * (inject_Z (Z.of_nat m) / inject_Z (Z.of_nat D)))%Q).
  destruct (first_bounded (fun m => Qabs (e m)) (K0 + D)) as (B & B0 & HB). exists B. split; [assumption|].
  assert (X : forall m, (Qabs (e m) <= B)%Q).
  { intros m. induction m as [m IH] using lt_wf_ind. destruct (Nat.lt_ge_cases m (K0 + D)) as [L|L]; [apply HB; assumption|].
    specialize (IH (m - D)%nat ltac:(lia)). assert (E : (e m == e (m - D)%nat)%Q); [|rewrite E; exact IH].
    unfold e. pose proof (P (m - D)%nat ltac:(lia)) as Y. replace (m - D + D)%nat with m in Y by lia. rewrite Y, Nat2Z.inj_sub by lia.
    unfold Z.sub. rewrite inject_Z_plus, inject_Z_opp. field. lra. }
  intros m. specialize (X m). apply Qabs_Qle_condition in X. unfold e in X. lra.
Qed.

Section Part.
Variables (g : graph) (keep : nat -> bool).
Hypotheses (WF : graph_wf g) (NI : no_init g).
Let h := sub keep g.
Let n := length (vertices g).

Definition unrank (j : nat) : nat := nth j (select keep (seq 0 n)) 0%nat.
Lemma unrank_rank i : (i < n)%nat -> keep i = true -> unrank (rank keep i) = i.
Proof.
  intros Hi K. unfold unrank. apply nth_error_nth. rewrite select_nth by assumption.
  rewrite nth_error_nth' with (d := 0%nat) by (rewrite seq_length; lia). rewrite seq_nth by assumption. reflexivity.
Qed.
Lemma sub_vertex i : keep i = true -> nth_error (vertices h) (rank keep i) = nth_error (vertices g) i.
Proof. apply select_nth. Qed.
Lemma sub_position j : (j < length (vertices h))%nat -> exists i, (i < n)%nat /\ keep i = true /\ rank keep i = j /\ unrank j = i.
Proof.
  unfold h, sub. cbn [vertices]. rewrite select_length. intros L. destruct (rank_onto _ _ _ L) as (i & A & K & <-).
  exists i. repeat (split; [assumption || reflexivity|]). apply unrank_rank; assumption.
Qed.
Lemma sub_bound i : (i < n)%nat -> keep i = true -> (rank keep i < length (vertices h))%nat.
Proof. intros L K. unfold h, sub. cbn [vertices]. rewrite select_length. apply rank_lt; assumption. Qed.
Lemma sub_edge c' : In c' (edges h) <-> exists c, In c (edges g) /\ keep (e_src c) = true /\ keep (e_dst c) = true /\ c' = moved keep c.
Proof.
  unfold h, sub. cbn [edges]. rewrite in_map_iff. split.
  - intros (c & <- & F). apply filter_In in F. destruct F as [I F]. apply andb_true_iff in F. exists c. tauto.
  - intros (c & I & A & B & ->). exists c. split; [reflexivity|]. apply filter_In. rewrite A, B. auto.
Qed.
Lemma sub_in v : In v (vertices h) -> In v (vertices g).
Proof. intros I. apply select_in in I. destruct I as (i & _ & E). eapply nth_error_In; exact E. Qed.
Lemma sub_wf : graph_wf h.
Proof.
  destruct WF as (WV & WE & ND). split; [|split].
  - intros v I. apply WV, sub_in, I.
  - intros c' I. apply sub_edge in I. destruct I as (c & I & A & B & ->). destruct (WE c I) as (vs & vd & Es & Ed & R).
    exists vs, vd. unfold moved, set_ends. cbn [e_src e_dst e_in e_out e_in_init e_out_init e_preload]. rewrite !sub_vertex by assumption.
    split; [assumption|]. split; [assumption|]. exact R.
  - unfold h, sub. cbn [vertices]. rewrite <- select_map. apply select_nodup. assumption.
Qed.
Lemma sub_no_init : no_init h.
Proof. intros v I. apply NI, sub_in, I. Qed.
Lemma sub_even : even_self_loops g -> even_self_loops h.
Proof.
  intros EV c' I. apply sub_edge in I. destruct I as (c & I & A & B & ->). cbn. intros E. apply (EV c I). exact (rank_inj keep _ _ A B E).
Qed.
Lemma sub_positive : positive_durations g -> positive_durations h.
Proof. intros PD v d I. apply PD, sub_in, I. Qed.
Lemma sub_short : short_durations g -> short_durations h.
Proof. intros PD v d I. apply PD, sub_in, I. Qed.
Lemma edge_bounds c : In c (edges g) -> (e_src c < n)%nat /\ (e_dst c < n)%nat.
Proof. intros I. destruct (proj1 (proj2 WF) c I) as (vs & vd & Es & Ed & _). split; apply nth_error_Some; congruence. Qed.

(** Schedules of the graph and of the component. *)
Lemma restrict_valid s : schedule_valid g s -> schedule_valid h (fun j => s (unrank j)).
Proof.
  intros [C S]. split.
  - intros c' I. apply sub_edge in I. destruct I as (c & I & A & B & ->). destruct (edge_bounds c I) as [L1 L2].
    specialize (C c I). unfold channel_valid in *. cbn [moved set_ends e_src e_dst e_preload].
    change (prod_rate (moved keep c)) with (prod_rate c). change (cons_rate (moved keep c)) with (cons_rate c). revert C. apply nn_ext.
    + intros m. unfold end_of. rewrite sub_vertex, unrank_rank by assumption. reflexivity.
    + intros m. unfold start_of. rewrite unrank_rank by assumption. reflexivity.
  - intros j v E. destruct (sub_position j ltac:(apply nth_error_Some; congruence)) as (i & L & K & <- & U). rewrite sub_vertex in E by assumption.
    intros m. unfold start_of. rewrite U. exact (S i v E m).
Qed.
Lemma extend_channel s c : schedule_valid h s -> In c (edges g) -> keep (e_src c) = true -> keep (e_dst c) = true ->
  channel_valid g (fun i => s (rank keep i)) c.
Proof.
  intros [C _] I A B. assert (I' : In (moved keep c) (edges h)) by (apply sub_edge; eauto 6). specialize (C _ I').
  unfold channel_valid in *. cbn [moved set_ends e_src e_dst e_preload] in C.
  change (prod_rate (moved keep c)) with (prod_rate c) in C. change (cons_rate (moved keep c)) with (cons_rate c) in C. revert C. apply nn_ext; [|reflexivity].
  intros m. unfold end_of. rewrite sub_vertex by assumption. reflexivity.
Qed.
Lemma extend_serialised s i v : schedule_valid h s -> keep i = true -> nth_error (vertices g) i = Some v -> task_serialised (fun i => s (rank keep i)) i v.
Proof. intros [_ S] K E. rewrite <- sub_vertex in E by assumption. exact (S _ _ E). Qed.

(** The verdict [x] on the component, in iterations of the whole graph. *)
Definition verdict (N : nat -> Z) (x : Q) : Prop :=
  (0 <= x)%Q /\ ((x == 0)%Q -> forall s, ~ schedule_valid g s) /\
  ((0 < x)%Q -> (exists s, part g N keep s (/ x)) /\ forall s omega, schedule_valid g s -> keeps_pace g N s omega -> (/ x <= omega)%Q).
End Part.
