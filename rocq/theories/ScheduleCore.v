(** Core facts about never_negative, for arbitrary (not only periodic) schedules:
    on serialised tasks a channel never goes negative iff every "useful" pair of
    executions is ordered. *)
From Coq Require Import QArith.
From Verif Require Import Base Graph ScheduleSpec.
Open Scope Z_scope.

Lemma sumf_ext : forall f g n, (forall m, (m < n)%nat -> f m = g m) -> sumf f n = sumf g n.
Proof.
  induction n as [|n IH]; intros H; cbn [sumf]; [reflexivity|].
  rewrite IH by (intros; apply H; lia). rewrite H by lia. reflexivity.
Qed.

Lemma sumf_nonneg : forall f n, (forall m, 0 <= f m) -> 0 <= sumf f n.
Proof. induction n; intros H; cbn [sumf]; [lia|]. specialize (H n) as Hn. specialize (IHn H). lia. Qed.

Lemma sumf_mono : forall f a b, (forall m, 0 <= f m) -> (a <= b)%nat -> sumf f a <= sumf f b.
Proof.
  intros f a b H Hab. induction Hab as [|b Hab IH]; [lia|].
  cbn [sumf]. specialize (H b). lia.
Qed.

Lemma sumf_le : forall f g n, (forall m, (m < n)%nat -> f m <= g m) -> sumf f n <= sumf g n.
Proof.
  induction n as [|n IH]; intros H; cbn [sumf]; [lia|].
  specialize (IH (fun m Hm => H m (Nat.lt_lt_succ_r _ _ Hm))).
  specialize (H n (Nat.lt_succ_diag_r n)). lia.
Qed.

Lemma sumf_app : forall f a b, sumf f (a + b) = sumf f a + sumf (fun m => f (a + m)%nat) b.
Proof.
  induction b as [|b IH]; [rewrite Nat.add_0_r; cbn; lia|].
  rewrite Nat.add_succ_r. cbn [sumf]. rewrite IH. lia.
Qed.

Definition mono (t : nat -> Q) : Prop := forall m, (t m <= t (S m))%Q.

Lemma mono_le : forall t, mono t -> forall a b, (a <= b)%nat -> (t a <= t b)%Q.
Proof.
  intros t H a b Hab. induction Hab as [|b Hab IH]; [apply Qle_refl|].
  eapply Qle_trans; [exact IH | apply H].
Qed.

(** Producer execution [e] is useful to consumer execution [f]. *)
Definition useful (M : Z) (prod cons : nat -> Z) (e f : nat) : Prop :=
  Z.max 0 (prod e - cons f) <= M + sumf prod (S e) - sumf cons (S f) < prod e.

Section Core.
Variables (M : Z) (pe : nat -> Q) (prod : nat -> Z) (cs : nat -> Q) (cons : nat -> Z).
Hypothesis prod_nn : forall m, 0 <= prod m.
Hypothesis cons_nn : forall m, 0 <= cons m.

Lemma moved_all : forall (at_ : nat -> Q) rate n t,
  (forall m, (m < n)%nat -> (at_ m <= t)%Q) -> moved_by at_ rate n t = sumf rate n.
Proof.
  intros. unfold moved_by. apply sumf_ext. intros m Hm.
  rewrite (proj2 (Qle_bool_iff _ _)); auto.
Qed.

Lemma moved_le : forall (at_ : nat -> Q) rate n t, (forall m, 0 <= rate m) ->
  moved_by at_ rate n t <= sumf rate n.
Proof. intros. apply sumf_le. intros m _. specialize (H m). destruct Qle_bool; lia. Qed.

(** A consumption prefix: if nothing at or after index [k] has started, at most the
    first [k] contribute. *)
Lemma moved_prefix_le : forall (at_ : nat -> Q) rate n k t, (forall m, 0 <= rate m) ->
  (forall m, (k <= m < n)%nat -> ~ (at_ m <= t)%Q) -> moved_by at_ rate n t <= sumf rate k.
Proof.
  intros at_ rate n k t Hr Hk. unfold moved_by.
  destruct (le_lt_dec n k) as [Hnk|Hnk].
  - eapply Z.le_trans; [apply moved_le; auto|]. apply sumf_mono; auto.
  - replace n with (k + (n - k))%nat by lia. rewrite sumf_app.
    assert (H0 : sumf (fun m => if Qle_bool (at_ (k + m)%nat) t then rate (k + m)%nat else 0) (n - k) = 0).
    { rewrite (sumf_ext _ (fun _ => 0)).
      - clear. induction (n - k)%nat; cbn [sumf]; lia.
      - intros m Hm. destruct (Qle_bool (at_ (k + m)%nat) t) eqn:E; [|reflexivity].
        apply Qle_bool_iff in E. exfalso. apply (Hk (k + m)%nat); [lia|exact E]. }
    rewrite H0, Z.add_0_r. apply moved_le; auto.
Qed.

Lemma useful_ordered_necessary : mono pe -> mono cs ->
  never_negative M pe prod cs cons ->
  forall e f, useful M prod cons e f -> (pe e <= cs f)%Q.
Proof.
  intros Hpe Hcs NN e f [_ Hu].
  destruct (NN (cs f) (S f)) as [np Hnp].
  rewrite (moved_all cs cons (S f)) in Hnp
    by (intros m Hm; apply mono_le; [exact Hcs | lia]).
  destruct (Qlt_le_dec (cs f) (pe e)) as [Hlt|Hle]; [|exact Hle].
  exfalso.
  assert (moved_by pe prod np (cs f) <= sumf prod e).
  { apply moved_prefix_le; auto. intros m Hm Hc.
    apply (Qlt_not_le _ _ Hlt). eapply Qle_trans; [|exact Hc]. apply mono_le; [exact Hpe|lia]. }
  cbn [sumf] in Hu. cbn [sumf] in Hnp. lia.
Qed.

(** Least index satisfying a decidable monotone threshold. *)
Lemma least_index : forall (P : nat -> bool) n, P n = true ->
  exists m, (m <= n)%nat /\ P m = true /\ forall j, (j < m)%nat -> P j = false.
Proof.
  intros P n. induction n as [n IH] using lt_wf_ind. intros Hn.
  destruct (existsb P (seq 0 n)) eqn:E.
  - apply existsb_exists in E. destruct E as [j [Hj Pj]]. apply in_seq in Hj.
    destruct (IH j) as [m [Hm [Pm Hl]]]; [lia | exact Pj |].
    exists m. repeat split; [lia | exact Pm | exact Hl].
  - exists n. repeat split; [lia | exact Hn |]. intros j Hj.
    destruct (P j) eqn:Pj; [|reflexivity].
    assert (existsb P (seq 0 n) = true).
    { apply existsb_exists. exists j. split; [apply in_seq; lia | exact Pj]. }
    congruence.
Qed.

Lemma useful_ordered_sufficient : mono pe -> mono cs -> 0 <= M ->
  (forall b, exists n, b <= sumf prod n) ->
  (forall e f, useful M prod cons e f -> (pe e <= cs f)%Q) ->
  never_negative M pe prod cs cons.
Proof.
  intros Hpe Hcs HM Hunb Huse t nc.
  (* k = number of consumer executions started by t among the first nc *)
  assert (Hk : exists k, (k <= nc)%nat /\ (forall m, (m < k)%nat -> (cs m <= t)%Q) /\
                          (forall m, (k <= m < nc)%nat -> ~ (cs m <= t)%Q)).
  { induction nc as [|n IH].
    - exists 0%nat. repeat split; [lia | intros; lia | intros; lia].
    - destruct IH as [k [Hkn [H1 H2]]]. destruct (Qlt_le_dec t (cs n)) as [Hlt|Hle].
      + exists k. repeat split; [lia | exact H1 |]. intros m Hm.
        destruct (Nat.eq_dec m n) as [->|]; [apply Qlt_not_le; exact Hlt | apply H2; lia].
      + exists (S n). repeat split; [lia | | intros; lia].
        intros m Hm. eapply Qle_trans; [|exact Hle]. apply mono_le; [exact Hcs | lia]. }
  destruct Hk as [k [Hkn [Hs Hns]]].
  assert (Hcons : moved_by cs cons nc t <= sumf cons k) by (apply moved_prefix_le; auto).
  (* m = least number of producer executions covering O(k) *)
  destruct (Hunb (sumf cons k - M)) as [n0 Hn0].
  destruct (least_index (fun n => sumf cons k - M <=? sumf prod n) n0) as [m [_ [Hm Hleast]]];
    [apply Z.leb_le; lia|].
  apply Z.leb_le in Hm.
  exists m. eapply Z.le_trans; [exact Hcons|].
  destruct m as [|e].
  { cbn [sumf moved_by] in *. unfold moved_by. cbn [sumf]. lia. }
  (* e is needed: M + I(e) < O(k) *)
  assert (He : sumf prod e < sumf cons k - M).
  { specialize (Hleast e (Nat.lt_succ_diag_r e)). apply Z.leb_gt in Hleast. exact Hleast. }
  (* f = least consumer execution needing e *)
  destruct (least_index (fun n => M + sumf prod e <? sumf cons n) k) as [f1 [Hf1 [Hf Hfl]]];
    [apply Z.ltb_lt; lia|].
  apply Z.ltb_lt in Hf.
  destruct f1 as [|f].
  { cbn [sumf] in Hf. pose proof (sumf_nonneg prod e prod_nn). lia. }
  assert (Hf0 : sumf cons f <= M + sumf prod e).
  { specialize (Hfl f (Nat.lt_succ_diag_r f)). apply Z.ltb_ge in Hfl. exact Hfl. }
  assert (HOf : sumf cons (S f) <= sumf cons k) by (apply sumf_mono; [auto|lia]).
  assert (Hend : (pe e <= cs f)%Q).
  { apply Huse. unfold useful. cbn [sumf] in *. lia. }
  rewrite (moved_all pe prod (S e)).
  - lia.
  - intros j Hj. eapply Qle_trans; [apply mono_le; [exact Hpe | apply Nat.lt_succ_r; exact Hj]|].
    eapply Qle_trans; [exact Hend|]. apply Hs. lia.
Qed.
End Core.
