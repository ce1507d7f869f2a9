(** One channel between two periodic tasks: its ordering conditions as thresholds. *)
From Coq Require Import QArith Qround Lqa Lia.
From Verif Require Import Base Graph Commons CommonsProofs KPeriodic ScheduleSpec ScheduleCore KPeriodicProofs KPeriodicChannel KPeriodicEnd DseSpec.
Open Scope Z_scope.

Section Chan.
Variables (M : Z) (pe cs : nat -> Q) (prod cons : nat -> Z) (P R : nat) (Zi Zj : Z) (rho : Q).
Hypothesis prod_nn : forall m, 0 <= prod m.
Hypothesis cons_nn : forall m, 0 <= cons m.
Hypothesis HP : (0 < P)%nat.
Hypothesis HR : (0 < R)%nat.
Hypothesis HZi : 0 < Zi.
Hypothesis HZj : 0 < Zj.
Hypothesis Hprod : forall m n, sumf prod (m + n * P) = sumf prod m + Z.of_nat n * Zi.
Hypothesis Hcons : forall m n, sumf cons (m + n * R) = sumf cons m + Z.of_nat n * Zj.
Hypothesis Hprod1 : forall m n, prod (m + n * P)%nat = prod m.
Hypothesis Hcons1 : forall m n, cons (m + n * R)%nat = cons m.
Hypothesis Hpe : forall m n, (pe (m + n * P)%nat == pe m + inject_Z (Z.of_nat n * Zi) * rho)%Q.
Hypothesis Hcs : forall m n, (cs (m + n * R)%nat == cs m + inject_Z (Z.of_nat n * Zj) * rho)%Q.

(** Tokens the pair (i, j), [a] tokens of iterations apart, is about. *)
Definition due (i j : nat) (a : Z) : Prop := a < sumf cons (S j) - sumf prod i - M.
Definition early (i j : nat) (a : Z) : Prop := Z.max 0 (prod i - cons j) + sumf cons (S j) - sumf prod (S i) - M <= a.

Lemma chan_sufficient : mono pe -> mono cs -> 0 <= M ->
  (forall i j a, (i < P)%nat -> (j < R)%nat -> (Z.gcd Zi Zj | a) -> early i j a -> due i j a -> (pe i + inject_Z a * rho <= cs j)%Q) ->
  never_negative M pe prod cs cons.
Proof.
  intros Mp Mc HM H. apply useful_ordered_sufficient; auto.
  { intros b. exists (0 + Z.to_nat b * P)%nat. rewrite Hprod. cbn [sumf]. nia. }
  intros e f [U1 U2].
  pose proof (Nat.div_mod e P ltac:(lia)) as De. pose proof (Nat.mod_upper_bound e P ltac:(lia)) as Le.
  pose proof (Nat.div_mod f R ltac:(lia)) as Df. pose proof (Nat.mod_upper_bound f R ltac:(lia)) as Lf.
  set (i := (e mod P)%nat) in *. set (j := (f mod R)%nat) in *. set (n := (e / P)%nat) in *. set (n' := (f / R)%nat) in *.
  assert (Ee : e = (i + n * P)%nat) by lia. assert (Ef : f = (j + n' * R)%nat) by lia. clear De Df. clearbody i j n n'. subst e f.
  specialize (H i j (Z.of_nat n * Zi - Z.of_nat n' * Zj) Le Lf).
  assert (Dg : (Z.gcd Zi Zj | Z.of_nat n * Zi - Z.of_nat n' * Zj)).
  { apply Z.divide_sub_r; apply Z.divide_mul_r; [apply Z.gcd_divide_l|apply Z.gcd_divide_r]. }
  change (S (i + n * P)) with (S i + n * P)%nat in *. change (S (j + n' * R)) with (S j + n' * R)%nat in *.
  rewrite Hprod, Hcons, Hprod1 in U2. rewrite Hprod, Hcons, Hprod1, Hcons1 in U1.
  specialize (H Dg). unfold early, due in H. cbn [sumf] in H, U1, U2.
  rewrite Hpe, Hcs. assert (X : (pe i + inject_Z (Z.of_nat n * Zi - Z.of_nat n' * Zj) * rho <= cs j)%Q) by (apply H; lia).
  unfold Z.sub in X. rewrite inject_Z_plus, inject_Z_opp in X. lra.
Qed.

Lemma chan_necessary : mono pe -> mono cs -> never_negative M pe prod cs cons ->
  forall i j a, (Z.gcd Zi Zj | a) -> due i j a -> (pe i + inject_Z a * rho <= cs j)%Q.
Proof.
  intros Mp Mc NN i j a Dg Hd. destruct (gcd_nonneg_combination Zi Zj a HZi HZj Dg) as (n & n' & Pn & Pn' & E).
  set (e := (i + Z.to_nat n * P)%nat). set (f := (j + Z.to_nat n' * R)%nat).
  assert (Hu : M + sumf prod e < sumf cons (S f)).
  { unfold e, f. change (S (j + Z.to_nat n' * R)) with (S j + Z.to_nat n' * R)%nat. rewrite Hprod, Hcons, !Z2Nat.id by lia. unfold due in Hd. lia. }
  assert (X : (pe e <= cs f)%Q).
  { destruct (NN (cs f) (S f)) as [np Hnp].
    rewrite (moved_all cs cons (S f)) in Hnp by (intros m Hm; apply mono_le; [exact Mc | lia]).
    destruct (Qlt_le_dec (cs f) (pe e)) as [Hlt|Hle]; [exfalso|exact Hle].
    assert (moved_by pe prod np (cs f) <= sumf prod e).
    { apply moved_prefix_le; auto. intros m Hm Hc. apply (Qlt_not_le _ _ Hlt). eapply Qle_trans; [|exact Hc]. apply mono_le; [exact Mp|lia]. }
    lia. }
  unfold e, f in X. rewrite Hpe, Hcs, !Z2Nat.id in X by lia. rewrite <- E. unfold Z.sub. rewrite inject_Z_plus, inject_Z_opp. lra.
Qed.
End Chan.

(** ** Room on a channel is the mirror image of its tokens. *)
Lemma room_iff cap preload ps prod ce cons :
  within_capacity cap preload ps prod ce cons <-> never_negative (cap - preload) ce cons ps prod.
Proof.
  unfold within_capacity, never_negative. split; intros H t n; destruct (H t n) as [m Hm]; exists m; lia.
Qed.

Lemma room_covers_preload cap preload ps prod ce cons : (forall m, 0 <= cons m) -> mono ce ->
  within_capacity cap preload ps prod ce cons -> preload <= cap.
Proof.
  intros Hc Mc H. destruct (H (ce 0%nat - 1)%Q 0%nat) as [nc Hn]. unfold moved_by at 1 in Hn. cbn [sumf] in Hn.
  assert (moved_by ce cons nc (ce 0%nat - 1) <= sumf cons 0).
  { apply moved_prefix_le; auto. intros m Hm C. pose proof (mono_le ce Mc 0 m ltac:(lia)). lra. }
  cbn [sumf] in *. lia.
Qed.
