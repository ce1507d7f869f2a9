(** Consequences of a normalisation. *)
From Coq Require Import QArith Lqa Lia.
From Verif Require Import Base Graph ScheduleSpec RepVec RepVecSpec Normal NormalSpec NormalProofs NormalDone.
Open Scope Z_scope.

Lemma inj_eq x y : (inject_Z x == inject_Z y)%Q -> x = y.
Proof. unfold Qeq, inject_Z. cbn. lia. Qed.

Lemma normalised_cross g zs al k c : normalised g zs al -> nth_error (edges g) k = Some c ->
  sumZ (e_in c) * nth (e_dst c) zs 0 = sumZ (e_out c) * nth (e_src c) zs 0.
Proof.
  intros (_ & _ & H) Hc. destruct (H k c Hc) as (a & _ & Ap & E1 & E2 & _).
  assert (E : (inject_Z (sumZ (e_in c)) * inject_Z (nth (e_dst c) zs 0%Z) == inject_Z (sumZ (e_out c)) * inject_Z (nth (e_src c) zs 0%Z))%Q) by (rewrite <- E1, <- E2; ring).
  rewrite <- !inject_Z_mult in E. exact (inj_eq _ _ E).
Qed.

Definition product (l : list Z) : Z := fold_right Z.mul 1 l.
Lemma product_pos l : (forall x, In x l -> 0 < x) -> 0 < product l.
Proof. induction l as [|x l IH]; intros H; cbn; [lia|]. apply Z.mul_pos_pos; [apply H; left; reflexivity|apply IH; intros; apply H; right; assumption]. Qed.
Lemma product_div l x : In x l -> (x | product l).
Proof. induction l as [|y l IH]; intros []; cbn; [subst; apply Z.divide_factor_l|]. apply Z.divide_mul_r, IH; assumption. Qed.

Lemma normalised_consistent g zs al : rates_wf g -> normalised g zs al -> moves_tokens g /\ exists M, solution g M.
Proof.
  intros [WP WF] Hn. pose proof Hn as (L & P & H).
  assert (MV : moves_tokens g).
  { intros c Hc. apply In_nth_error in Hc as [k Hk]. destruct (WF c (nth_error_In _ _ Hk)) as (vs & vd & Es & Ed & _).
    assert (Hs : (e_src c < length (vertices g))%nat) by (apply nth_error_Some; congruence). assert (Hd : (e_dst c < length (vertices g))%nat) by (apply nth_error_Some; congruence).
    destruct (H k c Hk) as (a & _ & Ap & E1 & E2 & _).
    assert (G : forall x z, 0 < z -> (a * inject_Z x == inject_Z z)%Q -> 0 < x).
    { intros x z Hz E. apply inj_pos in Hz. rewrite <- E in Hz. destruct (Z_lt_le_dec 0 x) as [|N]; [assumption|].
      exfalso. assert (N' : (inject_Z x <= 0)%Q) by (change 0%Q with (inject_Z 0); rewrite <- Zle_Qle; exact N). nra. }
    split; [apply (G _ _ (P _ Hs) E1)|apply (G _ _ (P _ Hd) E2)]. }
  split; [exact MV|].
  set (phases := fun i => match nth_error (vertices g) i with Some v => Z.of_nat (v_phases v) | None => 1 end).
  assert (PP : forall i, 0 < phases i). { intros i. unfold phases. destruct (nth_error (vertices g) i) as [v|] eqn:E; [|lia]. pose proof (WP v (nth_error_In _ _ E)). lia. }
  assert (ZP : forall x, In x zs -> 0 < x). { intros x Hx. apply (In_nth _ _ 0) in Hx as (i & Hi & <-). apply P. lia. }
  pose proof (product_pos zs ZP) as LP. set (T := product zs) in *.
  assert (EX : forall i, (i < length (vertices g))%nat -> T / nth i zs 0 * nth i zs 0 = T /\ 0 < T / nth i zs 0).
  { intros i Hi. pose proof (P i Hi) as Pi. assert (D : (nth i zs 0 | T)) by (apply product_div, nth_In; lia). destruct D as [m Em]. rewrite Em, Z.div_mul by lia. split; [reflexivity|]. nia. }
  exists (fun i => phases i * (T / nth i zs 0)). split.
  - intros i Hi. apply Z.mul_pos_pos; [apply PP|apply EX, Hi].
  - intros c Hc. apply In_nth_error in Hc as [k Hk]. destruct (WF c (nth_error_In _ _ Hk)) as (vs & vd & Es & Ed & Li & Lo & _).
    assert (Hs : (e_src c < length (vertices g))%nat) by (apply nth_error_Some; congruence). assert (Hd : (e_dst c < length (vertices g))%nat) by (apply nth_error_Some; congruence).
    assert (E1 : phases (e_src c) = Z.of_nat (length (e_in c))) by (unfold phases; rewrite Es, Li; reflexivity).
    assert (E2 : phases (e_dst c) = Z.of_nat (length (e_out c))) by (unfold phases; rewrite Ed, Lo; reflexivity).
    rewrite <- E1, <- E2. pose proof (normalised_cross g zs al k c Hn Hk) as X. destruct (EX _ Hs) as [X1 _]. destruct (EX _ Hd) as [X2 _]. pose proof (P _ Hs) as Ps. pose proof (P _ Hd) as Pd.
    set (A := T / nth (e_src c) zs 0) in *. set (B := T / nth (e_dst c) zs 0) in *. set (zi := nth (e_src c) zs 0) in *. set (zj := nth (e_dst c) zs 0) in *.
    assert (Y : sumZ (e_in c) * A = sumZ (e_out c) * B).
    { apply (Z.mul_cancel_r _ _ (zi * zj)); [nia|]. transitivity (sumZ (e_in c) * zj * (A * zi)); [ring|]. transitivity (sumZ (e_out c) * zi * (B * zj)); [|ring]. rewrite X, X1, X2. reflexivity. }
    transitivity (phases (e_src c) * phases (e_dst c) * (sumZ (e_in c) * A)); [ring|]. rewrite Y. ring.
Qed.

Lemma normalize_exact fuel g : rates_wf g -> no_lone_task g -> (length (vertices g) <= fuel)%nat ->
  (exists zs al, normalize fuel g = Ok (Some (zs, al))) <-> moves_tokens g /\ exists M, solution g M.
Proof.
  intros WF NL HF. split.
  - intros (zs & al & E). apply (normalised_consistent g zs al WF), (normalize_sound fuel g zs al WF E).
  - intros [MV [M SOL]]. exact (normalize_complete g M WF MV SOL fuel NL HF).
Qed.

(** [x i / y i] is the same for all linked tasks. *)
Lemma same_amount g zs al M i j vi vj : rates_wf g -> normalised g zs al -> solution g M -> linked g i j ->
  nth_error (vertices g) i = Some vi -> nth_error (vertices g) j = Some vj ->
  nth i zs 0 * M i * Z.of_nat (v_phases vj) = nth j zs 0 * M j * Z.of_nat (v_phases vi).
Proof.
  intros WF Hn SOL L. revert vj. pose proof (normalised_consistent g zs al WF Hn) as [MV _].
  assert (ST : forall c vs vd, In c (edges g) -> nth_error (vertices g) (e_src c) = Some vs -> nth_error (vertices g) (e_dst c) = Some vd ->
    nth (e_src c) zs 0 * M (e_src c) * Z.of_nat (v_phases vd) = nth (e_dst c) zs 0 * M (e_dst c) * Z.of_nat (v_phases vs)).
  { intros c vs vd Hc Es Ed. destruct (proj2 WF c Hc) as (vs' & vd' & Es' & Ed' & Li & Lo & _). assert (vs' = vs) as -> by congruence. assert (vd' = vd) as -> by congruence.
    pose proof (proj2 SOL c Hc) as B. rewrite Li, Lo in B. apply In_nth_error in Hc as Hk. destruct Hk as [k Hk]. pose proof (normalised_cross g zs al k c Hn Hk) as X. destruct (MV c Hc) as [M1 M2].
    apply (Z.mul_cancel_l _ _ (sumZ (e_in c) * sumZ (e_out c))); [nia|].
    transitivity ((sumZ (e_out c) * nth (e_src c) zs 0) * (sumZ (e_in c) * M (e_src c) * Z.of_nat (v_phases vd))); [ring|].
    rewrite B, <- X. ring. }
  assert (PV : forall k v, nth_error (vertices g) k = Some v -> 0 < Z.of_nat (v_phases v)) by (intros k v E; pose proof (proj1 WF v (nth_error_In _ _ E)); lia).
  induction L as [|i c Hc _ IH|i c Hc _ IH]; intros vj Ei Ej.
  - assert (vi = vj) as -> by congruence. reflexivity.
  - destruct (proj2 WF c Hc) as (vs & vd & Es & Ed & _). specialize (IH vs Ei Es). pose proof (ST c vs vj Hc Es Ej) as S. pose proof (PV _ _ Es).
    apply (Z.mul_cancel_r _ _ (Z.of_nat (v_phases vs))); [lia|].
    transitivity ((nth i zs 0 * M i * Z.of_nat (v_phases vs)) * Z.of_nat (v_phases vj)); [ring|]. rewrite IH.
    transitivity ((nth (e_src c) zs 0 * M (e_src c) * Z.of_nat (v_phases vj)) * Z.of_nat (v_phases vi)); [ring|]. rewrite S. ring.
  - destruct (proj2 WF c Hc) as (vs & vd & Es & Ed & _). specialize (IH vd Ei Ed). pose proof (ST c vj vd Hc Ej Ed) as S. pose proof (PV _ _ Ed).
    apply (Z.mul_cancel_r _ _ (Z.of_nat (v_phases vd))); [lia|].
    transitivity ((nth i zs 0 * M i * Z.of_nat (v_phases vd)) * Z.of_nat (v_phases vj)); [ring|]. rewrite IH.
    transitivity ((nth (e_dst c) zs 0 * M (e_dst c) * Z.of_nat (v_phases vj)) * Z.of_nat (v_phases vi)); [ring|]. rewrite <- S. ring.
Qed.

Lemma connected_no_lone g : rates_wf g -> connected_graph g -> no_lone_task g.
Proof.
  intros WF CG. destruct (edges g) as [|c0 es] eqn:E; [left; exact E|right]. intros i Hi.
  assert (H0 : In c0 (edges g)) by (rewrite E; left; reflexivity). destruct (proj2 WF c0 H0) as (vs & vd & Es & _).
  assert (Hs : (e_src c0 < length (vertices g))%nat) by (apply nth_error_Some; congruence).
  pose proof (CG (e_src c0) i Hs Hi) as L. remember (e_src c0) as s eqn:Hs0. destruct L as [j|j c Hc _|j c Hc _]; [exists c0|exists c|exists c]; unfold has_channel; auto.
Qed.
