From Coq Require Import QArith Qreduction Lqa Lia Field.
From Verif Require Import Base Graph ScheduleSpec RepVec RepVecSpec Normal NormalSpec.
Open Scope Z_scope.

(** * Integers among the rationals *)
Lemma lowest_den_one q : lowest_den q = 1 -> q == inject_Z (as_integer q).
Proof.
  unfold lowest_den, as_integer. intros H. rewrite <- (Qred_correct q) at 1. destruct (Qred q) as [a b]. cbn in *. injection H as ->. reflexivity.
Qed.
Lemma integer_lowest_den q z : q == inject_Z z -> lowest_den q = 1 /\ as_integer q = z.
Proof.
  intros H. unfold lowest_den, as_integer. rewrite (Qred_complete _ _ H). unfold inject_Z. 
  assert (E : Qred (z # 1) = z # 1).
  { unfold Qred. pose proof (Z.ggcd_gcd z 1) as G. pose proof (Z.ggcd_correct_divisors z 1) as D. destruct (Z.ggcd z 1) as [d [a b]]. cbn in *.
    rewrite Z.gcd_1_r in G. subst d. destruct D as [D1 D2]. rewrite Z.mul_1_l in D1, D2. subst a b. reflexivity. }
  rewrite E. split; reflexivity.
Qed.
Lemma is_integer_iff q : is_integer q = true <-> exists z, q == inject_Z z.
Proof.
  unfold is_integer. rewrite Z.eqb_eq. split; [intros H; exists (as_integer q); apply lowest_den_one, H|intros [z H]; apply (integer_lowest_den q z H)].
Qed.
Lemma lowest_den_pos q : 0 < lowest_den q. Proof. unfold lowest_den. lia. Qed.
Lemma lowest_den_clears q : exists z, q * inject_Z (lowest_den q) == inject_Z z.
Proof.
  exists (Qnum (Qred q)). unfold lowest_den. rewrite <- (Qred_correct q) at 1. destruct (Qred q) as [a b]. cbn [Qnum Qden]. unfold Qeq, Qmult, inject_Z. cbn. lia.
Qed.

(** * Channels *)
Lemma listed_in g k c : In (k, c) (listed g) <-> nth_error (edges g) k = Some c.
Proof.
  unfold listed. generalize (edges g) as l. intros l.
  assert (G : forall s, In (k, c) (combine (seq s (length l)) l) <-> (s <= k)%nat /\ nth_error l (k - s) = Some c).
  { induction l as [|x l IH]; intros s; cbn [length seq combine].
    - split; [intros []|]. intros [_ H]. destruct (k - s)%nat; discriminate.
    - cbn [In]. rewrite IH. split.
      + intros [E|[H1 H2]]; [injection E as -> ->; split; [lia|]; rewrite Nat.sub_diag; reflexivity|]. split; [lia|]. replace (k - s)%nat with (S (k - S s)) by lia. exact H2.
      + intros [H1 H2]. destruct (Nat.eq_dec s k) as [->|Hne]; [left; rewrite Nat.sub_diag in H2; cbn in H2; congruence|right]. split; [lia|].
        replace (k - s)%nat with (S (k - S s)) in H2 by lia. exact H2. }
  rewrite G, Nat.sub_0_r. split; [tauto|]. intros H. split; [lia|exact H].
Qed.
Lemma connected_in g t k c : In (k, c) (connected_edges g t) <-> nth_error (edges g) k = Some c /\ (e_src c = t \/ e_dst c = t).
Proof.
  unfold connected_edges. rewrite filter_In, listed_in. cbn [snd]. unfold connected. rewrite orb_true_iff, !Nat.eqb_eq. reflexivity.
Qed.

(** * The stored result *)
Lemma set_alpha_same al k q : set_alpha al k q k = Some q.
Proof. unfold set_alpha. rewrite Nat.eqb_refl. reflexivity. Qed.
Lemma set_alpha_other al k q k' : k' <> k -> set_alpha al k q k' = al k'.
Proof. unfold set_alpha. intros H. apply Nat.eqb_neq in H. rewrite H. reflexivity. Qed.

Definition coefficient_of (z : weights) (c : edge) (a : Q) : Prop :=
  exists zi zj, z (e_src c) = Some zi /\ z (e_dst c) = Some zj /\ 0 < zi /\ 0 < zj /\ 0 < edge_in_total c /\ 0 < edge_out_total c /\
    (a == inject_Z zi / inject_Z (edge_in_total c))%Q /\ (a == inject_Z zj / inject_Z (edge_out_total c))%Q.

Lemma set_coefficients_spec g z es : (forall k c, In (k, c) es -> nth_error (edges g) k = Some c) -> forall al al', set_coefficients z es al = Ok al' ->
  (forall k c a, nth_error (edges g) k = Some c -> al k = Some a -> coefficient_of z c a) ->
  (forall k c a, nth_error (edges g) k = Some c -> al' k = Some a -> coefficient_of z c a) /\
  (forall k, al k <> None -> al' k <> None) /\ (forall k c, In (k, c) es -> al' k <> None).
Proof.
  induction es as [|[k c] es IH]; intros Hes al al' H Hal; cbn [set_coefficients] in H.
  - injection H as <-. split; [exact Hal|]. split; [auto|intros ? ? []].
  - destruct (z (e_src c)) as [zi|] eqn:Zi; [|discriminate]. destruct (z (e_dst c)) as [zj|] eqn:Zj; [|discriminate].
    cbn zeta in H. destruct ((0 <? zi) && (0 <? edge_in_total c) && (0 <? zj) && (0 <? edge_out_total c)) eqn:P; [|discriminate]. cbn [cassert bind] in H.
    destruct (Qeq_bool _ _) eqn:Q; [|discriminate]. cbn [cassert bind] in H. apply Qeq_bool_iff in Q. rewrite !andb_true_iff, !Z.ltb_lt in P. destruct P as (((P1 & P2) & P3) & P4).
    assert (Hc : nth_error (edges g) k = Some c) by (apply Hes; left; reflexivity).
    destruct (IH (fun k' c' Hin => Hes k' c' (or_intror Hin)) _ _ H) as (A & B & C).
    { intros k' c' a Hc' Ha. unfold set_alpha in Ha. destruct (Nat.eqb_spec k' k) as [->|Hne]; [|eapply Hal; eassumption].
      injection Ha as <-. assert (c' = c) as -> by congruence. exists zi, zj. repeat (split; [assumption || reflexivity|]). exact Q. }
    split; [exact A|]. split.
    + intros k' Hk'. apply B. unfold set_alpha. destruct (k' =? k)%nat; [discriminate|exact Hk'].
    + intros k' c' [E|Hin]; [injection E as <- <-; apply B; rewrite set_alpha_same; discriminate|eapply C; exact Hin].
Qed.

Lemma set_normalization_spec g z ts : forall zs al zs' al', set_normalization g z ts zs al = Ok (Some (zs', al')) ->
  (forall k c a, nth_error (edges g) k = Some c -> al k = Some a -> coefficient_of z c a) ->
  (forall k c a, nth_error (edges g) k = Some c -> al' k = Some a -> coefficient_of z c a) /\
  (forall k, al k <> None -> al' k <> None) /\
  (forall t k c, In t ts -> nth_error (edges g) k = Some c -> e_src c = t -> al' k <> None) /\
  exists l, zs' = zs ++ l /\ Forall2 (fun t x => z t = Some x /\ 0 < x) ts l.
Proof.
  induction ts as [|t ts IH]; intros zs al zs' al' H Hal; cbn [set_normalization] in H.
  - injection H as <- <-. split; [exact Hal|]. split; [auto|]. split; [intros ? ? ? []|]. exists []. rewrite app_nil_r. split; [reflexivity|constructor].
  - destruct (z t) as [x|] eqn:Zt; [|discriminate]. destruct (0 <? x) eqn:Px; [|discriminate]. cbn [cassert bind] in H.
    destruct (set_coefficients z (connected_edges g t) al) as [al1| | |] eqn:S; cbn [bind] in H; try discriminate.
    destruct (set_coefficients_spec g z _ (fun k c Hin => proj1 (proj1 (connected_in g t k c) Hin)) _ _ S Hal) as (A & B & C).
    destruct (IH _ _ _ _ H A) as (A' & B' & C' & l & El & F). split; [exact A'|]. split; [auto|]. split.
    + intros t' k c [<-|Hin] Hc Es; [|eapply C'; eassumption]. apply B'. eapply C. apply connected_in. split; [exact Hc|left; exact Es].
    + exists (x :: l). rewrite El, <- app_assoc. split; [reflexivity|]. constructor; [|exact F]. split; [exact Zt|]. apply Z.ltb_lt, Px.
Qed.

Lemma Forall2_seq {A} (R : nat -> A -> Prop) (d : A) l : forall s n, Forall2 R (seq s n) l -> length l = n /\ forall i, (i < n)%nat -> R (s + i)%nat (nth i l d).
Proof.
  induction l as [|x l IH]; intros s n H.
  - inversion H as [E|]. destruct n; [|discriminate]. split; [reflexivity|]. intros i Hi. lia.
  - destruct n as [|n]; [inversion H|]. cbn [seq] in H. inversion_clear H. destruct (IH _ _ H1) as [L K]. split; [cbn; lia|].
    intros [|i] Hi; [rewrite Nat.add_0_r; exact H0|]. cbn. replace (s + S i)%nat with (S s + i)%nat by lia. apply K. lia.
Qed.

Lemma rates_ok_spec get zi ui zj uj n : forall phase, rates_ok get zi ui zj uj n phase = Ok true ->
  forall i, (i < n)%nat -> exists old, get (phase + Z.of_nat i) = Ok old /\ value_ok old zi ui zj uj = true.
Proof.
  induction n as [|n IH]; intros phase H i Hi; [lia|]. cbn [rates_ok] in H. destruct (get phase) as [old| | |] eqn:G; cbn [bind] in H; try discriminate.
  destruct (value_ok old zi ui zj uj) eqn:V; [|discriminate]. destruct i as [|i]; [rewrite Z.add_0_r; exists old; auto|].
  destruct (IH _ H i ltac:(lia)) as (o & E & Vo). exists o. split; [|exact Vo]. rewrite <- E. f_equal. lia.
Qed.
Lemma check_validity_spec g z es : check_validity g z es = Ok true -> forall k c, In (k, c) es -> channel_ok g z c = Ok true.
Proof.
  induction es as [|[k c] es IH]; intros H k' c' Hin; [destruct Hin|]. cbn [check_validity] in H. destruct (channel_ok g z c) as [[|]| | |] eqn:C; cbn [bind] in H; try discriminate.
  destruct Hin as [E|Hin]; [injection E as <- <-; exact C|eauto].
Qed.

Lemma value_ok_integer old zi ui zj uj : value_ok old zi ui zj uj = true -> exists y, (inject_Z old * (inject_Z zi / inject_Z ui) == inject_Z y)%Q.
Proof. unfold value_ok. rewrite !andb_true_iff. intros [[[[[H _] _] _] _] _]. apply is_integer_iff, H. Qed.

Lemma inj_pos z : 0 < z -> (0 < inject_Z z)%Q.
Proof. intros H. change 0%Q with (inject_Z 0). rewrite <- Zlt_Qlt. exact H. Qed.
Lemma div_mul_z a z u : 0 < u -> (a == inject_Z z / inject_Z u)%Q -> (a * inject_Z u == inject_Z z)%Q.
Proof. intros Hu ->. field. pose proof (inj_pos u Hu). lra. Qed.
Lemma edge_in_phase_nth c i : (i < length (e_in c))%nat -> edge_in_phase c (1 + Z.of_nat i) = Ok (nth i (e_in c) 0).
Proof.
  intros H. unfold edge_in_phase. destruct (Z.leb_spec (1 + Z.of_nat i) 0); [lia|]. unfold at_index. destruct (Z.ltb_spec (1 + Z.of_nat i - 1) 0); [lia|].
  replace (Z.to_nat (1 + Z.of_nat i - 1)) with i by lia. rewrite (nth_error_nth' _ 0 H). reflexivity.
Qed.
Lemma edge_out_phase_nth c i : (i < length (e_out c))%nat -> edge_out_phase c (1 + Z.of_nat i) = Ok (nth i (e_out c) 0).
Proof.
  intros H. unfold edge_out_phase. destruct (Z.leb_spec (1 + Z.of_nat i) 0); [lia|]. unfold at_index. destruct (Z.ltb_spec (1 + Z.of_nat i - 1) 0); [lia|].
  replace (Z.to_nat (1 + Z.of_nat i - 1)) with i by lia. rewrite (nth_error_nth' _ 0 H). reflexivity.
Qed.

Lemma normalize_sound fuel g zs al : rates_wf g -> normalize fuel g = Ok (Some (zs, al)) -> normalised g zs al.
Proof.
  intros [_ WF] H. unfold normalize in H. destruct (rational_normalize fuel g) as [[z|]| | |]; cbn [bind] in H; try discriminate.
  destruct (check_validity g z (listed g)) as [[|]| | |] eqn:V; cbn [bind] in H; try discriminate.
  destruct (set_normalization_spec _ _ _ _ _ _ _ H) as (A & _ & C & l & El & F). { intros ? ? ? _ E. discriminate. }
  cbn [app] in El. subst l. apply (Forall2_seq _ 0) in F as [L F]. unfold normalised.
  split; [exact L|]. split; [intros i Hi; apply (F i Hi)|].
  intros k c Hc. destruct (WF c (nth_error_In _ _ Hc)) as (vs & vd & Es & Ed & Li & Lo & Hr).
  assert (Hs : (e_src c < length (vertices g))%nat) by (apply nth_error_Some; congruence).
  assert (Hd : (e_dst c < length (vertices g))%nat) by (apply nth_error_Some; congruence).
  destruct (al k) as [a|] eqn:Ha; [|exfalso; apply (C (e_src c) k c); auto; apply in_seq; lia].
  destruct (A k c a Hc Ha) as (zi & zj & Z1 & Z2 & P1 & P2 & P3 & P4 & A1 & A2).
  pose proof (F _ Hs) as [F1 _]. pose proof (F _ Hd) as [F2 _]. cbn [Nat.add] in F1, F2.
  assert (nth (e_src c) zs 0 = zi) as -> by congruence. assert (nth (e_dst c) zs 0 = zj) as -> by congruence.
  exists a. split; [reflexivity|]. split; [rewrite A1; apply Qlt_shift_div_l; [apply inj_pos, P3|rewrite Qmult_0_l; apply inj_pos, P1]|].
  split; [apply div_mul_z; assumption|]. split; [apply div_mul_z; assumption|].
  pose proof (check_validity_spec _ _ _ V k c (proj2 (listed_in g k c) Hc)) as K. unfold channel_ok in K. rewrite Z1, Z2, Es, Ed in K.
  destruct (fine_gcd c) as [fine| | |]; cbn [bind] in K; try discriminate. destruct (_ || _); [discriminate|]. destruct (negb _); [discriminate|].
  destruct (rates_ok (edge_in_phase c) _ _ _ _ _ _) as [[|]| | |] eqn:R1; cbn [bind negb] in K; try discriminate.
  assert (G : forall old, value_ok old zi (edge_in_total c) zj (edge_out_total c) = true -> exists y, (a * inject_Z old == inject_Z y)%Q).
  { intros old Ho. apply value_ok_integer in Ho as [y Hy]. exists y. rewrite <- Hy, A1. ring. }
  intros x Hx. apply in_app_or in Hx. destruct Hx as [Hx|Hx]; apply (In_nth _ _ 0) in Hx as (i & Hi & <-).
  - destruct (rates_ok_spec _ _ _ _ _ _ _ R1 i ltac:(lia)) as (old & E & Vo). rewrite edge_in_phase_nth in E by exact Hi. injection E as <-. apply G, Vo.
  - destruct (rates_ok_spec _ _ _ _ _ _ _ K i ltac:(lia)) as (old & E & Vo). rewrite edge_out_phase_nth in E by exact Hi. injection E as <-. apply G, Vo.
Qed.
