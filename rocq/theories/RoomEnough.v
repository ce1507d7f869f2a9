(** Finite buffers lose no throughput: any schedule can be delayed into one that keeps its pace
    and never runs ahead of it, and such a schedule needs bounded room. *)
From Coq Require Import QArith Qround Lqa.
From Verif Require Import Base Graph ScheduleSpec ScheduleCore KIterSpec KPeriodicProofs Sim SimSpec SimSccCompose.
Open Scope Z_scope.

(** ** Delaying *)
Definition later (a b : Q) : Q := if Qle_bool a b then b else a.
Lemma later_l a b : (a <= later a b)%Q.
Proof. unfold later. destruct (Qle_bool a b) eqn:E; [apply Qle_bool_iff; assumption|apply Qle_refl]. Qed.
Lemma later_r a b : (b <= later a b)%Q.
Proof. unfold later. destruct (Qle_bool a b) eqn:E; [apply Qle_refl|]. destruct (Qlt_le_dec b a); [lra|]. assert (Qle_bool a b = true) by (apply Qle_bool_iff; assumption). congruence. Qed.

(** The latest of executions m, m-n, ..., m-kn, each delayed by [w] for every [n] executions. *)
Fixpoint latest (f : nat -> Q) (n : nat) (w : Q) (k m : nat) : Q :=
  match k with
  | O => f m
  | S k' => later (f (m - k * n)%nat + inject_Z (Z.of_nat k) * w)%Q (latest f n w k' m)
  end.
Lemma latest_ge f n w m : forall k r, (r <= k)%nat -> (f (m - r * n)%nat + inject_Z (Z.of_nat r) * w <= latest f n w k m)%Q.
Proof.
  induction k as [|k IH]; intros r Hr.
  - assert (r = O) as -> by lia. cbn [latest Nat.mul]. rewrite Nat.sub_0_r. change (inject_Z (Z.of_nat 0)) with 0%Q. lra.
  - cbn [latest]. destruct (Nat.eq_dec r (S k)) as [->|]; [apply later_l|]. eapply Qle_trans; [apply (IH r); lia|apply later_r].
Qed.
Lemma latest_is f n w m : forall k, exists r, (r <= k)%nat /\ (latest f n w k m == f (m - r * n)%nat + inject_Z (Z.of_nat r) * w)%Q.
Proof.
  induction k as [|k (r & Hr & E)].
  - exists O. split; [lia|]. cbn [latest Nat.mul]. rewrite Nat.sub_0_r. change (inject_Z (Z.of_nat 0)) with 0%Q. ring.
  - cbn [latest]. unfold later. destruct Qle_bool; [exists r; split; [lia|assumption]|]. exists (S k). split; [lia|]. reflexivity.
Qed.

Section Room.
Variables (g : graph) (N : nat -> Z) (omega : Q).
Hypotheses (WF : graph_wf g) (NI : no_init g) (NP : forall i, (i < length (vertices g))%nat -> 0 < N i)
  (BA : balanced g N) (WC : forall i v, nth_error (vertices g) i = Some v -> (Z.of_nat (v_phases v) | N i)) (W0 : (0 < omega)%Q).
Notation it i := (Z.to_nat (N i)).

Definition evened (s : schedule) : schedule := fun i m => latest (s i) (it i) omega (m / it i) m.

Lemma duration_shift i v m r : nth_error (vertices g) i = Some v -> (r * it i <= m)%nat -> exec_duration v (m - r * it i) = exec_duration v m.
Proof.
  intros Ei H. pose proof (nth_error_In _ _ Ei) as Iv. destruct (proj1 WF v Iv) as (A & B & C & _). destruct (WC i v Ei) as [a Ea].
  pose proof (NP i ltac:(apply nth_error_Some; congruence)) as P.
  assert (L : v_init_durations v = []) by (apply length_zero_iff_nil; rewrite C; apply NI; assumption).
  unfold exec_duration, cyclic. rewrite L. cbn [length]. change (?x <? 0)%nat with false. cbn iota. rewrite !Nat.sub_0_r. f_equal.
  assert (it i = Z.to_nat a * v_phases v)%nat as E by (rewrite Ea; nia). rewrite B.
  replace m with (m - r * it i + (r * Z.to_nat a) * v_phases v)%nat at 2 by (rewrite <- Nat.mul_assoc, <- E; lia).
  rewrite Nat.mod_add by lia. reflexivity.
Qed.

Lemma evened_serialised s i v : nth_error (vertices g) i = Some v -> task_serialised s i v -> task_serialised (evened s) i v.
Proof.
  intros Ei H m. unfold start_of, evened. pose proof (NP i ltac:(apply nth_error_Some; congruence)) as P.
  destruct (latest_is (s i) (it i) omega m (m / it i)) as (r & Hr & ->).
  assert (Hm : (r * it i <= m)%nat) by (pose proof (Nat.mul_div_le m (it i) ltac:(lia)); nia).
  pose proof (latest_ge (s i) (it i) omega (S m) (S m / it i) r) as G.
  assert ((r <= S m / it i)%nat) as L by (eapply Nat.le_trans; [exact Hr|apply Nat.div_le_mono; lia]). specialize (G L).
  specialize (H (m - r * it i)%nat). unfold start_of in H. rewrite (duration_shift i v m r Ei Hm) in H.
  replace (S (m - r * it i)) with (S m - r * it i)%nat in H by lia. lra.
Qed.

(** Tokens per iteration. *)
Lemma channel_shape c : In c (edges g) -> exists P, 0 <= P /\ (forall m, 0 <= prod_rate c m) /\ (forall m, 0 <= cons_rate c m) /\
  (forall n r, sumf (prod_rate c) (n + r * it (e_src c)) = sumf (prod_rate c) n + Z.of_nat r * P) /\
  (forall n r, sumf (cons_rate c) (n + r * it (e_dst c)) = sumf (cons_rate c) n + Z.of_nat r * P) /\
  (forall b, exists n, b <= sumf (prod_rate c) n).
Proof.
  intros Hc. destruct (proj1 (proj2 WF) c Hc) as (vs & vd & Es & Ed & L1 & L2 & L3 & L4 & NN & S1 & S2 & P0).
  pose proof (nth_error_In _ _ Es) as Is. pose proof (nth_error_In _ _ Ed) as Id.
  pose proof (proj1 (proj1 WF vs Is)) as Ps. pose proof (proj1 (proj1 WF vd Id)) as Pd.
  pose proof (NP (e_src c) ltac:(apply nth_error_Some; congruence)) as N1. pose proof (NP (e_dst c) ltac:(apply nth_error_Some; congruence)) as N2.
  assert (I1 : e_in_init c = []) by (apply length_zero_iff_nil; rewrite L3; apply NI; assumption).
  assert (I2 : e_out_init c = []) by (apply length_zero_iff_nil; rewrite L4; apply NI; assumption).
  destruct (WC _ _ Es) as [a Ea]. destruct (WC _ _ Ed) as [b Eb].
  pose proof (BA c Hc) as Bc. rewrite L1, L2, Ea, Eb in Bc. assert (a > 0 /\ b > 0) as [A0 B0] by nia.
  assert (EQ : sumZ (e_in c) * a = sumZ (e_out c) * b).
  { apply (Z.mul_cancel_r _ _ (Z.of_nat (v_phases vs) * Z.of_nat (v_phases vd))); [nia|].
    transitivity (sumZ (e_in c) * (a * Z.of_nat (v_phases vs)) * Z.of_nat (v_phases vd)); [ring|]. rewrite Bc. ring. }
  exists (sumZ (e_in c) * a). unfold prod_rate, cons_rate. rewrite I1, I2.
  assert (R1 : forall m, 0 <= cyclic 0 [] (e_in c) m).
  { intros m. apply NN. pose proof (KPeriodicProofs.cyclic_in 0 [] (e_in c) m ltac:(lia)) as I. cbn [app] in I. rewrite !in_app_iff. tauto. }
  assert (R2 : forall m, 0 <= cyclic 0 [] (e_out c) m).
  { intros m. apply NN. pose proof (KPeriodicProofs.cyclic_in 0 [] (e_out c) m ltac:(lia)) as I. cbn [app] in I. rewrite !in_app_iff. tauto. }
  split; [nia|]. split; [assumption|]. split; [assumption|]. split; [|split].
  - intros n r. replace (r * it (e_src c))%nat with (r * Z.to_nat a * length (e_in c))%nat by (rewrite L1, Ea; nia).
    rewrite KPeriodicProofs.cyclic_sum by (cbn; lia). rewrite Nat2Z.inj_mul, Z2Nat.id by lia. ring.
  - intros n r. replace (r * it (e_dst c))%nat with (r * Z.to_nat b * length (e_out c))%nat by (rewrite L2, Eb; nia).
    rewrite KPeriodicProofs.cyclic_sum by (cbn; lia). rewrite Nat2Z.inj_mul, Z2Nat.id by lia. rewrite EQ. ring.
  - apply KPeriodicGraph.cyclic_unbounded; [lia|assumption|assumption].
Qed.

Lemma duration_nn v m : In v (vertices g) -> (0 <= exec_duration v m)%Q.
Proof.
  intros Hv. destruct (proj1 WF v Hv) as (A & B & C & D). apply D.
  pose proof (KPeriodicProofs.cyclic_in 0%Q (v_init_durations v) (v_durations v) m ltac:(lia)) as I. rewrite in_app_iff in *. tauto.
Qed.
Lemma task_mono s i v : nth_error (vertices g) i = Some v -> task_serialised s i v -> mono (s i).
Proof. intros Ei H m. specialize (H m). pose proof (duration_nn v m (nth_error_In _ _ Ei)). unfold start_of in H. lra. Qed.
Lemma ends_mono s i v : nth_error (vertices g) i = Some v -> task_serialised s i v -> mono (end_of s g i).
Proof. intros Ei H m. unfold end_of. rewrite Ei. pose proof (H m). pose proof (duration_nn v (S m) (nth_error_In _ _ Ei)). unfold start_of in *. lra. Qed.

(** The executions started by [t] are the first ones. *)
Lemma prefix_count (f : nat -> Q) t n : mono f -> exists k, (k <= n)%nat /\ (forall m, (m < k)%nat -> (f m <= t)%Q) /\ (forall m, (k <= m < n)%nat -> ~ (f m <= t)%Q).
Proof.
  clear. intros Hm. induction n as [|n (k & Hk & A & B)]; [exists O; repeat split; intros; lia|].
  destruct (Qlt_le_dec t (f n)) as [L|L].
  - exists k. repeat split; [lia|assumption|]. intros m H. destruct (Nat.eq_dec m n) as [->|]; [apply Qlt_not_le; assumption|apply B; lia].
  - exists (S n). repeat split; [lia| |intros; lia]. intros m H. eapply Qle_trans; [apply (mono_le f Hm m n); lia|assumption].
Qed.

Lemma evened_channel s c : schedule_valid g s -> In c (edges g) -> channel_valid g (evened s) c.
Proof.
  intros [SC SS] Hc t nc. destruct (channel_shape c Hc) as (P & P0 & Rp & Rc & Ip & Ic & Un).
  destruct (proj1 (proj2 WF) c Hc) as (vs & vd & Es & Ed & _).
  pose proof (NP (e_src c) ltac:(apply nth_error_Some; congruence)) as N1. pose proof (NP (e_dst c) ltac:(apply nth_error_Some; congruence)) as N2.
  pose proof (task_mono _ _ _ Ed (evened_serialised s _ _ Ed (SS _ _ Ed))) as Md. pose proof (task_mono _ _ _ Ed (SS _ _ Ed)) as Ms.
  pose proof (ends_mono _ _ _ Es (SS _ _ Es)) as Me.
  destruct (prefix_count (evened s (e_dst c)) t nc Md) as (k & Hk & A & B).
  assert (C : moved_by (start_of (evened s) (e_dst c)) (cons_rate c) nc t <= sumf (cons_rate c) k) by (apply moved_prefix_le; assumption).
  destruct k as [|k].
  { exists O. unfold moved_by at 2. cbn [sumf] in *. destruct (proj1 (proj2 WF) c Hc) as (? & ? & _ & _ & _ & _ & _ & _ & _ & _ & _ & Q0). lia. }
  destruct (Un (sumf (cons_rate c) (S k) - e_preload c)) as [n0 Hn0].
  destruct (least_index (fun n => sumf (cons_rate c) (S k) - e_preload c <=? sumf (prod_rate c) n) n0) as (n & _ & Hn & Least); [apply Z.leb_le; assumption|].
  apply Z.leb_le in Hn. exists n. rewrite (moved_all (end_of (evened s) g (e_src c))); [lia|]. intros e He. specialize (Least e He). apply Z.leb_gt in Least.
  unfold end_of. rewrite Es. unfold evened.
  destruct (latest_is (s (e_src c)) (it (e_src c)) omega e (e / it (e_src c))) as (r & Hr & ->).
  assert (Hm : (r * it (e_src c) <= e)%nat) by (pose proof (Nat.mul_div_le e (it (e_src c)) ltac:(lia)); nia).
  assert (E1 : sumf (prod_rate c) e = sumf (prod_rate c) (e - r * it (e_src c)) + Z.of_nat r * P) by (rewrite <- Ip; f_equal; lia).
  assert (Q0 : 0 <= e_preload c) by (destruct (proj1 (proj2 WF) c Hc) as (? & ? & _ & _ & _ & _ & _ & _ & _ & _ & _ & Q0); exact Q0).
  assert (Lk : (r * it (e_dst c) <= k)%nat).
  { destruct (le_lt_dec (r * it (e_dst c)) k) as [|G]; [assumption|exfalso]. pose proof (sumf_mono (cons_rate c) (S k) (0 + r * it (e_dst c)) Rc ltac:(lia)) as X.
    rewrite Ic in X. change (sumf (cons_rate c) 0) with 0 in X. pose proof (sumf_nonneg (prod_rate c) (e - r * it (e_src c)) Rp). lia. }
  assert (E2 : sumf (cons_rate c) (S k) = sumf (cons_rate c) (S (k - r * it (e_dst c))) + Z.of_nat r * P) by (rewrite <- Ic; f_equal; lia).
  assert (Z1 : (end_of s g (e_src c) (e - r * it (e_src c)) <= s (e_dst c) (k - r * it (e_dst c))%nat)%Q).
  { destruct (Qlt_le_dec (s (e_dst c) (k - r * it (e_dst c))%nat) (end_of s g (e_src c) (e - r * it (e_src c)))) as [G|]; [exfalso|assumption].
    destruct (SC c Hc (s (e_dst c) (k - r * it (e_dst c))%nat) (S (k - r * it (e_dst c)))) as (np & X).
    rewrite (moved_all (start_of s (e_dst c))) in X by (intros m L; apply mono_le; [exact Ms|lia]).
    assert (Y : moved_by (end_of s g (e_src c)) (prod_rate c) np (s (e_dst c) (k - r * it (e_dst c))%nat) <= sumf (prod_rate c) (e - r * it (e_src c))).
    { apply moved_prefix_le; [assumption|]. intros m L Q. apply (Qlt_not_le _ _ G). eapply Qle_trans; [|exact Q]. apply mono_le; [exact Me|lia]. }
    lia. }
  unfold end_of in Z1. rewrite Es, (duration_shift _ _ _ _ Es Hm) in Z1.
  pose proof (A k ltac:(lia)) as Ak. unfold evened in Ak.
  pose proof (latest_ge (s (e_dst c)) (it (e_dst c)) omega k (k / it (e_dst c)) r) as G.
  assert ((r <= k / it (e_dst c))%nat) as Lr by (apply Nat.div_le_lower_bound; lia). specialize (G Lr). lra.
Qed.
Lemma evened_valid s : schedule_valid g s -> schedule_valid g (evened s).
Proof. intros SV. split; [intros c Hc; apply evened_channel; assumption|]. intros i v Ei. apply evened_serialised; [assumption|]. apply SV. assumption. Qed.

(** It keeps the pace and does not run ahead of it. *)
Lemma N_pos i : (i < length (vertices g))%nat -> (0 < inject_Z (N i))%Q.
Proof. intros H. change 0%Q with (inject_Z 0). rewrite <- Zlt_Qlt. auto. Qed.
Lemma evened_pace s : keeps_pace g N s omega -> keeps_pace g N (evened s) omega.
Proof.
  intros (B & HB). exists B. intros i m Hi. unfold evened. destruct (latest_is (s i) (it i) omega m (m / it i)) as (r & Hr & ->).
  pose proof (NP i Hi) as P. assert (Hm : (r * it i <= m)%nat) by (pose proof (Nat.mul_div_le m (it i) ltac:(lia)); nia).
  specialize (HB i (m - r * it i)%nat Hi). pose proof (N_pos i Hi) as Q.
  assert (E : (inject_Z (Z.of_nat m) / inject_Z (N i) == inject_Z (Z.of_nat (m - r * it i)) / inject_Z (N i) + inject_Z (Z.of_nat r))%Q).
  { rewrite Nat2Z.inj_sub by assumption. rewrite Nat2Z.inj_mul, Z2Nat.id by lia. unfold Z.sub. rewrite inject_Z_plus, inject_Z_opp, inject_Z_mult. field. lra. }
  rewrite E. lra.
Qed.
Lemma first_ones (f : nat -> Q) M : exists B, forall k, (k < M)%nat -> (B <= f k)%Q.
Proof.
  induction M as [|M (B & HB)]; [exists 0%Q; intros; lia|]. destruct (Qlt_le_dec B (f M)) as [L|L].
  - exists B. intros k Hk. destruct (Nat.eq_dec k M) as [->|]; [lra|apply HB; lia].
  - exists (f M). intros k Hk. destruct (Nat.eq_dec k M) as [->|]; [lra|]. specialize (HB k ltac:(lia)). lra.
Qed.
Lemma evened_not_ahead s i : (i < length (vertices g))%nat -> exists B, forall m, (omega * (inject_Z (Z.of_nat m) / inject_Z (N i)) - B <= evened s i m)%Q.
Proof.
  intros Hi. destruct (first_ones (s i) (it i)) as (B & HB). exists (omega - B)%Q. intros m. pose proof (NP i Hi) as P. pose proof (N_pos i Hi) as Q.
  pose proof (latest_ge (s i) (it i) omega m (m / it i) (m / it i) ltac:(lia)) as G. fold (evened s i m) in G.
  pose proof (Nat.div_mod m (it i) ltac:(lia)) as D. pose proof (Nat.mod_upper_bound m (it i) ltac:(lia)) as U.
  specialize (HB (m - m / it i * it i)%nat ltac:(nia)).
  assert (Y : (inject_Z (Z.of_nat m) / inject_Z (N i) <= inject_Z (Z.of_nat (m / it i)) + 1)%Q).
  { apply Qle_shift_div_r; [assumption|]. change 1%Q with (inject_Z 1). rewrite <- inject_Z_plus, <- inject_Z_mult, <- Zle_Qle. nia. }
  nra.
Qed.

(** Bounded room is enough for such a schedule. *)
Lemma duration_most v : exists L, (0 <= L)%Q /\ forall m, (exec_duration v m <= L)%Q.
Proof.
  clear. unfold exec_duration, cyclic. 
  assert (X : forall l : list Q, exists L, (0 <= L)%Q /\ forall m, (nth m l 0 <= L)%Q).
  { induction l as [|x l (L & L0 & HL)]; [exists 0%Q; split; [lra|]; intros [|m]; cbn; lra|]. exists (later x L). pose proof (later_l x L). pose proof (later_r x L).
    split; [lra|]. intros [|m]; cbn [nth]; [assumption|]. specialize (HL m). lra. }
  destruct (X (v_init_durations v)) as (A & A0 & HA). destruct (X (v_durations v)) as (B & B0 & HB). exists (A + B)%Q. split; [lra|].
  intros m. destruct (m <? length (v_init_durations v))%nat; [specialize (HA m); lra|]. specialize (HB ((m - length (v_init_durations v)) mod length (v_durations v))%nat). lra.
Qed.
Lemma room_channel s c : schedule_valid g s -> keeps_pace g N s omega -> In c (edges g) -> exists R, forall cap, R <= cap ->
  never_negative (cap - e_preload c) (end_of (evened s) g (e_dst c)) (cons_rate c) (start_of (evened s) (e_src c)) (prod_rate c).
Proof.
  intros SV KP Hc. destruct (channel_shape c Hc) as (P & P0 & Rp & Rc & Ip & Ic & Un).
  destruct (proj1 (proj2 WF) c Hc) as (vs & vd & Es & Ed & _).
  assert (Ls : (e_src c < length (vertices g))%nat) by (apply nth_error_Some; congruence). assert (Ld : (e_dst c < length (vertices g))%nat) by (apply nth_error_Some; congruence).
  destruct (evened_pace s KP) as (B & HB). destruct (evened_not_ahead s (e_src c) Ls) as (A & HA). destruct (duration_most vd) as (L & L0 & HL).
  pose (D := Z.to_nat (Qceiling ((A + B + L) / omega))). exists (e_preload c + Z.of_nat (S D) * P).
  assert (HD : (A + B + L <= omega * inject_Z (Z.of_nat D))%Q).
  { assert (Y : ((A + B + L) / omega <= inject_Z (Z.of_nat D))%Q).
    { eapply Qle_trans; [apply Qle_ceiling|]. rewrite <- Zle_Qle. subst D. lia. }
    assert (E : (A + B + L == omega * ((A + B + L) / omega))%Q) by (field; lra). rewrite E. nra. }
  intros cap Hcap t np. pose proof (NP _ Ls) as N1. pose proof (NP _ Ld) as N2.
  pose proof (task_mono _ _ _ Es (evened_serialised s _ _ Es (proj2 SV _ _ Es))) as Ms.
  destruct (prefix_count (evened s (e_src c)) t np Ms) as (k & Hk & S1 & S2).
  assert (C : moved_by (start_of (evened s) (e_src c)) (prod_rate c) np t <= sumf (prod_rate c) k) by (apply moved_prefix_le; assumption).
  destruct k as [|k]; [exists O; unfold moved_by at 2; cbn [sumf] in *; nia|].
  set (q := (k / it (e_src c))%nat). pose proof (Nat.div_mod k (it (e_src c)) ltac:(lia)) as Dm. pose proof (Nat.mod_upper_bound k (it (e_src c)) ltac:(lia)) as Ub. fold q in Dm.
  assert (C' : sumf (prod_rate c) (S k) <= Z.of_nat (S q) * P).
  { pose proof (sumf_mono (prod_rate c) (S k) (0 + S q * it (e_src c)) Rp ltac:(nia)) as X. rewrite Ip in X. exact X. }
  exists (0 + (q - D) * it (e_dst c))%nat. rewrite (moved_all (end_of (evened s) g (e_dst c))); [rewrite Ic; cbn [sumf]; nia|].
  intros m Hm. unfold end_of. rewrite Ed. specialize (HB (e_dst c) m Ld). specialize (HA k). specialize (S1 k ltac:(lia)). specialize (HL m).
  pose proof (N_pos _ Ls) as Q1. pose proof (N_pos _ Ld) as Q2.
  assert (Y1 : (inject_Z (Z.of_nat m) / inject_Z (N (e_dst c)) <= inject_Z (Z.of_nat (q - D)))%Q).
  { apply Qle_shift_div_r; [assumption|]. rewrite <- inject_Z_mult, <- Zle_Qle. nia. }
  assert (Y2 : (inject_Z (Z.of_nat q) <= inject_Z (Z.of_nat k) / inject_Z (N (e_src c)))%Q).
  { apply Qle_shift_div_l; [assumption|]. rewrite <- inject_Z_mult, <- Zle_Qle. nia. }
  assert (Y3 : (inject_Z (Z.of_nat q) == inject_Z (Z.of_nat (q - D)) + inject_Z (Z.of_nat D))%Q).
  { rewrite <- inject_Z_plus. assert (D < q)%nat by (destruct (q - D)%nat eqn:E; cbn in Hm; lia). replace (Z.of_nat q) with (Z.of_nat (q - D) + Z.of_nat D) by lia. reflexivity. }
  nra.
Qed.

Lemma room_enough s : schedule_valid g s -> keeps_pace g N s omega -> exists R, forall cap, (forall k c, nth_error (edges g) k = Some c -> R <= cap k) ->
  exists s', bounded_valid g (Some cap) s' /\ non_zeno g s' /\ keeps_pace g N s' omega.
Proof.
  intros SV KP.
  assert (X : forall l, (forall c, In c l -> In c (edges g)) -> exists R, forall c cap, In c l -> R <= cap ->
    never_negative (cap - e_preload c) (end_of (evened s) g (e_dst c)) (cons_rate c) (start_of (evened s) (e_src c)) (prod_rate c)).
  { induction l as [|c l IH]; intros Hl; [exists 0; intros c cap []|]. destruct (IH ltac:(intros; apply Hl; right; assumption)) as (R & HR).
    destruct (room_channel s c SV KP (Hl c (or_introl eq_refl))) as (R' & HR'). exists (Z.max R R').
    intros c' cap [<- |H] L; [apply HR'; lia|apply HR; [assumption|lia]]. }
  destruct (X (edges g) (fun c H => H)) as (R & HR). exists R. intros cap Hcap. exists (evened s). split; [|split].
  - split; [apply evened_valid; assumption|]. intros cap' k c [= <-] Ek. apply HR; [eapply nth_error_In; eauto|eapply Hcap; eauto].
  - intros i t Hi. destruct (evened_not_ahead s i Hi) as (B & HB). pose proof (NP i Hi) as P. pose proof (N_pos i Hi) as Q.
    exists (Z.to_nat (Qceiling ((t + B + 1) / omega)) * it i)%nat. set (z := Qceiling _). specialize (HB (Z.to_nat z * it i)%nat).
    assert (E : (inject_Z (Z.of_nat (Z.to_nat z * it i)) / inject_Z (N i) == inject_Z (Z.of_nat (Z.to_nat z)))%Q).
    { rewrite Nat2Z.inj_mul, (Z2Nat.id (N i)), inject_Z_mult by lia. field. lra. }
    rewrite E in HB. assert (Y : ((t + B + 1) / omega <= inject_Z (Z.of_nat (Z.to_nat z)))%Q).
    { eapply Qle_trans; [apply Qle_ceiling|]. rewrite <- Zle_Qle. fold z. lia. }
    assert (E2 : (t + B + 1 == omega * ((t + B + 1) / omega))%Q) by (field; lra). nra.
  - apply evened_pace. assumption.
Qed.
End Room.
