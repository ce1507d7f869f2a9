From Coq Require Import QArith Qfield Znumtheory.
From Verif Require Import Base Graph Commons CommonsProofs FractionProofs KPeriodic ScheduleSpec ScheduleCore KPeriodicSpec.
Open Scope Z_scope.

(** * Position lists *)
Lemma zrange_length a b : length (zrange a b) = Z.to_nat (b - a + 1).
Proof. unfold zrange. rewrite map_length, seq_length. reflexivity. Qed.

Lemma nth_error_map_seq {A} (f : nat -> A) a n j : (j < n)%nat ->
  nth_error (map f (seq a n)) j = Some (f (a + j)%nat).
Proof.
  intros H. rewrite nth_error_map.
  rewrite (nth_error_nth' _ 0%nat) by (rewrite seq_length; exact H).
  cbn. rewrite seq_nth by exact H. reflexivity.
Qed.

Lemma zrange_nth a b j : (Z.of_nat j <= b - a) -> nth_error (zrange a b) j = Some (a + Z.of_nat j).
Proof. intros H. unfold zrange. rewrite nth_error_map_seq by lia. reflexivity. Qed.

Lemma blocks_nth {A} (f : nat -> nat -> A) P : (0 < P)%nat -> forall K a j, (j < K * P)%nat ->
  nth_error (flat_map (fun k => map (f k) (seq 0 P)) (seq a K)) j = Some (f (a + j / P)%nat (j mod P)%nat).
Proof.
  intros HP. induction K as [|K IH]; intros a j Hj; [lia|].
  cbn [seq flat_map]. destruct (lt_dec j P) as [Hlt|Hge].
  - rewrite nth_error_app1 by (rewrite map_length, seq_length; exact Hlt).
    rewrite nth_error_map_seq by exact Hlt. rewrite Nat.div_small, Nat.mod_small by exact Hlt.
    do 2 f_equal; lia.
  - rewrite nth_error_app2 by (rewrite map_length, seq_length; lia).
    rewrite map_length, seq_length. rewrite IH by lia.
    assert (E : j = ((j - P) + 1 * P)%nat) by lia.
    rewrite E at 3 4. rewrite Nat.div_add, Nat.mod_add by lia. do 2 f_equal; lia.
Qed.

Lemma blocks_length {A} (f : nat -> nat -> A) P : forall K a,
  length (flat_map (fun k => map (f k) (seq 0 P)) (seq a K)) = (K * P)%nat.
Proof.
  induction K as [|K IH]; intros a; [reflexivity|]. cbn [seq flat_map].
  rewrite app_length, IH, map_length, seq_length. lia.
Qed.

(** [positions] split into the k = 1 block and the rest. *)
Lemma flat_map_map {A B C} (f : B -> list C) (g : A -> B) l :
  flat_map f (map g l) = flat_map (fun x => f (g x)) l.
Proof. induction l; cbn; [reflexivity|]. rewrite IHl. reflexivity. Qed.

Lemma flat_map_ext_in {A B} (f g : A -> list B) l :
  (forall x, In x l -> f x = g x) -> flat_map f l = flat_map g l.
Proof.
  induction l; intros H; cbn; [reflexivity|]. rewrite (H a) by (left; reflexivity).
  rewrite IHl by (intros; apply H; right; assumption). reflexivity.
Qed.

Lemma positions_split (K i0 P : nat) :
  positions (Z.of_nat (S K)) (Z.of_nat i0) (Z.of_nat P) =
  map (fun j => (1, Z.of_nat j + 1 - Z.of_nat i0)) (seq 0 (i0 + P)) ++
  flat_map (fun k => map (fun p => (Z.of_nat k + 1, Z.of_nat p + 1)) (seq 0 P)) (seq 1 K).
Proof.
  unfold positions, zrange at 2. replace (Z.to_nat (Z.of_nat (S K) - 1 + 1)) with (S K) by lia.
  rewrite flat_map_map. cbn [seq flat_map]. f_equal.
  - change (1 + Z.of_nat 0) with 1. change (1 =? 1) with true. cbn iota.
    unfold zrange. rewrite map_map. replace (Z.to_nat (Z.of_nat P - (1 - Z.of_nat i0) + 1)) with (i0 + P)%nat by lia.
    apply map_ext. intros j. f_equal. lia.
  - apply flat_map_ext_in. intros k Hk. apply in_seq in Hk.
    destruct (Z.eqb_spec (1 + Z.of_nat k) 1); [lia|]. unfold zrange. rewrite map_map.
    replace (Z.to_nat (Z.of_nat P - 1 + 1)) with P by lia.
    apply map_ext. intros p. f_equal; lia.
Qed.

Lemma positions_length (K i0 P : nat) : (0 < K)%nat ->
  length (positions (Z.of_nat K) (Z.of_nat i0) (Z.of_nat P)) = (i0 + K * P)%nat.
Proof.
  destruct K as [|K]; [lia|]. intros _. rewrite positions_split, app_length, map_length, seq_length, blocks_length. lia.
Qed.

Definition pos_at (i0 P j : nat) : Z * Z :=
  if (j <? i0)%nat then (1, Z.of_nat j + 1 - Z.of_nat i0)
  else (Z.of_nat ((j - i0) / P) + 1, Z.of_nat ((j - i0) mod P) + 1).

Lemma positions_nth (K i0 P j : nat) : (0 < K)%nat -> (0 < P)%nat -> (j < i0 + K * P)%nat ->
  nth_error (positions (Z.of_nat K) (Z.of_nat i0) (Z.of_nat P)) j = Some (pos_at i0 P j).
Proof.
  intros HK HP Hj. destruct K as [|K]; [lia|]. rewrite positions_split.
  assert (HL : length (map (fun j => (1, Z.of_nat j + 1 - Z.of_nat i0)) (seq 0 (i0 + P))) = (i0 + P)%nat)
    by (rewrite map_length, seq_length; reflexivity).
  unfold pos_at.
  destruct (lt_dec j (i0 + P)) as [Hlt|Hge].
  - rewrite nth_error_app1 by (rewrite HL; exact Hlt). rewrite nth_error_map_seq by exact Hlt. cbn [Nat.add].
    destruct (Nat.ltb_spec j i0); [reflexivity|].
    rewrite Nat.div_small, Nat.mod_small by lia. do 2 f_equal. lia.
  - rewrite nth_error_app2 by lia. rewrite HL.
    rewrite (blocks_nth (fun k p => (Z.of_nat k + 1, Z.of_nat p + 1))) by lia.
    destruct (Nat.ltb_spec j i0); [lia|].
    replace (j - i0)%nat with ((j - (i0 + P)) + 1 * P)%nat by lia.
    rewrite Nat.div_add, Nat.mod_add by lia. do 2 f_equal. lia.
Qed.

(** * Cyclic sequences *)
Lemma cyclic_init {A} (d : A) init per m : (m < length init)%nat -> cyclic d init per m = nth m init d.
Proof. intros H. unfold cyclic. destruct (Nat.ltb_spec m (length init)); [reflexivity|lia]. Qed.

Lemma cyclic_shift {A} (d : A) init per m t : (0 < length per)%nat -> (length init <= m)%nat ->
  cyclic d init per (m + t * length per) = cyclic d init per m.
Proof.
  intros HP Hm. unfold cyclic. destruct (Nat.ltb_spec m (length init)); [lia|].
  destruct (Nat.ltb_spec (m + t * length per) (length init)); [lia|].
  replace (m + t * length per - length init)%nat with (m - length init + t * length per)%nat by lia.
  rewrite Nat.mod_add by lia. reflexivity.
Qed.

Lemma sumf_nth_list : forall l, sumf (fun j => nth j l 0) (length l) = sumZ l.
Proof.
  intros l. rewrite <- (rev_involutive l). induction (rev l) as [|x r IH]; [reflexivity|].
  cbn [rev]. rewrite app_length. cbn [length]. rewrite Nat.add_1_r. cbn [sumf].
  rewrite app_nth2, Nat.sub_diag by lia. cbn [nth].
  rewrite (sumf_ext _ (fun j => nth j (rev r) 0)) by (intros m Hm; apply app_nth1; exact Hm).
  rewrite IH. clear. unfold sumZ. rewrite fold_right_app. cbn.
  generalize (rev r). intros l. induction l as [|y l IH]; cbn; [lia|]. lia.
Qed.

Lemma sumf_shift_eq f a b n : (forall m, (m < n)%nat -> f (a + m)%nat = f (b + m)%nat) ->
  sumf (fun m => f (a + m)%nat) n = sumf (fun m => f (b + m)%nat) n.
Proof. intros H. apply sumf_ext. exact H. Qed.

(** Sum over one period, starting anywhere after the initial part. *)
Lemma cyclic_period_sum init per m : (0 < length per)%nat -> (length init <= m)%nat ->
  sumf (fun j => cyclic 0 init per (m + j)%nat) (length per) = sumZ per.
Proof.
  intros HP. induction m as [|m IH]; intros Hm.
  - destruct init; [|cbn in Hm; lia]. rewrite <- sumf_nth_list. apply sumf_ext.
    intros j Hj. unfold cyclic. cbn [length Nat.ltb Nat.leb]. cbn [Nat.add].
    rewrite Nat.sub_0_r, Nat.mod_small by exact Hj. reflexivity.
  - destruct (Nat.eq_dec (length init) (S m)) as [E|NE].
    + rewrite <- sumf_nth_list. apply sumf_ext. intros j Hj. unfold cyclic.
      destruct (Nat.ltb_spec (S m + j) (length init)); [lia|].
      replace (S m + j - length init)%nat with j by lia. rewrite Nat.mod_small by exact Hj. reflexivity.
    + rewrite <- IH by lia.
      pose proof (sumf_app (fun j => cyclic 0 init per (m + j)%nat) 1 (length per)) as A1.
      pose proof (sumf_app (fun j => cyclic 0 init per (m + j)%nat) (length per) 1) as A2.
      rewrite Nat.add_comm in A2. rewrite A1 in A2. cbn [sumf] in A2.
      pose proof (cyclic_shift 0 init per m 1 HP ltac:(lia)) as C.
      rewrite Nat.mul_1_l in C. rewrite Nat.add_0_r, Nat.add_0_r, C in A2.
      rewrite (sumf_ext (fun j => cyclic 0 init per (S m + j)%nat)
                        (fun j => cyclic 0 init per (m + (1 + j))%nat)).
      2:{ intros j _. f_equal. lia. }
      cbn [Nat.add] in *. lia.
Qed.

Lemma cyclic_sum init per m t : (0 < length per)%nat -> (length init <= m)%nat ->
  sumf (cyclic 0 init per) (m + t * length per) = sumf (cyclic 0 init per) m + Z.of_nat t * sumZ per.
Proof.
  intros HP Hm. induction t as [|t IH].
  - cbn [Nat.mul]. rewrite Nat.add_0_r. lia.
  - replace (m + S t * length per)%nat with (m + t * length per + length per)%nat by lia.
    rewrite sumf_app, IH, cyclic_period_sum by lia. lia.
Qed.

Lemma cyclic_in {A} (d : A) init per m : (0 < length per)%nat -> In (cyclic d init per m) (init ++ per).
Proof.
  intros HP. apply in_or_app. unfold cyclic. destruct (Nat.ltb_spec m (length init)).
  - left. apply nth_In. assumption.
  - right. apply nth_In. apply Nat.mod_upper_bound. lia.
Qed.

(** * Index decomposition of executions *)
Definition idx (i0 L m : nat) : nat := if (m <? i0)%nat then m else (i0 + (m - i0) mod L)%nat.
Definition iter (i0 L m : nat) : nat := if (m <? i0)%nat then 0%nat else ((m - i0) / L)%nat.

Lemma idx_lt i0 L m : (0 < L)%nat -> (idx i0 L m < i0 + L)%nat.
Proof.
  intros HL. unfold idx. destruct (Nat.ltb_spec m i0); [lia|].
  pose proof (Nat.mod_upper_bound (m - i0) L). lia.
Qed.

Lemma idx_iter i0 L m : (0 < L)%nat -> m = (idx i0 L m + iter i0 L m * L)%nat.
Proof.
  intros HL. unfold idx, iter. destruct (Nat.ltb_spec m i0); [lia|].
  pose proof (Nat.div_mod (m - i0) L). lia.
Qed.

Lemma iter_ge i0 L m : (iter i0 L m <> 0)%nat -> (i0 <= idx i0 L m)%nat.
Proof. unfold iter, idx. destruct (Nat.ltb_spec m i0); lia. Qed.

Lemma sum_idx init per K m : (0 < length per)%nat -> (0 < K)%nat ->
  let L := (K * length per)%nat in
  sumf (cyclic 0 init per) (S m) =
  sumf (cyclic 0 init per) (S (idx (length init) L m)) +
  Z.of_nat (iter (length init) L m) * (sumZ per * Z.of_nat K).
Proof.
  intros HP HK L. assert (HL : (0 < L)%nat) by (unfold L; nia).
  rewrite (idx_iter (length init) L m HL) at 1.
  destruct (Nat.eq_dec (iter (length init) L m) 0) as [E|NE].
  - rewrite E. rewrite Nat.mul_0_l, Nat.add_0_r. lia.
  - pose proof (iter_ge _ _ _ NE).
    replace (S (idx (length init) L m + iter (length init) L m * L))%nat
      with (S (idx (length init) L m) + (iter (length init) L m * K) * length per)%nat
      by (subst L; rewrite Nat.mul_assoc; reflexivity).
    rewrite cyclic_sum by lia. rewrite Nat2Z.inj_mul. ring.
Qed.

Lemma cyclic_idx {A} (d : A) init per K m : (0 < length per)%nat -> (0 < K)%nat ->
  cyclic d init per m = cyclic d init per (idx (length init) (K * length per) m).
Proof.
  intros HP HK. assert (HL : (0 < K * length per)%nat) by nia.
  destruct (Nat.eq_dec (iter (length init) (K * length per) m) 0) as [E|NE].
  - rewrite (idx_iter (length init) _ m HL) at 1. rewrite E. f_equal. lia.
  - pose proof (iter_ge _ _ _ NE). rewrite (idx_iter (length init) _ m HL) at 1.
    rewrite Nat.mul_assoc. apply cyclic_shift; assumption.
Qed.
