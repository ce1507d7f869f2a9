(** The merge always succeeds on a periodic schedule. *)
From Coq Require Import QArith Qround Lqa ZifyBool ZifyNat.
From Verif Require Import Base Graph EventGraph ScheduleSpec ScheduleCore KPeriodicProofs KPeriodicEnd Merge MergeSeq MergeCore MergeProofs.
Open Scope Z_scope.

(** ** Ties are broken in favour of the last task *)
Lemma pick_last infos count : forall k best t k', pick infos count k best = Some (t, k') ->
  (forall j x, nth_error infos j = Some x -> (k' < k + j)%nat -> (t < next_time x (count (k + j)%nat))%Q) /\
  (match best with Some (bt, bk) => (bk < k)%nat -> (t, k') = (bt, bk) \/ (k <= k')%nat | None => (k <= k')%nat end).
Proof.
  induction infos as [|x rest IH]; intros k best t k' H; cbn in H.
  - subst best. split; [intros [|j] x E; discriminate|]. left. reflexivity.
  - pose proof (pick_spec _ _ _ _ _ _ H) as (Ab & _). apply IH in H. destruct H as (A & B). set (tx := next_time x (count k)) in *. split.
    + intros [|j] y Hy L; cbn in Hy.
      * injection Hy as <-. rewrite Nat.add_0_r in *. fold tx.
        destruct best as [[bt bk]|]; [destruct (Qle_bool tx bt) eqn:E|].
        -- destruct (B ltac:(lia)) as [B'|B']; [injection B' as -> ->; lia|lia].
        -- assert (~ (tx <= bt)%Q) by (intros Hn; apply Qle_bool_iff in Hn; congruence). lra.
        -- destruct (B ltac:(lia)) as [B'|B']; [injection B' as -> ->; lia|lia].
      * replace (k + S j)%nat with (S k + j)%nat in * by lia. apply (A j y Hy L).
    + destruct best as [[bt bk]|]; [intros Lb; destruct (Qle_bool tx bt)|].
      * destruct (B ltac:(lia)) as [B'|B']; [injection B' as -> ->; right; lia|right; lia].
      * destruct (B ltac:(lia)) as [B'|B']; [left; assumption|right; lia].
      * destruct (B ltac:(lia)) as [B'|B']; [injection B' as -> ->; lia|lia].
Qed.

Lemma sumf_nat_lt (v w : nat -> nat) : forall p j, (forall k, (k < p)%nat -> (v k <= w k)%nat) -> (j < p)%nat -> (v j < w j)%nat ->
  sumf (fun k => Z.of_nat (v k)) p < sumf (fun k => Z.of_nat (w k)) p.
Proof.
  induction p as [|p IH]; intros j A L H; [lia|]. cbn [sumf]. pose proof (A p ltac:(lia)) as Ap. destruct (Nat.eq_dec j p) as [->|].
  - assert (sumf (fun k => Z.of_nat (v k)) p <= sumf (fun k => Z.of_nat (w k)) p) by (apply sumf_le; intros k Hk; specialize (A k ltac:(lia)); lia). lia.
  - specialize (IH j (fun k Hk => A k ltac:(lia)) ltac:(lia) H). lia.
Qed.
Lemma sumf_nat_sub (v w : nat -> nat) : forall p, (forall k, (k < p)%nat -> (w k <= v k)%nat) ->
  sumf (fun k => Z.of_nat (v k - w k)%nat) p = sumf (fun k => Z.of_nat (v k)) p - sumf (fun k => Z.of_nat (w k)) p.
Proof. induction p as [|p IH]; intros A; cbn [sumf]; [reflexivity|]. rewrite IH by (intros k Hk; apply A; lia). specialize (A p ltac:(lia)). lia. Qed.
Lemma sumf_zero : forall p, sumf (fun _ => Z.of_nat 0) p = 0.
Proof. induction p; cbn [sumf]; lia. Qed.

Section T.
Variable infos : list info.
Variable omega : Q.
Hypothesis Om : (0 < omega)%Q.
Definition st (k c : nat) : Q := match nth_error infos k with Some x => next_time x c | None => 0%Q end.
Definition ni (k : nat) : nat := match nth_error infos k with Some x => Z.to_nat (mi_ni x) | None => 0%nat end.
Notation n := (length infos).
Hypothesis Strict : forall k c, (k < n)%nat -> (st k c < st k (S c))%Q.
Hypothesis Rep : forall k c, (k < n)%nat -> (st k (c + ni k) == st k c + omega)%Q.
Hypothesis NiPos : forall k x, nth_error infos k = Some x -> 0 < mi_ni x.
Hypothesis PhPos : forall k x, nth_error infos k = Some x -> (0 < mi_phases x)%nat.

Lemma st_lt k c d : (k < n)%nat -> (c < d)%nat -> (st k c < st k d)%Q.
Proof. intros L H. induction H; [apply Strict, L|]. pose proof (Strict k m L). lra. Qed.
Lemma st_le k c d : (k < n)%nat -> (c <= d)%nat -> (st k c <= st k d)%Q.
Proof. intros L H. destruct (Nat.eq_dec c d) as [->|]; [apply Qle_refl|]. apply Qlt_le_weak, st_lt; [assumption|lia]. Qed.

(** Execution order: by time, the greater rank first. *)
Definition prec (j c k d : nat) : Prop := (st j c < st k d)%Q \/ ((st j c == st k d)%Q /\ (k < j)%nat).
Definition downset (v : nat -> nat) : Prop := forall j k, (j < n)%nat -> (k < n)%nat -> (0 < v j)%nat -> prec j (v j - 1) k (v k).

Lemma downset_step v k : downset v -> (k < n)%nat -> (forall k', (k' < n)%nat -> (st k (v k) <= st k' (v k'))%Q /\ ((k < k')%nat -> (st k (v k) < st k' (v k'))%Q)) -> downset (bump v k).
Proof.
  intros D L Le i j Li Lj P. unfold bump in *. destruct (i =? k)%nat eqn:Ei; destruct (j =? k)%nat eqn:Ej.
  - apply Nat.eqb_eq in Ei, Ej. subst i j. left. apply st_lt; [assumption|lia].
  - apply Nat.eqb_eq in Ei. subst i. apply Nat.eqb_neq in Ej. replace (S (v k) - 1)%nat with (v k) by lia. destruct (Le j Lj) as [A B].
    destruct (Nat.lt_ge_cases k j) as [G|G]; [left; auto|]. destruct (Qlt_le_dec (st k (v k)) (st j (v j))) as [Q|Q]; [left; assumption|]. right. split; [lra|lia].
  - apply Nat.eqb_eq in Ej. subst j. pose proof (D i k Li L P) as X. pose proof (Strict k (v k) L). left. destruct X as [X|[X _]]; lra.
  - apply D; assumption.
Qed.
Lemma run_downset l : run_ok infos l -> (forall m k c, nth_error l m = Some (k, c) -> forall k' x', nth_error infos k' = Some x' -> (k < k')%nat -> (st k c < next_time x' (cntl k' (firstn m l)))%Q) ->
  forall m, (m <= length l)%nat -> downset (fun k => cntl k (firstn m l)).
Proof.
  intros R T. induction m as [|m IH]; intros L; [intros j k _ _ H; cbn in H; lia|]. specialize (IH ltac:(lia)).
  destruct (nth_error l m) as [[k c]|] eqn:E; [|apply nth_error_None in E; lia]. destruct (R m k c E) as (Ec & x & Hx & Le).
  assert (Lk : (k < n)%nat) by (apply nth_error_Some; congruence).
  assert (F : forall j, cntl j (firstn (S m) l) = bump (fun k => cntl k (firstn m l)) k j).
  { intros j. assert (X : firstn (S m) l = firstn m l ++ [(k, c)]).
    { clear - E. revert m E. induction l as [|a l IH]; intros [|m] E; cbn in *; try discriminate; [injection E as ->; reflexivity|]. rewrite (IH m E). reflexivity. }
    rewrite X, cntl_app. unfold bump, cntl at 2. cbn. rewrite Nat.eqb_sym. destruct (j =? k)%nat; cbn; lia. }
  intros i j Li Lj P. rewrite !F in *. apply (downset_step _ k IH Lk); try assumption.
  intros k' Lk'. destruct (nth_error infos k') as [x'|] eqn:Hx'; [|apply nth_error_None in Hx'; lia]. rewrite <- Ec.
  specialize (Le k' x' Hx'). specialize (T m k c E k' x' Hx'). unfold st in *. rewrite Hx, Hx' in *. auto.
Qed.

(** Two initial segments of the order with as many executions are the same. *)
Lemma downset_unique v w : downset v -> downset w -> sumf (fun k => Z.of_nat (v k)) n = sumf (fun k => Z.of_nat (w k)) n ->
  forall j, (j < n)%nat -> v j = w j.
Proof.
  intros Dv Dw E. assert (G : forall j k, (j < n)%nat -> (k < n)%nat -> (w j < v j)%nat -> (v k < w k)%nat -> False).
  { intros j k Lj Lk A B. pose proof (Dv j k Lj Lk ltac:(lia)) as X. pose proof (Dw k j Lk Lj ltac:(lia)) as Y.
    pose proof (st_le j (w j) (v j - 1) Lj ltac:(lia)) as X1. pose proof (st_le k (v k) (w k - 1) Lk ltac:(lia)) as Y1.
    destruct X as [X|[X X2]]; destruct Y as [Y|[Y Y2]]; try lra. lia. }
  assert (Ge : forall j, (j < n)%nat -> (v j <= w j)%nat).
  { intros j Lj. destruct (Nat.le_gt_cases (v j) (w j)) as [H|H]; [assumption|]. exfalso.
    assert (Al : forall k, (k < n)%nat -> (w k <= v k)%nat). { intros k Lk. destruct (Nat.le_gt_cases (w k) (v k)); [assumption|]. exfalso. apply (G j k); assumption. }
    assert (sumf (fun k => Z.of_nat (w k)) n < sumf (fun k => Z.of_nat (v k)) n); [|lia].
    apply (sumf_nat_lt w v n j); assumption. }
  intros j Lj. destruct (Nat.eq_dec (v j) (w j)) as [H|H]; [assumption|]. exfalso.
  assert (sumf (fun k => Z.of_nat (v k)) n < sumf (fun k => Z.of_nat (w k)) n); [|lia].
  apply (sumf_nat_lt v w n j); [assumption|assumption|]. specialize (Ge j Lj). lia.
Qed.

(** Going back one period. *)
Lemma downset_back v : downset v -> (forall k, (k < n)%nat -> (ni k <= v k)%nat) -> downset (fun k => (v k - ni k)%nat).
Proof.
  intros D G j k Lj Lk P. pose proof (G j Lj). pose proof (G k Lk). pose proof (D j k Lj Lk ltac:(lia)) as X.
  pose proof (Rep j (v j - ni j - 1) Lj) as A. replace (v j - ni j - 1 + ni j)%nat with (v j - 1)%nat in A by lia.
  pose proof (Rep k (v k - ni k) Lk) as B. replace (v k - ni k + ni k)%nat with (v k) in B by lia.
  unfold prec in *. destruct X as [X|[X Y]]; [left; lra|right; split; [lra|assumption]].
Qed.

Lemma cntl_sum l m : run_ok infos l -> (m <= length l)%nat -> sumf (fun k => Z.of_nat (cntl k (firstn m l))) n = Z.of_nat m.
Proof using infos. clear Strict Rep NiPos PhPos Om.
  intros R L. assert (B : forall e, In e l -> (fst e < n)%nat).
  { intros [k c] I. apply In_nth_error in I. destruct I as (q & E). destruct (R q k c E) as (_ & x & Hx & _). cbn. apply nth_error_Some. congruence. }
  assert (S1 : forall (l' : list exec) p, (forall e, In e l' -> (fst e < p)%nat) -> sumf (fun k => Z.of_nat (cntl k l')) p = Z.of_nat (length l')).
  { clear. induction l' as [|[k c] l' IH]; intros p B.
    - cbn [cntl filter length]. induction p; cbn [sumf]; [reflexivity|]. rewrite IHp by (intros e []). reflexivity.
    - assert (Lk : (k < p)%nat) by (apply (B (k, c)); left; reflexivity). specialize (IH p (fun e I => B e (or_intror I))). cbn [length]. rewrite Nat2Z.inj_succ, <- IH. clear IH B.
      assert (E : forall j, Z.of_nat (cntl j ((k, c) :: l')) = Z.of_nat (cntl j l') + (if (k =? j)%nat then 1 else 0)) by (intros j; unfold cntl; cbn; destruct (k =? j)%nat; cbn; lia).
      rewrite (sumf_ext _ (fun j => Z.of_nat (cntl j l') + (if (k =? j)%nat then 1 else 0))) by (intros; apply E). clear E.
      assert (G : forall q, sumf (fun j => Z.of_nat (cntl j l') + (if (k =? j)%nat then 1 else 0)) q = sumf (fun j => Z.of_nat (cntl j l')) q + (if (k <? q)%nat then 1 else 0)).
      { induction q as [|q IHq]; cbn [sumf]; [reflexivity|]. rewrite IHq. destruct (k =? q)%nat eqn:E1; destruct (k <? q)%nat eqn:E2; destruct (k <? S q)%nat eqn:E3; lia. }
      rewrite G. destruct (k <? p)%nat eqn:E; lia. }
  rewrite S1; [rewrite firstn_length; lia|]. intros e I. apply B. rewrite <- (firstn_skipn m l). apply in_or_app. auto.
Qed.

(** ** The suffix of one period passes the test *)
Definition ties_ok (l : list exec) : Prop := forall m k c, nth_error l m = Some (k, c) -> forall k' x', nth_error infos k' = Some x' -> (k < k')%nat ->
  (st k c < next_time x' (cntl k' (firstn m l)))%Q.

Lemma period_suffix l : run_ok infos l -> ties_ok l -> finished infos l -> infos <> [] ->
  exists m, (m < length l)%nat /\ forall k x, nth_error infos k = Some x -> occurrences (skipn m l) k = mi_ni x.
Proof.
  intros R T F NE. set (C := fun k => cntl k (firstn (length l) l)).
  assert (G : forall k, (k < n)%nat -> (ni k <= C k)%nat).
  { intros k Lk. destruct (nth_error infos k) as [x|] eqn:Hx; [|apply nth_error_None in Hx; lia]. unfold C, ni. rewrite Hx, firstn_all.
    specialize (F k x Hx). pose proof (NiPos k x Hx). pose proof (PhPos k x Hx). nia. }
  pose proof (run_downset l R T (length l) (le_n _)) as DC. fold C in DC. pose proof (downset_back C DC G) as DB.
  pose proof (cntl_sum l (length l) R (le_n _)) as SC. fold C in SC.
  assert (SN : sumf (fun k => Z.of_nat (C k - ni k)%nat) n = Z.of_nat (length l) - sumf (fun k => Z.of_nat (ni k)) n).
  { rewrite <- SC. apply (sumf_nat_sub C ni n G). }
  assert (Pos : 0 < sumf (fun k => Z.of_nat (ni k)) n).
  { assert (E0 : exists x, nth_error infos 0 = Some x) by (destruct infos as [|x ?]; [congruence|exists x; reflexivity]). destruct E0 as (x & Hx).
    assert (L0 : (0 < n)%nat) by (apply nth_error_Some; congruence). assert (N0 : (0 < ni 0)%nat) by (unfold ni; rewrite Hx; pose proof (NiPos 0%nat x Hx); lia).
    apply Z.lt_le_trans with (sumf (fun k => Z.of_nat (ni k)) 1); [cbn; lia|]. apply sumf_mono; [intros; lia|lia]. }
  assert (NN : 0 <= sumf (fun k => Z.of_nat (C k - ni k)%nat) n) by (apply sumf_nonneg; intros; lia).
  set (m := Z.to_nat (Z.of_nat (length l) - sumf (fun k => Z.of_nat (ni k)) n)). assert (Lm : (m < length l)%nat) by lia. exists m. split; [assumption|].
  pose proof (run_downset l R T m ltac:(lia)) as Dm.
  assert (Eq : forall j, (j < n)%nat -> cntl j (firstn m l) = (C j - ni j)%nat).
  { apply (downset_unique (fun k => cntl k (firstn m l)) (fun k => (C k - ni k)%nat) Dm DB). rewrite (cntl_sum l m R) by lia. rewrite SN. lia. }
  intros k x Hx. assert (Lk : (k < n)%nat) by (apply nth_error_Some; congruence). rewrite occurrences_cntl. specialize (Eq k Lk). specialize (G k Lk). unfold C in *. rewrite firstn_all in *.
  assert (S1 : cntl k l = (cntl k (firstn m l) + cntl k (skipn m l))%nat) by (rewrite <- cntl_app, firstn_skipn; reflexivity).
  assert (NK : Z.of_nat (ni k) = mi_ni x) by (unfold ni; rewrite Hx; pose proof (NiPos k x Hx); lia). lia.
Qed.

Lemma gcd_fold : forall (l : list info) a, (fold_left (fun a x => Z.gcd a (mi_ni x)) l a | a) /\ (forall x, In x l -> (fold_left (fun a x => Z.gcd a (mi_ni x)) l a | mi_ni x)) /\
  (forall d, (d | a) -> (forall x, In x l -> (d | mi_ni x)) -> (d | fold_left (fun a x => Z.gcd a (mi_ni x)) l a)).
Proof using infos. clear Strict Rep NiPos PhPos Om.
  induction l as [|y l IH]; intros a; cbn.
  - split; [apply Z.divide_refl|]. split; [intros x []|auto].
  - destruct (IH (Z.gcd a (mi_ni y))) as (A & B & C). split; [apply Z.divide_trans with (Z.gcd a (mi_ni y)); [assumption|apply Z.gcd_divide_l]|]. split.
    + intros x [<-|I]; [apply Z.divide_trans with (Z.gcd a (mi_ni y)); [assumption|apply Z.gcd_divide_r]|auto].
    + intros d Da Dx. apply C; [apply Z.gcd_greatest; auto|auto].
Qed.
Lemma gcd_nonneg : forall (l : list info) a, 0 <= a -> 0 <= fold_left (fun a x => Z.gcd a (mi_ni x)) l a.
Proof using infos. clear Strict Rep NiPos PhPos Om. induction l as [|y l IH]; intros a H; cbn; [assumption|]. apply IH, Z.gcd_nonneg. Qed.
Lemma gcd_ni_spec : infos <> [] -> 0 < gcd_ni infos /\ (forall x, In x infos -> (gcd_ni infos | mi_ni x)) /\ (forall d, (forall x, In x infos -> (d | mi_ni x)) -> (d | gcd_ni infos)).
Proof using NiPos. clear Strict Rep PhPos Om.
  intros NE. unfold gcd_ni. destruct (gcd_fold infos 0) as (A & B & C). split; [|split; [assumption|intros d H; apply C; [apply Z.divide_0_r|assumption]]].
  pose proof (gcd_nonneg infos 0 ltac:(lia)). assert (E0 : exists x, nth_error infos 0 = Some x) by (destruct infos as [|x ?]; [congruence|exists x; reflexivity]). destruct E0 as (x & Hx).
  specialize (B x (nth_error_In _ _ Hx)). specialize (NiPos _ _ Hx). destruct (Z.eq_dec (fold_left (fun a x0 => Z.gcd a (mi_ni x0)) infos 0) 0) as [E|]; [|lia]. rewrite E in B. apply Z.divide_0_l in B. lia.
Qed.

Lemma suffix_ok_period G l : 0 < G -> forall xs k factor, (factor = 0 \/ factor = G) ->
  (forall j x, nth_error xs j = Some x -> occurrences l (k + j)%nat = mi_ni x /\ 0 < mi_ni x /\ (G | mi_ni x)) -> suffix_ok xs G l k factor = true.
Proof using infos. clear Strict Rep NiPos PhPos Om.
  intros HG. induction xs as [|x xs IH]; intros k factor Hf H; cbn; [reflexivity|]. destruct (H 0%nat x eq_refl) as (O & P & [q Dq]). rewrite Nat.add_0_r in O.
  rewrite O, Dq. rewrite Z.div_mul by lia. assert (0 < q) by nia. assert (E : (if factor =? 0 then q * G / q else factor) = G).
  { destruct Hf as [-> | ->]; [cbn; rewrite Z.mul_comm, Z.div_mul by lia; reflexivity|]. destruct (G =? 0) eqn:E; [lia|reflexivity]. }
  rewrite E. rewrite (Z.mul_comm q G), Z.mod_mul by lia. rewrite IH; [|right; reflexivity|].
  - rewrite andb_true_r. destruct (G * q =? 0) eqn:E1; [nia|]. cbn. rewrite Z.mul_comm, Z.eqb_refl. reflexivity.
  - intros j y Hy. destruct (H (S j) y Hy) as (A & B & C). replace (S k + j)%nat with (k + S j)%nat by lia. auto.
Qed.
Lemma find_init_ok G l : forall b m, (m <= b)%nat -> suffix_ok infos G (skipn m l) 0 0 = true -> exists i, find_init infos G l b = Ok i.
Proof using infos. clear Strict Rep NiPos PhPos Om.
  induction b as [|b IH]; intros m L H; cbn [find_init].
  - replace m with 0%nat in H by lia. rewrite H. eauto.
  - destruct (suffix_ok infos G (skipn (S b) l) 0 0) eqn:E; [eauto|]. destruct (Nat.eq_dec m (S b)) as [->|]; [congruence|]. apply (IH m); [lia|assumption].
Qed.

(** ** The loop ends *)
Lemma execute_ties : forall fuel count acc l, execute fuel infos count acc = Ok l -> ties_ok acc -> (forall k, count k = cntl k acc) -> ties_ok l.
Proof using infos. clear Strict Rep NiPos PhPos Om.
  induction fuel as [|fuel IH]; intros count acc l H T C; cbn in H; [discriminate|].
  destruct (pick infos count 0 None) as [[t k]|] eqn:E; [|discriminate]. pose proof (pick_last _ _ _ _ _ _ E) as [La _].
  apply pick_spec in E. destruct E as (_ & _ & [E|(j & x & Hx & -> & ->)]); [discriminate|]. change (0 + j)%nat with j in *. rewrite (C j) in *.
  assert (T' : ties_ok (acc ++ [(j, cntl j acc)])).
  { intros m k c Hm k' x' Hx' L. destruct (Nat.lt_ge_cases m (length acc)) as [Lm|Lm].
    - rewrite nth_error_app1 in Hm by assumption. rewrite firstn_snoc_le by lia. apply (T m k c Hm k' x' Hx' L).
    - rewrite nth_error_app2 in Hm by assumption. destruct (m - length acc)%nat as [|z] eqn:Ez; cbn in Hm; [|destruct z; discriminate]. injection Hm as <- <-.
      rewrite firstn_snoc_le by lia. rewrite firstn_all2 by lia. unfold st. rewrite Hx. specialize (La k' x' Hx'). cbn [Nat.add] in La. rewrite C in La. apply La, L. }
  assert (C' : forall k, bump count j k = cntl k (acc ++ [(j, cntl j acc)])).
  { intros k. unfold bump. rewrite cntl_app. unfold cntl at 2. cbn. rewrite Nat.eqb_sym. destruct (j =? k)%nat; cbn; rewrite C; lia. }
  destruct (unfinished infos (bump count j) 0); [exact (IH _ _ _ H T' C')|]. injection H as <-. exact T'.
Qed.

Lemma st_unbounded k t : (k < n)%nat -> exists c, forall d, (c <= d)%nat -> (t < st k d)%Q.
Proof.
  intros L. assert (Q1 : forall q, (st k (q * ni k) == st k 0 + inject_Z (Z.of_nat q) * omega)%Q).
  { induction q as [|q IH]; [cbn [Nat.mul]; change (inject_Z (Z.of_nat 0)) with 0%Q; lra|]. replace (S q * ni k)%nat with (q * ni k + ni k)%nat by lia. rewrite (Rep k _ L), IH.
    rewrite Nat2Z.inj_succ. unfold Z.succ. rewrite inject_Z_plus. change (inject_Z 1) with 1%Q. ring. }
  set (y := ((t - st k 0) / omega)%Q). set (q := Z.to_nat (Qfloor y + 1)). exists (q * ni k)%nat. intros d Hd. apply Qlt_le_trans with (st k (q * ni k)); [|apply st_le; assumption].
  rewrite Q1. assert (Y : (y < inject_Z (Z.of_nat q))%Q).
  { apply Qlt_le_trans with (inject_Z (Qfloor y + 1)); [apply Qlt_floor|]. rewrite <- Zle_Qle. unfold q. lia. }
  assert (E : (t == st k 0 + y * omega)%Q) by (unfold y; field; lra). rewrite E. assert (y * omega < inject_Z (Z.of_nat q) * omega)%Q by (apply Qmult_lt_r; assumption). lra.
Qed.

Lemma unfinished_true count : forall xs k, unfinished xs count k = true -> exists j x, nth_error xs j = Some x /\ Z.of_nat (count (k + j)%nat) < Z.of_nat (mi_phases x) * mi_ni x.
Proof using infos. clear Strict Rep NiPos PhPos Om.
  induction xs as [|x xs IH]; intros k H; cbn in H; [discriminate|]. apply orb_prop in H. destruct H as [H|H].
  - exists 0%nat, x. rewrite Nat.add_0_r. split; [reflexivity|lia].
  - destruct (IH _ H) as (j & y & Hy & L). exists (S j), y. replace (k + S j)%nat with (S k + j)%nat by lia. auto.
Qed.

Lemma bounds_exist (Tm : Q) : forall p, (p <= n)%nat -> exists b : nat -> nat, forall k, (k < p)%nat -> forall d, (b k <= d)%nat -> (Tm < st k d)%Q.
Proof.
  induction p as [|p IH]; intros L; [exists (fun _ => 0%nat); intros; lia|]. destruct (IH ltac:(lia)) as (b & Hb). destruct (st_unbounded p Tm ltac:(lia)) as (c & Hc).
  exists (fun k => if (k =? p)%nat then c else b k). intros k Lk d Hd. destruct (k =? p)%nat eqn:E; [apply Nat.eqb_eq in E; subst; auto|]. apply Hb; [lia|assumption].
Qed.
Lemma max_exists (a : nat -> Q) : forall p, exists t, forall k, (k < p)%nat -> (a k <= t)%Q.
Proof using infos. clear Strict Rep NiPos PhPos Om.
  induction p as [|p (t & Ht)]; [exists 0%Q; intros; lia|]. destruct (Qlt_le_dec t (a p)) as [H|H].
  - exists (a p). intros k Hk. destruct (Nat.eq_dec k p) as [->|]; [apply Qle_refl|]. specialize (Ht k ltac:(lia)). lra.
  - exists t. intros k Hk. destruct (Nat.eq_dec k p) as [->|]; [assumption|apply Ht; lia].
Qed.

Lemma execute_ends : infos <> [] -> exists F, forall fuel, (F <= fuel)%nat -> exists l, execute fuel infos (fun _ => O) [] = Ok l.
Proof.
  intros NE. set (target := fun k => match nth_error infos k with Some x => Z.to_nat (Z.of_nat (mi_phases x) * mi_ni x) | None => 0%nat end).
  destruct (max_exists (fun k => st k (target k)) n) as (Tm & HT). destruct (bounds_exist Tm n (le_n _)) as (b & Hb).
  assert (G : forall fuel count acc, (exists k, (k < n)%nat /\ (count k < target k)%nat) -> (forall k, (k < n)%nat -> (count k <= b k)%nat) ->
     (sumf (fun k => Z.of_nat (b k)) n - sumf (fun k => Z.of_nat (count k)) n < Z.of_nat fuel) -> exists l, execute fuel infos count acc = Ok l).
  { induction fuel as [|fuel IH]; intros count acc (k0 & L0 & U0) Le M.
    - exfalso. assert (sumf (fun k => Z.of_nat (count k)) n <= sumf (fun k => Z.of_nat (b k)) n) by (apply sumf_le; intros k Hk; specialize (Le k Hk); lia). lia.
    - cbn [execute]. destruct (pick_some infos count 0 None (or_introl NE)) as ([t k] & E). rewrite E. apply pick_spec in E. destruct E as (_ & Min & [E|(j & x & Hx & -> & ->)]); [discriminate|].
      change (0 + j)%nat with j in *. assert (Lj : (j < n)%nat) by (apply nth_error_Some; congruence).
      assert (Tj : (st j (count j) <= Tm)%Q).
      { apply Qle_trans with (st k0 (count k0)).
        - destruct (nth_error infos k0) as [x0|] eqn:Hx0; [|apply nth_error_None in Hx0; lia]. unfold st. rewrite Hx, Hx0. apply (Min k0 x0 Hx0).
        - apply Qle_trans with (st k0 (target k0)); [apply st_le; [assumption|lia]|apply (HT k0 L0)]. }
      assert (Bj : (count j < b j)%nat). { destruct (Nat.lt_ge_cases (count j) (b j)) as [H|H]; [assumption|]. specialize (Hb j Lj _ H). lra. }
      destruct (unfinished infos (bump count j) 0) eqn:U; [|eauto]. apply unfinished_true in U. destruct U as (j1 & x1 & Hx1 & L1). cbn [Nat.add] in L1. apply IH.
      + exists j1. split; [apply nth_error_Some; congruence|]. unfold target. rewrite Hx1. pose proof (NiPos _ _ Hx1). lia.
      + intros k Lk. unfold bump. destruct (k =? j)%nat eqn:Ek; [apply Nat.eqb_eq in Ek; subst; lia|auto].
      + assert (S1 : forall p, sumf (fun k => Z.of_nat (bump count j k)) p = sumf (fun k => Z.of_nat (count k)) p + (if (j <? p)%nat then 1 else 0)).
        { induction p as [|p IHp]; cbn [sumf]; [reflexivity|]. rewrite IHp. unfold bump. destruct (p =? j)%nat eqn:E1; destruct (j <? p)%nat eqn:E2; destruct (j <? S p)%nat eqn:E3; lia. }
        rewrite S1. destruct (j <? n)%nat eqn:E1; lia. }
  exists (Z.to_nat (sumf (fun k => Z.of_nat (b k)) n + 1)). intros fuel Hf. apply G.
  - assert (E0 : exists x, nth_error infos 0 = Some x) by (destruct infos as [|x ?]; [congruence|exists x; reflexivity]). destruct E0 as (x & Hx).
    exists 0%nat. split; [apply nth_error_Some; congruence|]. unfold target. rewrite Hx. pose proof (NiPos _ _ Hx). pose proof (PhPos _ _ Hx). nia.
  - intros; lia.
  - rewrite sumf_zero. assert (0 <= sumf (fun k => Z.of_nat (b k)) n) by (apply sumf_nonneg; intros; lia). lia.
Qed.
End T.
