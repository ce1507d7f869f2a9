(** The execution sequence of a merge and its infinite repetition. *)
From Coq Require Import QArith Lqa ZifyBool ZifyNat.
From Verif Require Import Base Graph EventGraph Merge.
Open Scope Z_scope.

Definition cntl (k : nat) (l : list exec) : nat := length (filter (fun e : exec => (fst e =? k)%nat) l).
Lemma occurrences_cntl l k : occurrences l k = Z.of_nat (cntl k l).
Proof. reflexivity. Qed.
Lemma cntl_app k a b : cntl k (a ++ b) = (cntl k a + cntl k b)%nat.
Proof. unfold cntl. rewrite filter_app, app_length. reflexivity. Qed.

(** ** The scheduling loop *)
Lemma pick_spec infos count : forall k best t k', pick infos count k best = Some (t, k') ->
  (match best with Some (bt, bk) => (t <= bt)%Q | None => True end) /\
  (forall j x, nth_error infos j = Some x -> (t <= next_time x (count (k + j)%nat))%Q) /\
  (best = Some (t, k') \/ exists j x, nth_error infos j = Some x /\ k' = (k + j)%nat /\ t = next_time x (count k')).
Proof.
  induction infos as [|x rest IH]; intros k best t k' H; cbn in H.
  - subst best. split; [apply Qle_refl|]. split; [intros [|j] x E; discriminate|left; reflexivity].
  - apply IH in H. destruct H as (A & B & C).
    set (tx := next_time x (count k)) in *.
    assert (A' : (t <= tx)%Q /\ match best with Some (bt, _) => (t <= bt)%Q | None => True end).
    { destruct best as [[bt bk]|]; [|split; [assumption|trivial]]. destruct (Qle_bool tx bt) eqn:E; [|split; [|assumption]].
      - apply Qle_bool_iff in E. split; [assumption|lra].
      - assert (~ (tx <= bt)%Q) by (intros Hn; apply Qle_bool_iff in Hn; congruence). lra. }
    destruct A' as [Ax Ab]. split; [assumption|]. split.
    + intros [|j] y Hy; cbn in Hy; [injection Hy as <-; rewrite Nat.add_0_r; assumption|]. specialize (B j y Hy). replace (k + S j)%nat with (S k + j)%nat by lia. assumption.
    + assert (Fresh : Some (tx, k) = Some (t, k') -> exists j y, nth_error (x :: rest) j = Some y /\ k' = (k + j)%nat /\ t = next_time y (count k')).
      { intros E. injection E as E1 E2. exists 0%nat, x. subst. split; [reflexivity|]. split; [lia|reflexivity]. }
      destruct C as [C|(j & y & Hy & -> & Ht)]; [|right; exists (S j), y; split; [assumption|]; split; [lia|assumption]].
      destruct best as [[bt bk]|]; [|right; auto]. destruct (Qle_bool tx bt); [right; auto|left; assumption].
Qed.
Lemma pick_some infos count : forall k best, infos <> [] \/ best <> None -> exists r, pick infos count k best = Some r.
Proof.
  induction infos as [|x rest IH]; intros k best H; cbn; [destruct best as [r|]; [eauto|destruct H; congruence]|].
  apply IH. right. destruct best as [[bt bk]|]; [destruct (Qle_bool _ _); discriminate|discriminate].
Qed.

(** Every entry is the next execution of its task and starts no later than what remains. *)
Definition run_ok (infos : list info) (l : list exec) : Prop :=
  forall m k c, nth_error l m = Some (k, c) ->
    c = cntl k (firstn m l) /\
    exists x, nth_error infos k = Some x /\
      forall k' x', nth_error infos k' = Some x' -> (next_time x c <= next_time x' (cntl k' (firstn m l)))%Q.
Definition finished (infos : list info) (l : list exec) : Prop :=
  forall k x, nth_error infos k = Some x -> Z.of_nat (mi_phases x) * mi_ni x <= Z.of_nat (cntl k l).

Lemma unfinished_false infos count : forall k, unfinished infos count k = false ->
  forall j x, nth_error infos j = Some x -> Z.of_nat (mi_phases x) * mi_ni x <= Z.of_nat (count (k + j)%nat).
Proof.
  induction infos as [|x rest IH]; intros k H [|j] y Hy; cbn in *; try discriminate; apply orb_false_elim in H; destruct H as [H1 H2].
  - injection Hy as <-. rewrite Nat.add_0_r. lia.
  - specialize (IH _ H2 j y Hy). replace (k + S j)%nat with (S k + j)%nat by lia. assumption.
Qed.
Lemma firstn_snoc_le {A} (l : list A) x m : (m <= length l)%nat -> firstn m (l ++ [x]) = firstn m l.
Proof. intros H. rewrite firstn_app. replace (m - length l)%nat with 0%nat by lia. cbn. rewrite app_nil_r. reflexivity. Qed.
Lemma run_ok_snoc infos l k x : run_ok infos l -> nth_error infos k = Some x ->
  (forall k' x', nth_error infos k' = Some x' -> (next_time x (cntl k l) <= next_time x' (cntl k' l))%Q) ->
  run_ok infos (l ++ [(k, cntl k l)]).
Proof.
  intros R Hx Le m j c H. destruct (Nat.lt_ge_cases m (length l)) as [L|L].
  - rewrite nth_error_app1 in H by assumption. rewrite firstn_snoc_le by lia. apply R, H.
  - rewrite nth_error_app2 in H by assumption. destruct (m - length l)%nat as [|z] eqn:E; cbn in H; [|destruct z; discriminate].
    injection H as <- <-. rewrite firstn_snoc_le by lia. rewrite firstn_all2 by lia. split; [reflexivity|]. exists x. auto.
Qed.
Lemma execute_spec infos : forall fuel count acc l, execute fuel infos count acc = Ok l ->
  run_ok infos acc -> (forall k, count k = cntl k acc) -> run_ok infos l /\ finished infos l /\ l <> [].
Proof.
  induction fuel as [|fuel IH]; intros count acc l H R C; cbn in H; [discriminate|].
  destruct (pick infos count 0 None) as [[t k]|] eqn:E; [|discriminate]. apply pick_spec in E. destruct E as (_ & Le & [E|(j & x & Hx & -> & ->)]); [discriminate|].
  cbn in Le. change (0 + j)%nat with j in *. rewrite (C j) in *.
  assert (R' : run_ok infos (acc ++ [(j, cntl j acc)])).
  { apply run_ok_snoc with x; try assumption. intros k' x' Hx'. specialize (Le k' x' Hx'). rewrite C in Le. assumption. }
  assert (C' : forall k, bump count j k = cntl k (acc ++ [(j, cntl j acc)])).
  { intros k. unfold bump. rewrite cntl_app. unfold cntl at 2. cbn. rewrite Nat.eqb_sym. destruct (j =? k)%nat; cbn; rewrite C; lia. }
  destruct (unfinished infos (bump count j) 0) eqn:U; [exact (IH _ _ _ H R' C')|].
  injection H as <-. split; [assumption|]. split; [|destruct acc; discriminate].
  intros k y Hy. rewrite <- C'. apply (unfinished_false _ _ _ U k y Hy).
Qed.
Lemma run_ok_nil infos : run_ok infos [].
Proof. intros m k c H. destruct m; discriminate. Qed.
Lemma run_ok_firstn infos l n : run_ok infos l -> run_ok infos (firstn n l).
Proof.
  intros R m k c H. destruct (Nat.lt_ge_cases m n) as [L|L].
  - assert (E : nth_error l m = Some (k, c)).
    { clear R. revert l n L H. induction m; intros [|a l] [|n] L H; cbn in *; try lia; try discriminate; auto. apply IHm with n; [lia|assumption]. }
    rewrite firstn_firstn. replace (Nat.min m n) with m by lia. apply R, E.
  - assert (nth_error (firstn n l) m = None) by (apply nth_error_None; rewrite firstn_length; lia). congruence.
Qed.

(** ** The suffix test *)
Lemma suffix_ok_spec infos gcd l : forall k factor, suffix_ok infos gcd l k factor = true ->
  exists f, f <> 0 /\ (factor <> 0 -> f = factor) /\ (infos = [] \/ 
  forall j x, nth_error infos j = Some x -> occurrences l (k + j)%nat = (mi_ni x / gcd) * f /\ occurrences l (k + j)%nat <> 0).
Proof.
  induction infos as [|x rest IH]; intros k factor H; cbn in H.
  - exists (if factor =? 0 then 1 else factor). split; [destruct (factor =? 0) eqn:E; lia|]. split; [intros N; destruct (factor =? 0) eqn:E; lia|left; reflexivity].
  - repeat (apply andb_prop in H; destruct H as [H ?]). set (f1 := if factor =? 0 then occurrences l k / (mi_ni x / gcd) else factor) in *.
    match goal with A : suffix_ok rest _ _ _ _ = true |- _ => destruct (IH _ _ A) as (f & Nf & Ff & Al) end.
    assert (F1 : f1 <> 0) by (intros Z0; rewrite Z0 in *; lia). specialize (Ff F1). subst f. exists f1. split; [assumption|]. split.
    + intros Nz. unfold f1. destruct (factor =? 0) eqn:E; [lia|reflexivity].
    + right. intros [|j] y Hy; cbn in Hy; [injection Hy as <-; rewrite Nat.add_0_r; lia|]. replace (k + S j)%nat with (S k + j)%nat by lia.
      destruct Al as [->|Al]; [destruct j; discriminate|]. apply Al, Hy.
Qed.
Lemma find_init_spec infos gcd l : forall n i, find_init infos gcd l n = Ok i -> (i <= n)%nat /\ suffix_ok infos gcd (skipn i l) 0 0 = true.
Proof.
  induction n as [|n IH]; intros i H; cbn in H; destruct (suffix_ok infos gcd _ 0 0) eqn:E; try discriminate; try (injection H as <-; split; [lia|exact E]).
  destruct (IH _ H). split; [lia|assumption].
Qed.

(** ** The reduction keeps a period with the same tasks *)
Lemma same_tasks_cntl a b : same_tasks a b = true -> map fst a = map fst b.
Proof.
  revert b. induction a as [|x a IH]; intros [|y b] H; cbn in *; try discriminate; [reflexivity|].
  apply andb_prop in H. destruct H as [H1 H2]. apply Nat.eqb_eq in H1. rewrite H1, (IH _ H2). reflexivity.
Qed.
Lemma cntl_map a b k : map fst a = map fst b -> cntl k a = cntl k b.
Proof.
  revert b. induction a as [|x a IH]; intros [|y b] H; cbn in *; try discriminate; [reflexivity|]. injection H as H1 H2. unfold cntl in *. cbn. rewrite H1. specialize (IH _ H2).
  destruct (fst y =? k)%nat; cbn; rewrite IH; reflexivity.
Qed.
Lemma same_tasks_refl a : same_tasks a a = true.
Proof. induction a; cbn; [reflexivity|]. rewrite Nat.eqb_refl. assumption. Qed.
Lemma reduce_init_spec l init : (init <= length l)%nat ->
  let r := reduce_init l init in let P := (length l - init)%nat in
  (r <= init)%nat /\ map fst (firstn P (skipn r l)) = map fst (skipn init l).
Proof.
  intros H r P. unfold r, reduce_init. rewrite skipn_length. fold P.
  assert (B : map fst (firstn P (skipn init l)) = map fst (skipn init l)) by (rewrite firstn_all2 by (rewrite skipn_length; lia); reflexivity).
  generalize (seq 0 (S (init / P))). intros js. assert (G : forall js b, (b <= init)%nat /\ map fst (firstn P (skipn b l)) = map fst (skipn init l) ->
    let r := fold_left (fun best j => if same_tasks (firstn P (skipn (init - j * P) l)) (skipn init l) then (init - j * P)%nat else best) js b in
    (r <= init)%nat /\ map fst (firstn P (skipn r l)) = map fst (skipn init l)).
  { clear. induction js as [|j js IH]; intros b Hb; cbn; [exact Hb|]. apply IH. destruct (same_tasks _ _) eqn:E; [|assumption]. split; [lia|]. apply same_tasks_cntl, E. }
  apply G. split; [lia|exact B].
Qed.

(** ** The infinite sequence *)
Section Inf.
Variables (l : list exec) (init : nat).
Hypothesis Lt : (init < length l)%nat.
Let P := (length l - init)%nat.
Definition fold_pos (m : nat) : nat := if (m <? init)%nat then m else (init + (m - init) mod P)%nat.
Definition tk (m : nat) : nat := fst (nth (fold_pos m) l (0, 0)%nat).
Definition it (m : nat) : nat := snd (nth (fold_pos m) l (0, 0)%nat).
Fixpoint cnt (k m : nat) : nat := match m with O => O | S m' => if (tk m' =? k)%nat then S (cnt k m') else cnt k m' end.
Definition per_count (k : nat) : nat := cntl k (skipn init l).

Lemma P_pos : (0 < P)%nat. Proof. unfold P. lia. Qed.
Lemma fold_small m : (m < length l)%nat -> fold_pos m = m.
Proof.
  intros H. unfold fold_pos. destruct (m <? init)%nat eqn:E; [reflexivity|]. rewrite Nat.mod_small; [lia|]. unfold P. lia.
Qed.
Lemma fold_lt m : (fold_pos m < length l)%nat.
Proof.
  unfold fold_pos. destruct (m <? init)%nat eqn:E; [lia|]. pose proof (Nat.mod_upper_bound (m - init) P ltac:(unfold P; lia)). unfold P in *. lia.
Qed.
Lemma fold_period m : (init <= m)%nat -> fold_pos (m + P) = fold_pos m.
Proof.
  intros H. unfold fold_pos. destruct (m + P <? init)%nat eqn:E1; [lia|]. destruct (m <? init)%nat eqn:E2; [lia|].
  replace (m + P - init)%nat with ((m - init) + 1 * P)%nat by lia. rewrite Nat.mod_add by (unfold P; lia). reflexivity.
Qed.
Lemma cnt_prefix k m : (m <= length l)%nat -> cnt k m = cntl k (firstn m l).
Proof.
  induction m as [|m IH]; intros H; [reflexivity|]. cbn [cnt]. rewrite IH by lia. unfold tk. rewrite fold_small by lia.
  assert (E : firstn (S m) l = firstn m l ++ [nth m l (0, 0)%nat]).
  { clear - H. revert m H. induction l as [|a l' IH']; intros [|m] H; cbn in *; try lia; [reflexivity|]. rewrite IH' by lia. reflexivity. }
  rewrite E, cntl_app. unfold cntl at 4. cbn. destruct (fst (nth m l (0, 0)%nat) =? k)%nat; cbn; lia.
Qed.
Lemma cnt_period k m : (init <= m)%nat -> cnt k (m + P) = (cnt k m + per_count k)%nat.
Proof.
  intros H. replace m with (init + (m - init))%nat by lia. generalize (m - init)%nat. clear m H. induction n as [|n IH].
  - rewrite Nat.add_0_r. replace (init + P)%nat with (length l) by (unfold P; lia). rewrite !cnt_prefix by lia. rewrite firstn_all. unfold per_count.
    rewrite <- cntl_app, firstn_skipn. reflexivity.
  - replace (init + S n + P)%nat with (S (init + n + P)) by lia. replace (init + S n)%nat with (S (init + n)) by lia. cbn [cnt].
    rewrite IH. unfold tk. rewrite fold_period by lia. destruct (_ =? k)%nat; lia.
Qed.
Lemma cnt_periods k m j : (init <= m)%nat -> cnt k (m + j * P) = (cnt k m + j * per_count k)%nat.
Proof.
  intros H. induction j as [|j IH]; [rewrite !Nat.add_0_r; reflexivity|]. replace (m + S j * P)%nat with (m + j * P + P)%nat by lia.
  rewrite cnt_period by lia. rewrite IH. lia.
Qed.
Lemma cnt_mono k m m' : (m <= m')%nat -> (cnt k m <= cnt k m')%nat.
Proof. induction 1; [lia|]. cbn [cnt]. destruct (_ =? k)%nat; lia. Qed.
Lemma cnt_total_le k m : (cnt k m <= m)%nat.
Proof. induction m; cbn [cnt]; [lia|]. destruct (_ =? k)%nat; lia. Qed.
Lemma split_pos m : (length l <= m)%nat -> exists m1, m = (m1 + P)%nat /\ (init <= m1)%nat /\ (m1 < m)%nat.
Proof. intros H. exists (m - P)%nat. pose proof P_pos. unfold P in *. lia. Qed.
Lemma it_small infos m : run_ok infos l -> (m < length l)%nat -> it m = cnt (tk m) m.
Proof.
  intros R H. unfold it. rewrite cnt_prefix by lia. unfold tk. rewrite fold_small by assumption. destruct (nth m l (0, 0)%nat) as [k c] eqn:E.
  destruct (R m k c) as [C _]; [|exact C]. rewrite (nth_error_nth' l (0, 0)%nat H), E. reflexivity.
Qed.
Lemma it_mod infos ph m : run_ok infos l -> (0 < ph)%nat -> (exists u, per_count (tk m) = u * ph)%nat -> (it m mod ph = cnt (tk m) m mod ph)%nat.
Proof.
  intros R Hp. induction m as [m IH] using lt_wf_ind. intros [u Hu]. destruct (Nat.lt_ge_cases m (length l)) as [L|L].
  - rewrite (it_small infos) by assumption. reflexivity.
  - destruct (split_pos m L) as (m1 & -> & H1 & H2). unfold it, tk in *. rewrite fold_period in * by assumption.
    rewrite cnt_period by assumption. rewrite Hu. rewrite Nat.mod_add by lia. apply IH; [assumption|]. exists u. exact Hu.
Qed.
Lemma tk_known infos m : run_ok infos l -> exists x, nth_error infos (tk m) = Some x.
Proof.
  intros R. unfold tk. destruct (nth (fold_pos m) l (0, 0)%nat) as [k c] eqn:E. destruct (R (fold_pos m) k c) as (_ & x & Hx & _); [|eauto].
  rewrite (nth_error_nth' l (0, 0)%nat (fold_lt m)), E. reflexivity.
Qed.

(** Every execution of every task of the period has its place. *)
Lemma cnt_hits k M c : (c < cnt k M)%nat -> exists m, (m < M)%nat /\ tk m = k /\ cnt k m = c.
Proof.
  induction M as [|M IH]; intros H; cbn [cnt] in H; [lia|]. destruct (tk M =? k)%nat eqn:E.
  - destruct (Nat.eq_dec c (cnt k M)) as [->|N]; [exists M; apply Nat.eqb_eq in E; auto|]. destruct IH as (m & A & B); [lia|]. exists m. split; [lia|assumption].
  - destruct IH as (m & A & B); [lia|]. exists m. split; [lia|assumption].
Qed.
Definition pos (k c : nat) : nat :=
  match find (fun m => ((tk m =? k) && (cnt k m =? c))%nat) (seq 0 (init + S c * P)) with Some m => m | None => 0%nat end.
Lemma pos_spec k c : (0 < per_count k)%nat -> tk (pos k c) = k /\ cnt k (pos k c) = c.
Proof.
  intros H. unfold pos. destruct (find _ _) as [m|] eqn:E; [apply find_some in E; destruct E as [_ E]; lia|].
  assert (L : (c < cnt k (init + S c * P))%nat) by (rewrite cnt_periods by lia; nia).
  destruct (cnt_hits k _ c L) as (m & A & B & C). exfalso. assert (X := find_none _ _ E m). cbv beta in X. rewrite B, C, !Nat.eqb_refl in X. cbn in X. 
  assert (true = false) by (apply X, in_seq; lia). discriminate.
Qed.
Lemma pos_unique k c m : (0 < per_count k)%nat -> tk m = k -> cnt k m = c -> m = pos k c.
Proof.
  intros H A B. destruct (pos_spec k c H) as [A' B']. destruct (Nat.lt_trichotomy m (pos k c)) as [L|[L|L]]; [|assumption|].
  - assert (C := cnt_mono k (S m) (pos k c) L). cbn [cnt] in C. rewrite A, Nat.eqb_refl in C. lia.
  - assert (C := cnt_mono k (S (pos k c)) m L). cbn [cnt] in C. rewrite A', Nat.eqb_refl in C. lia.
Qed.
Lemma pos_cnt m : (0 < per_count (tk m))%nat -> pos (tk m) (cnt (tk m) m) = m.
Proof. intros H. symmetry. apply pos_unique; auto. Qed.
Lemma pos_mono k c c' : (0 < per_count k)%nat -> (c < c')%nat -> (pos k c < pos k c')%nat.
Proof.
  intros H L. destruct (pos_spec k c H) as [A B]. destruct (pos_spec k c' H) as [A' B'].
  destruct (Nat.lt_ge_cases (pos k c) (pos k c')) as [G|G]; [assumption|]. pose proof (cnt_mono k _ _ G). lia.
Qed.
Lemma pos_bound k c : (0 < per_count k)%nat -> (pos k c * per_count k <= (init + P) * per_count k + c * P)%nat.
Proof.
  intros H. set (m := pos k c). destruct (pos_spec k c H) as [_ B]. fold m in B. destruct (Nat.le_gt_cases m init) as [L|L]; [nia|].
  set (j := ((m - init) / P)%nat). assert (Hj : (j * P <= m - init)%nat) by (unfold j; rewrite Nat.mul_comm; apply Nat.mul_div_le; pose proof P_pos; lia).
  assert (Hj2 : (m - init < S j * P)%nat). { unfold j. pose proof (Nat.mul_succ_div_gt (m - init) P ltac:(pose proof P_pos; lia)). lia. }
  pose proof (cnt_mono k (init + j * P) m ltac:(lia)) as C. rewrite cnt_periods in C by lia. rewrite B in C. nia.
Qed.
End Inf.
