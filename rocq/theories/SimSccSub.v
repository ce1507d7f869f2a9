(** The graph of one component, described directly. *)
From Coq Require Import QArith.
From Verif Require Import Base Graph ScheduleSpec Scc SccSpec SccProofs Sim SimScc.
From Verif Require Builder.
Open Scope Z_scope.

(** The elements at the positions chosen by [keep], and the new position of position [j]. *)
Fixpoint select {A} (keep : nat -> bool) (l : list A) : list A :=
  match l with
  | [] => []
  | x :: l' => if keep O then x :: select (fun j => keep (S j)) l' else select (fun j => keep (S j)) l'
  end.
Fixpoint rank (keep : nat -> bool) (j : nat) : nat :=
  match j with
  | O => O
  | S j' => if keep O then S (rank (fun j => keep (S j)) j') else rank (fun j => keep (S j)) j'
  end.
Definition moved (keep : nat -> bool) (c : edge) : edge := set_ends (rank keep (e_src c)) (rank keep (e_dst c)) c.
Definition sub (keep : nat -> bool) (g : graph) : graph :=
  mkGraph (select keep (vertices g)) (map (moved keep) (filter (fun c => keep (e_src c) && keep (e_dst c)) (edges g))).

Lemma select_ext {A} (l : list A) : forall k1 k2, (forall j, (j < length l)%nat -> k1 j = k2 j) -> select k1 l = select k2 l.
Proof.
  induction l as [|x l IH]; intros k1 k2 H; [reflexivity|]. cbn [select]. rewrite (H 0%nat) by (cbn; lia).
  rewrite (IH (fun j => k1 (S j)) (fun j => k2 (S j))) by (intros; apply H; cbn; lia). reflexivity.
Qed.
Lemma rank_ext j : forall k1 k2, (forall x, (x < j)%nat -> k1 x = k2 x) -> rank k1 j = rank k2 j.
Proof.
  induction j as [|j IH]; intros k1 k2 H; [reflexivity|]. cbn [rank]. rewrite (H 0%nat) by lia.
  rewrite (IH (fun j => k1 (S j)) (fun j => k2 (S j))) by (intros; apply H; lia). reflexivity.
Qed.
Lemma sub_ext k1 k2 g : (forall j, k1 j = k2 j) -> sub k1 g = sub k2 g.
Proof.
  intros H. unfold sub. f_equal; [apply select_ext; auto|].
  rewrite (filter_ext (fun c => k1 (e_src c) && k1 (e_dst c)) (fun c => k2 (e_src c) && k2 (e_dst c))) by (intros c; now rewrite !H).
  apply map_ext. intros c. unfold moved. f_equal; apply rank_ext; auto.
Qed.
Lemma select_all {A} (l : list A) : forall k, (forall j, k j = true) -> select k l = l.
Proof. induction l as [|x l IH]; intros k H; [reflexivity|]. cbn [select]. rewrite H, IH by auto. reflexivity. Qed.
Lemma rank_all j : forall k, (forall j, k j = true) -> rank k j = j.
Proof. induction j as [|j IH]; intros k H; [reflexivity|]. cbn [rank]. rewrite H, IH by auto. reflexivity. Qed.
Lemma sub_all g k : (forall j, k j = true) -> sub k g = g.
Proof.
  intros H. unfold sub. rewrite select_all by assumption.
  rewrite (filter_ext _ (fun _ => true)) by (intros c; now rewrite !H).
  replace (filter (fun _ => true) (edges g)) with (edges g).
  2: { induction (edges g) as [|c l IH]; cbn; [reflexivity|now rewrite <- IH]. }
  rewrite (map_ext _ (fun c => c)); [rewrite map_id; destruct g; reflexivity|].
  intros c. unfold moved. rewrite !rank_all by assumption. destruct c; reflexivity.
Qed.

(** Positions. *)
Lemma rank_S k : forall j, rank k (S j) = (rank k j + (if k j then 1 else 0))%nat.
Proof.
  intros j. revert k. induction j as [|j IH]; intros k; [cbn; destruct (k 0%nat); reflexivity|].
  change (rank k (S (S j))) with (if k 0%nat then S (rank (fun x => k (S x)) (S j)) else rank (fun x => k (S x)) (S j)).
  change (rank k (S j)) with (if k 0%nat then S (rank (fun x => k (S x)) j) else rank (fun x => k (S x)) j).
  rewrite IH. destruct (k 0%nat); lia.
Qed.
Lemma rank_mono k i j : (i <= j)%nat -> (rank k i <= rank k j)%nat.
Proof. intros H. induction H as [|j H IH]; [lia|]. rewrite rank_S. lia. Qed.
Lemma rank_lt k i j : k i = true -> (i < j)%nat -> (rank k i < rank k j)%nat.
Proof. intros K H. pose proof (rank_mono k (S i) j H) as M. rewrite rank_S, K in M. lia. Qed.
Lemma rank_inj k i j : k i = true -> k j = true -> rank k i = rank k j -> i = j.
Proof.
  intros Ki Kj E. destruct (Nat.lt_trichotomy i j) as [L|[L|L]]; [|assumption|].
  - pose proof (rank_lt k i j Ki L). lia.
  - pose proof (rank_lt k j i Kj L). lia.
Qed.
Lemma select_nth {A} (l : list A) : forall k i, k i = true -> nth_error (select k l) (rank k i) = nth_error l i.
Proof.
  induction l as [|x l IH]; intros k i K; [cbn; destruct (rank k i), i; reflexivity|]. cbn [select].
  destruct i as [|i]; [cbn [rank]; rewrite K; reflexivity|]. cbn [rank nth_error].
  destruct (k 0%nat); cbn [nth_error]; apply (IH (fun j => k (S j))); assumption.
Qed.
Lemma select_length {A} (l : list A) : forall k, length (select k l) = rank k (length l).
Proof. induction l as [|x l IH]; intros k; [reflexivity|]. cbn [select length rank]. destruct (k 0%nat); cbn [length]; now rewrite IH. Qed.
Lemma rank_onto k n : forall x, (x < rank k n)%nat -> exists i, (i < n)%nat /\ k i = true /\ rank k i = x.
Proof.
  induction n as [|n IH]; intros x H; [cbn in H; lia|]. rewrite rank_S in H.
  destruct (k n) eqn:K; [|destruct (IH x ltac:(lia)) as (i & A & B); exists i; split; [lia|exact B]].
  destruct (Nat.eq_dec x (rank k n)) as [->|]; [exists n; auto|]. destruct (IH x ltac:(lia)) as (i & A & B). exists i. split; [lia|exact B].
Qed.
Lemma select_in {A} (l : list A) k x : In x (select k l) <-> exists i, k i = true /\ nth_error l i = Some x.
Proof.
  split.
  - intros H. apply In_nth_error in H. destruct H as [j E]. assert (L : (j < length (select k l))%nat) by (apply nth_error_Some; congruence).
    rewrite select_length in L. destruct (rank_onto _ _ _ L) as (i & A1 & K & <-). exists i. split; [assumption|]. now rewrite select_nth in E by assumption.
  - intros (i & K & E). rewrite <- (select_nth l k i K) in E. eapply nth_error_In; exact E.
Qed.
Lemma select_map {A B} (f : A -> B) l : forall k, select k (map f l) = map f (select k l).
Proof. induction l as [|x l IH]; intros k; [reflexivity|]. cbn [map select]. rewrite IH. destruct (k 0%nat); reflexivity. Qed.
Lemma select_nodup {A} (l : list A) : NoDup l -> forall k, NoDup (select k l).
Proof.
  induction 1 as [|x l N D IH]; intros k; [constructor|]. cbn [select]. destruct (k 0%nat); [|apply IH].
  constructor; [|apply IH]. rewrite select_in. intros (i & _ & E). apply N. eapply nth_error_In; exact E.
Qed.

(** Removing one task. *)
Definition without (k : nat -> bool) (i : nat) : nat -> bool := fun j => k j && negb (j =? i)%nat.
Lemma delete_select {A} (l : list A) : forall k i, k i = true -> Builder.delete_nth (rank k i) (select k l) = select (without k i) l.
Proof.
  induction l as [|x l IH]; intros k i K; [destruct (rank k i); reflexivity|]. cbn [select]. destruct i as [|i].
  - cbn [rank]. rewrite K. unfold without at 1. rewrite K. cbn [andb negb Nat.eqb Builder.delete_nth]. apply select_ext. intros j _. unfold without. cbn. now rewrite andb_true_r.
  - cbn [rank]. unfold without at 1. cbn [Nat.eqb negb]. rewrite andb_true_r.
    assert (E : select (fun j => without k (S i) (S j)) l = select (without (fun j => k (S j)) i) l) by (apply select_ext; intros j _; reflexivity).
    destruct (k 0%nat); cbn [Builder.delete_nth]; rewrite E, <- IH by assumption; reflexivity.
Qed.
Lemma rank_without k i : k i = true -> forall j, rank (without k i) j = (rank k j - (if (i <? j)%nat then 1 else 0))%nat.
Proof.
  intros K. induction j as [|j IH]; [reflexivity|]. rewrite !rank_S, IH. unfold without at 1.
  destruct (Nat.ltb_spec i j) as [L|L]; destruct (Nat.ltb_spec i (S j)) as [L'|L']; destruct (Nat.eqb_spec j i) as [E|E]; try lia.
  - pose proof (rank_lt k i j K L). destruct (k j); cbn; lia.
  - subst j. rewrite K. cbn. lia.
  - destruct (k j); cbn; lia.
Qed.
Lemma shift_rank k i j : k i = true -> k j = true -> j <> i -> Builder.shift (rank k i) (rank k j) = rank (without k i) j.
Proof.
  intros Ki Kj D. rewrite rank_without by assumption. unfold Builder.shift. destruct (Nat.ltb_spec i j) as [L|L].
  - pose proof (rank_lt k i j Ki L). destruct (Nat.ltb_spec (rank k i) (rank k j)); lia.
  - pose proof (rank_lt k j i Kj ltac:(lia)). destruct (Nat.ltb_spec (rank k i) (rank k j)); lia.
Qed.
Lemma drop_sub k g i : k i = true -> drop_task (sub k g) (rank k i) = sub (without k i) g.
Proof.
  intros K. unfold drop_task, sub at 1 2 3. cbn [vertices edges]. unfold sub. f_equal; [apply delete_select; assumption|].
  induction (edges g) as [|c l IH]; [reflexivity|]. cbn [filter].
  unfold without at 2 3. destruct (k (e_src c)) eqn:Ks; cbn [andb]; [|exact IH]. destruct (k (e_dst c)) eqn:Kd; cbn [andb]; [|rewrite andb_false_r; exact IH].
  cbn [map filter]. cbn [moved set_ends e_src e_dst].
  assert (R : forall x, k x = true -> (rank k x =? rank k i)%nat = (x =? i)%nat).
  { intros x Kx. destruct (Nat.eqb_spec x i) as [->|D]; [apply Nat.eqb_refl|]. apply Nat.eqb_neq. intros E. apply D. exact (rank_inj k x i Kx K E). }
  rewrite !R by assumption. destruct (Nat.eqb_spec (e_src c) i) as [E1|E1]; cbn [negb andb]; [exact IH|].
  destruct (Nat.eqb_spec (e_dst c) i) as [E2|E2]; cbn [negb andb map]; [exact IH|]. f_equal; [|exact IH].
  unfold moved, set_ends. cbn. rewrite !shift_rank by assumption. reflexivity.
Qed.

(** generateSCCs keeps exactly the tasks of the component. *)
Definition member (comp : list Z) (g : graph) (j : nat) : bool :=
  match nth_error (vertices g) j with Some v => existsb (Z.eqb (v_id v)) comp | None => true end.
Lemma keep_run comp g : NoDup (map v_id (vertices g)) -> forall vs pre, vertices g = pre ++ vs ->
  keep_component comp vs (sub (fun j => (length pre <=? j)%nat || member comp g j) g) = Ok (sub (member comp g) g).
Proof.
  intros ND. induction vs as [|v vs IH]; intros pre E.
  - cbn [keep_component]. f_equal. apply sub_ext. intros j. destruct (Nat.leb_spec (length pre) j) as [L|L]; [|reflexivity].
    unfold member. rewrite (proj2 (nth_error_None _ _)); [reflexivity|]. rewrite E, app_nil_r. assumption.
  - cbn [keep_component]. set (k := fun j => (length pre <=? j)%nat || member comp g j).
    assert (Ev : nth_error (vertices g) (length pre) = Some v) by (rewrite E, nth_error_app2, Nat.sub_diag by lia; reflexivity).
    assert (Kp : k (length pre) = true) by (unfold k; rewrite Nat.leb_refl; reflexivity).
    assert (E' : vertices g = (pre ++ [v]) ++ vs) by (rewrite <- app_assoc; exact E).
    specialize (IH (pre ++ [v]) E'). rewrite app_length in IH. cbn [length] in IH.
    destruct (existsb (Z.eqb (v_id v)) comp) eqn:M.
    + rewrite <- IH. f_equal. apply sub_ext. intros j. unfold k. destruct (Nat.eq_dec j (length pre)) as [->|D].
      * unfold member. rewrite Ev, M, !orb_true_r. reflexivity.
      * destruct (Nat.leb_spec (length pre) j); destruct (Nat.leb_spec (length pre + 1) j); try lia; reflexivity.
    + unfold vertex_by_id, sub at 1. cbn [vertices].
      rewrite (position_nth (select k (vertices g)) (rank k (length pre)) v);
        [|rewrite <- select_map; apply select_nodup; assumption|rewrite select_nth by assumption; exact Ev].
      cbn [bind]. rewrite drop_sub by assumption. rewrite <- IH. f_equal. apply sub_ext. intros j. unfold without, k.
      destruct (Nat.eqb_spec j (length pre)) as [->|D]; cbn [negb].
      * rewrite andb_false_r. unfold member. rewrite Ev, M. destruct (Nat.leb_spec (length pre + 1) (length pre)); [lia|reflexivity].
      * rewrite andb_true_r. destruct (Nat.leb_spec (length pre) j); destruct (Nat.leb_spec (length pre + 1) j); try lia; reflexivity.
Qed.
Lemma keep_component_sub comp g : NoDup (map v_id (vertices g)) -> keep_component comp (vertices g) g = Ok (sub (member comp g) g).
Proof. intros ND. rewrite <- (keep_run comp g ND (vertices g) [] eq_refl). rewrite sub_all; [reflexivity|]. intros j. reflexivity. Qed.
Lemma generate_sccs_sub g comps : NoDup (map v_id (vertices g)) -> generate_sccs g comps = Ok (map (fun c => sub (member c g) g) comps).
Proof.
  intros ND. induction comps as [|c comps IH]; [reflexivity|]. cbn [generate_sccs map]. rewrite keep_component_sub by assumption. cbn [bind].
  rewrite IH. reflexivity.
Qed.
