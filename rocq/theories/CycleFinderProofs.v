(** Proofs about the search for cycles. *)
From Coq Require Import Relations Permutation Sorted ZifyBool ZifyNat.
From Verif Require Import Base NocPath Mapper MapperProofs TaskOrder TaskOrderSpec TaskOrderProofs CycleFinder CycleFinderSpec CycleFinderDfs.
Open Scope nat_scope.

(** ** The three searches have one form *)
Fixpoint gdfs {A} (Sc : nat -> list nat) (pre post : nat -> A -> A) (fuel v : nat) (st : (nat -> bool) * A) : outcome ((nat -> bool) * A) :=
  match fuel with
  | O => Timeout
  | S f =>
    do st' <- each (fun st w => if negb (fst st w) then gdfs Sc pre post f w st else Ok st) (set_at (fst st) v true, pre v (snd st)) (Sc v);
    Ok (fst st', post v (snd st'))
  end.
Lemma each_ext {A B} (f g : A -> B -> outcome A) : (forall a x, f a x = g a x) -> forall l a, each f a l = each g a l.
Proof. intros H. induction l as [|x l IH]; intros a; cbn [each]; [reflexivity|]. rewrite H. destruct (g a x); cbn [bind]; auto. Qed.
Lemma pair_out {A B} (x : outcome (A * B)) : (do st <- x; Ok (fst st, snd st)) = x.
Proof. destruct x as [[a b]| | |]; reflexivity. Qed.
Lemma fill_form d : forall f v st, fill_order f d v st = gdfs (outputs d) (fun _ a => a) (fun v a => v :: a) f v st.
Proof. induction f as [|f IH]; intros v st; [reflexivity|]. cbn [fill_order gdfs]. erewrite each_ext; [reflexivity|]. intros a x. cbn beta. now rewrite IH. Qed.
Lemma util_form d : forall f v st, dfs_util f d v st = gdfs (outputs d) (fun v a => a ++ [v]) (fun _ a => a) f v st.
Proof. induction f as [|f IH]; intros v st; [reflexivity|]. cbn [dfs_util gdfs]. rewrite pair_out. apply each_ext. intros a x. now rewrite IH. Qed.
Lemma anc_form d ids : forall f v st, ancestors f d v ids st = gdfs (inputs d) (fun v a => set_at a v (fold_right add_id (a v) ids)) (fun _ a => a) f v st.
Proof. induction f as [|f IH]; intros v st; [reflexivity|]. cbn [ancestors gdfs]. rewrite pair_out. apply each_ext. intros a x. now rewrite IH. Qed.

Definition shows (vis : nat -> bool) (L : list nat) : Prop := forall x, vis x = true <-> In x L.
Lemma shows_false vis L x : shows vis L -> vis x = false <-> ~ In x L.
Proof. intros H. rewrite <- (H x). destruct (vis x); split; congruence. Qed.

Section Run.
Context {A : Type}.
Variables (vs : list nat) (Sc : nat -> list nat) (pre post : nat -> A -> A) (Q : list nat -> A -> A -> Prop).
Hypothesis Cl : forall x y, In x vs -> In y (Sc x) -> In y vs.
Hypothesis Q0 : forall a, Q [] a a.
Hypothesis Qapp : forall N1 N2 a a1 a2, Q N1 a a1 -> Q N2 a1 a2 -> Q (N2 ++ N1) a a2.
Hypothesis Qone : forall v N a a1, Q N (pre v a) a1 -> Q (v :: N) a (post v a1).

Lemma gdfs_loop f : (forall v vis L a, In v vs -> shows vis L -> vis v = false -> unseen vs vis < f ->
    exists vis' L' N a', gdfs Sc pre post f v (vis, a) = Ok (vis', a') /\ Dfs Sc L [v] L' N /\ shows vis' L' /\ Q N a a') ->
  forall l vis L a, incl l vs -> shows vis L -> unseen vs vis < f ->
    exists vis' L' N a', each (fun st w => if negb (fst st w) then gdfs Sc pre post f w st else Ok st) (vis, a) l = Ok (vis', a') /\ Dfs Sc L l L' N /\ shows vis' L' /\ Q N a a'.
Proof using Q0 Qapp.
  clear Cl Qone. intros H. induction l as [|w l IH]; intros vis L a I V U; cbn [each]; [exists vis, L, [], a; split; [reflexivity|]; split; [constructor|auto]|].
  assert (I' : incl l vs) by (intros x Hx; apply I; now right). cbn [fst]. destruct (vis w) eqn:B; cbn [negb bind].
  - destruct (IH vis L a I' V U) as (vis' & L' & N & a' & E & D & V' & Qa). exists vis', L', N, a'. split; [exact E|]. split; [constructor; [apply V, B|exact D]|auto].
  - destruct (H w vis L a (I w (or_introl eq_refl)) V B U) as (vis1 & L1 & N1 & a1 & -> & D1 & V1 & Qa1). cbn [bind].
    assert (U1 : unseen vs vis1 < f). { assert (unseen vs vis1 <= unseen vs vis); [|lia]. apply unseen_le. intros x Hx. apply V1, (dfs_vis _ _ _ _ _ D1). right. apply V, Hx. }
    destruct (IH vis1 L1 a1 I' V1 U1) as (vis2 & L2 & N2 & a2 & E & D2 & V2 & Qa2). exists vis2, L2, (N2 ++ N1), a2. split; [exact E|]. split; [|split; [exact V2|exact (Qapp _ _ _ _ _ Qa1 Qa2)]].
    change (w :: l) with ([w] ++ l). exact (dfs_app _ _ _ _ _ _ _ _ D1 D2).
Qed.
Lemma gdfs_run : forall f v vis L a, In v vs -> shows vis L -> vis v = false -> unseen vs vis < f ->
  exists vis' L' N a', gdfs Sc pre post f v (vis, a) = Ok (vis', a') /\ Dfs Sc L [v] L' N /\ shows vis' L' /\ Q N a a'.
Proof using Cl Q0 Qapp Qone.
  induction f as [|f IH]; intros v vis L a Hv V B U; [lia|]. cbn [gdfs fst snd].
  assert (V0 : shows (set_at vis v true) (v :: L)). { intros x. unfold set_at. cbn [In]. destruct (x =? v) eqn:E; [apply Nat.eqb_eq in E; subst; intuition|]. apply Nat.eqb_neq in E. rewrite (V x). intuition congruence. }
  assert (U0 : unseen vs (set_at vis v true) < f) by (pose proof (unseen_set vs (fun _ => false) vis v Hv B); lia).
  destruct (gdfs_loop f IH (Sc v) (set_at vis v true) (v :: L) (pre v a) ltac:(intros x; apply Cl, Hv) V0 U0) as (vis1 & L1 & N1 & a1 & -> & D & V1 & Qa). cbn [bind fst snd].
  exists vis1, L1, (v :: N1), (post v a1). split; [reflexivity|]. split; [|split; [exact V1|exact (Qone _ _ _ _ Qa)]].
  change (v :: N1) with ([] ++ v :: N1). apply (D_new Sc L v [] L1 N1 L1 []); [apply (shows_false vis L v V), B|exact D|constructor].
Qed.
End Run.

(** ** Sorting *)
Lemma insert_perm x : forall l, Permutation (insert x l) (x :: l).
Proof. induction l as [|y l IH]; cbn [insert]; [reflexivity|]. destruct (x <=? y); [reflexivity|]. rewrite IH. constructor. Qed.
Lemma sorted_perm : forall l, Permutation (sorted l) l.
Proof. induction l as [|x l IH]; cbn; [constructor|]. rewrite insert_perm. constructor. exact IH. Qed.
Lemma insert_sorted x : forall l, StronglySorted le l -> StronglySorted le (insert x l).
Proof.
  induction l as [|y l IH]; intros S; cbn [insert]; [repeat constructor|]. inversion S as [|? ? S' F]; subst. destruct (x <=? y) eqn:B.
  - apply Nat.leb_le in B. constructor; [exact S|]. constructor; [exact B|]. eapply Forall_impl; [|exact F]. cbn. intros; lia.
  - apply Nat.leb_gt in B. constructor; [auto|]. apply Forall_forall. intros z Hz. apply (Permutation_in z (insert_perm x l)) in Hz. destruct Hz as [<-|Hz]; [lia|]. rewrite Forall_forall in F. auto.
Qed.
Lemma sorted_sorted : forall l, StronglySorted le (sorted l).
Proof. induction l as [|x l IH]; cbn; [constructor|]. apply insert_sorted, IH. Qed.
Lemma strict : forall l, StronglySorted le l -> NoDup l -> StronglySorted lt l.
Proof.
  induction l as [|x l IH]; intros S N; [constructor|]. inversion S as [|? ? S' F]; subst. inversion N as [|? ? Nx N']; subst. constructor; [auto|].
  rewrite Forall_forall in *. intros y Hy. specialize (F y Hy). assert (x <> y) by (intros ->; contradiction). lia.
Qed.
Lemma sorted_unique : forall s s', StronglySorted lt s -> StronglySorted lt s' -> Permutation s s' -> s = s'.
Proof.
  induction s as [|x s IH]; intros s' S S' P; [apply Permutation_nil in P; auto|]. destruct s' as [|y s']; [apply Permutation_sym, Permutation_nil in P; discriminate|].
  inversion S as [|? ? S1 F]; subst. inversion S' as [|? ? S2 F']; subst. rewrite Forall_forall in F, F'.
  assert (x = y). { pose proof (Permutation_in x P (or_introl eq_refl)) as [E|H]; [auto|]. pose proof (Permutation_in y (Permutation_sym P) (or_introl eq_refl)) as [E|H']; [auto|]. specialize (F y H'). specialize (F' x H). lia. }
  subst y. f_equal. apply IH; auto. exact (Permutation_cons_inv P).
Qed.
Lemma sorted_is s l : StronglySorted lt s -> Permutation s l -> s = sorted l.
Proof.
  intros S P. apply sorted_unique; [exact S| |]. 2:{ etransitivity; [exact P|]. symmetry. apply sorted_perm. }
  apply strict; [apply sorted_sorted|]. apply (Permutation_NoDup (l := s)); [etransitivity; [exact P|symmetry; apply sorted_perm]|].
  clear - S. induction S as [|x l S IH F]; constructor; [|exact IH]. intros H. rewrite Forall_forall in F. specialize (F x H). lia.
Qed.

(** ** Cycles through a task *)
Lemma index_some s : forall l i, index_of s l = Some i -> nth_error l i = Some s.
Proof. induction l as [|x l IH]; intros i E; [discriminate|]. cbn [index_of] in E. destruct (list_eq_dec Nat.eq_dec x s) as [->|N]; [injection E as <-; reflexivity|]. destruct (index_of s l) as [j|]; [|discriminate]. injection E as <-. cbn. auto. Qed.
Lemma index_none s : forall l, index_of s l = None -> ~ In s l.
Proof. induction l as [|x l IH]; intros E; [intros []|]. cbn [index_of] in E. destruct (list_eq_dec Nat.eq_dec x s) as [->|N]; [discriminate|]. destruct (index_of s l); [discriminate|]. intros [H|H]; [contradiction|exact (IH eq_refl H)]. Qed.
Lemma in_add i j l : In i (add_id j l) <-> i = j \/ In i l.
Proof.
  unfold add_id. destruct (existsb (Nat.eqb j) l) eqn:B; cbn [In]; [|intuition]. apply existsb_exists in B. destruct B as (x & Hx & E). apply Nat.eqb_eq in E. subst x. intuition subst; auto.
Qed.
Lemma nodup_add j l : NoDup l -> NoDup (add_id j l).
Proof. intros N. unfold add_id. destruct (existsb (Nat.eqb j) l) eqn:B; [exact N|]. constructor; [|exact N]. intros H. apply Bool.not_true_iff_false in B. apply B, existsb_exists. exists j. split; [exact H|apply Nat.eqb_refl]. Qed.
Lemma in_adds i l : forall ids, In i (fold_right add_id l ids) <-> In i ids \/ In i l.
Proof. induction ids as [|j ids IH]; cbn [fold_right In]; [tauto|]. rewrite in_add, IH. intuition. Qed.
Lemma nodup_adds l : NoDup l -> forall ids, NoDup (fold_right add_id l ids).
Proof. intros N. induction ids as [|j ids IH]; [exact N|]. cbn. now apply nodup_add. Qed.

(** The cycles that satisfy [P] have been recorded. *)
Record found (P : list nat -> Prop) (st st' : list (list nat) * list nat) : Prop := {
  f_pre : exists new, fst st' = fst st ++ new;
  f_nodup : NoDup (fst st');
  f_ids : forall i, In i (snd st') <-> In i (snd st) \/ exists c, P c /\ nth_error (fst st') i = Some (sorted c);
  f_all : forall c, P c -> In (sorted c) (fst st');
  f_once : NoDup (snd st) -> NoDup (snd st') }.
Lemma nth_prefix {A} (l new : list A) i x : nth_error l i = Some x -> nth_error (l ++ new) i = Some x.
Proof. intros H. rewrite nth_error_app1; [exact H|]. apply nth_error_Some. congruence. Qed.
Lemma nth_back {A} (l new : list A) i x : NoDup (l ++ new) -> In x l -> nth_error (l ++ new) i = Some x -> nth_error l i = Some x.
Proof.
  intros N H E. destruct (In_nth_error _ _ H) as (j & Ej). pose proof (nth_prefix l new j x Ej) as E'. rewrite NoDup_nth_error in N. assert (i = j); [|subst; exact Ej].
  apply N; [apply nth_error_Some; congruence|congruence].
Qed.
Lemma found_none P st : NoDup (fst st) -> (forall c, ~ P c) -> found P st st.
Proof. intros N H. constructor; [exists []; now rewrite app_nil_r|exact N| |intros c X; destruct (H c X)|auto]. intros i. split; [auto|intros [X|(c & X & _)]; [exact X|destruct (H c X)]]. Qed.
Lemma found_ext P P' st st' : (forall c, P c <-> P' c) -> found P st st' -> found P' st st'.
Proof.
  intros H [F1 F2 F3 F4 F5]. constructor; auto; [|intros c X; apply F4, H, X]. intros i. rewrite F3. split; (intros [X|(c & X & E)]; [auto|right; exists c; split; [apply H, X|exact E]]).
Qed.
Lemma found_trans P P' st st1 st2 : found P st st1 -> found P' st1 st2 -> found (fun c => P c \/ P' c) st st2.
Proof.
  intros F F'. destruct (f_pre _ _ _ F) as (n1 & E1). destruct (f_pre _ _ _ F') as (n2 & E2). constructor.
  - exists (n1 ++ n2). rewrite E2, E1, app_assoc. reflexivity.
  - apply F'.
  - intros i. rewrite (f_ids _ _ _ F' i), (f_ids _ _ _ F i). split.
    + intros [[X|(c & X & E)]|(c & X & E)]; [auto| |right; exists c; auto]. right. exists c. split; [auto|]. rewrite E2. now apply nth_prefix.
    + intros [X|(c & [X|X] & E)]; [auto| |right; exists c; auto]. left. right. exists c. split; [exact X|]. rewrite E2 in E. apply nth_back in E; [exact E| |apply (f_all _ _ _ F), X]. rewrite <- E2. apply F'.
  - intros c [X|X]; [|apply F', X]. rewrite E2. apply in_app_iff. left. apply F, X.
  - intros N. apply F', F, N.
Qed.
Lemma found_record path st : NoDup (fst st) -> found (fun c => c = path) st (record path st).
Proof.
  intros N. unfold record. destruct (index_of (sorted path) (fst st)) as [i|] eqn:E.
  - apply index_some in E. constructor; cbn [fst snd].
    + exists []. now rewrite app_nil_r.
    + exact N.
    + intros j. rewrite in_add. split.
      * intros [->|X]; [right; exists path; auto|auto].
      * intros [X|(c & -> & X)]; [auto|]. left. rewrite NoDup_nth_error in N. apply N; [apply nth_error_Some; congruence|congruence].
    + intros c ->. exact (nth_error_In _ _ E).
    + apply nodup_add.
  - apply index_none in E. constructor; cbn [fst snd].
    + eauto.
    + apply nodup_app; [exact N|repeat constructor; intros []|]. intros x Hx [<-|[]]. contradiction.
    + intros j. rewrite in_add. split.
      * intros [->|X]; [right; exists path; split; [reflexivity|]; rewrite nth_error_app2 by lia; now rewrite Nat.sub_diag|auto].
      * intros [X|(c & -> & X)]; [auto|]. left. destruct (le_lt_dec (length (fst st)) j) as [L|L].
        -- rewrite nth_error_app2 in X by lia. destruct (j - length (fst st)) as [|k] eqn:K; [lia|]. cbn in X. destruct k; discriminate.
        -- rewrite nth_error_app1 in X by lia. destruct E. exact (nth_error_In _ _ X).
    + intros c ->. apply in_app_iff. right. now left.
    + apply nodup_add.
Qed.

(** What my_dfs goes through. *)
Inductive closing (d : list (nat * nat)) (start : nat) : nat -> list nat -> list nat -> Prop :=
| close_at path : In start path -> closing d start start path path
| close_on node path child c : ~ In node path -> In (node, child) d -> closing d start child (path ++ [node]) c -> closing d start node path c.
Lemma closing_elem d start node path c : closing d start node path c ->
  exists q, c = path ++ q /\ (NoDup path -> NoDup c) /\ (q = [] /\ node = start /\ In start path \/ hd_error q = Some node /\ chain d q start).
Proof.
  induction 1 as [path H|node path child c Nn Hd C (q & -> & ND & Hq)].
  - exists []. rewrite app_nil_r. auto 6.
  - exists (node :: q). rewrite <- app_assoc. split; [reflexivity|]. split.
    + intros N. rewrite <- app_assoc in ND. apply ND. apply nodup_app; [exact N|repeat constructor; intros []|]. intros x Hx [<-|[]]. contradiction.
    + right. split; [reflexivity|]. destruct Hq as [(-> & -> & _)|[H1 H2]]; [exact Hd|]. destruct q as [|y q]; [discriminate|]. injection H1 as ->. split; [exact Hd|exact H2].
Qed.
Lemma elem_closing d start : forall q path node, NoDup (path ++ q) -> hd_error q = Some node -> chain d q start -> In start path \/ node = start -> closing d start node path (path ++ q).
Proof.
  induction q as [|x q IH]; intros path node N H C S; [discriminate|]. injection H as ->.
  assert (Nn : ~ In node path). { intros X. apply NoDup_remove_2 in N. apply N, in_app_iff. now left. }
  assert (Sn : In start (path ++ [node])) by (rewrite in_app_iff; cbn [In]; destruct S; [auto|subst; auto]).
  destruct q as [|y q].
  - apply (close_on d start node path start); [exact Nn|exact C|]. now apply close_at.
  - destruct C as [C1 C2]. apply (close_on d start node path y); [exact Nn|exact C1|]. replace (path ++ node :: y :: q) with ((path ++ [node]) ++ y :: q) in * by (rewrite <- app_assoc; reflexivity). apply IH; auto.
Qed.
Lemma closing_iff d u c : closing d u u [] c <-> elementary d u c.
Proof.
  split.
  - intros C. destruct (closing_elem d u u [] c C) as (q & -> & ND & [(_ & _ & [])|[H1 H2]]). split; [exact (ND (NoDup_nil _))|auto].
  - intros (N & H & C). exact (elem_closing d u c [] u N H C (or_intror eq_refl)).
Qed.

Lemma in_outputs d a b : In b (outputs d a) <-> In (a, b) d.
Proof. unfold outputs. rewrite in_map_iff. split; [intros ((x & y) & E & H); apply filter_In in H; destruct H as [H B]; apply Nat.eqb_eq in B; cbn in *; subst; exact H|intros H; exists (a, b); split; [reflexivity|]; apply filter_In; split; [exact H|apply Nat.eqb_refl]]. Qed.
Lemma in_inputs d a b : In a (inputs d b) <-> In (a, b) d.
Proof. unfold inputs. rewrite in_map_iff. split; [intros ((x & y) & E & H); apply filter_In in H; destruct H as [H B]; apply Nat.eqb_eq in B; cbn in *; subst; exact H|intros H; exists (a, b); split; [reflexivity|]; apply filter_In; split; [exact H|apply Nat.eqb_refl]]. Qed.

Section Finder.
Variables (vs : list nat) (d : list (nat * nat)).
Hypothesis Ends : forall a b, In (a, b) d -> In a vs /\ In b vs.

Lemma my_dfs_run start : forall f node vis path st, In node vs -> shows vis path -> unseen vs vis < f -> NoDup (fst st) -> (path = [] -> node = start) -> (path <> [] -> In start path) ->
  exists st', my_dfs f d node vis start path st = Ok st' /\ found (closing d start node path) st st'.
Proof.
  induction f as [|f IH]; intros node vis path st Hn V U N P0 P1; [lia|]. cbn [my_dfs]. destruct (vis node) eqn:B.
  - eexists. split; [reflexivity|]. apply V in B. destruct (node =? start) eqn:E.
    + apply Nat.eqb_eq in E. subst. eapply found_ext; [|apply found_record, N]. intros c. split; [intros ->; now constructor|]. intros C. inversion C; [reflexivity|contradiction].
    + apply Nat.eqb_neq in E. apply found_none; [exact N|]. intros c C. inversion C; [congruence|contradiction].
  - assert (Nn : ~ In node path) by (apply (shows_false vis path node V), B).
    assert (V0 : shows (set_at vis node true) (path ++ [node])). { intros x. unfold set_at. rewrite in_app_iff. cbn [In]. destruct (x =? node) eqn:E; [apply Nat.eqb_eq in E; subst; intuition|]. apply Nat.eqb_neq in E. rewrite (V x). intuition congruence. }
    assert (U0 : unseen vs (set_at vis node true) < f) by (pose proof (unseen_set vs (fun _ => false) vis node Hn B); lia).
    assert (Loop : forall l st, (forall c, In c l -> In c vs) -> NoDup (fst st) -> exists st', each (fun st c => my_dfs f d c (set_at vis node true) start (path ++ [node]) st) st l = Ok st' /\
      found (fun c => exists child, In child l /\ closing d start child (path ++ [node]) c) st st').
    { induction l as [|w l IHl]; intros s I Ns; cbn [each]; [exists s; split; [reflexivity|]; apply found_none; [exact Ns|intros c (ch & [] & _)]|].
      destruct (IH w (set_at vis node true) (path ++ [node]) s (I w (or_introl eq_refl)) V0 U0 Ns) as (s1 & -> & F1).
      { intros X. destruct path; discriminate. }
      { intros _. apply in_app_iff. destruct path as [|p l']; [right; left; auto|left; apply P1; discriminate]. }
      cbn [bind]. destruct (IHl s1 (fun c Hc => I c (or_intror Hc)) (f_nodup _ _ _ F1)) as (s2 & -> & F2). exists s2. split; [reflexivity|]. eapply found_ext; [|exact (found_trans _ _ _ _ _ F1 F2)].
      intros c. split; [intros [X|(ch & X & Y)]; [exists w; split; [now left|exact X]|exists ch; split; [now right|exact Y]]|intros (ch & [->|X] & Y); [now left|right; eauto]]. }
    destruct (Loop (outputs d node) st) as (st' & -> & F); [intros c Hc; apply in_outputs, Ends in Hc; apply Hc|exact N|]. exists st'. split; [reflexivity|]. eapply found_ext; [|exact F].
    intros c. split; [intros (ch & X & Y); apply in_outputs in X; exact (close_on d start node path ch c Nn X Y)|]. intros C. inversion C as [p Hs E|n p ch c' H1 H2 H3]; subst; [contradiction|]. exists ch. split; [apply in_outputs, H2|exact H3].
Qed.

(** ** Paths *)
Lemma path_leads a b : path (outputs d) [] a b <-> leads_to d a b.
Proof.
  split.
  - induction 1 as [x _|x y z _ Hy _ IH]; [apply rt_refl|]. eapply rt_trans; [apply rt_step, in_outputs, Hy|exact IH].
  - intros R. apply clos_rt_rt1n in R. induction R as [x|x y z H _ IH]; [constructor; intros []|]. econstructor; [intros []|apply in_outputs, H|exact IH].
Qed.
Lemma path_back_in Sc (HS : forall x y, In y (Sc x) <-> In (y, x) d) A u v : path Sc A u v -> leads_to d v u.
Proof. induction 1 as [x _|x y z _ Hy _ IH]; [apply rt_refl|]. eapply rt_trans; [exact IH|]. apply rt_step. apply HS, Hy. Qed.
Lemma path_back Sc (HS : forall x y, In y (Sc x) <-> In (y, x) d) A u v : leads_to d u v -> (forall w, leads_to d u w -> leads_to d w v -> ~ In w A) -> path Sc A v u.
Proof.
  intros R. apply clos_rt_rtn1 in R. induction R as [|y z H R IH]; intros N; [constructor; apply N; apply rt_refl|].
  assert (Ry : leads_to d y z) by (apply rt_step, H). apply clos_rtn1_rt in R. apply (path_step _ _ z y u); [apply N; [eapply rt_trans; eauto|apply rt_refl]|apply HS, H|]. apply IH. intros w W1 W2. apply N; [exact W1|]. eapply rt_trans; eauto.
Qed.
Lemma leads_vs a b : leads_to d a b -> In a vs -> In b vs.
Proof using Ends. intros R. apply clos_rt_rtn1 in R. induction R as [|y z H _ IH]; [auto|]. intros _. apply (Ends y z H). Qed.
Lemma leads_vs' a b : leads_to d a b -> In b vs -> In a vs.
Proof using Ends. intros R. apply clos_rt_rt1n in R. induction R as [|y z w H _ IH]; [auto|]. intros _. apply (Ends y z H). Qed.

(** ** One task of a component *)
(** The cycles through the tasks that satisfy [P] are known to the tasks that lead to them. *)
Record known (P : nat -> Prop) (st : list (list nat) * (nat -> list nat)) : Prop := {
  k_nodup : NoDup (fst st);
  k_ids : forall v i, In i (snd st v) <-> exists u l, P u /\ leads_to d v u /\ elementary d u l /\ nth_error (fst st) i = Some (sorted l);
  k_all : forall u l, P u -> elementary d u l -> In (sorted l) (fst st);
  k_once : forall v, NoDup (snd st v) }.
Lemma known_ext P P' st : (forall u, P u <-> P' u) -> known P st -> known P' st.
Proof.
  intros H [K1 K2 K3 K4]. constructor; auto; [|intros u l X; apply K3, H, X]. intros v i. rewrite K2. split; intros (u & l & X & Y); exists u, l; (split; [apply H, X|exact Y]).
Qed.

Definition marks (ids N : list nat) (a a' : nat -> list nat) : Prop :=
  (forall x i, In i (a' x) <-> In i (a x) \/ In x N /\ In i ids) /\ ((forall x, NoDup (a x)) -> forall x, NoDup (a' x)).
Lemma cycles_of_run f P st u : length vs < f -> In u vs -> known P st -> exists st', cycles_of f d st u = Ok st' /\ known (fun x => P x \/ x = u) st'.
Proof.
  intros Lf Hu K. pose proof (unseen_tasks vs (fun _ => false)) as U. unfold cycles_of.
  destruct (my_dfs_run u f u (fun _ => false) [] (fst st, []) Hu) as (r & -> & F); [intros x; split; [discriminate|intros []]|lia|apply K|auto|congruence|]. cbn [bind]. rewrite anc_form.
  destruct (gdfs_run vs (inputs d) (fun v a => set_at a v (fold_right add_id (a v) (snd r))) (fun _ a => a) (marks (snd r))) with (f := f) (v := u) (vis := fun _ : nat => false) (L := @nil nat) (a := snd st) as (vis' & L' & N & a' & -> & D & V' & M).
  - intros x y _ Hy. apply in_inputs, Ends in Hy. apply Hy.
  - intros a. split; [|auto]. intros x i. cbn [In]. tauto.
  - intros N1 N2 a a1 a2 [H1 H2] [H3 H4]. split; [|auto]. intros x i. rewrite H3, H1, in_app_iff. tauto.
  - intros v N a a1 [H1 H2]. split.
    + intros x i. rewrite H1. unfold set_at. cbn [In]. destruct (x =? v) eqn:B; [apply Nat.eqb_eq in B; subst; rewrite in_adds; tauto|]. apply Nat.eqb_neq in B. intuition congruence.
    + intros H. apply H2. intros x. unfold set_at. destruct (x =? v); [apply nodup_adds, H|apply H].
  - exact Hu.
  - intros x. split; [discriminate|intros []].
  - reflexivity.
  - lia.
  - cbn [bind fst snd]. eexists. split; [reflexivity|]. destruct (f_pre _ _ _ F) as (new & En). cbn [fst] in En.
    assert (HN : forall x, In x N <-> leads_to d x u).
    { intros x. rewrite (dfs_exact _ _ _ _ _ D). split.
      - intros (y & [<-|[]] & Pa). apply (path_back_in (inputs d)) in Pa; [exact Pa|]. intros; apply in_inputs.
      - intros R. exists u. split; [now left|]. apply (path_back (inputs d)); [intros; apply in_inputs|exact R|intros w _ _ []]. }
    constructor; cbn [fst snd].
    + apply F.
    + intros v i. rewrite (proj1 M), HN, (f_ids _ _ _ F i). cbn [snd In]. rewrite (k_ids _ _ K). split.
      * intros [(w & l & Pw & R & E & Ni)|[R [[]|(c & C & Ni)]]].
        -- exists w, l. split; [auto|]. split; [exact R|]. split; [exact E|]. rewrite En. now apply nth_prefix.
        -- exists u, c. split; [auto|]. split; [exact R|]. split; [apply closing_iff, C|exact Ni].
      * intros (w & l & [Pw| ->] & R & E & Ni).
        -- left. exists w, l. split; [exact Pw|]. split; [exact R|]. split; [exact E|]. rewrite En in Ni. apply nth_back in Ni; [exact Ni|rewrite <- En; apply F|exact (k_all _ _ K w l Pw E)].
        -- right. split; [exact R|]. right. exists l. split; [apply closing_iff, E|exact Ni].
    + intros w l [Pw| ->] E; [rewrite En; apply in_app_iff; left; exact (k_all _ _ K w l Pw E)|]. apply F, closing_iff, E.
    + apply (proj2 M), K.
Qed.
Lemma all_cycles_of f : length vs < f -> forall l P st, incl l vs -> known P st -> exists st', each (cycles_of f d) st l = Ok st' /\ known (fun x => P x \/ In x l) st'.
Proof.
  intros Lf. induction l as [|u l IH]; intros P st I K; cbn [each]; [exists st; split; [reflexivity|]; eapply known_ext; [|exact K]; cbn; tauto|].
  destruct (cycles_of_run f P st u Lf (I u (or_introl eq_refl)) K) as (s1 & -> & K1). cbn [bind]. destruct (IH _ s1 (fun x Hx => I x (or_intror Hx)) K1) as (s2 & -> & K2). exists s2. split; [reflexivity|].
  eapply known_ext; [|exact K2]. intros x. cbn [In]. intuition.
Qed.

(** ** The components *)
Lemma in_transpose a b : In (a, b) (transpose vs d) <-> In (b, a) d.
Proof using Ends.
  unfold transpose. rewrite in_flat_map. split.
  - intros (s & _ & H). apply in_map_iff in H. destruct H as (t & E & H). injection E as -> ->. apply in_outputs, H.
  - intros H. exists b. split; [apply (Ends b a H)|]. apply in_map_iff. exists a. split; [reflexivity|apply in_outputs, H].
Qed.
Definition linked (a b : nat) : Prop := leads_to d a b /\ leads_to d b a.
Lemma linked_trans a b c : linked a b -> linked b c -> linked a c.
Proof. intros [H1 H2] [H3 H4]. split; eapply rt_trans; eauto. Qed.

Lemma components_run f L : length vs < f -> NoDup L -> (forall u, In u vs <-> In u L) -> ordered (outputs d) [] L ->
  forall stack pre vis Lv st, L = pre ++ stack -> shows vis Lv -> (forall u, In u pre -> In u Lv) -> incl Lv vs -> (forall u v, In u Lv -> linked u v -> In v Lv) ->
    known (fun u => In u Lv /\ on_cycle d u) st ->
  exists st', components f d (transpose vs d) stack vis st = Ok st' /\ known (fun u => In u vs /\ on_cycle d u) st'.
Proof.
  intros Lf UL HL O. induction stack as [|x stack IH]; intros pre vis Lv st EL V Hp Ht Hc K; cbn [components].
  - exists st. split; [reflexivity|]. eapply known_ext; [|exact K]. intros u. split; [intros [H1 H2]; auto|]. intros [H1 H2]. split; [|exact H2]. apply Hp. apply HL in H1. now rewrite EL, app_nil_r in H1.
  - destruct (vis x) eqn:B.
    + apply (IH (pre ++ [x]) vis Lv); auto; [rewrite EL, <- app_assoc; reflexivity|]. intros u Hu. apply in_app_iff in Hu. destruct Hu as [Hu|[<-|[]]]; [auto|apply V, B].
    + assert (Nx : ~ In x Lv) by (apply (shows_false vis Lv x V), B). assert (Hx : In x vs) by (apply HL; rewrite EL; apply in_app_iff; right; now left).
      pose proof (unseen_tasks vs vis) as U. rewrite util_form.
      destruct (gdfs_run vs (outputs (transpose vs d)) (fun v a => a ++ [v]) (fun _ a => a) (fun N a a' => exists T, a' = a ++ T /\ Permutation T N)) with (f := f) (v := x) (vis := vis) (L := Lv) (a := @nil nat) as (vis1 & L1 & N & a' & -> & D & V1 & T & Ea & PT); auto.
      * intros y z _ Hz. apply in_outputs, in_transpose, Ends in Hz. apply Hz.
      * intros a. exists []. rewrite app_nil_r. auto.
      * intros N1 N2 a a1 a2 (T1 & -> & P1) (T2 & -> & P2). exists (T1 ++ T2). rewrite app_assoc. split; [reflexivity|]. rewrite P1, P2. apply Permutation_app_comm.
      * intros v N a a1 (T & -> & P). exists (v :: T). rewrite <- app_assoc. split; [reflexivity|]. now constructor.
      * lia.
      * cbn [app] in Ea. subst a'. cbn [bind fst snd].
        assert (HS : forall a b, In b (outputs (transpose vs d) a) <-> In (b, a) d) by (intros a b; rewrite in_outputs; apply in_transpose).
        assert (C : forall w, In w N <-> linked x w).
        { intros w. rewrite (dfs_exact _ _ _ _ _ D). split.
          - intros (x' & [<-|[]] & Pa). pose proof (path_end _ _ _ _ Pa) as Nw. apply (path_back_in _ HS) in Pa. split; [|exact Pa].
            assert (Hw : In w vs) by exact (leads_vs' w x Pa Hx).
            destruct (O w x) as [R|(h & Ah & R1 & R2)]; [apply HL, Hw|apply HL, Hx|apply path_leads, Pa|apply path_leads, R|]. exfalso. apply path_leads in R1, R2. destruct Ah as (l1 & l2 & El & Hh & Hxl).
            apply Nw. apply (Hc h w); [|split; assumption]. apply Hp. apply (before_in l1 l2 pre stack h x); auto; [congruence|rewrite <- El; exact UL].
          - intros [R1 R2]. exists x. split; [now left|]. apply (path_back _ HS); [exact R2|]. intros y Y1 Y2 Hv. apply Nx. apply (Hc y x Hv). split; [exact Y2|]. eapply rt_trans; eauto. }
        assert (EV : forall u, In u L1 <-> In u N \/ In u Lv) by (intros u; apply (dfs_vis _ _ _ _ _ D)).
        assert (TN : forall u, In u T <-> linked x u). { intros u. rewrite <- C. split; [apply (Permutation_in u PT)|apply (Permutation_in u (Permutation_sym PT))]. }
        assert (NT : NoDup T). { apply (Permutation_NoDup (Permutation_sym PT)). apply (dfs_new _ _ _ _ _ D). }
        assert (Tv : incl T vs). { intros u Hu. apply TN in Hu. exact (leads_vs x u (proj1 Hu) Hx). }
        assert (K' : exists st', (if 1 <? length T then each (cycles_of f d) st T else Ok st) = Ok st' /\ known (fun u => In u L1 /\ on_cycle d u) st').
        { destruct (1 <? length T) eqn:B1.
          - destruct (all_cycles_of f Lf T _ st Tv K) as (st' & E & K'). exists st'. split; [exact E|]. eapply known_ext; [|exact K']. intros u. cbn beta. rewrite EV, C. split.
            + intros [[H1 H2]|H]; [auto|]. apply TN in H. split; [auto|]. apply Nat.ltb_lt in B1.
              assert (W : exists w, w <> u /\ In w T). { destruct T as [|a [|b T']]; cbn in B1; try lia. inversion NT as [|? ? Na _]; subst. destruct (Nat.eq_dec a u) as [->|Ne]; [exists b; split; [intros ->; apply Na; now left|right; now left]|exists a; split; [exact Ne|now left]]. }
              destruct W as (w & Nw & Hw). apply TN in Hw. exists w. split; [exact Nw|]. split; eapply rt_trans; [apply H|apply Hw|apply Hw|apply H].
            + intros [[H|H] X]; [right; apply TN, H|auto].
          - exists st. split; [reflexivity|]. eapply known_ext; [|exact K]. intros u. cbn beta. rewrite EV, C. split; [intros [H1 H2]; auto|]. intros [[H|H] X]; [exfalso|auto].
            apply Nat.ltb_ge in B1. destruct X as (w & Nw & W1 & W2). assert (Hw : In w T). { apply TN. eapply linked_trans; [exact H|]. split; assumption. } apply TN in H.
            destruct T as [|a [|b T']]; cbn in B1; [destruct H| |lia]. destruct H as [->|[]], Hw as [->|[]]. congruence. }
        destruct K' as (st' & -> & K'). cbn [bind]. apply (IH (pre ++ [x]) vis1 L1); auto.
        -- rewrite EL, <- app_assoc. reflexivity.
        -- intros u Hu. apply EV. apply in_app_iff in Hu. destruct Hu as [Hu|[<-|[]]]; [auto|]. left. apply C. split; apply rt_refl.
        -- intros u Hu. apply EV in Hu. destruct Hu as [Hu|Hu]; [|auto]. apply C in Hu. exact (leads_vs x u (proj1 Hu) Hx).
        -- intros u v Hu Huv. apply EV. apply EV in Hu. destruct Hu as [Hu|Hu]; [left|right; eauto]. apply C. apply C in Hu. eapply linked_trans; eauto.
Qed.

Lemma cycle_lengths_run f start : length vs < f -> In start vs -> exists cycles ids, cycle_lengths f vs d start = Ok (fun v => sorted (map (fun i => length (nth i cycles [])) (ids v))) /\
  known (fun u => In u vs /\ on_cycle d u) (cycles, ids).
Proof.
  intros Lf Hs. unfold cycle_lengths. rewrite fill_form. pose proof (unseen_tasks vs (fun _ => false)) as U.
  set (Q := fun (N a a' : list nat) => a' = N ++ a).
  assert (Cl : forall x y, In x vs -> In y (outputs d x) -> In y vs) by (intros x y _ Hy; apply in_outputs, Ends in Hy; apply Hy).
  assert (Q0 : forall a, Q [] a a) by reflexivity. assert (Qapp : forall N1 N2 a a1 a2, Q N1 a a1 -> Q N2 a1 a2 -> Q (N2 ++ N1) a a2) by (intros N1 N2 a a1 a2 -> ->; unfold Q; apply app_assoc).
  assert (Qone : forall v N a a1, Q N ((fun _ a => a) v a) a1 -> Q (v :: N) a ((fun v a => v :: a) v a1)) by (intros v N a a1 ->; reflexivity).
  pose proof (gdfs_run vs (outputs d) (fun _ a => a) (fun v a => v :: a) Q Cl Q0 Qapp Qone) as Run. pose proof (gdfs_loop vs (outputs d) (fun _ a => a) (fun v a => v :: a) Q Q0 Qapp f (Run f)) as Loop. 
  destruct (Run f start (fun _ => false) [] [] Hs) as (vis0 & L0 & N0 & a0 & -> & D0 & V0 & E0); [intros x; split; [discriminate|intros []]|reflexivity|lia|]. cbn [bind].
  assert (U0 : unseen vs vis0 < f) by (pose proof (unseen_tasks vs vis0); lia).
  destruct (Loop vs vis0 L0 a0 (incl_refl _) V0 U0) as (vis1 & L1 & N1 & a1 & E & D1 & V1 & E1).
  assert (Ef : each (fun st t => if negb (fst st t) then fill_order f d t st else Ok st) (vis0, a0) vs = Ok (vis1, a1)) by (rewrite <- E; apply each_ext; intros a x; now rewrite fill_form).
  rewrite Ef. cbn [bind snd]. unfold Q in E0, E1. rewrite app_nil_r in E0. subst a0 a1. pose proof (dfs_app _ _ _ _ _ _ _ _ D0 D1) as D. set (L := N1 ++ N0) in *.
  assert (HL : forall u, In u vs <-> In u L).
  { intros u. split.
    - intros Hu. assert (X : In u L1) by (apply (dfs_targets _ _ _ _ _ D); apply in_app_iff; now right). apply (dfs_vis _ _ _ _ _ D) in X. destruct X as [X|[]]. exact X.
    - intros Hu. destruct (dfs_reached _ _ _ _ _ D u Hu) as (x & Hx & Pa). apply path_leads in Pa. apply (leads_vs x u Pa). apply in_app_iff in Hx. destruct Hx as [[<-|[]]|Hx]; assumption. }
  destruct (components_run f L Lf (proj2 (dfs_new _ _ _ _ _ D)) HL (dfs_ordered _ _ _ _ _ D) L [] (fun _ => false) [] ([], fun _ => [])) as (st' & -> & K); auto.
  - intros x. split; [discriminate|intros []].
  - intros x [].
  - constructor; cbn [fst snd]; [constructor| | |constructor].
    + intros v i. split; [intros []|intros (u & l & [[] _] & _)].
    + intros u l [[] _].
  - cbn [bind]. exists (fst st'), (snd st'). split; [reflexivity|]. destruct st'; exact K.
Qed.

(** ** The result *)
Lemma lengths_spec f start lens : length vs < f -> In start vs -> cycle_lengths f vs d start = Ok lens ->
  forall v, In v vs -> StronglySorted le (lens v) /\ exists sets, NoDup sets /\ (forall s, In s sets <-> cycle_from d v s) /\ Permutation (lens v) (map (@length nat) sets).
Proof.
  intros Lf Hs H v Hv. destruct (cycle_lengths_run f start Lf Hs) as (cycles & ids & E & K). rewrite E in H. injection H as <-. split; [apply sorted_sorted|].
  exists (map (fun i => nth i cycles []) (ids v)). split; [|split].
  - pose proof (k_once _ _ K v) as N1. cbn [snd] in N1. pose proof (k_nodup _ _ K) as N2. cbn [fst] in N2. pose proof (fun i => proj1 (k_ids _ _ K v i)) as I. cbn [fst snd] in I.
    induction (ids v) as [|i l IH]; cbn [map]; [constructor|]. inversion N1 as [|? ? Ni N1']; subst. constructor.
    + intros X. apply in_map_iff in X. destruct X as (j & Ej & Hj). destruct (I i (or_introl eq_refl)) as (_ & l1 & _ & _ & _ & I1). destruct (I j (or_intror Hj)) as (_ & l2 & _ & _ & _ & I2).
      rewrite (nth_error_nth _ _ [] I1), (nth_error_nth _ _ [] I2) in Ej. rewrite Ej in I2. assert (i = j); [|subst; contradiction]. rewrite NoDup_nth_error in N2. apply N2; [apply nth_error_Some; congruence|congruence].
    + apply IH; [exact N1'|]. intros j Hj. apply I. now right.
  - intros s. rewrite in_map_iff. split.
    + intros (i & <- & Hi). apply (k_ids _ _ K) in Hi. destruct Hi as (u & l & [Hu Cu] & R & El & Ni). cbn [fst] in Ni. rewrite (nth_error_nth _ _ [] Ni). split.
      * apply strict; [apply sorted_sorted|]. apply (Permutation_NoDup (Permutation_sym (sorted_perm l))), El.
      * exists u, l. repeat split; try assumption; try apply El. apply sorted_perm.
    + intros (S & u & l & R & Cu & El & P). assert (Hu : In u vs) by exact (leads_vs v u R Hv). pose proof (k_all _ _ K u l (conj Hu Cu) El) as X. cbn [fst] in X. destruct (In_nth_error _ _ X) as (i & Ei).
      exists i. split; [rewrite (nth_error_nth _ _ [] Ei); symmetry; apply sorted_is; assumption|]. apply (k_ids _ _ K). exists u, l. auto.
  - rewrite map_map. apply sorted_perm.
Qed.
End Finder.
