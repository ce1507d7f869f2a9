(** The search by cycles: it ends, lists channels on cycles only, and has all the channels of some
    cycle when there is one. *)
From Coq Require Import QArith.
From Verif Require Import Base Graph Scc SccProofs Sim SimProofs StorDep StorDepSpec StorDepScc.
Open Scope Z_scope.

Lemma joining_in g u v k : In k (joining g u v) <-> exists c, nth_error (edges g) k = Some c /\ vid g (e_src c) = u /\ vid g (e_dst c) = v.
Proof.
  unfold joining. rewrite in_map_iff. split.
  - intros ([k' c] & <- & H). apply filter_In in H as [H1 H2]. cbn [fst snd] in *. apply andb_true_iff in H2 as [H2 H3]. apply Z.eqb_eq in H2, H3.
    exists c. split; [apply in_numbered; exact H1|auto].
  - intros (c & Ek & <- & <-). exists (k, c). split; [reflexivity|]. apply filter_In. split; [apply in_numbered; exact Ek|]. cbn. now rewrite !Z.eqb_refl.
Qed.
Lemma steps_app u l v l' : (exists d, chain d u l v) -> steps u (l ++ l') = steps u l ++ steps v l'.
Proof.
  intros [d C]. revert u C. induction l as [|w l IH]; cbn; intros u C; [subst; reflexivity|]. rewrite IH; [reflexivity|apply C].
Qed.
Lemma steps_split d u l v a b : chain d u l v -> In (a, b) (steps u l) -> In (a, b) d /\ waits d u a /\ waits d b v.
Proof.
  revert u. induction l as [|w l IH]; cbn; intros u C H; [destruct H|]. destruct C as [C1 C2]. destruct H as [[= <- <-]|H].
  - split; [exact C1|]. split; [apply waits_refl|exists l; exact C2].
  - destruct (IH w C2 H) as (H1 & H2 & H3). split; [exact H1|]. split; [|exact H3]. eapply waits_trans; [apply waits_one; exact C1|exact H2].
Qed.
Lemma ring_waits d u l a b : chain d u l u -> In (a, b) (steps u l) -> In (a, b) d /\ waits d b a.
Proof. intros C H. destruct (steps_split d u l u a b C H) as (H1 & H2 & H3). split; [exact H1|]. eapply waits_trans; eauto. Qed.

Section Cycle.
Variables (g : graph) (d0 : depgraph).
Hypothesis TD : task_deps g d0.
Notation V := (ids g).

Fixpoint linked_stack (adj : Z -> Z) (st : list Z) : Prop :=
  match st with
  | [] => True
  | x :: r => match r with [] => True | y :: _ => adj x = y /\ In (y, x) d0 end /\ linked_stack adj r
  end.
Lemma linked_ext adj adj' st : (forall x, In x st -> adj' x = adj x) -> linked_stack adj st -> linked_stack adj' st.
Proof.
  induction st as [|x r IH]; cbn; [auto|]. intros E [H1 H2]. split; [|apply IH; auto]. destruct r as [|y r]; [exact I|]. rewrite E by (left; reflexivity). exact H1.
Qed.

Lemma walk_back_run adj dst : forall st fuel v1 v2 marks, linked_stack adj (v1 :: st) -> In dst (v1 :: st) -> (length st < fuel)%nat ->
  exists marks' p, walk_back fuel g adj dst v1 v2 marks = Ok marks' /\ chain d0 dst p v1 /\
    forall k, In k marks' <-> In k marks \/ In k (joining g v1 v2) \/ exists x y, In (x, y) (steps dst p) /\ In k (joining g x y).
Proof.
  induction st as [|y st IH]; intros fuel v1 v2 marks L Hd F; (destruct fuel as [|fuel]; [cbn in F; lia|]); cbn [walk_back].
  - destruct Hd as [->|[]]. rewrite Z.eqb_refl. exists (joining g dst v2 ++ marks), []. split; [reflexivity|]. split; [reflexivity|].
    intros k. rewrite in_app_iff. cbn. split; [tauto|]. intros [H|[H|(x & y & [] & _)]]; tauto.
  - destruct (Z.eqb_spec v1 dst) as [E|N].
    + exists (joining g v1 v2 ++ marks), []. split; [reflexivity|]. split; [symmetry; exact E|].
      intros k. rewrite in_app_iff. cbn. split; [tauto|]. intros [H|[H|(x & z & [] & _)]]; tauto.
    + destruct Hd as [E|Hd]; [congruence|]. cbn [length] in F. cbn [linked_stack] in L. destruct L as [[A D] L].
      destruct (IH fuel y v1 (joining g v1 v2 ++ marks)) as (m' & p & E & C & M); [exact L|exact Hd|lia|].
      rewrite A. exists m', (p ++ [v1]). split; [exact E|]. split; [eapply chain_app; [exact C|split; [exact D|reflexivity]]|].
      intros k. rewrite M, in_app_iff. rewrite (steps_app dst p y [v1]) by (exists d0; exact C). cbn [steps]. split.
      * intros [[H|H]|[H|(a & b & H1 & H2)]].
        -- right. left. exact H.
        -- left. exact H.
        -- right. right. exists y, v1. split; [apply in_app_iff; right; left; reflexivity|exact H].
        -- right. right. exists a, b. split; [apply in_app_iff; left; exact H1|exact H2].
      * intros [H|[H|(a & b & H1 & H2)]].
        -- left. right. exact H.
        -- left. left. exact H.
        -- right. apply in_app_iff in H1 as [H1|[[= <- <-]|[]]]; [right; exists a, b; split; assumption|left; exact H2].
Qed.

(** [R]: the tasks left for good. *)
Definition remains (d : depgraph) (R : list Z) : Prop := forall u v, In (u, v) d <-> In (u, v) d0 /\ ~ In u R /\ ~ In v R.
Definition good_marks (marks : list nat) : Prop := forall k, In k marks -> on_cycle g d0 k.
Definition cleared (R : list Z) : Prop :=
  (forall u v, In u R -> In (u, v) d0 -> In v R) /\ (forall u l, In u R -> l <> [] -> ~ chain d0 u l u).
Record step_ok (st : list Z) (s : search) (R : list Z) (s' : search) (R' : list Z) : Prop := mkStep {
  st_visited : c_visited s' = c_visited s;
  st_more : forall y, In y R -> In y R';
  st_stack : forall y, In y R' -> In y R \/ ~ In y st;
  st_tasks : (forall y, In y R -> In y V) -> forall y, In y R' -> In y V;
  st_remains : remains (c_deps s') R';
  st_adj : forall y, In y st -> c_adj s' y = c_adj s y;
  st_marks : forall k, In k (c_marks s) -> In k (c_marks s');
  st_good : good_marks (c_marks s) -> good_marks (c_marks s')
}.
Lemma whole_mono r r' : (forall k, In k r -> In k r') -> whole_cycle g d0 r -> whole_cycle g d0 r'.
Proof. intros H (u & l & N & C & A). exists u, l. split; [exact N|]. split; [exact C|]. intros. eapply H, A; eauto. Qed.

Lemma step_refl st s R : remains (c_deps s) R -> step_ok st s R s R.
Proof. intros H. constructor; auto. Qed.
Lemma step_trans st s R s1 R1 s2 R2 : step_ok st s R s1 R1 -> step_ok st s1 R1 s2 R2 -> step_ok st s R s2 R2.
Proof.
  intros [A1 A2 A3 AT A4 A5 A6 A7] [B1 B2 B3 BT B4 B5 B6 B7]. constructor; auto; try congruence.
  - intros y Hy. destruct (B3 y Hy) as [H|H]; [apply A3; exact H|right; exact H].
  - intros y Hy. rewrite B5 by exact Hy. apply A5. exact Hy.
Qed.

(** What a call on [x] guarantees. *)
Definition call_ok (rec : Z -> search -> outcome search) (n : nat) : Prop :=
  forall x st s R, In x V -> ~ In x st -> NoDup st -> (forall y, In y st -> In y V) -> c_visited s = st -> linked_stack (c_adj s) (x :: st) ->
    remains (c_deps s) R -> (forall y, In y R -> In y V) -> (length V < n + length st)%nat ->
    exists s' R', rec x s = Ok s' /\ step_ok st s R s' R' /\ In x R' /\
      (whole_cycle g d0 (c_marks s') \/ (cleared R -> cleared R')).

Lemma filter_out (x : Z) l : ~ In x l -> filter (fun y => negb (y =? x)) l = l.
Proof.
  induction l as [|y l IH]; cbn; intros N; [reflexivity|]. destruct (Z.eqb_spec y x) as [E|_]; [tauto|]. cbn. f_equal. apply IH. tauto.
Qed.
Lemma NoDup_len (l l' : list Z) : NoDup l -> (forall x, In x l -> In x l') -> (length l <= length l')%nat.
Proof. intros N H. apply NoDup_incl_length; assumption. Qed.

Lemma each_target_run rec n x st : call_ok rec n -> In x V -> ~ In x st -> NoDup st -> (forall y, In y st -> In y V) ->
  (length V < n + S (length st))%nat -> forall vs s R, c_visited s = x :: st -> linked_stack (c_adj s) (x :: st) ->
    remains (c_deps s) R -> (forall y, In y R -> In y V) -> (forall y, In y vs -> In y V) ->
    exists s' R', each_target rec g x vs s = Ok s' /\ step_ok (x :: st) s R s' R' /\
      (whole_cycle g d0 (c_marks s') \/ (cleared R -> cleared R' /\ forall v, In v vs -> In (x, v) d0 -> In x R \/ In v R')).
Proof.
  intros CO Hx Nx ND HV F. induction vs as [|v vs IH]; intros s R Vs L RM RT Vv.
  - exists s, R. split; [reflexivity|]. split; [apply step_refl; exact RM|]. right. intros C. split; [exact C|intros v []].
  - cbn [each_target].
    assert (ST : exists s1 R1, (if dep (c_deps s) x v then if visited (c_visited s) v
                                 then do marks <- walk_back (S (length (vertices g))) g (c_adj s) v x v (c_marks s); Ok (mkSearch (c_deps s) (c_visited s) (c_adj s) marks)
                                 else rec v (mkSearch (c_deps s) (c_visited s) (set_adj (c_adj s) v x) (c_marks s)) else Ok s) = Ok s1 /\
      step_ok (x :: st) s R s1 R1 /\ (whole_cycle g d0 (c_marks s1) \/ (cleared R -> cleared R1 /\ (In (x, v) d0 -> In x R \/ In v R1)))).
    { destruct (dep (c_deps s) x v) eqn:Ed.
      - apply dep_in in Ed. apply RM in Ed as (Ed & Rx & Rv). destruct (visited (c_visited s) v) eqn:Ev.
        + apply visited_spec in Ev. rewrite Vs in Ev.
          destruct (walk_back_run (c_adj s) v st (S (length (vertices g))) x v (c_marks s) L Ev) as (m' & p & E & C & M).
          { assert (H : (length st <= length V)%nat) by (apply NoDup_len; assumption). unfold ids in H. rewrite map_length in H. lia. }
          rewrite E. cbn [bind]. exists (mkSearch (c_deps s) (c_visited s) (c_adj s) m'), R. split; [reflexivity|].
          assert (CH : chain d0 x (v :: p) x) by (split; [exact Ed|exact C]).
          split.
          * constructor; cbn; auto.
            -- intros k Hk. apply M. left. exact Hk.
            -- intros G k Hk. apply M in Hk as [Hk|Hk]; [apply G; exact Hk|].
               assert (H : exists a b, In (a, b) (steps x (v :: p)) /\ In k (joining g a b)).
               { destruct Hk as [Hk|(a & b & H1 & H2)]; [exists x, v; split; [left; reflexivity|exact Hk]|exists a, b; split; [right; exact H1|exact H2]]. }
               destruct H as (a & b & H1 & H2). apply joining_in in H2 as (c & Ek & <- & <-).
               destruct (ring_waits d0 x (v :: p) _ _ CH H1) as [H3 H4]. exists c. auto.
          * left. cbn. exists x, (v :: p). split; [discriminate|]. split; [exact CH|]. intros a b k c H Ek Ea Eb. apply M. right.
            assert (J : In k (joining g a b)) by (apply joining_in; exists c; auto).
            cbn [steps] in H. destruct H as [[= <- <-]|H]; [left; exact J|right; exists a, b; split; assumption].
        + apply visited_false in Ev. rewrite Vs in Ev.
          destruct (CO v (x :: st) (mkSearch (c_deps s) (c_visited s) (set_adj (c_adj s) v x) (c_marks s)) R) as (s1 & R1 & E & SO & In1 & Cl); cbn; auto.
          * apply Vv. left. reflexivity.
          * constructor; assumption.
          * intros y [<-|Hy]; auto.
          * split; [split; [unfold set_adj; rewrite Z.eqb_refl; reflexivity|exact Ed]|].
            change (linked_stack (set_adj (c_adj s) v x) (x :: st)). eapply linked_ext; [|exact L]. intros y Hy. unfold set_adj. destruct (Z.eqb_spec y v); [subst; contradiction|reflexivity].
          * exists s1, R1. split; [exact E|]. split.
            -- destruct SO as [A1 A2 A3 AT A4 A5 A6 A7]. cbn in *. constructor; auto.
               intros y Hy. rewrite A5 by exact Hy. unfold set_adj. destruct (Z.eqb_spec y v); [subst; contradiction|reflexivity].
            -- destruct Cl as [W|Cl]; [left; exact W|right]. intros C. split; [exact (Cl C)|]. intros _. right. exact In1.
      - exists s, R. split; [reflexivity|]. split; [apply step_refl; exact RM|]. right. intros C. split; [exact C|]. intros H.
        destruct (in_dec Z.eq_dec x R) as [|Nx']; [left; assumption|]. destruct (in_dec Z.eq_dec v R) as [|Nv]; [right; assumption|].
        exfalso. assert (E : In (x, v) (c_deps s)) by (apply RM; auto). apply dep_in in E. congruence. }
    destruct ST as (s1 & R1 & -> & SO & Cl). cbn [bind].
    destruct (IH s1 R1) as (s2 & R2 & E2 & SO2 & Cl2).
    + rewrite (st_visited _ _ _ _ _ SO). exact Vs.
    + eapply linked_ext; [|exact L]. intros y Hy. apply (st_adj _ _ _ _ _ SO). exact Hy.
    + apply (st_remains _ _ _ _ _ SO).
    + apply (st_tasks _ _ _ _ _ SO). exact RT.
    + intros y Hy. apply Vv. right. exact Hy.
    + exists s2, R2. split; [exact E2|]. split; [eapply step_trans; eauto|].
      destruct Cl2 as [W|Cl2]; [left; exact W|]. destruct Cl as [W|Cl]; [left; eapply whole_mono; [apply (st_marks _ _ _ _ _ SO2)|exact W]|].
      right. intros C. destruct (Cl C) as [C1 H1]. destruct (Cl2 C1) as [C2 H2]. split; [exact C2|].
      intros u [<-|Hu] Hd.
      * destruct (H1 Hd) as [H|H]; [left; exact H|right; apply (st_more _ _ _ _ _ SO2); exact H].
      * destruct (H2 u Hu Hd) as [H|H]; [|right; exact H]. destruct (st_stack _ _ _ _ _ SO x H) as [H'|H']; [left; exact H'|]. destruct H'. left. reflexivity.
Qed.

Lemma compute_cycles_ok fuel : call_ok (compute_cycles fuel g) fuel.
Proof.
  induction fuel as [|fuel IH]; intros x st s R Hx Nx ND HV Vs L RM RT F.
  - exfalso. assert (H : (length (x :: st) <= length V)%nat) by (apply NoDup_len; [constructor; assumption|intros y [<-|Hy]; auto]). cbn in H. lia.
  - cbn [compute_cycles].
    destruct (each_target_run (compute_cycles fuel g) fuel x st IH Hx Nx ND HV ltac:(lia) V (mkSearch (c_deps s) (x :: c_visited s) (c_adj s) (c_marks s)) R)
      as (s1 & R1 & E & SO & Cl); cbn; auto; [congruence|]. rewrite E. cbn [bind].
    destruct SO as [A1 A2 A3 AT A4 A5 A6 A7]. cbn in *.
    eexists _, (x :: R1). split; [reflexivity|]. split; [|split; [left; reflexivity|]].
    + constructor; cbn.
      * rewrite A1. cbn. rewrite Z.eqb_refl. cbn. apply filter_out. rewrite Vs. exact Nx.
      * auto.
      * intros y [<-|Hy]; [right; exact Nx|]. destruct (A3 y Hy) as [H|H]; [left; exact H|right; tauto].
      * intros _ y [<-|Hy]; [exact Hx|]. exact (AT RT y Hy).
      * intros u v. rewrite filter_In. cbn. rewrite (A4 u v), andb_true_iff, !negb_true_iff, !Z.eqb_neq. intuition.
      * intros y Hy. apply A5. right. exact Hy.
      * exact A6.
      * exact A7.
    + destruct Cl as [W|Cl]; [left; exact W|right]. intros C. destruct (Cl C) as [[C1 C2] H].
      assert (SX : forall v, In (x, v) d0 -> In v R1).
      { intros v Hv. destruct (H v) as [H'|H']; [apply (TD x v Hv)|exact Hv| |exact H']. apply A2. eapply (proj1 C); eauto. }
      split.
      * intros u v [<-|Hu] Huv; right; [apply SX; exact Huv|eapply C1; eauto].
      * assert (ST : forall l u v, In u R1 -> chain d0 u l v -> In v R1).
        { induction l as [|w l IHl]; cbn; intros u v Hu Hc; [congruence|]. destruct Hc as [Hc1 Hc2]. eapply IHl; [|exact Hc2]. eapply C1; eauto. }
        intros u l [<-|Hu] Nl Hc; [|exact (C2 u l Hu Nl Hc)].
        destruct (in_dec Z.eq_dec x R1) as [HR|NR]; [exact (C2 x l HR Nl Hc)|].
        destruct l as [|w l]; [congruence|]. destruct Hc as [Hc1 Hc2]. apply NR. eapply ST; [apply SX; exact Hc1|exact Hc2].
Qed.

Lemma cycles_loop_ok fuel : (length V < fuel)%nat -> forall vs s R, (forall y, In y vs -> In y V) -> c_visited s = [] -> remains (c_deps s) R -> (forall y, In y R -> In y V) ->
  exists s' R', cycles_loop fuel g vs s = Ok s' /\ step_ok [] s R s' R' /\ (forall y, In y vs -> In y R') /\
    (whole_cycle g d0 (c_marks s') \/ (cleared R -> cleared R')).
Proof.
  intros F. induction vs as [|v vs IH]; intros s R Hv Vs RM RT.
  - exists s, R. split; [reflexivity|]. split; [apply step_refl; exact RM|]. split; [intros y []|]. right. auto.
  - cbn [cycles_loop].
    destruct (compute_cycles_ok fuel v [] (mkSearch (c_deps s) (c_visited s) (set_adj (c_adj s) v v) (c_marks s)) R) as (s1 & R1 & E & SO & In1 & Cl); cbn; auto.
    { apply Hv. left. reflexivity. } { constructor. } { intros y []. } { lia. }
    rewrite E. cbn [bind]. pose proof SO as [A1 A2 A3 AT A4 A5 A6 A7]. cbn in *.
    destruct (IH s1 R1) as (s2 & R2 & E2 & SO2 & In2 & Cl2); auto; [congruence|].
    exists s2, R2. split; [exact E2|]. split; [|split].
    + eapply step_trans; [|exact SO2]. constructor; auto; intros y [].
    + intros y [<-|Hy]; [apply (st_more _ _ _ _ _ SO2); exact In1|apply In2; exact Hy].
    + destruct Cl2 as [W|Cl2]; [left; exact W|]. destruct Cl as [W|Cl]; [left; eapply whole_mono; [apply (st_marks _ _ _ _ _ SO2)|exact W]|right; auto].
Qed.

Lemma storage_deps_cycles_run fuel : (length (vertices g) < fuel)%nat ->
  exists r, storage_deps_cycles fuel g d0 = Ok r /\ (forall k, In k r -> on_cycle g d0 k) /\
    ((exists u l, l <> [] /\ chain d0 u l u) -> whole_cycle g d0 r).
Proof.
  intros F. unfold storage_deps_cycles.
  destruct (cycles_loop_ok fuel) with (vs := V) (s := mkSearch d0 [] (fun _ => 0) []) (R := @nil Z) as (s & R & E & SO & HR & Cl); cbn; auto.
  { unfold ids. rewrite map_length. exact F. } { intros u v. cbn. tauto. } { intros y []. }
  rewrite E. cbn [bind]. eexists. split; [reflexivity|]. destruct SO as [A1 A2 A3 AT A4 A5 A6 A7]. cbn in *.
  assert (M : forall k, In k (filter (fun k => existsb (Nat.eqb k) (c_marks s)) (seq 0 (length (edges g)))) <-> (k < length (edges g))%nat /\ In k (c_marks s)).
  { intros k. rewrite filter_In, in_seq, existsb_exists. split.
    - intros [H1 (j & H2 & H3)]. apply Nat.eqb_eq in H3. subst j. split; [lia|exact H2].
    - intros [H1 H2]. split; [lia|]. exists k. split; [exact H2|apply Nat.eqb_refl]. }
  split.
  - intros k Hk. apply M in Hk as [_ Hk]. apply A7; [|exact Hk]. intros j [].
  - intros (u & l & Nl & Hc). destruct Cl as [W|Cl].
    + destruct W as (u' & l' & N' & C' & W). exists u', l'. split; [exact N'|]. split; [exact C'|]. intros x y k c H Ek Ex Ey. apply M.
      split; [apply nth_error_Some; congruence|eapply W; eauto].
    + exfalso. assert (C : cleared R) by (apply Cl; split; [intros x v []|intros x m []]).
      apply (proj2 C u l); auto. apply HR. destruct l as [|w l]; [congruence|]. apply (TD _ _ (proj1 Hc)).
Qed.
End Cycle.
