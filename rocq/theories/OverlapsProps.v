(** The tasks that use the same link of a router. *)
From Coq Require Import QArith Relations Sorted.
From Verif Require Import Base Graph GroupList GroupListSpec GroupListProofs Overlaps OverlapsSpec OverlapsProofs.
Open Scope Z_scope.

Definition fit (net : network) (r : Z) (u : use) : bool := (link_dst net (fst (fst u)) =? r) && (link_src net (snd (fst u)) =? r).
Lemma overlaps_run net h : forall ks,
  (exists bss, overlaps_of net (table h ks) = Ok (concat bss) /\ Forall2 (fun k bs => bags_of (h k) bs) ks bss /\ forall k, In k ks -> forallb (fit net k) (h k) = true) \/
  (overlaps_of net (table h ks) = Rejected /\ ~ forall k, In k ks -> forallb (fit net k) (h k) = true).
Proof.
  induction ks as [|k ks IH]; cbn [table map overlaps_of].
  - left. exists []. split; [reflexivity|]. split; [constructor|intros k []].
  - change (map (fun k0 => (k0, h k0)) ks) with (table h ks). destruct (forallb (fit net k) (h k)) eqn:Fk.
    + rewrite gather_ok. unfold fit in Fk. rewrite Fk. destruct (run_bags (h k)) as (s & bs & E & G & B). rewrite E. cbn [bind]. rewrite G. cbn [bind].
      destruct IH as [(bss & E1 & F & A)|[E1 A]]; rewrite E1; cbn [bind].
      * left. exists (bs :: bss). split; [reflexivity|]. split; [constructor; auto|]. intros x [<-|Hx]; [exact Fk|auto].
      * right. split; [reflexivity|]. intros H. apply A. intros x Hx. apply H. right. exact Hx.
    + right. rewrite (gather_fails net k (h k) [] gl_empty eq_refl Fk). split; [reflexivity|]. intros H. specialize (H k (or_introl eq_refl)). congruence.
Qed.

Section Result.
Variable net : network.
Variable g : graph.
Variable mapping : nat -> Z.
Definition H (r : Z) : list use := hist (all_uses net g mapping) r.

Lemma result : ((forall p, In p (tasks g) -> accepted net g mapping p) /\ exists ks, StronglySorted Z.lt ks /\ (forall k, In k ks <-> H k <> []) /\
    get_overlaps net g mapping = overlaps_of net (table H ks)) \/
  (get_overlaps net g mapping = Rejected /\ ~ forall p, In p (tasks g) -> accepted net g mapping p).
Proof.
  unfold get_overlaps. fold (tasks g). destruct (build_ok net g mapping (tasks g) []) as [[E A]|[E A]]; rewrite E; cbn [bind]; [left|right; auto].
  split; [exact A|]. destruct (fold_table (flat_map (use_at net g mapping) (tasks g)) [] []) as (ks & E1 & S & M); [constructor|reflexivity|]. cbn [table map app] in *. rewrite E1.
  exists ks. split; [exact S|]. split; [|reflexivity]. intros k. rewrite M. unfold H, all_uses, hist. generalize (flat_map (use_at net g mapping) (tasks g)). intros l. clear. induction l as [|p l IH]; cbn; [tauto|].
  destruct (Z.eqb_spec (fst p) k) as [E|E]; cbn; [intuition discriminate|]. rewrite <- IH. intuition.
Qed.

Lemma in_H r a b t : (forall p, In p (tasks g) -> accepted net g mapping p) -> (In (a, b, t) (H r) <-> exists v, crosses net g mapping v r a b t).
Proof. intros A. apply in_hist, A. Qed.
Lemma chain_linked r : (forall p, In p (tasks g) -> accepted net g mapping p) -> forall u u', clos_refl_trans use (near (H r)) u u' -> linked net g mapping r (snd u) (snd u').
Proof.
  intros A u u' C. induction C as [u u' (Hu & Hu' & x & T & T')|u|u w u' C1 IH1 C2 IH2].
  - apply rt_step. destruct u as [[a b] t], u' as [[a' b'] t']. apply (in_H r _ _ _ A) in Hu as (v & Cv). apply (in_H r _ _ _ A) in Hu' as (v' & Cv').
    exists v, a, b, v', a', b'. split; [exact Cv|]. split; [exact Cv'|]. unfold touches in *. cbn in *. intuition congruence.
  - apply rt_refl.
  - eapply rt_trans; eauto.
Qed.
End Result.

Lemma nth_concat {A} : forall (ls : list (list A)) i x, nth_error (concat ls) i = Some x -> exists j k l, nth_error ls j = Some l /\ nth_error l k = Some x /\ i = (length (concat (firstn j ls)) + k)%nat.
Proof.
  induction ls as [|l ls IH]; intros i x E; [destruct i; discriminate|]. cbn [concat] in E. destruct (Nat.lt_ge_cases i (length l)) as [L|L].
  - rewrite nth_error_app1 in E by exact L. exists 0%nat, i, l. auto.
  - rewrite nth_error_app2 in E by exact L. destruct (IH _ _ E) as (j & k & l' & E1 & E2 & E3). exists (S j), k, l'. split; [exact E1|]. split; [exact E2|]. cbn [firstn concat]. rewrite app_length. lia.
Qed.

(** No bag mixes routers, and the tasks of a bag are linked by crossings with common links. *)
Theorem C141_bags net g mapping bags : get_overlaps net g mapping = Ok bags -> forall bag, In bag bags ->
  exists r, forall t t', In t bag -> In t' bag -> (exists v a b, crosses net g mapping v r a b t) /\ linked net g mapping r t t'.
Proof.
  intros E bag Hb. destruct (result net g mapping) as [(A & ks & _ & K & E1)|[E1 _]]; [|congruence]. rewrite E1 in E.
  destruct (overlaps_run net (H net g mapping) ks) as [(bss & E2 & F & _)|[E2 _]]; [|congruence]. rewrite E2 in E. injection E as <-.
  apply in_concat in Hb as (bs & Hbs & Hb). apply In_nth_error in Hbs as (i & Hi). destruct (forall2_nth _ _ _ F i bs Hi) as (r & Hr & B). exists r.
  intros t t' Ht Ht'. destruct (b_chain _ _ B bag t t' Hb Ht Ht') as (u & u' & Hu & Hu' & <- & <- & C). split.
  - destruct u as [[a b] id]. apply (in_H net g mapping r a b id A) in Hu as (v & Cv). exists v, a, b. exact Cv.
  - apply (chain_linked net g mapping r A), C.
Qed.
Print Assumptions C141_bags.

(** With distinct identifiers, no task is in two bags. *)
Theorem C141_once net g mapping bags : NoDup (map v_id (vertices g)) -> get_overlaps net g mapping = Ok bags ->
  forall i j bag bag' t, nth_error bags i = Some bag -> nth_error bags j = Some bag' -> In t bag -> In t bag' -> i = j.
Proof.
  intros N E i j bag bag' t Hi Hj Ht Ht'. destruct (result net g mapping) as [(A & ks & So & K & E1)|[E1 _]]; [|congruence]. rewrite E1 in E.
  destruct (overlaps_run net (H net g mapping) ks) as [(bss & E2 & F & _)|[E2 _]]; [|congruence]. rewrite E2 in E. injection E as <-.
  assert (Same : forall v r a b v' r' a' b', crosses net g mapping v r a b t -> crosses net g mapping v' r' a' b' t -> r = r' /\ a = a' /\ b = b').
  { intros v r a b v' r' a' b' ((x & X1 & X2) & C2 & _ & _ & _ & p & q & P1 & P2 & P3 & P4) ((y & Y1 & Y2) & D2 & _ & _ & _ & p' & q' & Q1 & Q2 & Q3 & Q4).
    assert (v = v').
    { apply (proj1 (NoDup_nth_error _) N).
      - rewrite map_length. apply nth_error_Some. congruence.
      - rewrite !nth_error_map, X1, Y1. cbn. congruence. }
    subst v'. rewrite P1 in Q1. rewrite P2 in Q2. injection Q1 as Q1. injection Q2 as Q2. subst. auto. }
  destruct (nth_concat _ _ _ Hi) as (m & k & bs & M1 & M2 & ->). destruct (nth_concat _ _ _ Hj) as (m' & k' & bs' & M1' & M2' & ->).
  destruct (forall2_nth _ _ _ F m bs M1) as (r & Hr & B). destruct (forall2_nth _ _ _ F m' bs' M1') as (r' & Hr' & B').
  destruct (b_chain _ _ B bag t t (nth_error_In _ _ M2) Ht Ht) as ([[a b] id] & _ & Hu & _ & Eu & _). cbn in Eu. subst id.
  destruct (b_chain _ _ B' bag' t t (nth_error_In _ _ M2') Ht' Ht') as ([[a' b'] id'] & _ & Hu' & _ & Eu' & _). cbn in Eu'. subst id'.
  apply (in_H net g mapping r a b t A) in Hu as (v & Cv). apply (in_H net g mapping r' a' b' t A) in Hu' as (v' & Cv').
  destruct (Same _ _ _ _ _ _ _ _ Cv Cv') as (<- & _).
  assert (m = m').
  { assert (Nk : NoDup ks). { clear - So. induction So as [|x l S IH Fo]; constructor; [|exact IH]. intros J. rewrite Forall_forall in Fo. specialize (Fo x J). lia. }
    apply (proj1 (NoDup_nth_error ks) Nk); [apply nth_error_Some; congruence|congruence]. }
  subst m'. assert (bs' = bs) by congruence. subst bs'. f_equal.
  destruct (b_once _ _ B k k' bag bag' t M2 M2' Ht Ht') as [->|(u & u' & J1 & J2 & J3 & J4 & J5)]; [reflexivity|]. exfalso. apply J5.
  destruct u as [[ua ub] ut], u' as [[ua' ub'] ut']. cbn in J3, J4. subst ut ut'. apply (in_H net g mapping r _ _ t A) in J1 as (w & Cw). apply (in_H net g mapping r _ _ t A) in J2 as (w' & Cw').
  destruct (Same _ _ _ _ _ _ _ _ Cw Cw') as (_ & -> & ->). reflexivity.
Qed.
Print Assumptions C141_once.

(** The claim: two crossings of a router with a link in common are in the same bag. *)
Definition together net g mapping bags : Prop := forall v v' r a b a' b' t t', crosses net g mapping v r a b t -> crosses net g mapping v' r a' b' t' ->
  a = a' \/ b = b' -> exists bag, In bag bags /\ In t bag /\ In t' bag.
(** It holds for crossings that bring in a link no earlier crossing uses; and for any two of those
    linked by other crossings. *)
Theorem C141_together_partial net g mapping bags : get_overlaps net g mapping = Ok bags ->
  forall v v' r a b a' b' t t', crosses net g mapping v r a b t -> crosses net g mapping v' r a' b' t' ->
  opens net g mapping v r a b -> opens net g mapping v' r a' b' -> linked net g mapping r t t' -> NoDup (map v_id (vertices g)) ->
  exists bag, In bag bags /\ In t bag /\ In t' bag.
Proof.
  intros E v v' r a b a' b' t t' C C' (x & Hx & O) (x' & Hx' & O') L N. destruct (result net g mapping) as [(A & ks & _ & K & E1)|[E1 _]]; [|congruence]. rewrite E1 in E.
  destruct (overlaps_run net (H net g mapping) ks) as [(bss & E2 & F & _)|[E2 _]]; [|congruence]. rewrite E2 in E. injection E as <-.
  assert (Hr : In r ks). { apply K. intros Q. assert (J : In (a, b, t) (H net g mapping r)) by (apply in_H; eauto). rewrite Q in J. destruct J. }
  assert (F' : exists bs, In bs bss /\ bags_of (H net g mapping r) bs) by (destruct (forall2_in _ _ _ F r Hr) as (bs & J & B); eauto).
  destruct F' as (bs & Jb & B).
  destruct (hist_split net g mapping A v r a b t C) as (h1 & h2 & S & P). destruct (hist_split net g mapping A v' r a' b' t' C') as (h1' & h2' & S' & P').
  assert (Lk : connected (H net g mapping r) a a').
  { assert (Same : forall w c d w' c' d' s, crosses net g mapping w r c d s -> crosses net g mapping w' r c' d' s -> c = c').
    { intros w c d w' c' d' s ((p & X1 & X2) & _ & _ & _ & _ & i & o & P1 & _ & P3 & _) ((q & Y1 & Y2) & _ & _ & _ & _ & i' & o' & Q1 & _ & Q3 & _).
      assert (w = w').
      { apply (proj1 (NoDup_nth_error _) N).
        - rewrite map_length. apply nth_error_Some. congruence.
        - rewrite !nth_error_map, X1, Y1. cbn. congruence. }
      subst w'. rewrite P1 in Q1. injection Q1 as Q1. subst. reflexivity. }
    assert (Pair : forall w c d s, crosses net g mapping w r c d s -> connected (H net g mapping r) c d) by (intros w c d s Cw; apply (conn_pair _ c d s), (in_H net g mapping r c d s A); eauto).
    revert v' a' b' C' O' Hx' h1' h2' S' P'. clear - L Same Pair C. intros v' a' b' C' _ _ _ _ _ _. revert v a b C v' a' b' C'.
    induction L as [t t' (w & c & d & w' & c' & d' & W & W' & M)|t|t s t' L1 IH1 L2 IH2]; intros v a b C v' a' b' C'.
    - rewrite (Same _ _ _ _ _ _ _ C W), (Same _ _ _ _ _ _ _ C' W'). pose proof (Pair _ _ _ _ W) as Q. pose proof (Pair _ _ _ _ W') as Q'.
      destruct M as [M | [M | [M | M]]]; rewrite ?M in *.
      + apply conn_refl.
      + eapply conn_trans; [exact Q|apply conn_sym, Q'].
      + apply conn_sym, Q'.
      + exact Q.
    - rewrite (Same _ _ _ _ _ _ _ C C'). apply conn_refl.
    - assert (Mid : exists w c d, crosses net g mapping w r c d s \/ s = t).
      { clear - L1. induction L1 as [x y (w & c & d & w' & c' & d' & W & W' & M)|x|x y z L1 IH1 L2 IH2]; [exists w', c', d'; auto|exists 0%nat, 0, 0; auto|].
        destruct IH2 as (w & c & d & [Q | ->]); [exists w, c, d; auto|exact IH1]. }
      destruct Mid as (w & c & d & [Q | ->]); [|eauto]. eapply conn_trans; [apply (IH1 v a b C w c d Q)|apply (IH2 w c d Q v' a' b' C')]. }
  destruct (b_kept _ _ B h1 h2 h1' h2' a b t a' b' t' x x') as (bag & B1 & B2 & B3); auto.
  - intros (l & rr & w & J & Q). destruct (P _ _ _ J) as (v0 & L0 & C0). destruct (O _ _ _ _ L0 C0). destruct Q; congruence.
  - intros (l & rr & w & J & Q). destruct (P' _ _ _ J) as (v0 & L0 & C0). destruct (O' _ _ _ _ L0 C0). destruct Q; congruence.
  - exists bag. split; [apply in_concat; exists bs; auto|auto].
Qed.
Print Assumptions C141_together_partial.

(** The search never does anything undefined, and answers exactly when the tasks and the network
    are as the program takes for granted. *)
Theorem C141_defined net g mapping : (exists bags, get_overlaps net g mapping = Ok bags) /\ (forall v, (v < length (vertices g))%nat -> sound_task net g mapping v) \/
  get_overlaps net g mapping = Rejected /\ ~ (forall v, (v < length (vertices g))%nat -> sound_task net g mapping v).
Proof.
  assert (T : forall v, (v < length (vertices g))%nat -> exists id, In (v, id) (tasks g)).
  { intros v Hv. apply nth_error_Some in Hv. destruct (nth_error (vertices g) v) as [x|] eqn:E; [|contradiction]. exists (v_id x). apply in_tasks. eauto. }
  assert (T' : forall v id, In (v, id) (tasks g) -> (v < length (vertices g))%nat) by (intros v id J; apply in_tasks in J as (x & E & _); apply nth_error_Some; congruence).
  assert (Ac : forall v id, sound_task net g mapping v -> accepted net g mapping (v, id)).
  { intros v id (S1 & S2 & S3). unfold accepted, task_use. cbn [fst snd]. rewrite (proj2 (Z.leb_le _ _) S1). rewrite S2. destruct (is_node net (mapping v)) eqn:En; cbn [negb xorb cassert bind]; [|eauto].
    destruct (is_router net (mapping v)) eqn:Er; [|eauto]. destruct (S3 eq_refl eq_refl) as (i & o & -> & -> & -> & -> & _). cbn. eauto. }
  destruct (result net g mapping) as [(A & ks & _ & K & E)|[E A]].
  - rewrite E. destruct (overlaps_run net (H net g mapping) ks) as [(bss & E2 & F & Fi)|[E2 Fi]]; rewrite E2.
    + left. split; [eauto|]. intros v Hv. destruct (T v Hv) as (id & J). destruct (A _ J) as (o & Eo). cbn [fst snd] in Eo.
      assert (S12 : 0 <= mapping v /\ is_link net (mapping v) = negb (is_node net (mapping v))).
      { unfold task_use, cassert in Eo. destruct (Z.leb_spec 0 (mapping v)); cbn [bind] in Eo; [|discriminate]. destruct (is_link net (mapping v)), (is_node net (mapping v)); cbn in Eo; try discriminate; auto. }
      split; [apply S12|]. split; [apply S12|]. intros En Er. unfold task_use in Eo. destruct S12 as [S1 S2]. rewrite (proj2 (Z.leb_le _ _) S1), S2, En, Er in Eo. cbn [negb xorb cassert bind] in Eo.
      destruct (inputs g v) as [|i [|? ?]] eqn:Ei; try discriminate. destruct (outputs g v) as [|x [|? ?]] eqn:Ex; try discriminate.
      destruct (is_link net (mapping (e_src i))) eqn:L1; cbn [cassert bind] in Eo; [|discriminate]. destruct (is_link net (mapping (e_dst x))) eqn:L2; cbn [cassert bind] in Eo; [|discriminate].
      exists i, x. repeat (split; [reflexivity || assumption|]).
      assert (Cr : crosses net g mapping v (mapping v) (mapping (e_src i)) (mapping (e_dst x)) id).
      { split; [apply in_tasks, J|]. split; [reflexivity|]. rewrite S2, En. split; [reflexivity|]. split; [reflexivity|]. split; [exact Er|]. exists i, x. auto. }
      assert (Ju : In (mapping (e_src i), mapping (e_dst x), id) (H net g mapping (mapping v))) by (apply in_H; eauto).
      assert (Jk : In (mapping v) ks) by (apply K; intros Q; rewrite Q in Ju; destruct Ju).
      specialize (Fi _ Jk). rewrite forallb_forall in Fi. specialize (Fi _ Ju). unfold fit in Fi. cbn in Fi. rewrite andb_true_iff, !Z.eqb_eq in Fi. exact Fi.
    + right. split; [reflexivity|]. intros S. apply Fi. intros k Hk. apply forallb_forall. intros [[a b] t] Ju. apply (in_H net g mapping k a b t A) in Ju as (v & (x & X1 & X2) & <- & C3 & C4 & C5 & i & o & I1 & I2 & <- & <-).
      assert (Hv : (v < length (vertices g))%nat) by (apply nth_error_Some; congruence). destruct (S v Hv) as (_ & _ & S3). destruct (S3 C4 C5) as (i' & o' & J1 & J2 & _ & _ & J3 & J4).
      rewrite I1 in J1. rewrite I2 in J2. injection J1 as <-. injection J2 as <-. unfold fit. cbn. rewrite J3, J4, !Z.eqb_refl. reflexivity.
  - rewrite E. right. split; [reflexivity|]. intros S. apply A. intros [v id] J. apply Ac, S. eapply T', J.
Qed.
Print Assumptions C141_defined.

(** The claim is false: three crossings of a router, the third from the input link of the first to
    the output link of the second, is in no bag: it is never merged with the others although it
    uses the same links. *)
Definition ex_net : network := mkNet (fun x => (10 <=? x) && (x <? 20)) (fun x => (0 <=? x) && (x <? 10)) (fun x => x =? 5) (fun x => if x <? 15 then 1 else 5) (fun x => if x <? 15 then 5 else 1).
Definition ex_v (id : Z) : vertex := mkVertex id 1 0 [1%Q] [] 1.
Definition ex_e (id : Z) (a b : nat) : edge := mkEdge id a b [1] [1] [] [] 0.
(** Nine tasks: three chains of a link, the router 5 and a link. *)
Definition ex_graph (three : list edge) : graph := mkGraph (map ex_v [1; 2; 3; 4; 5; 6; 7; 8; 9]) ([ex_e 1 0 1; ex_e 2 1 2; ex_e 3 3 4; ex_e 4 4 5] ++ three).
Definition ex_map (a b c d e f : Z) (v : nat) : Z := nth v [a; 5; b; c; 5; d; e; 5; f] 0.
Theorem C141_together_refuted : exists net g mapping bags, NoDup (map v_id (vertices g)) /\ get_overlaps net g mapping = Ok bags /\ ~ together net g mapping bags.
Proof.
  exists ex_net, (ex_graph [ex_e 5 6 7; ex_e 6 7 8]), (ex_map 10 15 11 16 10 16), [[2; 5]]. split; [|split].
  - repeat (apply NoDup_cons; [cbn; intuition discriminate|]). apply NoDup_nil.
  - vm_compute. reflexivity.
  - intros T. destruct (T 1%nat 7%nat 5 10 15 10 16 2 8) as (bag & [<-|[]] & _ & J).
    + split; [eexists; split; reflexivity|]. repeat (split; [reflexivity|]). do 2 eexists. repeat split; reflexivity.
    + split; [eexists; split; reflexivity|]. repeat (split; [reflexivity|]). do 2 eexists. repeat split; reflexivity.
    + auto.
    + cbn in J. intuition discriminate.
Qed.
Print Assumptions C141_together_refuted.
(** Here the third crossing has an output link of its own. *)
Example C141_example : get_overlaps ex_net (ex_graph [ex_e 5 6 7; ex_e 6 7 8]) (ex_map 10 15 11 16 10 17) = Ok [[2; 8]; [5]].
Proof. vm_compute. reflexivity. Qed.
