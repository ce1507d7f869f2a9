(** Proofs about the search for overlaps. *)
From Coq Require Import QArith Relations Sorted.
From Verif Require Import Base Graph GroupList GroupListSpec GroupListProofs Overlaps OverlapsSpec.
Open Scope Z_scope.

(** * The uses of the routers *)
Definition hist (ps : list (Z * use)) (r : Z) : list use := map snd (filter (fun p => fst p =? r) ps).
Lemma hist_snoc ps p r : hist (ps ++ [p]) r = if fst p =? r then hist ps r ++ [snd p] else hist ps r.
Proof. unfold hist. rewrite filter_app, map_app. cbn. destruct (fst p =? r); [reflexivity|apply app_nil_r]. Qed.
Definition table (F : Z -> list use) (ks : list Z) : list (Z * list use) := map (fun k => (k, F k)) ks.
Lemma add_table F r u : forall ks, StronglySorted Z.lt ks -> (~ In r ks -> F r = []) ->
  exists ks', add_use (table F ks) r u = table (fun k => if r =? k then F k ++ [u] else F k) ks' /\ StronglySorted Z.lt ks' /\ (forall x, In x ks' <-> x = r \/ In x ks).
Proof.
  assert (Ext : forall (ks : list Z), (forall k, In k ks -> k <> r) -> table F ks = table (fun k => if r =? k then F k ++ [u] else F k) ks).
  { intros ks H. apply map_ext_in. intros k Hk. destruct (Z.eqb_spec r k) as [->|]; [destruct (H k Hk eq_refl)|reflexivity]. }
  induction ks as [|k ks IH]; intros So Fr; cbn [table map add_use fst snd].
  - exists [r]. cbn. rewrite Z.eqb_refl, Fr by (intros []). split; [reflexivity|]. split; [constructor; constructor|]. intuition.
  - inversion So as [|? ? S1 S2]; subst. pose proof S2 as S2'. rewrite Forall_forall in S2. destruct (Z.ltb_spec r k) as [L|L].
    + exists (r :: k :: ks). split; [|split].
      * assert (Hr : ~ In r (k :: ks)) by (intros [->|H]; [lia|specialize (S2 r H); lia]). change (table (fun k0 => if r =? k0 then F k0 ++ [u] else F k0) (r :: k :: ks)) with ((r, if r =? r then F r ++ [u] else F r) :: table (fun k0 => if r =? k0 then F k0 ++ [u] else F k0) (k :: ks)).
        rewrite Z.eqb_refl, (Fr Hr), <- Ext by (intros x Hx ->; contradiction). reflexivity.
      * constructor; [exact So|]. constructor; [exact L|]. apply Forall_forall. intros x Hx. specialize (S2 x Hx). lia.
      * cbn. intuition.
    + destruct (Z.eqb_spec r k) as [->|Ne].
      * exists (k :: ks). split; [|split; [exact So|cbn; intuition]]. change (map (fun k0 => (k0, F k0)) ks) with (table F ks).
        rewrite Ext by (intros x Hx ->; specialize (S2 k Hx); lia). cbn. rewrite Z.eqb_refl. reflexivity.
      * destruct (IH S1) as (ks' & E & S' & M); [intros H; apply Fr; intros [->|H']; [destruct Ne; reflexivity|contradiction]|].
        exists (k :: ks'). change (map (fun k0 => (k0, F k0)) ks) with (table F ks). rewrite E. split; [cbn; destruct (Z.eqb_spec r k); [contradiction|reflexivity]|]. split.
        -- constructor; [exact S'|]. apply Forall_forall. intros x Hx. apply M in Hx as [->|Hx]; [lia|auto].
        -- intros x. cbn. rewrite M. intuition.
Qed.
Lemma table_ext F F' ks : (forall k, In k ks -> F k = F' k) -> table F ks = table F' ks.
Proof. intros H. apply map_ext_in. intros k Hk. rewrite (H k Hk). reflexivity. Qed.

Section Usage.
Variable net : network.
Variable g : graph.
Variable mapping : nat -> Z.
Definition use_at (p : nat * Z) : list (Z * use) := match task_use net g mapping (fst p) (snd p) with Ok (Some x) => [x] | _ => [] end.
Definition accepted (p : nat * Z) : Prop := exists o, task_use net g mapping (fst p) (snd p) = Ok o.
Lemma build_ok : forall vs us, build_usage net g mapping vs us = Ok (fold_left (fun us p => add_use us (fst p) (snd p)) (flat_map use_at vs) us) /\ (forall p, In p vs -> accepted p) \/
  build_usage net g mapping vs us = Rejected /\ ~ (forall p, In p vs -> accepted p).
Proof.
  induction vs as [|[v id] vs IH]; intros us; cbn [build_usage flat_map].
  - left. split; [reflexivity|intros p []].
  - assert (T : (exists o, task_use net g mapping v id = Ok o) \/ task_use net g mapping v id = Rejected).
    { unfold task_use, cassert. repeat match goal with |- context [if ?b then _ else _] => destruct b; cbn [bind]; try (right; reflexivity) | |- context [match ?l with [] => _ | _ :: _ => _ end] => destruct l; cbn [bind]; try (right; reflexivity) end; left; eexists; reflexivity. }
    destruct T as [(o & T)|T].
    + rewrite T. cbn [bind]. unfold use_at at 1. cbn [fst snd]. rewrite T.
      replace (fold_left (fun us p => add_use us (fst p) (snd p)) (match o with Some x => [x] | None => [] end ++ flat_map use_at vs) us) with
        (fold_left (fun us p => add_use us (fst p) (snd p)) (flat_map use_at vs) (match o with Some p => add_use us (fst p) (snd p) | None => us end)) by (destruct o; reflexivity).
      destruct (IH (match o with Some p => add_use us (fst p) (snd p) | None => us end)) as [[E A]|[E A]].
      * left. split; [exact E|]. intros p [<-|H]; [exists o; exact T|auto].
      * right. split; [exact E|]. intros H. apply A. intros p Hp. apply H. right. exact Hp.
    + right. rewrite T. split; [reflexivity|]. intros H. destruct (H (v, id) (or_introl eq_refl)) as (o & E). cbn in E. congruence.
Qed.
Lemma fold_table : forall ps done ks, StronglySorted Z.lt ks -> (forall k, In k ks <-> In k (map fst done)) ->
  exists ks', fold_left (fun us p => add_use us (fst p) (snd p)) ps (table (hist done) ks) = table (hist (done ++ ps)) ks' /\ StronglySorted Z.lt ks' /\ (forall k, In k ks' <-> In k (map fst (done ++ ps))).
Proof.
  induction ps as [|p ps IH]; intros done ks So K; cbn [fold_left].
  - exists ks. rewrite app_nil_r. auto.
  - destruct (add_table (hist done) (fst p) (snd p) ks So) as (ks1 & E & S1 & M).
    { intros H. unfold hist. replace (filter _ done) with (@nil (Z * use)); [reflexivity|]. rewrite K in H. clear - H. induction done as [|q done IH]; [reflexivity|]. cbn in *.
      destruct (Z.eqb_spec (fst q) (fst p)); [destruct H; auto|]. apply IH. tauto. }
    rewrite E. rewrite (table_ext _ (hist (done ++ [p]))) by (intros k _; rewrite hist_snoc; reflexivity).
    destruct (IH (done ++ [p]) ks1 S1) as (ks2 & E2 & S2 & M2); [intros k; rewrite M, K, map_app, in_app_iff; cbn; intuition|].
    rewrite <- app_assoc in E2, M2. exists ks2. auto.
Qed.

Lemma task_use_spec v id o : task_use net g mapping v id = Ok o ->
  match o with
  | Some (r, (a, b, t)) => t = id /\ mapping v = r /\ is_link net r = false /\ is_node net r = true /\ is_router net r = true /\
      exists i o, inputs g v = [i] /\ outputs g v = [o] /\ mapping (e_src i) = a /\ mapping (e_dst o) = b
  | None => ~ (is_link net (mapping v) = false /\ is_node net (mapping v) = true /\ is_router net (mapping v) = true)
  end.
Proof.
  unfold task_use, cassert. destruct (0 <=? mapping v); cbn [bind]; [|discriminate]. destruct (xorb _ _); cbn [bind]; [|discriminate].
  destruct (is_link net (mapping v)) eqn:El; [intros H; injection H as <-; intuition congruence|].
  destruct (is_node net (mapping v)) eqn:En; [|intros H; injection H as <-; intuition congruence].
  destruct (is_router net (mapping v)) eqn:Er; [|intros H; injection H as <-; intuition congruence].
  destruct (inputs g v) as [|i [|? ?]] eqn:Ei; try discriminate. destruct (outputs g v) as [|x [|? ?]] eqn:Eo; try discriminate.
  destruct (is_link net (mapping (e_src i))); cbn [bind]; [|discriminate]. destruct (is_link net (mapping (e_dst x))); cbn [bind]; [|discriminate].
  intros H. injection H as <-. repeat split; auto. exists i, x. auto.
Qed.

Definition tasks : list (nat * Z) := combine (seq 0 (length (vertices g))) (map v_id (vertices g)).
Lemma combine_seq {A} (l : list A) : forall s v x, In (v, x) (combine (seq s (length l)) l) <-> (s <= v)%nat /\ nth_error l (v - s) = Some x.
Proof.
  induction l as [|y l IH]; intros s v x; cbn [length seq combine In].
  - split; [intros []|]. intros [_ H]. destruct (v - s)%nat; discriminate.
  - rewrite IH. split.
    + intros [E|[L H]]; [injection E as -> ->; split; [lia|rewrite Nat.sub_diag; reflexivity]|]. split; [lia|]. replace (v - s)%nat with (S (v - S s)) by lia. exact H.
    + intros [L H]. destruct (Nat.eq_dec v s) as [->|Ne]; [rewrite Nat.sub_diag in H; cbn in H; left; congruence|]. right. split; [lia|]. replace (v - s)%nat with (S (v - S s)) in H by lia. exact H.
Qed.
Lemma in_tasks v id : In (v, id) tasks <-> exists x, nth_error (vertices g) v = Some x /\ v_id x = id.
Proof.
  unfold tasks. rewrite <- (map_length v_id). rewrite combine_seq, Nat.sub_0_r, nth_error_map. split.
  - intros [_ H]. destruct (nth_error (vertices g) v) as [x|] eqn:E; [|discriminate]. injection H as <-. eauto.
  - intros (x & -> & <-). split; [lia|reflexivity].
Qed.
Definition all_uses : list (Z * use) := flat_map use_at tasks.
Hypothesis Acc : forall p, In p tasks -> accepted p.
Lemma use_at_iff v id r a b t : In (v, id) tasks -> (In (r, (a, b, t)) (use_at (v, id)) <-> t = id /\ crosses net g mapping v r a b t).
Proof.
  intros H. destruct (Acc _ H) as (o & E). cbn [fst snd] in E. pose proof (task_use_spec _ _ _ E) as Sp. unfold use_at. cbn [fst snd]. rewrite E. apply in_tasks in H.
  destruct o as [[r0 [[a0 b0] t0]]|].
  - cbn. split.
    + intros [Q|[]]. injection Q as -> -> -> ->. destruct Sp as (-> & Sp). split; [reflexivity|]. split; [exact H|exact Sp].
    + intros [-> (_ & M & _ & _ & _ & i & o & I1 & I2 & I3 & I4)]. destruct Sp as (-> & M' & _ & _ & _ & i' & o' & J1 & J2 & J3 & J4). left. rewrite I1 in J1. rewrite I2 in J2. injection J1 as Ji. injection J2 as Jo. subst. reflexivity.
  - cbn. split; [intros []|]. intros [_ (_ & M & L1 & L2 & L3 & _)]. subst r. destruct (Sp (conj L1 (conj L2 L3))).
Qed.
Lemma in_hist r a b t : In (a, b, t) (hist all_uses r) <-> exists v, crosses net g mapping v r a b t.
Proof.
  unfold hist. rewrite in_map_iff. split.
  - intros ([r' [[a' b'] t']] & E & H). cbn in E. injection E as -> -> ->. apply filter_In in H as [H E]. cbn in E. apply Z.eqb_eq in E. subst r'.
    apply in_flat_map in H as ([v id] & H1 & H2). apply (use_at_iff v id r a b t H1) in H2. exists v. apply H2.
  - intros (v & C). exists (r, (a, b, t)). split; [reflexivity|]. apply filter_In. split; [|cbn; apply Z.eqb_refl].
    apply in_flat_map. exists (v, t). assert (T : In (v, t) tasks) by (apply in_tasks, C). split; [exact T|]. apply use_at_iff; auto.
Qed.
(** Splitting the history at a task. *)
Lemma hist_split v r a b t : crosses net g mapping v r a b t -> exists h1 h2, hist all_uses r = h1 ++ (a, b, t) :: h2 /\
  forall a' b' t', In (a', b', t') h1 -> exists v', (v' < v)%nat /\ crosses net g mapping v' r a' b' t'.
Proof.
  intros C. assert (T : In (v, t) tasks) by (apply in_tasks, C).
  assert (Sp : exists l1 l2, tasks = l1 ++ (v, t) :: l2 /\ forall v' t', In (v', t') l1 -> (v' < v)%nat).
  { unfold tasks in *. revert T. generalize (map v_id (vertices g)) (length (vertices g)). intros ids k. revert ids. generalize 0%nat. induction k as [|k IH]; intros s ids T; [destruct T|].
    destruct ids as [|i ids]; [destruct T|]. cbn [seq combine] in *. destruct T as [E|T].
    - injection E as -> ->. exists [], (combine (seq (S v) k) ids). split; [reflexivity|intros v' t' []].
    - destruct (IH (S s) ids T) as (l1 & l2 & E & L). exists ((s, i) :: l1), l2. rewrite E. split; [reflexivity|]. intros v' t' [Q|H]; [|eauto]. injection Q as <- <-.
      apply in_combine_l in T. apply in_seq in T. lia. }
  destruct Sp as (l1 & l2 & E & L). unfold all_uses, hist. rewrite E, flat_map_app, filter_app, map_app. cbn [flat_map]. rewrite filter_app, map_app.
  assert (U : use_at (v, t) = [(r, (a, b, t))]).
  { pose proof (proj2 (use_at_iff v t r a b t T) (conj eq_refl C)) as H. unfold use_at in *. destruct (task_use net g mapping (fst (v, t)) (snd (v, t))) as [[o|]| | |]; try destruct H as [H|[]]; try destruct H. reflexivity. }
  rewrite U. cbn [filter fst]. rewrite Z.eqb_refl. cbn [map snd app]. eexists. eexists. split; [reflexivity|].
  intros a' b' t' H. apply in_map_iff in H as ([r' u] & Q & H). cbn in Q. subst u. apply filter_In in H as [H Er]. cbn in Er. apply Z.eqb_eq in Er. subst r'.
  apply in_flat_map in H as ([v' id'] & H1 & H2). exists v'. split; [eauto|]. apply (use_at_iff v' id' r a' b' t'); [rewrite E; apply in_app_iff; auto|exact H2].
Qed.
End Usage.

(** * The groups *)
Definition touches (u : use) (x : Z) : Prop := x = fst (fst u) \/ x = snd (fst u).
Definition near (h : list use) (u u' : use) : Prop := In u h /\ In u' h /\ exists x, touches u x /\ touches u' x.
Lemma connected_known (h : list use) x y : connected h x y -> x = y \/ ((exists u, In u h /\ touches u x) /\ exists u, In u h /\ touches u y).
Proof.
  induction 1 as [x|l r v H|x y H IH|x y z H1 IH1 H2 IH2].
  - auto.
  - right. split; exists (l, r, v); unfold touches; cbn; auto.
  - destruct IH as [->|[A B]]; auto.
  - destruct IH1 as [->|[A B]]; [auto|]. destruct IH2 as [<-|[C D]]; auto.
Qed.
Lemma connected_chain (h : list use) x y : connected h x y -> forall u u', In u h -> In u' h -> touches u x -> touches u' y -> clos_refl_trans use (near h) u u' /\ clos_refl_trans use (near h) u' u.
Proof.
  induction 1 as [x|l r v H|x y H IH|x y z H1 IH1 H2 IH2]; intros u u' Hu Hu' T T'.
  - split; apply rt_step; (split; [assumption|]; split; [assumption|]; exists x; auto).
  - assert (Tl : touches (l, r, v) l) by (left; reflexivity). assert (Tr : touches (l, r, v) r) by (right; reflexivity).
    split; (eapply rt_trans; [apply rt_step; split; [|split; [exact H|]]|apply rt_step; split; [exact H|split]]); eauto; eexists; eauto.
  - destruct (IH u' u) as [A B]; auto.
  - destruct (connected_known h x y H1) as [->|[_ (w & Hw & Tw)]]; [auto|]. destruct (IH1 u w) as [A A']; auto. destruct (IH2 w u') as [B B']; auto. split; eapply rt_trans; eauto.
Qed.
Lemma gather_ok net r : forall uses gl, gather net r uses gl = (if forallb (fun u : use => (link_dst net (fst (fst u)) =? r) && (link_src net (snd (fst u)) =? r)) uses then gl_run uses gl else gather net r uses gl).
Proof.
  induction uses as [|[[a b] t] uses IH]; intros gl; [reflexivity|]. cbn [forallb fst snd]. destruct (forallb _ uses) eqn:F; [|rewrite andb_false_r; reflexivity].
  rewrite andb_true_r. destruct ((link_dst net a =? r) && (link_src net b =? r)) eqn:E; [|reflexivity]. apply andb_true_iff in E as [E1 E2]. cbn [gather gl_run]. rewrite E1, E2. cbn [cassert bind].
  destruct (gl_add a b t gl) as [gl'| | |]; cbn [bind]; auto.
Qed.
Lemma gather_fails net r : forall uses h gl, gl_run h gl_empty = Ok gl -> forallb (fun u : use => (link_dst net (fst (fst u)) =? r) && (link_src net (snd (fst u)) =? r)) uses = false -> gather net r uses gl = Rejected.
Proof.
  induction uses as [|[[a b] t] uses IH]; intros h gl R F; [discriminate|]. cbn [gather]. cbn [forallb fst snd] in F.
  destruct (link_dst net a =? r); cbn [cassert bind andb] in *; [|reflexivity]. destruct (link_src net b =? r); cbn [cassert bind andb] in *; [|reflexivity].
  destruct (getall_ok (h ++ [(a, b, t)])) as (s & sets & reps & E & _).
  assert (Ap : forall h1 h2 x, gl_run (h1 ++ h2) x = do y <- gl_run h1 x; gl_run h2 y).
  { clear. induction h1 as [|[[l r] v] h1 IH]; intros h2 x; [reflexivity|]. cbn. destruct (gl_add l r v x); cbn; auto. }
  rewrite Ap, R in E. cbn [bind gl_run] in E. destruct (gl_add a b t gl) as [gl'| | |] eqn:G; try discriminate. cbn [bind] in E |- *.
  apply (IH (h ++ [(a, b, t)])); [|exact F]. rewrite Ap, R. cbn [bind gl_run]. rewrite G. reflexivity.
Qed.

(** The bags of one router. *)
Record bags_of (h : list use) (bags : list (list Z)) : Prop := {
  b_chain : forall bag t t', In bag bags -> In t bag -> In t' bag -> exists u u', In u h /\ In u' h /\ snd u = t /\ snd u' = t' /\ clos_refl_trans use (near h) u u';
  b_kept : forall h1 h2 h1' h2' a b t a' b' t' x x', h = h1 ++ (a, b, t) :: h2 -> h = h1' ++ (a', b', t') :: h2' -> (x = a \/ x = b) -> (x' = a' \/ x' = b') ->
     ~ known h1 x -> ~ known h1' x' -> connected h a a' -> exists bag, In bag bags /\ In t bag /\ In t' bag;
  b_once : forall i j bag bag' t, nth_error bags i = Some bag -> nth_error bags j = Some bag' -> In t bag -> In t bag' ->
     i = j \/ exists u u', In u h /\ In u' h /\ snd u = t /\ snd u' = t /\ u <> u' }.
Lemma forall2_nth {A B} (R : A -> B -> Prop) l l' : Forall2 R l l' -> forall i b, nth_error l' i = Some b -> exists a, nth_error l i = Some a /\ R a b.
Proof. induction 1 as [|a b l l' H _ IH]; intros i y E; [destruct i; discriminate|]. destruct i as [|i]; cbn in *; [injection E as <-; eauto|auto]. Qed.
Lemma forall2_in {A B} (R : A -> B -> Prop) l l' : Forall2 R l l' -> forall a, In a l -> exists b, In b l' /\ R a b.
Proof. induction 1 as [|a b l l' H _ IH]; intros x Hx; [destruct Hx|]. destruct Hx as [<-|Hx]; [exists b; cbn; auto|]. destruct (IH x Hx) as (y & Hy & Q). exists y. cbn. auto. Qed.
Lemma run_bags h : exists s bags, gl_run h gl_empty = Ok s /\ gl_getall s = Ok bags /\ bags_of h bags.
Proof.
  destruct (getall_ok h) as (s & bags & reps & E & G & A & B & C & F). exists s, bags. split; [exact E|]. split; [exact G|].
  assert (Gk : forall rep w, given_kept h rep w -> exists u, In u h /\ snd u = w /\ connected h rep (fst (fst u))).
  { intros rep w (h1 & l & r & h2 & -> & Cn & _). exists (l, r, w). split; [apply in_app_iff; right; left; reflexivity|]. auto. }
  constructor.
  - intros bag t t' Hb Ht Ht'. apply In_nth_error in Hb as (i & Hb). destruct (forall2_nth _ _ _ F i bag Hb) as (rep & Hr & Q).
    apply Q, Gk in Ht as (u & Hu & <- & Cu). apply Q, Gk in Ht' as (u' & Hu' & <- & Cu'). exists u, u'. repeat (split; [auto|]).
    refine (proj1 (connected_chain h (fst (fst u)) (fst (fst u')) _ u u' Hu Hu' (or_introl eq_refl) (or_introl eq_refl))). eapply conn_trans; [apply conn_sym, Cu|exact Cu'].
  - intros h1 h2 h1' h2' a b t a' b' t' x x' E1 E2 Hx Hx' K K' Cn.
    destruct (A a) as (rep & Hr & Cr); [exists a, b, t; split; [rewrite E1; apply in_app_iff; right; left; reflexivity|auto]|].
    destruct (forall2_in _ _ _ F rep Hr) as (bag & Hb & Q). exists bag. split; [exact Hb|]. split; apply Q.
    + exists h1, a, b, h2. split; [exact E1|]. split; [apply conn_sym, Cr|]. intros (K1 & K2 & _). destruct Hx as [->| ->]; contradiction.
    + exists h1', a', b', h2'. split; [exact E2|]. split; [eapply conn_trans; [apply conn_sym, Cr|exact Cn]|]. intros (K1 & K2 & _). destruct Hx' as [->| ->]; contradiction.
  - intros i j bag bag' t Hi Hj Ht Ht'. destruct (forall2_nth _ _ _ F i bag Hi) as (rep & Hr & Q). destruct (forall2_nth _ _ _ F j bag' Hj) as (rep' & Hr' & Q').
    apply Q, Gk in Ht as (u & Hu & Eu & Cu). apply Q', Gk in Ht' as (u' & Hu' & Eu' & Cu').
    assert (D : u = u' \/ u <> u').
    { destruct u as [[a b] c], u' as [[a' b'] c']. destruct (Z.eq_dec a a'), (Z.eq_dec b b'), (Z.eq_dec c c'); try (left; congruence); right; congruence. }
    destruct D as [<-|D]; [|right; exists u, u'; auto]. left. eapply B; eauto. eapply conn_trans; [exact Cu|apply conn_sym, Cu'].
Qed.
