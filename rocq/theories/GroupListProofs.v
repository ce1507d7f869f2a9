From Coq Require Import ZifyBool.
From Verif Require Import Base GroupList GroupListSpec.
Open Scope Z_scope.

Lemma has_key_spec ks x : has_key ks x = true <-> In x ks.
Proof.
  unfold has_key. rewrite existsb_exists. split.
  - intros (y & Hy & E). apply Z.eqb_eq in E. congruence.
  - intros H. exists x. split; [exact H|apply Z.eqb_refl].
Qed.
Lemma has_key_false ks x : has_key ks x = false <-> ~ In x ks.
Proof. rewrite <- has_key_spec. destruct (has_key ks x); intuition congruence. Qed.
Lemma sorted_insert_in x l y : In y (sorted_insert x l) <-> y = x \/ In y l.
Proof.
  induction l as [|z l IH]; cbn; [intuition|]. destruct (x <? z); cbn; [intuition|]. destruct (Z.eqb_spec x z) as [->|N]; cbn; [intuition|]. rewrite IH. intuition.
Qed.
Lemma sorted_insert_nodup x l : NoDup l -> ~ In x l -> NoDup (sorted_insert x l).
Proof.
  induction 1 as [|z l N U IH]; cbn; intros Nx; [repeat constructor; auto|]. destruct (x <? z); [constructor; [exact Nx|constructor; assumption]|].
  destruct (Z.eqb_spec x z) as [->|Nz]; [constructor; assumption|]. constructor; [rewrite sorted_insert_in; intuition|]. apply IH. intuition.
Qed.
Lemma insert_all_in other : forall mine y, In y (fold_left (fun a x => sorted_insert x a) other mine) <-> In y mine \/ In y other.
Proof. induction other as [|z other IH]; intros mine y; cbn; [tauto|]. rewrite IH, sorted_insert_in. intuition. Qed.

(** * Connectivity *)
Lemma connected_weaken h h' x y : (forall c, In c h -> In c h') -> connected h x y -> connected h' x y.
Proof. intros H. induction 1; [apply conn_refl|eapply conn_pair; eauto|apply conn_sym; assumption|eapply conn_trans; eauto]. Qed.
Lemma connected_snoc h l r v x y : connected (h ++ [(l, r, v)]) x y <->
  connected h x y \/ (connected h x l /\ connected h r y) \/ (connected h x r /\ connected h l y).
Proof.
  split.
  - induction 1 as [x|a b w H|x y _ IH|x y z _ IH1 _ IH2].
    + left. apply conn_refl.
    + apply in_app_iff in H as [H|[H|[]]]; [left; eapply conn_pair; eauto|]. injection H as -> -> ->. right. left. split; apply conn_refl.
    + destruct IH as [H|[[H1 H2]|[H1 H2]]]; [left; apply conn_sym; exact H|right; right|right; left]; split; apply conn_sym; assumption.
    + assert (T := conn_trans h). assert (Sy := conn_sym h).
      destruct IH1 as [H|[[H1 H2]|[H1 H2]]], IH2 as [K|[[K1 K2]|[K1 K2]]]; eauto 8.
  - assert (W : forall a b, connected h a b -> connected (h ++ [(l, r, v)]) a b) by (intros a b; apply connected_weaken; intros c Hc; apply in_app_iff; left; exact Hc).
    assert (P : connected (h ++ [(l, r, v)]) l r) by (eapply conn_pair; apply in_app_iff; right; left; reflexivity).
    intros [H|[[H1 H2]|[H1 H2]]]; [auto| |].
    + eapply conn_trans; [apply W, H1|]. eapply conn_trans; [exact P|auto].
    + eapply conn_trans; [apply W, H1|]. eapply conn_trans; [apply conn_sym, P|auto].
Qed.
Lemma connected_unknown h x y : ~ known h x -> connected h x y -> x = y.
Proof.
  assert (G : forall a b, connected h a b -> (~ known h a -> a = b) /\ (~ known h b -> a = b)).
  { induction 1 as [a|l r v H|a b _ [I1 I2]|a b c _ [I1 I2] _ [J1 J2]].
    - auto.
    - split; intros N; destruct N; exists l, r, v; auto.
    - split; intros N; symmetry; auto.
    - split; intros N; [specialize (I1 N); subst; auto|specialize (J2 N); subst; auto]. }
  intros N H. apply (proj1 (G x y H) N).
Qed.
Lemma known_snoc h l r v x : known (h ++ [(l, r, v)]) x <-> known h x \/ x = l \/ x = r.
Proof.
  unfold known. split.
  - intros (a & b & w & H & E). apply in_app_iff in H as [H|[H|[]]]; [left; exists a, b, w; auto|]. injection H as -> -> ->. right. exact E.
  - intros [(a & b & w & H & E)|E]; [exists a, b, w; rewrite in_app_iff; auto|]. exists l, r, v. rewrite in_app_iff. cbn. auto.
Qed.

(** * Invariant: [s] holds the groups of [h], and [vals x w] says [w] is in the set of [x]. *)
Record ginv (s : group_list) (K : Z -> Prop) (R : Z -> Z -> Prop) (W : Z -> Z -> Prop) : Prop := {
  gi_keys : forall x, In x (gl_keys s) <-> K x;
  gi_nodup : NoDup (gl_keys s);
  gi_comp : forall x, K x -> K (gl_comp s x) /\ gl_comp s (gl_comp s x) = gl_comp s x;
  gi_val : forall x y, K x -> K y -> (gl_val s x = gl_val s y <-> gl_comp s x = gl_comp s y);
  gi_rel : forall x y, K x -> K y -> (gl_comp s x = gl_comp s y <-> R x y);
  gi_next : forall x, K x -> (gl_val s x < gl_next s)%nat;
  gi_heap : forall x, K x -> exists l, gl_heap s (gl_val s x) = Some l /\ forall w, In w l <-> W x w }.

(** A fresh singleton group. *)
Lemma ensure_ok s K R W x v : ginv s K R W -> (forall a b, R a b -> R b a) -> (forall a, R a a) -> (forall a b, R a b -> a = b \/ (K a /\ K b)) ->
  ~ K x -> ginv (ensure_group x v s) (fun y => K y \/ y = x) R (fun y w => if y =? x then w = v else W y w).
Proof.
  intros H Rs Rr Rk Nx. assert (E : has_key (gl_keys s) x = false) by (apply has_key_false; rewrite (gi_keys _ _ _ _ H); exact Nx).
  unfold ensure_group. rewrite E. assert (Ne : forall y, K y -> (y =? x) = false) by (intros y Hy; apply Z.eqb_neq; intros ->; contradiction).
  split; cbn [gl_keys gl_comp gl_val gl_heap gl_next].
  - intros y. rewrite sorted_insert_in, (gi_keys _ _ _ _ H). tauto.
  - apply sorted_insert_nodup; [apply H|]. rewrite (gi_keys _ _ _ _ H). exact Nx.
  - intros y [Hy| ->]; unfold set_at.
    + rewrite (Ne y Hy). destruct (gi_comp _ _ _ _ H y Hy) as [H1 H2]. rewrite (Ne _ H1). auto.
    + rewrite !Z.eqb_refl. auto.
  - intros a b [Ha| ->] [Hb| ->]; unfold set_at; rewrite ?Z.eqb_refl, ?(Ne _ Ha), ?(Ne _ Hb).
    + apply H; assumption.
    + pose proof (gi_next _ _ _ _ H a Ha). destruct (gi_comp _ _ _ _ H a Ha) as [H1 _]. split; intros Q; [lia|]. rewrite Q in H1. contradiction.
    + pose proof (gi_next _ _ _ _ H b Hb). destruct (gi_comp _ _ _ _ H b Hb) as [H1 _]. split; intros Q; [lia|]. rewrite <- Q in H1. contradiction.
    + tauto.
  - intros a b [Ha| ->] [Hb| ->]; unfold set_at; rewrite ?Z.eqb_refl, ?(Ne _ Ha), ?(Ne _ Hb).
    + apply H; assumption.
    + destruct (gi_comp _ _ _ _ H a Ha) as [H1 _]. split; intros Q; [rewrite Q in H1; contradiction|]. destruct (Rk _ _ Q) as [->|[_ ?]]; contradiction.
    + destruct (gi_comp _ _ _ _ H b Hb) as [H1 _]. split; intros Q; [rewrite <- Q in H1; contradiction|]. destruct (Rk _ _ Q) as [->|[? _]]; contradiction.
    + split; auto.
  - intros y [Hy| ->]; unfold set_at; [rewrite (Ne y Hy); pose proof (gi_next _ _ _ _ H y Hy); lia|rewrite Z.eqb_refl; lia].
  - intros y [Hy| ->]; unfold set_at, set_heap.
    + rewrite (Ne y Hy). pose proof (gi_next _ _ _ _ H y Hy). destruct (Nat.eqb_spec (gl_val s y) (gl_next s)); [lia|]. apply H. exact Hy.
    + rewrite Z.eqb_refl, Nat.eqb_refl. exists [v]. split; [reflexivity|]. cbn. intuition.
Qed.
Lemma ensure_known s K R W x v : ginv s K R W -> K x -> ensure_group x v s = s.
Proof. intros H Hx. unfold ensure_group. rewrite (proj2 (has_key_spec _ _)); [reflexivity|]. apply H. exact Hx. Qed.

Lemma ginv_ext s K R W K' R' W' : ginv s K R W -> (forall x, K x <-> K' x) -> (forall x y, K x -> K y -> (R x y <-> R' x y)) ->
  (forall x w, K x -> (W x w <-> W' x w)) -> ginv s K' R' W'.
Proof.
  intros H EK ER EW. split.
  - intros x. rewrite <- EK. apply H.
  - apply H.
  - intros x Hx. rewrite <- EK in *. apply H. exact Hx.
  - intros x y Hx Hy. rewrite <- EK in *. apply H; assumption.
  - intros x y Hx Hy. rewrite <- EK in *. rewrite <- ER by assumption. apply H; assumption.
  - intros x Hx. rewrite <- EK in *. apply H; assumption.
  - intros x Hx. rewrite <- EK in *. destruct (gi_heap _ _ _ _ H x Hx) as (l & E & Hl). exists l. split; [exact E|]. intros w. rewrite Hl. apply EW. exact Hx.
Qed.

(** The two branches of add, for known items. *)
Lemma merge_ok s (K : Z -> Prop) R W l r v : ginv s K R W -> (forall a b, R a b -> R b a) -> (forall a b c, R a b -> R b c -> R a c) ->
  (forall a b w, K a -> K b -> R a b -> (W a w <-> W b w)) -> K l -> K r ->
  exists s', gl_add l r v s = Ok s' /\
    ginv s' K (fun a b => R a b \/ (R a l /\ R r b) \/ (R a r /\ R l b))
      (fun a w => if (gl_val s l =? gl_val s r)%nat then W a w \/ (R a l /\ w = v) else W a w \/ (R a l /\ W r w) \/ (R a r /\ W l w)).
Proof.
  intros H Rs Rt WR Hl Hr. unfold gl_add. rewrite (ensure_known _ _ _ _ l v H Hl), (ensure_known _ _ _ _ r v H Hr).
  assert (Rr : forall a, K a -> R a a) by (intros a Ha; apply (gi_rel _ _ _ _ H a a Ha Ha); reflexivity).
  destruct (gi_heap _ _ _ _ H l Hl) as (ml & El & Hml). destruct (gi_heap _ _ _ _ H r Hr) as (mr & Er & Hmr). unfold deref. rewrite El, Er.
  pose proof (gi_val _ _ _ _ H l r Hl Hr) as Vlr. pose proof (gi_rel _ _ _ _ H l r Hl Hr) as Rlr.
  destruct (Nat.eqb_spec (gl_val s l) (gl_val s r)) as [E|N]; cbn [negb bind].
  - eexists. split; [reflexivity|]. assert (Q : R l r) by tauto. split; cbn [gl_keys gl_comp gl_val gl_heap gl_next]; try apply H.
    + intros a b Ha Hb. rewrite (gi_rel _ _ _ _ H a b Ha Hb). split; [auto|]. intros [X|[[X Y]|[X Y]]]; eauto.
    + intros a Ha. unfold set_heap. destruct (Nat.eqb_spec (gl_val s a) (gl_val s l)) as [Ea|Na].
      * eexists. split; [reflexivity|]. intros w. rewrite sorted_insert_in, Hml.
        assert (Ral : R a l) by (apply (gi_rel _ _ _ _ H a l Ha Hl); apply (gi_val _ _ _ _ H a l Ha Hl); exact Ea).
        rewrite (WR a l w Ha Hl Ral). tauto.
      * destruct (gi_heap _ _ _ _ H a Ha) as (ma & Ea & Hma). exists ma. split; [exact Ea|]. intros w. rewrite Hma. split; [auto|]. intros [X|[X _]]; [exact X|].
        destruct Na. apply (gi_val _ _ _ _ H a l Ha Hl), (gi_rel _ _ _ _ H a l Ha Hl). exact X.
  - assert (Kl : has_key (gl_keys s) l = true) by (apply has_key_spec; apply H; exact Hl). assert (Kr : has_key (gl_keys s) r = true) by (apply has_key_spec; apply H; exact Hr).
    rewrite Kl, Kr, !Z.eqb_refl, Bool.orb_true_r. cbn [andb orb]. rewrite Nat.eqb_refl. cbn [cassert bind]. eexists. split; [reflexivity|].
    assert (KH : forall a, K a -> has_key (gl_keys s) a = true) by (intros a Ha; apply has_key_spec; apply H; exact Ha).
    set (mv := fun a => (gl_comp s a =? gl_comp s l) || (gl_comp s a =? gl_comp s r)).
    assert (MV : forall a, K a -> mv a = true <-> R a l \/ R a r).
    { intros a Ha. unfold mv. rewrite Bool.orb_true_iff, !Z.eqb_eq, (gi_rel _ _ _ _ H a l Ha Hl), (gi_rel _ _ _ _ H a r Ha Hr). tauto. }
    assert (NM : forall a, K a -> mv a = false -> ~ R a l /\ ~ R a r) by (intros a Ha E; split; intros X; assert (mv a = true) by (apply MV; auto); congruence).
    assert (Lm : mv l = true) by (apply MV; auto).
    assert (NV : forall a, K a -> mv a = false -> gl_val s a <> gl_val s l /\ gl_val s a <> gl_val s r).
    { intros a Ha E. destruct (NM a Ha E) as [N1 N2]. split; intros X; [apply N1|apply N2]; apply (gi_rel _ _ _ _ H); auto; apply (gi_val _ _ _ _ H); auto. }
    split; cbn [gl_keys gl_comp gl_val gl_heap gl_next]; try apply H.
    + intros a Ha. rewrite (KH a Ha). fold (mv a). cbn [andb]. destruct (mv a) eqn:Ea.
      * rewrite Kl. fold (mv l). rewrite Lm. cbn [andb]. auto.
      * destruct (gi_comp _ _ _ _ H a Ha) as [H1 H2]. rewrite (KH _ H1). fold (mv (gl_comp s a)). cbn [andb].
        assert (E' : mv (gl_comp s a) = false) by (unfold mv in *; rewrite H2; exact Ea). rewrite E'. auto.
    + intros a b Ha Hb. rewrite (KH a Ha), (KH b Hb). fold (mv a) (mv b). cbn [andb]. destruct (mv a) eqn:Ea, (mv b) eqn:Eb.
      * tauto.
      * destruct (NV b Hb Eb) as [N1 _]. destruct (gi_comp _ _ _ _ H b Hb) as [H1 H2].
        split; intros X; [congruence|]. exfalso. assert (mv l = mv b) by (unfold mv; rewrite X, H2; reflexivity). congruence.
      * destruct (NV a Ha Ea) as [N1 _]. destruct (gi_comp _ _ _ _ H a Ha) as [H1 H2].
        split; intros X; [congruence|]. exfalso. assert (mv l = mv a) by (unfold mv; rewrite <- X, H2; reflexivity). congruence.
      * apply H; assumption.
    + intros a b Ha Hb. rewrite (KH a Ha), (KH b Hb). fold (mv a) (mv b). cbn [andb]. destruct (mv a) eqn:Ea, (mv b) eqn:Eb.
      * apply MV in Ea, Eb; auto. split; [intros _|reflexivity]. destruct Ea as [Ea|Ea], Eb as [Eb|Eb]; eauto 8.
      * destruct (NM b Hb Eb) as [N1 N2]. destruct (gi_comp _ _ _ _ H b Hb) as [H1 H2]. split; intros X.
        -- exfalso. assert (mv l = mv b) by (unfold mv; rewrite X, H2; reflexivity). congruence.
        -- exfalso. apply MV in Ea; auto. destruct X as [X|[[X Y]|[X Y]]], Ea as [Ea|Ea]; eauto 6.
      * destruct (NM a Ha Ea) as [N1 N2]. destruct (gi_comp _ _ _ _ H a Ha) as [H1 H2]. split; intros X.
        -- exfalso. assert (mv l = mv a) by (unfold mv; rewrite <- X, H2; reflexivity). congruence.
        -- exfalso. apply MV in Eb; auto. destruct X as [X|[[X Y]|[X Y]]], Eb as [Eb|Eb]; eauto 6.
      * rewrite (gi_rel _ _ _ _ H a b Ha Hb). destruct (NM a Ha Ea) as [N1 N2]. tauto.
    + intros a Ha. rewrite (KH a Ha). fold (mv a). cbn [andb]. destruct (mv a); apply H; assumption.
    + intros a Ha. rewrite (KH a Ha). fold (mv a). cbn [andb]. unfold set_heap. destruct (mv a) eqn:Ea.
      * destruct (Nat.eqb_spec (gl_val s l) (gl_val s r)); [contradiction|]. rewrite Nat.eqb_refl. eexists. split; [reflexivity|]. intros w.
        rewrite insert_all_in, Hml, Hmr. apply MV in Ea; [|exact Ha].
        assert (X : forall b c, K b -> R b c -> K c -> (W b w <-> W c w)) by (intros b c Hb Rb Hc; apply WR; assumption).
        destruct Ea as [Ea|Ea]; [rewrite (X a l Ha Ea Hl)|rewrite (X a r Ha Ea Hr)]; split; try tauto; intros [Y|[[Y1 Y2]|[Y1 Y2]]]; tauto.
      * destruct (NV a Ha Ea) as [N1 N2]. destruct (Nat.eqb_spec (gl_val s a) (gl_val s r)); [contradiction|]. destruct (Nat.eqb_spec (gl_val s a) (gl_val s l)); [contradiction|].
        destruct (gi_heap _ _ _ _ H a Ha) as (ma & E1 & Hma). exists ma. split; [exact E1|]. intros w. rewrite Hma. destruct (NM a Ha Ea). tauto.
Qed.

Lemma ensure_any s K R W x v : ginv s K R W -> (forall a b, R a b -> R b a) -> (forall a, R a a) -> (forall a b, R a b -> a = b \/ (K a /\ K b)) -> (forall a w, W a w -> K a) ->
  (K x /\ ensure_group x v s = s) \/ (~ K x /\ ginv (ensure_group x v s) (fun y => K y \/ y = x) R (fun y w => W y w \/ (y = x /\ w = v))).
Proof.
  intros H Rs Rr Rk Wk. destruct (has_key (gl_keys s) x) eqn:E.
  - left. split; [apply H, has_key_spec; exact E|]. unfold ensure_group. rewrite E. reflexivity.
  - assert (Nx : ~ K x) by (rewrite <- (gi_keys _ _ _ _ H); apply has_key_false; exact E). right. split; [exact Nx|].
    eapply ginv_ext; [apply (ensure_ok s K R W x v H Rs Rr Rk Nx)|tauto|tauto|]. intros y w Hy. cbn. destruct (Z.eqb_spec y x) as [->|N].
    + split; [auto|]. intros [X|[_ X]]; [destruct (Nx (Wk _ _ X))|exact X].
    + tauto.
Qed.

Lemma connected_known h a b : connected h a b -> a = b \/ (known h a /\ known h b).
Proof.
  induction 1 as [a|l r v H|a b _ IH|a b c _ IH1 _ IH2].
  - auto.
  - right. split; exists l, r, v; auto.
  - destruct IH as [->|[? ?]]; auto.
  - destruct IH1 as [->|[? ?]]; [exact IH2|]. destruct IH2 as [<-|[? ?]]; auto.
Qed.
Lemma given_kept_known h a w : given_kept h a w -> known h a.
Proof.
  intros (h1 & l & r & h2 & -> & C & _). destruct (connected_known _ _ _ C) as [->|[? _]]; [|assumption].
  exists l, r, w. rewrite in_app_iff. cbn. auto.
Qed.
Lemma given_kept_conn h a b w : connected h a b -> given_kept h a w -> given_kept h b w.
Proof. intros C (h1 & l & r & h2 & E & C' & N). exists h1, l, r, h2. split; [exact E|]. split; [|exact N]. eapply conn_trans; [apply conn_sym; exact C|exact C']. Qed.
Lemma given_kept_snoc h l r v x w : given_kept (h ++ [(l, r, v)]) x w <->
  given_kept h x w \/ (connected h x l /\ given_kept h r w) \/ (connected h x r /\ given_kept h l w) \/
  (w = v /\ (connected h x l \/ connected h x r) /\ ~ (known h l /\ known h r /\ ~ connected h l r)).
Proof.
  split.
  - intros (h1 & a & b & h2 & E & C & N). destruct h2 as [|c2 h2] using rev_ind.
    + apply app_inj_tail in E as [<- E]. injection E as -> -> ->. right. right. right. split; [reflexivity|]. split; [|exact N].
      apply connected_snoc in C as [C|[[C _]|[C _]]]; auto.
    + clear IHh2. replace (h1 ++ (a, b, w) :: h2 ++ [c2]) with ((h1 ++ (a, b, w) :: h2) ++ [c2]) in E by (rewrite <- app_assoc; reflexivity).
      apply app_inj_tail in E as [-> <-].
      assert (G : forall y, connected (h1 ++ (a, b, w) :: h2) y a -> given_kept (h1 ++ (a, b, w) :: h2) y w) by (intros y Hy; exists h1, a, b, h2; auto).
      apply connected_snoc in C as [C|[[C1 C2]|[C1 C2]]]; [left; auto|right; left|right; right; left]; auto.
  - assert (M : forall y, given_kept h y w -> connected (h ++ [(l, r, v)]) x y -> given_kept (h ++ [(l, r, v)]) x w).
    { intros y (h1 & a & b & h2 & E & C & N) Cy. exists h1, a, b, (h2 ++ [(l, r, v)]). split; [rewrite E, <- app_assoc; reflexivity|]. split; [|exact N].
      eapply conn_trans; [exact Cy|]. apply connected_snoc. auto. }
    intros [G|[[C G]|[[C G]|(-> & C & N)]]].
    + apply (M x G). apply conn_refl.
    + apply (M r G). apply connected_snoc. right. left. split; [exact C|apply conn_refl].
    + apply (M l G). apply connected_snoc. right. right. split; [exact C|apply conn_refl].
    + exists h, l, r, []. split; [reflexivity|]. split; [|exact N]. apply connected_snoc. destruct C as [C|C]; [auto|]. right. right. split; [exact C|apply conn_refl].
Qed.

Lemma add_ok h s l r v : ginv s (known h) (connected h) (given_kept h) ->
  exists s', gl_add l r v s = Ok s' /\ ginv s' (known (h ++ [(l, r, v)])) (connected (h ++ [(l, r, v)])) (given_kept (h ++ [(l, r, v)])).
Proof.
  intros H. assert (Rs := conn_sym h). assert (Rr := conn_refl h). assert (Rt := conn_trans h).
  (* the state after both ensure steps *)
  assert (X : exists W, ginv (ensure_group r v (ensure_group l v s)) (fun y => known h y \/ y = l \/ y = r) (connected h) W /\
              (forall a w, W a w <-> given_kept h a w \/ (w = v /\ ((a = l /\ ~ known h l) \/ (a = r /\ ~ known h r))))).
  { destruct (ensure_any s _ _ _ l v H Rs Rr (connected_known h) (given_kept_known h)) as [[Kl El]|[Nl Hl]].
    - rewrite El. destruct (ensure_any s _ _ _ r v H Rs Rr (connected_known h) (given_kept_known h)) as [[Kr Er]|[Nr Hr]].
      + rewrite Er. eexists. split; [eapply ginv_ext; [exact H|..]|].
        * intros x. split; [auto|]. intros [?|[->| ->]]; assumption.
        * intros; tauto.
        * intros x w _. apply iff_refl.
        * intros a w. cbn. tauto.
      + eexists. split; [eapply ginv_ext; [exact Hr|..]|].
        * intros x. split; [tauto|]. intros [?|[->| ->]]; auto.
        * intros; tauto.
        * intros x w _. apply iff_refl.
        * intros a w. cbn. intuition.
    - destruct (ensure_any _ _ _ _ r v Hl Rs Rr) as [[Kr Er]|[Nr Hr]].
      + intros a b C. destruct (connected_known _ _ _ C) as [|[? ?]]; auto.
      + intros a w [G|[-> _]]; [left; eapply given_kept_known; eauto|auto].
      + rewrite Er. eexists. split; [eapply ginv_ext; [exact Hl|..]|].
        * intros x. split; [tauto|]. intros [?|[->| ->]]; auto.
        * intros; tauto.
        * intros x w _. apply iff_refl.
        * intros a w. cbn. destruct Kr as [Kr| ->]; intuition.
      + eexists. split; [eapply ginv_ext; [exact Hr|..]|].
        * intros x. tauto.
        * intros; tauto.
        * intros x w _. apply iff_refl.
        * intros a w. cbn. intuition. }
  destruct X as (W & HX & HW). set (s1 := ensure_group r v (ensure_group l v s)) in *.
  assert (Kl : known h l \/ l = l \/ l = r) by auto. assert (Kr : known h r \/ r = l \/ r = r) by auto.
  destruct (merge_ok s1 _ _ _ l r v HX Rs Rt) as (s' & E & Hs'); [|exact Kl|exact Kr|].
  { intros a b w Ha Hb C. rewrite !HW. assert (G : forall a b, connected h a b -> (given_kept h a w <-> given_kept h b w)) by (intros x y Cx; split; apply given_kept_conn; auto).
    rewrite (G a b C). assert (U : forall x y z, connected h x y -> x = z /\ ~ known h z -> y = z /\ ~ known h z).
    { intros x y z Cx [-> N]. split; [symmetry; eapply connected_unknown; eauto|exact N]. }
    assert (U1 := U a b l C). assert (U2 := U a b r C). assert (U3 := U b a l (Rs _ _ C)). assert (U4 := U b a r (Rs _ _ C)). tauto. }
  exists s'. split.
  - rewrite <- E. unfold gl_add. fold s1. rewrite (ensure_known s1 _ _ _ l v HX Kl), (ensure_known s1 _ _ _ r v HX Kr). reflexivity.
  - eapply ginv_ext; [exact Hs'|..].
    + intros x. rewrite known_snoc. tauto.
    + intros x y _ _. rewrite connected_snoc. tauto.
    + intros x w Kx. rewrite given_kept_snoc. cbn beta. pose proof (gi_val _ _ _ _ HX l r Kl Kr) as V1. pose proof (gi_rel _ _ _ _ HX l r Kl Kr) as V2.
      destruct (Nat.eqb_spec (gl_val s1 l) (gl_val s1 r)) as [Ev|Nv]; rewrite !HW.
      * assert (C : connected h l r) by tauto.
        assert (Cx : connected h x r <-> connected h x l) by (split; intros Q; eapply Rt; [exact Q|apply Rs; exact C|exact Q|exact C]).
        rewrite Cx. assert (G1 : connected h x l -> given_kept h r w -> given_kept h x w).
        { intros Q. apply given_kept_conn. apply Rs. eapply Rt; eauto. }
        assert (G2 : connected h x l -> given_kept h l w -> given_kept h x w) by (intros Q; apply given_kept_conn, Rs, Q).
        split.
        -- intros [[G|(-> & [[-> N]|[-> N]])]|[Q ->]]; [auto| | |].
           ++ right. right. right. split; [reflexivity|]. split; [left; apply Rr|tauto].
           ++ right. right. right. split; [reflexivity|]. split; [left; apply Rs; exact C|tauto].
           ++ right. right. right. split; [reflexivity|]. split; [left; exact Q|tauto].
        -- intros [G|[[Q G]|[[Q G]|(-> & [Q|Q] & N)]]]; auto.
      * assert (C : ~ connected h l r) by tauto. split.
        -- intros [[G|(-> & [[-> N]|[-> N]])]|[[Q [G|(-> & [[E1 N]|[_ N]])]]|[Q [G|(-> & [[_ N]|[E1 N]])]]]].
           ++ auto.
           ++ right. right. right. split; [reflexivity|]. split; [left; apply Rr|tauto].
           ++ right. right. right. split; [reflexivity|]. split; [right; apply Rr|tauto].
           ++ auto.
           ++ subst r. destruct C. apply Rr.
           ++ right. right. right. split; [reflexivity|]. split; [left; exact Q|tauto].
           ++ auto.
           ++ right. right. right. split; [reflexivity|]. split; [right; exact Q|tauto].
           ++ subst r. destruct C. apply Rr.
        -- intros [G|[[Q G]|[[Q G]|(-> & Q & N)]]]; [auto|auto|auto|].
           assert (D : ~ known h l \/ ~ known h r).
           { destruct (has_key (gl_keys s) l) eqn:E1; [|left; rewrite <- (gi_keys _ _ _ _ H); apply has_key_false; exact E1].
             destruct (has_key (gl_keys s) r) eqn:E2; [|right; rewrite <- (gi_keys _ _ _ _ H); apply has_key_false; exact E2].
             exfalso. apply N. apply has_key_spec in E1, E2. split; [apply H; exact E1|]. split; [apply H; exact E2|exact C]. }
           destruct D as [D|D], Q as [Q|Q].
           ++ assert (x = l) by (symmetry; eapply connected_unknown; eauto). subst x. left. right. auto.
           ++ right. right. split; [exact Q|]. right. auto.
           ++ right. left. split; [exact Q|]. right. auto.
           ++ assert (x = r) by (symmetry; eapply connected_unknown; eauto). subst x. left. right. auto.
Qed.

Lemma run_ok h : forall h0 s, ginv s (known h0) (connected h0) (given_kept h0) ->
  exists s', gl_run h s = Ok s' /\ ginv s' (known (h0 ++ h)) (connected (h0 ++ h)) (given_kept (h0 ++ h)).
Proof.
  induction h as [|[[l r] v] h IH]; intros h0 s H; cbn [gl_run].
  - exists s. rewrite app_nil_r. auto.
  - destruct (add_ok h0 s l r v H) as (s1 & E & H1). rewrite E. cbn [bind]. destruct (IH _ s1 H1) as (s2 & E2 & H2). exists s2. split; [exact E2|].
    rewrite <- app_assoc in H2. exact H2.
Qed.
Lemma empty_ok : ginv gl_empty (known []) (connected []) (given_kept []).
Proof.
  assert (N : forall x, ~ known [] x) by (intros x (l & r & v & [] & _)).
  split; cbn; try (intros x Hx; destruct (N x Hx)); try (intros x y Hx; destruct (N x Hx)).
  - intros x. split; [intros []|apply N].
  - constructor.
Qed.

(** What getall returns: one representative and set per group. *)
Lemma collect_ok s K R W ks : ginv s K R W -> (forall x, In x ks -> K x) -> NoDup ks ->
  exists sets, gl_collect s ks = Ok sets /\
    Forall2 (fun rep set => forall w, In w set <-> W rep w) (filter (fun x => x =? gl_comp s x) ks) sets.
Proof.
  intros H. induction ks as [|x ks IH]; intros Hk U; cbn [gl_collect filter].
  - exists []. split; [reflexivity|constructor].
  - inversion U; subst. destruct IH as (sets & E & F); [intros y Hy; apply Hk; right; exact Hy|assumption|]. destruct (x =? gl_comp s x).
    + destruct (gi_heap _ _ _ _ H x (Hk x (or_introl eq_refl))) as (m & Em & Hm). unfold deref. rewrite Em. cbn [bind]. rewrite E. cbn [bind]. exists (m :: sets).
      split; [reflexivity|]. constructor; assumption.
    + exists sets. split; assumption.
Qed.

Lemma getall_ok h : exists s sets reps, gl_run h gl_empty = Ok s /\ gl_getall s = Ok sets /\
  (forall x, known h x -> exists rep, In rep reps /\ connected h x rep) /\
  (forall i j a b, nth_error reps i = Some a -> nth_error reps j = Some b -> connected h a b -> i = j) /\
  (forall rep, In rep reps -> known h rep) /\
  Forall2 (fun rep set => forall w, In w set <-> given_kept h rep w) reps sets.
Proof.
  destruct (run_ok h [] gl_empty empty_ok) as (s & E & H). cbn [app] in H. exists s. unfold gl_getall.
  destruct (collect_ok s _ _ _ (gl_keys s) H) as (sets & Es & F); [intros x; apply H|apply H|].
  set (reps := filter (fun x => x =? gl_comp s x) (gl_keys s)) in *. exists sets, reps.
  assert (IR : forall x, In x reps <-> known h x /\ gl_comp s x = x).
  { intros x. unfold reps. rewrite filter_In, Z.eqb_eq, (gi_keys _ _ _ _ H). intuition. }
  split; [exact E|]. split; [exact Es|]. split; [|split; [|split; [|exact F]]].
  - intros x Hx. destruct (gi_comp _ _ _ _ H x Hx) as [H1 H2]. exists (gl_comp s x). split; [apply IR; auto|].
    apply (gi_rel _ _ _ _ H x _ Hx H1). symmetry. exact H2.
  - intros i j a b Ea Eb C. assert (U : NoDup reps) by (apply NoDup_filter, H).
    assert (Ia : In a reps) by (eapply nth_error_In; eauto). assert (Ib : In b reps) by (eapply nth_error_In; eauto). apply IR in Ia as [Ka Ca]. apply IR in Ib as [Kb Cb].
    assert (a = b) by (apply (gi_rel _ _ _ _ H a b Ka Kb) in C; congruence). subst b.
    apply (proj1 (NoDup_nth_error reps) U); [apply nth_error_Some; congruence|congruence].
  - intros rep Hr. apply IR. exact Hr.
Qed.

Lemma given_kept_given h x w : given_kept h x w -> given h x w.
Proof. intros (h1 & l & r & h2 & -> & C & _). exists l, r. split; [|exact C]. rewrite in_app_iff. cbn. auto. Qed.
(** The call that made the first mention of an item of the component of [x] is kept. *)
Lemma given_kept_some h x : known h x -> exists w, given_kept h x w.
Proof.
  induction h as [|[[l r] v] h IH] using rev_ind.
  - intros (l & r & v & [] & _).
  - intros K. apply known_snoc in K. assert (D : forall y, {known h y} + {~ known h y}).
    { intros y. destruct (in_dec Z.eq_dec y (flat_map (fun c => [fst (fst c); snd (fst c)]) h)) as [I|I]; [left|right].
      - apply in_flat_map in I as ([[a b] w] & Hc & I). exists a, b, w. cbn in I. intuition.
      - intros (a & b & w & Hc & E). apply I, in_flat_map. exists (a, b, w). split; [exact Hc|]. cbn. intuition. }
    destruct (D x) as [Kx|Nx].
    + destruct (IH Kx) as [w G]. exists w. apply given_kept_snoc. auto.
    + assert (E : x = l \/ x = r) by tauto. exists v. apply given_kept_snoc. right. right. right. split; [reflexivity|].
      split; [destruct E as [->| ->]; [left|right]; apply conn_refl|]. destruct E as [->| ->]; tauto.
Qed.
Lemma groups_are_components h : exists s sets reps, gl_run h gl_empty = Ok s /\ gl_getall s = Ok sets /\
  (forall x, known h x -> exists rep, In rep reps /\ connected h x rep) /\
  (forall i j a b, nth_error reps i = Some a -> nth_error reps j = Some b -> connected h a b -> i = j) /\
  (forall rep, In rep reps -> known h rep) /\
  Forall2 (fun rep set => set <> [] /\ forall w, In w set -> given h rep w) reps sets.
Proof.
  destruct (getall_ok h) as (s & sets & reps & E & G & A & B & C & F). exists s, sets, reps. repeat (split; [assumption|]).
  clear - F C. induction F as [|rep set reps sets H F IH]; constructor.
  - split; [|intros w Hw; apply given_kept_given, H, Hw]. destruct (given_kept_some h rep) as [w Hw]; [apply C; left; reflexivity|]. apply H in Hw. intros ->. destruct Hw.
  - apply IH. intros r Hr. apply C. right. exact Hr.
Qed.
