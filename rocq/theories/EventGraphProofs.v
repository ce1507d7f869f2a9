From Coq Require Import QArith Lqa Lia.
From Verif Require Import Base Graph KPeriodic KPeriodicSpec EventGraph EventGraphSpec.
Open Scope Z_scope.

Lemma event_eqb_eq a b : event_eqb a b = true <-> a = b.
Proof.
  unfold event_eqb. destruct a, b; cbn. rewrite !andb_true_iff, !Z.eqb_eq. split.
  - intros [[-> ->] ->]. reflexivity.
  - intros E. injection E as -> -> ->. auto.
Qed.
Lemma event_eqb_refl a : event_eqb a a = true.
Proof. apply event_eqb_eq. reflexivity. Qed.

Lemma event_dec (a b : event) : {a = b} + {a <> b}.
Proof. decide equality; apply Z.eq_dec. Qed.

Lemma path_app : forall l1 l2 u v, path u (l1 ++ l2) v <-> exists m, path u l1 m /\ path m l2 v.
Proof.
  induction l1; intros l2 u v; cbn.
  - split. { intros H; exists u; auto. } intros (m & -> & H); exact H.
  - rewrite IHl1. split.
    + intros (H & m & H1 & H2). exists m; auto.
    + intros (m & (H & H1) & H2). split; [auto|]. exists m; auto.
Qed.

Lemma sumQ_cons f c l : sumQ f (c :: l) = (f c + sumQ f l)%Q. Proof. reflexivity. Qed.
Lemma sumQ_nil f : sumQ f [] = 0%Q. Proof. reflexivity. Qed.
Lemma sumQ_app f l1 l2 : (sumQ f (l1 ++ l2) == sumQ f l1 + sumQ f l2)%Q.
Proof. induction l1. { rewrite sumQ_nil. simpl app. lra. } rewrite <- app_comm_cons, !sumQ_cons. lra. Qed.
Lemma sumQ_flow omega l : (sumQ (flow omega) l == sumQ c_d l - omega * sumQ c_w l)%Q.
Proof. induction l. { rewrite !sumQ_nil; lra. } rewrite !sumQ_cons. unfold flow at 1. lra. Qed.

(** Vertices visited by a path, its start included. *)
Fixpoint visited (u : event) (l : list constraint) : list event :=
  match l with [] => [u] | c :: l' => u :: visited (c_target c) l' end.
Lemma visited_length : forall l u, length (visited u l) = S (length l).
Proof. induction l; cbn; intros; auto. Qed.

Lemma visited_in : forall l u v x, path u l v -> In x (visited u l) ->
  exists l1 l2, l = l1 ++ l2 /\ path u l1 x /\ path x l2 v.
Proof.
  induction l; cbn; intros u v x Hp Hx.
  - destruct Hx as [->|[]]. exists [], []. cbn. auto.
  - destruct Hp as [Hs Hp]. destruct Hx as [->|Hx].
    + exists [], (a :: l). cbn. auto.
    + destruct (IHl _ _ _ Hp Hx) as (l1 & l2 & -> & H1 & H2). exists (a :: l1), l2. cbn. auto.
Qed.

Lemma visited_dup : forall l u v, path u l v -> ~ NoDup (visited u l) ->
  exists l1 l2 l3 x, l = l1 ++ l2 ++ l3 /\ l2 <> [] /\ path u l1 x /\ path x l2 x /\ path x l3 v.
Proof.
  induction l; intros u v Hp Hd.
  - exfalso. apply Hd. constructor; [intros []|constructor].
  - cbn in Hp. destruct Hp as [Hs Hp].
    destruct (in_dec event_dec u (visited (c_target a) l)) as [Hin|Hin].
    + destruct (visited_in _ _ _ _ Hp Hin) as (l1 & l2 & -> & H1 & H2).
      exists [], (a :: l1), l2, u. cbn. repeat split; auto. discriminate.
    + destruct (IHl _ _ Hp) as (l1 & l2 & l3 & x & -> & Hne & H1 & H2 & H3).
      { intros Hn. apply Hd. cbn. constructor; auto. }
      exists (a :: l1), l2, l3, x. cbn. auto.
Qed.

Section BF.
Variables (evs : list event) (cs : list constraint) (omega : Q).
Hypothesis Hclosed : closed evs cs.

Lemma path_visited_incl : forall l u v, incl l cs -> path u l v -> l <> [] -> incl (visited u l) evs.
Proof.
  induction l; intros u v Hi Hp Hne; [congruence|]. cbn in *. destruct Hp as [<- Hp].
  assert (Ha : In a cs) by (apply Hi; left; auto). destruct (Hclosed a Ha) as [Hs Ht].
  intros x [<-|Hx]; [exact Hs|]. destruct l.
  - cbn in Hx. destruct Hx as [<-|[]]. exact Ht.
  - apply (IHl (c_target a) v); auto. { intros y Hy; apply Hi; right; auto. } discriminate.
Qed.

Lemma shorten : circuits_fit cs omega -> forall n l u v, (length l <= n)%nat -> incl l cs -> path u l v ->
  exists l', incl l' cs /\ path u l' v /\ (l' = [] \/ (length l' < length evs)%nat) /\
             (sumQ (flow omega) l <= sumQ (flow omega) l')%Q.
Proof.
  intros Hfit. induction n; intros l u v Hn Hi Hp.
  { destruct l; [|cbn in Hn; lia]. exists []. repeat split; auto. apply Qle_refl. }
  destruct l as [|c l0]; [exists []; repeat split; auto; apply Qle_refl|].
  set (l := c :: l0) in *.
  destruct (lt_dec (length l) (length evs)).
  { exists l. split; [auto|split; [auto|split; [auto|apply Qle_refl]]]. }
  assert (Hd : ~ NoDup (visited u l)).
  { intros Hnd. pose proof (NoDup_incl_length Hnd (path_visited_incl l u v Hi Hp ltac:(discriminate))) as Hl.
    rewrite visited_length in Hl. lia. }
  destruct (visited_dup _ _ _ Hp Hd) as (l1 & l2 & l3 & x & E & Hne & H1 & H2 & H3).
  destruct (IHn (l1 ++ l3) u v) as (l' & Hi' & Hp' & Hs' & Hle).
  - rewrite E in Hn. rewrite !app_length in *. destruct l2; [congruence|]. cbn in Hn. lia.
  - intros y Hy. apply Hi. rewrite E. apply in_app_or in Hy. apply in_or_app.
    destruct Hy; [left; auto|right; apply in_or_app; right; auto].
  - apply path_app. exists x; auto.
  - exists l'. split; [auto|split; [auto|split; [auto|]]]. rewrite E. rewrite !sumQ_app.
    rewrite sumQ_app in Hle.
    assert (Hc : (sumQ (flow omega) l2 <= 0)%Q).
    { rewrite sumQ_flow. assert (Hcc : circuit cs l2).
      { split; auto. split; [|exists x; auto]. intros y Hy; apply Hi. rewrite E.
        apply in_or_app; right; apply in_or_app; left; auto. }
      specialize (Hfit l2 Hcc). lra. }
    lra.
Qed.

(** Relaxation. *)
Definition realises (S : event -> Q) : Prop :=
  forall v, exists u l, incl l cs /\ path u l v /\ (S v == sumQ (flow omega) l)%Q.
Definition covers (n : nat) (S : event -> Q) : Prop :=
  forall u l v, incl l cs -> path u l v -> (length l <= n)%nat -> (sumQ (flow omega) l <= S v)%Q.

Lemma relax_mono c S b S' b' : relax omega c (S, b) = (S', b') -> forall x, (S x <= S' x)%Q.
Proof.
  unfold relax. destruct (Qle_bool _ _) eqn:E; cbn; intros H; injection H as <- <-; intros x; [apply Qle_refl|].
  unfold set_start. destruct (event_eqb x (c_target c)) eqn:Ex; [|apply Qle_refl].
  apply event_eqb_eq in Ex. subst x.
  assert (~ (flow omega c <= S (c_target c) - S (c_source c))%Q) by (rewrite <- Qle_bool_iff; congruence). lra.
Qed.
Lemma relax_sat c S b S' b' : relax omega c (S, b) = (S', b') -> (flow omega c + S (c_source c) <= S' (c_target c))%Q.
Proof.
  unfold relax. destruct (Qle_bool _ _) eqn:E; cbn; intros H; injection H as <- <-.
  - apply Qle_bool_iff in E. lra.
  - unfold set_start. rewrite event_eqb_refl. apply Qle_refl.
Qed.
Lemma relax_real c S b S' b' : In c cs -> relax omega c (S, b) = (S', b') -> realises S -> realises S'.
Proof.
  unfold relax. destruct (Qle_bool _ _) eqn:E; cbn; intros Hc H; injection H as <- <-; intros Hr; auto.
  intros v. unfold set_start. destruct (event_eqb v (c_target c)) eqn:Ex; [|apply Hr].
  apply event_eqb_eq in Ex. subst v. destruct (Hr (c_source c)) as (u & l & Hi & Hp & Hs).
  exists u, (l ++ [c]). split; [|split].
  - intros y Hy. apply in_app_or in Hy as [Hy|[<-|[]]]; auto.
  - apply path_app. exists (c_source c). cbn. auto.
  - rewrite sumQ_app, sumQ_cons, sumQ_nil. lra.
Qed.
Lemma relax_quiet c S b S' : relax omega c (S, b) = (S', false) ->
  b = false /\ S' = S /\ (flow omega c + S (c_source c) <= S (c_target c))%Q.
Proof.
  unfold relax. destruct (Qle_bool _ _) eqn:E; cbn; intros H; injection H as <- ?; [|discriminate].
  apply Qle_bool_iff in E. subst. split; auto. split; auto. lra.
Qed.

Lemma pass_props order : incl order cs -> forall S b S' b',
  fold_left (fun st c => relax omega c st) order (S, b) = (S', b') ->
  (forall x, (S x <= S' x)%Q) /\
  (forall c, In c order -> (flow omega c + S (c_source c) <= S' (c_target c))%Q) /\
  (realises S -> realises S') /\
  (b' = false -> b = false /\ S' = S /\ forall c, In c order -> (flow omega c + S (c_source c) <= S (c_target c))%Q).
Proof.
  induction order as [|c order IH]; cbn [fold_left In]; intros Hi S b S' b' H.
  - injection H as <- <-. repeat split; auto; [intros; apply Qle_refl|contradiction|contradiction].
  - destruct (relax omega c (S, b)) as [S1 b1] eqn:E.
    destruct (IH ltac:(intros y Hy; apply Hi; right; auto) _ _ _ _ H) as (M & C & R & Q).
    pose proof (relax_mono _ _ _ _ _ E) as M1. pose proof (relax_sat _ _ _ _ _ E) as C1.
    split; [|split; [|split]].
    + intros x. eapply Qle_trans; [apply M1|apply M].
    + intros c' [<-|Hc].
      * eapply Qle_trans; [exact C1|apply M].
      * specialize (C c' Hc). specialize (M1 (c_source c')). lra.
    + intros Hr. apply R. eapply relax_real; eauto. apply Hi; left; auto.
    + intros Hb. destruct (Q Hb) as (-> & E2 & C2).
      destruct (relax_quiet _ _ _ _ E) as (-> & E3 & C3). subst S1. subst S'.
      split; auto. split; auto. intros c' [<-|Hc]; auto.
Qed.

Lemma pass_order_in c : In c (pass_order evs cs) <-> In c cs.
Proof.
  unfold pass_order. rewrite in_flat_map. split.
  - intros (e & _ & H). apply filter_In in H. tauto.
  - intros H. exists (c_source c). split; [apply (Hclosed c H)|]. apply filter_In. split; auto. apply event_eqb_refl.
Qed.

Definition all_sat (S : event -> Q) : Prop := forall c, In c cs -> satisfies omega S c.

Lemma covers_step n S S' : covers n S -> (forall x, (S x <= S' x)%Q) ->
  (forall c, In c cs -> (flow omega c + S (c_source c) <= S' (c_target c))%Q) -> covers (Datatypes.S n) S'.
Proof.
  intros Hc M C u l v Hi Hp Hl.
  destruct (le_lt_dec (length l) n). { eapply Qle_trans; [|apply M]. eapply Hc; eauto. }
  destruct (@exists_last _ l) as (lo & c & ->). { destruct l; [cbn in *; lia|discriminate]. }
  apply path_app in Hp as (m & Hp1 & Hp2). cbn in Hp2. destruct Hp2 as [<- <-].
  rewrite app_length in Hl. cbn in Hl.
  assert (Hc0 : In c cs) by (apply Hi; apply in_or_app; right; left; auto).
  assert (H1 := Hc u lo (c_source c) ltac:(intros y Hy; apply Hi; apply in_or_app; auto) Hp1 ltac:(lia)).
  specialize (C c Hc0). rewrite sumQ_app, sumQ_cons, sumQ_nil. lra.
Qed.

Lemma passes_spec order : incl order cs -> incl cs order -> forall k S n, realises S -> covers n S ->
  realises (passes omega order k S) /\
  (all_sat (passes omega order k S) \/ covers (n + k) (passes omega order k S)) /\
  (forall x, (S x <= passes omega order k S x)%Q).
Proof.
  intros Hi Hi'. induction k; cbn; intros S n Hr Hc.
  { split; auto. split; [right; rewrite Nat.add_0_r; auto|intros; apply Qle_refl]. }
  destruct (one_pass omega order S) as [S' b] eqn:E. unfold one_pass in E.
  destruct (pass_props order Hi _ _ _ _ E) as (M & C & R & Q). destruct b.
  - destruct (IHk S' (Datatypes.S n) (R Hr)) as (R' & D & M').
    { eapply covers_step; eauto. }
    split; auto. split.
    + destruct D as [D|D]; [left; auto|right]. replace (n + Datatypes.S k)%nat with (Datatypes.S n + k)%nat by lia. auto.
    + intros x. eapply Qle_trans; [apply M|apply M'].
  - destruct (Q eq_refl) as (_ & -> & C2). split; auto. split; [left|intros; apply Qle_refl].
    intros c Hin. unfold satisfies. specialize (C2 c (Hi' c Hin)). unfold flow in C2. lra.
Qed.

Lemma covers_all_sat S : circuits_fit cs omega -> realises S -> covers (length evs) S -> all_sat S.
Proof.
  intros Hf Hr Hc c Hin. unfold satisfies. destruct (Hr (c_source c)) as (u & l & Hi & Hp & Hs).
  destruct (shorten Hf (length (l ++ [c])) (l ++ [c]) u (c_target c) (le_n _)) as (l' & Hi' & Hp' & Hl' & Hle).
  - intros y Hy. apply in_app_or in Hy as [Hy|[<-|[]]]; auto.
  - apply path_app. exists (c_source c). cbn. auto.
  - assert (H := Hc u l' (c_target c) Hi' Hp' ltac:(destruct Hl'; [subst; cbn; lia|lia])).
    rewrite sumQ_app, sumQ_cons, sumQ_nil in Hle. unfold flow in Hle at 2. lra.
Qed.

Lemma bf_passes_sat : circuits_fit cs omega ->
  all_sat (passes omega (pass_order evs cs) (length evs) (fun _ => 0%Q)).
Proof.
  intros Hf.
  destruct (passes_spec (pass_order evs cs)
     ltac:(intros c H; apply pass_order_in; exact H) ltac:(intros c H; apply pass_order_in; exact H)
     (length evs) (fun _ => 0%Q) 0%nat) as (R & [A|C] & _).
  - intros v. exists v, []. repeat split; [intros y []].
  - intros u l v _ _ Hl. destruct l; [cbn; apply Qle_refl|cbn in Hl; lia].
  - exact A.
  - apply covers_all_sat; auto.
Qed.

Lemma shift_sat S m : all_sat S -> all_sat (fun e => (S e - m)%Q).
Proof. intros H c Hc. specialize (H c Hc). unfold satisfies in *. lra. Qed.

(** The returned starts satisfy every constraint when the circuits fit. *)
Lemma starts_satisfy : circuits_fit cs omega ->
  all_sat (fst (compute_starting_time evs cs (Some omega))).
Proof. intros Hf. cbn. apply shift_sat, bf_passes_sat, Hf. Qed.

(** Conversely, any satisfying assignment forces the circuits to fit. *)
Lemma telescoping S l : all_sat S -> incl l cs -> forall u v, path u l v ->
  (S u + sumQ (flow omega) l <= S v)%Q.
Proof.
  intros HS. induction l; intros Hi u v Hp.
  - cbn in *. subst. lra.
  - destruct Hp as [<- Hp]. rewrite sumQ_cons.
    specialize (IHl ltac:(intros y Hy; apply Hi; right; auto) _ _ Hp).
    specialize (HS a (Hi a (or_introl eq_refl))). unfold satisfies in HS. unfold flow at 1. lra.
Qed.
Lemma sat_circuits_fit S : all_sat S -> circuits_fit cs omega.
Proof.
  intros HS l (Hne & Hi & u & Hp). pose proof (telescoping S l HS Hi u u Hp) as H.
  rewrite sumQ_flow in H. lra.
Qed.
End BF.

Lemma fold_min_spec (S : event -> Q) : forall l m,
  let r := fold_left (fun m x => if Qle_bool m (S x) then m else S x) l m in
  (r <= m)%Q /\ (forall x, In x l -> (r <= S x)%Q) /\ (r = m \/ exists x, In x l /\ r = S x).
Proof.
  induction l; intros m; cbn.
  - repeat split; auto; [apply Qle_refl|contradiction].
  - specialize (IHl (if Qle_bool m (S a) then m else S a)). cbv zeta in IHl. destruct IHl as (H1 & H2 & H3).
    destruct (Qle_bool m (S a)) eqn:E.
    + apply Qle_bool_iff in E. split; auto. split.
      * intros x [<-|Hx]; [eapply Qle_trans; eauto|auto].
      * destruct H3 as [H3|(x & ? & ?)]; [auto|right; exists x; auto].
    + assert (~ (m <= S a)%Q) by (rewrite <- Qle_bool_iff; congruence).
      split; [lra|]. split.
      * intros x [<-|Hx]; auto.
      * right. destruct H3 as [H3|(x & ? & ?)]; [exists a; auto|exists x; auto].
Qed.
Lemma min_time_spec evs S : evs <> [] ->
  (forall e, In e evs -> (min_time evs S <= S e)%Q) /\ exists e, In e evs /\ min_time evs S = S e.
Proof.
  destruct evs as [|e l]; [congruence|]. intros _. cbn. destruct (fold_min_spec S l (S e)) as (H1 & H2 & H3).
  split.
  - intros x [<-|Hx]; auto.
  - destruct H3 as [H3|(x & ? & ?)]; [exists e; auto|exists x; auto].
Qed.

Lemma starts_nonneg evs cs omega : evs <> [] ->
  let S := fst (compute_starting_time evs cs (Some omega)) in
  (forall e, In e evs -> (0 <= S e)%Q) /\ exists e, In e evs /\ (S e == 0)%Q.
Proof.
  intros Hne. cbn. set (S0 := passes _ _ _ _). destruct (min_time_spec evs S0 Hne) as (H1 & e & He & H2).
  split.
  - intros x Hx. specialize (H1 x Hx). lra.
  - exists e. split; auto. rewrite H2. lra.
Qed.
