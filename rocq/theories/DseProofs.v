(** Proofs about the exploration loop. *)
From Coq Require Import QArith Sorted Lqa.
From Verif Require Import Base Graph Storage StorageSpec StorageProofs StorageSets Dse DseSpec ScheduleSpec.
Open Scope Z_scope.

Section Over.
Context (K : list Z) (HK : channel_list K).
Notation valid := (valid K). Notation same := (same K). Notation below := (below K). Notation wf := (wf K).

Lemma uniq_eq s x y : wf s -> In x (flat s) -> In y (flat s) -> same x y -> x = y.
Proof.
  intros W Hx Hy S. destruct (ForallOrdPairs_In (wf_uniq K s W) x y Hx Hy) as [H|[H|H]]; [exact H|contradiction|]. apply same_sym in S. contradiction.
Qed.
Lemma below_size_strict a b e : valid a -> valid b -> below a b -> In e K -> quantity a e < quantity b e -> sd_size a < sd_size b.
Proof.
  intros Va Vb H. rewrite (valid_size _ _ Va), (valid_size _ _ Vb). clear Va Vb HK. revert H. unfold StorageSpec.below. induction K as [|k K' IH]; intros H He L; [destruct He|]. cbn [map].
  change (sumZ (?x :: ?l)) with (x + sumZ l). pose proof (H k (or_introl eq_refl)) as H1.
  assert (H2 : sumZ (map (quantity a) K') <= sumZ (map (quantity b) K')).
  { clear - H. assert (H' : forall e, In e K' -> quantity a e <= quantity b e) by (intros; apply H; right; auto). clear H. induction K' as [|z K2 IH]; [cbn; lia|]. cbn [map].
    change (sumZ (?x :: ?l)) with (x + sumZ l). specialize (H' z (or_introl eq_refl)) as H1. assert (sumZ (map (quantity a) K2) <= sumZ (map (quantity b) K2)); [apply IH; intros; apply H'; right; auto|lia]. }
  destruct He as [<-|He]; [lia|]. assert (sumZ (map (quantity a) K') < sumZ (map (quantity b) K')); [|lia]. apply IH; auto. intros; apply H; right; auto.
Qed.
Lemma set_thr_quantity t d e : quantity (set_thr t d) e = quantity d e. Proof. reflexivity. Qed.
Lemma set_thr_valid t d : valid d -> valid (set_thr t d).
Proof. intros [A B C]. constructor; cbn; auto. Qed.

(** ** minimizeStorageDistributions on a frontier to which a distribution of largest size was added *)
Definition worse (new x : sd) : Prop := sd_size x = sd_size new /\ (sd_thr x < sd_thr new)%Q.
Definition dominates (x new : sd) : Prop := sd_size x <= sd_size new /\ (sd_thr new <= sd_thr x)%Q /\ (sd_size x < sd_size new \/ (sd_thr new < sd_thr x)%Q).
Lemma cond_dominates new x :
  ((sd_size new >? sd_size x) && (negb (Qle_bool (sd_thr x) (sd_thr new)) || Qeq_bool (sd_thr new) (sd_thr x))) || ((sd_size new >=? sd_size x) && negb (Qle_bool (sd_thr x) (sd_thr new))) = true <-> dominates x new.
Proof.
  unfold dominates. assert (A : Qle_bool (sd_thr x) (sd_thr new) = false <-> (sd_thr new < sd_thr x)%Q).
  { rewrite <- not_true_iff_false, Qle_bool_iff. split; [apply Qnot_le_lt|apply Qlt_not_le]. }
  assert (B : Qeq_bool (sd_thr new) (sd_thr x) = true <-> (sd_thr new == sd_thr x)%Q) by apply Qeq_bool_iff.
  rewrite orb_true_iff, !andb_true_iff, orb_true_iff, !negb_true_iff, A, B. split.
  - intros [[H [L|E]]|[H L]]; (split; [lia|split; [lra|]]); [left; lia|left; lia|right; exact L].
  - intros (H & L & [S|S]).
    + left. split; [lia|]. apply Qle_lteq in L as [L|L]; [left|right]; exact L.
    + right. split; [lia|exact S].
Qed.
Lemma cond_worse new x : (sd_size new =? sd_size x) && negb (Qle_bool (sd_thr new) (sd_thr x)) = true <-> worse new x.
Proof.
  unfold worse. rewrite andb_true_iff, negb_true_iff, <- not_true_iff_false, Qle_bool_iff. split.
  - intros [H L]. split; [lia|apply Qnot_le_lt, L].
  - intros [H L]. split; [lia|apply Qlt_not_le, L].
Qed.
Lemma minimize_loop_ok new s0 : wf s0 -> In new (flat s0) ->
  (forall x y, In x (flat s0) -> In y (flat s0) -> x <> new -> y <> new -> (sd_size x < sd_size y -> (sd_thr x < sd_thr y)%Q) /\ (sd_size x = sd_size y -> (sd_thr x == sd_thr y)%Q)) ->
  forall l cur, wf cur -> NoDup l -> (forall x, In x l -> In x (flat s0)) ->
  (forall x, In x (flat cur) <-> In x (flat s0) /\ (worse new x -> In x l)) ->
  (forall x, In x (flat s0) -> dominates x new -> In x l) ->
  exists s', minimize_loop new l cur = Ok s' /\ wf s' /\
   ((exists x, In x (flat s0) /\ dominates x new /\ forall y, In y (flat s') <-> In y (flat s0) /\ y <> new) \/
    ((forall x, In x (flat s0) -> ~ dominates x new) /\ forall y, In y (flat s') <-> In y (flat s0) /\ ~ worse new y)).
Proof.
  intros W0 Hnew P. assert (Vn : valid new) by (eapply wf_valid; [exact W0|exact Hnew]). induction l as [|x l IH]; intros cur W ND Hl Hc Hd; cbn [minimize_loop].
  - exists cur. split; [reflexivity|]. split; [exact W|]. right. split; [intros x Hx D; destruct (Hd x Hx D)|]. intros y. rewrite Hc. split; intros [A B]; (split; [exact A|]); [intros Hw; destruct (B Hw)|tauto].
  - assert (Hx : In x (flat s0)) by (apply Hl; left; reflexivity). inversion ND as [|? ? Nx ND']; subst. pose proof (cond_dominates new x) as CD. pose proof (cond_worse new x) as CW. destruct (_ || _).
    + assert (D : dominates x new) by (apply CD; reflexivity). assert (Xn : x <> new). { intros ->. destruct D as (_ & _ & [L|L]); [lia|]. apply (Qlt_irrefl _ L). }
      assert (NW : forall y, In y (flat s0) -> ~ worse new y).
      { intros y Hy [Sy Ty]. assert (Yn : y <> new) by (intros ->; apply (Qlt_irrefl _ Ty)). destruct D as (S & T & Q). destruct (P x y Hx Hy Xn Yn) as [P1 P2].
        destruct (Z.eq_dec (sd_size x) (sd_size y)) as [E|E].
        - specialize (P2 E). destruct Q as [Q|Q]; [lia|]. lra.
        - assert (L : sd_size x < sd_size y) by lia. specialize (P1 L). lra. }
      destruct (remove_sd_ok K new cur Vn W) as (s' & E & W' & M). exists s'. split; [exact E|]. split; [exact W'|]. left. exists x. split; [exact Hx|]. split; [exact D|].
      intros y. rewrite M, Hc. split.
      * intros [[A _] N]. split; [exact A|]. intros ->. apply N, same_refl.
      * intros [A N]. split; [split; [exact A|intros Hw; destruct (NW y A Hw)]|]. intros S. apply N. eapply uniq_eq; [exact W0|exact A|exact Hnew|exact S].
    + assert (D : ~ dominates x new) by (intros D; apply CD in D; discriminate).
      assert (Hd' : forall y, In y (flat s0) -> dominates y new -> In y l). { intros y Hy Dy. destruct (Hd y Hy Dy) as [<-|H]; [contradiction|exact H]. }
      assert (Hl' : forall y, In y l -> In y (flat s0)) by (intros; apply Hl; right; auto).
      destruct (_ && _).
      * assert (Wx : worse new x) by (apply CW; reflexivity). destruct (remove_sd_ok K x cur) as (cur' & E & W' & M); auto; [eapply wf_valid; [exact W0|exact Hx]|]. rewrite E. cbn [bind].
        destruct (IH cur' W' ND' Hl') as (s' & E' & R); auto; [|exists s'; auto].
        intros y. rewrite M, Hc. split.
        -- intros [[A B] N]. split; [exact A|]. intros Hw. destruct (B Hw) as [->|H]; [|exact H]. destruct N. apply same_refl.
        -- intros [A B]. split; [split; [exact A|intros Hw; right; auto]|]. intros S. assert (y = x) as -> by (eapply uniq_eq; [exact W0|exact A|exact Hx|exact S]). apply Nx, B, Wx.
      * assert (Wx : ~ worse new x) by (intros H; apply CW in H; discriminate). destruct (IH cur W ND' Hl') as (s' & E' & R); auto; [|exists s'; auto].
        intros y. rewrite Hc. split; (intros [A B]; split; [exact A|intros Hw]); [destruct (B Hw) as [->|H]; [contradiction|exact H]|right; auto].
Qed.
Lemma wf_nodup s : wf s -> NoDup (flat s).
Proof.
  intros W. pose proof (wf_uniq K s W) as U. clear W. induction U as [|a l F U IH]; constructor; auto. intros H. rewrite Forall_forall in F. apply (F a H). apply same_refl.
Qed.
(** Adding a new distribution, at least as large as every other, and minimising. *)
Lemma add_minimize_ok new s : wf s -> valid new -> pareto s -> (forall x, In x (flat s) -> sd_size x <= sd_size new /\ ~ same x new) ->
  exists s1 s2, add_sd new s = Ok s1 /\ ss_pmax s1 = raise_pmax new (ss_pmax s) /\ minimize new s1 = Ok s2 /\ ss_pmax s2 = ss_pmax s1 /\ wf s2 /\ pareto s2 /\
   (forall x, In x (flat s2) -> In x (flat s) \/ x = new) /\
   (forall x, In x (flat s) \/ x = new -> exists y, In y (flat s2) /\ sd_size y <= sd_size x /\ (sd_thr x <= sd_thr y)%Q).
Proof.
  intros W V P L. destruct (add_sd_ok K new s V W) as (s1 & E1 & W1 & M1). exists s1.
  assert (M : forall x, In x (flat s1) <-> In x (flat s) \/ x = new).
  { intros x. rewrite M1. split; [tauto|]. intros [H|H]; [auto|]. right. split; [exact H|]. intros y Hy S. destruct (L y Hy) as [_ N]. apply N. try apply same_sym; exact S. }
  assert (PM : ss_pmax s1 = raise_pmax new (ss_pmax s)).
  { unfold add_sd in E1. destruct (find_bucket (sd_size new) (ss_map s)) as [l|] eqn:F; [|injection E1 as <-; reflexivity].
    assert (Vl : forall x, In x l -> In x (flat s)) by (intros x Hx; apply in_flat; exists (sd_size new), l; split; [apply find_bucket_in, F|exact Hx]).
    rewrite (matches_one_ok K) in E1 by (first [exact V|intros x Hx; exact (wf_valid K s x W (Vl x Hx))]). cbn [bind] in E1. destruct (existsb (eqb K new) l) eqn:X; [|injection E1 as <-; reflexivity].
    apply existsb_exists in X as (y & Hy & S). apply eqb_same in S. destruct (L y (Vl y Hy)) as [_ N]. destruct N. apply same_sym, S. }
  assert (Hn : In new (flat s1)) by (apply M; auto).
  destruct (minimize_loop_ok new s1 W1 Hn) with (l := flat s1) (cur := s1) as (s2 & E2 & W2 & R); auto using wf_nodup; try tauto.
  { intros x y Hx Hy Nx Ny. apply M in Hx as [Hx|]; [|contradiction]. apply M in Hy as [Hy|]; [|contradiction]. apply P; auto. }
  exists s2. split; [exact E1|]. split; [exact PM|]. split; [exact E2|]. split.
  { clear - E2. unfold minimize in E2. revert E2. assert (G : forall l c, minimize_loop new l c = Ok s2 -> ss_pmax s2 = ss_pmax c); [|intros; eapply G; eauto].
    assert (RM : forall d c c', remove_sd d c = Ok c' -> ss_pmax c' = ss_pmax c). { intros d c c' H. unfold remove_sd in H. destruct (remove_matching _ _); cbn in H; [injection H as <-; reflexivity|discriminate..]. }
    induction l as [|x l IH]; intros c E; cbn [minimize_loop] in E; [injection E as <-; reflexivity|]. destruct (_ || _); [eapply RM; eauto|]. destruct (_ && _).
    - destruct (remove_sd x c) eqn:Q; cbn [bind] in E; [|discriminate..]. apply IH in E. apply RM in Q. congruence.
    - apply IH in E. exact E. }
  split; [exact W2|]. destruct R as [(x0 & Hx0 & D & R)|(D & R)].
  - assert (X0 : x0 <> new). { intros ->. destruct D as (_ & _ & [H|H]); [lia|]. apply (Qlt_irrefl _ H). }
    assert (R' : forall y, In y (flat s2) <-> In y (flat s)). { intros y. rewrite R, M. split; [intros [[H|H] N]; [exact H|contradiction]|]. intros H. split; [auto|]. intros ->. destruct (L new H) as [_ N]. apply N, same_refl. }
    split; [intros x y Hx Hy; apply P; apply R'; assumption|]. split; [intros x Hx; left; apply R', Hx|]. intros x [Hx| ->].
    + exists x. split; [apply R', Hx|]. split; [lia|apply Qle_refl].
    + exists x0. split; [apply R'; apply M in Hx0 as [H|H]; [exact H|contradiction]|]. destruct D as (A & B & _). auto.
  - assert (NW : ~ worse new new) by (intros [_ H]; apply (Qlt_irrefl _ H)).
    assert (ND : forall x, In x (flat s) -> (sd_size x < sd_size new -> (sd_thr x < sd_thr new)%Q) /\ (sd_size x = sd_size new -> (sd_thr x <= sd_thr new)%Q)).
    { intros x Hx. assert (N : ~ dominates x new) by (apply D, M; auto). unfold dominates in N. split; intros S.
      - apply Qnot_le_lt. intros T. apply N. split; [lia|]. split; [exact T|]. left. exact S.
      - apply Qnot_lt_le. intros T. apply N. split; [lia|]. split; [lra|]. right. exact T. }
    split; [|split].
    + intros x y Hx Hy. apply R in Hx as [Hx Nx]. apply R in Hy as [Hy Ny]. apply M in Hx. apply M in Hy.
      assert (EQ : forall z, In z (flat s) -> ~ worse new z -> sd_size z = sd_size new -> (sd_thr z == sd_thr new)%Q).
      { intros z Hz Nz S. destruct (ND z Hz) as [_ T]. specialize (T S). apply Qle_lteq in T as [T|T]; [|exact T]. destruct Nz. split; auto. }
      destruct Hx as [Hx| ->], Hy as [Hy| ->].
      * apply P; auto.
      * split; [apply ND, Hx|apply EQ; auto].
      * destruct (L y Hy) as [Ly _]. split; [lia|]. intros S. symmetry. apply EQ; auto.
      * split; [lia|reflexivity].
    + intros x Hx. apply R in Hx as [Hx _]. apply M, Hx.
    + assert (Hn2 : In new (flat s2)) by (apply R; auto). intros x [Hx| ->].
      * destruct (Z.eq_dec (sd_size x) (sd_size new)) as [S|S].
        -- exists new. split; [exact Hn2|]. split; [lia|]. apply ND; auto.
        -- exists x. split; [apply R; split; [apply M; auto|intros [H _]; contradiction]|]. split; [lia|apply Qle_refl].
      * exists new. split; [exact Hn2|]. split; [lia|apply Qle_refl].
Qed.

(** ** The search loop *)
Section Search.
Context (count : Z) (step : Z -> Z) (init : sd) (thr : sd -> Q) (critical : sd -> list Z) (target : Q).
Context (Vinit : valid init) (Hstep : forall e, In e K -> count < e -> 0 < step e) (Hev : sound_evaluation K count step init thr critical).
Notation grid := (on_grid K count step init).

Lemma set_quantity_tokens d e q e' : valid d -> In e K -> get_tokens (set_quantity e q d) e' = get_tokens d e'.
Proof.
  intros V He. unfold get_tokens. assert (E : sd_chan (set_quantity e q d) = put_quantity e q (sd_chan d)) by (unfold set_quantity, update_size; destruct (negb _); reflexivity).
  rewrite E, put_quantity_find by (apply (valid_sorted K HK); exact V). destruct (Z.eqb_spec e' e) as [X|X]; [|reflexivity]. rewrite X.
  assert (H : In e (get_edges d)) by (rewrite (valid_edges _ _ V); exact He).
  destruct (find_channel e (sd_chan d)) eqn:F; [reflexivity|]. exfalso. pose proof (get_quantity_in d e H) as G. unfold get_quantity in G. rewrite F in G. discriminate.
Qed.
Lemma bump_ok d e : grid d -> In e K -> count < e -> grid (set_quantity e (quantity d e + step e) d) /\ below d (set_quantity e (quantity d e + step e) d) /\
  sd_size d < sd_size (set_quantity e (quantity d e + step e) d).
Proof.
  intros (V & T & G) He C. set (d' := set_quantity e (quantity d e + step e) d). assert (V' : valid d') by (apply set_quantity_valid; auto).
  assert (Q : forall x, quantity d' x = if x =? e then quantity d e + step e else quantity d x) by (intros; apply (set_quantity_quantity K HK); exact V).
  specialize (Hstep e He C) as S. assert (B : below d d'). { intros x Hx. rewrite Q. destruct (Z.eqb_spec x e) as [E|]; [rewrite E|]; lia. }
  split; [|split; [exact B|]].
  - split; [exact V'|]. split; [intros x Hx; unfold d'; rewrite set_quantity_tokens by assumption; apply T, Hx|]. intros x Hx. destruct (G x Hx) as [G1 G2]. rewrite Q. destruct (Z.eqb_spec x e) as [E|]; [rewrite E in *|split; assumption]. split; [|lia].
    intros _. destruct (G1 C) as (k & Hk & Ek). exists (k + 1). split; [lia|]. rewrite Ek. ring.
  - apply (below_size_strict d d' e); auto. rewrite Q, Z.eqb_refl. lia.
Qed.
Lemma spread_ok d : grid d -> forall es cl, (forall e, In e es -> In e K) -> wf cl -> exists cl', spread count step d es cl = Ok cl' /\ wf cl' /\
  (forall x, In x (flat cl') -> In x (flat cl) \/ exists e, In e es /\ count < e /\ x = set_quantity e (quantity d e + step e) d) /\
  (forall x, mem K cl' x <-> mem K cl x \/ exists e, In e es /\ count < e /\ same x (set_quantity e (quantity d e + step e) d)).
Proof.
  intros G. assert (V : valid d) by apply G. induction es as [|e es IH]; intros cl Hes W; cbn [spread].
  - exists cl. split; [reflexivity|]. split; [exact W|]. split; [auto|]. intros x. split; [auto|]. intros [H|(e & [] & _)]. exact H.
  - assert (He : In e K) by (apply Hes; left; reflexivity). assert (Hes' : forall z, In z es -> In z K) by (intros; apply Hes; right; auto).
    destruct (Z.gtb_spec e count) as [C|C].
    + rewrite get_quantity_in by (rewrite (valid_edges _ _ V); exact He). cbn [bind]. destruct (add_sd_mem K (set_quantity e (quantity d e + step e) d) cl) as (c1 & E1 & W1 & I1 & M1); auto. { apply set_quantity_valid; auto. }
      rewrite E1. cbn [bind]. destruct (IH c1 Hes' W1) as (c2 & E2 & W2 & I2 & M2). exists c2. split; [exact E2|]. split; [exact W2|]. split.
      * intros x Hx. apply I2 in Hx as [Hx|(z & Hz & R)]; [apply I1 in Hx as [Hx| ->]; [auto|right; exists e; cbn; auto]|right; exists z; cbn; auto].
      * intros x. rewrite M2, M1. split.
        -- intros [[H|H]|(z & Hz & R)]; [auto|right; exists e; cbn; auto|right; exists z; cbn; auto].
        -- intros [H|(z & [<-|Hz] & R & S)]; [auto|auto|right; exists z; auto].
    + cbn [bind]. destruct (IH cl Hes' W) as (c2 & E2 & W2 & I2 & M2). exists c2. split; [exact E2|]. split; [exact W2|]. split.
      * intros x Hx. apply I2 in Hx as [Hx|(z & Hz & R)]; [auto|right; exists z; cbn; auto].
      * intros x. rewrite M2. split.
        -- intros [H|(z & Hz & R)]; [auto|right; exists z; cbn; auto].
        -- intros [H|(z & [<-|Hz] & R & S)]; [auto|lia|right; exists z; auto].
Qed.

Record inv (cl mn : sds) (V : list sd) : Prop := {
  i_cl : wf cl;
  i_mn : wf mn;
  i_par : pareto mn;
  i_cl_grid : forall p, In p (flat cl) -> grid p;
  i_V_grid : forall v, In v V -> grid v /\ (sd_thr v == clamp (thr v))%Q;
  i_mn_V : forall x, In x (flat mn) -> In x V;
  i_order : forall p v, In p (flat cl) -> In v V -> sd_size v <= sd_size p /\ ~ same v p;
  i_cover : forall v, In v V -> exists x, In x (flat mn) /\ sd_size x <= sd_size v /\ (sd_thr v <= sd_thr x)%Q;
  i_pmax : forall v, In v V -> (sd_thr v <= snd (ss_pmax mn))%Q;
  i_pmax_at : ss_pmax mn = (0, 0%Q) \/ exists v, In v V /\ ss_pmax mn = (sd_size v, sd_thr v);
  i_first : (V = [] /\ mem K cl init) \/ (exists v, In v V /\ same v init) /\ (forall v, In v V -> same v init \/ sd_size init < sd_size v) /\ (forall p, In p (flat cl) -> sd_size init < sd_size p);
  i_target : forall b, grid b -> (exists v, In v V /\ below v b /\ (thr b <= sd_thr v)%Q) \/ (exists p, In p (flat cl) /\ below p b) }.

Lemma clamp_le t : (t <= clamp t)%Q /\ (0 <= clamp t)%Q.
Proof.
  unfold clamp. destruct (Qle_bool 0 t) eqn:E; cbn [negb]; [apply Qle_bool_iff in E; split; [apply Qle_refl|exact E]|].
  assert (~ (0 <= t)%Q) by (rewrite <- Qle_bool_iff, E; discriminate). split; [|apply Qle_refl]. apply Qlt_le_weak, Qnot_le_lt, H.
Qed.
Lemma clamp_bound x t : (0 < t)%Q -> (x <= t)%Q -> (clamp x <= t)%Q.
Proof. intros A B. unfold clamp. destruct (negb _); [apply Qlt_le_weak, A|exact B]. Qed.
Lemma clamp_ext a b : (a == b)%Q -> (clamp a == clamp b)%Q.
Proof.
  intros H. unfold clamp. rewrite (Qleb_comp 0%Q 0%Q (Qeq_refl 0%Q) a b H). destruct (negb _); [reflexivity|exact H].
Qed.
Lemma grid_init : grid init.
Proof. split; [exact Vinit|]. split; [reflexivity|]. intros e He. split; [intros _; exists 0; split; [lia|ring]|reflexivity]. Qed.
Lemma grid_above d : grid d -> below init d.
Proof.
  intros (V & _ & G) e He. destruct (G e He) as [A B]. destruct (Z.lt_ge_cases count e) as [C|C]; [|rewrite B by lia; lia]. destruct (A C) as (k & Hk & ->). specialize (Hstep e He C). nia.
Qed.
Lemma grid_gap a b e : grid a -> grid b -> In e K -> count < e -> quantity a e < quantity b e -> quantity a e + step e <= quantity b e.
Proof.
  intros (_ & _ & A) (_ & _ & B) He C L. destruct (proj1 (A e He) C) as (k & Hk & Ek). destruct (proj1 (B e He) C) as (k' & Hk' & Ek'). rewrite Ek, Ek' in *. specialize (Hstep e He C). assert (k < k') by nia. nia.
Qed.
Lemma inv_step cl mn V : inv cl mn V -> flat cl <> [] ->
  exists d0 cl1 mn1 cl2 mn2, get_next cl = Ok d0 /\ remove_sd d0 cl = Ok cl1 /\ add_sd (set_thr (clamp (thr d0)) d0) mn = Ok mn1 /\
   spread count step (set_thr (clamp (thr d0)) d0) (critical d0) cl1 = Ok cl2 /\ minimize (set_thr (clamp (thr d0)) d0) mn1 = Ok mn2 /\ inv cl2 mn2 (set_thr (clamp (thr d0)) d0 :: V).
Proof.
  intros I N. destruct (get_next_ok K cl (i_cl _ _ _ I)) as [_ G]. destruct (G N) as (d0 & E0 & Hd & Ld). clear G.
  pose proof (i_cl_grid _ _ _ I d0 Hd) as Gd. assert (Vd : valid d0) by apply Gd.
  destruct (remove_sd_ok K d0 cl Vd (i_cl _ _ _ I)) as (cl1 & E1 & W1 & M1).
  set (d := set_thr (clamp (thr d0)) d0). assert (G' : grid d). { destruct Gd as [_ Gd]. split; [apply set_thr_valid, Vd|exact Gd]. }
  assert (Sd : same d d0) by (intros e _; reflexivity).
  destruct (add_minimize_ok d mn (i_mn _ _ _ I)) as (mn1 & mn2 & E2 & PM & E3 & PM2 & W2 & P2 & I2 & C2).
  { apply G'. } { apply (i_par _ _ _ I). }
  { intros x Hx. apply (i_mn_V _ _ _ I) in Hx. destruct (i_order _ _ _ I d0 x Hd Hx) as [A B]. split; [exact A|]. intros S. apply B. exact S. }
  destruct (spread_ok d G' (critical d0) cl1) as (cl2 & E4 & W4 & I4 & M4); auto. { intros e He. apply (critical_channels _ _ _ _ _ _ Hev d0 e Gd He). }
  exists d0, cl1, mn1, cl2, mn2. split; [exact E0|]. split; [exact E1|]. split; [exact E2|]. split; [exact E4|]. split; [exact E3|].
  assert (Pend : forall p, In p (flat cl2) -> (In p (flat cl) /\ ~ same p d0) \/ (grid p /\ sd_size d < sd_size p)).
  { intros p Hp. apply I4 in Hp as [Hp|(e & He & C & ->)]; [left; apply M1, Hp|]. right. assert (HeK : In e K) by (apply (critical_channels _ _ _ _ _ _ Hev d0 e Gd He)). split; apply bump_ok; auto. }
  assert (Hinit : (exists v, In v (d :: V) /\ same v init) /\ (forall v, In v (d :: V) -> same v init \/ sd_size init < sd_size v) /\ (forall p, In p (flat cl2) -> sd_size init < sd_size p)).
  { destruct (i_first _ _ _ I) as [[-> (i' & Hi & Si)]|(A & B & C)].
    - assert (Bi : below init d0) by apply grid_above, Gd. assert (Vi : valid i') by (eapply wf_valid; [apply (i_cl _ _ _ I)|exact Hi]).
      assert (Sz : sd_size d0 <= sd_size init). { rewrite (same_size K init i') by auto. apply Ld, Hi. }
      assert (S0 : same init d0). { intros e He. destruct (Z.lt_trichotomy (quantity init e) (quantity d0 e)) as [L|[L|L]]; [|exact L|specialize (Bi e He); lia].
        pose proof (below_size_strict init d0 e Vinit Vd Bi He L). lia. }
      assert (Ss : sd_size d = sd_size init). { change (sd_size d) with (sd_size d0). symmetry. apply (same_size K); auto. }
      split; [exists d; split; [left; reflexivity|apply same_sym, S0]|]. split.
      + intros v [<-|[]]. left. apply same_sym, S0.
      + intros p Hp. destruct (Pend p Hp) as [[Hc Ns]|[_ L]]; [|lia]. assert (Gp := i_cl_grid _ _ _ I p Hc). pose proof (grid_above p Gp) as Bp.
        assert (Np : ~ same init p). { intros S. apply Ns. eapply same_trans; [apply same_sym; exact S|exact S0]. }
        destruct (below_dec K p init) as [B'|B']; [destruct Np; apply below_antisym; auto|]. apply not_below_some in B' as (e & He & L). apply (below_size_strict init p e); auto. apply Gp.
    - assert (Ld0 : sd_size init < sd_size d0) by apply C, Hd. destruct A as (v & Hv & Sv). split; [exists v; split; [right; exact Hv|exact Sv]|]. split.
      + intros x [<-|Hx]; [right; exact Ld0|auto].
      + intros p Hp. destruct (Pend p Hp) as [[Hc _]|[_ L]]; [apply C, Hc|]. change (sd_size d) with (sd_size d0) in L. lia. }
  constructor.
  - exact W4.
  - exact W2.
  - exact P2.
  - intros p Hp. destruct (Pend p Hp) as [[Hc _]|[H _]]; [apply (i_cl_grid _ _ _ I), Hc|exact H].
  - intros v [<-|Hv]; [|apply (i_V_grid _ _ _ I), Hv]. split; [exact G'|]. cbn [sd_thr set_thr d]. apply clamp_ext. apply (same_thr _ _ _ _ _ _ Hev); auto. all: intros e _; reflexivity.
  - intros x Hx. apply I2 in Hx as [Hx| ->]; [right; apply (i_mn_V _ _ _ I), Hx|left; reflexivity].
  - intros p v Hp Hv. destruct (Pend p Hp) as [[Hc Ns]|[_ L]].
    + destruct Hv as [<-|Hv]; [|apply (i_order _ _ _ I); auto]. split; [apply Ld, Hc|]. intros S. apply Ns. apply same_sym. exact S.
    + assert (Lv : sd_size v <= sd_size d). { destruct Hv as [<-|Hv]; [apply Z.le_refl|]. apply (i_order _ _ _ I d0 v Hd Hv). }
      split; [lia|]. intros S. assert (sd_size v = sd_size p); [|lia]. apply (same_size K); auto.
      * destruct Hv as [<-|Hv]; [apply G'|]. apply (i_V_grid _ _ _ I v Hv).
      * eapply wf_valid; [exact W4|exact Hp].
  - intros v [<-|Hv]; [apply C2; auto|]. destruct (i_cover _ _ _ I v Hv) as (x & Hx & A & B). destruct (C2 x (or_introl Hx)) as (y & Hy & A' & B'). exists y. split; [exact Hy|]. split; [lia|]. eapply Qle_trans; eauto.
  - intros v Hv. rewrite PM2, PM. unfold raise_pmax. destruct (Qle_bool (sd_thr d) (snd (ss_pmax mn))) eqn:Q; cbn [negb snd].
    + apply Qle_bool_iff in Q. destruct Hv as [<-|Hv]; [exact Q|apply (i_pmax _ _ _ I), Hv].
    + assert (L : (snd (ss_pmax mn) < sd_thr d)%Q). { apply Qnot_le_lt. rewrite <- Qle_bool_iff, Q. discriminate. }
      destruct Hv as [<-|Hv]; [apply Qle_refl|]. apply Qlt_le_weak. eapply Qle_lt_trans; [|exact L]. apply (i_pmax _ _ _ I), Hv.
  - rewrite PM2, PM. unfold raise_pmax. destruct (negb _).
    + right. exists d. split; [left; reflexivity|reflexivity].
    + destruct (i_pmax_at _ _ _ I) as [H|(v & Hv & H)]; [left; exact H|right; exists v; split; [right; exact Hv|exact H]].
  - right. exact Hinit.
  - intros b Gb. destruct (i_target _ _ _ I b Gb) as [(v & Hv & R)|(p & Hp & B)]; [left; exists v; split; [right; exact Hv|exact R]|].
    destruct (eqb K p d0) eqn:X.
    + apply eqb_same in X. assert (Bd : below d0 b) by (eapply same_below_l; [apply same_sym; exact X|exact B]).
      destruct (Qlt_le_dec (thr d0) (thr b)) as [L|L].
      * destruct (Qlt_le_dec 0 (thr b)) as [Z0|Z0]; cycle 1.
        -- left. exists d. split; [left; reflexivity|]. split; [exact Bd|]. cbn [sd_thr set_thr d]. eapply Qle_trans; [exact Z0|]. apply clamp_le.
        -- destruct (critical_room _ _ _ _ _ _ Hev d0 b Gd Gb Bd Z0 L) as (e & He & C & Lt). right.
           assert (HeK : In e K) by (apply (critical_channels _ _ _ _ _ _ Hev d0 e Gd He)).
           assert (Mm : mem K cl2 (set_quantity e (quantity d e + step e) d)). { apply M4. right. exists e. split; [exact He|]. split; [exact C|apply same_refl]. }
           destruct Mm as (y & Hy & Sy). exists y. split; [exact Hy|]. eapply same_below_l; [apply same_sym; exact Sy|]. intros x Hx. rewrite (set_quantity_quantity K HK) by apply G'.
           destruct (Z.eqb_spec x e) as [Ex|]; [rewrite Ex; apply (grid_gap d b e); auto|]. apply Bd, Hx.
      * left. exists d. split; [left; reflexivity|]. split; [exact Bd|]. cbn [sd_thr set_thr d]. eapply Qle_trans; [exact L|]. apply clamp_le.
    + right. assert (Hp1 : mem K cl2 p). { apply M4. left. apply in_mem. apply M1. split; [exact Hp|]. intros S. apply eqb_same in S. congruence. }
      destruct Hp1 as (y & Hy & Sy). exists y. split; [exact Hy|]. eapply same_below_l; [apply same_sym; exact Sy|exact B].
Qed.

Lemma explore_ok : forall fuel cl mn V r, inv cl mn V -> explore fuel thr critical count step target cl mn = Ok r ->
  exists cl' V', inv cl' r V' /\ search_complete cl' target r = true.
Proof.
  induction fuel as [|fuel IH]; intros cl mn V r I E; cbn [explore] in E; destruct (search_complete cl target mn) eqn:S.
  - injection E as <-. exists cl, V. auto.
  - discriminate.
  - injection E as <-. exists cl, V. auto.
  - assert (N : flat cl <> []). { intros F. unfold search_complete, set_count in S. rewrite F in S. cbn in S. rewrite orb_true_r in S. discriminate. }
    destruct (inv_step cl mn V I N) as (d0 & cl1 & mn1 & cl2 & mn2 & E0 & E1 & E2 & E3 & E4 & I'). rewrite E0 in E. cbn [bind] in E. rewrite E1 in E. cbn [bind] in E. rewrite E2 in E. cbn [bind] in E.
    rewrite E3 in E. cbn [bind] in E. rewrite E4 in E. cbn [bind] in E. eapply IH; eauto.
Qed.
Lemma explore_safe : forall fuel cl mn V, inv cl mn V -> (exists r, explore fuel thr critical count step target cl mn = Ok r) \/ explore fuel thr critical count step target cl mn = Timeout.
Proof.
  induction fuel as [|fuel IH]; intros cl mn V I; cbn [explore]; destruct (search_complete cl target mn) eqn:S; [left; eauto|right; reflexivity|left; eauto|].
  assert (N : flat cl <> []). { intros F. unfold search_complete, set_count in S. rewrite F in S. cbn in S. rewrite orb_true_r in S. discriminate. }
  destruct (inv_step cl mn V I N) as (d0 & cl1 & mn1 & cl2 & mn2 & E0 & E1 & E2 & E3 & E4 & I'). rewrite E0. cbn [bind]. rewrite E1. cbn [bind]. rewrite E2. cbn [bind]. rewrite E3. cbn [bind]. rewrite E4. cbn [bind]. eapply IH; eauto.
Qed.
Lemma inv_start cl : add_sd init sds_empty = Ok cl -> inv cl sds_empty [].
Proof.
  intros E. destruct (add_sd_mem K init sds_empty Vinit (wf_empty K)) as (cl' & E' & W & I & M). rewrite E in E'. injection E' as <-.
  assert (Mi : mem K cl init) by (apply M; right; apply same_refl).
  constructor; try (intros ? []; fail); auto using wf_empty.
  - intros x y [].
  - intros p Hp. apply I in Hp as [[]| ->]. apply grid_init.
  - intros p v _ [].
  - intros b Gb. right. destruct Mi as (y & Hy & S). exists y. split; [exact Hy|]. eapply same_below_l; [apply same_sym; exact S|]. apply grid_above, Gb.
Qed.
Lemma find_size cl k : wf cl -> has_size k cl = false -> forall p, In p (flat cl) -> sd_size p <> k.
Proof.
  intros W H p Hp E. destruct (wf_at K cl p W Hp) as (l & Hl & _). unfold has_size in H. destruct (find_bucket k (ss_map cl)) eqn:F; [discriminate|]. apply (find_bucket_none k _ F l). rewrite <- E. exact Hl.
Qed.
(** What the search loop returns. *)
Lemma search_result r cl V : inv cl r V -> search_complete cl target r = true -> (0 < target)%Q ->
  (forall x, In x (flat r) -> grid x /\ (sd_thr x == clamp (thr x))%Q) /\ pareto r /\
  (forall b, grid b -> exists x, In x (flat r) /\ sd_size x <= sd_size b /\ ((thr b <= sd_thr x)%Q \/ (target <= sd_thr x)%Q)).
Proof.
  intros I S T. split; [intros x Hx; apply (i_V_grid _ _ _ I), (i_mn_V _ _ _ I), Hx|]. split; [apply (i_par _ _ _ I)|]. intros b Gb.
  assert (FromV : forall v, In v V -> sd_size v <= sd_size b -> ((thr b <= sd_thr v)%Q \/ (target <= sd_thr v)%Q) -> exists x, In x (flat r) /\ sd_size x <= sd_size b /\ ((thr b <= sd_thr x)%Q \/ (target <= sd_thr x)%Q)).
  { intros v Hv L C. destruct (i_cover _ _ _ I v Hv) as (x & Hx & A & B). exists x. split; [exact Hx|]. split; [lia|]. destruct C; [left|right]; eapply Qle_trans; eauto. }
  destruct (i_target _ _ _ I b Gb) as [(v & Hv & B & L)|(p & Hp & B)].
  - apply (FromV v Hv); [|left; exact L]. apply (below_size K); auto; [apply (i_V_grid _ _ _ I v Hv)|apply Gb].
  - assert (Lp : sd_size p <= sd_size b) by (apply (below_size K); auto; [apply (i_cl_grid _ _ _ I p Hp)|apply Gb]).
    unfold search_complete in S. apply orb_true_iff in S as [S|S].
    + apply andb_true_iff in S as [S1 S2]. apply Qeq_bool_iff in S1. destruct (i_pmax_at _ _ _ I) as [E|(v & Hv & E)]; [rewrite E in S1; cbn in S1; lra|]. rewrite E in *. cbn [fst snd] in *.
      destruct (i_order _ _ _ I p v Hp Hv) as [L _]. apply (FromV v Hv); [lia|]. right. lra.
    + unfold set_count in S. destruct (flat cl); [destruct Hp|]. cbn [length] in S. apply Z.leb_le in S. lia.
Qed.

(** ** The final replacement *)
Lemma zero_out_ok : forall es d, incl es K -> valid d -> valid (zero_out es d) /\ (forall e, quantity (zero_out es d) e = if existsb (Z.eqb e) es then 0 else quantity d e) /\ sd_thr (zero_out es d) = sd_thr d.
Proof.
  unfold zero_out. induction es as [|a es IH]; intros d I V; cbn [fold_left]; [split; [exact V|]; split; reflexivity|].
  destruct (IH (set_quantity a 0 d)) as (V' & Q & T). { intros z Hz; apply I; right; exact Hz. } { apply set_quantity_valid; auto. apply I; left; reflexivity. }
  split; [exact V'|]. split; [|rewrite T; unfold set_quantity; rewrite update_size_is; reflexivity]. intros e. rewrite Q, (set_quantity_quantity K HK) by exact V. cbn [existsb]. destruct (e =? a); destruct (existsb (Z.eqb e) es); reflexivity.
Qed.

Lemma exploration_ok fuel r : (0 < target)%Q -> (forall e, In e K -> 0 <= quantity init e) -> exploration fuel thr critical count step target K init = Ok r ->
  wf r /\ pareto r /\
  (forall x, In x (flat r) -> (grid x /\ (sd_thr x == clamp (thr x))%Q) \/ ((forall e, In e K -> quantity x e = 0) /\ (sd_thr x == 0)%Q)) /\
  (forall b, grid b -> exists x, In x (flat r) /\ sd_size x <= sd_size b /\ ((thr b <= sd_thr x)%Q \/ (target <= sd_thr x)%Q)).
Proof.
  intros T Hpos E. unfold exploration in E. destruct (add_sd init sds_empty) as [cl| | |] eqn:E0; cbn [bind] in E; try discriminate.
  destruct (explore fuel thr critical count step target cl sds_empty) as [r0| | |] eqn:E1; cbn [bind] in E; try discriminate.
  destruct (explore_ok fuel cl sds_empty [] r0 (inv_start cl E0) E1) as (cl' & V & I & S).
  destruct (search_result r0 cl' V I S T) as (R1 & R2 & R3). pose proof (i_mn _ _ _ I) as W.
  destruct (R3 init grid_init) as (xi & Hxi & Lxi & _).
  destruct (get_next_ok K r0 W) as [_ G]. destruct G as (first & Ef & Hf & Lf); [intros F; rewrite F in Hxi; destruct Hxi|].
  unfold patch_zero in E. rewrite Ef in E. cbn [bind] in E.
  destruct (Qeq_bool (sd_thr first) 0) eqn:Q; [|injection E as <-; split; [exact W|]; split; [exact R2|]; split; [intros x Hx; left; apply R1, Hx|intros b Gb; apply R3, Gb]].
  apply Qeq_bool_iff in Q. assert (Vf : valid first) by (eapply wf_valid; eauto). destruct (remove_sd_ok K first r0 Vf W) as (r1 & E2 & W1 & M1). rewrite E2 in E. cbn [bind] in E.
  destruct (zero_out_ok K first (incl_refl K) Vf) as (Vz & Qz & Tz). set (z := zero_out K first) in *.
  assert (Z0 : forall e, In e K -> quantity z e = 0). { intros e He. rewrite Qz. replace (existsb (Z.eqb e) K) with true; [reflexivity|]. symmetry. apply existsb_exists. exists e. split; [exact He|apply Z.eqb_refl]. }
  assert (Sz : sd_size z = 0).
  { rewrite (valid_size _ _ Vz). assert (H : forall l, incl l K -> sumZ (map (quantity z) l) = 0); [|apply H, incl_refl]. induction l as [|e l IH]; intros Hl; [reflexivity|]. cbn [map]. change (sumZ (?x :: ?l)) with (x + sumZ l).
    rewrite IH by (intros y Hy; apply Hl; right; exact Hy). rewrite Z0 by (apply Hl; left; reflexivity). reflexivity. }
  assert (Nn : forall b, grid b -> forall e, In e K -> 0 <= quantity b e). { intros b Gb e He. pose proof (grid_above b Gb e He). specialize (Hpos e He). lia. }
  assert (Big : forall x, In x (flat r1) -> In x (flat r0) /\ sd_size first < sd_size x /\ 0 < sd_size x).
  { intros x Hx. apply M1 in Hx as [Hx N]. split; [exact Hx|]. pose proof (i_first _ _ _ I) as F. destruct F as [[EV _]|(_ & F & _)]; [apply (i_mn_V _ _ _ I) in Hx; rewrite EV in Hx; destruct Hx|].
    assert (Sf : same first init). { destruct (F first (i_mn_V _ _ _ I first Hf)) as [H|H]; [exact H|]. specialize (Lf xi Hxi). lia. }
    assert (Zf : sd_size first = sd_size init) by (apply (same_size K); auto).
    destruct (F x (i_mn_V _ _ _ I x Hx)) as [H|H]; [destruct N; eapply same_trans; [exact H|apply same_sym, Sf]|]. split; [lia|].
    pose proof (below_size K z init Vz Vinit) as Bz. assert (below z init) by (intros e He; rewrite Z0 by exact He; apply (Nn init grid_init e He)). specialize (Bz H0). lia. }
  destruct (add_sd_ok K z r1 Vz W1) as (r2 & E3 & W2 & M2). rewrite E3 in E. injection E as <-.
  assert (M : forall x, In x (flat r2) <-> In x (flat r1) \/ x = z).
  { intros x. rewrite M2. split; [tauto|]. intros [H|H]; [auto|]. right. split; [exact H|]. intros y Hy Sy. destruct (Big y Hy) as (_ & _ & B). assert (sd_size y = sd_size z); [|lia].
    apply (same_size K); auto; [eapply wf_valid; [exact W1|exact Hy]|]. first [exact Sy|apply same_sym, Sy]. }
  split; [exact W2|]. split; [|split].
  - intros x y Hx Hy. apply M in Hx. apply M in Hy. destruct Hx as [Hx| ->], Hy as [Hy| ->].
    + apply R2; apply Big; assumption.
    + destruct (Big x Hx) as (_ & _ & B). split; intros; lia.
    + destruct (Big y Hy) as (H & B1 & B2). split; [|lia]. intros _. destruct (R2 first y Hf H) as [P _]. specialize (P B1). rewrite Tz. exact P.
    + split; [lia|reflexivity].
  - intros x Hx. apply M in Hx as [Hx| ->]; [left; apply R1, Big, Hx|]. right. split; [exact Z0|]. rewrite Tz. exact Q.
  - intros b Gb. destruct (R3 b Gb) as (x & Hx & L & C). destruct (eqb K x first) eqn:X.
    + apply eqb_same in X. assert (x = first) as -> by (eapply (uniq_eq r0); eauto). exists z. split; [apply M; auto|]. split; [|rewrite Tz; exact C].
      apply (below_size K); auto; [apply Gb|]. intros e He. rewrite Z0 by exact He. apply (Nn b Gb e He).
    + exists x. split; [|split; [exact L|exact C]]. apply M. left. apply M1. split; [exact Hx|]. intros S'. apply eqb_same in S'. congruence.
Qed.

(** ** Termination when the target is reached by some distribution *)
Fixpoint vectors (n : nat) (los : list Z) : list (list Z) :=
  match los with
  | [] => [[]]
  | lo :: r => flat_map (fun i => map (cons (lo + Z.of_nat i)) (vectors n r)) (seq 0 (S n))
  end.
Lemma in_vectors n : forall l (f g : Z -> Z), (forall e, In e l -> f e <= g e <= f e + Z.of_nat n) -> In (map g l) (vectors n (map f l)).
Proof.
  induction l as [|e l IH]; intros f g H; [left; reflexivity|]. cbn [map vectors]. apply in_flat_map. exists (Z.to_nat (g e - f e)). pose proof (H e (or_introl eq_refl)).
  split; [apply in_seq; lia|]. apply in_map_iff. exists (map g l). split; [f_equal; lia|]. apply IH. intros; apply H; right; auto.
Qed.
Lemma size_gap a b e : valid a -> valid b -> below a b -> In e K -> quantity b e - quantity a e <= sd_size b - sd_size a.
Proof.
  intros Va Vb B He. destruct (Z.eq_dec (quantity a e) (quantity b e)) as [E|E]; [pose proof (below_size K a b Va Vb B); lia|].
  set (c := set_quantity e (quantity a e) b). assert (Vc : valid c) by (apply set_quantity_valid; auto).
  assert (Q : forall x, quantity c x = if x =? e then quantity a e else quantity b x) by (intros; apply (set_quantity_quantity K HK); exact Vb).
  assert (Bc : below a c). { intros x Hx. rewrite Q. destruct (Z.eqb_spec x e) as [Ex|]; [rewrite Ex; lia|apply B, Hx]. }
  pose proof (below_size K a c Va Vc Bc). enough (sd_size b - sd_size c = quantity b e - quantity a e) by lia.
  rewrite (valid_size _ _ Vb), (valid_size _ _ Vc). pose proof (sorted_nodup K HK) as ND. clear - He ND Q. induction K as [|k K' IH]; [destruct He|]. cbn [map]. change (sumZ (?x :: ?l)) with (x + sumZ l).
  inversion ND as [|? ? Nk ND']; subst. destruct He as [->|He].
  - assert (Eq : map (quantity c) K' = map (quantity b) K'). { apply map_ext_in. intros x Hx. rewrite Q. destruct (Z.eqb_spec x e) as [Ex|]; [rewrite Ex in Hx; contradiction|reflexivity]. }
    rewrite Eq, Q, Z.eqb_refl. lia.
  - rewrite Q. destruct (Z.eqb_spec k e) as [Ex|]; [rewrite Ex in Nk; contradiction|]. specialize (IH He ND'). lia.
Qed.
Lemma visited_bound V b : grid b -> (forall v, In v V -> grid v /\ sd_size v <= sd_size b) -> ForallOrdPairs (fun x y => ~ same x y) V ->
  (length V <= length (vectors (Z.to_nat (sd_size b - sd_size init)) (map (quantity init) K)))%nat.
Proof.
  intros Gb HV U. rewrite <- (map_length (fun v => map (quantity v) K) V). apply NoDup_incl_length.
  - clear HV. induction U as [|a l F U IH]; cbn [map]; constructor; auto. intros H. apply in_map_iff in H as (v & E & Hv). rewrite Forall_forall in F. apply (F v Hv). intros e He.
    clear - E He. induction K as [|k K' IH]; [destruct He|]. cbn [map] in E. injection E as E1 E2. destruct He as [->|He]; [symmetry; exact E1|]. apply IH; auto.
  - intros x Hx. apply in_map_iff in Hx as (v & <- & Hv). destruct (HV v Hv) as [Gv Lv]. apply in_vectors. intros e He. pose proof (grid_above v Gv) as B. split; [apply B, He|].
    pose proof (size_gap init v e Vinit (proj1 Gv) B He). pose proof (below_size K init v Vinit (proj1 Gv) B). lia.
Qed.
Lemma explore_terminates b : grid b -> (thr b == target)%Q -> (0 < target)%Q -> (forall a, grid a -> (thr a <= target)%Q) ->
  forall fuel cl mn V, inv cl mn V -> (forall v, In v V -> sd_size v <= sd_size b) -> ForallOrdPairs (fun x y => ~ same x y) V ->
  (length (vectors (Z.to_nat (sd_size b - sd_size init)) (map (quantity init) K)) < length V + fuel)%nat ->
  exists r, explore fuel thr critical count step target cl mn = Ok r.
Proof.
  intros Gb Tb T0 Tmax. induction fuel as [|fuel IH]; intros cl mn V I Sz U F.
  - pose proof (visited_bound V b Gb) as VB. cbn [explore]. destruct (search_complete cl target mn); [eauto|]. exfalso. enough (length V <= length (vectors (Z.to_nat (sd_size b - sd_size init)) (map (quantity init) K)))%nat by lia.
    apply VB; [|exact U]. intros v Hv. split; [apply (i_V_grid _ _ _ I v Hv)|apply Sz, Hv].
  - cbn [explore]. destruct (search_complete cl target mn) eqn:S; [eauto|].
    assert (N : flat cl <> []). { intros E. unfold search_complete, set_count in S. rewrite E in S. cbn in S. rewrite orb_true_r in S. discriminate. }
    destruct (inv_step cl mn V I N) as (d0 & cl1 & mn1 & cl2 & mn2 & E0 & E1 & E2 & E3 & E4 & I'). rewrite E0. cbn [bind]. rewrite E1. cbn [bind]. rewrite E2. cbn [bind]. rewrite E3. cbn [bind]. rewrite E4. cbn [bind].
    destruct (get_next_ok K cl (i_cl _ _ _ I)) as [_ G]. destruct (G N) as (d0' & E0' & Hd & Ld). rewrite E0 in E0'. injection E0' as <-.
    assert (Ld0 : sd_size d0 <= sd_size b).
    { destruct (i_target _ _ _ I b Gb) as [(v & Hv & B & L)|(p & Hp & B)].
      - unfold search_complete in S. apply orb_false_iff in S as [S _]. assert (Pm : (snd (ss_pmax mn) == target)%Q).
        { pose proof (i_pmax _ _ _ I v Hv) as P1. destruct (i_pmax_at _ _ _ I) as [Q|(v' & Hv' & Q)].
          - rewrite Q in *. cbn [snd] in *. lra.
          - rewrite Q in *. cbn [snd fst] in *. destruct (i_V_grid _ _ _ I v' Hv') as [Gv' Tv']. specialize (Tmax v' Gv'). assert (CL : (clamp (thr v') <= target)%Q) by (apply clamp_bound; [exact T0|exact Tmax]). rewrite <- Tv' in CL. apply Qle_antisym; [exact CL|]. rewrite <- Tb. eapply Qle_trans; eauto. }
        rewrite (proj2 (Qeq_bool_iff _ _) Pm) in S. cbn [andb] in S. apply negb_false_iff in S. destruct (i_pmax_at _ _ _ I) as [Q|(v' & Hv' & Q)]; [rewrite Q in Pm; cbn in Pm; lra|].
        rewrite Q in S. cbn [fst] in S. unfold has_size in S. destruct (find_bucket (sd_size v') (ss_map cl)) as [l|] eqn:FB; [|discriminate]. apply find_bucket_in in FB.
        destruct (wf_bucket K cl (i_cl _ _ _ I) _ _ FB) as [Nl Bl]. destruct l as [|p l]; [congruence|]. destruct (Bl p (or_introl eq_refl)) as [_ Ep].
        assert (Hp : In p (flat cl)). { apply in_flat. exists (sd_size v'), (p :: l). split; [exact FB|left; reflexivity]. } specialize (Ld p Hp). specialize (Sz v' Hv'). lia.
      - specialize (Ld p Hp). pose proof (below_size K p b (proj1 (i_cl_grid _ _ _ I p Hp)) (proj1 Gb) B). lia. }
    apply (IH cl2 mn2 _ I').
    + intros v [<-|Hv]; [exact Ld0|apply Sz, Hv].
    + constructor; [|exact U]. apply Forall_forall. intros v Hv S'. apply (i_order _ _ _ I d0 v Hd Hv). apply same_sym. exact S'.
    + cbn [length]. lia.
Qed.
Lemma exploration_patched fuel cl r0 : add_sd init sds_empty = Ok cl -> explore fuel thr critical count step target cl sds_empty = Ok r0 -> (0 < target)%Q ->
  exists r, exploration fuel thr critical count step target K init = Ok r.
Proof.
  intros E0 E1 T0. unfold exploration. rewrite E0. cbn [bind]. rewrite E1. cbn [bind]. destruct (explore_ok fuel cl sds_empty [] r0 (inv_start cl E0) E1) as (cl' & V & I & S).
  destruct (search_result r0 cl' V I S T0) as (R1 & R2 & R3). pose proof (i_mn _ _ _ I) as W. destruct (R3 init grid_init) as (xi & Hxi & _).
  destruct (get_next_ok K r0 W) as [_ G]. destruct G as (first & Ef & Hf & Lf); [intros Fl; rewrite Fl in Hxi; destruct Hxi|]. unfold patch_zero. rewrite Ef. cbn [bind].
  destruct (Qeq_bool (sd_thr first) 0); [|eauto]. assert (Vf : valid first) by (eapply wf_valid; [exact W|exact Hf]). destruct (remove_sd_ok K first r0 Vf W) as (r1 & E2 & W1 & _). rewrite E2. cbn [bind].
  destruct (zero_out_ok K first (incl_refl K) Vf) as (Vz & _). destruct (add_sd_ok K (zero_out K first) r1 Vz W1) as (r2 & E3 & _). eauto.
Qed.
Lemma exploration_terminates b : grid b -> (thr b == target)%Q -> (0 < target)%Q -> (forall a, grid a -> (thr a <= target)%Q) -> (forall e, In e K -> 0 <= quantity init e) ->
  exists N, forall fuel, (N <= fuel)%nat -> exists r, exploration fuel thr critical count step target K init = Ok r.
Proof.
  intros Gb Tb T0 Tmax Hpos. destruct (add_sd_ok K init sds_empty Vinit (wf_empty K)) as (cl & E0 & Wcl & _).
  exists (S (length (vectors (Z.to_nat (sd_size b - sd_size init)) (map (quantity init) K)))). intros fuel F.
  destruct (explore_terminates b Gb Tb T0 Tmax fuel cl sds_empty [] (inv_start cl E0)) as (r0 & E1). { intros v []. } { constructor. } { cbn [length]. lia. }
  exact (exploration_patched fuel cl r0 E0 E1 T0).
Qed.

(** ** Termination when large channels are never critical *)
Definition small (n : nat) (d : sd) : Prop := forall e, In e K -> quantity d e <= quantity init e + Z.of_nat n.
Lemma visited_small n V : (forall v, In v V -> grid v /\ small n v) -> ForallOrdPairs (fun x y => ~ same x y) V -> (length V <= length (vectors n (map (quantity init) K)))%nat.
Proof.
  intros HV U. rewrite <- (map_length (fun v => map (quantity v) K) V). apply NoDup_incl_length.
  - clear HV. induction U as [|a l F U IH]; cbn [map]; constructor; auto. intros H. apply in_map_iff in H as (v & E & Hv). rewrite Forall_forall in F. apply (F v Hv). intros e He.
    clear - E He. induction K as [|k K' IH]; [destruct He|]. cbn [map] in E. injection E as E1 E2. destruct He as [->|He]; [symmetry; exact E1|]. apply IH; auto.
  - intros x Hx. apply in_map_iff in Hx as (v & <- & Hv). destruct (HV v Hv) as [Gv Lv]. apply in_vectors. intros e He. pose proof (grid_above v Gv e He). specialize (Lv e He). lia.
Qed.
Lemma explore_ends n B : (forall d e, grid d -> In e (critical d) -> count < e -> quantity d e <= B) -> (forall e, In e K -> B + step e <= quantity init e + Z.of_nat n) ->
  forall fuel cl mn V, inv cl mn V -> (forall p, In p (flat cl) -> small n p) -> (forall v, In v V -> small n v) -> ForallOrdPairs (fun x y => ~ same x y) V ->
  (length (vectors n (map (quantity init) K)) < length V + fuel)%nat ->
  exists r, explore fuel thr critical count step target cl mn = Ok r.
Proof.
  intros HB HN. induction fuel as [|fuel IH]; intros cl mn V I Sc Sv U F.
  - exfalso. enough (length V <= length (vectors n (map (quantity init) K)))%nat by lia.
    apply visited_small; [|exact U]. intros v Hv. split; [apply (i_V_grid _ _ _ I v Hv)|apply Sv, Hv].
  - cbn [explore]. destruct (search_complete cl target mn) eqn:S; [eauto|].
    assert (N : flat cl <> []). { intros E. unfold search_complete, set_count in S. rewrite E in S. cbn in S. rewrite orb_true_r in S. discriminate. }
    destruct (inv_step cl mn V I N) as (d0 & cl1 & mn1 & cl2 & mn2 & E0 & E1 & E2 & E3 & E4 & I'). rewrite E0. cbn [bind]. rewrite E1. cbn [bind]. rewrite E2. cbn [bind]. rewrite E3. cbn [bind]. rewrite E4. cbn [bind].
    destruct (get_next_ok K cl (i_cl _ _ _ I)) as [_ G]. destruct (G N) as (d0' & E0' & Hd & Ld). rewrite E0 in E0'. injection E0' as <-.
    pose proof (i_cl_grid _ _ _ I d0 Hd) as Gd. pose proof (Sc d0 Hd) as Sd.
    apply (IH cl2 mn2 _ I').
    + destruct (remove_sd_ok K d0 cl (proj1 Gd) (i_cl _ _ _ I)) as (cl1' & E1' & W1 & M1). rewrite E1 in E1'. injection E1' as <-.
      assert (G' : grid (set_thr (clamp (thr d0)) d0)) by (destruct Gd as [Vd Gd]; split; [apply set_thr_valid, Vd|exact Gd]).
      destruct (spread_ok _ G' (critical d0) cl1) as (cl2' & E3' & _ & I3 & _); [intros e He; apply (critical_channels _ _ _ _ _ _ Hev d0 e Gd He)|exact W1|]. rewrite E3 in E3'. injection E3' as <-.
      intros p Hp. apply I3 in Hp. destruct Hp as [Hp|(e & He & C & ->)]; [apply Sc, M1, Hp|]. intros x Hx. rewrite (set_quantity_quantity K HK) by apply G'.
      change (quantity (set_thr (clamp (thr d0)) d0)) with (quantity d0). destruct (Z.eqb_spec x e) as [E|]; [|apply Sd, Hx]. subst x. specialize (HB d0 e Gd He C). specialize (HN e Hx). lia.
    + intros v [<-|Hv]; [exact Sd|apply Sv, Hv].
    + constructor; [|exact U]. apply Forall_forall. intros v Hv S'. apply (i_order _ _ _ I d0 v Hd Hv). apply same_sym. exact S'.
    + cbn [length]. lia.
Qed.
Lemma exploration_ends B : (forall d e, grid d -> In e (critical d) -> count < e -> quantity d e <= B) -> (0 < target)%Q ->
  exists N, forall fuel, (N <= fuel)%nat -> exists r, exploration fuel thr critical count step target K init = Ok r.
Proof.
  intros HB T0. destruct (add_sd_ok K init sds_empty Vinit (wf_empty K)) as (cl & E0 & Wcl & Mcl).
  set (n := Z.to_nat (sumZ (map (fun e => Z.abs (B + step e - quantity init e)) K))).
  assert (HN : forall e, In e K -> B + step e <= quantity init e + Z.of_nat n).
  { assert (X : forall l, 0 <= sumZ (map (fun e => Z.abs (B + step e - quantity init e)) l)).
    { induction l as [|a l IH]; [cbn; lia|]. cbn [map]. change (sumZ (?x :: ?l)) with (x + sumZ l). lia. }
    assert (Y : forall l e, In e l -> B + step e - quantity init e <= sumZ (map (fun e => Z.abs (B + step e - quantity init e)) l)).
    { induction l as [|a l IH]; intros e He; [destruct He|]. cbn [map]. change (sumZ (?x :: ?l)) with (x + sumZ l). specialize (X l). destruct He as [->|He]; [lia|]. specialize (IH e He). lia. }
    intros e He. specialize (Y K e He). specialize (X K). unfold n. lia. }
  exists (S (length (vectors n (map (quantity init) K)))). intros fuel F.
  assert (In0 : inv cl sds_empty []) by exact (inv_start cl E0).
  destruct (explore_ends n B HB HN fuel cl sds_empty [] In0) as (r0 & E1).
  { intros p Hp e He. apply Mcl in Hp. destruct Hp as [[]|[-> _]]. lia. } { intros v []. } { constructor. } { cbn [length]. lia. }
  exact (exploration_patched fuel cl r0 E0 E1 T0).
Qed.

(** ** No end when the target is skipped and some channel always remains critical *)
Lemma explore_forever : (0 < target)%Q -> (forall d, grid d -> ~ (thr d == target)%Q) -> (forall d, grid d -> exists e, In e (critical d) /\ count < e) ->
  forall fuel cl mn V, inv cl mn V -> flat cl <> [] -> explore fuel thr critical count step target cl mn = Timeout.
Proof.
  intros T0 TN CR. assert (NC : forall cl mn V, inv cl mn V -> flat cl <> [] -> search_complete cl target mn = false).
  { intros cl mn V I N. unfold search_complete. apply orb_false_intro.
    - apply andb_false_intro1. destruct (Qeq_bool (snd (ss_pmax mn)) target) eqn:Q; [|reflexivity]. apply Qeq_bool_iff in Q. exfalso.
      destruct (i_pmax_at _ _ _ I) as [E|(v & Hv & E)]; rewrite E in Q; cbn [snd] in Q; [lra|]. destruct (i_V_grid _ _ _ I v Hv) as [G Et]. apply (TN v G).
      unfold clamp in Et. destruct (Qle_bool 0 (thr v)); cbn [negb] in Et; lra.
    - unfold set_count. destruct (flat cl); [congruence|]. apply Z.leb_gt. cbn [length]. lia. }
  induction fuel as [|fuel IH]; intros cl mn V I N; cbn [explore]; rewrite (NC cl mn V I N); [reflexivity|].
  destruct (inv_step cl mn V I N) as (d0 & cl1 & mn1 & cl2 & mn2 & E0 & E1 & E2 & E3 & E4 & I'). rewrite E0. cbn [bind]. rewrite E1. cbn [bind]. rewrite E2. cbn [bind]. rewrite E3. cbn [bind]. rewrite E4. cbn [bind].
  apply (IH cl2 mn2 _ I'). destruct (get_next_ok K cl (i_cl _ _ _ I)) as [_ G]. destruct (G N) as (d0' & E0' & Hd & Ld). rewrite E0 in E0'. injection E0' as <-.
  pose proof (i_cl_grid _ _ _ I d0 Hd) as Gd. destruct (remove_sd_ok K d0 cl (proj1 Gd) (i_cl _ _ _ I)) as (cl1' & E1' & W1 & M1). rewrite E1 in E1'. injection E1' as <-.
  assert (G' : grid (set_thr (clamp (thr d0)) d0)) by (destruct Gd as [Vd Gd']; split; [apply set_thr_valid, Vd|exact Gd']).
  destruct (spread_ok _ G' (critical d0) cl1) as (cl2' & E3' & _ & _ & M3); [intros e He; apply (critical_channels _ _ _ _ _ _ Hev d0 e Gd He)|exact W1|]. rewrite E3 in E3'. injection E3' as <-.
  destruct (CR d0 Gd) as (e & He & C). intros Fl.
  assert (X : mem K cl2 (set_quantity e (quantity (set_thr (clamp (thr d0)) d0) e + step e) (set_thr (clamp (thr d0)) d0))) by (apply M3; right; exists e; split; [exact He|split; [exact C|apply same_refl]]).
  destruct X as (y & Hy & _). rewrite Fl in Hy. destruct Hy.
Qed.
Lemma exploration_forever : (0 < target)%Q -> (forall d, grid d -> ~ (thr d == target)%Q) -> (forall d, grid d -> exists e, In e (critical d) /\ count < e) ->
  forall fuel, exploration fuel thr critical count step target K init = Timeout.
Proof.
  intros T0 TN CR fuel. unfold exploration. destruct (add_sd_ok K init sds_empty Vinit (wf_empty K)) as (cl & E0 & Wcl & Mcl). rewrite E0. cbn [bind].
  rewrite (explore_forever T0 TN CR fuel cl sds_empty [] (inv_start cl E0)); [reflexivity|]. intros Fl.
  assert (X : In init (flat cl)) by (apply Mcl; right; split; [reflexivity|intros y []]). rewrite Fl in X. destruct X.
Qed.
End Search.
End Over.
