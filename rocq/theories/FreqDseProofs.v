(** Proofs about the exploration of throughputs by bisection. *)
From Coq Require Import QArith Lqa Lia Sorted.
From Verif Require Import Base FreqDse.
Open Scope Z_scope.

Section S.
Variable sizing : Q -> outcome Z.
Variable F : Q.
Hypothesis HF : (0 < F)%Q.
Notation G := (F / 10000)%Q.

(** Every frequency explored was sized, and 0 has the size 0. *)
Definition sound_space (sp : space) : Prop :=
  forall f z, In (f, z) sp -> (0 <= f)%Q /\ (f <= F)%Q /\ ((f = 0%Q /\ z = 0) \/ ((0 < f)%Q /\ sizing (/ f)%Q = Ok z)).
Definition known (sp : space) (f : Q) : Prop := exists f' z, (f == f')%Q /\ In (f', z) sp.

Lemma find_in sp f z : space_find sp f = Some z -> exists f', (f == f')%Q /\ In (f', z) sp.
Proof.
  induction sp as [|[f' z'] sp IH]; cbn; [discriminate|]. destruct (Qeq_bool f f') eqn:E.
  - intros [=->]. exists f'. split; [apply Qeq_bool_iff; exact E|left; reflexivity].
  - intros H. destruct (IH H) as (f2 & A & B). exists f2. split; [exact A|right; exact B].
Qed.
Lemma find_none sp f : space_find sp f = None -> ~ known sp f.
Proof.
  induction sp as [|[f' z'] sp IH]; cbn; [intros _ (? & ? & _ & [])|]. destruct (Qeq_bool f f') eqn:E; [discriminate|].
  intros H (f2 & z & A & [B|B]).
  - injection B as <- <-. apply Qeq_bool_iff in A. congruence.
  - apply (IH H). exists f2, z. split; assumption.
Qed.
Lemma find_known sp f : known sp f -> exists z, space_find sp f = Some z.
Proof. intros H. destruct (space_find sp f) eqn:E; [eexists; reflexivity|]. destruct (find_none sp f E H). Qed.

Lemma ensure_spec sp f : sound_space sp -> known sp 0 -> (0 <= f)%Q -> (f <= F)%Q -> (forall p, (/ F <= p)%Q -> exists z, sizing p = Ok z) ->
  exists sp', ensure sizing sp f = Ok sp' /\ sound_space sp' /\ (forall x, In x sp -> In x sp') /\ known sp' f.
Proof.
  intros Hs H0 F0 F1 Tot. unfold ensure. destruct (space_find sp f) as [z|] eqn:E.
  - exists sp. split; [reflexivity|]. split; [exact Hs|]. split; [auto|]. destruct (find_in sp f z E) as (f' & A & B). exists f', z. split; assumption.
  - assert (Fp : (0 < f)%Q).
    { destruct (Qlt_le_dec 0 f) as [|L]; [assumption|]. exfalso. apply (find_none sp f E). destruct H0 as (f' & z & A & B). exists f', z. split; [lra|exact B]. }
    destruct (Tot (/ f)%Q) as [z Ez].
    { apply (Qinv_le_contravar f F) in F1 || idtac. apply Qle_shift_inv_l; [exact Fp|]. setoid_replace (/ F * f)%Q with (f / F)%Q by (field; lra). apply Qle_shift_div_r; lra. }
    rewrite Ez. cbn [bind]. exists ((f, z) :: sp). split; [reflexivity|]. split; [|split; [intros; right; assumption|exists f, z; split; [reflexivity|left; reflexivity]]].
    intros f' z' [B|B]; [|exact (Hs f' z' B)]. injection B as <- <-. split; [lra|]. split; [exact F1|]. right. split; assumption.
Qed.

(** A frequency is accounted for: it is between two explored ones that are close or of equal size. *)
Definition accounted (sp : space) (f : Q) : Prop :=
  exists l zl r zr, In (l, zl) sp /\ In (r, zr) sp /\ (l <= f)%Q /\ (f <= r)%Q /\ ((r - l < F / 5000)%Q \/ ((0 < l)%Q /\ zl = zr)).

Definition width (n : nat) : Q := (F * / inject_Z (2 ^ Z.of_nat n))%Q.
Lemma width_S n : (width (S n) == width n / 2)%Q.
Proof. unfold width. rewrite Nat2Z.inj_succ, Z.pow_succ_r by lia. rewrite inject_Z_mult. change (inject_Z 2) with 2%Q. field. intros E. assert (0 < 2 ^ Z.of_nat n) by (apply Z.pow_pos_nonneg; lia).
  unfold Qeq in E. cbn in E. lia. Qed.
Lemma width_pos n : (0 < width n)%Q.
Proof. unfold width. apply Qmult_lt_0_compat; [exact HF|]. apply Qinv_lt_0_compat. change 0%Q with (inject_Z 0). rewrite <- Zlt_Qlt. apply Z.pow_pos_nonneg; lia. Qed.

(** A range waiting in the queue, with its depth. *)
Record waiting (sp : space) (l r : Q) (n : nat) : Prop := {
  w_depth : (n <= 14)%nat;
  w_low : (0 <= l)%Q;
  w_high : (r <= F)%Q;
  w_width : (r - l == width n)%Q;
  w_parent : n = 0%nat \/ exists pl zl pr zr, In (pl, zl) sp /\ In (pr, zr) sp /\ (pl <= l)%Q /\ (r <= pr)%Q /\ (pr - pl == width n * 2)%Q }.

Fixpoint cost (ns : list nat) : nat := match ns with [] => 0 | n :: ns' => (2 ^ (15 - n) - 1 + cost ns')%nat end.
Lemma cost_app a b : cost (a ++ b) = (cost a + cost b)%nat.
Proof. induction a; cbn [app cost]; [reflexivity|]. rewrite IHa. lia. Qed.

Lemma waiting_mono sp sp' l r n : (forall x, In x sp -> In x sp') -> waiting sp l r n -> waiting sp' l r n.
Proof. intros H [A B C D E]. split; auto. destruct E as [E|(pl & zl & pr & zr & I1 & I2 & R)]; [left; exact E|right]. exists pl, zl, pr, zr. auto. Qed.
Lemma accounted_mono sp sp' f : (forall x, In x sp -> In x sp') -> accounted sp f -> accounted sp' f.
Proof. intros H (l & zl & r & zr & I1 & I2 & R). exists l, zl, r, zr. auto. Qed.

Hypothesis Tot : forall p, (/ F <= p)%Q -> exists z, sizing p = Ok z.
(** Equal frequencies have equal sizes. *)
Hypothesis Same : forall p q zp zq, sizing p = Ok zp -> sizing q = Ok zq -> (p == q)%Q -> zp = zq.

Lemma turn_spec sp l r n : sound_space sp -> known sp 0 -> waiting sp l r n ->
  exists sp' pushed ns, turn sizing G sp (l, r) = Ok (sp', pushed) /\ sound_space sp' /\ (forall x, In x sp -> In x sp') /\
    Forall2 (fun lr m => waiting sp' (fst lr) (snd lr) m) pushed ns /\ (S (cost ns) <= cost [n])%nat /\
    (forall f, (0 < f)%Q -> (l <= f)%Q -> (f <= r)%Q -> accounted sp' f \/ exists lr, In lr pushed /\ (fst lr <= f)%Q /\ (f <= snd lr)%Q).
Proof.
  intros Hs H0 [Dp Lo Hi Wd Pa]. unfold turn. pose proof (width_pos n) as Wp. destruct (Qle_bool G (r - l)) eqn:Eg; cbn [negb].
  - apply Qle_bool_iff in Eg. destruct (ensure_spec sp l Hs H0 Lo ltac:(lra) Tot) as (sp1 & E1 & S1 & M1 & K1). rewrite E1. cbn [bind].
    assert (H01 : known sp1 0) by (destruct H0 as (f' & z & A & B); exists f', z; auto).
    destruct (ensure_spec sp1 r S1 H01 ltac:(lra) Hi Tot) as (sp2 & E2 & S2 & M2 & K2). rewrite E2. cbn [bind].
    assert (K1' : known sp2 l) by (destruct K1 as (f' & z & A & B); exists f', z; auto).
    assert (Nn : (n < 14)%nat).
    { destruct (Nat.eq_dec n 14) as [->|]; [|lia]. exfalso. unfold width in Wd. change (inject_Z (2 ^ Z.of_nat 14)) with (inject_Z 16384) in Wd.
      assert ((F * / inject_Z 16384 < F / 10000)%Q). { unfold Qdiv. apply Qmult_lt_l; [exact HF|]. reflexivity. } lra. }
    destruct (find_known sp2 l K1') as [zl El]. destruct (find_known sp2 r K2) as [zr Er].
    destruct (find_in sp2 l zl El) as (l' & Ll & Il). destruct (find_in sp2 r zr Er) as (r' & Lr & Ir).
    unfold space_at. rewrite El, Er. destruct (negb (zl =? zr) || Qeq_bool l 0) eqn:Sp.
    + eexists _, _, [S n; S n]. split; [reflexivity|]. split; [exact S2|]. split; [intros x Hx; auto|]. pose proof (width_S n) as Ws. assert (Hh : ((r - l) / 2 == width n / 2)%Q) by (rewrite Wd; reflexivity).
      assert (Hw : (width n / 2 * 2 == width n)%Q) by field. set (h := (width n / 2)%Q) in *. set (d := ((r - l) / 2)%Q) in *. clearbody h d.
      split; [|split].
      * assert (Par : forall a b, (l <= a)%Q -> (b <= r)%Q -> exists pl zl0 pr zr0, In (pl, zl0) sp2 /\ In (pr, zr0) sp2 /\ (pl <= a)%Q /\ (b <= pr)%Q /\ (pr - pl == width (S n) * 2)%Q).
        { intros a b Ha Hb. exists l', zl, r', zr. split; [exact Il|]. split; [exact Ir|]. split; [lra|]. split; [lra|]. rewrite Ws. lra. }
        constructor; [|constructor; [|constructor]]; cbn [fst snd].
        -- split; try lia; try lra. right. apply Par; lra.
        -- split; try lia; try lra. right. apply Par; lra.
      * cbn [cost]. replace (15 - n)%nat with (S (15 - S n)) by lia. cbn [Nat.pow]. assert (1 <= 2 ^ (15 - S n))%nat by (apply Nat.neq_0_lt_0, Nat.pow_nonzero; lia). lia.
      * intros f Fp La Lb. right. destruct (Qlt_le_dec f (l + d)) as [Lf|Lf]; [exists (l, (l + d)%Q)|exists ((l + d)%Q, r)]; cbn [In fst snd]; repeat split; auto; lra.
    + apply Bool.orb_false_elim in Sp as [Z0 L0]. apply Bool.negb_false_iff, Z.eqb_eq in Z0.
      eexists _, [], []. split; [reflexivity|]. split; [exact S2|]. split; [intros x Hx; auto|]. split; [constructor|]. split.
      * cbn [cost]. replace (15 - n)%nat with (S (14 - n)) by lia. cbn [Nat.pow]. assert (1 <= 2 ^ (14 - n))%nat by (apply Nat.neq_0_lt_0, Nat.pow_nonzero; lia). lia.
      * intros f Fp La Lb. left. exists l', zl, r', zr. split; [exact Il|]. split; [exact Ir|]. split; [lra|]. split; [lra|]. right. split; [|exact Z0].
        apply Qeq_bool_neq in L0. destruct (S2 l' zl Il) as (B & _). rewrite <- Ll in *. destruct (Qlt_le_dec 0 l); [assumption|]. exfalso. apply L0. lra.
  - assert (Lt : (r - l < G)%Q). { destruct (Qlt_le_dec (r - l) G) as [|L]; [assumption|]. apply Qle_bool_iff in L. congruence. }
    exists sp, [], []. split; [reflexivity|]. split; [exact Hs|]. split; [auto|]. split; [constructor|]. split.
    + cbn [cost]. replace (15 - n)%nat with (S (14 - n)) by lia. cbn [Nat.pow]. assert (1 <= 2 ^ (14 - n))%nat by (apply Nat.neq_0_lt_0, Nat.pow_nonzero; lia). lia.
    + intros f Fp La Lb. left. destruct Pa as [->|(pl & zl & pr & zr & I1 & I2 & A & B & C)].
      * exfalso. unfold width in Wd. change (inject_Z (2 ^ Z.of_nat 0)) with 1%Q in Wd. assert ((F / 10000 < F * / 1)%Q) by (unfold Qdiv; apply Qmult_lt_l; [exact HF|reflexivity]). lra.
      * exists pl, zl, pr, zr. split; [exact I1|]. split; [exact I2|]. split; [lra|]. split; [lra|]. left. rewrite C, <- Wd.
        assert (X : (F / 5000 == G * 2)%Q) by (field). rewrite X. lra.
Qed.

Lemma explore_spec fuel : forall sp queue ns, sound_space sp -> known sp 0 -> Forall2 (fun lr m => waiting sp (fst lr) (snd lr) m) queue ns -> (cost ns <= fuel)%nat ->
  exists sp', explore sizing fuel G sp queue = Ok sp' /\ sound_space sp' /\ (forall x, In x sp -> In x sp') /\
    (forall f, (0 < f)%Q -> accounted sp f \/ (exists lr, In lr queue /\ (fst lr <= f)%Q /\ (f <= snd lr)%Q) -> accounted sp' f).
Proof.
  induction fuel as [|fuel IH]; intros sp queue ns Hs H0 Hw Hc.
  - destruct Hw as [|[l r] n queue ns W Hw].
    + exists sp. split; [reflexivity|]. split; [exact Hs|]. split; [auto|]. intros f Fp [A|(lr & [] & _)]. exact A.
    + exfalso. cbn [cost] in Hc. destruct W as [Dp _ _ _ _]. replace (15 - n)%nat with (S (14 - n)) in Hc by lia. cbn [Nat.pow] in Hc.
      assert (1 <= 2 ^ (14 - n))%nat by (apply Nat.neq_0_lt_0, Nat.pow_nonzero; lia). lia.
  - destruct Hw as [|[l r] n queue ns W Hw].
    + exists sp. split; [reflexivity|]. split; [exact Hs|]. split; [auto|]. intros f Fp [A|(lr & [] & _)]. exact A.
    + cbn [fst snd] in W. destruct (turn_spec sp l r n Hs H0 W) as (sp1 & pushed & ms & Et & S1 & M1 & W1 & C1 & A1).
      cbn [explore]. rewrite Et. cbn [bind fst snd].
      destruct (IH sp1 (queue ++ pushed) (ns ++ ms)) as (sp' & E' & S' & M' & A').
      * exact S1.
      * destruct H0 as (f' & z & A & B). exists f', z. auto.
      * apply Forall2_app; [|exact W1]. clear - Hw M1. induction Hw as [|lr m q ms Wl _ IHw]; constructor; [exact (waiting_mono sp sp1 _ _ m M1 Wl)|exact IHw].
      * rewrite cost_app. cbn [cost] in Hc, C1. lia.
      * exists sp'. split; [exact E'|]. split; [exact S'|]. split; [auto|]. intros f Fp Hf. apply A'; [exact Fp|]. destruct Hf as [A|(lr & [<-|I] & L1 & L2)].
        -- left. exact (accounted_mono sp sp1 f M1 A).
        -- cbn [fst snd] in L1, L2. destruct (A1 f Fp L1 L2) as [A|(lr & I & B)]; [left; exact A|right]. exists lr. split; [apply in_or_app; right; exact I|exact B].
        -- right. exists lr. split; [apply in_or_app; left; exact I|]. split; assumption.
Qed.

(** Number of turns that are always enough. *)
Definition enough : nat := (2 ^ 15 - 1)%nat.

Lemma explore_all fuel : (enough <= fuel)%nat -> exists sp, explore sizing fuel G [(0%Q, 0)] [(0%Q, F)] = Ok sp /\ sound_space sp /\ (forall f, (0 < f)%Q -> (f <= F)%Q -> accounted sp f).
Proof.
  intros Hf. destruct (explore_spec fuel [(0%Q, 0)] [(0%Q, F)] [0%nat]) as (sp & E & A & _ & B).
  - intros f z [[=<- <-]|[]]. split; [lra|]. split; [lra|]. left. split; reflexivity.
  - exists 0%Q, 0. split; [reflexivity|left; reflexivity].
  - constructor; [|constructor]. cbn [fst snd]. split; [lia|lra|lra| |left; reflexivity]. unfold width. change (inject_Z (2 ^ Z.of_nat 0)) with 1%Q. field.
  - unfold enough in Hf. cbn [cost]. rewrite Nat.add_0_r, Nat.sub_0_r. exact Hf.
  - exists sp. split; [exact E|]. split; [exact A|]. intros f Fp Fl. apply B; [exact Fp|]. right. exists (0%Q, F). split; [left; reflexivity|]. cbn [fst snd]. split; lra.
Qed.
End S.

(** ** The table of the best periods. *)
Lemma put_in z p l z' p' : In (z', p') (pareto_put z p l) -> (z' = z /\ p' = p) \/ In (z', p') l.
Proof.
  induction l as [|[y q] l IH]; cbn [pareto_put].
  - intros [[=<- <-]|[]]. left. split; reflexivity.
  - destruct (Z.ltb_spec z y); [intros [[=<- <-]|H']; [left; split; reflexivity|right; exact H']|]. destruct (Z.eqb_spec z y) as [->|Ne].
    + destruct (negb (Qle_bool q p)) eqn:E; (intros [[=<- <-]|I]; [|right; right; exact I]); [left; split; reflexivity|right; left; reflexivity].
    + intros [[=<- <-]|I]; [right; left; reflexivity|]. destruct (IH I); [left; assumption|right; right; assumption].
Qed.
Lemma put_has z p l : exists p', In (z, p') (pareto_put z p l) /\ (p' <= p)%Q.
Proof.
  induction l as [|[y q] l IH]; cbn [pareto_put]; [exists p; split; [left; reflexivity|lra]|]. destruct (Z.ltb_spec z y); [exists p; split; [left; reflexivity|lra]|].
  destruct (Z.eqb_spec z y) as [->|Ne].
  - destruct (Qle_bool q p) eqn:E; cbn [negb]; [apply Qle_bool_iff in E; exists q|exists p]; (split; [left; reflexivity|lra]).
  - destruct IH as (p' & I & L). exists p'. split; [right; exact I|exact L].
Qed.
Lemma put_keeps z p l z' p' : In (z', p') l -> exists p'', In (z', p'') (pareto_put z p l) /\ (p'' <= p')%Q.
Proof.
  induction l as [|[y q] l IH]; [intros []|]. cbn [pareto_put]. intros I. destruct (Z.ltb_spec z y); [exists p'; split; [right; exact I|lra]|].
  destruct (Z.eqb_spec z y) as [->|Ne].
  - destruct I as [[=<- <-]|I]; [|exists p'; split; [right; exact I|lra]].
    destruct (Qle_bool q p) eqn:E; cbn [negb]; [exists q; split; [left; reflexivity|lra]|]. exists p. split; [left; reflexivity|].
    destruct (Qlt_le_dec p q) as [L|L]; [lra|]. exfalso. destruct (Qle_bool q p) eqn:E'; [discriminate|]. apply Qle_bool_iff in L. congruence.
  - destruct I as [[=<- <-]|I]; [exists q; split; [left; reflexivity|lra]|]. destruct (IH I) as (p'' & I' & L). exists p''. split; [right; exact I'|exact L].
Qed.
Definition by_size (a b : Z * Q) : Prop := fst a < fst b.
Lemma put_sorted z p l : StronglySorted by_size l -> StronglySorted by_size (pareto_put z p l).
Proof.
  induction l as [|[y q] l IH]; intros H; cbn [pareto_put]; [repeat constructor|]. inversion_clear H as [|? ? S1 F1].
  destruct (Z.ltb_spec z y).
  - constructor; [constructor; assumption|]. constructor; [exact H|]. eapply Forall_impl; [|exact F1]. unfold by_size. cbn. intros; lia.
  - destruct (Z.eqb_spec z y) as [->|Ne].
    + constructor; [exact S1|]. eapply Forall_impl; [|exact F1]. unfold by_size. cbn. intros; lia.
    + constructor; [apply IH; exact S1|]. apply Forall_forall. intros [z' p'] I. destruct (put_in z p l z' p' I) as [[-> ->]|I']; [unfold by_size; cbn; lia|].
      rewrite Forall_forall in F1. exact (F1 _ I').
Qed.

Lemma pareto_spec sp :
  (forall z p, In (z, p) (pareto sp) -> exists f, In (f, z) sp /\ ~ (f == 0)%Q /\ p = (/ f)%Q) /\
  (forall f z, In (f, z) sp -> ~ (f == 0)%Q -> exists p, In (z, p) (pareto sp) /\ (p <= / f)%Q) /\
  StronglySorted by_size (pareto sp).
Proof.
  unfold pareto. assert (G : forall l acc done,
    (forall z p, In (z, p) acc -> exists f, In (f, z) done /\ ~ (f == 0)%Q /\ p = (/ f)%Q) ->
    (forall f z, In (f, z) done -> ~ (f == 0)%Q -> exists p, In (z, p) acc /\ (p <= / f)%Q) -> StronglySorted by_size acc ->
    let res := fold_left (fun acc fz => if Qeq_bool (fst fz) 0 then acc else pareto_put (snd fz) (/ fst fz)%Q acc) l acc in
    (forall z p, In (z, p) res -> exists f, In (f, z) (done ++ l) /\ ~ (f == 0)%Q /\ p = (/ f)%Q) /\
    (forall f z, In (f, z) (done ++ l) -> ~ (f == 0)%Q -> exists p, In (z, p) res /\ (p <= / f)%Q) /\ StronglySorted by_size res).
  { induction l as [|[f0 z0] l IH]; intros acc done A B C; cbn [fold_left].
    - rewrite app_nil_r. auto.
    - replace (done ++ (f0, z0) :: l) with ((done ++ [(f0, z0)]) ++ l) by (rewrite <- app_assoc; reflexivity). apply IH; cbn [fst snd]; destruct (Qeq_bool f0 0) eqn:E.
      + intros z p I. destruct (A z p I) as (f & I' & R). exists f. split; [apply in_or_app; left; exact I'|exact R].
      + intros z p I. apply Qeq_bool_neq in E. destruct (put_in _ _ _ _ _ I) as [[-> ->]|I'].
        * exists f0. split; [apply in_or_app; right; left; reflexivity|]. split; [exact E|reflexivity].
        * destruct (A z p I') as (f & I2 & R). exists f. split; [apply in_or_app; left; exact I2|exact R].
      + apply Qeq_bool_iff in E. intros f z I Nf. apply in_app_or in I as [I|[[=<- <-]|[]]]; [exact (B f z I Nf)|contradiction].
      + intros f z I Nf. apply in_app_or in I as [I|[[=<- <-]|[]]].
        * destruct (B f z I Nf) as (p & I' & L). destruct (put_keeps z0 (/ f0) acc z p I') as (p' & I2 & L2). exists p'. split; [exact I2|lra].
        * apply put_has.
      + exact C.
      + apply put_sorted, C. }
  exact (G sp [] [] ltac:(intros ? ? []) ltac:(intros ? ? []) ltac:(constructor)).
Qed.
