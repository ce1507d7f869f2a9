(** Frontiers and knee points: proofs about the set operations of the monotonic search. *)
From Coq Require Import QArith Sorted.
From Verif Require Import Base Graph Storage StorageSpec StorageProofs.
Open Scope Z_scope.

Lemma fop_at_two {A} (R : A -> A -> Prop) (Rs : forall x y, R x y -> R y x) l x y : ForallOrdPairs R l -> at_two l x y -> R x y.
Proof.
  intros F (i & j & N & Ei & Ej). revert i j N Ei Ej. induction F as [|a l Fa F IH]; intros i j N Ei Ej; [destruct i; discriminate|].
  rewrite Forall_forall in Fa. destruct i as [|i], j as [|j]; cbn in Ei, Ej; [congruence| | |].
  - injection Ei as <-. apply Fa. eapply nth_error_In; eauto.
  - injection Ej as <-. apply Rs, Fa. eapply nth_error_In; eauto.
  - apply (IH i j); auto.
Qed.

Section Over.
Context (K : list Z) (HK : channel_list K).
Notation valid := (valid K). Notation same := (same K). Notation below := (below K). Notation above := (strictly_above K). Notation wf := (wf K).

Lemma same_below_l a b c : same a b -> below b c -> below a c.
Proof. intros H H' e He. rewrite (H e He). auto. Qed.
Lemma same_below_r a b c : same b c -> below a b -> below a c.
Proof. intros H H' e He. rewrite <- (H e He). auto. Qed.
Lemma above_below a b c : above a b -> below c b -> above a c.
Proof. intros H H' e He. specialize (H e He). specialize (H' e He). lia. Qed.
Lemma uniq_two s x y : wf s -> at_two (flat s) x y -> ~ same x y.
Proof. intros W. apply (fop_at_two (fun a b => ~ same a b)); [|apply wf_uniq, W]. intros a b N H. apply N, same_sym, H. Qed.

(** ** Repeated additions and removals *)
Lemma each_remove_ok : forall l s, (forall x, In x l -> valid x) -> wf s -> exists s', each remove_sd l s = Ok s' /\ wf s' /\
  (forall x, In x (flat s') <-> In x (flat s) /\ forall y, In y l -> ~ same x y).
Proof.
  induction l as [|d l IH]; intros s V W; cbn [each].
  - exists s. split; [reflexivity|]. split; [exact W|]. intros x. split; [intros H; split; [exact H|intros ? []]|tauto].
  - destruct (remove_sd_ok K d s) as (s1 & E1 & W1 & M1); auto; [apply V; left; reflexivity|]. rewrite E1. cbn [bind].
    destruct (IH s1) as (s2 & E2 & W2 & M2); auto; [intros; apply V; right; auto|]. exists s2. split; [exact E2|]. split; [exact W2|].
    intros x. rewrite M2, M1. cbn. split; [intros [[H N] A]; split; [exact H|intros y [<-|Hy]; auto]|]. intros [H A]. auto.
Qed.
Definition mem (s : sds) (x : sd) : Prop := exists y, In y (flat s) /\ same x y.
Lemma in_mem s x : In x (flat s) -> mem s x. Proof. intros H. exists x. split; [exact H|apply same_refl]. Qed.
Lemma add_sd_mem d s : valid d -> wf s -> exists s', add_sd d s = Ok s' /\ wf s' /\ (forall x, In x (flat s') -> In x (flat s) \/ x = d) /\ (forall x, mem s' x <-> mem s x \/ same x d).
Proof.
  intros V W. destruct (add_sd_ok K d s V W) as (s' & E & W' & M). exists s'. split; [exact E|]. split; [exact W'|]. split.
  - intros x Hx. apply M in Hx. tauto.
  - intros x. split.
    + intros (y & Hy & Hs). apply M in Hy as [Hy|[-> _]]; [left; exists y; auto|right; exact Hs].
    + intros [(y & Hy & Hs)|Hs]; [exists y; split; [apply M; auto|exact Hs]|].
      destruct (existsb (eqb K d) (flat s)) eqn:X.
      * apply existsb_exists in X as (y & Hy & Xs). apply eqb_same in Xs. exists y. split; [apply M; auto|eapply same_trans; eauto].
      * exists d. split; [|exact Hs]. apply M. right. split; [reflexivity|]. intros y Hy Hs'. apply eqb_same in Hs'. enough (false = true) by discriminate.
        rewrite <- X. apply existsb_exists. exists y. auto.
Qed.
Lemma each_add_ok : forall l s, (forall x, In x l -> valid x) -> wf s -> exists s', each add_sd l s = Ok s' /\ wf s' /\
  (forall x, In x (flat s') -> In x (flat s) \/ In x l) /\ (forall x, mem s' x <-> mem s x \/ exists y, In y l /\ same x y).
Proof.
  induction l as [|d l IH]; intros s V W; cbn [each].
  - exists s. split; [reflexivity|]. split; [exact W|]. split; [auto|]. intros x. split; [auto|]. intros [H|(y & [] & _)]. exact H.
  - destruct (add_sd_mem d s) as (s1 & E1 & W1 & I1 & M1); auto; [apply V; left; reflexivity|]. rewrite E1. cbn [bind].
    destruct (IH s1) as (s2 & E2 & W2 & I2 & M2); auto; [intros; apply V; right; auto|]. exists s2. split; [exact E2|]. split; [exact W2|]. split.
    + intros x Hx. apply I2 in Hx as [Hx|Hx]; [apply I1 in Hx as [Hx| ->]; auto|]; right; [left|right]; auto.
    + intros x. rewrite M2, M1. split.
      * intros [[H|H]|(y & Hy & Hs)]; [auto|right; exists d; split; [left; reflexivity|exact H]|right; exists y; split; [right; exact Hy|exact Hs]].
      * intros [H|(y & [<-|Hy] & Hs)]; [auto|auto|right; exists y; auto].
Qed.

(** ** C41: histories *)
Lemma set_run_ok : forall cs s h, (forall c, In c cs -> valid (arg c)) -> wf s -> (forall x, valid x -> (mem s x <-> present K x h)) ->
  exists s', set_run cs s = Ok s' /\ wf s' /\ (forall x, valid x -> (mem s' x <-> present K x (rev cs ++ h))).
Proof.
  induction cs as [|c cs IH]; intros s h V W P; cbn [set_run rev].
  - exists s. auto.
  - assert (Vc : valid (arg c)) by (apply V; left; reflexivity). destruct c as [d|d]; cbn [arg] in Vc.
    + destruct (add_sd_mem d s Vc W) as (s1 & E1 & W1 & I1 & M1). rewrite E1. cbn [bind]. destruct (IH s1 (Add d :: h)) as (s2 & E2 & W2 & P2); auto.
      * intros; apply V; right; auto.
      * intros x Vx. rewrite M1, P by exact Vx. cbn. split; (intros [H|H]; [right|left]); auto using same_sym.
      * exists s2. split; [exact E2|]. split; [exact W2|]. intros x Vx. rewrite P2 by exact Vx. rewrite <- app_assoc. reflexivity.
    + destruct (remove_sd_ok K d s Vc W) as (s1 & E1 & W1 & M1). rewrite E1. cbn [bind]. destruct (IH s1 (Remove d :: h)) as (s2 & E2 & W2 & P2); auto.
      * intros; apply V; right; auto.
      * intros x Vx. cbn. rewrite <- P by exact Vx. split.
        -- intros (y & Hy & Hs). apply M1 in Hy as [Hy N]. split; [|exists y; auto]. intros Hd. apply N. eapply same_trans; [apply same_sym; exact Hs|apply same_sym, Hd].
        -- intros [N (y & Hy & Hs)]. exists y. split; [|exact Hs]. apply M1. split; [exact Hy|]. intros Hd. apply N. apply same_sym. eapply same_trans; eauto.
      * exists s2. split; [exact E2|]. split; [exact W2|]. intros x Vx. rewrite P2 by exact Vx. rewrite <- app_assoc. reflexivity.
Qed.
Lemma has_loop_ok d : valid d -> forall l b, (forall x, In x l -> valid x) -> has_loop d l b = Ok (b || existsb (eqb K d) l).
Proof.
  intros V. induction l as [|x l IH]; intros b H; cbn; [rewrite orb_false_r; reflexivity|]. rewrite (sd_eq_ok K) by (auto; apply H; left; reflexivity). cbn.
  rewrite IH by (intros; apply H; right; auto). rewrite orb_assoc. reflexivity.
Qed.
Lemma has_sd_ok d s : valid d -> wf s -> exists b, has_sd d s = Ok b /\ (b = true <-> mem s d).
Proof.
  intros V W. unfold has_sd. rewrite has_loop_ok by (auto; intros x Hx; eapply wf_valid; eauto). eexists. split; [reflexivity|]. cbn.
  rewrite existsb_exists. unfold mem. setoid_rewrite eqb_same. reflexivity.
Qed.
Lemma get_next_ok s : wf s -> (flat s = [] -> get_next s = Undefined) /\ (flat s <> [] -> exists d, get_next s = Ok d /\ In d (flat s) /\ forall x, In x (flat s) -> sd_size d <= sd_size x).
Proof.
  intros W. unfold get_next. pose proof (wf_sorted K s W) as S. pose proof (wf_bucket K s W) as B. destruct (ss_map s) as [|[k l] m] eqn:E.
  - split; [reflexivity|]. intros N. destruct N. unfold flat. rewrite E. reflexivity.
  - destruct (B k l (or_introl eq_refl)) as [N Bl]. destruct l as [|d l]; [congruence|]. destruct (Bl d (or_introl eq_refl)) as [Vd Ed]. split.
    + intros F. unfold flat in F. rewrite E in F. discriminate.
    + intros _. exists d. split; [reflexivity|]. split; [unfold flat; rewrite E; left; reflexivity|]. intros x Hx. apply in_flat in Hx as (k' & l' & H & Hx). rewrite E in H.
      destruct (B k' l' H) as [_ Bl']. destruct (Bl' x Hx) as [_ Ex]. destruct H as [H|H]; [injection H as <- <-; lia|].
      unfold ksorted in S. cbn in S. inversion S as [|? ? _ F]; subst. rewrite Forall_forall in F. assert (sd_size d < sd_size x); [|lia]. apply F. apply in_map_iff. exists (sd_size x, l'). auto.
Qed.

(** ** C42: the infeasible frontier *)
Lemma unsat_loop_ok d : valid d -> forall l sub, (forall x, In x l -> valid x) -> wf sub -> (forall y, In y (flat sub) -> below y d /\ ~ same y d) ->
  exists r, unsat_loop d l sub = Ok r /\
  match r with
  | None => exists x, In x l /\ below d x
  | Some sub' => wf sub' /\ (forall y, In y (flat sub') -> below y d /\ ~ same y d) /\ (forall x, mem sub x -> mem sub' x) /\ (forall x, In x l -> mem sub' x \/ (~ below x d /\ ~ below d x))
  end.
Proof.
  intros V. induction l as [|x l IH]; intros sub Vl W Hs; cbn [unsat_loop].
  - eexists. split; [reflexivity|]. cbn. split; [exact W|]. split; [exact Hs|]. split; [auto|intros ? []].
  - assert (Vx : valid x) by (apply Vl; left; reflexivity). assert (Vl' : forall y, In y l -> valid y) by (intros; apply Vl; right; auto).
    rewrite (back_ok K) by auto. cbn [bind]. destruct (leb K x d) eqn:Lx.
    + rewrite (sd_neq_ok K) by auto. cbn [bind]. destruct (eqb K x d) eqn:Eq; cbn [negb].
      * rewrite (back_ok K) by auto. cbn [bind]. apply eqb_same in Eq. assert (B : below d x) by (apply same_below, same_sym, Eq). apply leb_below in B as B'. rewrite B'.
        eexists. split; [reflexivity|]. cbn. exists x. auto.
      * destruct (add_sd_mem x sub Vx W) as (sub1 & E1 & W1 & I1 & M1). rewrite E1. cbn [bind].
        apply leb_below in Lx. assert (Nx : ~ same x d) by (intros Hx; apply eqb_same in Hx; congruence). destruct (IH sub1) as (r & E & R); auto.
        { intros y Hy. apply I1 in Hy as [Hy| ->]; auto. }
        exists r. split; [exact E|]. destruct r as [sub'|].
        -- destruct R as (W' & Hs' & Mo & Ml). split; [exact W'|]. split; [exact Hs'|]. split; [intros z Hz; apply Mo, M1; auto|].
           intros z [<-|Hz]; [left; apply Mo, M1; right; apply same_refl|auto].
        -- destruct R as (z & Hz & B). exists z. split; [right; exact Hz|exact B].
    + cbn [bind]. rewrite (back_ok K) by auto. cbn [bind]. destruct (leb K d x) eqn:Ld.
      * apply leb_below in Ld. eexists. split; [reflexivity|]. cbn. exists x. auto.
      * destruct (IH sub) as (r & E & R); auto. exists r. split; [exact E|]. destruct r as [sub'|].
        -- destruct R as (W' & Hs' & Mo & Ml). split; [exact W'|]. split; [exact Hs'|]. split; [exact Mo|]. intros z [<-|Hz]; [right|auto].
           rewrite <- !leb_below, Lx, Ld. split; discriminate.
        -- destruct R as (z & Hz & B). exists z. split; [right; exact Hz|exact B].
Qed.
Definition antichain (s : sds) : Prop := forall x y, In x (flat s) -> In y (flat s) -> below x y -> same x y.
Definition covers (s : sds) (v : sd) : Prop := exists x, In x (flat s) /\ below v x.
Lemma add_to_unsat_ok d s : valid d -> wf s -> antichain s -> exists b s', add_to_unsat d s = Ok (b, s') /\ wf s' /\ antichain s' /\
  (forall v, covers s' v <-> covers s v \/ below v d) /\ (b = false -> s' = s /\ covers s d).
Proof.
  intros V W A. unfold add_to_unsat. destruct (unsat_loop_ok d V (flat s) sds_empty) as (r & E & R); auto.
  { intros x Hx; eapply wf_valid; [|exact Hx]; assumption. } { apply wf_empty. } { intros y []. }
  rewrite E. cbn [bind]. destruct r as [sub|].
  - destruct R as (Wsub & Hsub & _ & Ml). destruct (each_remove_ok (flat sub) s) as (s1 & E1 & W1 & M1); auto. { intros x Hx; eapply wf_valid; [|exact Hx]; assumption. }
    rewrite E1. cbn [bind]. destruct (add_sd_mem d s1 V W1) as (s2 & E2 & W2 & I2 & M2). rewrite E2. cbn [bind].
    assert (S1 : forall x, In x (flat s1) -> ~ below x d /\ ~ below d x).
    { intros x Hx. apply M1 in Hx as [Hx N]. destruct (Ml x Hx) as [(y & Hy & Hs)|H]; [destruct (N y Hy Hs)|exact H]. }
    eexists _, _. split; [reflexivity|]. split; [exact W2|]. split; [|split; [|discriminate]].
    + intros x y Hx Hy B. apply I2 in Hx. apply I2 in Hy. destruct Hx as [Hx| ->], Hy as [Hy| ->].
      * apply M1 in Hx as [Hx _]. apply M1 in Hy as [Hy _]. apply A; auto.
      * apply S1 in Hx. tauto.
      * apply S1 in Hy. tauto.
      * apply same_refl.
    + intros v. split.
      * intros (x & Hx & B). apply I2 in Hx as [Hx| ->]; [|auto]. left. apply M1 in Hx as [Hx _]. exists x. auto.
      * assert (Cd : below v d -> covers s2 v). { intros B. destruct (proj2 (M2 d) (or_intror (same_refl K d))) as (y & Hy & Hs). exists y. split; [exact Hy|]. eapply same_below_r; eauto. }
        intros [(x & Hx & B)|B]; [|auto]. destruct (Ml x Hx) as [(y & Hy & Hs)|N].
        -- apply Cd. eapply below_trans; [exact B|]. apply Hsub in Hy as [Hy _]. eapply same_below_l; eauto.
        -- assert (In x (flat s1)). { apply M1. split; [exact Hx|]. intros y Hy Hs. apply Hsub in Hy as [Hy _]. apply (proj1 N). eapply same_below_l; eauto. }
           destruct (proj2 (M2 x) (or_introl (in_mem s1 x H))) as (y & Hy & Hs). exists y. split; [exact Hy|]. eapply same_below_r; eauto.
  - destruct R as (x & Hx & B). eexists _, _. split; [reflexivity|]. split; [exact W|]. split; [exact A|]. split.
    + intros v. split; [auto|]. intros [H|H]; [exact H|]. exists x. split; [exact Hx|]. eapply below_trans; eauto.
    + intros _. split; [reflexivity|]. exists x. auto.
Qed.
Lemma unsat_run_ok : forall ps s, (forall p, In p ps -> valid p) -> wf s -> antichain s -> exists s', unsat_run ps s = Ok s' /\ wf s' /\ antichain s' /\
  (forall v, covers s' v <-> covers s v \/ exists p, In p ps /\ below v p).
Proof.
  induction ps as [|p ps IH]; intros s V W A; cbn [unsat_run].
  - exists s. split; [reflexivity|]. split; [exact W|]. split; [exact A|]. intros v. split; [auto|]. intros [H|(p & [] & _)]. exact H.
  - destruct (add_to_unsat_ok p s) as (b & s1 & E1 & W1 & A1 & C1 & _); auto; [apply V; left; reflexivity|]. rewrite E1. cbn [bind snd].
    destruct (IH s1) as (s2 & E2 & W2 & A2 & C2); auto; [intros; apply V; right; auto|]. exists s2. split; [exact E2|]. split; [exact W2|]. split; [exact A2|].
    intros v. rewrite C2, C1. split.
    + intros [[H|H]|(q & Hq & B)]; [auto|right; exists p; split; [left; reflexivity|exact H]|right; exists q; split; [right; exact Hq|exact B]].
    + intros [H|(q & [<-|Hq] & B)]; [auto|auto|right; exists q; auto].
Qed.
Lemma contains_ok test f : forall l, (forall x, In x l -> test x = Ok (f x)) -> contains_loop test l = Ok (existsb f l).
Proof.
  induction l as [|x l IH]; intros H; [reflexivity|]. cbn. rewrite H by (left; reflexivity). cbn. destruct (f x); [reflexivity|]. apply IH. intros; apply H; right; auto.
Qed.
Lemma unsat_contains_ok d s : valid d -> wf s -> exists b, unsat_contains d s = Ok b /\ (b = true <-> covers s d).
Proof.
  intros V W. unfold unsat_contains. rewrite (contains_ok _ (leb K d)) by (intros x Hx; apply back_ok; [exact V|eapply wf_valid; eauto]).
  eexists. split; [reflexivity|]. rewrite existsb_exists. unfold covers. setoid_rewrite leb_below. reflexivity.
Qed.

(** ** C43: the feasible frontier *)
Definition reached (s : sds) (v : sd) : Prop := exists x, In x (flat s) /\ below x v.
Lemma sat_contains_ok d s : valid d -> wf s -> exists b, sat_contains d s = Ok b /\ (b = true <-> reached s d).
Proof.
  intros V W. unfold sat_contains. rewrite (contains_ok _ (fun x => leb K x d)) by (intros x Hx; apply fore_ok; [exact V|eapply wf_valid; eauto]).
  eexists. split; [reflexivity|]. rewrite existsb_exists. unfold reached. setoid_rewrite leb_below. reflexivity.
Qed.
Lemma sat_loop_ok d : valid d -> forall l, (forall x, In x l -> valid x) ->
  sat_loop d l sds_empty = Ok (if existsb (fun x => leb K x d) l then None else Some sds_empty).
Proof.
  intros V. induction l as [|x l IH]; intros Vl; [reflexivity|]. cbn [sat_loop existsb]. rewrite (fore_ok K) by (auto; apply Vl; left; reflexivity). cbn [bind].
  destruct (leb K x d) eqn:L; [reflexivity|]. rewrite (back_ok K) by (auto; apply Vl; left; reflexivity). cbn [bind]. rewrite L. apply IH. intros; apply Vl; right; auto.
Qed.
Lemma add_to_sat_ok d s : valid d -> wf s -> exists s', add_to_sat d s = Ok s' /\ wf s' /\ (forall v, reached s' v <-> reached s v \/ below d v) /\
  (forall x, In x (flat s') -> In x (flat s) \/ x = d).
Proof.
  intros V W. unfold add_to_sat. rewrite sat_loop_ok by (auto; intros x Hx; eapply wf_valid; eauto). cbn [bind]. destruct (existsb _ (flat s)) eqn:X.
  - apply existsb_exists in X as (x & Hx & L). apply leb_below in L. exists s. split; [reflexivity|]. split; [exact W|]. split; [|auto]. intros v. split; [auto|].
    intros [H|H]; [exact H|]. exists x. split; [exact Hx|]. eapply below_trans; eauto.
  - cbn. destruct (add_sd_mem d s V W) as (s1 & E1 & W1 & I1 & M1). exists s1. split; [exact E1|]. split; [exact W1|]. split; [|exact I1]. intros v. split.
    + intros (x & Hx & B). apply I1 in Hx as [Hx| ->]; [left; exists x; auto|auto].
    + intros [(x & Hx & B)|B].
      * destruct (proj2 (M1 x) (or_introl (in_mem s x Hx))) as (y & Hy & Hs). exists y. split; [exact Hy|]. eapply same_below_l; [apply same_sym; exact Hs|exact B].
      * destruct (proj2 (M1 d) (or_intror (same_refl K d))) as (y & Hy & Hs). exists y. split; [exact Hy|]. eapply same_below_l; [apply same_sym; exact Hs|exact B].
Qed.
Lemma sat_run_ok : forall ps s, (forall p, In p ps -> valid p) -> wf s -> exists s', sat_run ps s = Ok s' /\ wf s' /\
  (forall v, reached s' v <-> reached s v \/ exists p, In p ps /\ below p v) /\ (forall x, In x (flat s') -> In x (flat s) \/ In x ps).
Proof.
  induction ps as [|p ps IH]; intros s V W; cbn [sat_run].
  - exists s. split; [reflexivity|]. split; [exact W|]. split; [|auto]. intros v. split; [auto|]. intros [H|(p & [] & _)]. exact H.
  - destruct (add_to_sat_ok p s) as (s1 & E1 & W1 & C1 & I1); auto; [apply V; left; reflexivity|]. rewrite E1. cbn [bind snd].
    destruct (IH s1) as (s2 & E2 & W2 & C2 & I2); auto; [intros; apply V; right; auto|]. exists s2. split; [exact E2|]. split; [exact W2|]. split.
    + intros v. rewrite C2, C1. split.
      * intros [[H|H]|(q & Hq & B)]; [auto|right; exists p; split; [left; reflexivity|exact H]|right; exists q; split; [right; exact Hq|exact B]].
      * intros [H|(q & [<-|Hq] & B)]; [auto|auto|right; exists q; auto].
    + intros x Hx. apply I2 in Hx as [Hx|Hx]; [apply I1 in Hx as [Hx| ->]|]; cbn; auto.
Qed.

(** ** C44: knee points *)
Definition reaches (s : sds) (v : sd) : Prop := exists k, In k (flat s) /\ above v k.
Lemma mem_reaches s k v : mem s k -> above v k -> reaches s v.
Proof. intros (y & Hy & Hs) A. exists y. split; [exact Hy|]. intros e He. rewrite <- (Hs e He). auto. Qed.
Lemma extensions_loop_ok d : valid d -> forall l sub, (forall x, In x l -> valid x) -> wf sub -> (forall y, In y (flat sub) -> below d y) ->
  exists r, extensions_loop d l sub = Ok r /\
  match r with
  | None => exists x, In x l /\ below x d
  | Some sub' => wf sub' /\ (forall y, In y (flat sub') -> below d y)
  end.
Proof.
  intros V. induction l as [|x l IH]; intros sub Vl W Hs; cbn [extensions_loop].
  - eexists. split; [reflexivity|]. cbn. auto.
  - assert (Vx : valid x) by (apply Vl; left; reflexivity). assert (Vl' : forall y, In y l -> valid y) by (intros; apply Vl; right; auto).
    rewrite (fore_ok K) by auto. cbn [bind]. destruct (leb K d x) eqn:Ld.
    + apply leb_below in Ld. destruct (add_sd_mem x sub Vx W) as (sub1 & E1 & W1 & I1 & M1). rewrite E1. cbn [bind]. destruct (IH sub1) as (r & E & R); auto.
      { intros y Hy. apply I1 in Hy as [Hy| ->]; auto. }
      exists r. split; [exact E|]. destruct r as [sub'|]; [exact R|]. destruct R as (z & Hz & B). exists z. split; [right; exact Hz|exact B].
    + rewrite (fore_ok K) by auto. cbn [bind]. destruct (leb K x d) eqn:Lx.
      * apply leb_below in Lx. eexists. split; [reflexivity|]. cbn. exists x. auto.
      * destruct (IH sub) as (r & E & R); auto. exists r. split; [exact E|]. destruct r as [sub'|]; [exact R|]. destruct R as (z & Hz & B). exists z. split; [right; exact Hz|exact B].
Qed.
Lemma add_to_extensions_ok d s : valid d -> wf s -> exists s', add_to_extensions d s = Ok s' /\ wf s' /\ (forall v, reaches s' v <-> reaches s v \/ above v d).
Proof.
  intros V W. unfold add_to_extensions. destruct (extensions_loop_ok d V (flat s) sds_empty) as (r & E & R); auto.
  { intros x Hx; eapply wf_valid; [|exact Hx]; assumption. } { apply wf_empty. } { intros y []. }
  rewrite E. cbn [bind]. destruct r as [sub|].
  - destruct R as (Wsub & Hsub). destruct (each_remove_ok (flat sub) s) as (s1 & E1 & W1 & M1); auto. { intros x Hx; eapply wf_valid; [|exact Hx]; assumption. }
    rewrite E1. cbn [bind]. destruct (add_sd_mem d s1 V W1) as (s2 & E2 & W2 & I2 & M2). exists s2. split; [exact E2|]. split; [exact W2|]. intros v. split.
    + intros (k & Hk & A). apply I2 in Hk as [Hk| ->]; [|auto]. left. apply M1 in Hk as [Hk _]. exists k. auto.
    + assert (Cd : above v d -> reaches s2 v) by (intros A; apply (mem_reaches s2 d v); [apply M2; right; apply same_refl|exact A]).
      intros [(k & Hk & A)|A]; [|auto]. destruct (existsb (eqb K k) (flat sub)) eqn:X.
      * apply existsb_exists in X as (y & Hy & Hs). apply eqb_same in Hs. apply Cd. eapply above_below; [exact A|]. eapply same_below_r; [apply same_sym; exact Hs|]. apply Hsub, Hy.
      * apply (mem_reaches s2 k v); [|exact A]. apply M2. left. apply in_mem. apply M1. split; [exact Hk|]. intros y Hy Hs. apply eqb_same in Hs. enough (false = true) by discriminate.
        rewrite <- X. apply existsb_exists. exists y. auto.
  - destruct R as (x & Hx & B). exists s. split; [reflexivity|]. split; [exact W|]. intros v. split; [auto|]. intros [H|H]; [exact H|]. exists x. split; [exact Hx|]. eapply above_below; eauto.
Qed.
Lemma extend_edges_ok d k : valid d -> valid k -> forall es ext, incl es K -> wf ext -> exists ext', extend_edges d k es ext = Ok ext' /\ wf ext' /\
  (forall v, reaches ext' v <-> reaches ext v \/ exists e, In e es /\ above v (set_quantity e (quantity d e) k)).
Proof.
  intros Vd Vk. induction es as [|e es IH]; intros ext I W; cbn [extend_edges].
  - exists ext. split; [reflexivity|]. split; [exact W|]. intros v. split; [auto|]. intros [H|(e & [] & _)]. exact H.
  - assert (He : In e K) by (apply I; left; reflexivity). rewrite get_quantity_in by (rewrite (valid_edges _ _ Vd); exact He). cbn [bind].
    destruct (add_to_extensions_ok (set_quantity e (quantity d e) k) ext) as (x1 & E1 & W1 & R1); auto. { apply set_quantity_valid; auto. }
    rewrite E1. cbn [bind]. destruct (IH x1) as (x2 & E2 & W2 & R2); auto. { intros z Hz; apply I; right; exact Hz. }
    exists x2. split; [exact E2|]. split; [exact W2|]. intros v. rewrite R2, R1. split.
    + intros [[H|H]|(e' & He' & A)]; [auto|right; exists e; split; [left; reflexivity|exact H]|right; exists e'; split; [right; exact He'|exact A]].
    + intros [H|(e' & [<-|He'] & A)]; [auto|auto|right; exists e'; auto].
Qed.
Lemma extend_all_ok d : valid d -> forall l ext, (forall k, In k l -> valid k) -> wf ext ->
  exists ext', each (fun k ext => extend_edges d k (get_edges k) ext) l ext = Ok ext' /\ wf ext' /\
  (forall v, reaches ext' v <-> reaches ext v \/ exists k e, In k l /\ In e K /\ above v (set_quantity e (quantity d e) k)).
Proof.
  intros Vd. induction l as [|k l IH]; intros ext Vl W; cbn [each].
  - exists ext. split; [reflexivity|]. split; [exact W|]. intros v. split; [auto|]. intros [H|(k & e & [] & _)]. exact H.
  - assert (Vk : valid k) by (apply Vl; left; reflexivity). rewrite (valid_edges _ _ Vk). destruct (extend_edges_ok d k Vd Vk K ext) as (x1 & E1 & W1 & R1); auto using incl_refl.
    rewrite E1. cbn [bind]. destruct (IH x1) as (x2 & E2 & W2 & R2); auto. { intros; apply Vl; right; auto. }
    exists x2. split; [exact E2|]. split; [exact W2|]. intros v. rewrite R2, R1. split.
    + intros [[H|(e & He & A)]|(k' & e & Hk & He & A)]; [auto|right; exists k, e; cbn; auto|right; exists k', e; cbn; auto].
    + intros [H|(k' & e & [<-|Hk] & He & A)]; [auto|left; right; exists e; auto|right; exists k', e; auto].
Qed.
Lemma subsumed_knees_ok d : valid d -> forall l sub, (forall k, In k l -> valid k) -> wf sub -> exists sub', subsumed_knees d l sub = Ok sub' /\ wf sub' /\
  (forall k, In k (flat sub') -> In k (flat sub) \/ (In k l /\ below k d)) /\ (forall x, mem sub' x <-> mem sub x \/ exists k, In k l /\ below k d /\ same x k).
Proof.
  intros V. induction l as [|k l IH]; intros sub Vl W; cbn [subsumed_knees].
  - exists sub. split; [reflexivity|]. split; [exact W|]. split; [auto|]. intros x. split; [auto|]. intros [H|(k & [] & _)]. exact H.
  - assert (Vk : valid k) by (apply Vl; left; reflexivity). rewrite (back_ok K) by auto. cbn [bind].
    assert (S : exists sub1, (if leb K k d then add_sd k sub else Ok sub) = Ok sub1 /\ wf sub1 /\ (forall x, In x (flat sub1) -> In x (flat sub) \/ (x = k /\ below k d)) /\ (forall x, mem sub1 x <-> mem sub x \/ (below k d /\ same x k))).
    { destruct (leb K k d) eqn:L.
      - apply leb_below in L. destruct (add_sd_mem k sub Vk W) as (s1 & E1 & W1 & I1 & M1). exists s1. split; [exact E1|]. split; [exact W1|]. split.
        + intros x Hx. apply I1 in Hx as [Hx| ->]; auto.
        + intros x. rewrite M1. tauto.
      - exists sub. split; [reflexivity|]. split; [exact W|]. split; [auto|]. intros x. split; [auto|]. intros [H|[B _]]; [exact H|]. apply leb_below in B. congruence. }
    destruct S as (sub1 & -> & W1 & I1 & M1). cbn [bind]. destruct (IH sub1) as (sub2 & E2 & W2 & I2 & M2); auto. { intros; apply Vl; right; auto. }
    exists sub2. split; [exact E2|]. split; [exact W2|]. split.
    + intros x Hx. apply I2 in Hx as [Hx|[Hx B]]; [apply I1 in Hx as [Hx|[-> B]]|]; cbn; auto.
    + intros x. rewrite M2, M1. split.
      * intros [[H|[B S]]|(k' & Hk & B & S)]; [auto|right; exists k; cbn; auto|right; exists k'; cbn; auto].
      * intros [H|(k' & [<-|Hk] & B & S)]; [auto|auto|right; exists k'; auto].
Qed.
Lemma below_dec a b : {below a b} + {~ below a b}.
Proof. destruct (leb K a b) eqn:E; [left; apply leb_below, E|right; rewrite <- leb_below, E; discriminate]. Qed.
Lemma not_below_some a b : ~ below a b -> exists e, In e K /\ quantity b e < quantity a e.
Proof.
  rewrite <- leb_below. unfold leb. intros N. apply not_true_iff_false in N. clear - N. induction K as [|e K' IH]; cbn in *; [discriminate|].
  destruct (Z.leb_spec (quantity a e) (quantity b e)); [|exists e; cbn; auto]. cbn in N. destruct (IH N) as (e' & He & L). exists e'. cbn. auto.
Qed.
Lemma add_point_ok d unsat knees : valid d -> wf unsat -> antichain unsat -> wf knees -> (forall v x, reaches knees v -> In x (flat unsat) -> ~ below v x) ->
  exists unsat' knees', add_point d unsat knees = Ok (unsat', knees') /\ wf unsat' /\ antichain unsat' /\ wf knees' /\
  (forall v, covers unsat' v <-> covers unsat v \/ below v d) /\
  (forall v, reaches knees' v <-> reaches knees v /\ ~ below v d).
Proof.
  intros V Wu Au Wk Hinv. unfold add_point. destruct (add_to_unsat_ok d unsat V Wu Au) as (b & u' & E & Wu' & Au' & Cu & Fb). rewrite E. cbn [bind fst snd]. destruct b.
  - destruct (subsumed_knees_ok d V (flat knees) sds_empty) as (sub & E1 & Ws & Is & Ms). { intros x Hx; eapply wf_valid; [|exact Hx]; assumption. } { apply wf_empty. }
    rewrite E1. cbn [bind]. destruct (each_remove_ok (flat sub) knees) as (k1 & E2 & W1 & M1); auto. { intros x Hx; eapply wf_valid; [|exact Hx]; assumption. }
    rewrite E2. cbn [bind]. destruct (extend_all_ok d V (flat sub) sds_empty) as (ext & E3 & We & Re). { intros x Hx; eapply wf_valid; [|exact Hx]; assumption. } { apply wf_empty. }
    rewrite E3. cbn [bind]. destruct (each_add_ok (flat ext) k1) as (k2 & E4 & W2 & I2 & M2); auto. { intros x Hx; eapply wf_valid; [|exact Hx]; assumption. }
    rewrite E4. cbn [bind]. exists u', k2. split; [reflexivity|]. split; [exact Wu'|]. split; [exact Au'|]. split; [exact W2|]. split; [exact Cu|].
    assert (Hsub : forall k, In k (flat sub) -> In k (flat knees) /\ below k d). { intros k Hk. apply Is in Hk as [[]|H]. exact H. }
    assert (Re' : forall v, reaches ext v <-> exists k e, In k (flat sub) /\ In e K /\ above v (set_quantity e (quantity d e) k)).
    { intros v. rewrite Re. split; [|auto]. intros [(k & [] & _)|H]. exact H. }
    assert (SQ : forall k e v, In k (flat sub) -> In e K -> (above v (set_quantity e (quantity d e) k) <-> above v k /\ quantity d e < quantity v e)).
    { intros k e v Hk He. apply Hsub in Hk as [Hk B]. assert (Vk : valid k) by (eapply wf_valid; [|eassumption]; assumption). split.
      - intros A. assert (L : quantity d e < quantity v e). { specialize (A e He). rewrite (set_quantity_quantity K HK) in A by exact Vk. rewrite Z.eqb_refl in A. exact A. }
        split; [|exact L]. intros e' He'. specialize (A e' He'). rewrite (set_quantity_quantity K HK) in A by exact Vk. destruct (Z.eqb_spec e' e) as [Ee|]; [|exact A]. rewrite Ee in *. specialize (B e He). lia.
      - intros [A L] e' He'. rewrite (set_quantity_quantity K HK) by exact Vk. destruct (Z.eqb_spec e' e) as [Ee|]; [rewrite Ee; exact L|]. apply A, He'. }
    intros v. split.
    + intros (k & Hk & A). apply I2 in Hk as [Hk|Hk].
      * apply M1 in Hk as [Hk N]. split; [exists k; auto|]. intros B. assert (Bk : below k d). { intros e He. specialize (A e He). specialize (B e He). lia. }
        assert (Mk : mem sub k). { apply Ms. right. exists k. split; [exact Hk|]. split; [exact Bk|apply same_refl]. }
        destruct Mk as (y & Hy & Hs). apply (N y Hy Hs).
      * assert (R : reaches ext v) by (exists k; auto). apply Re' in R as (k' & e & Hk' & He & A'). apply SQ in A' as [A' L]; auto. split.
        -- exists k'. split; [apply Hsub, Hk'|exact A'].
        -- intros B. specialize (B e He). lia.
    + intros [(k & Hk & A) N]. destruct (existsb (eqb K k) (flat sub)) eqn:X.
      * apply existsb_exists in X as (y & Hy & Hs). apply eqb_same in Hs. apply not_below_some in N as (e & He & L).
        assert (R : reaches ext v). { apply Re'. exists y, e. split; [exact Hy|]. split; [exact He|]. apply SQ; auto. split; [|exact L]. intros e' He'. rewrite <- (Hs e' He'). apply A, He'. }
        destruct R as (z & Hz & Az). apply (mem_reaches k2 z v); [|exact Az]. apply M2. right. exists z. split; [exact Hz|apply same_refl].
      * apply (mem_reaches k2 k v); [|exact A]. apply M2. left. apply in_mem. apply M1. split; [exact Hk|]. intros y Hy Hs. apply eqb_same in Hs. enough (false = true) by discriminate.
        rewrite <- X. apply existsb_exists. exists y. auto.
  - destruct (Fb eq_refl) as [-> (x & Hx & B)]. exists unsat, knees. split; [reflexivity|]. split; [exact Wu|]. split; [exact Au|]. split; [exact Wk|]. split; [exact Cu|].
    intros v. split; [|tauto]. intros R. split; [exact R|]. intros Bv. apply (Hinv v x R Hx). eapply below_trans; eauto.
Qed.
Lemma knee_run_ok : forall ps unsat knees, (forall p, In p ps -> valid p) -> wf unsat -> antichain unsat -> wf knees -> (forall v, reaches knees v -> ~ covers unsat v) ->
  exists unsat' knees', knee_run ps unsat knees = Ok (unsat', knees') /\ wf unsat' /\ antichain unsat' /\ wf knees' /\
  (forall v, covers unsat' v <-> covers unsat v \/ exists p, In p ps /\ below v p) /\
  (forall v, reaches knees' v <-> reaches knees v /\ forall p, In p ps -> ~ below v p).
Proof.
  induction ps as [|p ps IH]; intros u k V Wu Au Wk Hinv; cbn [knee_run].
  - exists u, k. split; [reflexivity|]. split; [exact Wu|]. split; [exact Au|]. split; [exact Wk|]. split.
    + intros v. split; [auto|]. intros [H|(p & [] & _)]. exact H.
    + intros v. split; [|tauto]. intros H. split; [exact H|intros ? []].
  - destruct (add_point_ok p u k) as (u1 & k1 & E1 & Wu1 & Au1 & Wk1 & C1 & R1); auto. { apply V; left; reflexivity. } { intros v x R Hx B. apply (Hinv v R). exists x. auto. }
    rewrite E1. cbn [bind fst snd]. destruct (IH u1 k1) as (u2 & k2 & E2 & Wu2 & Au2 & Wk2 & C2 & R2); auto. { intros; apply V; right; auto. }
    { intros v R C. apply R1 in R as [R N]. apply C1 in C as [C|C]; [apply (Hinv v R C)|auto]. }
    exists u2, k2. split; [exact E2|]. split; [exact Wu2|]. split; [exact Au2|]. split; [exact Wk2|]. split.
    + intros v. rewrite C2, C1. split.
      * intros [[H|H]|(q & Hq & B)]; [auto|right; exists p; split; [left; reflexivity|exact H]|right; exists q; split; [right; exact Hq|exact B]].
      * intros [H|(q & [<-|Hq] & B)]; [auto|auto|right; exists q; auto].
    + intros v. rewrite R2, R1. split.
      * intros [[H N] A]. split; [exact H|]. intros q [<-|Hq]; auto.
      * intros [H A]. split; [split; [exact H|apply A; left; reflexivity]|]. intros q Hq. apply A. right. exact Hq.
Qed.

(** A cut is a point raised to the largest integer on the channels that are not critical. *)
Lemma raise_ok critical : forall buffers d, incl buffers K -> valid d -> valid (raise_non_critical critical buffers d) /\
  forall e, quantity (raise_non_critical critical buffers d) e = if existsb (Z.eqb e) buffers && negb (existsb (Z.eqb e) critical) then int_max else quantity d e.
Proof.
  unfold raise_non_critical. induction buffers as [|b bs IH]; intros d I V; cbn [fold_left]; [split; [exact V|reflexivity]|].
  assert (Hb : In b K) by (apply I; left; reflexivity). assert (I' : incl bs K) by (intros z Hz; apply I; right; exact Hz).
  destruct (existsb (Z.eqb b) critical) eqn:X.
  - destruct (IH d I' V) as [V' Q]. split; [exact V'|]. intros e. rewrite Q. cbn [existsb]. destruct (Z.eqb_spec e b) as [->|]; [|reflexivity]. rewrite X. cbn. rewrite andb_false_r. reflexivity.
  - destruct (IH (set_quantity b int_max d) I') as [V' Q]; [apply set_quantity_valid; auto|]. split; [exact V'|]. intros e. rewrite Q, (set_quantity_quantity K HK) by exact V.
    cbn [existsb]. destruct (Z.eqb_spec e b) as [->|]; [|reflexivity]. rewrite X. cbn. destruct (existsb (Z.eqb b) bs); reflexivity.
Qed.

(** ** C46: cone queries *)
Lemma back_cone_edges_ok d x lb : valid d -> valid x -> forall es b, incl es K ->
  back_cone_edges d x lb es b = Ok (b && forallb (fun e => (quantity d e <=? quantity x e) || (quantity d e <=? bound_of lb e)) es).
Proof.
  intros Vd Vx. induction es as [|e es IH]; intros b I; cbn [back_cone_edges forallb]; [rewrite andb_true_r; reflexivity|].
  assert (He : In e K) by (apply I; left; reflexivity). rewrite !get_quantity_in by (rewrite ?(valid_edges _ _ Vd), ?(valid_edges _ _ Vx); exact He). cbn [bind].
  rewrite IH by (intros z Hz; apply I; right; exact Hz). rewrite !Z.gtb_ltb, !Z.ltb_antisym. f_equal.
  destruct (quantity d e <=? quantity x e), (quantity d e <=? bound_of lb e), b; reflexivity.
Qed.
Definition in_bounded_cone (lb : bounds) (d x : sd) : Prop := forall e, In e K -> quantity d e <= quantity x e \/ quantity d e <= bound_of lb e.
Lemma back_cone_loop_ok d lb : valid d -> forall l, (forall x, In x l -> valid x) ->
  exists b, back_cone_loop d lb l (Some false) = Ok b /\ (b = true <-> exists x, In x l /\ ~ same d x /\ in_bounded_cone lb d x).
Proof.
  intros Vd. induction l as [|x l IH]; intros Vl; cbn [back_cone_loop].
  - exists false. split; [reflexivity|]. split; [discriminate|]. intros (x & [] & _).
  - assert (Vx : valid x) by (apply Vl; left; reflexivity). destruct IH as (b & E & B). { intros; apply Vl; right; auto. }
    rewrite (sd_neq_ok K) by auto. cbn [bind]. destruct (eqb K d x) eqn:X; cbn [negb].
    + cbn [bind]. exists b. split; [exact E|]. rewrite B. apply eqb_same in X. split; [intros (y & Hy & N); exists y; cbn; auto|]. intros (y & [<-|Hy] & N & C); [contradiction|exists y; auto].
    + rewrite (valid_edges _ _ Vd), back_cone_edges_ok by auto using incl_refl. cbn [bind andb].
      assert (N : ~ same d x) by (intros H; apply eqb_same in H; congruence).
      destruct (forallb _ K) eqn:F.
      * exists true. split; [reflexivity|]. split; [|reflexivity]. intros _. exists x. split; [left; reflexivity|]. split; [exact N|]. intros e He. rewrite forallb_forall in F. specialize (F e He). lia.
      * exists b. split; [exact E|]. rewrite B. split; [intros (y & Hy & H); exists y; cbn; auto|]. intros (y & [<-|Hy] & Ny & C); [|exists y; auto]. exfalso. enough (false = true) by discriminate.
        rewrite <- F. apply forallb_forall. intros e He. specialize (C e He). lia.
Qed.
Lemma is_in_back_cone_ok d lb s : valid d -> wf s ->
  match flat s with
  | [] => is_in_back_cone d lb s = Ok false
  | x :: _ => (same d x -> is_in_back_cone d lb s = Undefined) /\
              (~ same d x -> exists b, is_in_back_cone d lb s = Ok b /\ (b = true <-> exists y, In y (flat s) /\ ~ same d y /\ in_bounded_cone lb d y))
  end.
Proof.
  intros Vd W. unfold is_in_back_cone. assert (Vl : forall x, In x (flat s) -> valid x) by (intros; eapply wf_valid; [|eassumption]; assumption).
  destruct (flat s) as [|x l]; [reflexivity|]. assert (Vx : valid x) by (apply Vl; left; reflexivity). cbn [back_cone_loop]. rewrite (sd_neq_ok K) by auto. cbn [bind]. split.
  - intros H. apply eqb_same in H. rewrite H. reflexivity.
  - intros N. pose proof (back_cone_loop_ok d lb Vd (x :: l) Vl) as (b & E & B). exists b. split; [|exact B]. rewrite <- E. cbn [back_cone_loop]. rewrite (sd_neq_ok K) by auto. cbn [bind].
    destruct (eqb K d x) eqn:X; [apply eqb_same in X; contradiction|]. reflexivity.
Qed.
Lemma fore_cone_edges_ok d x : valid d -> valid x -> forall es b, incl es K -> fore_cone_edges d x es b = Ok (b && forallb (fun e => quantity x e <=? quantity d e) es).
Proof.
  intros Vd Vx. induction es as [|e es IH]; intros b I; cbn [fore_cone_edges forallb]; [rewrite andb_true_r; reflexivity|].
  assert (He : In e K) by (apply I; left; reflexivity). rewrite !get_quantity_in by (rewrite ?(valid_edges _ _ Vd), ?(valid_edges _ _ Vx); exact He). cbn [bind].
  rewrite IH by (intros z Hz; apply I; right; exact Hz). rewrite !Z.ltb_antisym. f_equal. destruct (quantity x e <=? quantity d e), b; reflexivity.
Qed.
Lemma fore_cone_loop_ok d : valid d -> forall l, (forall x, In x l -> valid x) ->
  exists b, fore_cone_loop d l = Ok b /\ (b = true <-> exists x, In x l /\ ~ same d x /\ below x d).
Proof.
  intros Vd. induction l as [|x l IH]; intros Vl; cbn [fore_cone_loop].
  - exists false. split; [reflexivity|]. split; [discriminate|]. intros (x & [] & _).
  - assert (Vx : valid x) by (apply Vl; left; reflexivity). destruct IH as (b & E & B). { intros; apply Vl; right; auto. }
    rewrite (sd_neq_ok K) by auto. cbn [bind]. destruct (eqb K d x) eqn:X; cbn [negb].
    + exists b. split; [exact E|]. rewrite B. apply eqb_same in X. split; [intros (y & Hy & N); exists y; cbn; auto|]. intros (y & [<-|Hy] & N & C); [contradiction|exists y; auto].
    + rewrite (valid_edges _ _ Vd), fore_cone_edges_ok by auto using incl_refl. cbn [bind andb]. fold (leb K x d).
      assert (N : ~ same d x) by (intros H; apply eqb_same in H; congruence). destruct (leb K x d) eqn:F.
      * apply leb_below in F. exists true. split; [reflexivity|]. split; [|reflexivity]. intros _. exists x. cbn. auto.
      * exists b. split; [exact E|]. rewrite B. split; [intros (y & Hy & H); exists y; cbn; auto|]. intros (y & [<-|Hy] & Ny & C); [|exists y; auto]. apply leb_below in C. congruence.
Qed.
Lemma is_in_fore_cone_ok d s : valid d -> wf s -> exists b, is_in_fore_cone d s = Ok b /\ (b = true <-> exists x, In x (flat s) /\ ~ same d x /\ below x d).
Proof. intros Vd W. apply fore_cone_loop_ok; [exact Vd|]. intros; eapply wf_valid; eauto. Qed.

(** ** updateFeasibleSet and updateInfeasibleSet *)
Lemma stop_scan r d x b : valid d -> valid x -> forall es, incl es K ->
  stop_when (fun e => do t <- compare_quantities r d x e; Ok (t && negb b)) true es = Ok (existsb (fun e => r (quantity d e) (quantity x e)) es && negb b).
Proof.
  intros Vd Vx. induction es as [|e es IHe]; intros I; [reflexivity|]. cbn [stop_when existsb]. unfold compare_quantities at 1. assert (He : In e K) by (apply I; left; reflexivity).
  rewrite !get_quantity_in by (rewrite ?(valid_edges _ _ Vd), ?(valid_edges _ _ Vx); exact He). cbn [bind]. rewrite IHe by (intros z Hz; apply I; right; exact Hz).
  destruct (r (quantity d e) (quantity x e)), b; cbn; rewrite ?andb_false_r; reflexivity.
Qed.
Lemma scan_found r d : forall l s, valid d -> (forall x, In x l -> valid x) -> scan r d l s true = Ok s.
Proof.
  induction l as [|x l IH]; intros s Vd Vl; [reflexivity|]. cbn [scan]. rewrite (valid_edges _ _ Vd), stop_scan by (auto using incl_refl; apply Vl; left; reflexivity).
  cbn [bind negb]. rewrite andb_false_r. cbn [bind]. apply IH; auto. intros; apply Vl; right; auto.
Qed.
Lemma scan_ok r d : forall l s, valid d -> (forall x, In x l -> valid x) ->
  scan r d l s false = if existsb (fun x => existsb (fun e => r (quantity d e) (quantity x e)) K) l then add_sd d s else Ok s.
Proof.
  induction l as [|x l IH]; intros s Vd Vl; [reflexivity|]. cbn [scan existsb]. rewrite (valid_edges _ _ Vd), stop_scan by (auto using incl_refl; apply Vl; left; reflexivity).
  cbn [bind negb]. rewrite andb_true_r. assert (Vl' : forall y, In y l -> valid y) by (intros; apply Vl; right; auto). destruct (existsb (fun e => r (quantity d e) (quantity x e)) K); cbn [orb].
  - destruct (add_sd d s); cbn [bind]; [apply scan_found; auto|reflexivity..].
  - cbn [bind]. apply IH; auto.
Qed.
Lemma each_minimum_ok : forall l s, wf s -> ForallOrdPairs (fun a b => ~ same a b) l -> (forall x, In x l -> In x (flat s)) ->
  exists s', each remove_non_minimum l s = Ok s' /\ wf s' /\ (forall x, In x (flat s') -> In x (flat s)) /\ (forall v, reached s' v <-> reached s v) /\
  (forall x y, In x l -> In x (flat s') -> In y (flat s') -> below y x -> same x y).
Proof.
  induction l as [|d l IH]; intros s W U Hl; cbn [each].
  - exists s. split; [reflexivity|]. split; [exact W|]. split; [auto|]. split; [reflexivity|intros ? ? []].
  - assert (Hd : In d (flat s)) by (apply Hl; left; reflexivity). assert (Vd : valid d) by (eapply wf_valid; [|eassumption]; assumption). inversion U as [|? ? Ud U']; subst. rewrite Forall_forall in Ud.
    assert (S : exists s1, remove_non_minimum d s = Ok s1 /\ wf s1 /\ (forall x, In x (flat s1) -> In x (flat s)) /\ (forall v, reached s1 v <-> reached s v) /\
                (forall x, In x l -> In x (flat s1)) /\ (In d (flat s1) -> forall y, In y (flat s1) -> below y d -> same d y)).
    { unfold remove_non_minimum. destruct (Z.leb_spec (set_count s) 1) as [L|L].
      - exists s. split; [reflexivity|]. split; [exact W|]. split; [auto|]. split; [reflexivity|]. split; [intros; apply Hl; right; auto|]. intros _ y Hy _.
        unfold set_count in L. destruct (flat s) as [|a [|b t]]; cbn [length] in L; [destruct Hd| |lia]. destruct Hd as [->|[]], Hy as [->|[]]. apply same_refl.
      - destruct (is_in_fore_cone_ok d s Vd W) as (b & E & B). rewrite E. cbn [bind]. destruct b.
        + destruct (proj1 B eq_refl) as (y & Hy & Ny & By). destruct (remove_sd_ok K d s Vd W) as (s1 & E1 & W1 & M1). exists s1. split; [exact E1|]. split; [exact W1|].
          split; [intros x Hx; apply M1 in Hx; tauto|]. split; [|split].
          * intros v. split; [intros (x & Hx & Bx); exists x; split; [apply M1 in Hx; tauto|exact Bx]|]. intros (x & Hx & Bx). destruct (eqb K x d) eqn:X.
            -- apply eqb_same in X. exists y. split; [apply M1; split; [exact Hy|intros H; apply Ny, same_sym, H]|]. eapply below_trans; [exact By|]. eapply same_below_l; [apply same_sym; exact X|exact Bx].
            -- exists x. split; [|exact Bx]. apply M1. split; [exact Hx|]. intros H. apply eqb_same in H. congruence.
          * intros x Hx. apply M1. split; [apply Hl; right; exact Hx|]. intros H. apply (Ud x Hx). apply same_sym, H.
          * intros H. apply M1 in H as [_ H]. destruct H. apply same_refl.
        + exists s. split; [reflexivity|]. split; [exact W|]. split; [auto|]. split; [reflexivity|]. split; [intros; apply Hl; right; auto|]. intros _ y Hy By.
          destruct (eqb K d y) eqn:X; [apply eqb_same, X|]. enough (false = true) by discriminate. apply B. exists y. split; [exact Hy|]. split; [|exact By]. intros H. apply eqb_same in H. congruence. }
    destruct S as (s1 & E1 & W1 & I1 & R1 & L1 & D1). rewrite E1. cbn [bind]. destruct (IH s1 W1 U' L1) as (s2 & E2 & W2 & I2 & R2 & D2). exists s2. split; [exact E2|]. split; [exact W2|].
    split; [auto|]. split; [intros v; rewrite R2, R1; reflexivity|]. intros x y [<-|Hx] Hx' Hy B; [|apply (D2 x y); auto]. apply D1; auto.
Qed.
Lemma flat_count s : set_count s = 0 <-> flat s = [].
Proof. unfold set_count. destruct (flat s); cbn [length]; split; try congruence; lia. Qed.
Lemma update_feasible_ok d s : valid d -> wf s -> antichain s -> exists s', update_feasible_set d s = Ok s' /\ wf s' /\ antichain s' /\ (forall v, reached s' v <-> reached s v \/ below d v).
Proof.
  intros V W A. unfold update_feasible_set.
  assert (Add : exists s', add_sd d s = Ok s' /\ wf s' /\ (forall x, In x (flat s') -> In x (flat s) \/ x = d) /\ (forall v, reached s' v <-> reached s v \/ below d v)).
  { destruct (add_sd_mem d s V W) as (s1 & E1 & W1 & I1 & M1). exists s1. split; [exact E1|]. split; [exact W1|]. split; [exact I1|]. intros v. split.
    - intros (x & Hx & B). apply I1 in Hx as [Hx| ->]; [left; exists x; auto|auto].
    - intros [(x & Hx & B)|B].
      + destruct (proj2 (M1 x) (or_introl (in_mem s x Hx))) as (y & Hy & Hs). exists y. split; [exact Hy|]. eapply same_below_l; [apply same_sym; exact Hs|exact B].
      + destruct (proj2 (M1 d) (or_intror (same_refl K d))) as (y & Hy & Hs). exists y. split; [exact Hy|]. eapply same_below_l; [apply same_sym; exact Hs|exact B]. }
  destruct (Z.eqb_spec (set_count s) 0) as [C|C].
  - apply flat_count in C. destruct Add as (s1 & E1 & W1 & I1 & R1). exists s1. split; [exact E1|]. split; [exact W1|]. split; [|exact R1].
    intros x y Hx Hy _. apply I1 in Hx. apply I1 in Hy. rewrite C in *. destruct Hx as [[]| ->], Hy as [[]| ->]. apply same_refl.
  - assert (S1 : exists s1, (if sd_size d <=? first_key (ss_map s) then add_sd d s else scan (fun a b => a <? b) d (flat s) s false) = Ok s1 /\ wf s1 /\ (forall v, reached s1 v <-> reached s v \/ below d v)).
    { destruct (sd_size d <=? first_key (ss_map s)); [destruct Add as (s1 & E1 & W1 & _ & R1); exists s1; auto|]. rewrite scan_ok by (auto; intros y Hy; exact (wf_valid K s y W Hy)).
      destruct (existsb _ (flat s)) eqn:X; [destruct Add as (s1 & E1 & W1 & _ & R1); exists s1; auto|]. exists s. split; [reflexivity|]. split; [exact W|]. intros v. split; [auto|]. intros [H|B]; [exact H|].
      destruct (flat s) as [|x l] eqn:F; [destruct C; apply flat_count, F|]. exists x. rewrite F. split; [left; reflexivity|]. eapply below_trans; [|exact B]. intros e He.
      cbn [existsb] in X. apply orb_false_iff in X as [X _]. destruct (Z.leb_spec (quantity x e) (quantity d e)) as [L|L]; [exact L|]. enough (false = true) by discriminate. rewrite <- X. apply existsb_exists. exists e. split; [exact He|lia]. }
    destruct S1 as (s1 & -> & W1 & R1). cbn [bind]. destruct (each_minimum_ok (flat s1) s1 W1 (wf_uniq K s1 W1)) as (s2 & E2 & W2 & I2 & R2 & D2); auto.
    exists s2. split; [exact E2|]. split; [exact W2|]. split.
    + intros x y Hx Hy B. apply same_sym. apply (D2 y x); auto.
    + intros v. rewrite R2, R1. reflexivity.
Qed.
Lemma feasible_run_ok : forall ps s, (forall p, In p ps -> valid p) -> wf s -> antichain s -> exists s', feasible_run ps s = Ok s' /\ wf s' /\ antichain s' /\
  (forall v, reached s' v <-> reached s v \/ exists p, In p ps /\ below p v).
Proof.
  induction ps as [|p ps IH]; intros s V W A; cbn [feasible_run].
  - exists s. split; [reflexivity|]. split; [exact W|]. split; [exact A|]. intros v. split; [auto|]. intros [H|(p & [] & _)]. exact H.
  - destruct (update_feasible_ok p s) as (s1 & E1 & W1 & A1 & C1); auto; [apply V; left; reflexivity|]. rewrite E1. cbn [bind].
    destruct (IH s1) as (s2 & E2 & W2 & A2 & C2); auto; [intros; apply V; right; auto|]. exists s2. split; [exact E2|]. split; [exact W2|]. split; [exact A2|].
    intros v. rewrite C2, C1. split.
    + intros [[H|H]|(q & Hq & B)]; [auto|right; exists p; split; [left; reflexivity|exact H]|right; exists q; split; [right; exact Hq|exact B]].
    + intros [H|(q & [<-|Hq] & B)]; [auto|auto|right; exists q; auto].
Qed.
(** With two stored points or more, updateInfeasibleSet reads an uninitialised variable. *)
Lemma update_infeasible_undefined d lb s : valid d -> wf s -> (2 <= length (flat s))%nat -> update_infeasible_set d lb s = Undefined.
Proof.
  intros V W L. unfold update_infeasible_set. destruct (Z.eqb_spec (set_count s) 0) as [C|C]; [unfold set_count in C; lia|].
  assert (S1 : exists s1, (if sd_size d >=? last_key (ss_map s) 0 then add_sd d s else scan (fun a b => a >? b) d (flat s) s false) = Ok s1 /\ wf s1 /\ (2 <= length (flat s1))%nat).
  { destruct (add_sd_ok K d s V W) as (s1 & E1 & W1 & M1). assert (L1 : (2 <= length (flat s1))%nat).
    { assert (I : incl (flat s) (flat s1)) by (intros x Hx; apply M1; auto). assert (N : NoDup (flat s)).
      { pose proof (wf_uniq K s W) as U. clear - U. induction U as [|a l F U IH]; constructor; auto. intros H. rewrite Forall_forall in F. apply (F a H). apply same_refl. }
      pose proof (NoDup_incl_length N I). lia. }
    destruct (sd_size d >=? last_key (ss_map s) 0); [exists s1; auto|]. rewrite scan_ok by (auto; intros y Hy; exact (wf_valid K s y W Hy)). destruct (existsb _ _); [exists s1; auto|exists s; auto]. }
  destruct S1 as (s1 & -> & W1 & L1). cbn [bind]. pose proof (fun x => is_in_back_cone_ok x lb s1) as Q. assert (Vl : forall x, In x (flat s1) -> valid x) by (intros; eapply wf_valid; [|eassumption]; assumption).
  assert (C1 : set_count s1 <=? 1 = false) by (unfold set_count; lia).
  destruct (flat s1) as [|x l]; [cbn in L1; lia|]. cbn [each]. unfold remove_non_maximum at 1. rewrite C1. destruct (Q x (Vl x (or_introl eq_refl)) W1) as [U _]. rewrite U by apply same_refl. reflexivity.
Qed.
End Over.
