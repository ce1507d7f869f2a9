(** Proofs about the monotonic optimisation. *)
From Coq Require Import QArith Lia Sorted.
From Verif Require Import Base Graph Storage StorageSpec StorageProofs StorageSets Dse MonoOpt MonoOptSpec.
Open Scope Z_scope.

(** ** Copies of a distribution that differ by quantities *)
Definition frame (l : channels) : list (Z * Z) := map (fun c => (fst c, fst (snd c))) l.
Definition like (a b : sd) : Prop := sd_edge_count a = sd_edge_count b /\ sd_thr a = sd_thr b /\ frame (sd_chan a) = frame (sd_chan b).
Lemma put_quantity_frame e q : forall l, ksorted l -> In e (map fst l) -> frame (put_quantity e q l) = frame l.
Proof.
  unfold ksorted. induction l as [|[k [t q']] l IH]; cbn; intros S H; [tauto|]. inversion S as [|? ? S1 F]; subst. rewrite Forall_forall in F.
  destruct (Z.ltb_spec e k) as [L|L]; cbn.
  - destruct H as [<-|H]; [lia|]. apply F in H. lia.
  - destruct (Z.eqb_spec e k) as [->|N]; cbn; [reflexivity|]. f_equal. apply IH; [exact S1|]. destruct H as [H|H]; [congruence|exact H].
Qed.
Lemma frame_keys l : map fst l = map fst (frame l).
Proof. unfold frame. rewrite map_map. reflexivity. Qed.
Lemma channels_equal : forall l l', ksorted l -> frame l = frame l' -> (forall e, In e (map fst l) -> find_channel e l = find_channel e l' \/ exists p p', find_channel e l = Some p /\ find_channel e l' = Some p' /\ snd p = snd p') -> l = l'.
Proof.
  unfold ksorted. induction l as [|[k [t q]] l IH]; intros [|[k' [t' q']] l'] S F H; cbn in F; try discriminate; [reflexivity|]. injection F as -> -> F. inversion S as [|? ? S1 Fo]; subst. cbn [map fst] in Fo.
  assert (q = q'). { destruct (H k' (or_introl eq_refl)) as [E|(p & p' & E & E' & X)]; cbn in *; rewrite Z.eqb_refl in *; [injection E as ->|injection E as <-; injection E' as <-]; auto. } subst q'. f_equal. apply IH; [exact S1|exact F|]. intros e He. destruct (H e (or_intror He)) as [E|E]; cbn in E; (destruct (Z.eqb_spec e k') as [->|N]; [rewrite Forall_forall in Fo; apply Fo in He; lia|]); [left; exact E|right; exact E].
Qed.

Section Over.
Context (K : list Z) (HK : channel_list K).
Notation valid := (valid K). Notation same := (same K). Notation below := (below K). Notation above := (strictly_above K). Notation wf := (wf K).
Notation covers := (covers K). Notation reaches := (reaches K). Notation reached := (reached K). Notation antichain := (antichain K).

Lemma like_set a b e q : like a b -> valid a -> In e K -> like (set_quantity e q a) b.
Proof.
  intros (A & B & C) V He. unfold set_quantity. rewrite update_size_is. split; [exact A|]. split; [exact B|]. cbn. rewrite put_quantity_frame; [exact C|exact (valid_sorted K HK a V)|]. change (In e (get_edges a)). rewrite (valid_edges _ _ V). exact He.
Qed.
Lemma like_same a b : like a b -> valid a -> valid b -> same a b -> a = b.
Proof.
  intros (A & B & C) Va Vb S. pose proof (same_size K a b Va Vb S) as Z. assert (E : sd_chan a = sd_chan b).
  { apply channels_equal; [exact (valid_sorted K HK a Va)|exact C|]. intros e He. right. assert (He' : In e K) by (rewrite <- (valid_edges _ _ Va); exact He).
    destruct (find_channel_in e _ He) as (p & Ep). destruct (find_channel_in e (sd_chan b)) as (p' & Ep'); [change (In e (get_edges b)); rewrite (valid_edges _ _ Vb); exact He'|]. exists p, p'. split; [exact Ep|]. split; [exact Ep'|]. specialize (S e He'). rewrite (find_channel_quantity _ _ _ Ep), (find_channel_quantity _ _ _ Ep') in S. exact S. }
  destruct a as [a1 a2 a3 a4], b as [b1 b2 b3 b4]. cbn in *. subst. reflexivity.
Qed.
Lemma set_thr_valid d t : valid d -> valid (set_thr t d). Proof. intros [A B C]. constructor; assumption. Qed.
Lemma set_thr_same d t : same (set_thr t d) d. Proof. intros e _. reflexivity. Qed.
Lemma valid_get d e : valid d -> In e K -> get_quantity d e = Ok (quantity d e).
Proof. intros V He. apply get_quantity_in. rewrite (valid_edges _ _ V). exact He. Qed.
Lemma sum_lt (f h : Z -> Z) l : (forall e, In e l -> f e <= h e) -> (exists e, In e l /\ f e < h e) -> sumZ (map f l) < sumZ (map h l).
Proof.
  induction l as [|x l IH]; intros A (e & I & L); [destruct I|]. cbn [map]. change (sumZ (?a :: ?m)) with (a + sumZ m). assert (Le : sumZ (map f l) <= sumZ (map h l)).
  { clear - A. induction l as [|y l IH]; [cbn; lia|]. cbn [map]. change (sumZ (?a :: ?m)) with (a + sumZ m). pose proof (A y (or_intror (or_introl eq_refl))). assert (sumZ (map f l) <= sumZ (map h l)) by (apply IH; intros z [->|Hz]; apply A; [left|right; right]; auto). lia. }
  pose proof (A x (or_introl eq_refl)). destruct I as [->|I]; [lia|]. assert (sumZ (map f l) < sumZ (map h l)) by (apply IH; [intros z Hz; apply A; right; exact Hz|exists e; auto]). lia.
Qed.
Lemma below_size_lt a b : valid a -> valid b -> below a b -> (exists e, In e K /\ quantity a e < quantity b e) -> sd_size a < sd_size b.
Proof. intros Va Vb L X. rewrite (valid_size _ _ Va), (valid_size _ _ Vb). apply sum_lt; assumption. Qed.
Lemma big_size d m : valid d -> (forall e, In e K -> 0 <= quantity d e) -> (exists e, In e K /\ m <= quantity d e) -> m <= sd_size d.
Proof.
  intros V N (e & I & L). rewrite (valid_size _ _ V). revert N I. clear V HK. induction K as [|x l IH]; intros N I; [destruct I|]. cbn [map]. change (sumZ (?a :: ?m)) with (a + sumZ m). pose proof (N x (or_introl eq_refl)).
  assert (P : 0 <= sumZ (map (quantity d) l)) by (clear - N; induction l as [|y l IH]; [cbn; lia|]; cbn [map]; change (sumZ (?a :: ?m)) with (a + sumZ m); pose proof (N y (or_intror (or_introl eq_refl))); assert (0 <= sumZ (map (quantity d) l)) by (apply IH; intros z [->|Hz]; apply N; [left|right; right]; auto); lia).
  destruct I as [->|I]; [lia|]. assert (m <= sumZ (map (quantity d) l)) by (apply IH; [intros z Hz; apply N; right; exact Hz|exact I]). lia.
Qed.

(** ** The knees after one more point *)
Lemma extensions_add c s : valid c -> wf s -> antichain s -> exists s', add_to_extensions c s = Ok s' /\ wf s' /\ antichain s' /\
  (forall x, In x (flat s') -> In x (flat s) \/ x = c) /\ (forall v, reached s' v <-> reached s v \/ below c v).
Proof.
  intros V W A. unfold add_to_extensions.
  assert (Loop : forall l sub, (forall x, In x l -> valid x) -> wf sub -> exists r, extensions_loop c l sub = Ok r /\
    match r with None => exists x, In x l /\ below x c
    | Some sub' => wf sub' /\ (forall y, In y (flat sub') -> In y (flat sub) \/ In y l /\ below c y) /\ (forall x, mem K sub x -> mem K sub' x) /\ (forall x, In x l -> mem K sub' x \/ (~ below c x /\ ~ below x c)) end).
  { induction l as [|x l IH]; intros sub Vl Ws; cbn [extensions_loop]; [exists (Some sub); split; [reflexivity|]; split; [exact Ws|]; split; [auto|]; split; [auto|intros ? []]|].
    assert (Vx : valid x) by (apply Vl; left; reflexivity). assert (Vl' : forall y, In y l -> valid y) by (intros; apply Vl; right; auto). rewrite (fore_ok K) by auto. cbn [bind]. destruct (leb K c x) eqn:L.
    - destruct (add_sd_mem K x sub Vx Ws) as (sub1 & E1 & W1 & I1 & M1). rewrite E1. cbn [bind]. destruct (IH sub1 Vl' W1) as (r & Er & Hr). exists r. split; [exact Er|]. destruct r as [sub'|].
      + destruct Hr as (H1 & H2 & H3 & H4). split; [exact H1|]. split; [|split].
        * intros y Hy. destruct (H2 y Hy) as [H|[H H']]; [|right; split; [right; exact H|exact H']]. destruct (I1 y H) as [H'| ->]; [left; exact H'|]. right. split; [left; reflexivity|apply leb_below; exact L].
        * intros y Hy. apply H3, M1. left; exact Hy.
        * intros y [<-|Hy]; [left; apply H3, M1; right; apply same_refl|apply H4, Hy].
      + destruct Hr as (y & Hy & B). exists y. split; [right; exact Hy|exact B].
    - rewrite (fore_ok K) by auto. cbn [bind]. destruct (leb K x c) eqn:L2; [exists None; split; [reflexivity|]; exists x; split; [left; reflexivity|apply leb_below; exact L2]|].
      destruct (IH sub Vl' Ws) as (r & Er & Hr). exists r. split; [exact Er|]. destruct r as [sub'|].
      + destruct Hr as (H1 & H2 & H3 & H4). split; [exact H1|]. split; [intros y Hy; destruct (H2 y Hy) as [H|[H H']]; [left; exact H|right; split; [right; exact H|exact H']]|]. split; [exact H3|]. intros y [<-|Hy]; [|apply H4, Hy]. right. split; intros B; apply leb_below in B; congruence.
      + destruct Hr as (y & Hy & B). exists y. split; [right; exact Hy|exact B]. }
  destruct (Loop (flat s) sds_empty) as (r & Er & Hr); [intros x Hx; exact (wf_valid K s x W Hx)|apply wf_empty|]. rewrite Er. cbn [bind]. destruct r as [sub|].
  - destruct Hr as (Ws & I2 & _ & I4). assert (Vsub : forall x, In x (flat sub) -> valid x) by (intros x Hx; exact (wf_valid K sub x Ws Hx)). destruct (each_remove_ok K (flat sub) s Vsub W) as (s1 & E1 & W1 & M1). rewrite E1. cbn [bind].
    destruct (add_sd_mem K c s1 V W1) as (s2 & E2 & W2 & I & M). exists s2. split; [exact E2|]. split; [exact W2|].
    assert (Inc : forall x, In x (flat s1) -> ~ below c x /\ ~ below x c).
    { intros x Hx. apply M1 in Hx. destruct Hx as [Hx N]. destruct (I4 x Hx) as [(y & Hy & S)|H]; [exfalso; exact (N y Hy S)|exact H]. }
    split; [|split].
    + intros x y Hx Hy B. destruct (I x Hx) as [Hx'| ->]; destruct (I y Hy) as [Hy'| ->]; [apply M1 in Hx', Hy'; apply A; tauto|exfalso; exact (proj2 (Inc x Hx') B)|exfalso; exact (proj1 (Inc y Hy') B)|apply same_refl].
    + intros x Hx. destruct (I x Hx) as [Hx'| ->]; [left; apply M1 in Hx'; tauto|right; reflexivity].
    + intros v. split.
      * intros (x & Hx & B). destruct (I x Hx) as [Hx'| ->]; [left; exists x; apply M1 in Hx'; tauto|right; exact B].
      * assert (Hc : forall v, below c v -> reached s2 v). { intros w B. destruct (proj2 (M c) (or_intror (same_refl K c))) as (y & Hy & S). exists y. split; [exact Hy|]. exact (same_below_l K y c w (same_sym K c y S) B). }
        intros [(x & Hx & B)|B]; [|apply Hc, B]. destruct (I4 x Hx) as [(y & Hy & S)|H].
        { apply Hc. destruct (I2 y Hy) as [[]|[_ B']]. apply (below_trans K c y v B'). exact (same_below_l K y x v (same_sym K x y S) B). }
        destruct (proj2 (M x)) as (y & Hy & S).
        { left. exists x. split; [|apply same_refl]. apply M1. split; [exact Hx|]. intros y Hy S. destruct (I2 y Hy) as [[]|[_ B']]. apply (proj1 H). exact (same_below_r K c y x (same_sym K x y S) B'). }
        exists y. split; [exact Hy|]. exact (same_below_l K y x v (same_sym K x y S) B).
  - destruct Hr as (x & Hx & B). exists s. split; [reflexivity|]. split; [exact W|]. split; [exact A|]. split; [auto|]. intros v. split; [auto|]. intros [H|H]; [exact H|]. exists x. split; [exact Hx|]. exact (below_trans K x c v B H).
Qed.

Lemma extend_members d k : valid d -> valid k -> forall es ext, incl es K -> wf ext -> antichain ext -> exists ext', extend_edges d k es ext = Ok ext' /\ wf ext' /\ antichain ext' /\
  (forall x, In x (flat ext') -> In x (flat ext) \/ exists e, In e es /\ x = set_quantity e (quantity d e) k) /\
  (forall v, reached ext' v <-> reached ext v \/ exists e, In e es /\ below (set_quantity e (quantity d e) k) v).
Proof.
  intros Vd Vk. induction es as [|e es IH]; intros ext I W A; cbn [extend_edges].
  - exists ext. split; [reflexivity|]. split; [exact W|]. split; [exact A|]. split; [auto|]. intros v. split; [auto|]. intros [H|(e & [] & _)]. exact H.
  - assert (He : In e K) by (apply I; left; reflexivity). rewrite (valid_get d e Vd He). cbn [bind]. destruct (extensions_add (set_quantity e (quantity d e) k) ext (set_quantity_valid K HK k e _ Vk He) W A) as (e1 & E1 & W1 & A1 & I1 & R1). rewrite E1. cbn [bind].
    destruct (IH e1 (fun z Hz => I z (or_intror Hz)) W1 A1) as (e2 & E2 & W2 & A2 & I2 & R2). exists e2. split; [exact E2|]. split; [exact W2|]. split; [exact A2|]. split.
    + intros x Hx. destruct (I2 x Hx) as [H|(e' & H & ->)]; [|right; exists e'; split; [right; exact H|reflexivity]]. destruct (I1 x H) as [H'| ->]; [left; exact H'|right; exists e; split; [left; reflexivity|reflexivity]].
    + intros v. rewrite R2, R1. split.
      * intros [[H|H]|(e' & H & B)]; [left; exact H|right; exists e; split; [left; reflexivity|exact H]|right; exists e'; split; [right; exact H|exact B]].
      * intros [H|(e' & [<-|H] & B)]; [left; left; exact H|left; right; exact B|right; exists e'; auto].
Qed.
Lemma extend_all_members d : valid d -> forall l ext, (forall k, In k l -> valid k) -> wf ext -> antichain ext -> exists ext', each (fun k ext => extend_edges d k (get_edges k) ext) l ext = Ok ext' /\ wf ext' /\ antichain ext' /\
  (forall x, In x (flat ext') -> In x (flat ext) \/ exists k e, In k l /\ In e K /\ x = set_quantity e (quantity d e) k) /\
  (forall v, reached ext' v <-> reached ext v \/ exists k e, In k l /\ In e K /\ below (set_quantity e (quantity d e) k) v).
Proof.
  intros Vd. induction l as [|k l IH]; intros ext Vl W A; cbn [each].
  - exists ext. split; [reflexivity|]. split; [exact W|]. split; [exact A|]. split; [auto|]. intros v. split; [auto|]. intros [H|(k & e & [] & _)]. exact H.
  - assert (Vk : valid k) by (apply Vl; left; reflexivity). rewrite (valid_edges _ _ Vk). destruct (extend_members d k Vd Vk K ext (incl_refl K) W A) as (e1 & E1 & W1 & A1 & I1 & R1). rewrite E1. cbn [bind].
    destruct (IH e1 (fun z Hz => Vl z (or_intror Hz)) W1 A1) as (e2 & E2 & W2 & A2 & I2 & R2). exists e2. split; [exact E2|]. split; [exact W2|]. split; [exact A2|]. split.
    + intros x Hx. destruct (I2 x Hx) as [H|(k' & e' & H & He & ->)]; [|right; exists k', e'; split; [right; exact H|auto]]. destruct (I1 x H) as [H'|(e & He & ->)]; [left; exact H'|right; exists k, e; split; [left; reflexivity|auto]].
    + intros v. rewrite R2, R1. split.
      * intros [[H|(e & He & H)]|(k' & e' & H & He & B)]; [left; exact H|right; exists k, e; split; [left; reflexivity|auto]|right; exists k', e'; split; [right; exact H|auto]].
      * intros [H|(k' & e' & [<-|H] & He & B)]; [left; left; exact H|left; right; exists e'; auto|right; exists k', e'; auto].
Qed.

Lemma add_point_in d unsat knees u' k' : valid d -> wf unsat -> antichain unsat -> wf knees -> add_point d unsat knees = Ok (u', k') ->
  (covers unsat d /\ k' = knees) \/
  forall x, In x (flat k') -> (In x (flat knees) /\ ~ below x d) \/
    exists k e, In k (flat knees) /\ below k d /\ In e K /\ x = set_quantity e (quantity d e) k /\
      forall k2 e2, In k2 (flat knees) -> below k2 d -> In e2 K -> below (set_quantity e2 (quantity d e2) k2) x -> same (set_quantity e2 (quantity d e2) k2) x.
Proof.
  intros V Wu Au Wk E. unfold add_point in E. destruct (add_to_unsat_ok K d unsat V Wu Au) as (b & u1 & E1 & _ & _ & _ & B). rewrite E1 in E. cbn [bind fst snd] in E. destruct b.
  - right. assert (Vk : forall k, In k (flat knees) -> valid k) by (intros k Hk; exact (wf_valid K knees k Wk Hk)). destruct (subsumed_knees_ok K d V (flat knees) sds_empty Vk (wf_empty K)) as (sub & E2 & W2 & I2 & M2). rewrite E2 in E. cbn [bind] in E.
    assert (Vs : forall k, In k (flat sub) -> valid k) by (intros k Hk; exact (wf_valid K sub k W2 Hk)). destruct (each_remove_ok K (flat sub) knees Vs Wk) as (kn1 & E3 & W3 & M3). rewrite E3 in E. cbn [bind] in E.
    destruct (extend_all_members d V (flat sub) sds_empty Vs (wf_empty K) ltac:(intros ? ? [])) as (ext & E4 & W4 & A4 & I4 & R4). rewrite E4 in E. cbn [bind] in E.
    destruct (each_add_ok K (flat ext) kn1 (fun x Hx => wf_valid K ext x W4 Hx) W3) as (kn2 & E5 & W5 & I5 & M5). rewrite E5 in E. cbn [bind] in E. injection E as <- <-.
    assert (Sub : forall k, In k (flat knees) -> below k d -> exists k0, In k0 (flat sub) /\ same k k0) by (intros k Hk B'; apply (proj2 (M2 k)); right; exists k; split; [exact Hk|]; split; [exact B'|apply same_refl]).
    intros x Hx. destruct (I5 x Hx) as [H|H].
    + left. apply M3 in H. destruct H as [H N]. split; [exact H|]. intros B'. destruct (Sub x H B') as (k0 & H0 & S). exact (N k0 H0 S).
    + right. destruct (I4 x H) as [[]|(k & e & Hk & He & ->)]. destruct (I2 k Hk) as [[]|[Hk' B']]. exists k, e. split; [exact Hk'|]. split; [exact B'|]. split; [exact He|]. split; [reflexivity|].
      intros k2 e2 H2 B2 He2 Bx. destruct (Sub k2 H2 B2) as (k0 & H0 & S0). assert (Vk2 := Vk k2 H2). assert (Vk0 := Vs k0 H0).
      assert (Sc : same (set_quantity e2 (quantity d e2) k0) (set_quantity e2 (quantity d e2) k2)) by (intros z Hz; rewrite !(set_quantity_quantity K HK) by assumption; destruct (z =? e2); [reflexivity|symmetry; apply S0, Hz]).
      destruct (proj2 (R4 (set_quantity e2 (quantity d e2) k2))) as (m & Hm & Bm); [right; exists k0, e2; split; [exact H0|]; split; [exact He2|apply same_below, Sc]|].
      pose proof (A4 m _ Hm H (below_trans K _ _ _ Bm Bx)) as Sm. apply below_antisym; [exact Bx|]. exact (same_below_l K _ m _ (same_sym K _ _ Sm) Bm).
  - left. injection E as <- <-. destruct (B eq_refl) as [_ C]. split; [exact C|reflexivity].
Qed.
End Over.
