From Coq Require Import FinFun.
From Verif Require Import Base Noc NocSpec.
Open Scope Z_scope.

(** ** Pure form of the generation *)
Definition plink (N a b : Z) : link := mkLink (N + a * N + b) a b.
Definition pnodes (xs ys X Y : Z) : list node :=
  [mkNode (router_at xs X Y) false (2 * X + 1) (2 * Y + 1); mkNode (core_at xs ys X Y) true (2 * X) (2 * Y)].
Definition plinks (xs ys X Y : Z) : list link :=
  let N := xs * ys * 2 in
  let r := router_at xs X Y in let c := core_at xs ys X Y in
  plink N r c :: plink N c r ::
  (if X <? xs - 1 then [plink N r (router_at xs (X + 1) Y); plink N (router_at xs (X + 1) Y) r] else []) ++
  (if Y <? ys - 1 then [plink N r (router_at xs X (Y + 1)); plink N (router_at xs X (Y + 1)) r] else []).
Definition pure_noc (xs ys : Z) : noc :=
  mkNoC xs ys (flat_map (fun p => pnodes xs ys (fst p) (snd p)) (positions xs ys)) (flat_map (fun p => plinks xs ys (fst p) (snd p)) (positions xs ys)).
(** The largest identifier fits in an int. *)
Definition fits (xs ys : Z) : Prop := 4 * (xs * ys) * (xs * ys) + xs * ys - 1 <= i32_max.

Lemma in_upto n x : In x (upto n) <-> 0 <= x < n.
Proof.
  unfold upto. rewrite in_map_iff. split.
  - intros (k & <- & H). apply in_seq in H. lia.
  - intros H. exists (Z.to_nat x). split; [lia|]. apply in_seq. lia.
Qed.
Lemma in_positions xs ys X Y : In (X, Y) (positions xs ys) <-> in_mesh xs ys X Y.
Proof.
  unfold positions. rewrite in_flat_map. split.
  - intros (x & Hx & H). apply in_map_iff in H. destruct H as (y & E & Hy). injection E as -> ->. apply in_upto in Hx, Hy. split; assumption.
  - intros [Hx Hy]. exists X. split; [apply in_upto, Hx|]. apply in_map_iff. exists Y. split; [reflexivity|apply in_upto, Hy].
Qed.
Lemma NoDup_flat_map {A B} (f : A -> list B) l : NoDup l -> (forall a, In a l -> NoDup (f a)) -> (forall a a' x, In a l -> In a' l -> In x (f a) -> In x (f a') -> a = a') -> NoDup (flat_map f l).
Proof.
  induction 1 as [|a l N D IH]; intros H1 H2; cbn [flat_map]; [constructor|].
  assert (Hrec : NoDup (flat_map f l)) by (apply IH; [intros; apply H1; right; assumption|intros b b' x I1 I2; apply H2; right; assumption]).
  assert (Ha : NoDup (f a)) by (apply H1; left; reflexivity).
  assert (Hd : forall x, In x (f a) -> ~ In x (flat_map f l)).
  { intros x Hx Hi. apply in_flat_map in Hi. destruct Hi as (b & Hb & Hxb). apply N. rewrite (H2 a b x); auto; [left; reflexivity|right; exact Hb]. }
  clear - Hrec Ha Hd. induction (f a) as [|y m IHm]; [exact Hrec|]. cbn [app]. inversion Ha; subst. constructor.
  - intros Hi. apply in_app_or in Hi. destruct Hi as [Hi|Hi]; [contradiction|]. apply (Hd y); [left; reflexivity|exact Hi].
  - apply IHm; [assumption|]. intros x Hx. apply Hd. right. exact Hx.
Qed.
Lemma NoDup_upto n : NoDup (upto n).
Proof. unfold upto. apply Injective_map_NoDup; [intros a b; apply Nat2Z.inj|apply seq_NoDup]. Qed.
Lemma NoDup_positions xs ys : NoDup (positions xs ys).
Proof.
  apply NoDup_flat_map; [apply NoDup_upto| |].
  - intros a _. apply Injective_map_NoDup; [intros x y E; injection E as ->; reflexivity|apply NoDup_upto].
  - intros a a' p _ _ H H'. apply in_map_iff in H, H'. destruct H as (y & <- & _), H' as (y' & E & _). injection E as ->. reflexivity.
Qed.

(** ** Arithmetic of identifiers *)
Lemma router_bound xs ys X Y : in_mesh xs ys X Y -> 0 <= router_at xs X Y < xs * ys.
Proof. unfold in_mesh, router_at. intros [H1 H2]. nia. Qed.
Lemma router_inj xs ys X Y X' Y' : in_mesh xs ys X Y -> in_mesh xs ys X' Y' -> router_at xs X Y = router_at xs X' Y' -> X = X' /\ Y = Y'.
Proof.
  unfold in_mesh, router_at. intros [H1 H2] [H3 H4] E. assert (Y = Y'); [|nia].
  pose proof (Z.div_unique (X + Y * xs) xs Y X ltac:(lia) ltac:(lia)). pose proof (Z.div_unique (X' + Y' * xs) xs Y' X' ltac:(lia) ltac:(lia)). congruence.
Qed.
Lemma core_router xs ys X Y : core_at xs ys X Y = router_at xs X Y + xs * ys.
Proof. reflexivity. Qed.
Lemma plink_inj N a b a' b' : 0 <= b < N -> 0 <= b' < N -> l_id (plink N a b) = l_id (plink N a' b') -> a = a' /\ b = b'.
Proof. cbn. intros H H' E. assert (a = a') by nia. subst. split; [reflexivity|lia]. Qed.

Lemma i32_ok z : 0 <= z <= i32_max -> i32 z = Ok z.
Proof. intros H. unfold i32. replace (-2147483648 <=? z) with true by lia. replace (z <=? i32_max) with true by lia. reflexivity. Qed.
Lemma mk_link_ok N a b : 0 <= a -> 0 <= b -> 0 <= N -> N + a * N + b <= i32_max -> mk_link N a b = Ok (plink N a b).
Proof. intros Ha Hb HN H. unfold mk_link, imul, iadd. assert (0 <= a * N) by nia. rewrite (i32_ok (a * N)) by lia. cbn [bind]. rewrite (i32_ok (N + _)) by lia. cbn [bind]. rewrite i32_ok by lia. reflexivity. Qed.

Lemma cell_ok xs ys X Y : in_mesh xs ys X Y -> fits xs ys -> cell xs ys (xs * ys * 2) X Y = Ok (pnodes xs ys X Y, plinks xs ys X Y).
Proof.
  intros M F. pose proof (router_bound _ _ _ _ M) as RB. unfold fits in F. set (n := xs * ys) in *.
  assert (n <= 4 * n * n) by nia.
  assert (LK : forall a b, 0 <= a -> 0 <= b -> a + n <= 2 * n - 1 /\ b < 2 * n \/ b < n /\ a < 2 * n -> mk_link (n * 2) a b = Ok (plink (n * 2) a b)).
  { intros a b Ha Hb H'. apply mk_link_ok; try lia. assert (n * 2 + a * (n * 2) + b <= 4 * n * n + n - 1) by nia. lia. }
  unfold cell. unfold in_mesh in M. unfold router_at in RB.
  unfold imul at 1. rewrite (i32_ok (Y * xs)) by nia. cbn [bind]. unfold iadd at 1. rewrite i32_ok by lia. cbn [bind]. fold n. unfold imul at 1. fold n. rewrite i32_ok by nia. cbn [bind].
  unfold iadd at 1. rewrite i32_ok by nia. cbn [bind]. rewrite (LK (X + Y * xs)) by lia. cbn [bind]. rewrite LK by lia. cbn [bind].
  unfold pnodes, plinks. fold n.
  assert (E1 : (if X <? xs - 1 then do q <- imul Y xs; do dest <- iadd (X + 1) q; do a <- mk_link (n * 2) (X + Y * xs) dest; do b <- mk_link (n * 2) dest (X + Y * xs); Ok [a; b] else Ok []) =
               Ok (if X <? xs - 1 then [plink (n * 2) (router_at xs X Y) (router_at xs (X + 1) Y); plink (n * 2) (router_at xs (X + 1) Y) (router_at xs X Y)] else [])).
  { destruct (Z.ltb_spec X (xs - 1)); [|reflexivity]. pose proof (router_bound xs ys (X + 1) Y ltac:(split; lia)) as RB'. unfold router_at in RB'. fold n in RB'. unfold imul. rewrite i32_ok by nia. cbn [bind]. unfold iadd. rewrite i32_ok by lia. cbn [bind].
    rewrite !LK by lia. reflexivity. }
  rewrite E1. cbn [bind].
  assert (E2 : (if Y <? ys - 1 then do q <- imul (Y + 1) xs; do dest <- iadd X q; do a <- mk_link (n * 2) (X + Y * xs) dest; do b <- mk_link (n * 2) dest (X + Y * xs); Ok [a; b] else Ok []) =
               Ok (if Y <? ys - 1 then [plink (n * 2) (router_at xs X Y) (router_at xs X (Y + 1)); plink (n * 2) (router_at xs X (Y + 1)) (router_at xs X Y)] else [])).
  { destruct (Z.ltb_spec Y (ys - 1)); [|reflexivity]. pose proof (router_bound xs ys X (Y + 1) ltac:(split; lia)) as RB'. unfold router_at in RB'. fold n in RB'. unfold imul. rewrite i32_ok by nia. cbn [bind]. unfold iadd. rewrite i32_ok by lia. cbn [bind].
    rewrite !LK by lia. reflexivity. }
  rewrite E2. reflexivity.
Qed.
Lemma cells_ok f (g : Z * Z -> list node) (h : Z * Z -> list link) ps : (forall p, In p ps -> f p = Ok (g p, h p)) -> cells f ps = Ok (flat_map g ps, flat_map h ps).
Proof. induction ps as [|p ps IH]; intros H; [reflexivity|]. cbn [cells]. rewrite H by (left; reflexivity). cbn [bind]. rewrite IH by (intros; apply H; right; assumption). reflexivity. Qed.
Lemma generate_ok xs ys : 0 <= xs -> 0 <= ys -> fits xs ys -> generate xs ys = Ok (pure_noc xs ys).
Proof.
  intros Hx Hy F. unfold generate. unfold fits in F. assert (0 <= xs * ys) by nia. assert (2 * (xs * ys) <= i32_max) by (unfold i32_max in *; nia).
  unfold imul at 1. rewrite i32_ok by lia. cbn [bind]. unfold imul at 1. rewrite i32_ok by lia. cbn [bind].
  erewrite cells_ok; [reflexivity|]. intros [X Y] H'. cbn [fst snd]. apply cell_ok; [apply in_positions, H'|exact F].
Qed.

(** ** Links of the mesh *)
Lemma plinks_in xs ys X Y l : in_mesh xs ys X Y -> In l (plinks xs ys X Y) -> exists a b, l = plink (xs * ys * 2) a b /\ linked xs ys a b /\ Z.min a b = router_at xs X Y.
Proof.
  intros M H. pose proof (router_bound _ _ _ _ M) as RB. unfold plinks in H. cbv zeta in H. destruct H as [<-|[<-|H]].
  - eexists _, _. split; [reflexivity|]. split; [constructor; exact M|]. rewrite core_router. lia.
  - eexists _, _. split; [reflexivity|]. split; [constructor; exact M|]. rewrite core_router. lia.
  - apply in_app_or in H. destruct H as [H|H].
    + destruct (Z.ltb_spec X (xs - 1)); [|destruct H]. assert (M' : in_mesh xs ys (X + 1) Y) by (destruct M; split; lia). destruct H as [<-|[<-|[]]]; (eexists _, _; split; [reflexivity|]; split; [constructor; assumption|]; unfold router_at; lia).
    + destruct (Z.ltb_spec Y (ys - 1)); [|destruct H]. assert (M' : in_mesh xs ys X (Y + 1)) by (destruct M; split; lia). destruct H as [<-|[<-|[]]]; (eexists _, _; split; [reflexivity|]; split; [constructor; assumption|]; unfold router_at in *; destruct M; nia).
Qed.
Lemma pure_links xs ys l : In l (links (pure_noc xs ys)) <-> exists a b, l = plink (xs * ys * 2) a b /\ linked xs ys a b.
Proof.
  cbn [pure_noc links]. rewrite in_flat_map. split.
  - intros ([X Y] & H & Hl). apply in_positions in H. destruct (plinks_in xs ys X Y l H Hl) as (a & b & E & L & _). eauto.
  - intros (a & b & -> & L). inversion L; subst; exists (X, Y); (split; [apply in_positions; assumption|]); cbn [fst snd]; unfold plinks; cbv zeta; [left; reflexivity|right; left; reflexivity|..]; right; right; apply in_or_app.
    + left. replace (X <? xs - 1) with true by (symmetry; apply Z.ltb_lt; unfold in_mesh in *; lia). left. reflexivity.
    + left. replace (X <? xs - 1) with true by (symmetry; apply Z.ltb_lt; unfold in_mesh in *; lia). right. left. reflexivity.
    + right. replace (Y <? ys - 1) with true by (symmetry; apply Z.ltb_lt; unfold in_mesh in *; lia). left. reflexivity.
    + right. replace (Y <? ys - 1) with true by (symmetry; apply Z.ltb_lt; unfold in_mesh in *; lia). right. left. reflexivity.
Qed.
Lemma pure_nodes xs ys x : In x (nodes (pure_noc xs ys)) <-> exists X Y, in_mesh xs ys X Y /\
   (x = mkNode (router_at xs X Y) false (2 * X + 1) (2 * Y + 1) \/ x = mkNode (core_at xs ys X Y) true (2 * X) (2 * Y)).
Proof.
  cbn [pure_noc nodes]. rewrite in_flat_map. split.
  - intros ([X Y] & H & Hx). apply in_positions in H. exists X, Y. split; [exact H|]. destruct Hx as [<-|[<-|[]]]; auto.
  - intros (X & Y & M & [->| ->]); exists (X, Y); (split; [apply in_positions, M|]); cbn; auto.
Qed.
Lemma linked_bound xs ys a b : linked xs ys a b -> 0 <= a < xs * ys * 2 /\ 0 <= b < xs * ys * 2.
Proof.
  intros L. inversion L; subst; rewrite ?core_router; repeat match goal with M : in_mesh _ _ _ _ |- _ => apply router_bound in M end; lia.
Qed.
Lemma NoDup_map_inj {A B} (f : A -> B) l : NoDup l -> (forall x y, In x l -> In y l -> f x = f y -> x = y) -> NoDup (map f l).
Proof.
  induction 1 as [|x l N D IH]; intros H; cbn [map]; constructor.
  - intros Hi. apply in_map_iff in Hi. destruct Hi as (y & E & Hy). apply N. rewrite <- (H y x); auto; [right; exact Hy|left; reflexivity].
  - apply IH. intros; apply H; auto; right; assumption.
Qed.
Lemma plinks_nodup xs ys X Y : in_mesh xs ys X Y -> NoDup (plinks xs ys X Y).
Proof.
  intros M. pose proof (router_bound _ _ _ _ M) as RB. unfold plinks. cbv zeta. set (N := xs * ys * 2). set (n := xs * ys) in *.
  assert (D : forall a b a' b', (a <> a' \/ b <> b') -> plink N a b <> plink N a' b') by (intros a b a' b' Hd E; injection E; intros; subst; destruct Hd; congruence).
  rewrite core_router. fold n.
  assert (R : X < xs - 1 -> router_at xs (X + 1) Y = router_at xs X Y + 1) by (unfold router_at; lia).
  assert (B : router_at xs X (Y + 1) = router_at xs X Y + xs) by (unfold router_at; nia).
  assert (Bn : Y < ys - 1 -> xs < n) by (unfold n; destruct M; nia).
  assert (Rn : X < xs - 1 -> 1 < n) by (unfold n; destruct M; nia).
  destruct M as [MX MY].
  destruct (Z.ltb_spec X (xs - 1)) as [H1|H1], (Z.ltb_spec Y (ys - 1)) as [H2|H2]; cbn [app]; try rewrite R by exact H1; rewrite ?B;
    repeat (constructor; [cbn [In]; intros HH; repeat (destruct HH as [HH|HH]; [revert HH; apply D; lia|]); exact HH|]); try constructor.
Qed.
Lemma links_nodup xs ys : NoDup (links (pure_noc xs ys)).
Proof.
  cbn [pure_noc links]. apply NoDup_flat_map; [apply NoDup_positions| |].
  - intros [X Y] H. apply plinks_nodup, in_positions, H.
  - intros [X Y] [X' Y'] l H H' Hl Hl'. apply in_positions in H, H'. cbn [fst snd] in *.
    destruct (plinks_in xs ys X Y l H Hl) as (a & b & E & _ & Em). destruct (plinks_in xs ys X' Y' l H' Hl') as (a' & b' & E' & _ & Em').
    rewrite E in E'. injection E' as _ -> ->. rewrite Em in Em'. destruct (router_inj _ _ _ _ _ _ H H' Em') as [-> ->]. reflexivity.
Qed.
Lemma link_ids_nodup xs ys : NoDup (map l_id (links (pure_noc xs ys))).
Proof.
  apply NoDup_map_inj; [apply links_nodup|]. intros l l' H H' E. apply pure_links in H, H'. destruct H as (a & b & -> & L), H' as (a' & b' & -> & L').
  apply linked_bound in L, L'. apply plink_inj in E; [|lia|lia]. destruct E as [-> ->]. reflexivity.
Qed.
Lemma node_ids_nodup xs ys : NoDup (map n_id (nodes (pure_noc xs ys))).
Proof.
  assert (E : map n_id (nodes (pure_noc xs ys)) = flat_map (fun p => [router_at xs (fst p) (snd p); core_at xs ys (fst p) (snd p)]) (positions xs ys)).
  { cbn [pure_noc nodes]. induction (positions xs ys) as [|p ps IH]; [reflexivity|]. cbn [flat_map map app pnodes n_id]. rewrite IH. reflexivity. }
  rewrite E. apply NoDup_flat_map; [apply NoDup_positions| |].
  - intros [X Y] H. apply in_positions in H. cbn [fst snd]. pose proof (router_bound _ _ _ _ H). constructor; [intros [C|[]]; rewrite core_router in C; lia|constructor; [intros []|constructor]].
  - intros [X Y] [X' Y'] x H H' I1 I2. apply in_positions in H, H'. cbn [fst snd In] in *. pose proof (router_bound _ _ _ _ H). pose proof (router_bound _ _ _ _ H'). rewrite !core_router in *.
    assert (router_at xs X Y = router_at xs X' Y') by lia. destruct (router_inj _ _ _ _ _ _ H H' H2) as [-> ->]. reflexivity.
Qed.
Lemma node_ids_range xs ys i : In i (map n_id (nodes (pure_noc xs ys))) <-> 0 <= xs /\ 0 <= i < xs * ys * 2.
Proof.
  rewrite in_map_iff. split.
  - intros (x & <- & H). apply pure_nodes in H. destruct H as (X & Y & M & H). pose proof (router_bound _ _ _ _ M). split; [destruct M; lia|]. destruct H as [->| ->]; cbn; rewrite ?core_router; unfold router_at in *; lia.
  - intros [Hx H]. set (j := if i <? xs * ys then i else i - xs * ys). assert (Hj : 0 <= j < xs * ys) by (unfold j; destruct (Z.ltb_spec i (xs * ys)); lia).
    assert (0 < xs) by (assert (xs <> 0) by (intros Z0; clearbody j; rewrite Z0 in Hj; lia); lia). pose proof (Z.div_mod j xs ltac:(lia)) as DM. pose proof (Z.mod_pos_bound j xs ltac:(lia)) as MB.
    assert (M : in_mesh xs ys (j mod xs) (j / xs)). { split; [exact MB|]. split; [apply Z.div_pos; lia|apply Z.div_lt_upper_bound; lia]. }
    assert (R : router_at xs (j mod xs) (j / xs) = j) by (unfold router_at; lia).
    destruct (Z.ltb_spec i (xs * ys)) as [L|L].
    + exists (mkNode (router_at xs (j mod xs) (j / xs)) false (2 * (j mod xs) + 1) (2 * (j / xs) + 1)). split; [cbn; lia|]. apply pure_nodes. eauto 6.
    + exists (mkNode (core_at xs ys (j mod xs) (j / xs)) true (2 * (j mod xs)) (2 * (j / xs))). split; [cbn; rewrite core_router; lia|]. apply pure_nodes. eauto 6.
Qed.
Lemma link_ids_above xs ys l : In l (links (pure_noc xs ys)) -> xs * ys * 2 <= l_id l.
Proof. intros H. apply pure_links in H. destruct H as (a & b & -> & L). apply linked_bound in L. cbn. nia. Qed.
Lemma distinct_ids_ok ids : forall seen, distinct_ids ids seen = true <-> NoDup ids /\ forall i, In i ids -> ~ In i seen.
Proof.
  induction ids as [|i ids IH]; intros seen; cbn [distinct_ids].
  - split; [intros _; split; [constructor|intros i []]|reflexivity].
  - destruct (existsb (Z.eqb i) seen) eqn:E.
    + split; [discriminate|]. intros [_ H]. exfalso. apply (H i); [left; reflexivity|]. apply existsb_exists in E. destruct E as (j & Hj & Ej). apply Z.eqb_eq in Ej. subst. exact Hj.
    + assert (Ni : ~ In i seen). { intros Hi. enough (existsb (Z.eqb i) seen = true) by congruence. apply existsb_exists. exists i. split; [exact Hi|apply Z.eqb_refl]. }
      rewrite IH. split.
      * intros [D H]. split; [constructor; [intros Hi; apply (H i Hi); left; reflexivity|exact D]|]. intros j [<-|Hj]; [exact Ni|]. intros Hs. apply (H j Hj). right. exact Hs.
      * intros [D H]. inversion D; subst. split; [assumption|]. intros j Hj [<-|Hs]; [contradiction|]. apply (H j); [right; exact Hj|exact Hs].
Qed.
Lemma all_ids_nodup xs ys : NoDup (map l_id (links (pure_noc xs ys)) ++ map n_id (nodes (pure_noc xs ys))).
Proof.
  assert (D : forall i, In i (map l_id (links (pure_noc xs ys))) -> ~ In i (map n_id (nodes (pure_noc xs ys)))).
  { intros i Hi Hn. apply in_map_iff in Hi. destruct Hi as (l & <- & Hl). apply link_ids_above in Hl. apply node_ids_range in Hn. lia. }
  pose proof (link_ids_nodup xs ys) as N1. pose proof (node_ids_nodup xs ys) as N2. revert N1 N2 D.
  generalize (map l_id (links (pure_noc xs ys))) (map n_id (nodes (pure_noc xs ys))). intros l m. induction l as [|x l IH]; intros N1 N2 D; [exact N2|]. inversion N1; subst. cbn [app]. constructor.
  - intros H. apply in_app_or in H. destruct H; [contradiction|]. apply (D x); [left; reflexivity|assumption].
  - apply IH; auto. intros i Hi. apply D. right. exact Hi.
Qed.
Lemma check_ids_ok xs ys : check_ids (pure_noc xs ys) = true.
Proof. apply distinct_ids_ok. split; [apply all_ids_nodup|intros i _ []]. Qed.
Lemma make_noc_ok xs ys : 0 <= xs -> 0 <= ys -> fits xs ys -> make_noc xs ys = Ok (pure_noc xs ys).
Proof. intros. unfold make_noc. rewrite generate_ok by assumption. cbn [bind]. rewrite check_ids_ok. reflexivity. Qed.

(** Overflow. *)
Lemma i32_cases z : (i32 z = Ok z /\ -2147483648 <= z <= i32_max) \/ (i32 z = Undefined /\ (z < -2147483648 \/ i32_max < z)).
Proof. unfold i32. destruct (Z.leb_spec (-2147483648) z), (Z.leb_spec z i32_max); cbn; [left|right|right|right]; split; auto; lia. Qed.
Definition defined_or_not {A} (x : outcome A) : Prop := (exists a, x = Ok a) \/ x = Undefined.
Lemma don_bind {A B} (x : outcome A) (f : A -> outcome B) : defined_or_not x -> (forall a, defined_or_not (f a)) -> defined_or_not (bind x f).
Proof. intros [[a ->]| ->] H; [apply H|right; reflexivity]. Qed.
Lemma don_i32 z : defined_or_not (i32 z).
Proof. destruct (i32_cases z) as [[E _]|[E _]]; rewrite E; [left; eauto|right; reflexivity]. Qed.
Lemma don_ok {A} (a : A) : defined_or_not (Ok a).
Proof. left. eauto. Qed.
Ltac don := repeat (first [apply don_ok|apply don_i32|apply don_bind; [|intros ?]|match goal with |- context [if ?b then _ else _] => destruct b end]).
Lemma don_cell xs ys N X Y : defined_or_not (cell xs ys N X Y).
Proof. unfold cell, mk_link, imul, iadd. don. Qed.
Lemma cells_undefined f ps p : (forall q, defined_or_not (f q)) -> In p ps -> f p = Undefined -> cells f ps = Undefined.
Proof.
  intros D. induction ps as [|q ps IH]; intros H E; [destruct H|]. cbn [cells]. destruct H as [->|H]; [rewrite E; reflexivity|].
  destruct (D q) as [[a ->]| ->]; [|reflexivity]. cbn [bind]. rewrite IH by assumption. reflexivity.
Qed.
Lemma generate_overflow xs ys : 0 < xs -> 0 < ys -> ~ fits xs ys -> generate xs ys = Undefined.
Proof.
  intros Hx Hy F. unfold generate, imul at 1. destruct (i32_cases (xs * ys)) as [[E B1]|[E _]]; rewrite E; [|reflexivity]. cbn [bind].
  unfold imul at 1. destruct (i32_cases (xs * ys * 2)) as [[E2 B2]|[E2 _]]; rewrite E2; [|reflexivity]. cbn [bind].
  erewrite (cells_undefined _ _ (xs - 1, ys - 1)); [reflexivity|intros q; apply don_cell|apply in_positions; split; lia|]. cbn [fst snd].
  unfold cell. set (n := xs * ys) in *. unfold fits in F. fold n in F. assert (S : xs - 1 + (ys - 1) * xs = n - 1) by (unfold n; nia).
  unfold imul at 1. destruct (i32_cases ((ys - 1) * xs)) as [[E3 B3]|[E3 _]]; rewrite E3; [|reflexivity]. cbn [bind].
  unfold iadd at 1. rewrite S. destruct (i32_cases (n - 1)) as [[E4 B4]|[E4 _]]; rewrite E4; [|reflexivity]. cbn [bind].
  unfold imul at 1. fold n. rewrite E. cbn [bind]. unfold iadd at 1. destruct (i32_cases (n - 1 + n)) as [[E5 B5]|[E5 _]]; rewrite E5; [|reflexivity]. cbn [bind].
  assert (D1 : defined_or_not (mk_link (n * 2) (n - 1) (n - 1 + n))) by (unfold mk_link, imul, iadd; don). destruct D1 as [[l1 ->]| ->]; [|reflexivity]. cbn [bind].
  replace (mk_link (n * 2) (n - 1 + n) (n - 1)) with (@Undefined link); [reflexivity|]. symmetry. unfold mk_link, imul, iadd.
  destruct (i32_cases ((n - 1 + n) * (n * 2))) as [[E6 B6]|[E6 _]]; rewrite E6; [|reflexivity]. cbn [bind].
  destruct (i32_cases (n * 2 + (n - 1 + n) * (n * 2))) as [[E7 B7]|[E7 _]]; rewrite E7; [|reflexivity]. cbn [bind].
  destruct (i32_cases (n * 2 + (n - 1 + n) * (n * 2) + (n - 1))) as [[E8 B8]|[E8 _]]; rewrite E8; [|reflexivity]. exfalso. apply F. nia.
Qed.
