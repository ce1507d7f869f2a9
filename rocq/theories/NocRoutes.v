(** Lemmas on the routes of the mesh. *)
From Verif Require Import Base Noc NocSpec NocProofs.
Open Scope Z_scope.

Section Mesh.
Context (xs ys : Z).
Notation n := (pure_noc xs ys).
Notation N := (xs * ys * 2).
Notation mesh := (in_mesh xs ys).
Notation R := (router_at xs).
Notation C := (core_at xs ys).
Definition RN (X Y : Z) : node := mkNode (R X Y) false (2 * X + 1) (2 * Y + 1).
Definition CN (X Y : Z) : node := mkNode (C X Y) true (2 * X) (2 * Y).

Lemma find_unique {A} (p : A -> bool) (l : list A) x : In x l -> p x = true -> (forall y, In y l -> p y = true -> y = x) -> find p l = Some x.
Proof.
  induction l as [|y l IH]; intros H Px U; [destruct H|]. cbn [find]. destruct (p y) eqn:E.
  - f_equal. apply U; [left; reflexivity|exact E].
  - destruct H as [->|H]; [congruence|]. apply IH; auto. intros z Hz. apply U. right. exact Hz.
Qed.
Lemma NoDup_map_eq {A B} (f : A -> B) l x y : NoDup (map f l) -> In x l -> In y l -> f x = f y -> x = y.
Proof.
  induction l as [|z l IH]; intros D Hx Hy E; [destruct Hx|]. cbn [map] in D. inversion D; subst. destruct Hx as [->|Hx], Hy as [->|Hy]; [reflexivity| | |auto].
  - exfalso. apply H1. rewrite E. apply in_map, Hy.
  - exfalso. apply H1. rewrite <- E. apply in_map, Hx.
Qed.
Lemma get_node_in x : In x (nodes n) -> get_node n (n_id x) = Ok x.
Proof.
  intros H. unfold get_node. rewrite (find_unique _ (nodes n) x); [reflexivity|exact H|apply Z.eqb_refl|].
  intros y Hy E. apply Z.eqb_eq in E. apply (NoDup_map_eq n_id (nodes n)); [apply node_ids_nodup|exact Hy|exact H|exact E].
Qed.
Lemma get_router X Y : mesh X Y -> get_node n (R X Y) = Ok (RN X Y).
Proof. intros M. apply (get_node_in (RN X Y)). apply pure_nodes. eauto. Qed.
Lemma get_core X Y : mesh X Y -> get_node n (C X Y) = Ok (CN X Y).
Proof. intros M. apply (get_node_in (CN X Y)). apply pure_nodes. eauto. Qed.

Lemma router_not_core X Y X' Y' : mesh X Y -> mesh X' Y' -> R X Y <> C X' Y'.
Proof. intros M M'. rewrite core_router. apply router_bound in M, M'. lia. Qed.
Lemma from_router X Y b : mesh X Y -> linked xs ys (R X Y) b ->
  b = C X Y \/ (mesh (X + 1) Y /\ b = R (X + 1) Y) \/ (mesh (X - 1) Y /\ b = R (X - 1) Y) \/ (mesh X (Y + 1) /\ b = R X (Y + 1)) \/ (mesh X (Y - 1) /\ b = R X (Y - 1)).
Proof.
  intros M L. inversion L as [X' Y' M'|X' Y' M'|X' Y' M1 M2|X' Y' M1 M2|X' Y' M1 M2|X' Y' M1 M2]; subst.
  - destruct (router_inj _ _ _ _ _ _ M' M H) as [-> ->]. auto.
  - exfalso. apply (router_not_core X Y X' Y' M M'). symmetry. exact H.
  - destruct (router_inj _ _ _ _ _ _ M1 M H) as [-> ->]. auto 10.
  - destruct (router_inj _ _ _ _ _ _ M2 M H) as [<- ->]. right. right. left. replace (X' + 1 - 1) with X' by lia. auto.
  - destruct (router_inj _ _ _ _ _ _ M1 M H) as [-> ->]. auto 10.
  - destruct (router_inj _ _ _ _ _ _ M2 M H) as [-> <-]. right. right. right. right. replace (Y' + 1 - 1) with Y' by lia. auto 10.
Qed.
Lemma from_core_only X Y b : mesh X Y -> linked xs ys (C X Y) b -> b = R X Y.
Proof.
  intros M L. inversion L as [X' Y' M'|X' Y' M'|X' Y' M1 M2|X' Y' M1 M2|X' Y' M1 M2|X' Y' M1 M2]; subst; try (exfalso; eapply router_not_core; [| |eassumption]; eassumption).
  rewrite !core_router in H. assert (E : R X' Y' = R X Y) by lia. destruct (router_inj _ _ _ _ _ _ M' M E) as [-> ->]. reflexivity.
Qed.
Lemma to_core_only X Y a : mesh X Y -> linked xs ys a (C X Y) -> a = R X Y.
Proof.
  intros M L. inversion L as [X' Y' M'|X' Y' M'|X' Y' M1 M2|X' Y' M1 M2|X' Y' M1 M2|X' Y' M1 M2]; subst; try (exfalso; eapply router_not_core; [| |eassumption]; eassumption).
  rewrite !core_router in H0. assert (E : R X' Y' = R X Y) by lia. destruct (router_inj _ _ _ _ _ _ M' M E) as [-> ->]. reflexivity.
Qed.

Lemma first_link_ok test es e : (forall x, In x es -> test x = Ok false \/ (x = e /\ test x = Ok true)) -> In e es -> test e = Ok true -> first_link test es = Ok e.
Proof.
  induction es as [|x es IH]; intros H He Te; [destruct He|]. cbn [first_link]. destruct (H x (or_introl eq_refl)) as [E|[E1 E2]].
  - rewrite E. cbn [bind]. destruct He as [->|He]; [rewrite Te in E; discriminate|]. apply IH; auto. intros y Hy. apply H. right. exact Hy.
  - rewrite E2. subst. reflexivity.
Qed.
Lemma in_link a b : linked xs ys a b -> In (plink N a b) (links n).
Proof. intros L. apply pure_links. eauto. Qed.

Lemma src_core X Y : mesh X Y -> src_neighbour n (C X Y) = Ok (plink N (C X Y) (R X Y)).
Proof.
  intros M. apply first_link_ok; [|apply in_link; constructor; exact M|cbn; f_equal; apply Z.eqb_refl].
  intros l Hl. apply pure_links in Hl. destruct Hl as (a & b & -> & L). cbn [l_src plink]. destruct (Z.eqb_spec a (C X Y)) as [->|]; [|auto]. right. split; [|reflexivity]. rewrite (from_core_only X Y b M L). reflexivity.
Qed.
Lemma dst_core X Y : mesh X Y -> dst_neighbour n (C X Y) = Ok (plink N (R X Y) (C X Y)).
Proof.
  intros M. apply first_link_ok; [|apply in_link; constructor; exact M|cbn; f_equal; apply Z.eqb_refl].
  intros l Hl. apply pure_links in Hl. destruct Hl as (a & b & -> & L). cbn [l_dst plink]. destruct (Z.eqb_spec b (C X Y)) as [->|]; [|auto]. right. split; [|reflexivity]. rewrite (to_core_only X Y a M L). reflexivity.
Qed.
Lemma towards_other s rel a b : a <> s -> towards n s rel (plink N a b) = Ok false.
Proof. intros H. unfold towards. cbn [plink l_src]. destruct (Z.eqb_spec a s); [contradiction|reflexivity]. Qed.
Lemma towards_core rel X Y : mesh X Y -> towards n (R X Y) rel (plink N (R X Y) (C X Y)) = Ok (rel (RN X Y) (CN X Y)).
Proof. intros M. unfold towards. cbn [plink l_src l_dst]. rewrite Z.eqb_refl, get_router, get_core by exact M. reflexivity. Qed.
Lemma towards_router rel X Y X' Y' : mesh X Y -> mesh X' Y' -> towards n (R X Y) rel (plink N (R X Y) (R X' Y')) = Ok (rel (RN X Y) (RN X' Y')).
Proof. intros M M'. unfold towards. cbn [plink l_src l_dst]. rewrite Z.eqb_refl, !get_router by assumption. reflexivity. Qed.
Lemma neighbour_ok rel X Y X' Y' : mesh X Y -> mesh X' Y' -> linked xs ys (R X Y) (R X' Y') ->
  rel (RN X Y) (CN X Y) = false -> rel (RN X Y) (RN X' Y') = true ->
  (forall A B, mesh A B -> Z.abs (A - X) + Z.abs (B - Y) = 1 -> (A, B) <> (X', Y') -> rel (RN X Y) (RN A B) = false) ->
  first_link (towards n (R X Y) rel) (links n) = Ok (plink N (R X Y) (R X' Y')).
Proof.
  intros M M' L Hc Ht Ho. apply first_link_ok; [|apply in_link, L|rewrite towards_router by assumption; rewrite Ht; reflexivity].
  intros l Hl. apply pure_links in Hl. destruct Hl as (a & b & -> & L').
  assert (K : forall A B, mesh A B -> Z.abs (A - X) + Z.abs (B - Y) = 1 -> b = R A B -> a = R X Y -> towards n (R X Y) rel (plink N a b) = Ok false \/ plink N a b = plink N (R X Y) (R X' Y') /\ towards n (R X Y) rel (plink N a b) = Ok true).
  { intros A B Mab D -> ->. rewrite towards_router by assumption. destruct (Z.eq_dec A X') as [->|]; [destruct (Z.eq_dec B Y') as [->|]|]; [right; rewrite Ht; auto|left|left]; rewrite Ho; auto; congruence. }
  destruct (Z.eq_dec a (R X Y)) as [Ea|Na]; [|left; apply towards_other, Na]. subst a. destruct (from_router X Y b M L') as [Eb|[[Mb Eb]|[[Mb Eb]|[[Mb Eb]|[Mb Eb]]]]].
  - left. subst b. rewrite towards_core by exact M. rewrite Hc. reflexivity.
  - apply (K _ _ Mb); auto. lia.
  - apply (K _ _ Mb); auto. lia.
  - apply (K _ _ Mb); auto. lia.
  - apply (K _ _ Mb); auto. lia.
Qed.
Ltac nbr := cbn [RN CN n_x n_y]; repeat match goal with |- context [?a =? ?b] => destruct (Z.eqb_spec a b) | |- context [?a <? ?b] => destruct (Z.ltb_spec a b) end; rewrite ?Z.gtb_ltb; cbn [andb]; try reflexivity; try lia.
Lemma linked_router X Y X' Y' : mesh X Y -> mesh X' Y' -> Z.abs (X' - X) + Z.abs (Y' - Y) = 1 -> linked xs ys (R X Y) (R X' Y').
Proof.
  intros M M' D. assert (O : (X' = X + 1 /\ Y' = Y) \/ (X = X' + 1 /\ Y' = Y) \/ (X' = X /\ Y' = Y + 1) \/ (X' = X /\ Y = Y' + 1)) by lia.
  destruct O as [[-> ->]|[[-> ->]|[[-> ->]|[-> ->]]]]; constructor; assumption.
Qed.
Lemma pair_neq (a b c d : Z) : (a, b) <> (c, d) -> a <> c \/ b <> d.
Proof. intros H. destruct (Z.eq_dec a c) as [->|]; [|auto]. destruct (Z.eq_dec b d) as [->|]; [contradiction|auto]. Qed.
Ltac fin := intros; match goal with H : _ <> _ |- _ => apply pair_neq in H | _ => idtac end; cbn [RN CN n_x n_y]; rewrite ?Z.gtb_ltb;
  repeat match goal with |- context [?a =? ?b] => destruct (Z.eqb_spec a b) | |- context [?a <? ?b] => destruct (Z.ltb_spec a b) end; cbn [andb]; try reflexivity; exfalso; lia.
Lemma right_ok X Y : mesh X Y -> mesh (X + 1) Y -> right_neighbour n (R X Y) = Ok (plink N (R X Y) (R (X + 1) Y)).
Proof. intros M M'. apply neighbour_ok; [exact M|exact M'|apply linked_router; auto; lia|fin|fin|fin]. Qed.
Lemma left_ok X Y : mesh X Y -> mesh (X - 1) Y -> left_neighbour n (R X Y) = Ok (plink N (R X Y) (R (X - 1) Y)).
Proof. intros M M'. apply neighbour_ok; [exact M|exact M'|apply linked_router; auto; lia|fin|fin|fin]. Qed.
Lemma top_ok X Y : mesh X Y -> mesh X (Y + 1) -> top_neighbour n (R X Y) = Ok (plink N (R X Y) (R X (Y + 1))).
Proof. intros M M'. apply neighbour_ok; [exact M|exact M'|apply linked_router; auto; lia|fin|fin|fin]. Qed.
Lemma bottom_ok X Y : mesh X Y -> mesh X (Y - 1) -> bottom_neighbour n (R X Y) = Ok (plink N (R X Y) (R X (Y - 1))).
Proof. intros M M'. apply neighbour_ok; [exact M|exact M'|apply linked_router; auto; lia|fin|fin|fin]. Qed.

(** ** Paths *)
Lemma connected_app a ls b ls' c : connected a ls b -> connected b ls' c -> connected a (ls ++ ls') c.
Proof. revert a. induction ls as [|l ls IH]; intros a H H'; cbn [app connected] in *; [subst; exact H'|]. destruct H as [H1 H2]. split; [exact H1|]. apply IH; assumption. Qed.

(** A walk along [k] positions. *)
Fixpoint steps (pos : nat -> node) (k : nat) : list link :=
  match k with O => [] | S k' => plink N (n_id (pos 0%nat)) (n_id (pos 1%nat)) :: steps (fun i => pos (S i)) k' end.
Lemma travel_ok step coord dest : forall k pos, (forall i, (i < k)%nat -> coord (pos i) <> dest) -> coord (pos k) = dest ->
  (forall i, (i < k)%nat -> step (n_id (pos i)) = Ok (plink N (n_id (pos i)) (n_id (pos (S i)))) /\ get_node n (n_id (pos (S i))) = Ok (pos (S i))) ->
  forall fuel path, (k <= fuel)%nat -> travel fuel n step coord dest (pos 0%nat) path = Ok (pos k, path ++ map l_id (steps pos k)).
Proof.
  induction k as [|k IH]; intros pos H1 H2 H3 fuel path L.
  - cbn [steps map]. rewrite app_nil_r. destruct fuel; cbn [travel]; rewrite H2, Z.eqb_refl; reflexivity.
  - destruct fuel as [|fuel]; [lia|]. cbn [travel]. destruct (Z.eqb_spec (coord (pos 0%nat)) dest) as [E|_]; [exfalso; apply (H1 0%nat); [lia|exact E]|].
    destruct (H3 0%nat ltac:(lia)) as [-> G]. cbn [bind plink l_dst l_id]. change (l_dst (plink N ?a ?b)) with b. rewrite G. cbn [bind].
    rewrite (IH (fun i => pos (S i))); [|intros i Hi; apply H1; lia|exact H2|intros i Hi; apply H3; lia|lia]. cbn [steps map]. rewrite <- app_assoc. reflexivity.
Qed.
Lemma steps_connected : forall k pos, connected (n_id (pos 0%nat)) (steps pos k) (n_id (pos k)).
Proof. induction k as [|k IH]; intros pos; cbn [steps connected]; [reflexivity|]. split; [reflexivity|]. apply (IH (fun i => pos (S i))). Qed.
Lemma steps_length : forall k pos, length (steps pos k) = k.
Proof. induction k as [|k IH]; intros pos; cbn [steps length]; [reflexivity|]. rewrite IH. reflexivity. Qed.
Lemma steps_all (P : link -> Prop) : forall k pos, (forall i, (i < k)%nat -> P (plink N (n_id (pos i)) (n_id (pos (S i))))) -> forall l, In l (steps pos k) -> P l.
Proof.
  induction k as [|k IH]; intros pos H l Hl; [destruct Hl|]. destruct Hl as [<-|Hl]; [apply (H 0%nat); lia|]. apply (IH (fun i => pos (S i))); [|exact Hl]. intros i Hi. apply H. lia.
Qed.
(** The two legs, in either direction. *)
Lemma row_leg X X' Y fuel path : mesh X Y -> mesh X' Y -> (Z.to_nat (Z.abs (X' - X)) <= fuel)%nat ->
  exists ls, (if n_x (RN X Y) <? n_x (RN X' Y) then travel fuel n (right_neighbour n) n_x (n_x (RN X' Y)) (RN X Y) path
              else travel fuel n (left_neighbour n) n_x (n_x (RN X' Y)) (RN X Y) path) = Ok (RN X' Y, path ++ map l_id ls) /\
    connected (R X Y) ls (R X' Y) /\ Z.of_nat (length ls) = Z.abs (X' - X) /\ (forall l, In l ls -> In l (links n) /\ in_row xs ys l).
Proof.
  intros M M' F. set (k := Z.to_nat (Z.abs (X' - X))) in *. cbn [n_x RN]. destruct M as [MX MY], M' as [MX' MY']. destruct (Z.ltb_spec (2 * X + 1) (2 * X' + 1)) as [L|L].
  - set (pos := fun i : nat => RN (X + Z.of_nat i) Y). exists (steps pos k).
    assert (P0 : pos 0%nat = RN X Y) by (unfold pos; f_equal; lia). assert (Pk : pos k = RN X' Y) by (unfold pos; f_equal; lia).
    assert (PM : forall i, (i <= k)%nat -> mesh (X + Z.of_nat i) Y) by (intros i Hi; split; lia).
    assert (S1 : forall i, pos (S i) = RN (X + Z.of_nat i + 1) Y) by (intros i; unfold pos; f_equal; lia).
    rewrite <- P0. split; [|split; [|split]].
    + rewrite (travel_ok (right_neighbour n) n_x (2 * X' + 1) k pos); [rewrite Pk; reflexivity| | | |exact F].
      * intros i Hi. unfold pos. cbn [RN n_x n_y]. lia.
      * rewrite Pk. reflexivity.
      * intros i Hi. pose proof (PM i ltac:(lia)) as M1. pose proof (PM (S i) ltac:(lia)) as M2. replace (X + Z.of_nat (S i)) with (X + Z.of_nat i + 1) in M2 by lia.
        rewrite S1. change (n_id (pos i)) with (R (X + Z.of_nat i) Y). change (n_id (RN ?a ?b)) with (R a b). split; [apply right_ok; assumption|apply get_router, M2].
    + pose proof (steps_connected k pos) as SC. rewrite P0, Pk in SC. exact SC.
    + rewrite steps_length. lia.
    + apply steps_all. intros i Hi. pose proof (PM i ltac:(lia)) as M1. pose proof (PM (S i) ltac:(lia)) as M2. replace (X + Z.of_nat (S i)) with (X + Z.of_nat i + 1) in M2 by lia. rewrite S1.
      change (n_id (pos i)) with (R (X + Z.of_nat i) Y). change (n_id (RN ?a ?b)) with (R a b). split; [apply in_link, linked_router; auto; lia|]. eexists _, _, _. split; [exact M1|]. split; [exact M2|]. split; reflexivity.
  - set (pos := fun i : nat => RN (X - Z.of_nat i) Y). exists (steps pos k).
    assert (P0 : pos 0%nat = RN X Y) by (unfold pos; f_equal; lia). assert (Pk : pos k = RN X' Y) by (unfold pos; f_equal; lia).
    assert (PM : forall i, (i <= k)%nat -> mesh (X - Z.of_nat i) Y) by (intros i Hi; split; lia).
    assert (S1 : forall i, pos (S i) = RN (X - Z.of_nat i - 1) Y) by (intros i; unfold pos; f_equal; lia).
    rewrite <- P0. split; [|split; [|split]].
    + rewrite (travel_ok (left_neighbour n) n_x (2 * X' + 1) k pos); [rewrite Pk; reflexivity| | | |exact F].
      * intros i Hi. unfold pos. cbn [RN n_x n_y]. lia.
      * rewrite Pk. reflexivity.
      * intros i Hi. pose proof (PM i ltac:(lia)) as M1. pose proof (PM (S i) ltac:(lia)) as M2. replace (X - Z.of_nat (S i)) with (X - Z.of_nat i - 1) in M2 by lia.
        rewrite S1. change (n_id (pos i)) with (R (X - Z.of_nat i) Y). change (n_id (RN ?a ?b)) with (R a b). split; [apply left_ok; assumption|apply get_router, M2].
    + pose proof (steps_connected k pos) as SC. rewrite P0, Pk in SC. exact SC.
    + rewrite steps_length. lia.
    + apply steps_all. intros i Hi. pose proof (PM i ltac:(lia)) as M1. pose proof (PM (S i) ltac:(lia)) as M2. replace (X - Z.of_nat (S i)) with (X - Z.of_nat i - 1) in M2 by lia. rewrite S1.
      change (n_id (pos i)) with (R (X - Z.of_nat i) Y). change (n_id (RN ?a ?b)) with (R a b). split; [apply in_link, linked_router; auto; lia|]. eexists _, _, _. split; [exact M1|]. split; [exact M2|]. split; reflexivity.
Qed.
Lemma column_leg X Y Y' fuel path : mesh X Y -> mesh X Y' -> (Z.to_nat (Z.abs (Y' - Y)) <= fuel)%nat ->
  exists ls, (if n_y (RN X Y) <? n_y (RN X Y') then travel fuel n (top_neighbour n) n_y (n_y (RN X Y')) (RN X Y) path
              else travel fuel n (bottom_neighbour n) n_y (n_y (RN X Y')) (RN X Y) path) = Ok (RN X Y', path ++ map l_id ls) /\
    connected (R X Y) ls (R X Y') /\ Z.of_nat (length ls) = Z.abs (Y' - Y) /\ (forall l, In l ls -> In l (links n) /\ in_column xs ys l).
Proof.
  intros M M' F. set (k := Z.to_nat (Z.abs (Y' - Y))) in *. cbn [n_y RN]. destruct M as [MX MY], M' as [MX' MY']. destruct (Z.ltb_spec (2 * Y + 1) (2 * Y' + 1)) as [L|L].
  - set (pos := fun i : nat => RN X (Y + Z.of_nat i)). exists (steps pos k).
    assert (P0 : pos 0%nat = RN X Y) by (unfold pos; f_equal; lia). assert (Pk : pos k = RN X Y') by (unfold pos; f_equal; lia).
    assert (PM : forall i, (i <= k)%nat -> mesh X (Y + Z.of_nat i)) by (intros i Hi; split; lia).
    assert (S1 : forall i, pos (S i) = RN X (Y + Z.of_nat i + 1)) by (intros i; unfold pos; f_equal; lia).
    rewrite <- P0. split; [|split; [|split]].
    + rewrite (travel_ok (top_neighbour n) n_y (2 * Y' + 1) k pos); [rewrite Pk; reflexivity| | | |exact F].
      * intros i Hi. unfold pos. cbn [RN n_x n_y]. lia.
      * rewrite Pk. reflexivity.
      * intros i Hi. pose proof (PM i ltac:(lia)) as M1. pose proof (PM (S i) ltac:(lia)) as M2. replace (Y + Z.of_nat (S i)) with (Y + Z.of_nat i + 1) in M2 by lia.
        rewrite S1. change (n_id (pos i)) with (R X (Y + Z.of_nat i)). change (n_id (RN ?a ?b)) with (R a b). split; [apply top_ok; assumption|apply get_router, M2].
    + pose proof (steps_connected k pos) as SC. rewrite P0, Pk in SC. exact SC.
    + rewrite steps_length. lia.
    + apply steps_all. intros i Hi. pose proof (PM i ltac:(lia)) as M1. pose proof (PM (S i) ltac:(lia)) as M2. replace (Y + Z.of_nat (S i)) with (Y + Z.of_nat i + 1) in M2 by lia. rewrite S1.
      change (n_id (pos i)) with (R X (Y + Z.of_nat i)). change (n_id (RN ?a ?b)) with (R a b). split; [apply in_link, linked_router; auto; lia|]. eexists _, _, _. split; [exact M1|]. split; [exact M2|]. split; reflexivity.
  - set (pos := fun i : nat => RN X (Y - Z.of_nat i)). exists (steps pos k).
    assert (P0 : pos 0%nat = RN X Y) by (unfold pos; f_equal; lia). assert (Pk : pos k = RN X Y') by (unfold pos; f_equal; lia).
    assert (PM : forall i, (i <= k)%nat -> mesh X (Y - Z.of_nat i)) by (intros i Hi; split; lia).
    assert (S1 : forall i, pos (S i) = RN X (Y - Z.of_nat i - 1)) by (intros i; unfold pos; f_equal; lia).
    rewrite <- P0. split; [|split; [|split]].
    + rewrite (travel_ok (bottom_neighbour n) n_y (2 * Y' + 1) k pos); [rewrite Pk; reflexivity| | | |exact F].
      * intros i Hi. unfold pos. cbn [RN n_x n_y]. lia.
      * rewrite Pk. reflexivity.
      * intros i Hi. pose proof (PM i ltac:(lia)) as M1. pose proof (PM (S i) ltac:(lia)) as M2. replace (Y - Z.of_nat (S i)) with (Y - Z.of_nat i - 1) in M2 by lia.
        rewrite S1. change (n_id (pos i)) with (R X (Y - Z.of_nat i)). change (n_id (RN ?a ?b)) with (R a b). split; [apply bottom_ok; assumption|apply get_router, M2].
    + pose proof (steps_connected k pos) as SC. rewrite P0, Pk in SC. exact SC.
    + rewrite steps_length. lia.
    + apply steps_all. intros i Hi. pose proof (PM i ltac:(lia)) as M1. pose proof (PM (S i) ltac:(lia)) as M2. replace (Y - Z.of_nat (S i)) with (Y - Z.of_nat i - 1) in M2 by lia. rewrite S1.
      change (n_id (pos i)) with (R X (Y - Z.of_nat i)). change (n_id (RN ?a ?b)) with (R a b). split; [apply in_link, linked_router; auto; lia|]. eexists _, _, _. split; [exact M1|]. split; [exact M2|]. split; reflexivity.
Qed.

Lemma xy_route_ok X0 Y0 X1 Y1 fuel : mesh X0 Y0 -> mesh X1 Y1 -> (Z.to_nat (Z.max (Z.abs (X1 - X0)) (Z.abs (Y1 - Y0))) <= fuel)%nat ->
  exists first lx ly last, xy_route fuel n (C X0 Y0) (C X1 Y1) = Ok (map l_id (first :: lx ++ ly ++ [last])) /\
    connected (C X0 Y0) (first :: lx ++ ly ++ [last]) (C X1 Y1) /\
    (forall l, In l (first :: lx ++ ly ++ [last]) -> In l (links n)) /\
    (forall l, In l lx -> in_row xs ys l) /\ (forall l, In l ly -> in_column xs ys l) /\
    Z.of_nat (length lx) = Z.abs (X1 - X0) /\ Z.of_nat (length ly) = Z.abs (Y1 - Y0).
Proof.
  intros M0 M1 F. assert (Mm : mesh X1 Y0) by (destruct M0, M1; split; assumption).
  destruct (row_leg X0 X1 Y0 fuel [l_id (plink N (C X0 Y0) (R X0 Y0))] M0 Mm ltac:(lia)) as (lx & Ex & Cx & Lx & Ax).
  destruct (column_leg X1 Y0 Y1 fuel ([l_id (plink N (C X0 Y0) (R X0 Y0))] ++ map l_id lx) Mm M1 ltac:(lia)) as (ly & Ey & Cy & Ly & Ay).
  exists (plink N (C X0 Y0) (R X0 Y0)), lx, ly, (plink N (R X1 Y1) (C X1 Y1)). split; [|split; [|split; [|split; [|split; [|split]]]]].
  - unfold xy_route. rewrite src_core by exact M0. cbn [bind]. change (l_dst (plink N ?a ?b)) with b. rewrite get_router by exact M0. cbn [bind]. rewrite dst_core by exact M1. cbn [bind].
    change (l_src (plink N ?a ?b)) with a. rewrite get_router by exact M1. cbn [bind]. change (n_x (RN X1 Y1)) with (n_x (RN X1 Y0)). rewrite Ex. cbn [bind fst snd].
    rewrite Ey. cbn [bind snd]. cbn [map]. rewrite !map_app. cbn [app]. rewrite <- !app_assoc. reflexivity.
  - split; [reflexivity|]. change (l_dst (plink N ?a ?b)) with b. eapply connected_app; [exact Cx|]. eapply connected_app; [exact Cy|]. split; [reflexivity|reflexivity].
  - intros l [<-|H]; [apply in_link; constructor; exact M0|]. apply in_app_or in H. destruct H as [H|H]; [apply Ax, H|]. apply in_app_or in H. destruct H as [H|[<-|[]]]; [apply Ay, H|]. apply in_link. constructor. exact M1.
  - intros l H. apply Ax, H.
  - intros l H. apply Ay, H.
  - exact Lx.
  - exact Ly.
Qed.

(** ** Random routes *)
Definition count (b : bool) (cs : list bool) : Z := Z.of_nat (length (filter (Bool.eqb b) cs)).
Lemma count_pos b cs : 0 <= count b cs.
Proof. unfold count. lia. Qed.
Lemma count_cons b c cs : count b (c :: cs) = (if Bool.eqb b c then 1 else 0) + count b cs.
Proof. unfold count. cbn [filter]. destruct (Bool.eqb b c); cbn [length]; lia. Qed.
Lemma move_x X Y X1 path : mesh X Y -> mesh X1 Y ->
  exists X', (do s1 <- move n (2 * X + 1 <? 2 * X1 + 1) (right_neighbour n) (RN X Y, path); move n (n_x (fst s1) >? 2 * X1 + 1) (left_neighbour n) s1) =
    Ok (RN X' Y, if X =? X1 then path else path ++ [l_id (plink N (R X Y) (R X' Y))]) /\
    Z.abs (X1 - X') = Z.max 0 (Z.abs (X1 - X) - 1) /\ mesh X' Y /\ (X <> X1 -> linked xs ys (R X Y) (R X' Y)) /\ (X = X1 -> X' = X).
Proof.
  intros [MX MY] [MX1 _]. unfold move. destruct (Z.ltb_spec (2 * X + 1) (2 * X1 + 1)) as [L|L].
  - exists (X + 1). cbn [fst snd]. change (n_id (RN X Y)) with (R X Y). rewrite right_ok by (split; lia). cbn [bind]. change (l_dst (plink N ?a ?b)) with b. rewrite get_router by (split; lia). cbn [bind fst n_x RN].
    replace (2 * (X + 1) + 1 >? 2 * X1 + 1) with false by (symmetry; rewrite Z.gtb_ltb; apply Z.ltb_ge; lia). replace (X =? X1) with false by (symmetry; apply Z.eqb_neq; lia).
    split; [reflexivity|]. split; [lia|]. split; [split; lia|]. split; [|lia]. intros _. apply linked_router; try (split; lia). lia.
  - cbn [bind fst n_x RN]. rewrite Z.gtb_ltb. destruct (Z.ltb_spec (2 * X1 + 1) (2 * X + 1)) as [L'|L'].
    + exists (X - 1). cbn [fst snd]. change (n_id (RN X Y)) with (R X Y). change (n_id _) with (R X Y). rewrite left_ok by (split; lia). cbn [bind]. change (l_dst (plink N ?a ?b)) with b. rewrite get_router by (split; lia). cbn [bind].
      replace (X =? X1) with false by (symmetry; apply Z.eqb_neq; lia). split; [reflexivity|]. split; [lia|]. split; [split; lia|]. split; [|lia]. intros _. apply linked_router; try (split; lia). lia.
    + exists X. replace (X =? X1) with true by (symmetry; apply Z.eqb_eq; lia). split; [reflexivity|]. split; [lia|]. split; [split; lia|]. split; [lia|reflexivity].
Qed.
Lemma move_y X Y Y1 path : mesh X Y -> mesh X Y1 ->
  exists Y', (do s1 <- move n (2 * Y + 1 <? 2 * Y1 + 1) (top_neighbour n) (RN X Y, path); move n (n_y (fst s1) >? 2 * Y1 + 1) (bottom_neighbour n) s1) =
    Ok (RN X Y', if Y =? Y1 then path else path ++ [l_id (plink N (R X Y) (R X Y'))]) /\
    Z.abs (Y1 - Y') = Z.max 0 (Z.abs (Y1 - Y) - 1) /\ mesh X Y' /\ (Y <> Y1 -> linked xs ys (R X Y) (R X Y')) /\ (Y = Y1 -> Y' = Y).
Proof.
  intros [MX MY] [_ MY1]. unfold move. destruct (Z.ltb_spec (2 * Y + 1) (2 * Y1 + 1)) as [L|L].
  - exists (Y + 1). cbn [fst snd]. change (n_id (RN X Y)) with (R X Y). rewrite top_ok by (split; lia). cbn [bind]. change (l_dst (plink N ?a ?b)) with b. rewrite get_router by (split; lia). cbn [bind fst n_y RN].
    replace (2 * (Y + 1) + 1 >? 2 * Y1 + 1) with false by (symmetry; rewrite Z.gtb_ltb; apply Z.ltb_ge; lia). replace (Y =? Y1) with false by (symmetry; apply Z.eqb_neq; lia).
    split; [reflexivity|]. split; [lia|]. split; [split; lia|]. split; [|lia]. intros _. apply linked_router; try (split; lia). lia.
  - cbn [bind fst n_y RN]. rewrite Z.gtb_ltb. destruct (Z.ltb_spec (2 * Y1 + 1) (2 * Y + 1)) as [L'|L'].
    + exists (Y - 1). cbn [fst snd]. change (n_id _) with (R X Y). rewrite bottom_ok by (split; lia). cbn [bind]. change (l_dst (plink N ?a ?b)) with b. rewrite get_router by (split; lia). cbn [bind].
      replace (Y =? Y1) with false by (symmetry; apply Z.eqb_neq; lia). split; [reflexivity|]. split; [lia|]. split; [split; lia|]. split; [|lia]. intros _. apply linked_router; try (split; lia). lia.
    + exists Y. replace (Y =? Y1) with true by (symmetry; apply Z.eqb_eq; lia). split; [reflexivity|]. split; [lia|]. split; [split; lia|]. split; [lia|reflexivity].
Qed.
Lemma wander_ok X1 Y1 : mesh X1 Y1 -> forall cs X Y path, mesh X Y ->
  (wander n cs (RN X1 Y1) (RN X Y, path) = Timeout /\ (count true cs < Z.abs (X1 - X) \/ count false cs < Z.abs (Y1 - Y))) \/
  exists ls, wander n cs (RN X1 Y1) (RN X Y, path) = Ok (RN X1 Y1, path ++ map l_id ls) /\ connected (R X Y) ls (R X1 Y1) /\
    Z.of_nat (length ls) = Z.abs (X1 - X) + Z.abs (Y1 - Y) /\ forall l, In l ls -> In l (links n).
Proof.
  intros M1. induction cs as [|c cs IH]; intros X Y path M.
  - cbn [wander fst n_x n_y RN]. destruct (Z.eqb_spec (2 * X + 1) (2 * X1 + 1)) as [Ex|Ex]; [destruct (Z.eqb_spec (2 * Y + 1) (2 * Y1 + 1)) as [Ey|Ey]|]; cbn [andb].
    + right. exists []. assert (X = X1) by lia. assert (Y = Y1) by lia. subst. rewrite app_nil_r. split; [reflexivity|]. split; [reflexivity|]. split; [cbn; lia|intros l []].
    + left. split; [reflexivity|]. right. change (count false []) with 0. lia.
    + left. split; [reflexivity|]. left. change (count true []) with 0. lia.
  - cbn [wander fst n_x n_y RN]. destruct ((2 * X + 1 =? 2 * X1 + 1) && (2 * Y + 1 =? 2 * Y1 + 1)) eqn:Done.
    + apply andb_true_iff in Done. destruct Done as [Ex Ey]. apply Z.eqb_eq in Ex, Ey. assert (X = X1) by lia. assert (Y = Y1) by lia. subst.
      right. exists []. rewrite app_nil_r. split; [reflexivity|]. split; [reflexivity|]. split; [cbn; lia|intros l []].
    + rewrite !count_cons. destruct c; cbn [Bool.eqb].
      * destruct (move_x X Y X1 path M ltac:(destruct M, M1; split; assumption)) as (X' & E & D & M' & L & Same).
        fold (RN X Y). fold (RN X1 Y1).
        assert (Es : forall K : node * list Z -> outcome (node * list Z), (do s1 <- move n (2 * X + 1 <? 2 * X1 + 1) (right_neighbour n) (RN X Y, path); do s2 <- move n (n_x (fst s1) >? 2 * X1 + 1) (left_neighbour n) s1; K s2) =
                  (do s2 <- (do s1 <- move n (2 * X + 1 <? 2 * X1 + 1) (right_neighbour n) (RN X Y, path); move n (n_x (fst s1) >? 2 * X1 + 1) (left_neighbour n) s1); K s2)).
        { intros K. destruct (move n (2 * X + 1 <? 2 * X1 + 1) (right_neighbour n) (RN X Y, path)); reflexivity. }
        rewrite Es, E. cbn [bind]. destruct (IH X' Y (if X =? X1 then path else path ++ [l_id (plink N (R X Y) (R X' Y))]) M') as [[T B]|(ls & Ew & Cw & Lw & Aw)].
        -- left. split; [exact T|]. pose proof (count_pos true cs). pose proof (count_pos false cs). lia.
        -- right. destruct (Z.eqb_spec X X1) as [EX|NX].
           ++ rewrite (Same EX) in *. exists ls. auto.
           ++ exists (plink N (R X Y) (R X' Y) :: ls). split; [rewrite Ew; cbn [map]; rewrite <- app_assoc; reflexivity|]. split; [split; [reflexivity|exact Cw]|]. split; [cbn [length]; lia|].
              intros l [<-|Hl]; [apply in_link, L, NX|apply Aw, Hl].
      * destruct (move_y X Y Y1 path M ltac:(destruct M, M1; split; assumption)) as (Y' & E & D & M' & L & Same).
        fold (RN X Y). fold (RN X1 Y1).
        assert (Es : forall K : node * list Z -> outcome (node * list Z), (do s1 <- move n (2 * Y + 1 <? 2 * Y1 + 1) (top_neighbour n) (RN X Y, path); do s2 <- move n (n_y (fst s1) >? 2 * Y1 + 1) (bottom_neighbour n) s1; K s2) =
                  (do s2 <- (do s1 <- move n (2 * Y + 1 <? 2 * Y1 + 1) (top_neighbour n) (RN X Y, path); move n (n_y (fst s1) >? 2 * Y1 + 1) (bottom_neighbour n) s1); K s2)).
        { intros K. destruct (move n (2 * Y + 1 <? 2 * Y1 + 1) (top_neighbour n) (RN X Y, path)); reflexivity. }
        rewrite Es, E. cbn [bind]. destruct (IH X Y' (if Y =? Y1 then path else path ++ [l_id (plink N (R X Y) (R X Y'))]) M') as [[T B]|(ls & Ew & Cw & Lw & Aw)].
        -- left. split; [exact T|]. pose proof (count_pos true cs). pose proof (count_pos false cs). lia.
        -- right. destruct (Z.eqb_spec Y Y1) as [EY|NY].
           ++ rewrite (Same EY) in *. exists ls. auto.
           ++ exists (plink N (R X Y) (R X Y') :: ls). split; [rewrite Ew; cbn [map]; rewrite <- app_assoc; reflexivity|]. split; [split; [reflexivity|exact Cw]|]. split; [cbn [length]; lia|].
              intros l [<-|Hl]; [apply in_link, L, NY|apply Aw, Hl].
Qed.
Lemma random_route_ok X0 Y0 X1 Y1 cs : mesh X0 Y0 -> mesh X1 Y1 ->
  (random_route n cs (C X0 Y0) (C X1 Y1) = Timeout /\ (count true cs < Z.abs (X1 - X0) \/ count false cs < Z.abs (Y1 - Y0))) \/
  exists ls, random_route n cs (C X0 Y0) (C X1 Y1) = Ok (map l_id ls) /\ connected (C X0 Y0) ls (C X1 Y1) /\
    (forall l, In l ls -> In l (links n)) /\ Z.of_nat (length ls) = Z.abs (X1 - X0) + Z.abs (Y1 - Y0) + 2.
Proof.
  intros M0 M1. unfold random_route. rewrite src_core by exact M0. cbn [bind]. change (l_dst (plink N ?a ?b)) with b. rewrite get_router by exact M0. cbn [bind]. rewrite dst_core by exact M1. cbn [bind].
  change (l_src (plink N ?a ?b)) with a. rewrite get_router by exact M1. cbn [bind].
  destruct (wander_ok X1 Y1 M1 cs X0 Y0 [l_id (plink N (C X0 Y0) (R X0 Y0))] M0) as [[-> B]|(ls & -> & Cw & Lw & Aw)]; [left; auto|right].
  exists (plink N (C X0 Y0) (R X0 Y0) :: ls ++ [plink N (R X1 Y1) (C X1 Y1)]). cbn [bind snd]. split; [|split; [|split]].
  - cbn [map]. rewrite map_app. cbn [app]. reflexivity.
  - split; [reflexivity|]. eapply connected_app; [exact Cw|]. split; reflexivity.
  - intros l [<-|H]; [apply in_link; constructor; exact M0|]. apply in_app_or in H. destruct H as [H|[<-|[]]]; [apply Aw, H|]. apply in_link. constructor. exact M1.
  - cbn [length]. rewrite app_length. cbn [length]. lia.
Qed.
End Mesh.
