(** Proofs about the last part of the mapping. *)
From Coq Require Import Permutation ZifyBool ZifyNat.
From Verif Require Import Base Noc NocSpec NocProofs NocProps NocPath NocPathSpec NocPathProofs NocPathMesh NocPathProps Mapper MapperSpec MapperProofs MapperProps
  TaskOrder TaskOrderSpec TaskOrderProofs CycleFinder CycleFinderProofs MapFinish.
Open Scope nat_scope.

(** ** Paths *)
Lemma path_has link : forall l u d, follows link u l d -> forall x y, In (x, y) (path_links l) -> link x y.
Proof.
  unfold path_links. induction l as [|a l IH]; intros u d F x y H; [destruct H|]. destruct F as [-> F]. destruct l as [|b l]; [destruct H|]. destruct F as [L F]. cbn [tl combine] in H. destruct H as [E|H]; [injection E as <- <-; exact L|].
  apply (IH b d F). cbn [tl]. exact H.
Qed.
Lemma path_last link : forall l u d, follows link u l d -> 2 <= length l -> exists x p, path_links l = p ++ [(x, d)].
Proof.
  unfold path_links. induction l as [|a l IH]; intros u d F L; cbn in L; [lia|]. destruct F as [-> F]. destruct l as [|b l]; [cbn in L; lia|]. destruct F as [_ F]. cbn [tl combine]. destruct l as [|c l].
  - destruct F as [_ ->]. exists u, []. reflexivity.
  - destruct (IH b d F ltac:(cbn; lia)) as (x & p & E). exists x, ((u, b) :: p). cbn [tl] in E. change ((u, b) :: combine (b :: c :: l) (c :: l) = (u, b) :: p ++ [(x, d)]). now rewrite E.
Qed.
Lemma path_first link l u d : follows link u l d -> u <> d -> 2 <= length l /\ exists y q, path_links l = (u, y) :: q.
Proof. intros F N. destruct l as [|a l]; [destruct F|]. destruct F as [-> F]. destruct l as [|b l]; [congruence|]. split; [cbn; lia|]. unfold path_links. cbn [tl combine]. eauto. Qed.

Lemma pair_back v e x y : map_index_pair v e = (x, y) -> v <> 0 -> e = map_index v x y \/ x = 0 /\ y = 0.
Proof.
  intros Ee N. unfold map_index_pair in Ee. injection Ee as E1 E2. unfold map_index. destruct (le_lt_dec v e) as [L|L].
  - left. pose proof (Nat.div_mod (e - v) v N) as D. rewrite E1, E2 in D. lia.
  - right. replace (e - v) with 0 in * by lia. rewrite Nat.div_0_l in E1 by lia. rewrite Nat.mod_0_l in E2 by lia. auto.
Qed.

Section Written.
Variables (xs ys : Z) (n : noc).
Hypotheses (Hx : (0 <= xs)%Z) (Hy : (0 <= ys)%Z) (E : make_noc xs ys = Ok n).
Let g := make_graph n.

Lemma no_zero : ~ has_link g 0 0.
Proof using Hx Hy E.
  unfold has_link, g, make_graph. cbn [g_adj]. intros H. apply in_map_iff in H. destruct H as (l & El & Hl). apply filter_In in Hl. destruct Hl as [Hl B]. apply Z.eqb_eq in B.
  destruct (make_noc_inv xs ys n Hx Hy E) as [-> _]. apply pure_links in Hl. destruct Hl as (a & b & -> & L). cbn [plink l_src l_dst] in *. pose proof (linked_bound _ _ _ _ L) as [_ Bb]. assert (a = 0%Z) by lia. assert (b = 0%Z) by lia. subst.
  inversion L as [X Y M EX EY|X Y M EX EY|X Y M M' EX EY|X Y M M' EX EY|X Y M M' EX EY|X Y M M' EX EY]; unfold router_at, core_at, in_mesh in *; nia.
Qed.
Lemma link_there x y : has_link g x y -> y < g_v g /\ exists l, get_edge n (Z.of_nat x) (Z.of_nat y) = Ok l /\ l_id l = Z.of_nat (map_index (g_v g) x y).
Proof using Hx Hy E.
  intros H. pose proof H as H0. unfold has_link, g, make_graph in H. cbn [g_adj] in H. apply in_map_iff in H. destruct H as (l & El & Hl). apply filter_In in Hl. destruct Hl as [Hl B]. apply Z.eqb_eq in B.
  pose proof (C127_link_ids xs ys n Hx Hy E l Hl) as Id. destruct (C49_lookup xs ys n l Hx Hy E Hl) as [Ge _].
  assert (Bd : (0 <= l_src l < xs * ys * 2)%Z /\ (0 <= l_dst l < xs * ys * 2)%Z). { destruct (make_noc_inv xs ys n Hx Hy E) as [En _]. rewrite En in Hl. apply pure_links in Hl. destruct Hl as (a & b & -> & L). exact (linked_bound _ _ _ _ L). }
  pose proof (g_v_eq xs ys n Hx Hy E) as Ev. fold g in Ev. split; [rewrite Ev; lia|]. exists l. rewrite B in Ge, Id. rewrite Nat2Z.id in Id. rewrite El in Id. split; [|exact Id]. rewrite <- Ge. f_equal. lia.
Qed.
Lemma pair_index e x y : map_index_pair (g_v g) e = (x, y) -> has_link g x y -> e = map_index (g_v g) x y.
Proof using Hx Hy E.
  intros Ee H. pose proof (link_there x y H) as [Hv _]. destruct (pair_back (g_v g) e x y Ee ltac:(lia)) as [X|[-> ->]]; [exact X|]. destruct (no_zero H).
Qed.
Lemma links_pass (r : list nat) l u d : follows (has_link g) u l d -> map (map_index_pair (g_v g)) r = path_links l -> each (check_link n g) tt r = Ok tt /\ each (check_id n g) tt r = Ok tt.
Proof using Hx Hy E.
  intros F M. assert (A : forall e, In e r -> exists x y, map_index_pair (g_v g) e = (x, y) /\ has_link g x y).
  { intros e He. destruct (map_index_pair (g_v g) e) as [x y] eqn:Ep. exists x, y. split; [reflexivity|]. apply (path_has _ l u d F). rewrite <- M, <- Ep. now apply in_map. }
  clear M F. induction r as [|e r IH]; [split; reflexivity|]. destruct (A e (or_introl eq_refl)) as (x & y & Ep & H). destruct (link_there x y H) as (_ & k & Gk & Ik). destruct (IH (fun e' He => A e' (or_intror He))) as [I1 I2]. cbn [each].
  unfold check_link at 1. unfold check_id at 1. rewrite Ep. cbn [fst snd]. rewrite Gk. cbn [bind]. split; [exact I1|]. rewrite Ik, <- (pair_index e x y Ep H), Z.eqb_refl. cbn [cassert bind]. exact I2.
Qed.

Lemma on_node_ok m t x : (forall y, m t = Some y -> y = x) -> exists m', on_node m t x = Ok m' /\ m' t = Some x /\ forall s, s <> t -> m' s = m s.
Proof.
  intros H. unfold on_node. destruct (m t) as [y|] eqn:Em.
  - rewrite (H y eq_refl), Nat.eqb_refl. cbn. exists m. rewrite Em, (H y eq_refl). auto.
  - exists (set_at m t (Some x)). split; [reflexivity|]. unfold set_at. rewrite Nat.eqb_refl. split; [reflexivity|]. intros s Ns. now rewrite (proj2 (Nat.eqb_neq s t) Ns).
Qed.

Variables (core : nat -> option nat) (cs : list chan) (routes : list (nat * list nat)).
Let key (c : chan) := map_index (g_v g) (c_src c) (c_dst c).
Hypothesis Ids : NoDup (map c_id cs).
Hypothesis One : forall t t' c, core t = Some c -> core t' = Some c -> t = t'.
Hypothesis Routed : forall c r, In c cs -> get routes (key c) = Some r -> c_src c <> c_dst c /\ exists a b, core (c_src c) = Some a /\ core (c_dst c) = Some b /\ leads g r a b.

(** The channels of [L] have been dealt with. *)
Definition done (L : list chan) (w : written) : Prop :=
  (forall t x, fst w t = Some x <-> exists c a, In c L /\ (c_src c = t \/ c_dst c = t) /\ core t = Some a /\ x = a + mesh_size g) /\
  (forall i r, snd w i = Some r <-> exists c, In c L /\ c_id c = i /\ get routes (key c) = Some r).

Lemma write_one L w c r : done L w -> incl L cs -> In c cs -> get routes (key c) = Some r -> exists w', write_route n g r w c = Ok w' /\ done (c :: L) w'.
Proof using Hx Hy E Ids One Routed.
  intros [D1 D2] I Hc Gr. destruct (Routed c r Hc Gr) as (Ne & a & b & Ca & Cb & l & [F _] & M). assert (Nab : a <> b) by (intros ->; apply Ne; exact (One _ _ _ Ca Cb)).
  destruct (links_pass r l _ _ F M) as [P1 P2]. destruct (path_first _ l _ _ F ltac:(lia)) as (L2 & y & q & Fst). destruct (path_last _ l _ _ F L2) as (x & p & Lst).
  unfold write_route. rewrite P1. cbn [bind]. destruct r as [|e0 r']; [rewrite Fst in M; discriminate|]. 
  assert (E0 : fst (map_index_pair (g_v g) e0) = a + mesh_size g) by (rewrite Fst in M; apply (f_equal (hd (0, 0))) in M; cbn [map hd] in M; rewrite M; reflexivity).
  assert (E1 : snd (map_index_pair (g_v g) (last (e0 :: r') 0)) = b + mesh_size g).
  { destruct (exists_last (l := e0 :: r') ltac:(discriminate)) as (r1 & e1 & Er). rewrite Er in *. rewrite last_last. rewrite Lst, map_app in M. cbn [map] in M. apply app_inj_tail in M. destruct M as [_ ->]. reflexivity. }
  rewrite E0, E1. destruct (on_node_ok (fst w) (c_src c) (a + mesh_size g)) as (m1 & -> & S1 & O1). { intros z Z. apply D1 in Z. destruct Z as (c' & a' & _ & _ & Ca' & ->). congruence. }
  cbn [bind]. destruct (on_node_ok m1 (c_dst c) (b + mesh_size g)) as (m2 & -> & S2 & O2). { intros z Z. rewrite (O1 (c_dst c) ltac:(congruence)) in Z. apply D1 in Z. destruct Z as (c' & b' & _ & _ & Cb' & ->). congruence. }
  cbn [bind]. rewrite P2. cbn [bind]. eexists. split; [reflexivity|]. split; cbn [fst snd].
  - intros t z. destruct (Nat.eq_dec t (c_dst c)) as [->|N2]; [|destruct (Nat.eq_dec t (c_src c)) as [->|N1]].
    + rewrite S2. split; [intros Z; injection Z as <-; exists c, b; split; [now left|auto]|]. intros (c' & b' & _ & _ & Cb' & ->). congruence.
    + rewrite (O2 (c_src c) N2), S1. split; [intros Z; injection Z as <-; exists c, a; split; [now left|auto]|]. intros (c' & b' & _ & _ & Cb' & ->). congruence.
    + rewrite (O2 t N2), (O1 t N1), D1. split; [intros (c' & a' & Hc' & X); exists c', a'; split; [now right|exact X]|]. intros (c' & a' & [<-|Hc'] & [X|X] & Y); try congruence; exists c', a'; auto.
  - intros i z. unfold set_at. destruct (i =? c_id c) eqn:B.
    + apply Nat.eqb_eq in B. subst i. split; [intros Z; injection Z as <-; exists c; split; [now left|auto]|]. intros (c' & Hc' & Ec & Gc). assert (c' = c); [|subst; congruence]. destruct Hc' as [<-|Hc']; [reflexivity|]. exact (id_inj cs c' c Ids (I c' Hc') Hc Ec).
    + apply Nat.eqb_neq in B. rewrite D2. split; [intros (c' & Hc' & X); exists c'; split; [now right|exact X]|]. intros (c' & [<-|Hc'] & X & Y); [congruence|]. exists c'; auto.
Qed.
Lemma write_list r : forall l L w, done L w -> incl L cs -> (forall c, In c l -> In c cs /\ get routes (key c) = Some r) -> exists w', each (write_route n g r) w l = Ok w' /\ done (rev l ++ L) w'.
Proof using Hx Hy E Ids One Routed.
  induction l as [|c l IH]; intros L w D I H; cbn [each rev app]; [eauto|]. destruct (H c (or_introl eq_refl)) as [Hc Gc]. destruct (write_one L w c r D I Hc Gc) as (w1 & -> & D1). cbn [bind].
  destruct (IH (c :: L) w1 D1) as (w2 & -> & D2); [intros z [<-|Hz]; auto|intros c' Hc'; apply H; now right|]. exists w2. split; [reflexivity|]. rewrite <- app_assoc. exact D2.
Qed.
Lemma done_ext L L' w : (forall c, In c L <-> In c L') -> done L w -> done L' w.
Proof.
  clear. intros H [D1 D2]. split.
  - intros t x. rewrite D1. split; intros (c & a & Hc & X); exists c, a; (split; [apply H, Hc|exact X]).
  - intros i r. rewrite D2. split; intros (c & Hc & X); exists c; (split; [apply H, Hc|exact X]).
Qed.
Lemma write_keys : forall ks L w, done L w -> incl L cs -> exists w' L',
  each (fun w k => match get routes k with None => Ok w | Some r => each (write_route n g r) w (stored_under (g_v g) cs k) end) w ks = Ok w' /\ done L' w' /\ incl L' cs /\
  forall c, In c L' <-> In c L \/ In c cs /\ In (key c) ks /\ get routes (key c) <> None.
Proof using Hx Hy E Ids One Routed.
  induction ks as [|k ks IH]; intros L w D I; cbn [each]; [exists w, L; split; [reflexivity|]; split; [exact D|]; split; [exact I|]; intros c; cbn [In]; tauto|].
  destruct (get routes k) as [r|] eqn:Gk.
  - assert (S : forall c, In c (stored_under (g_v g) cs k) <-> In c cs /\ key c = k) by (intros c; unfold stored_under; rewrite filter_In, Nat.eqb_eq; reflexivity).
    destruct (write_list r (stored_under (g_v g) cs k) L w D I) as (w1 & -> & D1); [intros c Hc; apply S in Hc; destruct Hc as [Hc <-]; auto|]. cbn [bind].
    destruct (IH _ w1 D1) as (w2 & L2 & -> & D2 & I2 & H2). { intros c Hc. apply in_app_iff in Hc. destruct Hc as [Hc|Hc]; [|auto]. apply in_rev, S in Hc. apply Hc. }
    exists w2, L2. split; [reflexivity|]. split; [exact D2|]. split; [exact I2|]. intros c. rewrite H2, in_app_iff, <- in_rev, S. cbn [In]. split.
    + intros [[[Hc Ek]|H]|(H & H' & H'')]; [right; split; [exact Hc|]; split; [auto|congruence]|auto|auto 6].
    + intros [H|(H & [Ek|H'] & H'')]; auto 6.
  - cbn [bind]. destruct (IH L w D I) as (w2 & L2 & -> & D2 & I2 & H2). exists w2, L2. split; [reflexivity|]. split; [exact D2|]. split; [exact I2|]. intros c. rewrite H2. cbn [In]. split; [intros [H|(H & H' & H'')]; auto 6|].
    intros [H|(H & [Ek|H'] & H'')]; auto. congruence.
Qed.
Lemma get_in k r : get routes k = Some r -> In k (map fst routes).
Proof. unfold get. intros H. destruct (find (fun e => fst e =? k) routes) as [e|] eqn:F; [|discriminate]. apply find_some in F. destruct F as [F B]. apply Nat.eqb_eq in B. rewrite <- B. now apply in_map. Qed.
Lemma write_all_ok : exists w, write_all n g cs routes = Ok w /\
  (forall t x, fst w t = Some x <-> exists c a, In c cs /\ get routes (key c) <> None /\ (c_src c = t \/ c_dst c = t) /\ core t = Some a /\ x = a + mesh_size g) /\
  (forall c, In c cs -> snd w (c_id c) = get routes (key c)).
Proof using Hx Hy E Ids One Routed.
  unfold write_all. destruct (write_keys (sorted (map fst routes)) [] (fun _ => None, fun _ => None)) as (w & L & Ew & [D1 D2] & I & H).
  - split; cbn [fst snd]; [intros t x; split; [discriminate|intros (c & a & [] & _)]|intros i r; split; [discriminate|intros (c & [] & _)]].
  - intros c [].
  - assert (HL : forall c, In c L <-> In c cs /\ get routes (key c) <> None).
    { intros c. rewrite H. cbn [In]. split; [intros [[]|(H1 & _ & H2)]; auto|]. intros [H1 H2]. right. split; [exact H1|]. split; [|exact H2]. apply (Permutation_in _ (Permutation_sym (sorted_perm _))). destruct (get routes (key c)) as [r|] eqn:Gr; [|congruence]. exact (get_in _ _ Gr). }
    exists w. split; [exact Ew|]. split.
    + intros t x. rewrite D1. split; [intros (c & a & Hc & X); apply HL in Hc; exists c, a; tauto|intros (c & a & Hc & Hg & X); exists c, a; split; [apply HL; auto|exact X]].
    + intros c Hc. destruct (get routes (key c)) as [r|] eqn:Gr.
      * apply D2. exists c. split; [apply HL; split; [exact Hc|congruence]|auto].
      * destruct (snd w (c_id c)) as [r|] eqn:Sw; [|reflexivity]. apply D2 in Sw. destruct Sw as (c' & Hc' & Ec & Gc). assert (c' = c) by exact (id_inj cs c' c Ids (I c' Hc') Hc Ec). subst. congruence.
Qed.
End Written.
