(** Invariants of the graph object: identifiers, names, ends. *)
From Coq Require Import QArith Ascii String.
From Verif Require Import Base Graph Builder BuilderSpec.
Open Scope Z_scope.

(** * Lists *)
Lemma update_nth_split {A} (f : A -> A) l : forall n x, nth_error l n = Some x ->
  exists l1 l2, l = l1 ++ x :: l2 /\ length l1 = n /\ update_nth n f l = l1 ++ f x :: l2.
Proof.
  induction l as [|y l IH]; intros [|n] x E; try discriminate; cbn in *.
  - injection E as ->. exists [], l. auto.
  - destruct (IH n x E) as (l1 & l2 & -> & L & U). exists (y :: l1), l2. cbn. rewrite L, U. auto.
Qed.
Lemma update_nth_map {A B} (h : A -> B) f l : (forall x, h (f x) = h x) -> forall n, map h (update_nth n f l) = map h l.
Proof. intros H. induction l as [|y l IH]; intros [|n]; cbn; rewrite ?H, ?IH; reflexivity. Qed.
Lemma update_nth_length {A} (f : A -> A) l : forall n, length (update_nth n f l) = length l.
Proof. induction l as [|y l IH]; intros [|n]; cbn; rewrite ?IH; reflexivity. Qed.

Lemma find_index_some {A} (f : A -> bool) l : forall n, find_index f l = Some n ->
  exists l1 x l2, l = l1 ++ x :: l2 /\ length l1 = n /\ f x = true /\ forall y, In y l1 -> f y = false.
Proof.
  induction l as [|y l IH]; intros n E; cbn in E; [discriminate|]. destruct (f y) eqn:F.
  - injection E as <-. exists [], y, l. cbn. firstorder.
  - destruct (find_index f l) as [m|]; [|discriminate]. injection E as <-. destruct (IH m eq_refl) as (l1 & x & l2 & -> & L & Fx & Hl).
    exists (y :: l1), x, l2. cbn. rewrite L. repeat split; auto. intros z [<-|Hz]; auto.
Qed.
Lemma find_index_none {A} (f : A -> bool) l : find_index f l = None -> forall y, In y l -> f y = false.
Proof.
  induction l as [|y l IH]; intros E; cbn in E; [intros ? []|]. destruct (f y) eqn:F; [discriminate|].
  destruct (find_index f l); [discriminate|]. intros z [<-|Hz]; auto.
Qed.
Lemma find_index_unique {A} (f : A -> bool) l1 x l2 : (forall y, In y l1 -> f y = false) -> f x = true ->
  find_index f (l1 ++ x :: l2) = Some (length l1).
Proof.
  induction l1 as [|z l1 IH]; intros H F; cbn; [rewrite F; reflexivity|]. rewrite (H z) by (left; reflexivity).
  rewrite IH by (auto; intros y Hy; apply H; right; exact Hy). reflexivity.
Qed.

Lemma find_split {A} (f : A -> bool) l x : find f l = Some x ->
  exists l1 l2, l = l1 ++ x :: l2 /\ f x = true /\ forall y, In y l1 -> f y = false.
Proof.
  induction l as [|y l IH]; cbn; [discriminate|]. destruct (f y) eqn:F; intros E.
  - injection E as ->. exists [], l. cbn. firstorder.
  - destruct (IH E) as (l1 & l2 & -> & Fx & H). exists (y :: l1), l2. cbn. repeat split; auto. intros z [<-|Hz]; auto.
Qed.
Lemma find_here {A} (f : A -> bool) l1 x l2 : (forall y, In y l1 -> f y = false) -> f x = true -> find f (l1 ++ x :: l2) = Some x.
Proof.
  induction l1 as [|z l1 IH]; intros H F; cbn; [rewrite F; reflexivity|]. rewrite (H z) by (left; reflexivity).
  apply IH; auto. intros y Hy; apply H; right; exact Hy.
Qed.

Lemma update_handle_split f es h e : NoDup (map be_handle es) -> find_e h es = Some e ->
  exists l1 l2, es = l1 ++ e :: l2 /\ be_handle e = h /\
    map (fun x => if (be_handle x =? h)%nat then f x else x) es = l1 ++ f e :: l2 /\
    (forall x, In x (l1 ++ l2) -> be_handle x <> h).
Proof.
  intros ND E. destruct (find_split _ _ _ E) as (l1 & l2 & -> & Fe & Hl). apply Nat.eqb_eq in Fe.
  exists l1, l2. split; [reflexivity|]. split; [exact Fe|].
  assert (Hne : forall x, In x (l1 ++ l2) -> be_handle x <> h).
  { intros x Hx Ex. rewrite map_app in ND. cbn in ND. apply NoDup_remove_2 in ND. apply ND. rewrite <- map_app, Fe, <- Ex. apply in_map. exact Hx. }
  split; [|exact Hne]. rewrite map_app. cbn [map]. rewrite Fe, Nat.eqb_refl. f_equal; [|f_equal].
  - rewrite <- (map_id l1) at 2. apply map_ext_in. intros x Hx. destruct (Nat.eqb_spec (be_handle x) h) as [Ex|]; [|reflexivity].
    exfalso. apply (Hne x); [apply in_or_app; left; exact Hx|exact Ex].
  - rewrite <- (map_id l2) at 2. apply map_ext_in. intros x Hx. destruct (Nat.eqb_spec (be_handle x) h) as [Ex|]; [|reflexivity].
    exfalso. apply (Hne x); [apply in_or_app; right; exact Hx|exact Ex].
Qed.

(** Uniqueness of the values that satisfy a test. *)
Definition uniq {A} (ok : A -> bool) (l : list A) : Prop := NoDup (filter ok l).
Lemma uniq_insert {A} (ok : A -> bool) l1 l2 x : uniq ok (l1 ++ l2) -> (ok x = true -> ~ In x (l1 ++ l2)) -> uniq ok (l1 ++ x :: l2).
Proof.
  unfold uniq. rewrite !filter_app. cbn [filter]. intros ND H. destruct (ok x) eqn:O; [|exact ND].
  apply NoDup_Add with (a := x) (l := filter ok l1 ++ filter ok l2); [apply Add_app|]. split; [exact ND|].
  intros I. apply H; [reflexivity|]. rewrite <- filter_app in I. apply filter_In in I. tauto.
Qed.
Lemma uniq_remove {A} (ok : A -> bool) l1 l2 x : uniq ok (l1 ++ x :: l2) -> uniq ok (l1 ++ l2).
Proof.
  unfold uniq. rewrite !filter_app. cbn [filter]. destruct (ok x); [|auto]. intros ND. apply NoDup_remove_1 in ND. exact ND.
Qed.
Lemma uniq_filter {A B} (ok : A -> bool) (h : B -> A) (p : B -> bool) l : uniq ok (map h l) -> uniq ok (map h (filter p l)).
Proof.
  unfold uniq. induction l as [|x l IH]; [auto|]. cbn [map filter]. destruct (p x); cbn [map filter].
  - destruct (ok (h x)); [|exact IH]. intros ND. apply NoDup_cons_iff in ND as [N1 N2]. constructor; [|apply IH; exact N2].
    intros I. apply N1. apply filter_In in I as [I O]. apply filter_In. split; [|exact O].
    apply in_map_iff in I as (y & <- & I). apply filter_In in I as [I _]. apply in_map, I.
  - destruct (ok (h x)); [|exact IH]. intros ND. apply NoDup_cons_iff in ND as [_ N2]. apply IH, N2.
Qed.
Lemma uniq_weaken {A} (ok ok' : A -> bool) l : (forall x, ok x = true -> ok' x = true) -> uniq ok' l -> uniq ok l.
Proof.
  intros H. unfold uniq. induction l as [|x l IH]; [auto|]. cbn [filter]. destruct (ok x) eqn:O.
  - rewrite (H x O). intros ND. apply NoDup_cons_iff in ND as [N1 N2]. constructor; [|apply IH, N2].
    intros I. apply N1. apply filter_In in I as [I O']. apply filter_In. auto.
  - destruct (ok' x); [intros ND; apply NoDup_cons_iff in ND as [_ N2]; apply IH, N2|exact IH].
Qed.
Lemma uniq_inj {A B} (ok : A -> bool) (h : B -> A) l1 x l2 y : uniq ok (map h (l1 ++ x :: l2)) -> ok (h x) = true -> h y = h x ->
  ~ In y (l1 ++ l2).
Proof.
  unfold uniq. rewrite map_app. cbn [map]. rewrite filter_app. cbn [filter]. intros ND O E. rewrite O in ND. apply NoDup_remove_2 in ND.
  intros I. apply ND. rewrite <- filter_app, <- map_app. apply filter_In. split; [|exact O]. rewrite <- E. apply in_map, I.
Qed.
Lemma NoDup_uniq {A} (l : list A) : NoDup l <-> uniq (fun _ => true) l.
Proof. unfold uniq. replace (filter (fun _ => true) l) with l; [tauto|]. induction l; cbn; congruence. Qed.

Lemma delete_nth_split {A} (l1 : list A) x l2 : delete_nth (length l1) (l1 ++ x :: l2) = l1 ++ l2.
Proof. induction l1 as [|y l1 IH]; cbn; [reflexivity|rewrite IH; reflexivity]. Qed.

(** * The invariant of every history *)
Definition nonzero (x : Z) : bool := negb (x =? 0).
Definition nonempty (n : string) : bool := negb (String.eqb n "").

Record inv (s : state) : Prop := mkInv {
  inv_av : 1 <= s_auto_v s;
  inv_vs : forall b, In b (s_vs s) -> bv_id b < s_auto_v s;
  inv_ae : 1 <= s_auto_e s;
  inv_es : forall e, In e (s_es s) -> 0 <= be_id e < s_auto_e s;
  inv_eids : uniq nonzero (map be_id (s_es s));
  inv_vnames : uniq nonempty (map bv_name (s_vs s));
  inv_enames : uniq nonempty (map be_name (s_es s));
  inv_handles : NoDup (map be_handle (s_es s));
  inv_next : forall e, In e (s_es s) -> (be_handle e < s_next s)%nat;
  inv_ends : forall e, In e (s_es s) -> (be_src e < length (s_vs s))%nat /\ (be_dst e < length (s_vs s))%nat }.

Definition pres (P : state -> Prop) {A} (m : M A) : Prop :=
  forall s, P s -> match m s with Done _ s' => P s' | Raised s' => P s' | Undef => True end.

Lemma pres_bind P {A B} (m : M A) (f : A -> M B) : pres P m -> (forall a, pres P (f a)) -> pres P (mbind m f).
Proof.
  intros Hm Hf s Hs. unfold mbind. specialize (Hm s Hs). destruct (m s) as [a s'|s'|]; auto. apply (Hf a s' Hm).
Qed.
Lemma pres_ret P {A} (a : A) : pres P (ret a).
Proof. intros s Hs. exact Hs. Qed.
Lemma pres_check P b : pres P (check b).
Proof. intros s Hs. destruct b; exact Hs. Qed.
Lemma pres_get P : pres P get.
Proof. intros s Hs. exact Hs. Qed.
Lemma pres_get_v P v : pres P (get_v v).
Proof. intros s Hs. unfold get_v. destruct (nth_error (s_vs s) v); auto. Qed.
Lemma pres_get_e P h : pres P (get_e h).
Proof. intros s Hs. unfold get_e. destruct (find_e h (s_es s)); auto. Qed.
Lemma pres_writable P : pres P writable.
Proof. intros s Hs. unfold writable. destruct (s_readonly s); exact Hs. Qed.
Lemma pres_modify (P : state -> Prop) f : (forall s, P s -> P (f s)) -> pres P (modify f).
Proof. intros H s Hs. apply H, Hs. Qed.
Lemma pres_quiet P {A} (m : M A) : pres P m -> pres P (quiet m).
Proof. intros H. apply pres_bind; [exact H|intros; apply pres_ret]. Qed.

Lemma inv_flags a b c s : inv s -> inv (with_flags a b c s).
Proof. intros []. constructor; assumption. Qed.
Lemma inv_reset : pres inv reset_computation.
Proof. apply pres_modify. intros s. apply inv_flags. Qed.
Lemma inv_begin : pres inv begin_change.
Proof. apply pres_bind; [apply pres_writable|intros; apply inv_reset]. Qed.

(** Setters that touch neither identifiers nor names. *)
Lemma inv_put_v v f : (forall b, bv_id (f b) = bv_id b) -> (forall b, bv_name (f b) = bv_name b) -> pres inv (put_v v f).
Proof.
  intros Hi Hn. apply pres_bind; [apply pres_get_v|intros _; apply pres_modify]. intros s []. constructor; cbn [with_vs s_vs s_es s_auto_v s_auto_e s_next]; auto.
  - intros b Hb. assert (I : In (bv_id b) (map bv_id (s_vs s))) by (rewrite <- (update_nth_map bv_id f _ Hi v); apply in_map, Hb).
    apply in_map_iff in I as (b' & <- & I). auto.
  - rewrite (update_nth_map bv_name f _ Hn). assumption.
  - intros e He. rewrite update_nth_length. auto.
Qed.
Lemma inv_put_e h f : (forall e, be_id (f e) = be_id e) -> (forall e, be_name (f e) = be_name e) -> (forall e, be_handle (f e) = be_handle e) ->
  (forall e, be_src (f e) = be_src e /\ be_dst (f e) = be_dst e) -> pres inv (put_e h f).
Proof.
  intros Hi Hn Hh Hd. apply pres_bind; [apply pres_get_e|intros _; apply pres_modify]. intros s [].
  set (g := fun e => if (be_handle e =? h)%nat then f e else e).
  assert (Gi : forall e, be_id (g e) = be_id e) by (intros e; unfold g; destruct (_ =? _)%nat; auto).
  assert (Gn : forall e, be_name (g e) = be_name e) by (intros e; unfold g; destruct (_ =? _)%nat; auto).
  assert (Gh : forall e, be_handle (g e) = be_handle e) by (intros e; unfold g; destruct (_ =? _)%nat; auto).
  assert (Gd : forall e, be_src (g e) = be_src e /\ be_dst (g e) = be_dst e) by (intros e; unfold g; destruct (_ =? _)%nat; auto).
  clearbody g.
  constructor; cbn [with_es s_vs s_es s_auto_v s_auto_e s_next]; auto;
    try (intros e He; apply in_map_iff in He as (e' & <- & He'); rewrite ?Gi, ?Gh; try (destruct (Gd e') as [-> ->]); auto; fail).
  - rewrite map_map. rewrite (map_ext _ _ Gi). assumption.
  - rewrite map_map. rewrite (map_ext _ _ Gn). assumption.
  - rewrite map_map. rewrite (map_ext _ _ Gh). assumption.
Qed.

(** Identifiers. *)
Lemma inv_set_vertex_id_unsafe v id : pres inv (set_vertex_id_unsafe v id).
Proof.
  apply pres_bind; [apply inv_begin|intros _]. intros s Hs. unfold mbind, put_v, mbind, get_v, modify.
  destruct (nth_error (s_vs s) v) as [b|] eqn:E; [|exact I]. destruct (update_nth_split (bv_set_id id) _ _ _ E) as (l1 & l2 & Ev & _ & Eu).
  cbn. rewrite Eu. destruct Hs. constructor; cbn [with_auto_v with_vs s_vs s_es s_auto_v s_auto_e s_next]; auto; try lia.
  - intros b' Hb. apply in_app_or in Hb. rewrite Ev in inv_vs0. destruct Hb as [Hb|[<-|Hb]].
    + specialize (inv_vs0 b' ltac:(apply in_or_app; auto)). lia.
    + cbn. lia.
    + specialize (inv_vs0 b' ltac:(apply in_or_app; right; right; exact Hb)). lia.
  - rewrite Ev in inv_vnames0. rewrite map_app in *. exact inv_vnames0.
  - intros e He. specialize (inv_ends0 e He). rewrite Ev in inv_ends0. rewrite app_length in *. exact inv_ends0.
Qed.
Lemma inv_set_vertex_id v id : pres inv (set_vertex_id v id).
Proof.
  apply pres_bind; [apply inv_begin|intros _]. apply pres_bind; [apply pres_get|intros s0].
  destruct (vertex_by_id s0 id); [apply pres_check|apply inv_set_vertex_id_unsafe].
Qed.

Lemma set_edge_id_tail h id s : inv s -> 0 < id -> edge_by_id s id = None ->
  match (let! _ := put_e h (be_set_id id) in modify (fun s => with_auto_e (Z.max (s_auto_e s) (id + 1)) s)) s with
  | Done _ s' => inv s' | Raised s' => inv s' | Undef => True end.
Proof.
  intros Hs Hid En. unfold mbind, put_e, mbind, get_e, modify. destruct (find_e h (s_es s)) as [e|] eqn:E; [|exact I].
  destruct Hs. destruct (update_handle_split (be_set_id id) _ _ _ inv_handles0 E) as (l1 & l2 & Ee & Eh & Eu & Hne).
  cbn. rewrite Eu. assert (Hfree : forall x, In x (s_es s) -> be_id x <> id).
  { intros x Hx Ex. unfold edge_by_id in En. destruct (find _ (s_es s)) eqn:F; [discriminate|].
    apply (find_none _ _ F) in Hx. rewrite Ex, Z.eqb_refl in Hx. discriminate. }
  rewrite Ee in *. constructor; cbn [with_auto_e with_es s_vs s_es s_auto_v s_auto_e s_next]; auto; try lia.
  - intros x Hx. apply in_app_or in Hx. destruct Hx as [Hx|[<-|Hx]]; [|cbn; lia|].
    + specialize (inv_es0 x ltac:(apply in_or_app; auto)). lia.
    + specialize (inv_es0 x ltac:(apply in_or_app; right; right; exact Hx)). lia.
  - rewrite map_app in *. cbn [map] in *. apply uniq_remove in inv_eids0. apply uniq_insert; [exact inv_eids0|].
    intros _ Hin. rewrite <- map_app in Hin. apply in_map_iff in Hin as (x & Ex & Hx). apply (Hfree x); [|exact Ex].
    apply in_app_or in Hx. apply in_or_app. cbn. tauto.
  - rewrite map_app in *. exact inv_enames0.
  - rewrite map_app in *. exact inv_handles0.
  - intros x Hx. apply in_app_or in Hx. destruct Hx as [Hx|[<-|Hx]]; [| |].
    + apply inv_next0. apply in_or_app; auto.
    + apply (inv_next0 e). apply in_or_app; right; left; reflexivity.
    + apply inv_next0. apply in_or_app; right; right; exact Hx.
  - intros x Hx. apply in_app_or in Hx. destruct Hx as [Hx|[<-|Hx]]; [| |].
    + apply inv_ends0. apply in_or_app; auto.
    + apply (inv_ends0 e). apply in_or_app; right; left; reflexivity.
    + apply inv_ends0. apply in_or_app; right; right; exact Hx.
Qed.
Lemma inv_set_edge_id h id : pres inv (set_edge_id h id).
Proof.
  apply pres_bind; [apply inv_begin|intros _]. intros s Hs. unfold mbind at 1. unfold check. destruct (0 <? id) eqn:Z0; cbn; [|exact Hs].
  apply Z.ltb_lt in Z0. unfold mbind at 1. cbn [get]. destruct (edge_by_id s id) as [oc|] eqn:E.
  - apply pres_check; exact Hs.
  - apply (set_edge_id_tail h id s Hs Z0 E).
Qed.

(** Names. *)
Lemma inv_set_vertex_name v n : pres inv (set_vertex_name v n).
Proof.
  apply pres_bind; [apply inv_begin|intros _]. intros s Hs. unfold mbind at 1. unfold check at 1. destruct (negb (String.eqb n "")) eqn:En; [|exact Hs].
  cbn [ret]. unfold mbind at 1. cbn [get].
  assert (Hfree : forall b, nth_error (s_vs s) v = Some b -> (match vertex_by_name s n with Some o => o = v | None => True end) ->
    inv (with_vs (update_nth v (bv_set_name n) (s_vs s)) s)).
  { intros b Hb Ho. destruct (update_nth_split (bv_set_name n) _ _ _ Hb) as (l1 & l2 & Ev & L & ->).
    destruct Hs. constructor; cbn [with_vs s_vs s_es s_auto_v s_auto_e s_next]; auto.
    - intros b' Hb'. apply in_app_or in Hb'. rewrite Ev in inv_vs0. destruct Hb' as [Hb'|[<-|Hb']].
      + apply inv_vs0. apply in_or_app; auto.
      + apply (inv_vs0 b). apply in_or_app; right; left; reflexivity.
      + apply inv_vs0. apply in_or_app; right; right; exact Hb'.
    - rewrite Ev, map_app in inv_vnames0. cbn [map] in inv_vnames0. rewrite map_app. cbn [map].
      unfold vertex_by_name in Ho. destruct (find_index _ (s_vs s)) as [o|] eqn:F.
      + subst o. destruct (find_index_some _ _ _ F) as (k1 & x & k2 & Ek & Lk & Fx & _). rewrite Ev in Ek.
        assert (Hbx : l1 = k1 /\ b :: l2 = x :: k2).
        { assert (Hl : length l1 = length k1) by congruence. clear -Ek Hl. revert k1 Ek Hl. induction l1 as [|y l1 IH]; intros [|z k1] Ek Hl; try discriminate; [auto|].
          injection Ek as -> Ek. injection Hl as Hl. destruct (IH k1 Ek Hl) as [-> H]. auto. }
        destruct Hbx as [<- Hbx]. injection Hbx as <- <-. apply String.eqb_eq in Fx. cbn [bv_set_name bv_name]. rewrite <- Fx. exact inv_vnames0.
      + apply uniq_remove in inv_vnames0. apply uniq_insert; [exact inv_vnames0|]. intros _ Hin. cbn [bv_set_name bv_name] in Hin.
        rewrite <- map_app in Hin. apply in_map_iff in Hin as (x & Ex & Hx).
        assert (Hx' : In x (s_vs s)) by (rewrite Ev; apply in_app_or in Hx; apply in_or_app; cbn; tauto).
        apply (find_index_none _ _ F) in Hx'. rewrite Ex, String.eqb_refl in Hx'. discriminate.
    - intros e He. specialize (inv_ends0 e He). rewrite Ev in inv_ends0. rewrite app_length in *. exact inv_ends0. }
  destruct (vertex_by_name s n) as [o|] eqn:F.
  - unfold mbind at 1. unfold check. destruct (Nat.eqb_spec o v) as [->|]; [|exact Hs]. cbn [ret].
    unfold put_v, mbind, get_v, modify. destruct (nth_error (s_vs s) v) as [b|] eqn:Eb; [|exact I]. apply (Hfree b); auto.
  - unfold mbind at 1. cbn [ret]. unfold put_v, mbind, get_v, modify. destruct (nth_error (s_vs s) v) as [b|] eqn:Eb; [|exact I]. apply (Hfree b); auto.
Qed.

Lemma inv_set_edge_name h n : pres inv (set_edge_name h n).
Proof.
  apply pres_bind; [apply inv_begin|intros _]. intros s Hs. unfold mbind at 1. unfold check at 1. destruct (negb (String.eqb n "")) eqn:En; [|exact Hs].
  cbn [ret]. unfold mbind at 1. cbn [get].
  assert (Hfree : forall e, find_e h (s_es s) = Some e -> (match edge_by_name s n with Some o => o = h | None => True end) ->
    inv (with_es (map (fun x => if (be_handle x =? h)%nat then be_set_name n x else x) (s_es s)) s)).
  { intros e He Ho. destruct Hs. destruct (update_handle_split (be_set_name n) _ _ _ inv_handles0 He) as (l1 & l2 & Ee & Eh & -> & Hne).
    assert (Hcase : forall x, In x (l1 ++ be_set_name n e :: l2) -> In x (s_es s) \/ x = be_set_name n e).
    { intros x Hx. rewrite Ee. apply in_app_or in Hx. destruct Hx as [Hx|[<-|Hx]]; auto; left; apply in_or_app; cbn; tauto. }
    assert (Hin : In e (s_es s)) by (rewrite Ee; apply in_or_app; right; left; reflexivity).
    constructor; cbn [with_es s_vs s_es s_auto_v s_auto_e s_next]; auto.
    - intros x Hx. destruct (Hcase x Hx) as [H| ->]; auto. apply (inv_es0 e Hin).
    - rewrite Ee in inv_eids0. rewrite map_app in *. exact inv_eids0.
    - rewrite Ee, map_app in inv_enames0. cbn [map] in inv_enames0. rewrite map_app. cbn [map].
      unfold edge_by_name in Ho. destruct (find _ (s_es s)) as [o|] eqn:F.
      + cbn in Ho. assert (Eo : o = e).
        { destruct (find_split _ _ _ F) as (k1 & k2 & Ek & Fo & _). assert (Io : In o (l1 ++ e :: l2)) by (rewrite <- Ee, Ek; apply in_or_app; right; left; reflexivity).
          apply in_app_or in Io. destruct Io as [Io|[Io|Io]]; [|auto|]; exfalso; apply (Hne o); auto; apply in_or_app; auto. }
        subst o. apply find_some in F as [_ F]. apply String.eqb_eq in F. cbn [be_set_name be_name]. rewrite <- F. exact inv_enames0.
      + apply uniq_remove in inv_enames0. apply uniq_insert; [exact inv_enames0|]. intros _ Hi. cbn [be_set_name be_name] in Hi.
        rewrite <- map_app in Hi. apply in_map_iff in Hi as (x & Ex & Hx).
        assert (Hx' : In x (s_es s)) by (rewrite Ee; apply in_app_or in Hx; apply in_or_app; cbn; tauto).
        apply (find_none _ _ F) in Hx'. rewrite Ex, String.eqb_refl in Hx'. discriminate.
    - rewrite Ee in inv_handles0. rewrite map_app in *. exact inv_handles0.
    - intros x Hx. destruct (Hcase x Hx) as [H| ->]; auto. apply (inv_next0 e Hin).
    - intros x Hx. destruct (Hcase x Hx) as [H| ->]; auto. apply (inv_ends0 e Hin). }
  destruct (edge_by_name s n) as [o|] eqn:F.
  - unfold mbind at 1. unfold check. destruct (Nat.eqb_spec o h) as [->|]; [|exact Hs]. cbn [ret].
    unfold put_e, mbind, get_e, modify. destruct (find_e h (s_es s)) as [e|] eqn:Eb; [|exact I]. apply (Hfree e); auto.
  - unfold mbind at 1. cbn [ret]. unfold put_e, mbind, get_e, modify. destruct (find_e h (s_es s)) as [e|] eqn:Eb; [|exact I]. apply (Hfree e); auto.
Qed.

(** Additions. *)
Lemma inv_add_vertex s : inv s -> inv (with_vs (s_vs s ++ [new_vertex]) s).
Proof.
  intros []. constructor; cbn [with_vs s_vs s_es s_auto_v s_auto_e s_next]; auto.
  - intros b Hb. apply in_app_or in Hb. destruct Hb as [Hb|[<-|[]]]; [auto|]. cbn. lia.
  - rewrite map_app. cbn [map]. apply uniq_insert; [rewrite app_nil_r; first [exact inv_eids0|exact inv_enames0|exact inv_vnames0]|discriminate].
  - intros e He. rewrite app_length. cbn. specialize (inv_ends0 e He). lia.
Qed.
Lemma inv_add_edge s from to : inv s -> (from < length (s_vs s))%nat -> (to < length (s_vs s))%nat ->
  inv (with_next (S (s_next s)) (with_es (s_es s ++ [new_edge (s_next s) from to]) s)).
Proof.
  intros [] Hf Ht. constructor; cbn [with_es with_next s_vs s_es s_auto_v s_auto_e s_next]; auto.
  - intros b Hb. apply in_app_or in Hb. destruct Hb as [Hb|[<-|[]]]; [auto|]. cbn. lia.
  - rewrite map_app. cbn [map]. apply uniq_insert; [rewrite app_nil_r; first [exact inv_eids0|exact inv_enames0|exact inv_vnames0]|discriminate].
  - rewrite map_app. cbn [map]. apply uniq_insert; [rewrite app_nil_r; first [exact inv_eids0|exact inv_enames0|exact inv_vnames0]|discriminate].
  - rewrite map_app. cbn [map]. apply (proj2 (NoDup_uniq _)), uniq_insert; [rewrite app_nil_r; apply (proj1 (NoDup_uniq _)); assumption|].
    intros _ Hi. rewrite app_nil_r in Hi. apply in_map_iff in Hi as (e & Ee & He). specialize (inv_next0 e He). cbn in Ee. lia.
  - intros e He. apply in_app_or in He. destruct He as [He|[<-|[]]]; [specialize (inv_next0 e He); lia|cbn; lia].
  - intros e He. apply in_app_or in He. destruct He as [He|[<-|[]]]; [auto|cbn; auto].
Qed.
Lemma bump_ge ids : forall a, a <= bump ids a.
Proof. induction ids as [|x ids IH]; intros a; [apply Z.le_refl|]. change (bump (x :: ids) a) with (bump ids (if a <=? x then x + 1 else a)). etransitivity; [|apply IH]. destruct (Z.leb_spec a x); lia. Qed.
Lemma inv_with_auto_v s a : inv s -> s_auto_v s <= a -> inv (with_auto_v a s).
Proof. intros [] H. constructor; cbn; auto; try lia. intros b Hb. specialize (inv_vs0 b Hb). lia. Qed.
Lemma inv_with_auto_e s a : inv s -> s_auto_e s <= a -> inv (with_auto_e a s).
Proof. intros [] H. constructor; cbn; auto; try lia. intros b Hb. specialize (inv_es0 b Hb). lia. Qed.

Lemma inv_set_init_phases v n : pres inv (set_init_phases v n).
Proof. apply pres_bind; [apply inv_begin|intros _; apply inv_put_v; reflexivity]. Qed.
Lemma inv_set_phases v n : pres inv (set_phases v n).
Proof. apply pres_bind; [apply inv_begin|intros _; apply inv_put_v; reflexivity]. Qed.
Lemma inv_add_unsafe_vertex id : pres inv (add_unsafe_vertex id).
Proof.
  apply pres_bind; [apply inv_begin|intros _]. apply pres_bind; [apply pres_get|intros s0].
  apply pres_bind; [apply pres_modify; intros s; apply inv_add_vertex|intros _].
  apply pres_bind; [apply inv_set_vertex_id|intros _]. apply pres_bind; [apply inv_set_init_phases|intros _].
  apply pres_bind; [apply inv_begin|intros _; apply pres_ret].
Qed.
Lemma inv_add_vertex_auto : pres inv add_vertex_auto.
Proof.
  apply pres_bind; [apply pres_modify; intros s Hs; apply inv_with_auto_v; [exact Hs|apply bump_ge]|intros _].
  apply pres_bind; [apply pres_get|intros s0].
  apply pres_bind; [apply pres_modify; intros s Hs; apply inv_with_auto_v; [exact Hs|lia]|intros _]. apply inv_add_unsafe_vertex.
Qed.
Lemma inv_add_vertex_id id : pres inv (add_vertex_id id).
Proof. apply pres_bind; [apply pres_get|intros s0]. apply pres_bind; [apply pres_check|intros _; apply inv_add_unsafe_vertex]. Qed.

Lemma inv_add_edge_unsafe from to id : pres inv (add_edge_unsafe from to id).
Proof.
  apply pres_bind; [apply inv_begin|intros _]. intros s Hs. unfold mbind at 1. unfold get_v.
  destruct (nth_error (s_vs s) from) as [b|] eqn:E1; [|exact I]. unfold mbind at 1. destruct (nth_error (s_vs s) to) as [b'|] eqn:E2; [|exact I].
  unfold mbind at 1. cbn [get]. unfold mbind at 1. cbn [modify].
  assert (Hs' : inv (with_next (S (s_next s)) (with_es (s_es s ++ [new_edge (s_next s) from to]) s))).
  { apply inv_add_edge; [exact Hs| |]; apply nth_error_Some; congruence. }
  generalize dependent (with_next (S (s_next s)) (with_es (s_es s ++ [new_edge (s_next s) from to]) s)). intros s' Hs'. revert s' Hs'.
  apply pres_bind; [apply inv_set_edge_id|intros _]. apply pres_bind; [apply inv_begin|intros _; apply pres_ret].
Qed.
Lemma inv_add_edge_auto from to : pres inv (add_edge_auto from to).
Proof.
  apply pres_bind; [apply pres_modify; intros s Hs; apply inv_with_auto_e; [exact Hs|apply bump_ge]|intros _].
  apply pres_bind; [apply pres_get|intros s0; apply inv_add_edge_unsafe].
Qed.

(** Removals. *)
Lemma inv_filter p s : inv s -> inv (with_es (filter p (s_es s)) s).
Proof.
  intros []. assert (H : forall e, In e (filter p (s_es s)) -> In e (s_es s)) by (intros e He; apply filter_In in He; tauto).
  constructor; cbn [with_es s_vs s_es s_auto_v s_auto_e s_next]; auto; try (apply uniq_filter; assumption).
  apply (proj2 (NoDup_uniq _)), uniq_filter, (proj1 (NoDup_uniq _)). assumption.
Qed.
Lemma inv_remove_edge h : pres inv (remove_edge h).
Proof.
  apply pres_bind; [apply inv_begin|intros _]. apply pres_bind; [apply pres_get_e|intros _].
  apply pres_modify. intros s. apply inv_filter.
Qed.

Lemma filter_filter_unique sel es e : NoDup (map be_handle es) -> In e es -> sel e = true ->
  filter (fun x => negb (sel x)) (filter (fun x => negb (be_handle x =? be_handle e)%nat) es) = filter (fun x => negb (sel x)) es.
Proof.
  intros ND He Hs. assert (H : forall x, In x es -> be_handle x = be_handle e -> x = e).
  { intros x Hx Ex. destruct (in_split e es He) as (l1 & l2 & ->). rewrite map_app in ND. cbn in ND. apply NoDup_remove_2 in ND.
    apply in_app_or in Hx. destruct Hx as [Hx|[Hx|Hx]]; auto; exfalso; apply ND; rewrite <- map_app, <- Ex; apply in_map, in_or_app; auto. }
  clear ND He. induction es as [|y es IH]; [reflexivity|]. cbn [filter]. destruct (Nat.eqb_spec (be_handle y) (be_handle e)) as [Ey|Ey]; cbn [negb filter].
  - rewrite (H y (or_introl eq_refl) Ey), Hs. cbn. apply IH. intros x Hx. apply H. right; exact Hx.
  - rewrite IH by (intros x Hx; apply H; right; exact Hx). reflexivity.
Qed.
Lemma filter_shorter sel es e : In e es -> sel e = true ->
  (length (filter sel (filter (fun x => negb (be_handle x =? be_handle e)%nat) es)) < length (filter sel es))%nat.
Proof.
  induction es as [|y es IH]; intros Hin Hs; [destruct Hin|]. assert (Hle : forall p, (length (filter sel (filter p es)) <= length (filter sel es))%nat).
  { intros p. clear. induction es as [|y es IH]; cbn; [lia|]. destruct (p y); cbn; destruct (sel y); cbn; lia. }
  cbn [filter]. destruct Hin as [->|Hin].
  - rewrite Nat.eqb_refl, Hs. cbn. specialize (Hle (fun x => negb (be_handle x =? be_handle e)%nat)). lia.
  - specialize (IH Hin Hs). destruct (be_handle y =? be_handle e)%nat; cbn [negb filter]; destruct (sel y); cbn [length]; lia.
Qed.

Definition reset (s : state) : state := with_flags false false false s.
Lemma remove_all_spec sel : forall fuel s, NoDup (map be_handle (s_es s)) -> s_readonly s = false -> s_norm s = false -> s_rep s = false ->
  (length (filter sel (s_es s)) <= fuel)%nat ->
  remove_all fuel sel s = Done tt (with_es (filter (fun x => negb (sel x)) (s_es s)) s).
Proof.
  induction fuel as [|fuel IH]; intros s ND Hr Hn Hp Hf.
  - cbn. unfold mbind, get. destruct (find sel (s_es s)) as [e|] eqn:F.
    + apply find_some in F as [F1 F2]. exfalso. assert (In e (filter sel (s_es s))) by (apply filter_In; auto). destruct (filter sel (s_es s)); [contradiction|cbn in Hf; lia].
    + unfold ret. f_equal. destruct s as [f1 f2 f3 vs0 es f4 f5 f6 f7]; cbn in *. unfold with_es; cbn. f_equal. pose proof (find_none _ _ F) as H. clear -H.
      induction es as [|y es IHe]; cbn; [reflexivity|]. rewrite (H y) by (left; reflexivity). cbn. f_equal. apply IHe. intros x Hx. apply H; right; exact Hx.
  - cbn. unfold mbind, get. destruct (find sel (s_es s)) as [e|] eqn:F.
    + apply find_some in F as [F1 F2]. unfold remove_edge, begin_change, writable, mbind, reset_computation, modify. rewrite Hr.
      assert (Es : with_flags false false false s = s) by (destruct s; cbn in *; subst; reflexivity). rewrite Es. unfold get_e.
      assert (Hfe : exists x, find_e (be_handle e) (s_es s) = Some x).
      { unfold find_e. destruct (find _ (s_es s)) as [x|] eqn:F'; [eauto|]. apply (find_none _ _ F') in F1. rewrite Nat.eqb_refl in F1. discriminate. }
      destruct Hfe as [x ->]. rewrite IH.
      * cbn. rewrite (filter_filter_unique sel (s_es s) e ND F1 F2). reflexivity.
      * cbn. apply (proj2 (NoDup_uniq _)), uniq_filter, (proj1 (NoDup_uniq _)), ND.
      * exact Hr.
      * exact Hn.
      * exact Hp.
      * cbn. pose proof (filter_shorter sel (s_es s) e F1 F2). lia.
    + unfold ret. f_equal. destruct s as [f1 f2 f3 vs0 es f4 f5 f6 f7]; cbn in *. unfold with_es; cbn. f_equal. pose proof (find_none _ _ F) as H. clear -H.
      induction es as [|y es IHe]; cbn; [reflexivity|]. rewrite (H y) by (left; reflexivity). cbn. f_equal. apply IHe. intros x Hx. apply H; right; exact Hx.
Qed.

Definition off (v : nat) (e : bedge) : bool := negb (be_dst e =? v)%nat && negb (be_src e =? v)%nat.
Lemma filter_and {A} (p q : A -> bool) l : filter q (filter p l) = filter (fun x => p x && q x) l.
Proof. induction l as [|x l IH]; cbn; [reflexivity|]. destruct (p x); cbn; destruct (q x); cbn; rewrite ?IH; reflexivity. Qed.

(** removeVertex in one step. *)
Lemma filter_le {A} (p : A -> bool) l : (length (filter p l) <= length l)%nat.
Proof. induction l as [|x l IH]; cbn; [lia|]. destruct (p x); cbn; lia. Qed.
Lemma remove_vertex_eq v s : NoDup (map be_handle (s_es s)) ->
  remove_vertex v s =
    if s_readonly s then Raised s
    else match nth_error (s_vs s) v with
         | None => Undef
         | Some _ => Done tt (with_es (map (fun e => be_set_ends (shift v (be_src e)) (shift v (be_dst e)) e) (filter (off v) (s_es s)))
                               (with_vs (delete_nth v (s_vs s)) (reset s)))
         end.
Proof.
  intros ND. unfold remove_vertex. unfold begin_change, writable, mbind at 1 2. destruct (s_readonly s) eqn:R; [reflexivity|].
  cbn [reset_computation modify]. unfold mbind at 1. unfold get_v. cbn [with_flags s_vs]. destruct (nth_error (s_vs s) v) as [b|]; [|reflexivity].
  unfold mbind at 1. cbn [get]. unfold mbind at 1. fold (reset s). rewrite remove_all_spec; try reflexivity.
  2: exact ND. 2: apply filter_le.
  unfold mbind at 1. rewrite remove_all_spec; try reflexivity.
  - cbn. unfold with_es, with_vs, reset; cbn. rewrite filter_and. reflexivity.
  - cbn. apply (proj2 (NoDup_uniq _)), uniq_filter, (proj1 (NoDup_uniq _)), ND.
  - cbn. etransitivity; [apply filter_le|]. apply filter_le.
Qed.

Lemma inv_remove_vertex v : pres inv (remove_vertex v).
Proof.
  intros s Hs. rewrite remove_vertex_eq by apply Hs. destruct (s_readonly s); [exact Hs|]. destruct (nth_error (s_vs s) v) as [b|] eqn:E; [|exact I].
  pose proof (inv_filter (off v) s Hs) as H. destruct Hs. destruct H as [X1 X2 X3 H4 H5 X6 H7 H8 H9 H10]. cbn [with_es s_vs s_es s_auto_v s_auto_e s_next] in *.
  destruct (nth_error_split _ _ E) as (l1 & l2 & Ev & L).
  constructor; cbn [with_es with_vs reset with_flags s_vs s_es s_auto_v s_auto_e s_next]; auto.
  - intros x Hx. apply inv_vs0. rewrite Ev, <- L, delete_nth_split in Hx. rewrite Ev. apply in_app_or in Hx. apply in_or_app. cbn. tauto.
  - intros x Hx. apply in_map_iff in Hx as (y & <- & Hy). apply (H4 y Hy).
  - rewrite map_map. cbn. exact H5.
  - rewrite Ev, <- L, delete_nth_split. rewrite Ev, map_app in inv_vnames0. cbn in inv_vnames0. apply uniq_remove in inv_vnames0. rewrite map_app. exact inv_vnames0.
  - rewrite map_map. cbn. exact H7.
  - rewrite map_map. cbn. exact H8.
  - intros x Hx. apply in_map_iff in Hx as (y & <- & Hy). apply (H9 y Hy).
  - intros x Hx. apply in_map_iff in Hx as (y & <- & Hy). cbn. pose proof (H10 y Hy) as [A B]. apply filter_In in Hy as [_ Hy].
    unfold off in Hy. apply andb_prop in Hy as [C D]. apply negb_true_iff, Nat.eqb_neq in C, D.
    rewrite Ev, <- L, delete_nth_split. rewrite Ev, app_length in A, B. cbn in A, B. rewrite app_length. unfold shift. rewrite L in *.
    destruct (v <? be_src y)%nat eqn:Q1; destruct (v <? be_dst y)%nat eqn:Q2; rewrite ?Nat.ltb_lt, ?Nat.ltb_ge in *; lia.
Qed.

Lemma inv_set_all_Ni l : forall v, pres inv (set_all_Ni v l).
Proof.
  induction l as [|n l IH]; intros v; [apply pres_ret|]. cbn. apply pres_bind; [|intros _; apply IH].
  apply pres_bind; [apply pres_get|intros s0]. apply pres_bind; [apply pres_check|intros _; apply inv_put_v; reflexivity].
Qed.

Lemma inv_exec c : pres inv (exec c).
Proof.
  destruct c; cbn [exec]; try apply pres_quiet.
  - apply inv_add_vertex_auto.
  - apply inv_add_vertex_id.
  - apply pres_bind; [apply inv_add_vertex_id|intros v]. apply pres_bind; [apply inv_set_vertex_name|intros; apply pres_ret].
  - apply pres_bind; [apply inv_add_vertex_auto|intros v]. apply pres_bind; [apply inv_set_vertex_name|intros; apply pres_ret].
  - apply inv_add_unsafe_vertex.
  - apply inv_add_edge_auto.
  - apply inv_add_edge_unsafe.
  - apply pres_bind; [apply inv_add_edge_unsafe|intros v]. apply pres_bind; [apply inv_set_edge_name|intros; apply pres_ret].
  - apply pres_bind; [apply inv_add_edge_auto|intros v]. apply pres_bind; [apply inv_set_edge_name|intros; apply pres_ret].
  - apply inv_remove_vertex.
  - apply inv_remove_edge.
  - apply inv_set_vertex_id.
  - apply inv_set_vertex_id_unsafe.
  - apply inv_set_edge_id.
  - apply inv_set_vertex_name.
  - apply inv_set_edge_name.
  - apply inv_set_phases.
  - apply inv_set_init_phases.
  - apply pres_bind; [apply inv_begin|intros _; apply inv_put_v; reflexivity].
  - apply pres_bind; [apply pres_writable|intros _; apply inv_put_e; auto].
  - apply pres_bind; [apply inv_begin|intros _; apply inv_put_e; auto].
  - apply pres_bind; [apply inv_begin|intros _]. apply pres_bind; [apply inv_put_e; auto|intros _].
    apply pres_bind; [apply pres_get_e|intros e]. apply pres_bind; [apply pres_get_v|intros b]. apply pres_bind; [apply pres_check|intros _; apply inv_set_phases].
  - apply pres_bind; [apply inv_begin|intros _]. apply pres_bind; [apply inv_put_e; auto|intros _].
    apply pres_bind; [apply pres_get_e|intros e]. apply pres_bind; [apply pres_get_v|intros b]. apply pres_bind; [apply pres_check|intros _; apply inv_set_phases].
  - apply pres_bind; [apply inv_begin|intros _]. apply pres_bind; [apply inv_put_e; auto|intros _].
    apply pres_bind; [apply pres_get_e|intros e]. apply pres_bind; [apply pres_get_v|intros b]. apply pres_bind; [apply pres_check|intros _; apply inv_set_init_phases].
  - apply pres_bind; [apply inv_begin|intros _]. apply pres_bind; [apply inv_put_e; auto|intros _].
    apply pres_bind; [apply pres_get_e|intros e]. apply pres_bind; [apply pres_get_v|intros b]. apply pres_bind; [apply pres_check|intros _; apply inv_set_init_phases].
  - apply pres_bind; [apply inv_begin|intros _]. apply pres_bind; [apply pres_get_v|intros b]. apply pres_bind; [apply pres_check|intros _; apply inv_put_v; reflexivity].
  - apply pres_bind; [apply inv_begin|intros _]. apply pres_bind; [apply pres_get_v|intros b]. apply pres_bind; [apply pres_check|intros _; apply inv_put_v; reflexivity].
  - apply pres_bind; [apply pres_get_e|intros e]. apply pres_bind; [apply pres_get|intros s0]. destruct (lookup_gcd _ _); [apply pres_ret|].
    destruct (compute_fine_gcd e); [|intros s Hs; exact Hs]. apply pres_bind; [|intros; apply pres_ret]. apply pres_modify. intros s []. constructor; assumption.
  - apply pres_bind; [apply pres_get|intros s0]. apply pres_bind; [apply pres_check|intros _; apply inv_put_v; reflexivity].
  - apply pres_bind; [apply pres_get|intros s0]. destruct (s_rep s0); [apply pres_ret|].
    apply pres_bind; [apply pres_modify; intros s; apply inv_flags|intros _]. destruct res; [|apply pres_ret].
    apply pres_bind; [apply inv_set_all_Ni|intros _]. apply pres_bind; [apply pres_modify; intros s; apply inv_flags|intros _; apply pres_ret].
  - apply pres_bind; [apply pres_get|intros s0]. destruct (s_norm s0); [apply pres_ret|].
    apply pres_bind; [apply pres_modify; intros s; apply inv_flags|intros _]. destruct ok; [|apply pres_ret].
    apply pres_bind; [apply pres_modify; intros s; apply inv_flags|intros _; apply pres_ret].
  - apply pres_modify. intros s. apply inv_flags.
  - apply inv_reset.
Qed.
Lemma inv_empty : inv empty_state.
Proof. constructor; cbn; try lia; try (intros ? []); try (constructor). Qed.

Lemma any_history_inv s : any_history s -> inv s.
Proof.
  induction 1 as [|s c s' _ IH E|s c s' _ IH E]; [apply inv_empty| |]; pose proof (inv_exec c s IH) as H; rewrite E in H; exact H.
Qed.
Lemma history_of_any allowed r s : history_of allowed r s -> any_history s.
Proof. induction 1; [constructor|eapply any_accepted; eauto|eapply any_rejected; eauto]. Qed.
Lemma accepted_any s : accepted_history s -> any_history s.
Proof. induction 1; [constructor|eapply any_accepted; eauto]. Qed.
