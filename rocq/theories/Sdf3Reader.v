(** Whatever the reader accepts is a graph built by accepted calls. *)
From Coq Require Import QArith Ascii String.
From Verif Require Import Base Graph Commons Builder BuilderSpec BuilderProofs BuilderIds BuilderPhases BuilderFinal Sdf3 Sdf3Spec Sdf3Core.
Open Scope Z_scope.

Lemma bind_inv {A B} (m : M A) (f : A -> M B) s b s' : mbind m f s = Done b s' -> exists a s1, m s = Done a s1 /\ f a s1 = Done b s'.
Proof. unfold mbind. destruct (m s) as [a s1|s1|]; intros H; try discriminate. exists a, s1. auto. Qed.
Lemma check_inv b s u s' : check b s = Done u s' -> b = true /\ s' = s.
Proof. unfold check. destruct b; cbn; intros H; [injection H as _ <-; auto|discriminate]. Qed.
Lemma ret_inv {A} (a b : A) s s' : ret a s = Done b s' -> b = a /\ s' = s.
Proof. intros H. injection H as <- <-. auto. Qed.
Lemma lift_inv {A} (o : outcome A) s a s' : lift o s = Done a s' -> o = Ok a /\ s' = s.
Proof. destruct o; cbn; intros H; try discriminate. injection H as <- <-. auto. Qed.
Lemma begin_inv s u s' : begin_change s = Done u s' -> s_readonly s = false /\ s' = with_flags false false false s.
Proof. unfold begin_change, mbind, writable. destruct (s_readonly s); [discriminate|]. intros H. injection H as _ <-. auto. Qed.
Tactic Notation "unbind" hyp(H) ident(a) ident(s1) ident(H1) := apply bind_inv in H; destruct H as (a & s1 & H1 & H).
Ltac inv_bind H := let a := fresh "a" in let s1 := fresh "s" in let H1 := fresh H in apply bind_inv in H; destruct H as (a & s1 & H1 & H).

Definition hist (s : state) : Prop := history_of checked_call false s.
Lemma hist_call c s s' : checked_call s c -> hist s -> exec c s = Done tt s' -> hist s'.
Proof. intros Hc Hs E. exact (ho_accepted _ _ s c s' Hs Hc E). Qed.
Lemma hist_inv s : hist s -> inv s.
Proof. intros H. apply any_history_inv. eapply history_of_any, H. Qed.
Lemma hist_quiet {A} (m : M A) c s a s' : checked_call s c -> exec c = quiet m -> hist s -> m s = Done a s' -> hist s'.
Proof. intros Hc Ec Hs E. apply (hist_call c s s' Hc Hs). rewrite Ec. unfold quiet, mbind. rewrite E. reflexivity. Qed.

(** * Effects of the calls *)
Lemma put_v_inv v f s u s' : put_v v f s = Done u s' -> (exists b, nth_error (s_vs s) v = Some b) /\ s' = with_vs (update_nth v f (s_vs s)) s.
Proof. unfold put_v, mbind, get_v. destruct (nth_error (s_vs s) v) as [b|]; [|discriminate]. intros H. injection H as _ <-. split; [exists b|]; reflexivity. Qed.
Lemma put_e_inv h f s u s' : put_e h f s = Done u s' -> (exists e, find_e h (s_es s) = Some e) /\ s' = with_es (on_e h f (s_es s)) s.
Proof. unfold put_e, mbind, get_e. destruct (find_e h (s_es s)) as [e|]; [|discriminate]. intros H. injection H as _ <-. split; [exists e|]; reflexivity. Qed.
Lemma change_v_inv v f s u s' : (let! _ := begin_change in put_v v f) s = Done u s' ->
  (exists b, nth_error (s_vs s) v = Some b) /\ s_vs s' = update_nth v f (s_vs s) /\ s_es s' = s_es s.
Proof. intros H. inv_bind H. apply begin_inv in H0 as [_ ->]. apply put_v_inv in H as [Hb ->]. auto. Qed.
Lemma set_vertex_name_inv v n s u s' : set_vertex_name v n s = Done u s' ->
  n <> ""%string /\ s_vs s' = update_nth v (bv_set_name n) (s_vs s) /\ s_es s' = s_es s.
Proof.
  unfold set_vertex_name. intros H. inv_bind H. apply begin_inv in H0 as [_ ->]. inv_bind H. apply check_inv in H0 as [Hn ->].
  inv_bind H. injection H0 as <- <-. unbind H u1 s1 H0.
  assert (s1 = with_flags false false false s) as -> by (destruct (vertex_by_name _ n); [apply check_inv in H0; tauto|apply ret_inv in H0; tauto]).
  apply put_v_inv in H as [_ ->]. split; [|auto]. intros ->. discriminate.
Qed.
Lemma set_edge_name_inv h n s u s' : set_edge_name h n s = Done u s' ->
  s_es s' = on_e h (be_set_name n) (s_es s) /\ s_vs s' = s_vs s.
Proof.
  unfold set_edge_name. intros H. inv_bind H. apply begin_inv in H0 as [_ ->]. inv_bind H. apply check_inv in H0 as [Hn ->].
  inv_bind H. injection H0 as <- <-. unbind H u1 s1 H0.
  assert (s1 = with_flags false false false s) as -> by (destruct (edge_by_name _ n); [apply check_inv in H0; tauto|apply ret_inv in H0; tauto]).
  apply put_e_inv in H as [_ ->]. auto.
Qed.
Lemma set_tokensize_inv h t s u s' : set_tokensize h t s = Done u s' -> s_es s' = on_e h (be_set_tokensize t) (s_es s) /\ s_vs s' = s_vs s.
Proof. unfold set_tokensize. intros H. inv_bind H. apply begin_inv in H0 as [_ ->]. apply put_e_inv in H as [_ ->]. auto. Qed.
Lemma set_preload_inv h t s u s' : set_preload h t s = Done u s' -> s_es s' = on_e h (be_set_preload t) (s_es s) /\ s_vs s' = s_vs s.
Proof.
  unfold set_preload. intros H. inv_bind H. unfold writable in H0. destruct (s_readonly s); [discriminate|]. injection H0 as _ <-.
  apply put_e_inv in H as [_ ->]. auto.
Qed.

(** Vertices without phases yet. *)
Definition raw (b : bvertex) : Prop := bv_phases b = O /\ bv_init_phases b = O /\ bv_durations b = [] /\ bv_init_durations b = [].
Definition unrated (e : bedge) : Prop := be_in e = [] /\ be_out e = [] /\ be_in_init e = [] /\ be_out_init e = [].
Definition vface (b : bvertex) : string * Z := (bv_name b, bv_reentrancy b).

Lemma add_vertex_inv s v s' : inv s -> add_vertex_auto s = Done v s' ->
  v = length (s_vs s) /\ exists b, s_vs s' = s_vs s ++ [b] /\ s_es s' = s_es s /\ raw b /\ vface b = (""%string, 0).
Proof.
  intros Hi H. assert (R : s_readonly s = false).
  { unfold add_vertex_auto, add_unsafe_vertex, begin_change, writable, mbind, modify, get in H. cbn in H. destruct (s_readonly s); [discriminate|reflexivity]. }
  assert (B : bump (map bv_id (s_vs s)) (s_auto_v s) = s_auto_v s).
  { apply bump_same. intros x Hx. apply in_map_iff in Hx as (b & <- & Hb). apply (inv_vs s Hi b Hb). }
  unfold add_vertex_auto, mbind, modify, get in H. rewrite B in H. pose proof (inv_av s Hi).
  rewrite add_unsafe_vertex_ok in H; [|exact R|cbn; lia|intros b Hb; cbn in *; apply (inv_vs s Hi) in Hb; lia].
  injection H as <- <-. split; [reflexivity|]. eexists. split; [reflexivity|]. split; [reflexivity|]. split; [repeat split|reflexivity].
Qed.
Lemma each_names s0 v l s s' : hist s -> each (fun p : string * string => if String.eqb (fst p) "name" then set_vertex_name v (snd p) else ret tt) l s = Done tt s' ->
  v = length s0 -> forall b, s_vs s = s0 ++ [b] -> raw b -> bv_reentrancy b = 0 ->
  hist s' /\ s_es s' = s_es s /\ exists b', s_vs s' = s0 ++ [b'] /\ raw b' /\ vface b' = (last_attr (bv_name b) "name" l, 0).
Proof.
  revert s. induction l as [|[m n] l IH]; intros s Hs H Ev b Hb Rb Re.
  - apply ret_inv in H as [_ ->]. split; [exact Hs|]. split; [reflexivity|]. exists b. unfold vface. cbn. rewrite Re. auto.
  - cbn [each] in H. unbind H a s1 H0. cbn [fst snd] in H0. cbn [last_attr]. destruct (String.eqb m "name") eqn:Em.
    + assert (Hh : hist s1) by (destruct a; apply (hist_call (SetVertexName v n) s s1 I Hs H0)).
      apply set_vertex_name_inv in H0 as (_ & Hv & He). rewrite Hb, Ev, update_nth_end in Hv.
      destruct (IH s1 Hh H Ev _ Hv) as (H1 & H2 & b' & H3 & H4 & H5); [exact Rb|exact Re|].
      split; [exact H1|]. split; [congruence|]. exists b'. cbn in H5. auto.
    + apply ret_inv in H0 as [_ ->]. apply (IH s Hs H Ev b Hb Rb Re).
Qed.
Lemma read_actor_inv x s s' : hist s -> read_actor x s = Done tt s' ->
  hist s' /\ s_es s' = s_es s /\ exists b, s_vs s' = s_vs s ++ [b] /\ raw b /\ vface b = (attr "name" x, 0).
Proof.
  intros Hs H. unfold read_actor in H. unbind H a s0 H0. assert (H1 : hist s0) by (apply (hist_quiet add_vertex_auto AddVertex s a s0 I eq_refl Hs H0)).
  apply (add_vertex_inv s a s0 (hist_inv s Hs)) in H0 as (-> & b & Hv & He & Rb & Fb). unbind H a s1 H0.
  assert (H2 : hist s1) by (destruct a; apply (hist_call (SetReentrancy (length (s_vs s)) 0) s0 s1 I H1 H0)).
  apply change_v_inv in H0 as (_ & Hv' & He'). rewrite Hv, update_nth_end in Hv'.
  destruct (each_names (s_vs s) _ _ s1 s' H2 H eq_refl _ Hv' Rb eq_refl) as (H3 & H4 & b' & H5 & H6 & H7).
  split; [exact H3|]. split; [congruence|]. exists b'. split; [exact H5|]. split; [exact H6|]. rewrite H7. cbn. injection Fb as -> _. reflexivity.
Qed.
Lemma read_actors_inv l : forall s s', hist s -> Forall raw (s_vs s) -> each read_actor l s = Done tt s' ->
  hist s' /\ s_es s' = s_es s /\ Forall raw (s_vs s') /\ map vface (s_vs s') = map vface (s_vs s) ++ map (fun x => (attr "name" x, 0)) l.
Proof.
  induction l as [|x l IH]; intros s s' Hs Hr H.
  - apply ret_inv in H as [_ ->]. cbn. rewrite app_nil_r. auto.
  - cbn [each] in H. unbind H a s0 H0. destruct a. destruct (read_actor_inv x s s0 Hs H0) as (H1 & H2 & b & H3 & H4 & H5).
    destruct (IH s0 s' H1) as (G1 & G2 & G3 & G4).
    + rewrite H3. apply Forall_app. split; [exact Hr|constructor; [exact H4|constructor]].
    + exact H.
    + split; [exact G1|]. split; [congruence|]. split; [exact G3|]. rewrite G4, H3, map_app. cbn. rewrite H5, <- app_assoc. reflexivity.
Qed.

(** * Channels *)
Lemma vertex_named_inv n s v s' : vertex_named n s = Done v s' -> s' = s /\ exists b, nth_error (s_vs s) v = Some b /\ bv_name b = n.
Proof.
  unfold vertex_named, vertex_by_name. destruct (find_index _ (s_vs s)) as [w|] eqn:E; [|discriminate]. intros H. injection H as <- <-.
  split; [reflexivity|]. assert (G : forall (l : list bvertex) w, find_index (fun b => String.eqb (bv_name b) n) l = Some w -> exists b, nth_error l w = Some b /\ bv_name b = n).
  { clear. induction l as [|x l IH]; intros w; cbn; [discriminate|]. destruct (String.eqb_spec (bv_name x) n).
    - intros E. injection E as <-. exists x. auto.
    - destruct (find_index _ l) as [k|]; [|discriminate]. intros E. injection E as <-. apply (IH k eq_refl). }
  apply G, E.
Qed.
Lemma add_edge_auto_inv f t s h s' : inv s -> add_edge_auto f t s = Done h s' ->
  h = s_next s /\ s_vs s' = s_vs s /\ exists id, s_es s' = s_es s ++ [be_set_id id (new_edge h f t)].
Proof.
  intros Hi H. unfold add_edge_auto in H. inv_bind H. injection H0 as <- <-. inv_bind H. injection H0 as <- <-.
  apply add_edge_unsafe_inv in H.
  2:{ apply inv_with_auto_e; [exact Hi|]. pose proof (inv_ae s Hi). assert (Hge : forall l a, a <= bump l a).
      { clear. unfold bump. induction l as [|x l IH]; intros a; cbn; [lia|]. destruct (Z.leb_spec a x); [specialize (IH (x + 1)); lia|apply IH]. }
      apply Hge. }
  destruct H as (_ & _ & _ & _ & _ & -> & ->). split; [reflexivity|]. split; [reflexivity|]. eexists. reflexivity.
Qed.
Lemma update_twice {X} (f g : X -> X) l : forall v, update_nth v f (update_nth v g l) = update_nth v (fun x => f (g x)) l.
Proof. induction l as [|x l IH]; intros [|v]; cbn; try reflexivity. rewrite IH. reflexivity. Qed.
Lemma Forall_update {X} (P : X -> Prop) f l : forall v, Forall P l -> (forall x, P x -> P (f x)) -> Forall P (update_nth v f l).
Proof. induction l as [|x l IH]; intros [|v] H Hf; inversion H; subst; cbn; constructor; auto. Qed.
Lemma Forall_update_any {X} (P : X -> Prop) f l : forall v, Forall P l -> (forall x, P (f x)) -> Forall P (update_nth v f l).
Proof. induction l as [|x l IH]; intros [|v] H Hf; inversion H; subst; cbn; constructor; auto. Qed.
Lemma on_e_last h f es e : (forall x, In x es -> (be_handle x < h)%nat) -> be_handle e = h -> on_e h f (es ++ [e]) = es ++ [f e].
Proof. intros H. apply on_e_end. intros x Hx. specialize (H x Hx). lia. Qed.

(** The declaration of a channel, task positions being read in a list of names. *)
Definition declared (N : list string) (c : xml) (e : bedge) : Prop :=
  be_name e = attr "name" c /\ nth_error N (be_src e) = Some (attr "srcActor" c) /\ nth_error N (be_dst e) = Some (attr "dstActor" c) /\
  be_preload e = number_or 0 (attr "initialTokens" c) /\ be_tokensize e = number_or 1 (attr "size" c).
Lemma last_attr_default d n l : last_attr d n l = if existsb (fun p => String.eqb (fst p) n) l then last_attr "" n l else d.
Proof.
  revert d. induction l as [|[m v] l IH]; intros d; [reflexivity|]. cbn [last_attr existsb fst]. destruct (String.eqb m n) eqn:E; cbn [orb].
  - reflexivity.
  - apply IH.
Qed.
Lemma last_attr_absent n l : existsb (fun p => String.eqb (fst p) n) l = false -> last_attr "" n l = ""%string.
Proof. intros H. rewrite last_attr_default, H. reflexivity. Qed.
Lemma preload_text l : (if String.eqb (last_attr "0" "initialTokens" l) "" then 0 else from_string_int (txt (last_attr "0" "initialTokens" l))) = number_or 0 (last_attr "" "initialTokens" l).
Proof.
  unfold number_or. rewrite (last_attr_default "0"). destruct (existsb _ l) eqn:E; [reflexivity|].
  rewrite last_attr_absent by exact E. reflexivity.
Qed.
Lemma read_channel_inv csdf ps x s ps' s' : hist s -> Forall raw (s_vs s) -> Forall unrated (s_es s) -> read_channel csdf ps x s = Done ps' s' ->
  hist s' /\ Forall raw (s_vs s') /\ Forall unrated (s_es s') /\
  ((check_reentrancy csdf (attrs x) = Ok true /\ s_es s' = s_es s /\ exists v b, nth_error (s_vs s) v = Some b /\ bv_name b = attr "srcActor" x /\
      s_vs s' = update_nth v (bv_set_reentrancy 1) (s_vs s)) \/
   (check_reentrancy csdf (attrs x) = Ok false /\ s_vs s' = s_vs s /\ exists e, s_es s' = s_es s ++ [e] /\ declared (map bv_name (s_vs s)) x e)).
Proof.
  intros Hs Hr Hu H. unfold read_channel in H. unbind H a s0 H0. apply lift_inv in H0 as [Hc ->]. destruct a.
  - unbind H v s0 H0. apply vertex_named_inv in H0 as (-> & b & Hb & Hn). unbind H u s1 H0.
    assert (Hh : hist s1) by (destruct u; apply (hist_call (SetReentrancy v 1) s s1 I Hs H0)).
    apply change_v_inv in H0 as (_ & Hv & He). apply ret_inv in H as [_ ->]. split; [exact Hh|]. rewrite Hv, He.
    split; [apply Forall_update; [exact Hr|intros y Hy; exact Hy]|]. split; [exact Hu|]. left. split; [exact Hc|]. split; [reflexivity|]. exists v, b. auto.
  - unbind H f s0 H0. apply vertex_named_inv in H0 as (-> & bf & Hbf & Hnf). unbind H t s0 H0. apply vertex_named_inv in H0 as (-> & bt & Hbt & Hnt).
    unbind H h s1 H0. assert (H1 : hist s1) by (apply (hist_quiet (add_edge_auto f t) (AddEdge f t) s h s1 I eq_refl Hs H0)).
    apply (add_edge_auto_inv f t s h s1 (hist_inv s Hs)) in H0 as (Eh & Hv1 & id & He1).
    assert (Hlt : forall y, In y (s_es s) -> (be_handle y < h)%nat) by (intros y Hy; rewrite Eh; apply (inv_next s (hist_inv s Hs) y Hy)).
    unbind H u2 s2 H0. assert (H2 : hist s2) by (destruct u2; apply (hist_call (SetEdgeName h _) s1 s2 I H1 H0)).
    apply set_edge_name_inv in H0 as [He2 Hv2]. rewrite He1, on_e_last in He2 by auto.
    unbind H u3 s3 H0. assert (H3 : hist s3 /\ s_es s3 = s_es s2 /\ s_vs s3 = s_vs s2).
    { apply begin_inv in H0 as [Ro ->]. split; [|split; reflexivity]. apply (hist_call ResetComputation s2 _ I H2). reflexivity. }
    destruct H3 as (H3 & He3 & Hv3). unbind H u4 s4 H4. assert (Hh4 : hist s4) by (destruct u4; apply (hist_call (SetTokenSize h _) s3 s4 I H3 H4)).
    apply set_tokensize_inv in H4 as [He4 Hv4]. rewrite He3, He2, on_e_last in He4 by auto.
    unbind H u5 s5 H5. assert (Hh5 : hist s5) by (destruct u5; apply (hist_call (SetPreload h _) s4 s5 I Hh4 H5)).
    apply set_preload_inv in H5 as [He5 Hv5]. rewrite He4, on_e_last in He5 by auto.
    apply ret_inv in H as [_ ->]. rewrite preload_text in He5. clear Hh4 H0 H1 H2 H3.
    split; [exact Hh5|]. split; [rewrite Hv5, Hv4, Hv3, Hv2, Hv1; exact Hr|]. rewrite He5.
    split; [apply Forall_app; split; [exact Hu|constructor; [repeat split|constructor]]|]. right. split; [exact Hc|]. split; [congruence|].
    eexists. split; [reflexivity|]. split; [reflexivity|].
    split; [cbn [be_src be_set_preload be_set_tokensize be_set_name be_set_id new_edge]; rewrite nth_error_map, Hbf; exact (f_equal Some Hnf)|].
    split; [cbn [be_dst be_set_preload be_set_tokensize be_set_name be_set_id new_edge]; rewrite nth_error_map, Hbt; exact (f_equal Some Hnt)|]. split; reflexivity.
Qed.

Lemma map_update {X Y} (h : X -> Y) f l : forall v x, nth_error l v = Some x -> map h (update_nth v f l) = update_nth v (fun _ => h (f x)) (map h l).
Proof. induction l as [|y l IH]; intros [|v] x H; cbn in *; try discriminate; [injection H as ->; reflexivity|]. f_equal. apply IH, H. Qed.
(** Setting the factor of the task of that name. *)
Definition mark (n : string) (p : string * Z) : string * Z := if String.eqb (fst p) n then (fst p, 1) else p.
Lemma mark_one vs : forall v b, NoDup (map bv_name vs) -> nth_error vs v = Some b ->
  map vface (update_nth v (bv_set_reentrancy 1) vs) = map (mark (bv_name b)) (map vface vs).
Proof.
  induction vs as [|x vs IH]; intros [|v] b ND H; cbn in *; try discriminate; inversion ND as [|? ? Hx ND']; subst.
  - injection H as ->. unfold mark at 1. cbn. rewrite String.eqb_refl. f_equal.
    rewrite <- (map_id (map vface vs)) at 1. apply map_ext_in. intros p Hp. apply in_map_iff in Hp as (y & <- & Hy). unfold mark. cbn.
    destruct (String.eqb_spec (bv_name y) (bv_name b)) as [E|]; [|reflexivity]. exfalso. apply Hx. rewrite <- E. apply in_map, Hy.
  - rewrite (IH v b ND' H). unfold mark at 2. cbn. destruct (String.eqb_spec (bv_name x) (bv_name b)) as [E|]; [|reflexivity].
    exfalso. apply Hx. rewrite E. apply in_map. eapply nth_error_In, H.
Qed.
Definition loops (csdf l : list xml) (n : string) : bool :=
  existsb (fun c => match check_reentrancy csdf (attrs c) with Ok true => String.eqb (attr "srcActor" c) n | _ => false end) l.
Definition plain_channel (csdf : list xml) (c : xml) : bool := negb (match check_reentrancy csdf (attrs c) with Ok true => true | _ => false end).
Lemma vface_names vs vs' : map fst (map vface vs') = map fst (map vface vs) -> map bv_name vs' = map bv_name vs.
Proof. rewrite !map_map. cbn. auto. Qed.
Lemma read_channels_inv csdf l : forall ps s ps' s', hist s -> Forall raw (s_vs s) -> Forall unrated (s_es s) -> NoDup (map bv_name (s_vs s)) ->
  read_channels csdf ps l s = Done ps' s' ->
  hist s' /\ Forall raw (s_vs s') /\ Forall unrated (s_es s') /\
  map vface (s_vs s') = map (fun p => if loops csdf l (fst p) then (fst p, 1) else p) (map vface (s_vs s)) /\
  exists es, s_es s' = s_es s ++ es /\ Forall2 (declared (map bv_name (s_vs s))) (filter (plain_channel csdf) l) es.
Proof.
  induction l as [|x l IH]; intros ps s ps' s' Hs Hr Hu ND H.
  - apply ret_inv in H as [_ ->]. repeat (split; [assumption|]). split.
    + rewrite map_map. apply map_ext. intros b. reflexivity.
    + exists []. rewrite app_nil_r. split; [reflexivity|constructor].
  - cbn [read_channels] in H. unbind H ps1 s1 H0. destruct (read_channel_inv csdf ps x s ps1 s1 Hs Hr Hu H0) as (H1 & H2 & H3 & H4).
    assert (Hn1 : map bv_name (s_vs s1) = map bv_name (s_vs s)).
    { destruct H4 as [(_ & _ & v & b & Hb & _ & ->)|(_ & -> & _)]; [|reflexivity].
      clear. generalize (s_vs s). intros l. revert v. induction l as [|y l IH]; intros [|v]; cbn; try reflexivity. rewrite IH. reflexivity. }
    destruct (IH ps1 s1 ps' s' H1 H2 H3 ltac:(rewrite Hn1; exact ND) H) as (G1 & G2 & G3 & G4 & es & G5 & G6). rewrite Hn1 in G6.
    split; [exact G1|]. split; [exact G2|]. split; [exact G3|]. destruct H4 as [(Hc & He & v & b & Hb & Hn & Hv)|(Hc & Hv & e & He & De)].
    + split.
      * rewrite G4, Hv, (mark_one _ v b ND Hb), map_map. apply map_ext. intros [n r]. unfold loops. cbn [existsb]. rewrite Hc, Hn. unfold mark. cbn [fst].
        rewrite String.eqb_sym. destruct (String.eqb (attr "srcActor" x) n); cbn [fst orb]; destruct (existsb _ l); reflexivity.
      * exists es. cbn [filter]. unfold plain_channel at 1. rewrite Hc. cbn [negb]. split; [congruence|exact G6].
    + split.
      * rewrite G4, Hv. apply map_ext. intros [n r]. unfold loops. cbn [existsb]. rewrite Hc. reflexivity.
      * exists (e :: es). cbn [filter]. unfold plain_channel at 1. rewrite Hc. cbn [negb]. split; [rewrite G5, He, <- app_assoc; reflexivity|].
        constructor; [exact De|exact G6].
Qed.

(** * Times *)
Definition wsized (b : bvertex) : Prop := sized (bv_durations b) (bv_phases b) /\ sized (bv_init_durations b) (bv_init_phases b).
Section Real.
Variable read_real : chars -> Q.
Lemma checked_v_inv v (p : bvertex -> bool) f s u s' : (let! _ := begin_change in let! b := get_v v in let! _ := check (p b) in put_v v f) s = Done u s' ->
  s_vs s' = update_nth v f (s_vs s) /\ s_es s' = s_es s.
Proof.
  intros H. unbind H u1 s1 H0. apply begin_inv in H0 as [_ ->]. unbind H b s1 H0.
  assert (s1 = with_flags false false false s) as ->.
  { unfold get_v in H0. destruct (nth_error _ v); [injection H0 as _ <-; reflexivity|discriminate]. }
  unbind H u2 s1 H1. apply check_inv in H1 as [_ ->]. apply put_v_inv in H as [_ ->]. auto.
Qed.
Lemma read_timings_inv x s s' : hist s -> read_timings read_real x s = Done tt s' ->
  hist s' /\ s_es s' = s_es s /\ map vface (s_vs s') = map vface (s_vs s) /\ (Forall wsized (s_vs s) -> Forall wsized (s_vs s')).
Proof.
  intros Hs H. unfold read_timings in H. unbind H u0 s0 H0. apply check_inv in H0 as [_ ->].
  unbind H v s0 H0. apply vertex_named_inv in H0 as (-> & _). unbind H ip s0 H0. apply lift_inv in H0 as [_ ->].
  unbind H init s0 H0. apply lift_inv in H0 as [_ ->]. unbind H per s0 H0. apply lift_inv in H0 as [_ ->].
  unbind H u1 s1 H1. assert (Hh1 : hist s1) by (destruct u1; apply (hist_call (SetInitPhases v _) s s1 I Hs H1)).
  apply change_v_inv in H1 as (_ & V1 & E1).
  unbind H u2 s2 H2. assert (Hh2 : hist s2) by (destruct u2; apply (hist_call (SetPhases v _) s1 s2 I Hh1 H2)).
  apply change_v_inv in H2 as (_ & V2 & E2).
  unbind H u3 s3 H3. assert (Hh3 : hist s3) by (destruct u3; apply (hist_call (SetDurations v _) s2 s3 I Hh2 H3)).
  apply checked_v_inv in H3 as [V3 E3].
  assert (Hh4 : hist s') by (apply (hist_call (SetInitDurations v _) s3 s' I Hh3 H)).
  apply checked_v_inv in H as [V4 E4]. rewrite V3, V2, V1, !update_twice in V4.
  split; [exact Hh4|]. split; [congruence|]. rewrite V4. split.
  - clear. generalize (s_vs s). intros l. revert v. induction l as [|y l IH]; intros [|v]; cbn; try reflexivity. rewrite IH. reflexivity.
  - intros Hw. apply Forall_update_any; [exact Hw|]. intros b. split; right; cbn; apply map_length.
Qed.
Lemma read_all_timings_inv l : forall s s', hist s -> each (read_timings read_real) l s = Done tt s' ->
  hist s' /\ s_es s' = s_es s /\ map vface (s_vs s') = map vface (s_vs s) /\ (Forall wsized (s_vs s) -> Forall wsized (s_vs s')).
Proof.
  induction l as [|x l IH]; intros s s' Hs H.
  - apply ret_inv in H as [_ ->]. auto.
  - cbn [each] in H. unbind H u s1 H0. destruct u. destruct (read_timings_inv x s s1 Hs H0) as (A1 & A2 & A3 & A4).
    destruct (IH s1 s' A1 H) as (B1 & B2 & B3 & B4). split; [exact B1|]. split; [congruence|]. split; [congruence|auto].
Qed.
End Real.

(** * Ports *)
Definition eface (e : bedge) : string * nat * nat * Z * Z := (be_name e, be_src e, be_dst e, be_preload e, be_tokensize e).
Definition same_face (s s' : state) : Prop := map vface (s_vs s') = map vface (s_vs s) /\ map eface (s_es s') = map eface (s_es s).
Lemma face_refl s : same_face s s. Proof. split; reflexivity. Qed.
Lemma face_trans a b c : same_face a b -> same_face b c -> same_face a c. Proof. intros [] []. split; congruence. Qed.
Lemma face_flags s a b c : same_face s (with_flags a b c s). Proof. split; reflexivity. Qed.
Lemma face_put_v v f : (forall b, vface (f b) = vface b) -> keeps same_face (put_v v f).
Proof.
  intros H. apply keeps_bind; [exact face_trans|apply keeps_get_v, face_refl|intros _]. apply keeps_modify. intros s. split; cbn; [|reflexivity].
  apply update_nth_map, H.
Qed.
Lemma face_put_e h f : (forall e, eface (f e) = eface e) -> keeps same_face (put_e h f).
Proof.
  intros H. apply keeps_bind; [exact face_trans|apply keeps_get_e, face_refl|intros _]. apply keeps_modify. intros s. split; cbn; [reflexivity|].
  rewrite map_map. apply map_ext. intros e. destruct (_ =? _)%nat; auto.
Qed.
Ltac face_auto :=
  repeat first
    [ keeps_step face_refl face_trans face_flags
    | match goal with
      | |- keeps _ (put_v _ _) => apply face_put_v; reflexivity
      | |- keeps _ (put_e _ _) => apply face_put_e; reflexivity
      end
    | progress cbn beta ].
Definition good (s : state) : Prop := hist s /\ coherent s.
Lemma good_call c s s' : checked_call s c -> announces_phases s c -> keeps same_face (exec c) -> good s -> exec c s = Done tt s' -> good s' /\ same_face s s'.
Proof.
  intros Hc Ha Hk [Hs Hg] E. split.
  - split; [apply (hist_call c s s' Hc Hs E)|]. pose proof (coherent_exec c s Ha (hist_inv s Hs) Hg) as X. rewrite E in X. exact X.
  - specialize (Hk s). rewrite E in Hk. exact Hk.
Qed.
Lemma read_output_inv h r s s' : good s -> read_output_spec h r s = Done tt s' -> good s' /\ same_face s s'.
Proof.
  intros Hs H. unfold read_output_spec in H. unbind H a s0 H0. apply lift_inv in H0 as [_ ->]. unbind H u s0 H0. apply check_inv in H0 as [_ ->].
  unbind H u1 s1 H0. destruct u1.
  destruct (good_call (SetEdgeOutInit h (fst a)) s s1 I I) as [G1 F1]; [cbn [exec]; unfold set_edge_out_init; face_auto|exact Hs|exact H0|].
  destruct (good_call (SetEdgeOut h (snd a)) s1 s' I I) as [G2 F2]; [cbn [exec]; unfold set_edge_out; face_auto|exact G1|exact H|].
  split; [exact G2|eapply face_trans; eassumption].
Qed.
Lemma read_input_inv h r s s' : good s -> read_input_spec h r s = Done tt s' -> good s' /\ same_face s s'.
Proof.
  intros Hs H. unfold read_input_spec in H. unbind H a s0 H0. apply lift_inv in H0 as [_ ->]. unbind H u s0 H0. apply check_inv in H0 as [_ ->].
  unbind H u1 s1 H0. destruct u1.
  destruct (good_call (SetEdgeInInit h (fst a)) s s1 I I) as [G1 F1]; [cbn [exec]; unfold set_edge_in_init; face_auto|exact Hs|exact H0|].
  destruct (good_call (SetEdgeIn h (snd a)) s1 s' I I) as [G2 F2]; [cbn [exec]; unfold set_edge_in; face_auto|exact G1|exact H|].
  split; [exact G2|eapply face_trans; eassumption].
Qed.
Lemma each_face {A} (f : A -> M unit) l : (forall x s s', good s -> f x s = Done tt s' -> good s' /\ same_face s s') ->
  forall s s', good s -> each f l s = Done tt s' -> good s' /\ same_face s s'.
Proof.
  intros Hf. induction l as [|x l IH]; intros s s' Hs H.
  - apply ret_inv in H as [_ ->]. split; [exact Hs|apply face_refl].
  - cbn [each] in H. unbind H u s1 H0. destruct u. destruct (Hf x s s1 Hs H0) as [A1 A2]. destruct (IH s1 s' A1 H) as [B1 B2].
    split; [exact B1|eapply face_trans; eassumption].
Qed.
Lemma read_port_inv ps v x s s' : good s -> read_port ps v x s = Done tt s' -> good s' /\ same_face s s'.
Proof.
  intros Hs H. unfold read_port in H. unbind H s0 s1 H0. injection H0 as <- <-. destruct (String.eqb _ "in").
  - destruct (input_by_port _ _ _ _); [apply read_output_inv in H; assumption|]. apply ret_inv in H as [_ ->]. split; [exact Hs|apply face_refl].
  - destruct (String.eqb _ "out"); [|discriminate].
    destruct (output_by_port _ _ _ _); [apply read_input_inv in H; assumption|]. apply ret_inv in H as [_ ->]. split; [exact Hs|apply face_refl].
Qed.
Lemma read_ports_inv ps x s s' : good s -> read_ports ps x s = Done tt s' -> good s' /\ same_face s s'.
Proof.
  intros Hs H. unfold read_ports in H. unbind H u s0 H0. apply check_inv in H0 as [_ ->]. unbind H v s0 H0. apply vertex_named_inv in H0 as (-> & _).
  revert H. apply each_face; [|exact Hs]. intros y t t'. apply read_port_inv.
Qed.
Lemma ports_named ps l : forall s s', each (read_ports ps) l s = Done tt s' -> forall x, In x l -> attr "name" x <> ""%string.
Proof.
  induction l as [|x l IH]; intros s s' H y Hy; [destruct Hy|]. cbn [each] in H. unbind H u s1 H0. destruct Hy as [<-|Hy].
  - unfold read_ports in H0. unbind H0 u2 s2 H1. apply check_inv in H1 as [Hn _]. unfold attr. intros E. rewrite E in Hn. discriminate.
  - apply (IH s1 s' H y Hy).
Qed.

(** * The document *)
Lemma last_of_in f l : forall d x, last_of f l d = Some x -> (In x l /\ f x = true) \/ d = Some x.
Proof.
  induction l as [|y l IH]; intros d x H; [right; exact H|]. cbn in H. destruct (IH _ x H) as [[A B]|A]; [left; split; [right; exact A|exact B]|].
  destruct (f y) eqn:E; [injection A as ->; left; split; [left; reflexivity|exact E]|right; exact A].
Qed.
Lemma face_ends s s' : same_face s s' -> forall N l, Forall2 (declared N) l (s_es s) -> Forall2 (declared N) l (s_es s').
Proof.
  intros [_ H] N l. revert H. generalize (s_es s) as es, (s_es s') as es'. intros es es' H F. revert es' H.
  induction F as [|c e l es D F IH]; intros [|e' es'] H; try discriminate; constructor.
  - injection H as H1 H2 H3 H4 H5 _. unfold declared in *. rewrite H1, H2, H3, H4, H5. exact D.
  - apply IH. injection H as _ _ _ _ _ H. exact H.
Qed.
Lemma reader_sound read_real doc s : read_sdf3 read_real doc empty_state = Done tt s ->
  history_of checked_call false s /\ coherent s /\
  exists g, graph_section doc g /\
    map bv_name (s_vs s) = actor_names g /\ NoDup (actor_names g) /\ ~ In ""%string (actor_names g) /\
    map bv_reentrancy (s_vs s) = map (fun n => if existsb (fun c => taken_as_loop g c && String.eqb (attr "srcActor" c) n) (elements "channel" g) then 1 else 0) (actor_names g) /\
    Forall2 (declares s) (filter (fun c => negb (taken_as_loop g c)) (elements "channel" g)) (s_es s).
Proof.
  intros H. unfold read_sdf3 in H. unbind H u s0 H0. apply check_inv in H0 as [_ ->].
  destruct (last_of _ (kids doc) None) as [ag|] eqn:Ea; [|discriminate].
  apply last_of_in in Ea as [[Ia Ta]|Ea]; [|discriminate]. apply String.eqb_eq in Ta.
  destruct (last_of (either "csdf" "sdf") (kids ag) None) as [g|] eqn:Eg; [|discriminate].
  apply last_of_in in Eg as [[Ig Tg]|Eg]; [|discriminate].
  destruct (last_of (either "csdfProperties" "sdfProperties") (kids ag) None) as [p|]; [|discriminate].
  assert (Hg : graph_section doc g).
  { exists ag. repeat (split; [assumption|]). apply orb_true_iff in Tg as [Tg|Tg]; apply String.eqb_eq in Tg; auto. }
  unbind H u1 s1 H1. destruct u1.
  destruct (read_actors_inv _ empty_state s1 (ho_start _ _) (Forall_nil _) H1) as (A1 & A2 & A3 & A4). cbn [empty_state s_vs s_es map app] in A2, A4.
  assert (N1 : map bv_name (s_vs s1) = actor_names g).
  { apply (f_equal (map fst)) in A4. rewrite !map_map in A4. exact A4. }
  unbind H ps s2 H2. unbind H u3 s3 H3. destruct u3.
  assert (Nn : ~ In ""%string (actor_names g)).
  { intros Hin. apply in_map_iff in Hin as (x & Ex & Hx). exact (ports_named ps _ s3 s H x Hx Ex). }
  assert (ND : NoDup (actor_names g)).
  { pose proof (inv_vnames s1 (hist_inv s1 A1)) as U. rewrite N1 in U. unfold uniq in U. replace (filter nonempty (actor_names g)) with (actor_names g) in U; [exact U|].
    clear -Nn. induction (actor_names g) as [|n l IH]; [reflexivity|]. cbn. unfold nonempty at 1. destruct (String.eqb_spec n "") as [->|_]; [destruct Nn; left; reflexivity|].
    cbn. f_equal. apply IH. intros Hin. apply Nn. right; exact Hin. }
  destruct (read_channels_inv (kids g) _ [] s1 ps s2 A1 A3 ltac:(rewrite A2; constructor) ltac:(rewrite N1; exact ND) H2) as (B1 & B2 & B3 & B4 & es & B5 & B6).
  rewrite A2 in B5. cbn [app] in B5. rewrite N1 in B6. subst es.
  destruct (read_all_timings_inv read_real _ s2 s3 B1 H3) as (C1 & C2 & C3 & C4).
  assert (G3 : good s3).
  { split; [exact C1|]. assert (W : Forall wsized (s_vs s3)).
    { apply C4. eapply Forall_impl; [|exact B2]. intros b (P1 & P2 & P3 & P4). split; left; assumption. }
    split.
    - intros e He. destruct (inv_ends s3 (hist_inv s3 C1) e He) as [L1 L2]. rewrite C2 in He. rewrite Forall_forall in B3. destruct (B3 e He) as (Z1 & Z2 & Z3 & Z4).
      destruct (nth_error (s_vs s3) (be_src e)) as [bs|] eqn:E1; [|apply nth_error_None in E1; lia].
      destruct (nth_error (s_vs s3) (be_dst e)) as [bd|] eqn:E2; [|apply nth_error_None in E2; lia].
      exists bs, bd. rewrite Z1, Z2, Z3, Z4. repeat split; left; reflexivity.
    - rewrite Forall_forall in W. exact W. }
  destruct (each_face (read_ports ps) _ ltac:(intros y t t'; apply read_ports_inv) s3 s G3 H) as [[D1 D2] D3].
  assert (F : map vface (s_vs s) = map (fun n => (n, if existsb (fun c => taken_as_loop g c && String.eqb (attr "srcActor" c) n) (elements "channel" g) then 1 else 0)) (actor_names g)).
  { destruct D3 as [D3 _]. rewrite D3, C3, B4, A4. unfold actor_names. rewrite !map_map. apply map_ext. intros x. cbn [fst].
    replace (existsb _ _) with (loops (kids g) (named "channel" (kids g)) (attr "name" x)); [destruct (loops _ _ _); reflexivity|].
    unfold loops, elements, named. generalize (filter (fun x0 => String.eqb (tag x0) "channel") (kids g)). intros l.
    induction l as [|c l IH]; [reflexivity|]. cbn [existsb]. rewrite IH. f_equal. unfold taken_as_loop.
    destruct (check_reentrancy _ _) as [[]| | |]; reflexivity. }
  assert (N : map bv_name (s_vs s) = actor_names g).
  { apply (f_equal (map fst)) in F. rewrite !map_map in F. cbn in F. rewrite map_id in F. exact F. }
  split; [exact D1|]. split; [exact D2|]. exists g. split; [exact Hg|]. split; [exact N|]. split; [exact ND|]. split; [exact Nn|]. split.
  - apply (f_equal (map snd)) in F. rewrite !map_map in F. exact F.
  - rewrite <- C2 in B6. apply (face_ends s3 s D3) in B6. rewrite <- N in B6. revert B6. unfold elements, named.
    replace (filter (plain_channel (kids g))) with (filter (fun c => negb (taken_as_loop g c))) by reflexivity.
    generalize (filter (fun c => negb (taken_as_loop g c)) (filter (fun x => String.eqb (tag x) "channel") (kids g))) as l. intros l F2.
    induction F2 as [|c e l es De F2 IH]; constructor; [|exact IH]. destruct De as (E1 & E2 & E3 & E4 & E5).
    split; [exact E1|]. rewrite nth_error_map in E2, E3.
    split; [destruct (nth_error (s_vs s) (be_src e)) as [b|]; [|discriminate]; exists b; split; [reflexivity|injection E2 as ->; reflexivity]|].
    split; [destruct (nth_error (s_vs s) (be_dst e)) as [b|]; [|discriminate]; exists b; split; [reflexivity|injection E3 as ->; reflexivity]|]. auto.
Qed.

(** * What is taken for a loop *)
Section Loop.
Variable g : xml.
Variable src : string.
Definition unit_at (ports : list xml) (name type : string) : Prop :=
  exists p i r, In p ports /\ attr "type" p = type /\ attr "name" p = name /\ string_rates (attr "rate" p) = Ok (i, r) /\ forall x, In x (i ++ r) -> x = 1.
Lemma only_one_inv s : only_one_rate s = Ok true -> exists i r, string_rates s = Ok (i, r) /\ forall x, In x (i ++ r) -> x = 1.
Proof.
  unfold only_one_rate. destruct (string_rates s) as [[i r]| | |]; cbn; intros H; try discriminate. injection H as H. apply andb_prop in H as [H1 H2].
  exists i, r. split; [reflexivity|]. intros x Hx. rewrite forallb_forall in H1, H2. apply in_app_or in Hx as [Hx|Hx]; apply Z.eqb_eq; auto.
Qed.
Lemma scan_ports_inv producer port ps : forall i o r, scan_ports producer port ps i o = Ok r ->
  match r with
  | Stop false => True
  | Stop true => unit_at ps port (if producer then "out" else "in") /\ (if producer then o else i) = true
  | Go i' o' => (i' = i \/ (producer = true /\ unit_at ps port "out")) /\ (o' = o \/ (producer = false /\ unit_at ps port "in"))
  end.
Proof.
  induction ps as [|p ps IH]; intros i o r H; cbn [scan_ports] in H; [injection H as <-; auto|].
  assert (W : forall t, unit_at ps port t -> unit_at (p :: ps) port t).
  { intros t (q & i0 & r0 & Hq & R). exists q, i0, r0. split; [right; exact Hq|exact R]. }
  destruct (String.eqb _ _ && String.eqb _ _) eqn:E.
  - apply andb_prop in E as [E1 E2]. apply String.eqb_eq in E1, E2.
    destruct (only_one_rate _) as [ok| | |] eqn:O; cbn [bind] in H; try discriminate. destruct ok; cbn [negb] in H; [|injection H as <-; exact I].
    assert (U : unit_at (p :: ps) port (if producer then "out" else "in")).
    { apply only_one_inv in O as (i0 & r0 & O1 & O2). exists p, i0, r0. split; [left; reflexivity|]. auto. }
    destruct (if producer then o else i) eqn:F; [injection H as <-; auto|]. apply IH in H. destruct r as [[]|i' o']; [|exact I|].
    + destruct producer; destruct H as [H1 H2]; [rewrite F in H2|rewrite F in H2]; discriminate.
    + destruct producer; destruct H as [[H1|[H1 H1']] [H2|[H2 H2']]]; subst; try discriminate; auto 8.
  - apply IH in H. destruct r as [[]|i' o']; [|exact I|].
    + destruct H as [H1 H2]. auto.
    + destruct H as [H1 H2]. split; [destruct H1 as [H1|[H1 H1']]; auto|destruct H2 as [H2|[H2 H2']]; auto].
Qed.
Lemma scan_actors_inv inP outP l : (forall a, In a l -> In a (elements "actor" g) /\ In ("name"%string, src) (attrs a)) -> forall i o,
  (i = true -> unit_port g src inP "out") -> (o = true -> unit_port g src outP "in") -> scan_actors inP outP l i o = Ok true ->
  unit_port g src inP "out" /\ unit_port g src outP "in".
Proof.
  intros Hl. induction l as [|a l IH]; intros i o Hi Ho H; cbn [scan_actors] in H.
  - injection H as H. apply andb_prop in H as [-> ->]. auto.
  - assert (Ha := Hl a (or_introl eq_refl)). assert (W : forall n t, unit_at (named "port" (kids a)) n t -> unit_port g src n t).
    { intros n t (p & i0 & r0 & Hp & R). exists a, p, i0, r0. split; [apply Ha|]. split; [apply Ha|]. split; [exact Hp|exact R]. }
    unfold scan_actor in H. destruct (scan_ports true inP _ i o) as [[b|i1 o1]| | |] eqn:E1; cbn [bind] in H; try discriminate.
    + injection H as ->. apply scan_ports_inv in E1 as [E1 E1']. split; [apply W, E1|apply Ho, E1'].
    + apply scan_ports_inv in E1 as [E1 E1']. destruct (scan_ports false outP _ i1 o1) as [[b|i2 o2]| | |] eqn:E2; cbn [bind] in H; try discriminate.
      * injection H as ->. apply scan_ports_inv in E2 as [E2 E2']. split; [|apply W, E2]. destruct E1 as [E1|[_ E1]]; [apply Hi; congruence|apply W, E1].
      * apply scan_ports_inv in E2 as [E2 E2']. apply (IH ltac:(intros; apply Hl; right; assumption) i2 o2); [| |exact H].
        -- intros ->. destruct E2 as [E2|[E2 _]]; [|discriminate]. destruct E1 as [E1|[_ E1]]; [apply Hi; congruence|apply W, E1].
        -- intros ->. destruct E2' as [E2'|[_ E2']]; [|apply W, E2']. destruct E1' as [E1'|[E1' _]]; [apply Ho; congruence|discriminate].
Qed.
End Loop.
Lemma loop_meaning g c : taken_as_loop g c = true ->
  attr "srcActor" c = attr "dstActor" c /\ attr "initialTokens" c = "1"%string /\
  unit_port g (attr "srcActor" c) (attr "srcPort" c) "out" /\ unit_port g (attr "srcActor" c) (attr "dstPort" c) "in".
Proof.
  unfold taken_as_loop, check_reentrancy. fold (attr "srcActor" c) (attr "dstActor" c) (attr "srcPort" c) (attr "dstPort" c).
  destruct (String.eqb_spec (attr "srcActor" c) (attr "dstActor" c)) as [E|]; [|discriminate]. cbn [negb].
  destruct (String.eqb_spec (last_attr "0" "initialTokens" (attrs c)) "1") as [E1|]; [|discriminate]. cbn [negb]. intros H.
  split; [exact E|]. split.
  { unfold attr. rewrite last_attr_default in E1. destruct (existsb _ _); [exact E1|discriminate]. }
  apply (scan_actors_inv g (attr "srcActor" c) _ _ (filter (fun a => existsb (fun p => String.eqb (fst p) "name" && String.eqb (snd p) (attr "srcActor" c)) (attrs a)) (named "actor" (kids g))))
    with (i := false) (o := false); try discriminate.
  - intros a Ha. apply filter_In in Ha as [Ha Hn]. split; [exact Ha|]. apply existsb_exists in Hn as ([m v] & Hp & Hn). apply andb_prop in Hn as [M1 M2].
    apply String.eqb_eq in M1, M2. cbn in M1, M2. subst. exact Hp.
  - destruct (scan_actors _ _ _ _ _) as [[]| | |]; try discriminate. reflexivity.
Qed.
