(** Proofs about the splitting: the graphs made are the parts of the specification. *)
From Coq Require Import QArith Permutation Sorted.
From Verif Require Import Base Graph KPeriodic EventGraph EventGraphSpec EventGraphProofs EventScc EventSccSpec EventSccTarjan.
Open Scope nat_scope.

Lemma event_refl e : event_eqb e e = true.
Proof. apply event_eqb_eq. reflexivity. Qed.
Lemma event_neq a b : a <> b -> event_eqb a b = false.
Proof. intros N. destruct (event_eqb a b) eqn:E; [apply event_eqb_eq in E; contradiction|reflexivity]. Qed.
Lemma in_events e E : existsb (event_eqb e) E = true <-> In e E.
Proof. rewrite existsb_exists. split; [intros (x & H & X); apply event_eqb_eq in X; congruence|intros H; exists e; split; [exact H|apply event_refl]]. Qed.

(** * The graph built *)
Definition well (g : egraph) : Prop := forall i e, nth_error (eg_events g) i = Some e -> vertex_of g e = i.
Lemma add_event_well g e : well g -> ~ In e (eg_events g) -> well (add_event g e).
Proof.
  intros W N i a H. unfold vertex_of. cbn [add_event eg_map eg_events] in *. cbn [find fst]. destruct (Nat.lt_ge_cases i (length (eg_events g))) as [L|L].
  - rewrite nth_error_app1 in H by exact L. rewrite event_neq by (intros ->; apply N; eapply nth_error_In; eauto). apply (W i a H).
  - rewrite nth_error_app2 in H by exact L. destruct (i - length (eg_events g)) as [|j] eqn:E; cbn in H; [|destruct j; discriminate].
    injection H as ->. rewrite event_refl. cbn. lia.
Qed.
Lemma add_events : forall evs g, well g -> NoDup (eg_events g ++ evs) ->
  well (fold_left add_event evs g) /\ eg_events (fold_left add_event evs g) = eg_events g ++ evs /\ eg_cons (fold_left add_event evs g) = eg_cons g.
Proof.
  induction evs as [|e evs IH]; intros g W N; cbn [fold_left]; [rewrite app_nil_r; auto|].
  destruct (IH (add_event g e)) as (A & B & C).
  - apply add_event_well; [exact W|]. apply NoDup_remove_2 in N. intros H. apply N, in_app_iff. auto.
  - cbn [add_event eg_events]. rewrite <- app_assoc. exact N.
  - split; [exact A|]. split; [rewrite B; cbn; rewrite <- app_assoc; reflexivity|exact C].
Qed.
Definition number (g : egraph) (c : constraint) : cons := mkCons (vertex_of g (c_source c)) (vertex_of g (c_target c)) (c_w c) (c_d c) (c_channel c).
Lemma add_constraints : forall cs g, let h := fold_left add_constraint cs g in
  eg_events h = eg_events g /\ eg_map h = eg_map g /\ eg_cons h = eg_cons g ++ map (number g) cs.
Proof.
  induction cs as [|c cs IH]; intros g; cbn [fold_left]; [rewrite app_nil_r; auto|].
  destruct (IH (add_constraint g c)) as (A & B & C). split; [exact A|]. split; [exact B|]. rewrite C. cbn [add_constraint eg_cons map]. rewrite <- app_assoc. reflexivity.
Qed.
Lemma build_ok evs cs : NoDup evs -> let g := build evs cs in well g /\ eg_events g = evs /\ eg_cons g = map (number g) cs.
Proof.
  intros N. destruct (add_events evs empty_graph) as (A & B & C); [intros i e H; destruct i; discriminate|exact N|].
  unfold build. set (g0 := fold_left add_event evs empty_graph) in *. destruct (add_constraints cs g0) as (D & E & F). cbn zeta. set (g := fold_left add_constraint cs g0) in *.
  assert (V : forall e, vertex_of g e = vertex_of g0 e) by (intros e; unfold vertex_of; rewrite E; reflexivity).
  split; [|split].
  - intros i e H. rewrite V. apply A. rewrite <- D. exact H.
  - rewrite D, B. reflexivity.
  - rewrite F, C. cbn. apply map_ext. intros c. unfold number. rewrite !V. reflexivity.
Qed.
Lemma well_nth g e : well g -> In e (eg_events g) -> nth_error (eg_events g) (vertex_of g e) = Some e.
Proof. intros W H. apply In_nth_error in H as (i & H). rewrite (W i e H). exact H. Qed.
Lemma number_back g c : well g -> In (c_source c) (eg_events g) -> In (c_target c) (eg_events g) -> get_constraint g (number g c) = Ok c.
Proof.
  intros W A B. unfold get_constraint, get_event, number. cbn [k_src k_dst k_w k_d k_id]. rewrite !well_nth by assumption. cbn. destruct c; reflexivity.
Qed.
Lemma build_constraints evs cs : NoDup evs -> EventGraphSpec.closed evs cs -> constraints (build evs cs) = cs.
Proof.
  intros N C. destruct (build_ok evs cs N) as (W & E & K). unfold constraints. rewrite K. set (g := build evs cs) in *. clearbody g.
  assert (C' : forall c, In c cs -> In (c_source c) (eg_events g) /\ In (c_target c) (eg_events g)) by (rewrite E; exact C). clear C K.
  induction cs as [|c cs IH]; [reflexivity|]. cbn [map constraints_of]. rewrite number_back by (auto; apply C'; left; reflexivity). f_equal. apply IH. intros x Hx. apply C'. right. exact Hx.
Qed.

(** * Paths *)
Section Built.
Variable evs : list event.
Variable cs : list constraint.
Hypothesis N : NoDup evs.
Hypothesis Cl : EventGraphSpec.closed evs cs.
Let g := build evs cs.
Let n := length evs.

Lemma g_size : n = length (eg_events g).
Proof. unfold n, g. destruct (build_ok evs cs N) as (_ & -> & _). reflexivity. Qed.
Lemma g_well : well g.
Proof. apply (build_ok evs cs N). Qed.
Lemma g_events : eg_events g = evs.
Proof. apply (build_ok evs cs N). Qed.
Lemma g_cons : eg_cons g = map (number g) cs.
Proof. apply (build_ok evs cs N). Qed.
Lemma vertex_nth e : In e evs -> nth_error evs (vertex_of g e) = Some e.
Proof. intros H. rewrite <- g_events at 1. apply well_nth; [apply g_well|rewrite g_events; exact H]. Qed.
Lemma nth_vertex i e : nth_error evs i = Some e -> vertex_of g e = i.
Proof. intros H. apply g_well. rewrite g_events. exact H. Qed.
Lemma vertex_lt e : In e evs -> vertex_of g e < n.
Proof. intros H. apply nth_error_Some. rewrite (vertex_nth e H). discriminate. Qed.
Lemma in_sc v w : In w (Sc g v) <-> exists c, In c cs /\ vertex_of g (c_source c) = v /\ vertex_of g (c_target c) = w.
Proof.
  unfold Sc, outputs. rewrite g_cons, in_map_iff. split.
  - intros (k & <- & H). apply filter_In in H as [H E]. apply in_map_iff in H as (c & <- & H). exists c. apply Nat.eqb_eq in E. auto.
  - intros (c & H & <- & <-). exists (number g c). split; [reflexivity|]. apply filter_In. split; [apply in_map, H|apply Nat.eqb_refl].
Qed.
Lemma g_closed v w : In w (Sc g v) -> w < n.
Proof. intros H. apply in_sc in H as (c & H & _ & <-). apply vertex_lt, Cl, H. Qed.

Lemma path_reach l : forall u v, incl l cs -> path u l v -> reach g (vertex_of g u) (vertex_of g v).
Proof.
  induction l as [|c l IH]; intros u v I P; cbn in P; [subst; constructor|]. destruct P as [<- P].
  eapply reach_step; [|apply (IH _ _ (fun x H => I x (or_intror H)) P)]. apply in_sc. exists c. split; [apply I; left; reflexivity|auto].
Qed.
Lemma reach_path x y : reach g x y -> forall u v, nth_error evs x = Some u -> nth_error evs y = Some v -> joined cs u v.
Proof.
  induction 1 as [x|x y z E R IH]; intros u v Hu Hv.
  - exists []. split; [intros a []|]. cbn. congruence.
  - apply in_sc in E as (c & Hc & E1 & E2). destruct (Cl c Hc) as [C1 C2].
    destruct (IH (c_target c) v) as (l & Il & P); [rewrite <- E2; apply vertex_nth, C2|exact Hv|].
    exists (c :: l). split; [intros a [<-|Ha]; auto|]. split; [|exact P]. pose proof (vertex_nth _ C1) as H. rewrite E1 in H. congruence.
Qed.
Lemma joined_reach u v : In u evs -> In v evs -> (joined cs u v <-> reach g (vertex_of g u) (vertex_of g v)).
Proof.
  intros Hu Hv. split.
  - intros (l & I & P). eapply path_reach; eauto.
  - intros R. eapply reach_path; [exact R|apply vertex_nth, Hu|apply vertex_nth, Hv].
Qed.

(** * Sharing out *)
Section Share.
Variable st : search.
Let lab := get_scc st.
Definition table (F : nat -> egraph) (keys : list nat) : graphs := map (fun k => (k, F k)) keys.
Lemma insert_table F k0 : forall keys, StronglySorted lt keys -> exists keys', insert_graph (table F keys) k0 (F k0) = table F keys' /\
  StronglySorted lt keys' /\ (forall x, In x keys' <-> x = k0 \/ In x keys).
Proof.
  induction keys as [|k keys IH]; intros So; cbn [table map insert_graph fst].
  - exists [k0]. split; [reflexivity|]. split; [constructor; constructor|]. cbn. intuition.
  - inversion So as [|? ? S1 S2]; subst. destruct (Nat.ltb_spec k0 k) as [L|L].
    + exists (k0 :: k :: keys). split; [reflexivity|]. split; [|cbn; intuition].
      constructor; [exact So|]. constructor; [exact L|]. rewrite Forall_forall in *. intros x Hx. specialize (S2 x Hx). lia.
    + destruct (Nat.eqb_spec k0 k) as [->|Ne].
      * exists (k :: keys). split; [reflexivity|]. split; [exact So|]. cbn. intuition.
      * destruct (IH S1) as (keys' & E & S' & M). exists (k :: keys'). change (map (fun k1 => (k1, F k1)) keys) with (table F keys). rewrite E. split; [reflexivity|]. split.
        -- constructor; [exact S'|]. rewrite Forall_forall in *. intros x Hx. apply M in Hx as [->|Hx]; [lia|auto].
        -- intros x. cbn. rewrite M. intuition.
Qed.
Lemma change_table F k0 f : forall keys, StronglySorted lt keys -> In k0 keys -> change_graph (table F keys) k0 f = Ok (table (fun k => if k0 =? k then f (F k) else F k) keys).
Proof.
  induction keys as [|k keys IH]; intros So H; [destruct H|]. cbn [table map change_graph fst snd]. inversion So as [|? ? S1 S2]; subst.
  destruct (Nat.eqb_spec k0 k) as [->|Ne].
  - do 2 f_equal. apply map_ext_in. intros a Ha. rewrite Forall_forall in S2. specialize (S2 a Ha). destruct (Nat.eqb_spec k a); [lia|reflexivity].
  - destruct H as [->|H]; [contradiction|]. change (map (fun k1 => (k1, F k1)) keys) with (table F keys). rewrite (IH S1 H). reflexivity.
Qed.
Lemma table_ext F F' keys : (forall k, In k keys -> F k = F' k) -> table F keys = table F' keys.
Proof. intros H. apply map_ext_in. intros k Hk. rewrite (H k Hk). reflexivity. Qed.

(** The events of the vertices [vs] with number [k]. *)
Definition ev (v : nat) : event := nth v evs (mkEvent 0 0 0).
Definition group (vs : list nat) (k : nat) : list event := map ev (filter (fun v => lab v =? k) vs).
Lemma group_snoc vs v k : group (vs ++ [v]) k = if lab v =? k then group vs k ++ [ev v] else group vs k.
Proof. unfold group. rewrite filter_app, map_app. cbn. destruct (lab v =? k); [reflexivity|apply app_nil_r]. Qed.
Lemma group_none vs k : ~ In k (map lab vs) -> group vs k = [].
Proof.
  intros H. unfold group. replace (filter (fun v => lab v =? k) vs) with (@nil nat); [reflexivity|]. induction vs as [|v vs IH]; [reflexivity|]. cbn.
  destruct (Nat.eqb_spec (lab v) k) as [E|E]; [destruct H; left; exact E|]. apply IH. intros J. apply H. right. exact J.
Qed.
Lemma place_events : forall vs done keys, (forall v, In v vs -> v < n) -> StronglySorted lt keys -> (forall k, In k keys <-> In k (map lab done)) ->
  exists keys', loop (place_event g st) vs (table (fun k => build (group done k) []) keys) = Ok (table (fun k => build (group (done ++ vs) k) []) keys') /\
    StronglySorted lt keys' /\ (forall k, In k keys' <-> In k (map lab (done ++ vs))).
Proof.
  induction vs as [|v vs IH]; intros done keys Hv So K; cbn [loop].
  - exists keys. rewrite app_nil_r. auto.
  - unfold place_event at 1, get_event. rewrite g_events. fold lab.
    assert (Lv : v < length evs) by (apply Hv; left; reflexivity).
    assert (Ev : nth_error evs v = Some (ev v)) by (unfold ev; apply nth_error_nth'; exact Lv). rewrite Ev. cbn [bind].
    set (F := fun k => build (group done k) []).
    destruct (insert_table (fun k => if in_dec Nat.eq_dec k keys then F k else empty_graph) (lab v) keys So) as (keys' & E & S' & M).
    assert (Ef : forall k, (if in_dec Nat.eq_dec k keys then F k else empty_graph) = F k).
    { intros k. destruct (in_dec Nat.eq_dec k keys) as [J|J]; [reflexivity|]. unfold F. rewrite group_none; [reflexivity|]. intros J'. apply J, K, J'. }
    rewrite (table_ext _ F keys) in E by (intros k _; apply Ef). rewrite (table_ext _ F keys') in E by (intros k _; apply Ef). rewrite Ef in E.
    assert (E' : insert_graph (table F keys) (lab v) empty_graph = table F keys').
    { rewrite <- E. destruct (in_dec Nat.eq_dec (lab v) keys) as [J|J].
      - clear - J So. revert J. generalize (lab v) as x. clearbody F. intros x J. induction keys as [|k keys IHk]; [destruct J|]. cbn [table map insert_graph fst]. inversion So as [|? ? S1 S2]; subst. rewrite Forall_forall in S2.
        destruct (Nat.ltb_spec x k); [exfalso; destruct J as [<-|J]; [lia|specialize (S2 _ J); lia]|].
        destruct (Nat.eqb_spec x k) as [|Ne]; [reflexivity|]. f_equal. apply IHk; [exact S1|]. destruct J as [J|J]; [congruence|exact J].
      - f_equal. unfold F. rewrite group_none; [reflexivity|]. intros J'. apply J, K, J'. }
    rewrite E'. rewrite change_table by (auto; apply M; auto). cbn [bind].
    destruct (IH (done ++ [v]) keys') as (keys2 & E2 & S2 & M2).
    + intros w Hw. apply Hv. right. exact Hw.
    + exact S'.
    + intros k. rewrite M, K, map_app, in_app_iff. cbn. intuition.
    + rewrite <- app_assoc in E2, M2. cbn [app] in E2, M2. exists keys2. split; [|auto]. rewrite <- E2. f_equal. apply table_ext. intros k _. rewrite group_snoc.
      destruct (Nat.eqb_spec (lab v) k) as [<-|]; [|reflexivity]. unfold F, build. cbn [fold_left]. rewrite fold_left_app. reflexivity.
Qed.

(** The constraints with both ends numbered [k]. *)
Definition both (k : nat) (c : constraint) : bool := (lab (vertex_of g (c_source c)) =? k) && (lab (vertex_of g (c_target c)) =? k).
Lemma build_snoc E C c : build E (C ++ [c]) = add_constraint (build E C) c.
Proof. unfold build. rewrite fold_left_app. reflexivity. Qed.
Lemma place_constraints E : forall ds done keys, (forall c, In c ds -> In c cs) -> StronglySorted lt keys -> (forall c, In c ds -> In (lab (vertex_of g (c_source c))) keys) ->
  loop (place_constraint g st) (map (number g) ds) (table (fun k => build (E k) (filter (both k) done)) keys) =
  Ok (table (fun k => build (E k) (filter (both k) (done ++ ds))) keys).
Proof.
  induction ds as [|c ds IH]; intros done keys Hc So Hk; cbn [map loop].
  - rewrite app_nil_r. reflexivity.
  - unfold place_constraint at 1. fold lab. assert (Hc1 : In c cs) by (apply Hc; left; reflexivity).
    rewrite number_back by (try apply g_well; rewrite g_events; apply Cl, Hc1). cbn [bind number k_src k_dst].
    assert (Next : loop (place_constraint g st) (map (number g) ds) (table (fun k => build (E k) (filter (both k) (done ++ [c]))) keys) =
      Ok (table (fun k => build (E k) (filter (both k) (done ++ c :: ds))) keys)).
    { rewrite (IH (done ++ [c])); auto with datatypes. rewrite <- app_assoc. reflexivity. }
    rewrite <- Next. destruct (Nat.eqb_spec (lab (vertex_of g (c_source c))) (lab (vertex_of g (c_target c)))) as [Eq|Ne].
    + rewrite change_table by (auto; apply Hk; left; reflexivity). cbn [bind]. f_equal. apply table_ext. intros k _. rewrite filter_app. cbn [filter]. assert (Bc : both k c = (lab (vertex_of g (c_source c)) =? k)) by (unfold both; rewrite <- Eq; apply andb_diag). rewrite Bc.
      destruct (Nat.eqb_spec (lab (vertex_of g (c_source c))) k); [rewrite build_snoc; reflexivity|rewrite app_nil_r; reflexivity].
    + cbn [bind]. f_equal. apply table_ext. intros k _. rewrite filter_app. cbn [filter]. replace (both k c) with false; [rewrite app_nil_r; reflexivity|]. symmetry. unfold both. apply andb_false_iff.
      destruct (Nat.eqb_spec (lab (vertex_of g (c_source c))) k) as [E1|]; [right|left; reflexivity]. apply Nat.eqb_neq. congruence.
Qed.

Lemma ev_nth v : v < n -> nth_error evs v = Some (ev v).
Proof. intros H. unfold ev. apply nth_error_nth'. exact H. Qed.
Lemma ev_vertex v : v < n -> vertex_of g (ev v) = v.
Proof. intros H. apply nth_vertex, ev_nth, H. Qed.
Lemma vertex_ev e : In e evs -> ev (vertex_of g e) = e.
Proof. intros H. unfold ev. apply nth_error_nth, vertex_nth, H. Qed.
Lemma ev_all : map ev (seq 0 n) = evs.
Proof.
  apply nth_ext with (d := ev n) (d' := ev n); [rewrite map_length, seq_length; reflexivity|].
  intros i Hi. rewrite map_length, seq_length in Hi. rewrite map_nth, seq_nth by exact Hi. cbn. pose proof (ev_nth i Hi) as H. symmetry. apply nth_error_nth, H.
Qed.
Lemma in_group e k : In e (group (seq 0 n) k) <-> In e evs /\ lab (vertex_of g e) = k.
Proof.
  unfold group. rewrite in_map_iff. split.
  - intros (v & <- & H). apply filter_In in H as [H E]. apply in_seq in H. apply Nat.eqb_eq in E. rewrite ev_vertex by lia. split; [|exact E]. eapply nth_error_In, ev_nth. lia.
  - intros [H E]. exists (vertex_of g e). split; [apply vertex_ev, H|]. apply filter_In. split; [|apply Nat.eqb_eq, E]. apply in_seq. pose proof (vertex_lt e H). lia.
Qed.
Lemma filter_or {A} (p q : A -> bool) l : (forall x, p x = true -> q x = false) -> Permutation (filter p l ++ filter q l) (filter (fun x => p x || q x) l).
Proof.
  intros D. induction l as [|x l IH]; [constructor|]. cbn. destruct (p x) eqn:P; cbn.
  - rewrite (D x P). constructor. exact IH.
  - destruct (q x); [|exact IH]. eapply perm_trans; [apply Permutation_sym, Permutation_middle|]. constructor. exact IH.
Qed.
Lemma share_out vs : forall keys, NoDup keys -> Permutation (concat (map (fun k => filter (fun v => lab v =? k) vs) keys)) (filter (fun v => existsb (Nat.eqb (lab v)) keys) vs).
Proof.
  induction keys as [|k keys IH]; intros Nk; cbn [map concat existsb].
  - induction vs; [constructor|cbn; assumption].
  - inversion Nk as [|? ? N1 N2]; subst. eapply perm_trans; [apply Permutation_app_head, IH, N2|]. apply (filter_or (fun v => lab v =? k) (fun v => existsb (Nat.eqb (lab v)) keys)).
    intros x E. apply Nat.eqb_eq in E. destruct (existsb (Nat.eqb (lab x)) keys) eqn:X; [|reflexivity]. apply existsb_exists in X as (y & Hy & X). apply Nat.eqb_eq in X. congruence.
Qed.
End Share.

Lemma sorted_nodup keys : StronglySorted lt keys -> NoDup keys.
Proof. induction 1 as [|x l S IH F]; constructor; [|exact IH]. intros H. rewrite Forall_forall in F. specialize (F x H). lia. Qed.

Theorem split_ok : exists labels keys ps,
  strong_connection g = Ok (labels, combine keys (map (fun p => build (fst p) (snd p)) ps)) /\
  length keys = length ps /\ StronglySorted lt keys /\ parts_of evs cs ps /\
  length labels = n /\
  (forall i e, nth_error evs i = Some e -> exists k p, nth_error labels i = Some k /\ In (k, p) (combine keys ps) /\ In e (fst p)) /\
  (forall k p, In (k, p) (combine keys ps) -> exists e, nth_error evs k = Some e /\ In e (fst p)).
Proof.
  destruct (search_ok g n g_closed g_size) as (st & Es & St & Bd & Sm).
  unfold strong_connection. rewrite Es. cbn [bind]. rewrite St. cbn [cassert bind]. rewrite <- g_size.
  destruct (place_events st (seq 0 n) [] []) as (keys & E1 & So & K); [intros v H; apply in_seq in H; lia|constructor|reflexivity|].
  cbn [app table map] in E1, K. rewrite E1. cbn [bind]. rewrite g_cons.
  assert (Lk : forall v, v < n -> In (get_scc st v) keys) by (intros v Hv; apply K, in_map, in_seq; lia).
  pose proof (place_constraints st (group st (seq 0 n)) cs [] keys) as E2. cbn [filter app] in E2. rewrite E2; auto; [|intros c Hc; apply Lk, vertex_lt, Cl, Hc]. cbn [bind]. clear E1 E2.
  set (part := fun k => (group st (seq 0 n) k, filter (both st k) cs)).
  assert (Cb : forall (B : Type) (f : nat -> B), combine keys (map f keys) = map (fun k => (k, f k)) keys).
  { intros B f. clear. induction keys as [|k keys IH]; cbn; [reflexivity|]. rewrite IH. reflexivity. }
  assert (Inp : forall k p, In (k, p) (combine keys (map part keys)) -> In k keys /\ p = part k).
  { intros k p. rewrite Cb. intros H. apply in_map_iff in H as (k' & E & H). injection E as -> <-. auto. }
  exists (map (get_scc st) (seq 0 n)), keys, (map part keys).
  split; [rewrite map_map; do 2 f_equal; symmetry; apply Cb|]. split; [rewrite map_length; reflexivity|]. split; [exact So|].
  assert (Sym : forall u v, In u evs -> In v evs -> (get_scc st (vertex_of g u) = get_scc st (vertex_of g v) <-> joined cs u v /\ joined cs v u)).
  { intros u v Hu Hv. rewrite (Sm _ _ (vertex_lt u Hu) (vertex_lt v Hv)), !joined_reach by assumption. reflexivity. }
  split; [constructor|].
  - rewrite map_map. cbn [fst part]. unfold group. refine (eq_rect (map ev (seq 0 n)) (fun l => Permutation _ l) _ evs ev_all). rewrite <- (map_map (fun k => filter (fun v => get_scc st v =? k) (seq 0 n)) (map ev)), <- concat_map.
    apply Permutation_map. eapply perm_trans; [apply share_out, sorted_nodup, So|]. replace (filter _ (seq 0 n)) with (seq 0 n); [apply Permutation_refl|].
    symmetry. assert (A : forall v, In v (seq 0 n) -> existsb (Nat.eqb (get_scc st v)) keys = true).
    { intros v Hv. apply in_seq in Hv. apply existsb_exists. exists (get_scc st v). split; [apply Lk; lia|apply Nat.eqb_refl]. }
    clear - A. induction (seq 0 n) as [|x l IH]; [reflexivity|]. cbn. rewrite (A x (or_introl eq_refl)). f_equal. apply IH. intros v Hv. apply A. right. exact Hv.
  - intros p H. apply in_map_iff in H as (k & <- & H). cbn [fst part]. apply K, in_map_iff in H as (v & Ev & H). apply in_seq in H.
    assert (J : In (ev v) (group st (seq 0 n) k)).
    { apply in_group. split; [eapply nth_error_In, ev_nth; lia|]. rewrite ev_vertex by lia. exact Ev. }
    intros E. rewrite E in J. destruct J.
  - intros p u v H Hu. apply in_map_iff in H as (k & <- & H). cbn [fst part] in *. apply in_group in Hu as [Hu Eu]. rewrite in_group. split.
    + intros [Hv Ev]. split; [exact Hv|]. apply Sym; auto. congruence.
    + intros [Hv J]. split; [exact Hv|]. apply Sym in J; auto. congruence.
  - intros p H. apply in_map_iff in H as (k & <- & H). cbn [fst snd part]. apply filter_ext_in. intros c Hc. unfold within, both. destruct (Cl c Hc) as [C1 C2].
    assert (B : forall e, In e evs -> (get_scc st (vertex_of g e) =? k) = existsb (event_eqb e) (group st (seq 0 n) k)).
    { intros e He. apply eq_true_iff_eq. rewrite in_events, in_group, Nat.eqb_eq. intuition. }
    rewrite !B by assumption. reflexivity.
  - split; [rewrite map_length, seq_length; reflexivity|]. split.
    + intros i e Hi. assert (Li : i < n) by (apply nth_error_Some; congruence). exists (get_scc st i), (part (get_scc st i)). split.
      * rewrite nth_error_map. rewrite (nth_error_nth' _ 0) by (rewrite seq_length; exact Li). rewrite seq_nth by exact Li. reflexivity.
      * split; [rewrite Cb; apply in_map_iff; exists (get_scc st i); split; [reflexivity|apply Lk, Li]|]. cbn [fst part]. apply in_group. split; [eapply nth_error_In; eauto|]. rewrite (nth_vertex i e Hi). reflexivity.
    + intros k p H. apply Inp in H as [H ->]. apply K, in_map_iff in H as (v & Ev & H). apply in_seq in H. destruct (Bd v ltac:(lia)) as [B1 B2]. rewrite Ev in B1, B2. exists (ev k). split; [apply ev_nth, B1|].
      cbn [fst part]. apply in_group. split; [eapply nth_error_In, ev_nth, B1|]. rewrite ev_vertex by exact B1. exact B2.
Qed.
End Built.
