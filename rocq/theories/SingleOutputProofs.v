(** Proofs about joining the outputs of a task: one pass of the loop. *)
From Coq Require Import QArith Ascii String Permutation Relations.
From Verif Require Import Base Graph Builder BuilderProofs SingleOutput SingleOutputSpec.
Open Scope Z_scope.

(** A call of the graph object: its result, or its failure. *)
Definition outcome_of {A} (m : M A) (s : state) (post : A -> state -> Prop) (failure : Prop) : Prop :=
  match m s with Done a s' => post a s' | Raised _ => failure | Undef => False end.

Lemma oc_bind {A B} (m : M A) (f : A -> M B) s (post : A -> state -> Prop) (failure : Prop) (post' : B -> state -> Prop) (failure' : Prop) :
  outcome_of m s post failure -> (failure -> failure') -> (forall a s', post a s' -> outcome_of (f a) s' post' failure') -> outcome_of (mbind m f) s post' failure'.
Proof. unfold outcome_of, mbind. intros H F P. destruct (m s); auto. apply P, H. Qed.
Lemma oc_weaken {A} (m : M A) s (post post' : A -> state -> Prop) (failure failure' : Prop) : outcome_of m s post failure -> (forall a s', post a s' -> post' a s') -> (failure -> failure') -> outcome_of m s post' failure'.
Proof. unfold outcome_of. destruct (m s); auto. Qed.
Lemma oc_pres {A} (m : M A) s post failure P : pres P m -> P s -> outcome_of m s post failure -> outcome_of m s (fun a s' => post a s' /\ P s') failure.
Proof. unfold outcome_of. intros Pm Ps. specialize (Pm s Ps). destruct (m s); auto. Qed.

Definition same (s s' : state) : Prop := s_vs s' = s_vs s /\ s_es s' = s_es s /\ s_next s' = s_next s.
Lemma oc_begin s : outcome_of begin_change s (fun _ s' => same s s' /\ s_auto_v s' = s_auto_v s /\ s_auto_e s' = s_auto_e s /\ s_readonly s' = false) (s_readonly s = true).
Proof. unfold outcome_of, begin_change, mbind, writable. destruct (s_readonly s) eqn:E; cbn; [reflexivity|]. unfold same. auto. Qed.

(** Setters. *)
Lemma oc_set_phases v n s : (v < length (s_vs s))%nat ->
  outcome_of (set_phases v n) s (fun _ s' => s_vs s' = update_nth v (bv_set_phases n) (s_vs s) /\ s_es s' = s_es s /\ s_next s' = s_next s /\ s_readonly s' = false) (s_readonly s = true).
Proof.
  intros Hv. eapply oc_bind; [apply oc_begin|auto|]. intros _ s1 ((V & E & N) & _ & _ & R). unfold outcome_of, put_v, mbind, get_v. rewrite V.
  destruct (nth_error (s_vs s) v) eqn:Ev; [|apply nth_error_None in Ev; lia]. cbn. rewrite V, E, N, R. auto.
Qed.
Lemma oc_set_durations v l s : (v < length (s_vs s))%nat ->
  outcome_of (set_durations v l) s (fun _ s' => s_vs s' = update_nth v (bv_set_durations l) (s_vs s) /\ s_es s' = s_es s /\ s_next s' = s_next s /\ s_readonly s' = false)
    (s_readonly s = true \/ exists b, nth_error (s_vs s) v = Some b /\ bv_phases b <> length l).
Proof.
  intros Hv. eapply oc_bind; [apply oc_begin|auto|]. intros _ s1 ((V & E & N) & _ & _ & R). unfold outcome_of, put_v, mbind, get_v. rewrite V.
  destruct (nth_error (s_vs s) v) as [b|] eqn:Ev; [|apply nth_error_None in Ev; lia]. destruct (Nat.eqb_spec (bv_phases b) (length l)) as [Q|Q]; cbn.
  - rewrite V, Ev. cbn. rewrite V, E, N, R. auto.
  - right. eauto.
Qed.

Definition fits (s : state) (v : nat) : Prop := forall b, nth_error (s_vs s) v = Some b -> (bv_phases b <= 1)%nat.
Definition mark (v : nat) (vs : list bvertex) : list bvertex := update_nth v (bv_set_phases 1) vs.
Lemma mark_length v vs : length (mark v vs) = length vs.
Proof. apply update_nth_length. Qed.
Lemma map_handle_last f l e h : be_handle e = h -> (forall x, In x l -> be_handle x <> h) -> map (fun x => if (be_handle x =? h)%nat then f x else x) (l ++ [e]) = l ++ [f e].
Proof.
  intros He Hl. rewrite map_app. cbn [map]. rewrite He, Nat.eqb_refl. f_equal. rewrite <- (map_id l) at 2. apply map_ext_in. intros x Hx.
  destruct (Nat.eqb_spec (be_handle x) h) as [Q|]; [destruct (Hl x Hx Q)|reflexivity].
Qed.
Lemma find_e_last l e h : be_handle e = h -> (forall x, In x l -> be_handle x <> h) -> find_e h (l ++ [e]) = Some e.
Proof. intros He Hl. apply find_here; [|rewrite He; apply Nat.eqb_refl]. intros y Hy. apply Nat.eqb_neq, Hl, Hy. Qed.

Lemma oc_set_edge_in l e s : s_es s = l ++ [e] -> (forall x, In x l -> be_handle x <> be_handle e) -> (be_src e < length (s_vs s))%nat ->
  outcome_of (set_edge_in (be_handle e) [1]) s (fun _ s' => s_vs s' = mark (be_src e) (s_vs s) /\ s_es s' = l ++ [be_set_in [1] 1 e] /\ s_next s' = s_next s /\ s_readonly s' = false /\ fits s (be_src e))
    (s_readonly s = true \/ ~ fits s (be_src e)).
Proof.
  intros Es Hl Hv. eapply oc_bind; [apply oc_begin|auto|]. intros _ s1 ((V & E & N) & _ & _ & R).
  eapply oc_bind with (post := fun _ s2 => s_vs s2 = s_vs s /\ s_es s2 = l ++ [be_set_in [1] 1 e] /\ s_next s2 = s_next s /\ s_readonly s2 = false) (failure := False).
  - unfold outcome_of, put_e, mbind, get_e. rewrite E, Es, find_e_last by auto. cbn [modify]. cbn [with_es s_vs s_es s_next s_readonly]. rewrite E, Es, map_handle_last by auto. cbn. rewrite V, N, R. auto.
  - intros [].
  - intros _ s2 (V2 & E2 & N2 & R2). unfold outcome_of at 1. unfold mbind, get_e. rewrite E2, find_e_last by auto. cbn [be_set_in be_src]. unfold get_v. rewrite V2.
    destruct (nth_error (s_vs s) (be_src e)) as [b|] eqn:Eb; [|apply nth_error_None in Eb; lia].
    destruct ((bv_phases b =? 0)%nat || (bv_phases b =? length [1%Z])%nat) eqn:C.
    + cbn [check ret]. cbn [length]. pose proof (oc_set_phases (be_src e) 1 s2) as P. unfold outcome_of in P. rewrite V2, E2, N2, R2 in P. specialize (P Hv). destruct (set_phases _ _ s2); [|discriminate|exact P]. intuition. intros b' Eb'. rewrite Eb in Eb'. injection Eb' as <-. apply orb_true_iff in C as [C|C]; apply Nat.eqb_eq in C; cbn in C; lia.
    + cbn [check fail]. right. intros Q. specialize (Q b Eb). cbn in C. apply orb_false_iff in C as [C1 C2]. apply Nat.eqb_neq in C1, C2. lia.
Qed.
Lemma oc_set_edge_out l e s : s_es s = l ++ [e] -> (forall x, In x l -> be_handle x <> be_handle e) -> (be_dst e < length (s_vs s))%nat ->
  outcome_of (set_edge_out (be_handle e) [1]) s (fun _ s' => s_vs s' = mark (be_dst e) (s_vs s) /\ s_es s' = l ++ [be_set_out [1] 1 e] /\ s_next s' = s_next s /\ s_readonly s' = false /\ fits s (be_dst e))
    (s_readonly s = true \/ ~ fits s (be_dst e)).
Proof.
  intros Es Hl Hv. eapply oc_bind; [apply oc_begin|auto|]. intros _ s1 ((V & E & N) & _ & _ & R).
  eapply oc_bind with (post := fun _ s2 => s_vs s2 = s_vs s /\ s_es s2 = l ++ [be_set_out [1] 1 e] /\ s_next s2 = s_next s /\ s_readonly s2 = false) (failure := False).
  - unfold outcome_of, put_e, mbind, get_e. rewrite E, Es, find_e_last by auto. cbn [modify]. cbn [with_es s_vs s_es s_next s_readonly]. rewrite E, Es, map_handle_last by auto. cbn. rewrite V, N, R. auto.
  - intros [].
  - intros _ s2 (V2 & E2 & N2 & R2). unfold outcome_of at 1. unfold mbind, get_e. rewrite E2, find_e_last by auto. cbn [be_set_out be_dst]. unfold get_v. rewrite V2.
    destruct (nth_error (s_vs s) (be_dst e)) as [b|] eqn:Eb; [|apply nth_error_None in Eb; lia].
    destruct ((bv_phases b =? 0)%nat || (bv_phases b =? length [1%Z])%nat) eqn:C.
    + cbn [check ret]. cbn [length]. pose proof (oc_set_phases (be_dst e) 1 s2) as P. unfold outcome_of in P. rewrite V2, E2, N2, R2 in P. specialize (P Hv). destruct (set_phases _ _ s2); [|discriminate|exact P]. intuition. intros b' Eb'. rewrite Eb in Eb'. injection Eb' as <-. apply orb_true_iff in C as [C|C]; apply Nat.eqb_eq in C; cbn in C; lia.
    + cbn [check fail]. right. intros Q. specialize (Q b Eb). cbn in C. apply orb_false_iff in C as [C1 C2]. apply Nat.eqb_neq in C1, C2. lia.
Qed.

(** addEdge. *)
Lemma oc_add_edge from to s : inv s -> (from < length (s_vs s))%nat -> (to < length (s_vs s))%nat ->
  outcome_of (add_edge_auto from to) s (fun h s' => h = s_next s /\ s_vs s' = s_vs s /\ s_next s' = S (s_next s) /\ s_readonly s' = false /\ exists id, s_es s' = s_es s ++ [be_set_id id (new_edge h from to)])
    (s_readonly s = true).
Proof.
  intros I Hf Ht. unfold add_edge_auto. set (a := bump (map be_id (s_es s)) (s_auto_e s)).
  assert (Ha : s_auto_e s <= a) by apply bump_ge. assert (Pa : 0 < a) by (pose proof (inv_ae s I); lia).
  change (outcome_of (add_edge_unsafe from to a) (with_auto_e a s) (fun h s' => h = s_next s /\ s_vs s' = s_vs s /\ s_next s' = S (s_next s) /\ s_readonly s' = false /\ exists id, s_es s' = s_es s ++ [be_set_id id (new_edge h from to)]) (s_readonly s = true)).
  unfold add_edge_unsafe. eapply oc_bind; [apply oc_begin|auto|]. intros _ s1 ((V & E & N) & _ & _ & R). cbn [with_auto_e s_vs s_es s_next] in *.
  unfold outcome_of at 1. unfold mbind at 1, get_v. rewrite V. destruct (nth_error (s_vs s) from) eqn:E1; [|apply nth_error_None in E1; lia].
  unfold mbind at 1, get_v. rewrite V. destruct (nth_error (s_vs s) to) eqn:E2; [|apply nth_error_None in E2; lia]. unfold mbind at 1. cbn [get]. unfold mbind at 1. cbn [modify].
  rewrite E, N. match goal with |- match mbind ?m ?f ?st with _ => _ end => change (outcome_of (mbind m f) st (fun h s' => h = s_next s /\ s_vs s' = s_vs s /\ s_next s' = S (s_next s) /\ s_readonly s' = false /\ exists id, s_es s' = s_es s ++ [be_set_id id (new_edge h from to)]) (s_readonly s = true)); set (s2 := st) end.
  assert (E3 : s_es s2 = s_es s ++ [new_edge (s_next s) from to]) by reflexivity. assert (V3 : s_vs s2 = s_vs s) by exact V. assert (N3 : s_next s2 = S (s_next s)) by reflexivity. assert (R3 : s_readonly s2 = false) by exact R. clearbody s2.
  assert (Hl : forall x, In x (s_es s) -> be_handle x <> s_next s) by (intros x Hx; pose proof (inv_next s I x Hx); lia).
  eapply oc_bind with (post := fun _ s' => s_vs s' = s_vs s /\ s_next s' = S (s_next s) /\ s_readonly s' = false /\ s_es s' = s_es s ++ [be_set_id a (new_edge (s_next s) from to)]) (failure := s_readonly s2 = true); [|congruence|].
  - unfold set_edge_id. eapply oc_bind; [apply oc_begin|auto|]. intros _ s4 ((V4 & E4 & N4) & _ & _ & R4). unfold outcome_of, mbind. rewrite (proj2 (Z.ltb_lt _ _) Pa). cbn [check ret get].
    assert (Fn : edge_by_id s4 a = None).
    { unfold edge_by_id. rewrite E4, E3. destruct (find _ _) as [x|] eqn:Fx; [|reflexivity]. apply find_some in Fx as [Ix Jx]. apply Z.eqb_eq in Jx. apply in_app_iff in Ix as [Ix|[<-|[]]].
      - pose proof (inv_es s I x Ix). lia.
      - cbn in Jx. lia. }
    rewrite Fn. unfold put_e, mbind, get_e. rewrite E4, E3, find_e_last by auto. cbn [modify]. cbn [with_es with_auto_e s_vs s_es s_next s_readonly]. rewrite E4, E3, map_handle_last by auto.
    rewrite V4, V3, N4, N3, R4. auto.
  - intros _ s5 (V5 & N5 & R5 & E5). eapply oc_bind; [apply oc_begin|congruence|]. intros _ s6 ((V6 & E6 & N6) & _ & _ & R6). unfold outcome_of, ret. repeat split; try congruence. exists a. congruence.
Qed.

(** A new channel with rates 1. *)
Definition unit_edge (h from to : nat) (id : Z) : bedge := mkBEdge h from to id "" [1] [1] [] [] 1 1 0 0.
Lemma update_nth_other {A} (f : A -> A) : forall l v w, v <> w -> nth_error (update_nth v f l) w = nth_error l w.
Proof. induction l as [|y l IH]; intros [|v] [|w] Ne; try reflexivity; [lia|]. apply (IH v w). lia. Qed.
Lemma update_nth_same {A} (f : A -> A) : forall l v, nth_error (update_nth v f l) v = option_map f (nth_error l v).
Proof. induction l as [|y l IH]; intros [|v]; try reflexivity. apply (IH v). Qed.
Lemma fits_mark s s' v w : s_vs s' = mark v (s_vs s) -> fits s w -> fits s' w.
Proof.
  intros E F b Hb. rewrite E in Hb. unfold mark in Hb. destruct (Nat.eq_dec v w) as [->|Ne].
  - rewrite update_nth_same in Hb. destruct (nth_error (s_vs s) w); [|discriminate]. injection Hb as <-. cbn. lia.
  - rewrite update_nth_other in Hb by exact Ne. auto.
Qed.
Lemma oc_link from to s : inv s -> (from < length (s_vs s))%nat -> (to < length (s_vs s))%nat ->
  outcome_of (link from to) s (fun h s' => (h = s_next s /\ s_vs s' = mark to (mark from (s_vs s)) /\ s_next s' = S (s_next s) /\ s_readonly s' = false /\ fits s from /\ fits s to /\ exists id, s_es s' = s_es s ++ [unit_edge h from to id]) /\ inv s')
    (s_readonly s = true \/ ~ fits s from \/ ~ fits s to).
Proof.
  intros I Hf Ht. pose proof (inv_next s I) as Hn. apply oc_pres; [|exact I|].
  - apply pres_bind; [apply inv_add_edge_auto|intros h]. apply pres_bind; [apply (inv_exec (SetEdgeIn h [1]))|intros _]. apply pres_bind; [apply (inv_exec (SetEdgeOut h [1]))|intros _; apply pres_ret].
  - unfold link. eapply oc_bind; [apply oc_add_edge; auto|auto|]. intros h s1 (-> & V1 & N1 & R1 & id & E1).
    assert (Hl : forall x, In x (s_es s) -> be_handle x <> s_next s) by (intros x Hx; specialize (Hn x Hx); lia).
    eapply oc_bind; [apply (oc_set_edge_in (s_es s) (be_set_id id (new_edge (s_next s) from to))); [exact E1|exact Hl|cbn; rewrite V1; exact Hf]| |].
    { intros [Q|Q]; [congruence|]. right. left. intros F. apply Q. unfold fits. rewrite V1. exact F. }
    cbn [be_set_id new_edge be_src be_dst be_handle]. intros _ s2 (V2 & E2 & N2 & R2 & F2).
    eapply oc_bind; [apply (oc_set_edge_out (s_es s) (be_set_in [1] 1 (be_set_id id (new_edge (s_next s) from to)))); [exact E2|exact Hl|cbn; rewrite V2, mark_length, V1; exact Ht]| |].
    { intros [Q|Q]; [congruence|]. right. right. intros F. apply Q. apply (fits_mark s1 s2 from); [exact V2|]. unfold fits. rewrite V1. exact F. }
    cbn [be_set_in be_set_id new_edge be_src be_dst be_handle]. intros _ s3 (V3 & E3 & N3 & R3 & F3). unfold outcome_of, ret. rewrite V3, V2, V1, N3, N2, N1.
    split; [reflexivity|]. split; [reflexivity|]. split; [reflexivity|]. split; [exact R3|]. split; [unfold fits in *; rewrite V1 in F2; exact F2|]. split.
    + intros b Hb. destruct (Nat.eq_dec to from) as [->|Ne]; [unfold fits in F2; rewrite V1 in F2; apply (F2 b Hb)|]. apply F3. rewrite V2, V1. unfold mark. rewrite update_nth_other by auto. exact Hb.
    + exists id. rewrite E3. reflexivity.
Qed.

(** A new task that copies. *)
Lemma update_nth_last {A} (f : A -> A) l x : update_nth (length l) f (l ++ [x]) = l ++ [f x].
Proof. induction l as [|y l IH]; [reflexivity|]. cbn. f_equal. exact IH. Qed.
Lemma nth_error_last {A} (l : list A) x : nth_error (l ++ [x]) (length l) = Some x.
Proof. rewrite nth_error_app2, Nat.sub_diag by lia. reflexivity. Qed.
Definition fresh (s : state) (n : string) : Prop := forall b, In b (s_vs s) -> bv_name b <> n.
Lemma dup_name_some name cnt : dup_name name cnt <> ""%string.
Proof. unfold dup_name. destruct name; discriminate. Qed.

Lemma app_inj_tail_length {A} (l l1 : list A) x y l2 : l ++ [x] = l1 ++ y :: l2 -> length l1 = length l -> l = l1 /\ x = y /\ l2 = [].
Proof. revert l1. induction l as [|a l IH]; intros [|b l1] E L; try discriminate; cbn in *; [injection E as -> <-; auto|]. injection E as -> E. injection L as L. destruct (IH l1 E L) as (-> & -> & ->). auto. Qed.
Lemma oc_add_vertex s : inv s ->
  outcome_of add_vertex_auto s (fun v s' => v = length (s_vs s) /\ (exists id, s_vs s' = s_vs s ++ [bv_set_id id new_vertex]) /\ s_es s' = s_es s /\ s_next s' = s_next s /\ s_readonly s' = false) (s_readonly s = true).
Proof.
  intros I. unfold add_vertex_auto. set (a := bump (map bv_id (s_vs s)) (s_auto_v s)).
  assert (Ha : s_auto_v s <= a) by apply bump_ge. assert (Pa : 0 < a) by (pose proof (inv_av s I); lia).
  match goal with |- outcome_of _ _ ?p ?f => change (outcome_of (add_unsafe_vertex a) (with_auto_v (a + 1) (with_auto_v a s)) p f) end.
  unfold add_unsafe_vertex. eapply oc_bind; [apply oc_begin|auto|]. intros _ s1 ((V & E & N) & _ & _ & R). cbn [with_auto_v s_vs s_es s_next] in *.
  eapply oc_bind with (post := fun x s' => x = s1 /\ s' = s1) (failure := False); [unfold outcome_of; cbn; auto|intros []|]. intros x sx [-> ->].
  eapply oc_bind with (post := fun _ s' => s_vs s' = s_vs s ++ [new_vertex] /\ s_es s' = s_es s /\ s_next s' = s_next s /\ s_readonly s' = false) (failure := False); [unfold outcome_of; cbn; rewrite V, E, N, R; auto|intros []|].
  intros _ s2 (V2 & E2 & N2 & R2). rewrite V.
  eapply oc_bind with (post := fun _ s' => s_vs s' = s_vs s ++ [bv_set_id a new_vertex] /\ s_es s' = s_es s /\ s_next s' = s_next s /\ s_readonly s' = false) (failure := s_readonly s2 = true); [|congruence|].
  - unfold set_vertex_id. eapply oc_bind; [apply oc_begin|auto|]. intros _ s3 ((V3 & E3 & N3) & _ & _ & R3).
    eapply oc_bind with (post := fun x s' => x = s3 /\ s' = s3) (failure := False); [unfold outcome_of; cbn; auto|intros []|]. intros x sx [-> ->].
    assert (Fn : vertex_by_id s3 a = None).
    { unfold vertex_by_id. rewrite V3, V2. destruct (find_index _ _) as [k|] eqn:Fx; [|reflexivity]. apply find_index_some in Fx as (l1 & x & l2 & Ex & _ & Fx & _). apply Z.eqb_eq in Fx.
      assert (Ix : In x (s_vs s ++ [new_vertex])) by (rewrite Ex; apply in_elt). apply in_app_iff in Ix as [Ix|[<-|[]]]; [pose proof (inv_vs s I x Ix); lia|cbn in Fx; lia]. }
    rewrite Fn. unfold set_vertex_id_unsafe. eapply oc_bind; [apply oc_begin|congruence|]. intros _ s4 ((V4 & E4 & N4) & _ & _ & R4).
    unfold outcome_of, put_v, mbind, get_v. rewrite V4, V3, V2, nth_error_last. cbn. rewrite V4, V3, V2, update_nth_last, E4, E3, N4, N3, R4. auto.
  - intros _ s5 (V5 & E5 & N5 & R5). eapply oc_bind with (post := fun _ s' => s_vs s' = s_vs s ++ [bv_set_id a new_vertex] /\ s_es s' = s_es s /\ s_next s' = s_next s /\ s_readonly s' = false) (failure := s_readonly s5 = true); [|congruence|].
    + unfold set_init_phases. eapply oc_bind; [apply oc_begin|auto|]. intros _ s6 ((V6 & E6 & N6) & _ & _ & R6). unfold outcome_of, put_v, mbind, get_v. rewrite V6, V5, nth_error_last. cbn. rewrite V6, V5, update_nth_last, E6, N6, R6. auto.
    + intros _ s7 (V7 & E7 & N7 & R7). eapply oc_bind; [apply oc_begin|congruence|]. intros _ s8 ((V8 & E8 & N8) & _ & _ & R8). unfold outcome_of, ret. rewrite V8, E8, N8. eauto 10.
Qed.
Lemma oc_add_dup name cnt s : inv s ->
  outcome_of (add_dup name cnt) s (fun d s' => (d = length (s_vs s) /\ (exists b, s_vs s' = s_vs s ++ [b] /\ copier b /\ bv_name b = dup_name name cnt) /\ s_es s' = s_es s /\ s_next s' = s_next s /\ s_readonly s' = false) /\ inv s')
    (s_readonly s = true \/ ~ fresh s (dup_name name cnt)).
Proof.
  intros I. apply oc_pres; [|exact I|].
  - apply pres_bind; [apply pres_bind; [apply inv_add_vertex_auto|intros v]; apply pres_bind; [apply inv_set_vertex_name|intros _; apply pres_ret]|intros d].
    apply pres_bind; [apply inv_set_phases|intros _]. apply pres_bind; [apply (inv_exec (SetDurations d [1%Q]))|intros _; apply pres_ret].
  - unfold add_dup, add_vertex_name. set (nm := dup_name name cnt).
    eapply oc_bind with (post := fun v s' => v = length (s_vs s) /\ (exists id, s_vs s' = s_vs s ++ [bv_set_name nm (bv_set_id id new_vertex)]) /\ s_es s' = s_es s /\ s_next s' = s_next s /\ s_readonly s' = false) (failure := s_readonly s = true \/ ~ fresh s nm); [|auto|].
    + eapply oc_bind; [apply oc_add_vertex, I|auto|]. intros v s1 (-> & (id & V1) & E1 & N1 & R1).
      eapply oc_bind with (post := fun _ s' => s_vs s' = s_vs s ++ [bv_set_name nm (bv_set_id id new_vertex)] /\ s_es s' = s_es s /\ s_next s' = s_next s /\ s_readonly s' = false) (failure := ~ fresh s nm); [|auto|].
      * unfold set_vertex_name. eapply oc_bind; [apply oc_begin|congruence|]. intros _ s2 ((V2 & E2 & N2) & _ & _ & R2).
        destruct (String.eqb_spec nm "") as [Q|_]; [destruct (dup_name_some name cnt Q)|]. cbn [negb check].
        unfold outcome_of, mbind. cbn [ret get]. destruct (vertex_by_name s2 nm) as [o|] eqn:Fo.
        -- unfold vertex_by_name in Fo. rewrite V2, V1 in Fo. apply find_index_some in Fo as (l1 & x & l2 & Ex & <- & Fx & _). apply String.eqb_eq in Fx.
           destruct (Nat.eqb_spec (length l1) (length (s_vs s))) as [Q|Q]; cbn [check ret fail].
           ++ exfalso. apply app_inj_tail_length in Ex; [|exact Q]. destruct Ex as (_ & <- & _). cbn in Fx. apply (dup_name_some name cnt). symmetry. exact Fx.
           ++ intros Fr. assert (Ix : In x (s_vs s ++ [bv_set_id id new_vertex])) by (rewrite Ex; apply in_elt). apply in_app_iff in Ix as [Ix|[<-|[]]]; [apply (Fr x Ix Fx)|]. cbn in Fx. apply (dup_name_some name cnt). symmetry. exact Fx.
        -- cbn [ret]. unfold put_v, mbind, get_v. rewrite V2, V1, nth_error_last. cbn. rewrite V2, V1, update_nth_last, E2, N2, R2. auto.
      * intros _ s3 (V3 & E3 & N3 & R3). unfold outcome_of, ret. eauto 10.
    + intros d s1 (-> & (id & V1) & E1 & N1 & R1). assert (L1 : (length (s_vs s) < length (s_vs s1))%nat) by (rewrite V1, app_length; cbn; lia).
      eapply oc_bind; [apply oc_set_phases, L1|congruence|]. intros _ s2 (V2 & E2 & N2 & R2). rewrite V1, update_nth_last in V2.
      assert (L2 : (length (s_vs s) < length (s_vs s2))%nat) by (rewrite V2, app_length; cbn; lia).
      eapply oc_bind; [apply oc_set_durations, L2| |].
      * intros [Q|(b & Eb & Q)]; [congruence|]. rewrite V2, nth_error_last in Eb. injection Eb as <-. destruct (Q eq_refl).
      * intros _ s3 (V3 & E3 & N3 & R3). rewrite V2, update_nth_last in V3. unfold outcome_of, ret. split; [reflexivity|]. split; [|repeat split; congruence]. eexists. split; [exact V3|]. split; [repeat split|reflexivity].
Qed.

(** removeEdge. *)
Lemma oc_remove_edge h s : (exists e, In e (s_es s) /\ be_handle e = h) ->
  outcome_of (remove_edge h) s (fun _ s' => s_vs s' = s_vs s /\ s_es s' = filter (fun e => negb (be_handle e =? h)%nat) (s_es s) /\ s_next s' = s_next s /\ s_readonly s' = false) (s_readonly s = true).
Proof.
  intros (e & He & Hh). eapply oc_bind; [apply oc_begin|auto|]. intros _ s1 ((V & E & N) & _ & _ & R). unfold outcome_of, mbind, get_e. rewrite E.
  destruct (find_e h (s_es s)) eqn:F; [cbn; rewrite E; auto|]. unfold find_e in F. pose proof (find_none _ _ F e He) as Q. cbn in Q. rewrite Hh, Nat.eqb_refl in Q. discriminate.
Qed.

(** Tasks through the calls. *)
Lemma kept_refl b : kept b b. Proof. left. reflexivity. Qed.
Lemma kept_trans a b c : kept a b -> kept b c -> kept a c.
Proof. intros [->|[P ->]] [->|[P' ->]]; [left; reflexivity|right; auto|right; auto|discriminate P']. Qed.
Lemma kept_copier b b' : copier b -> kept b b' -> b' = b.
Proof. intros (P & _) [->|[Q _]]; [reflexivity|congruence]. Qed.
Lemma kepts_refl vs : Forall2 kept vs vs.
Proof. induction vs; constructor; [apply kept_refl|assumption]. Qed.
Lemma kepts_trans u v w : Forall2 kept u v -> Forall2 kept v w -> Forall2 kept u w.
Proof.
  intros H. revert w. induction H as [|a b u v K H IH]; intros w H'; inversion H'; subst; constructor; [eapply kept_trans; eauto|auto].
Qed.
Lemma kepts_length u v : Forall2 kept u v -> length v = length u.
Proof. induction 1; cbn; congruence. Qed.
Lemma kepts_names u v : Forall2 kept u v -> map bv_name v = map bv_name u.
Proof. induction 1 as [|a b u v K H IH]; [reflexivity|]. cbn. rewrite IH. destruct K as [->|[_ ->]]; reflexivity. Qed.
Lemma kepts_nth u v : Forall2 kept u v -> forall i b, nth_error v i = Some b -> exists a, nth_error u i = Some a /\ kept a b.
Proof. induction 1 as [|x y u v K H IH]; intros [|i] b E; try discriminate; cbn in *; [injection E as <-; eauto|eauto]. Qed.
Lemma kepts_fits s s' v : Forall2 kept (s_vs s) (s_vs s') -> fits s v -> fits s' v.
Proof. intros K F b Hb. destruct (kepts_nth _ _ K v b Hb) as (a & Ea & [->|[_ ->]]); [apply F, Ea|cbn; lia]. Qed.
Lemma mark_kept s v : fits s v -> Forall2 kept (s_vs s) (mark v (s_vs s)).
Proof.
  unfold fits, mark. generalize (s_vs s). intros l. revert v. induction l as [|y l IH]; intros [|v] F; cbn; try constructor; try apply kepts_refl; try apply kept_refl.
  - specialize (F y eq_refl). destruct y as [i n p ip d id r ni]. cbn in *. destruct p as [|[|p]]; [right; auto|left; reflexivity|lia].
  - apply IH. intros b Hb. apply (F b Hb).
Qed.
Lemma link_kept s s' from to : s_vs s' = mark to (mark from (s_vs s)) -> fits s from -> fits s to -> Forall2 kept (s_vs s) (s_vs s').
Proof.
  intros E F1 F2. rewrite E. eapply kepts_trans; [apply mark_kept, F1|]. change (mark from (s_vs s)) with (s_vs (with_vs (mark from (s_vs s)) s)). apply mark_kept.
  apply (kepts_fits s); [cbn; apply mark_kept, F1|exact F2].
Qed.

Lemma filter_all {A} (f : A -> bool) l : (forall x, In x l -> f x = true) -> filter f l = l.
Proof. induction l as [|x l IH]; intros H; [reflexivity|]. cbn. rewrite (H x (or_introl eq_refl)). f_equal. apply IH. intros y Hy. apply H. right. exact Hy. Qed.
Lemma kepts_app_split u v w : Forall2 kept (u ++ v) w -> exists u' v', w = u' ++ v' /\ Forall2 kept u u' /\ Forall2 kept v v'.
Proof. intros H. apply Forall2_app_inv_l in H as (u' & v' & H1 & H2 & ->). eauto. Qed.

Definition cut (c1 c2 : bedge) (es : list bedge) : list bedge := filter (fun e => negb (be_handle e =? be_handle c2)%nat) (filter (fun e => negb (be_handle e =? be_handle c1)%nat) es).
(** One pass of the loop. *)
Lemma oc_step t cnt s c1 c2 r bt : inv s -> nth_error (s_vs s) t = Some bt -> outputs t s = c1 :: c2 :: r ->
  outcome_of (dup_step t cnt) s (fun _ s' => (exists b, copier b /\ bv_name b = dup_name (bv_name bt) cnt /\ Forall2 kept (s_vs s ++ [b]) (s_vs s')) /\
      (exists id id1 id2, s_es s' = cut c1 c2 (s_es s) ++ [unit_edge (s_next s) t (length (s_vs s)) id; unit_edge (S (s_next s)) (length (s_vs s)) (be_dst c1) id1; unit_edge (S (S (s_next s))) (length (s_vs s)) (be_dst c2) id2]) /\
      s_readonly s' = false /\ inv s')
    (s_readonly s = true \/ ~ fresh s (dup_name (bv_name bt) cnt) \/ ~ fits s t \/ ~ fits s (be_dst c1) \/ ~ fits s (be_dst c2)).
Proof.
  intros I Et Eo. set (n := length (s_vs s)). assert (Ht : (t < n)%nat) by (apply nth_error_Some; congruence).
  assert (I1 : In c1 (s_es s) /\ be_src c1 = t) by (assert (J : In c1 (outputs t s)) by (rewrite Eo; left; reflexivity); apply filter_In in J as [J1 J2]; apply Nat.eqb_eq in J2; auto).
  assert (I2 : In c2 (s_es s) /\ be_src c2 = t) by (assert (J : In c2 (outputs t s)) by (rewrite Eo; right; left; reflexivity); apply filter_In in J as [J1 J2]; apply Nat.eqb_eq in J2; auto).
  destruct I1 as [I1 S1], I2 as [I2 S2]. pose proof (proj2 (inv_ends s I c1 I1)) as D1. pose proof (proj2 (inv_ends s I c2 I2)) as D2. fold n in D1, D2.
  pose proof (inv_next s I c1 I1) as H1. pose proof (inv_next s I c2 I2) as H2.
  assert (H12 : be_handle c1 <> be_handle c2).
  { pose proof (inv_handles s I) as ND. assert (ND' : NoDup (map be_handle (outputs t s))).
    { clear - ND. unfold outputs. induction (s_es s) as [|e l IH]; cbn in *; [constructor|]. inversion ND as [|? ? A B]; subst. destruct (be_src e =? t)%nat; [|auto]. cbn. constructor; [|auto]. intros J. apply A. apply in_map_iff in J as (x & <- & Jx). apply in_map. apply filter_In in Jx. tauto. }
    rewrite Eo in ND'. cbn in ND'. inversion ND' as [|? ? A _]; subst. intros Q. apply A. left. auto. }
  unfold dup_step. eapply oc_bind with (post := fun b s' => b = bt /\ s' = s) (failure := False); [unfold outcome_of, get_v; rewrite Et; auto|intros []|]. intros ? ? [-> ->].
  eapply oc_bind; [apply oc_add_dup, I|tauto|]. intros d s1 ((-> & (b & V1 & Cb & Nb) & E1 & N1 & R1) & J1). fold n.
  assert (L1 : length (s_vs s1) = S n) by (rewrite V1, app_length; cbn; unfold n; lia).
  assert (F1 : forall w, (w < n)%nat -> fits s w -> fits s1 w) by (intros w Hw Fw x Hx; rewrite V1, nth_error_app1 in Hx by exact Hw; apply (Fw x Hx)).
  assert (Fd : fits s1 n) by (intros x Hx; rewrite V1 in Hx; unfold n in Hx; rewrite nth_error_last in Hx; injection Hx as <-; destruct Cb as (Q & _); lia).
  eapply oc_bind; [apply oc_link; [exact J1|lia|lia]| |].
  { intros [Q|[Q|Q]]; [congruence| |tauto]. right. right. left. intros F. apply Q. auto. }
  intros h s2 ((-> & V2 & N2 & R2 & G1 & G2 & id & E2) & J2). pose proof (link_kept _ _ _ _ V2 G1 G2) as K2.
  eapply oc_bind with (post := fun x s' => x = s2 /\ s' = s2) (failure := False); [unfold outcome_of; cbn; auto|intros []|]. intros ? ? [-> ->].
  assert (Eo2 : outputs t s2 = c1 :: c2 :: r ++ [unit_edge (s_next s1) t n id]) by (unfold outputs; rewrite E2, E1, filter_app; fold (outputs t s); rewrite Eo; cbn; rewrite Nat.eqb_refl; reflexivity).
  rewrite Eo2. assert (L2 : length (s_vs s2) = S n) by (rewrite (kepts_length _ _ K2); exact L1).
  eapply oc_bind; [apply oc_link; [exact J2|lia|lia]| |].
  { intros [Q|[Q|Q]]; [congruence| |].
    - destruct Q. apply (kepts_fits s1); assumption.
    - right. right. right. left. intros F. apply Q. apply (kepts_fits s1); [assumption|auto]. }
  intros h s3 ((-> & V3 & N3 & R3 & G3 & G4 & id1 & E3) & J3). pose proof (link_kept _ _ _ _ V3 G3 G4) as K3. assert (L3 : length (s_vs s3) = S n) by (rewrite (kepts_length _ _ K3); exact L2).
  eapply oc_bind; [apply oc_link; [exact J3|lia|lia]| |].
  { intros [Q|[Q|Q]]; [congruence| |].
    - destruct Q. apply (kepts_fits s2); assumption.
    - right. right. right. right. intros F. apply Q. apply (kepts_fits s2); [assumption|]. apply (kepts_fits s1); [assumption|auto]. }
  intros h s4 ((-> & V4 & N4 & R4 & G5 & G6 & id2 & E4) & J4). pose proof (link_kept _ _ _ _ V4 G5 G6) as K4.
  rewrite E3, E2, E1, <- !app_assoc in E4. cbn [app] in E4. rewrite N3, N2, N1 in E4.
  eapply oc_bind; [apply oc_pres; [apply inv_remove_edge|exact J4|apply oc_remove_edge; exists c1; split; [rewrite E4; apply in_or_app; auto|reflexivity]]|congruence|].
  intros _ s5 ((V5 & E5 & N5 & R5) & J5). rewrite E4, filter_app in E5.
  rewrite (filter_all _ [_; _; _]) in E5 by (intros x [<-|[<-|[<-|[]]]]; cbn [unit_edge be_handle]; apply negb_true_iff, Nat.eqb_neq; lia).
  eapply oc_weaken; [apply oc_pres; [apply inv_remove_edge|exact J5|apply oc_remove_edge; exists c2; split; [|reflexivity]]| |congruence].
  - rewrite E5. apply in_or_app. left. apply filter_In. split; [exact I2|]. apply negb_true_iff, Nat.eqb_neq. auto.
  - intros _ s6 ((V6 & E6 & N6 & R6) & J6). split; [|split; [|auto]].
    + exists b. split; [exact Cb|]. split; [exact Nb|]. rewrite V6, V5, <- V1. eapply kepts_trans; [exact K2|]. eapply kepts_trans; [exact K3|exact K4].
    + exists id, id1, id2. rewrite E6, E5, filter_app. rewrite (filter_all _ [_; _; _]) by (intros x [<-|[<-|[<-|[]]]]; cbn [unit_edge be_handle]; apply negb_true_iff, Nat.eqb_neq; lia). reflexivity.
Qed.
