(** Proofs about the LTE generator. *)
From Coq Require Import QArith Ascii String.
From Verif Require Import Base Commons Graph Builder BuilderSpec BuilderProofs BuilderFinal SingleOutput SingleOutputProofs SingleOutputLoop Lte LteSpec.
Open Scope Z_scope.

Notation hist := (history_of checked_call false).
Definition ok {A} (m : M A) (s : state) (post : A -> state -> Prop) : Prop := match m s with Done a s' => post a s' | _ => False end.
Lemma ok_bind {A B} (m : M A) (f : A -> M B) s (post : A -> state -> Prop) (post' : B -> state -> Prop) :
  ok m s post -> (forall a s', post a s' -> ok (f a) s' post') -> ok (mbind m f) s post'.
Proof. unfold ok, mbind. intros H P. destruct (m s); [|destruct H|destruct H]. apply P, H. Qed.
Lemma ok_call (m : M unit) c s (post : unit -> state -> Prop) : exec c = m -> checked_call s c -> hist s -> ok m s post -> ok m s (fun a s' => post a s' /\ hist s').
Proof. unfold ok. intros E C H P. destruct (m s) as [[] s'|s'|] eqn:Em; [|destruct P|destruct P]. split; [exact P|]. eapply ho_accepted; [exact H|exact C|]. rewrite E. exact Em. Qed.
Lemma ok_quiet {A} (m : M A) c s (post : A -> state -> Prop) : exec c = quiet m -> checked_call s c -> hist s -> ok m s post -> ok m s (fun a s' => post a s' /\ hist s').
Proof.
  unfold ok. intros E C H P. destruct (m s) as [a s'|s'|] eqn:Em; [|destruct P|destruct P]. split; [exact P|]. eapply ho_accepted; [exact H|exact C|]. rewrite E. unfold quiet, mbind. rewrite Em. reflexivity.
Qed.
Lemma ok_outcome {A} (m : M A) s post (failure : Prop) : ~ failure -> outcome_of m s post failure -> ok m s post.
Proof. unfold ok, outcome_of. intros N H. destruct (m s); [exact H|destruct (N H)|exact H]. Qed.

Definition open_ (s : state) : Prop := s_readonly s = false /\ hist s.
Lemma hist_inv s : hist s -> inv s.
Proof. intros H. apply any_history_inv. eapply history_of_any; eauto. Qed.

(** * Tasks *)
Lemma ok_add_vertex s : open_ s -> ok add_vertex_auto s (fun v s' => v = length (s_vs s) /\ (exists id, s_vs s' = s_vs s ++ [bv_set_id id new_vertex]) /\ s_es s' = s_es s /\ open_ s').
Proof.
  intros [R H]. pose proof (ok_outcome _ s _ (s_readonly s = true) ltac:(congruence) (oc_add_vertex s (hist_inv s H))) as K. apply (ok_quiet _ AddVertex s _ eq_refl I H) in K.
  unfold ok in *. destruct (add_vertex_auto s); auto. destruct K as ((V & Id & E & _ & R') & H'). unfold open_. auto.
Qed.
Lemma ok_name l b nm s : open_ s -> s_vs s = l ++ [b] -> bv_name b = ""%string -> nm <> ""%string -> (forall x, In x l -> bv_name x <> nm) ->
  ok (set_vertex_name (length l) nm) s (fun _ s' => s_vs s' = l ++ [bv_set_name nm b] /\ s_es s' = s_es s /\ open_ s').
Proof.
  intros [R H] V Nb Nn Fr.
  assert (K : ok (set_vertex_name (length l) nm) s (fun _ s' => s_vs s' = l ++ [bv_set_name nm b] /\ s_es s' = s_es s /\ s_readonly s' = false)).
  { unfold ok, set_vertex_name, begin_change, writable, mbind. rewrite R. cbn [reset_computation modify]. destruct (String.eqb_spec nm "") as [Q|_]; [destruct (Nn Q)|]. cbn [negb check ret get].
    assert (F : vertex_by_name (with_flags false false false s) nm = None).
    { unfold vertex_by_name. cbn [with_flags s_vs]. rewrite V. destruct (find_index _ _) as [k|] eqn:F; [|reflexivity]. apply find_index_some in F as (l1 & x & l2 & Ex & _ & Fx & _). apply String.eqb_eq in Fx.
      assert (Ix : In x (l ++ [b])) by (rewrite Ex; apply in_elt). apply in_app_iff in Ix as [Ix|[<-|[]]]; [exact (False_ind _ (Fr x Ix Fx))|congruence]. }
    rewrite F. cbn [ret]. unfold put_v, mbind, get_v, modify. cbn [with_flags s_vs]. rewrite V, nth_error_last. cbn [with_vs s_vs s_es s_readonly with_flags]. rewrite V, update_nth_last. auto. }
  apply (ok_call _ (SetVertexName (length l) nm) s _ eq_refl I H) in K. cbn [exec] in K. unfold ok in *. destruct (set_vertex_name (length l) nm s); auto. destruct K as ((V' & E' & R') & H'). unfold open_. auto.
Qed.
Lemma ok_phases l b n s : open_ s -> s_vs s = l ++ [b] -> ok (set_phases (length l) n) s (fun _ s' => s_vs s' = l ++ [bv_set_phases n b] /\ s_es s' = s_es s /\ open_ s').
Proof.
  intros [R H] V.
  assert (K : ok (set_phases (length l) n) s (fun _ s' => s_vs s' = l ++ [bv_set_phases n b] /\ s_es s' = s_es s /\ s_readonly s' = false)).
  { unfold ok, set_phases, begin_change, writable, mbind. rewrite R. cbn [reset_computation modify]. unfold put_v, mbind, get_v, modify. cbn [with_flags s_vs]. rewrite V, nth_error_last. cbn [with_vs s_vs s_es s_readonly with_flags]. rewrite V, update_nth_last. auto. }
  apply (ok_call _ (SetPhases (length l) n) s _ eq_refl I H) in K. cbn [exec] in K. unfold ok in *. destruct (set_phases (length l) n s); auto. destruct K as ((V' & E' & R') & H'). unfold open_. auto.
Qed.
Lemma ok_durations l b q s : open_ s -> s_vs s = l ++ [b] -> bv_phases b = 1%nat -> ok (set_durations (length l) [q]) s (fun _ s' => s_vs s' = l ++ [bv_set_durations [q] b] /\ s_es s' = s_es s /\ open_ s').
Proof.
  intros [R H] V P.
  assert (K : ok (set_durations (length l) [q]) s (fun _ s' => s_vs s' = l ++ [bv_set_durations [q] b] /\ s_es s' = s_es s /\ s_readonly s' = false)).
  { unfold ok, set_durations, begin_change, writable, mbind. rewrite R. cbn [reset_computation modify]. unfold get_v. cbn [with_flags s_vs]. rewrite V, nth_error_last, P. cbn [length Nat.eqb check ret].
    unfold put_v, mbind, get_v, modify. cbn [with_flags s_vs]. rewrite V, nth_error_last. cbn [with_vs s_vs s_es s_readonly with_flags]. rewrite V, update_nth_last. auto. }
  apply (ok_call _ (SetDurations (length l) [q]) s _ eq_refl I H) in K. cbn [exec] in K. unfold ok in *. destruct (set_durations (length l) [q] s); auto. destruct K as ((V' & E' & R') & H'). unfold open_. auto.
Qed.
Lemma ok_reentrancy l b r s : open_ s -> s_vs s = l ++ [b] -> ok (set_reentrancy (length l) r) s (fun _ s' => s_vs s' = l ++ [bv_set_reentrancy r b] /\ s_es s' = s_es s /\ open_ s').
Proof.
  intros [R H] V.
  assert (K : ok (set_reentrancy (length l) r) s (fun _ s' => s_vs s' = l ++ [bv_set_reentrancy r b] /\ s_es s' = s_es s /\ s_readonly s' = false)).
  { unfold ok, set_reentrancy, begin_change, writable, mbind. rewrite R. cbn [reset_computation modify]. unfold put_v, mbind, get_v, modify. cbn [with_flags s_vs]. rewrite V, nth_error_last. cbn [with_vs s_vs s_es s_readonly with_flags]. rewrite V, update_nth_last. auto. }
  apply (ok_call _ (SetReentrancy (length l) r) s _ eq_refl I H) in K. cbn [exec] in K. unfold ok in *. destruct (set_reentrancy (length l) r s); auto. destruct K as ((V' & E' & R') & H'). unfold open_. auto.
Qed.

Lemma task_name_some n j : task_name n j <> ""%string.
Proof. unfold task_name. destruct n; discriminate. Qed.
Lemma task_name_inj n k k' : task_name n k = task_name n k' -> k = k'.
Proof. unfold task_name. intros E. apply append_inj in E. apply (append_inj "_"%string) in E. apply (f_equal (number 0)) in E. rewrite !digits_number in E by lia. exact E. Qed.

Lemma ok_add_task ph j s : open_ s -> (forall x, In x (s_vs s) -> bv_name x <> task_name (ph_name ph) j) ->
  ok (add_task ph j) s (fun id s' => (exists b, s_vs s' = s_vs s ++ [b] /\ bv_id b = id /\ task_shape b = (task_name (ph_name ph) j, 1%nat, 0%nat, [ph_time ph], [], 1)) /\ s_es s' = s_es s /\ open_ s').
Proof.
  intros O Fr. unfold add_task. eapply ok_bind; [apply ok_add_vertex, O|]. intros v s1 (-> & (id & V1) & E1 & O1).
  eapply ok_bind with (post := fun b s' => b = bv_set_id id new_vertex /\ s' = s1). { unfold ok, get_v. rewrite V1, nth_error_last. auto. }
  intros b ? [-> ->]. eapply ok_bind; [apply (ok_name _ _ _ _ O1 V1 eq_refl (task_name_some _ _) Fr)|]. intros _ s2 (V2 & E2 & O2).
  eapply ok_bind; [apply (ok_phases _ _ _ _ O2 V2)|]. intros _ s3 (V3 & E3 & O3).
  eapply ok_bind; [apply (ok_durations _ _ _ _ O3 V3 eq_refl)|]. intros _ s4 (V4 & E4 & O4).
  eapply ok_bind; [apply (ok_reentrancy _ _ _ _ O4 V4)|]. intros _ s5 (V5 & E5 & O5).
  unfold ok, ret. split; [|split; [congruence|exact O5]]. eexists. split; [exact V5|]. split; reflexivity.
Qed.
(** What a loop that adds tasks has done. *)
Definition added {A} (shapes : list A) (shape : bvertex -> A) (s : state) (ids : list Z) (s' : state) : Prop :=
  exists new, s_vs s' = s_vs s ++ new /\ map bv_id new = ids /\ map shape new = shapes /\ s_es s' = s_es s /\ open_ s'.
Lemma ok_tasks ph : forall n k s, open_ s -> (forall x j, In x (s_vs s) -> (k <= j)%nat -> bv_name x <> task_name (ph_name ph) j) ->
  ok (collect (add_task ph) (seq k n)) s (added (map (fun j => (task_name (ph_name ph) j, 1%nat, 0%nat, [ph_time ph], @nil Q, 1)) (seq k n)) task_shape s).
Proof.
  induction n as [|n IH]; intros k s O Fr; cbn [seq collect map].
  { unfold ok, ret. exists []. rewrite app_nil_r. auto. }
  eapply ok_bind; [apply ok_add_task; [exact O|intros x Hx; apply Fr; [exact Hx|lia]]|]. intros id s1 ((b & V1 & Ib & Sb) & E1 & O1).
  eapply ok_bind; [apply (IH (S k) s1 O1)|].
  - intros x j Hx Hj. rewrite V1 in Hx. apply in_app_iff in Hx as [Hx|[<-|[]]]; [apply Fr; [exact Hx|lia]|]. unfold task_shape in Sb. injection Sb as Nb _ _ _ _ _. rewrite Nb. intros Q. apply task_name_inj in Q. lia.
  - intros ids s2 (new & V2 & I2 & S2 & E2 & O2). unfold ok, ret. exists (b :: new). split; [rewrite V2, V1, <- app_assoc; reflexivity|]. split; [cbn; congruence|]. split; [cbn; congruence|]. split; [congruence|exact O2].
Qed.

(** Tasks of different phases have different names. *)
Fixpoint apart_names (phs : list phase_info) : Prop :=
  match phs with
  | [] => True
  | p :: r => (forall q j k, In q r -> task_name (ph_name p) j <> task_name (ph_name q) k) /\ apart_names r
  end.
(** What the whole first loop has done: the identifiers of each phase. *)
Lemma ok_phase_loop phs : forall s, open_ s -> apart_names phs -> (forall x q j, In x (s_vs s) -> In q phs -> bv_name x <> task_name (ph_name q) j) ->
  ok (collect add_phase phs) s (fun ids s' => added (flat_map tasks_of phs) task_shape s (concat ids) s' /\ map (@length Z) ids = map size phs).
Proof.
  induction phs as [|ph phs IH]; intros s O A Fr; cbn [collect flat_map].
  { unfold ok, ret. split; [exists []; rewrite app_nil_r; auto|reflexivity]. }
  destruct A as [A1 A2]. eapply ok_bind; [apply (ok_tasks ph (Z.to_nat (ph_thds ph)) 0 s O); intros x j Hx _; apply Fr; [exact Hx|left; reflexivity]|].
  intros ids s1 (new & V1 & I1 & S1 & E1 & O1). eapply ok_bind; [apply (IH s1 O1 A2)|].
  - intros x q j Hx Hq. rewrite V1 in Hx. apply in_app_iff in Hx as [Hx|Hx]; [apply Fr; [exact Hx|right; exact Hq]|].
    assert (Hs : In (task_shape x) (map task_shape new)) by (apply in_map, Hx). rewrite S1 in Hs. apply in_map_iff in Hs as (i & Ei & _). unfold task_shape in Ei. injection Ei as Ni _ _ _ _ _. rewrite <- Ni. apply A1, Hq.
  - intros idss s2 ((new2 & V2 & I2 & S2 & E2 & O2) & L2). unfold ok, ret. split.
    + exists (new ++ new2). split; [rewrite V2, V1, <- app_assoc; reflexivity|]. split; [rewrite map_app, I1, I2; reflexivity|]. split; [rewrite map_app, S1, S2; reflexivity|]. split; [congruence|exact O2].
    + cbn. f_equal; [|exact L2]. rewrite <- I1, map_length, <- (map_length task_shape), S1, map_length, seq_length. reflexivity.
Qed.

(** * Channels *)
Definition named_by_id (s : state) : Prop := forall e, In e (s_es s) -> be_name e = channel_name (be_id e).
Lemma channel_name_inj i j : 0 < i -> 0 < j -> channel_name i = channel_name j -> i = j.
Proof. unfold channel_name. intros Hi Hj E. apply (append_inj "channel_"%string) in E. apply (f_equal (number 0)) in E. rewrite !digits_number in E by lia. cbn [number] in E. lia. Qed.

Lemma ok_edge_name l e nm s : open_ s -> s_es s = l ++ [e] -> (forall x, In x l -> be_handle x <> be_handle e) -> be_name e = ""%string -> nm <> ""%string -> (forall x, In x l -> be_name x <> nm) ->
  ok (set_edge_name (be_handle e) nm) s (fun _ s' => s_vs s' = s_vs s /\ s_es s' = l ++ [be_set_name nm e] /\ open_ s').
Proof.
  intros [R H] E Hl Ne Nn Fr.
  assert (K : ok (set_edge_name (be_handle e) nm) s (fun _ s' => s_vs s' = s_vs s /\ s_es s' = l ++ [be_set_name nm e] /\ s_readonly s' = false)).
  { unfold ok, set_edge_name, begin_change, writable, mbind. rewrite R. cbn [reset_computation modify]. destruct (String.eqb_spec nm "") as [Q|_]; [destruct (Nn Q)|]. cbn [negb check ret get].
    assert (F : edge_by_name (with_flags false false false s) nm = None).
    { unfold edge_by_name. cbn [with_flags s_es]. rewrite E. destruct (find _ _) as [x|] eqn:F; [|reflexivity]. apply find_some in F as [Ix Fx]. apply String.eqb_eq in Fx. apply in_app_iff in Ix as [Ix|[<-|[]]]; [exact (False_ind _ (Fr x Ix Fx))|congruence]. }
    rewrite F. cbn [ret]. unfold put_e, mbind, get_e, modify. cbn [with_flags s_es]. rewrite E, find_e_last by auto. cbn [with_es s_vs s_es s_readonly with_flags]. rewrite E, map_handle_last by auto. auto. }
  apply (ok_call _ (SetEdgeName (be_handle e) nm) s _ eq_refl I H) in K. cbn [exec] in K. unfold ok in *. destruct (set_edge_name (be_handle e) nm s); auto. destruct K as ((V' & E' & R') & H'). unfold open_. auto.
Qed.
Definition simple (s : state) : Prop := forall b, In b (s_vs s) -> bv_phases b = 1%nat.
Lemma simple_mark l v : (forall b, In b l -> bv_phases b = 1%nat) -> update_nth v (bv_set_phases 1) l = l.
Proof.
  revert v. induction l as [|b l IH]; intros [|v] H; try reflexivity.
  - cbn. f_equal. specialize (H b (or_introl eq_refl)). destruct b; cbn [Builder.bv_phases] in H; rewrite H; reflexivity.
  - cbn. f_equal. apply IH. intros x Hx. apply H. right; exact Hx.
Qed.
Lemma ok_edge_in l e p s : open_ s -> simple s -> s_es s = l ++ [e] -> (forall x, In x l -> be_handle x <> be_handle e) -> (be_src e < length (s_vs s))%nat ->
  ok (set_edge_in (be_handle e) [p]) s (fun _ s' => s_vs s' = s_vs s /\ s_es s' = l ++ [be_set_in [p] (accumulate_int [p]) e] /\ open_ s').
Proof.
  intros [R H] Si E Hl Hv.
  assert (K : ok (set_edge_in (be_handle e) [p]) s (fun _ s' => s_vs s' = s_vs s /\ s_es s' = l ++ [be_set_in [p] (accumulate_int [p]) e] /\ s_readonly s' = false)).
  { unfold ok, set_edge_in, begin_change, writable, mbind at 1 2. rewrite R. cbn [reset_computation modify]. unfold mbind at 1, put_e, mbind at 1, get_e at 1, modify. cbn [with_flags s_es]. rewrite E, find_e_last by auto.
    unfold mbind at 1, get_e. cbn [with_es s_es with_flags]. rewrite E, map_handle_last by auto. rewrite find_e_last by auto. cbn [be_set_in be_src]. unfold mbind at 1, get_v. cbn [with_es s_vs with_flags].
    destruct (nth_error (s_vs s) (be_src e)) as [b|] eqn:Eb; [|apply nth_error_None in Eb; lia]. rewrite (Si b (nth_error_In _ _ Eb)). cbn [length Nat.eqb orb check]. unfold mbind at 1. cbn [ret].
    unfold set_phases, begin_change, writable, mbind. cbn [with_es with_flags s_readonly]. cbn [reset_computation modify]. unfold put_v, mbind, get_v, modify. cbn [with_es with_flags s_vs]. rewrite Eb. cbn [with_vs with_es with_flags s_vs s_es s_readonly].
    rewrite simple_mark by exact Si. auto. }
  apply (ok_call _ (SetEdgeIn (be_handle e) [p]) s _ eq_refl I H) in K. cbn [exec] in K. unfold ok in *. destruct (set_edge_in (be_handle e) [p] s); auto. destruct K as ((V' & E' & R') & H'). unfold open_. auto.
Qed.
Lemma ok_edge_out l e p s : open_ s -> simple s -> s_es s = l ++ [e] -> (forall x, In x l -> be_handle x <> be_handle e) -> (be_dst e < length (s_vs s))%nat ->
  ok (set_edge_out (be_handle e) [p]) s (fun _ s' => s_vs s' = s_vs s /\ s_es s' = l ++ [be_set_out [p] (accumulate_int [p]) e] /\ open_ s').
Proof.
  intros [R H] Si E Hl Hv.
  assert (K : ok (set_edge_out (be_handle e) [p]) s (fun _ s' => s_vs s' = s_vs s /\ s_es s' = l ++ [be_set_out [p] (accumulate_int [p]) e] /\ s_readonly s' = false)).
  { unfold ok, set_edge_out, begin_change, writable, mbind at 1 2. rewrite R. cbn [reset_computation modify]. unfold mbind at 1, put_e, mbind at 1, get_e at 1, modify. cbn [with_flags s_es]. rewrite E, find_e_last by auto.
    unfold mbind at 1, get_e. cbn [with_es s_es with_flags]. rewrite E, map_handle_last by auto. rewrite find_e_last by auto. cbn [be_set_out be_dst]. unfold mbind at 1, get_v. cbn [with_es s_vs with_flags].
    destruct (nth_error (s_vs s) (be_dst e)) as [b|] eqn:Eb; [|apply nth_error_None in Eb; lia]. rewrite (Si b (nth_error_In _ _ Eb)). cbn [length Nat.eqb orb check]. unfold mbind at 1. cbn [ret].
    unfold set_phases, begin_change, writable, mbind. cbn [with_es with_flags s_readonly]. cbn [reset_computation modify]. unfold put_v, mbind, get_v, modify. cbn [with_es with_flags s_vs]. rewrite Eb. cbn [with_vs with_es with_flags s_vs s_es s_readonly].
    rewrite simple_mark by exact Si. auto. }
  apply (ok_call _ (SetEdgeOut (be_handle e) [p]) s _ eq_refl I H) in K. cbn [exec] in K. unfold ok in *. destruct (set_edge_out (be_handle e) [p] s); auto. destruct K as ((V' & E' & R') & H'). unfold open_. auto.
Qed.
Lemma ok_preload l e p s : open_ s -> s_es s = l ++ [e] -> (forall x, In x l -> be_handle x <> be_handle e) ->
  ok (set_preload (be_handle e) p) s (fun _ s' => s_vs s' = s_vs s /\ s_es s' = l ++ [be_set_preload p e] /\ open_ s').
Proof.
  intros [R H] E Hl.
  assert (K : ok (set_preload (be_handle e) p) s (fun _ s' => s_vs s' = s_vs s /\ s_es s' = l ++ [be_set_preload p e] /\ s_readonly s' = false)).
  { unfold ok, set_preload, writable, mbind. rewrite R. unfold put_e, mbind, get_e, modify. rewrite E, find_e_last by auto. cbn [with_es s_vs s_es s_readonly]. rewrite E, map_handle_last by auto. auto. }
  apply (ok_call _ (SetPreload (be_handle e) p) s _ eq_refl I H) in K. cbn [exec] in K. unfold ok in *. destruct (set_preload (be_handle e) p s); auto. destruct K as ((V' & E' & R') & H'). unfold open_. auto.
Qed.

Lemma ok_channel p a b src dst s : open_ s -> simple s -> named_by_id s -> nth_error (map bv_id (s_vs s)) a = Some src -> nth_error (map bv_id (s_vs s)) b = Some dst ->
  ok (add_channel p src dst) s (fun _ s' => s_vs s' = s_vs s /\ (exists e, s_es s' = s_es s ++ [e] /\ channel_shape e = wire p a b) /\ named_by_id s' /\ open_ s').
Proof.
  intros O Si Nm Ea Eb. pose proof O as [R H]. pose proof (hist_inv s H) as Iv. destruct (ids_unique s H) as (_ & _ & _ & U & _).
  rewrite nth_error_map in Ea, Eb. destruct (nth_error (s_vs s) a) as [ba|] eqn:Va; [|discriminate]. destruct (nth_error (s_vs s) b) as [bb|] eqn:Vb; [|discriminate]. injection Ea as <-. injection Eb as <-.
  assert (La : (a < length (s_vs s))%nat) by (apply nth_error_Some; congruence). assert (Lb : (b < length (s_vs s))%nat) by (apply nth_error_Some; congruence).
  unfold add_channel. eapply ok_bind with (post := fun x s' => x = s /\ s' = s); [unfold ok; cbn; auto|]. intros ? ? [-> ->]. rewrite (U a ba Va), (U b bb Vb).
  pose proof (ok_outcome _ s _ (s_readonly s = true) ltac:(congruence) (oc_add_edge a b s Iv La Lb)) as K1. apply (ok_quiet (add_edge_auto a b) (AddEdge a b) s _ eq_refl I H) in K1.
  eapply ok_bind; [exact K1|]. clear K1. intros h s1 ((-> & V1 & _ & R1 & id & E1) & H1).
  assert (O1 : open_ s1) by (split; assumption).
  assert (Hl : forall x, In x (s_es s) -> be_handle x <> s_next s) by (intros x Hx; pose proof (inv_next s Iv x Hx); lia).
  set (e := be_set_id id (new_edge (s_next s) a b)) in *.
  eapply ok_bind with (post := fun x s' => x = e /\ s' = s1); [unfold ok, get_e; rewrite E1, find_e_last by (auto; exact Hl); auto|]. intros ? ? [-> ->].
  assert (Pos : 0 < id /\ forall x, In x (s_es s) -> be_name x <> channel_name id).
  { destruct (ids_unique s1 H1) as (_ & D & P & _). rewrite E1 in D, P. assert (Pi : 0 < id) by (apply (P e), in_elt). split; [exact Pi|]. intros x Hx Q. rewrite (Nm x Hx) in Q. apply channel_name_inj in Q; [|apply (P x), in_or_app; left; exact Hx|exact Pi].
    rewrite map_app in D. cbn [map] in D. apply NoDup_remove_2 in D. apply D. rewrite app_nil_r. change (be_id e) with id. rewrite <- Q. apply in_map, Hx. }
  destruct Pos as [Pi Fr]. change (s_next s) with (be_handle e).
  eapply ok_bind; [apply (ok_edge_name (s_es s) e (channel_name id) s1 O1 E1 Hl eq_refl); [discriminate|exact Fr]|]. intros _ s2 (V2 & E2 & O2).
  assert (S2 : simple s2) by (intros x Hx; rewrite V2, V1 in Hx; apply Si, Hx).
  eapply ok_bind; [apply (ok_edge_in (s_es s) (be_set_name (channel_name id) e) p s2 O2 S2 E2 Hl); rewrite V2, V1; exact La|]. intros _ s3 (V3 & E3 & O3).
  assert (S3 : simple s3) by (intros x Hx; rewrite V3 in Hx; apply S2, Hx).
  eapply ok_bind; [apply (ok_edge_out (s_es s) (be_set_in [p] (accumulate_int [p]) (be_set_name (channel_name id) e)) p s3 O3 S3 E3 Hl); rewrite V3, V2, V1; exact Lb|]. intros _ s4 (V4 & E4 & O4).
  pose proof (ok_preload (s_es s) (be_set_out [p] (accumulate_int [p]) (be_set_in [p] (accumulate_int [p]) (be_set_name (channel_name id) e))) 0 s4 O4 E4 Hl) as K.
  change (be_handle (be_set_out [p] (accumulate_int [p]) (be_set_in [p] (accumulate_int [p]) (be_set_name (channel_name id) e)))) with (be_handle e) in K.
  unfold ok in *. destruct (set_preload (be_handle e) 0 s4) as [[] s5|s5|]; auto. destruct K as (V5 & E5 & O5). split; [congruence|]. split; [|split; [|exact O5]].
  - eexists. split; [exact E5|]. reflexivity.
  - intros x Hx. rewrite E5 in Hx. apply in_app_iff in Hx as [Hx|[<-|[]]]; [apply Nm, Hx|reflexivity].
Qed.

(** What a loop that adds channels has done. *)
Definition wired {A} (shapes : list A) (shape : bedge -> A) (s : state) (s' : state) : Prop :=
  s_vs s' = s_vs s /\ (exists new, s_es s' = s_es s ++ new /\ map shape new = shapes) /\ named_by_id s' /\ open_ s'.
Definition ready (s : state) : Prop := open_ s /\ simple s /\ named_by_id s.
Lemma wired_ready {A} (l : list A) f s s' : ready s -> wired l f s s' -> ready s'.
Proof. intros (O & Si & Nm) (V & _ & Nm' & O'). split; [exact O'|]. split; [|exact Nm']. intros b Hb. rewrite V in Hb. apply Si, Hb. Qed.
Lemma wired_app {A} (l l' : list A) f s s1 s2 : wired l f s s1 -> wired l' f s1 s2 -> wired (l ++ l') f s s2.
Proof.
  intros (V & (n & E & S) & Nm & O) (V' & (n' & E' & S') & Nm' & O'). split; [congruence|]. split; [|auto]. exists (n ++ n'). split; [rewrite E', E, <- app_assoc; reflexivity|]. rewrite map_app, S, S'. reflexivity.
Qed.
Lemma wired_nil {A} (f : bedge -> A) s : ready s -> wired [] f s s.
Proof. intros (O & _ & Nm). split; [reflexivity|]. split; [exists []; rewrite app_nil_r; auto|auto]. Qed.
(** A list of identifiers found from a place on. *)
Definition at_place (s : state) (off : nat) (ids : list Z) : Prop := forall k id, nth_error ids k = Some id -> nth_error (map bv_id (s_vs s)) (off + k) = Some id.
Lemma at_place_same s s' off ids : s_vs s' = s_vs s -> at_place s off ids -> at_place s' off ids.
Proof. unfold at_place. intros ->. auto. Qed.
Lemma at_place_tail s off i ids : at_place s off (i :: ids) -> at_place s (S off) ids.
Proof. intros H k id E. specialize (H (S k) id E). rewrite Nat.add_succ_r in H. exact H. Qed.
Lemma seq_from {A} (f : nat -> A) n : forall k, map f (seq k n) = map (fun i => f (k + i)%nat) (seq 0 n).
Proof. induction n as [|n IH]; intros k; cbn [seq map]; [reflexivity|]. rewrite Nat.add_0_r, IH. apply f_equal. rewrite <- (seq_shift n 0), map_map. apply map_ext. intros i. f_equal. lia. Qed.

Lemma ok_row p a src ids : forall off s, ready s -> nth_error (map bv_id (s_vs s)) a = Some src -> at_place s off ids ->
  ok (run_all (fun dst => add_channel p src dst) ids) s (fun _ => wired (map (fun k => wire p a k) (seq off (length ids))) channel_shape s).
Proof.
  induction ids as [|id ids IH]; intros off s Rd Ea At; cbn [run_all length seq map]; [apply wired_nil, Rd|]. destruct Rd as (O & Si & Nm).
  assert (Eb : nth_error (map bv_id (s_vs s)) off = Some id) by (specialize (At 0%nat id eq_refl); rewrite Nat.add_0_r in At; exact At).
  eapply ok_bind; [apply (ok_channel p a off src id s O Si Nm Ea Eb)|]. intros _ s1 (V1 & (e & E1 & Se) & Nm1 & O1).
  assert (W : wired [wire p a off] channel_shape s s1) by (split; [exact V1|split; [exists [e]; cbn; rewrite Se; auto|auto]]).
  pose proof (IH (S off) s1 (wired_ready _ _ _ _ (conj O (conj Si Nm)) W)) as K. rewrite V1 in K. specialize (K Ea (at_place_same s s1 _ _ V1 (at_place_tail s off id ids At))).
  unfold ok in *. destruct (run_all _ ids s1) as [[] s2|s2|]; auto. apply (wired_app [_] _ _ _ _ _ W K).
Qed.
Lemma ok_join p from to offt : forall off s, ready s -> at_place s off from -> at_place s offt to ->
  ok (join p from to) s (fun _ => wired (flat_map (fun j => map (fun k => wire p j k) (seq offt (length to))) (seq off (length from))) channel_shape s).
Proof.
  unfold join. induction from as [|src from IH]; intros off s Rd Af At; cbn [run_all length seq flat_map]; [apply wired_nil, Rd|].
  assert (Ea : nth_error (map bv_id (s_vs s)) off = Some src) by (specialize (Af 0%nat src eq_refl); rewrite Nat.add_0_r in Af; exact Af).
  eapply ok_bind; [apply (ok_row p off src to offt s Rd Ea At)|]. cbn beta. intros _ s1 W.
  pose proof W as (V1 & _). pose proof (IH (S off) s1 (wired_ready _ _ _ _ Rd W) (at_place_same s s1 _ _ V1 (at_place_tail s off src from Af)) (at_place_same s s1 _ _ V1 At)) as K.
  unfold ok in *. destruct (run_all _ from s1) as [[] s2|s2|]; auto. apply (wired_app _ _ _ _ _ _ W K).
Qed.
Lemma at_place_app s off l l' : at_place s off (l ++ l') -> at_place s off l /\ at_place s (off + length l) l'.
Proof.
  intros H. split; intros k id E.
  - apply H. rewrite nth_error_app1; [exact E|]. apply nth_error_Some. congruence.
  - rewrite <- Nat.add_assoc. apply H. rewrite nth_error_app2 by lia. rewrite <- E. f_equal. lia.
Qed.
Lemma flat_map_seq {A} (f : nat -> list A) n : forall k, flat_map f (seq k n) = flat_map (fun i => f (k + i)%nat) (seq 0 n).
Proof. induction n as [|n IH]; intros k; cbn [seq flat_map]; [reflexivity|]. rewrite Nat.add_0_r, IH. apply f_equal. rewrite !flat_map_concat_map. rewrite <- (seq_shift n 0), map_map. apply f_equal. apply map_ext. intros i. f_equal. lia. Qed.

Lemma ok_join_all phs : forall ids off s, ready s -> map (@length Z) ids = map size phs -> at_place s off (concat ids) ->
  ok (join_all phs ids) s (fun _ => wired (channels_of off phs) channel_shape s).
Proof.
  induction phs as [|p phs IH]; intros ids off s Rd L At; [apply wired_nil, Rd|]. destruct ids as [|from ids]; [discriminate|]. injection L as Lp L.
  destruct phs as [|q phs]; [destruct ids; [apply wired_nil, Rd|discriminate]|]. destruct ids as [|to ids]; [discriminate|]. pose proof L as L'. injection L' as Lq _.
  cbn [concat] in At. apply at_place_app in At as [Af At]. change (concat (to :: ids)) with (to ++ concat ids) in IH. pose proof (proj1 (at_place_app _ _ to (concat ids) At)) as Ato.
  change (join_all (p :: q :: phs) (from :: to :: ids)) with (mbind (join (ph_pkts p) from to) (fun _ => join_all (q :: phs) (to :: ids))).
  eapply ok_bind; [apply (ok_join (ph_pkts p) from to (off + length from)%nat off s Rd Af Ato)|]. cbn beta. intros _ s1 W. pose proof W as (V1 & _).
  pose proof (IH (to :: ids) (off + length from)%nat s1 (wired_ready _ _ _ _ Rd W) L (at_place_same s s1 _ _ V1 At)) as K.
  unfold ok in *. destruct (join_all (q :: phs) (to :: ids) s1) as [[] s2|s2|]; auto.
  pose proof (wired_app _ _ _ _ _ _ W K) as W2. rewrite Lp, Lq, flat_map_seq in W2. rewrite (flat_map_ext _ (fun j => map (fun k => wire (ph_pkts p) (off + j) (off + size p + k)) (seq 0 (size q)))) in W2; [exact W2|].
  intros j. apply seq_from.
Qed.
