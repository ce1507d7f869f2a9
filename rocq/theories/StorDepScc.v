(** The search by components lists the channels on cycles of dependencies. *)
From Coq Require Import QArith Permutation.
From Verif Require Import Base Graph Scc SccProofs Sim SimProofs StorDep StorDepSpec.
Open Scope Z_scope.

Lemma dep_in d u v : dep d u v = true <-> In (u, v) d.
Proof.
  unfold dep. rewrite existsb_exists. split.
  - intros ([x y] & H & E). unfold pair_eqb in E. cbn in E. apply andb_true_iff in E as [E1 E2]. apply Z.eqb_eq in E1, E2. subst. exact H.
  - intros H. exists (u, v). split; [exact H|]. unfold pair_eqb. cbn. now rewrite !Z.eqb_refl.
Qed.
Lemma chain_app d u l v l' w : chain d u l v -> chain d v l' w -> chain d u (l ++ l') w.
Proof. revert u. induction l as [|x l IH]; cbn; intros u; [intros ->; auto|]. intros [H C] C'. split; auto. Qed.
Lemma waits_refl d u : waits d u u.
Proof. exists []. reflexivity. Qed.
Lemma waits_trans d u v w : waits d u v -> waits d v w -> waits d u w.
Proof. intros [l C] [l' C']. exists (l ++ l'). eapply chain_app; eauto. Qed.
Lemma waits_one d u v : In (u, v) d -> waits d u v.
Proof. intros H. exists [v]. split; [exact H|reflexivity]. Qed.

Section Scc.
Variables (g : graph) (d : depgraph).
Hypothesis TD : task_deps g d.
Notation V := (ids g).
Definition douts (x : Z) : list Z := filter (fun k => dep d x k) (keys V).
Definition dins (x : Z) : list Z := filter (fun k => dep d k x) (keys V).
Lemma douts_in u v : In v (douts u) <-> In (u, v) d.
Proof.
  unfold douts. rewrite filter_In, keys_in, dep_in. split; [tauto|]. intros H. split; [|exact H]. apply (TD u v H).
Qed.
Lemma dins_in u v : In u (dins v) <-> In (u, v) d.
Proof.
  unfold dins. rewrite filter_In, keys_in, dep_in. split; [tauto|]. intros H. split; [|exact H]. apply (TD u v H).
Qed.
Definition left_to (vis : list Z) : nat := length (filter (fun x => negb (visited vis x)) V).
Lemma left_incl vis vis' : (forall x, In x vis -> In x vis') -> (left_to vis' <= left_to vis)%nat.
Proof. apply (todo_incl g). Qed.
Lemma left_cons vis x : In x V -> ~ In x vis -> (left_to (x :: vis) < left_to vis)%nat.
Proof. apply (todo_cons g). Qed.
Lemma left_bound vis : (left_to vis <= length (vertices g))%nat.
Proof. apply (todo_bound g). Qed.

Lemma each_key_stack fuel ks :
  (forall x vis acc, In x V -> (left_to vis < fuel)%nat -> exists vis' N, dep_stack fuel g d x (vis, acc) = Ok (vis', N ++ acc) /\ Dfs douts vis [x] vis' N) ->
  (forall x, In x ks -> In x V) ->
  forall vis acc, (left_to vis < fuel)%nat -> exists vis' N, each_key (dep_stack fuel g d) ks (vis, acc) = Ok (vis', N ++ acc) /\ Dfs douts vis ks vis' N.
Proof.
  intros H. induction ks as [|x ks IH]; intros Hk vis acc F; [exists vis, []; split; [reflexivity|constructor]|].
  cbn [each_key]. destruct (H x vis acc (Hk x (or_introl eq_refl)) F) as (v1 & N1 & E1 & D1). rewrite E1. cbn [bind].
  destruct (IH (fun y Hy => Hk y (or_intror Hy)) v1 (N1 ++ acc)) as (v2 & N2 & E2 & D2).
  { eapply Nat.le_lt_trans; [|exact F]. apply left_incl. intros y Hy. eapply dfs_grows; eauto. }
  exists v2, (N2 ++ N1). rewrite E2, app_assoc. split; [reflexivity|]. exact (dfs_app _ _ [x] _ _ ks _ _ D1 D2).
Qed.
Lemma dep_stack_run fuel : forall x vis acc, In x V -> (left_to vis < fuel)%nat ->
  exists vis' N, dep_stack fuel g d x (vis, acc) = Ok (vis', N ++ acc) /\ Dfs douts vis [x] vis' N.
Proof.
  induction fuel as [|fuel IH]; intros x vis acc Hx F; [lia|]. cbn [dep_stack fst snd]. destruct (visited vis x) eqn:Ev.
  - exists vis, []. split; [reflexivity|]. apply D_seen; [apply visited_spec; exact Ev|constructor].
  - apply visited_false in Ev. fold (douts x). pose proof (left_cons vis x Hx Ev) as L.
    destruct (each_key_stack fuel (douts x) IH) with (vis := x :: vis) (acc := acc) as (v1 & N1 & E1 & D1); [|lia|].
    { intros y Hy. apply douts_in in Hy. apply (TD _ _ Hy). }
    rewrite E1. cbn [bind fst snd]. exists v1, ([] ++ x :: N1). split; [reflexivity|]. econstructor; [exact Ev|exact D1|constructor].
Qed.
Lemma each_key_transpose fuel ks :
  (forall x vis acc, In x V -> (left_to vis < fuel)%nat -> exists vis' N P, dep_transpose fuel g d x (vis, acc) = Ok (vis', acc ++ P) /\ Dfs dins vis [x] vis' N /\ Permutation P N) ->
  (forall x, In x ks -> In x V) ->
  forall vis acc, (left_to vis < fuel)%nat -> exists vis' N P, each_key (dep_transpose fuel g d) ks (vis, acc) = Ok (vis', acc ++ P) /\ Dfs dins vis ks vis' N /\ Permutation P N.
Proof.
  intros H. induction ks as [|x ks IH]; intros Hk vis acc F; [exists vis, [], []; rewrite app_nil_r; split; [reflexivity|split; constructor]|].
  cbn [each_key]. destruct (H x vis acc (Hk x (or_introl eq_refl)) F) as (v1 & N1 & P1 & E1 & D1 & Q1). rewrite E1. cbn [bind].
  destruct (IH (fun y Hy => Hk y (or_intror Hy)) v1 (acc ++ P1)) as (v2 & N2 & P2 & E2 & D2 & Q2).
  { eapply Nat.le_lt_trans; [|exact F]. apply left_incl. intros y Hy. eapply dfs_grows; eauto. }
  exists v2, (N2 ++ N1), (P1 ++ P2). rewrite E2, <- app_assoc. split; [reflexivity|]. split; [exact (dfs_app _ _ [x] _ _ ks _ _ D1 D2)|].
  rewrite Q1, Q2. apply Permutation_app_comm.
Qed.
Lemma dep_transpose_run fuel : forall x vis acc, In x V -> (left_to vis < fuel)%nat ->
  exists vis' N P, dep_transpose fuel g d x (vis, acc) = Ok (vis', acc ++ P) /\ Dfs dins vis [x] vis' N /\ Permutation P N.
Proof.
  induction fuel as [|fuel IH]; intros x vis acc Hx F; [lia|]. cbn [dep_transpose fst snd]. destruct (visited vis x) eqn:Ev.
  - exists vis, [], []. rewrite app_nil_r. split; [reflexivity|]. split; [|constructor]. apply D_seen; [apply visited_spec; exact Ev|constructor].
  - apply visited_false in Ev. fold (dins x). pose proof (left_cons vis x Hx Ev) as L.
    destruct (each_key_transpose fuel (dins x) IH) with (vis := x :: vis) (acc := acc ++ [x]) as (v1 & N1 & P1 & E1 & D1 & Q1); [|lia|].
    { intros y Hy. apply dins_in in Hy. apply (TD _ _ Hy). }
    rewrite E1. exists v1, ([] ++ x :: N1), (x :: P1). rewrite <- app_assoc. split; [reflexivity|]. split; [econstructor; [exact Ev|exact D1|constructor]|].
    cbn. constructor. exact Q1.
Qed.
Lemma dep_stack_loop_run fuel ks : (length (vertices g) < fuel)%nat -> (forall x, In x ks -> In x V) ->
  forall vis acc, exists vis' N, dep_stack_loop fuel g d ks (vis, acc) = Ok (vis', N ++ acc) /\ Dfs douts vis ks vis' N.
Proof.
  intros F. induction ks as [|x ks IH]; intros Hi vis acc; [exists vis, []; split; [reflexivity|constructor]|].
  cbn [dep_stack_loop fst]. destruct (visited vis x) eqn:Ev.
  - destruct (IH (fun y H => Hi y (or_intror H)) vis acc) as (v1 & N1 & E1 & D1). exists v1, N1. split; [exact E1|]. apply D_seen; [apply visited_spec; exact Ev|exact D1].
  - destruct (dep_stack_run fuel x vis acc (Hi x (or_introl eq_refl))) as (v1 & N1 & E1 & D1); [pose proof (left_bound vis); lia|]. rewrite E1. cbn [bind].
    destruct (IH (fun y H => Hi y (or_intror H)) v1 (N1 ++ acc)) as (v2 & N2 & E2 & D2). exists v2, (N2 ++ N1). rewrite E2, app_assoc. split; [reflexivity|].
    exact (dfs_app _ _ [x] _ _ ks _ _ D1 D2).
Qed.

Lemma path_waits u v : path douts [] u v <-> waits d u v.
Proof.
  split.
  - induction 1 as [x _|x y z _ H _ [l IH]]; [apply waits_refl|]. exists (y :: l). split; [apply douts_in; exact H|exact IH].
  - intros [l W]. revert u W. induction l as [|w l IH]; cbn; intros u W; [subst; constructor; auto|]. destruct W as [A W]. econstructor; [auto|apply douts_in; exact A|auto].
Qed.
Lemma path_dins A u v : path dins A u v -> waits d v u.
Proof.
  induction 1 as [x _|x y z _ H _ IH]; [apply waits_refl|]. eapply waits_trans; [exact IH|]. apply waits_one. apply dins_in. exact H.
Qed.
Lemma waits_dins A u v : (forall w, waits d u w -> waits d w v -> ~ In w A) -> waits d u v -> path dins A v u.
Proof.
  intros HA [l W]. revert u HA W. induction l as [|w l IH]; cbn; intros u HA W.
  - subst. constructor. apply HA; apply waits_refl.
  - destruct W as [Ar W]. pose proof (waits_one _ _ _ Ar) as R.
    eapply path_trans; [apply (IH w)|].
    + intros x Hx Hv. apply HA; [eapply waits_trans; eauto|exact Hv].
    + exact W.
    + econstructor; [|apply dins_in; exact Ar|constructor].
      * apply HA; [exact R|exists l; exact W].
      * apply HA; [apply waits_refl|eapply waits_trans; [exact R|exists l; exact W]].
Qed.
Lemma waits_task u v : In u V -> waits d u v -> In v V.
Proof.
  intros Hu [l W]. revert u Hu W. induction l as [|w l IH]; cbn; intros u Hu W; [congruence|]. destruct W as [H W].
  apply (IH w); [|exact W]. apply (TD _ _ H).
Qed.
Lemma waits_task_r u v : In v V -> waits d u v -> In u V.
Proof. intros Hv [l W]. destruct l as [|w l]; cbn in W; [congruence|]. apply (TD _ _ (proj1 W)). Qed.
Definition tied (u v : Z) : Prop := waits d u v /\ waits d v u.
Lemma tied_trans u v w : tied u v -> tied v w -> tied u w.
Proof. intros [H1 H2] [H3 H4]. split; eapply waits_trans; eauto. Qed.

Lemma dep_component_loop_run fuel (L : list Z) : (length (vertices g) < fuel)%nat -> NoDup L ->
  (forall u, In u V <-> In u L) -> ordered douts [] L ->
  forall stack pre vis, L = pre ++ stack -> (forall u, In u pre -> In u vis) -> (forall u, In u vis -> In u V) ->
    (forall u v, In u vis -> tied u v -> In v vis) ->
  exists comps, dep_component_loop fuel g d stack vis = Ok comps /\
    (forall c u v, In c comps -> In u c -> (In v c <-> tied u v)) /\
    (forall u, In u V -> ~ In u vis -> exists c, In c comps /\ In u c).
Proof.
  intros F UL HL O. induction stack as [|x stack IH]; intros pre vis EL Hp Ht Hc.
  - exists []. split; [reflexivity|]. split; [intros c u v []|]. intros u H N. apply HL in H. rewrite EL, app_nil_r in H. destruct (N (Hp u H)).
  - cbn [dep_component_loop]. destruct (visited vis x) eqn:Ev.
    + apply (IH (pre ++ [x]) vis); auto; [rewrite EL, <- app_assoc; reflexivity|]. intros u Hu. apply in_app_iff in Hu as [Hu|[<-|[]]]; [auto|apply visited_spec; exact Ev].
    + apply visited_false in Ev. assert (Hx : In x V) by (apply HL; rewrite EL; apply in_app_iff; right; left; reflexivity).
      destruct (dep_transpose_run fuel x vis [] Hx) as (v1 & N & P & E1 & D & Q); [pose proof (left_bound vis); lia|].
      rewrite E1. cbn [bind fst snd app].
      assert (C : forall w, In w P <-> tied x w).
      { intros w. rewrite Q. rewrite (dfs_exact _ _ _ _ _ D). split.
        - intros (x' & [<-|[]] & Pa). pose proof (path_end _ _ _ _ Pa) as Nw. apply path_dins in Pa as Rw. split; [|exact Rw].
          assert (Hw : In w V) by (eapply waits_task_r; eauto).
          destruct (O w x) as [R|(h & Ah & R1 & R2)].
          + apply HL. exact Hw.
          + apply HL. exact Hx.
          + apply path_waits. exact Rw.
          + apply path_waits. exact R.
          + exfalso. apply path_waits in R1, R2. destruct Ah as (l1 & l2 & El & Hh & Hxl).
            apply Nw. apply (Hc h w); [|split; assumption].
            apply Hp. apply (before_in l1 l2 pre stack h x); auto; [congruence|rewrite <- El; exact UL].
        - intros [R1 R2]. exists x. split; [left; reflexivity|]. apply waits_dins; [|exact R2]. intros y Hy1 Hy2 Hv.
          apply Ev. apply (Hc y x Hv). split; [exact Hy2|]. eapply waits_trans; eauto. }
      assert (EV : forall u, In u v1 <-> In u P \/ In u vis) by (intros u; rewrite Q; apply (dfs_vis _ _ _ _ _ D)).
      assert (TP : forall u, In u P -> In u V) by (intros u Hu; apply C in Hu as [Hu _]; exact (waits_task x u Hx Hu)).
      destruct (IH (pre ++ [x]) v1) as (comps & E2 & G & Cov).
      * rewrite EL, <- app_assoc. reflexivity.
      * intros u Hu. apply EV. apply in_app_iff in Hu as [Hu|[<-|[]]]; auto. left. apply C. split; apply waits_refl.
      * intros u Hu. apply EV in Hu as [Hu|Hu]; auto.
      * intros u v Hu Huv. apply EV. apply EV in Hu as [Hu|Hu]; [left|right; eauto]. apply C. apply C in Hu. eapply tied_trans; eauto.
      * rewrite E2. cbn [bind]. exists (P :: comps). split; [reflexivity|]. split.
        -- intros c u v [<-|Hc'] Hu; [|eauto]. apply C in Hu. rewrite C. split; intros Hv; [eapply tied_trans; [|exact Hv]|eapply tied_trans; eauto].
           destruct Hu; split; assumption.
        -- intros u Hu Nu. destruct (in_dec Z.eq_dec u P) as [HP|NP]; [exists P; split; [left; reflexivity|exact HP]|].
           destruct (Cov u Hu) as (c & H1 & H2); [rewrite EV; tauto|]. exists c. split; [right; exact H1|exact H2].
Qed.

Lemma storage_deps_scc_run fuel : (length (vertices g) < fuel)%nat ->
  (forall c, In c (edges g) -> In (vid g (e_src c)) V /\ In (vid g (e_dst c)) V) ->
  exists r, storage_deps_scc fuel g d = Ok r /\ forall k, In k r <-> on_cycle g d k.
Proof.
  intros F HE. unfold storage_deps_scc.
  destruct (dep_stack_loop_run fuel (keys V) F) with (vis := @nil Z) (acc := @nil Z) as (v1 & N & E & D).
  { intros x Hx. apply (proj1 (keys_in _ _)) in Hx. exact Hx. }
  rewrite E. cbn [bind snd]. rewrite app_nil_r.
  assert (HL : forall u, In u V <-> In u N).
  { intros u. split.
    - intros Hu. apply (proj2 (keys_in _ _)) in Hu. pose proof (dfs_targets _ _ _ _ _ D u Hu) as H. apply (dfs_vis _ _ _ _ _ D) in H as [H|[]]; exact H.
    - intros Hu. destruct (dfs_reached _ _ _ _ _ D u Hu) as (x & Hx & Pa). apply path_waits in Pa. apply (proj1 (keys_in _ _)) in Hx. exact (waits_task x u Hx Pa). }
  destruct (dep_component_loop_run fuel N F) with (stack := N) (pre := @nil Z) (vis := @nil Z) as (comps & E2 & G & Cov); auto.
  - exact (proj2 (dfs_new _ _ _ _ _ D)).
  - exact (dfs_ordered _ _ _ _ _ D).
  - intros u [].
  - rewrite E2. cbn [bind]. exists (scc_channels g d comps). split; [reflexivity|].
    intros k. unfold scc_channels, on_cycle. rewrite in_map_iff. split.
    + intros ([k' c] & <- & H). apply filter_In in H as [H1 H2]. cbn [fst snd] in *. exists c. split; [apply in_numbered; exact H1|].
      apply andb_true_iff in H2 as [H2 H3]. apply dep_in in H2. split; [exact H2|]. apply existsb_exists in H3 as (cc & Hcc & H3).
      apply andb_true_iff in H3 as [H3 H4]. apply visited_spec in H3, H4. apply (G cc _ _ Hcc H4) in H3. exact (proj1 H3).
    + intros (c & Ek & H1 & H2). exists (k, c). split; [reflexivity|]. apply filter_In. split; [apply in_numbered; exact Ek|]. cbn [snd].
      apply andb_true_iff. split; [apply dep_in; exact H1|]. apply existsb_exists.
      destruct (Cov (vid g (e_src c))) as (cc & Hcc & Hu); [apply HE; eapply nth_error_In; eauto|auto|].
      exists cc. split; [exact Hcc|]. apply andb_true_iff. split; apply visited_spec; [exact Hu|].
      apply (G cc _ _ Hcc Hu). split; [apply waits_one; exact H1|exact H2].
Qed.
End Scc.

Lemma scc_channels_nodup g d comps : NoDup (scc_channels g d comps).
Proof.
  unfold scc_channels. match goal with |- NoDup (map fst (filter ?f _)) => set (h := f) end. unfold numbered.
  generalize 0%nat. induction (edges g) as [|c l IH]; intros n; [constructor|]. cbn [length seq combine filter].
  destruct (h (n, c)); [|apply IH]. cbn [map fst]. constructor; [|apply IH].
  intros H. apply in_map_iff in H. destruct H as ([k e] & E & H). cbn in E. subst k. apply filter_In in H. destruct H as [H _].
  apply in_combine_l in H. apply in_seq in H. lia.
Qed.
