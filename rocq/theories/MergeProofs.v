(** The merged graph and the original one. *)
From Coq Require Import QArith Lqa ZifyBool ZifyNat.
From Verif Require Import Base Graph EventGraph ScheduleSpec ScheduleCore KPeriodicProofs KPeriodicEnd Merge MergeSeq MergeCore.
Open Scope Z_scope.

(** ** Collecting the tasks *)
Lemma info_of_good g N ts id x : info_of g N ts id = Ok x -> good_info g N ts x /\ mi_id x = id.
Proof.
  unfold info_of. destruct (find_pos g id) as [i|] eqn:F; [|discriminate]. destruct (nth_error (vertices g) i) as [v|] eqn:V; [|discriminate].
  destruct (nth_error ts i) as [t|] eqn:T; [|discriminate]. destruct (negb (v_init_phases v =? 0)%nat) eqn:E1; [discriminate|].
  destruct (negb (0 <? N i)) eqn:E2; [discriminate|]. destruct (_ && _) eqn:E3; [|discriminate]. intros H. injection H as <-.
  unfold find_pos in F. apply find_some in F. destruct F as [_ F]. rewrite V in F. split; [|reflexivity].
  exists v, t. cbn. repeat (split; [first [assumption|reflexivity|lia]|]). lia.
Qed.
Lemma insert_info_in x l y : In y (insert_info x l) <-> y = x \/ In y l.
Proof.
  induction l as [|z l IH]; cbn; [intuition|]. destruct (mi_id x <? mi_id z); cbn; [intuition|]. rewrite IH. intuition.
Qed.
Lemma insert_info_nodup x l : ~ In (mi_id x) (map mi_id l) -> NoDup (map mi_id l) -> NoDup (map mi_id (insert_info x l)).
Proof.
  induction l as [|z l IH]; cbn; intros H ND; [constructor; [auto|constructor]|]. destruct (mi_id x <? mi_id z); cbn; [constructor; assumption|].
  inversion ND as [|a b H1 H2]; subst. constructor; [|apply IH; [intuition|assumption]]. rewrite in_map_iff. intros (y & E & I). apply insert_info_in in I. destruct I as [->|I]; [apply H; left; congruence|].
  apply H1. rewrite <- E. apply in_map, I.
Qed.
Lemma collect_infos_good g N ts : forall nodes acc infos, collect_infos g N ts nodes acc = Ok infos ->
  (forall x, In x acc -> good_info g N ts x) -> NoDup (map mi_id acc) ->
  (forall x, In x infos -> good_info g N ts x) /\ NoDup (map mi_id infos) /\ (forall i, In i (map mi_id infos) <-> In i nodes \/ In i (map mi_id acc)).
Proof.
  induction nodes as [|id rest IH]; intros acc infos H G ND; cbn in H.
  - injection H as <-. split; [assumption|]. split; [assumption|]. intros i. cbn. intuition.
  - destruct (info_of g N ts id) as [x| | |] eqn:E; try discriminate. cbn in H. destruct (existsb _ acc) eqn:X; [discriminate|].
    apply info_of_good in E. destruct E as [Gx Ix]. apply IH in H.
    + destruct H as (A & B & C). split; [assumption|]. split; [assumption|]. intros i. rewrite C. cbn. rewrite !in_map_iff. split.
      * intros [I|(y & Ey & I)]; [auto|]. apply insert_info_in in I. destruct I as [->|I]; [left; left; congruence|]. right. exists y. auto.
      * intros [[<-|I]|(y & Ey & I)]; [|auto|]; right; [exists x; split; [assumption|apply insert_info_in; auto]|exists y; split; [assumption|apply insert_info_in; auto]].
    + intros y I. apply insert_info_in in I. destruct I as [->|I]; auto.
    + apply insert_info_nodup; [|assumption]. rewrite in_map_iff. intros (y & Ey & I). assert (existsb (fun y => mi_id y =? id) acc = true); [|congruence].
      apply existsb_exists. exists y. split; [assumption|]. lia.
Qed.
Lemma good_pos_inj g N ts x y : good_info g N ts x -> good_info g N ts y -> mi_pos x = mi_pos y -> mi_id x = mi_id y.
Proof. intros (v & t & V & _ & I & _) (v' & t' & V' & _ & I' & _) E. rewrite E in V. congruence. Qed.

(** ** Positions after the removal *)
Lemma kept_nth (p : nat -> bool) : forall (vs : list vertex) a i, (i < length vs)%nat -> p (a + i)%nat = true ->
  nth_error (map snd (filter (fun iv : nat * vertex => p (fst iv)) (combine (seq a (length vs)) vs))) (length (filter p (seq a i))) = nth_error vs i.
Proof.
  induction vs as [|v vs IH]; intros a i L H; cbn in L; [lia|]. cbn [length seq combine filter]. destruct i as [|i]; cbn [seq filter length].
  - rewrite Nat.add_0_r in H. cbn [fst]. rewrite H. reflexivity.
  - specialize (IH (S a) i ltac:(lia)). rewrite Nat.add_succ_comm in IH. specialize (IH H). cbn [fst]. destruct (p a); cbn [map length nth_error snd]; exact IH.
Qed.
Lemma kept_length (p : nat -> bool) : forall (vs : list vertex) a,
  length (map snd (filter (fun iv : nat * vertex => p (fst iv)) (combine (seq a (length vs)) vs))) = length (filter p (seq a (length vs))).
Proof.
  induction vs as [|v vs IH]; intros a; cbn; [reflexivity|]. specialize (IH (S a)). destruct (p a); cbn; rewrite IH; reflexivity.
Qed.
Lemma kept_in (p : nat -> bool) : forall (vs : list vertex) a v,
  In v (map snd (filter (fun iv : nat * vertex => p (fst iv)) (combine (seq a (length vs)) vs))) -> In v vs.
Proof.
  intros vs a v I. apply in_map_iff in I. destruct I as ((i & w) & <- & I). apply filter_In in I. destruct I as [I _]. apply in_combine_r in I. exact I.
Qed.

Lemma filter_seq_nth (p : nat -> bool) : forall n a i, (i < n)%nat -> p (a + i)%nat = true -> nth_error (filter p (seq a n)) (length (filter p (seq a i))) = Some (a + i)%nat.
Proof.
  induction n as [|n IH]; intros a i L H; [lia|]. cbn [seq filter]. destruct i as [|i]; cbn [seq filter length].
  - rewrite Nat.add_0_r in *. rewrite H. reflexivity.
  - specialize (IH (S a) i ltac:(lia)). rewrite Nat.add_succ_comm in IH. specialize (IH H). destruct (p a); cbn [length nth_error]; exact IH.
Qed.

(** ** The edges of the merged graph *)
Lemma collect_edges_spec f : forall cs es, collect_edges f cs = Ok es ->
  (forall c, In c cs -> exists c', f c = Ok c' /\ In c' es) /\ (forall c', In c' es -> exists c, In c cs /\ f c = Ok c').
Proof.
  induction cs as [|c cs IH]; intros es H; cbn in H.
  - injection H as <-. split; [intros c []|intros c []].
  - destruct (f c) as [x| | |] eqn:E; try discriminate. cbn in H. destruct (collect_edges f cs) as [xs| | |]; try discriminate. injection H as <-.
    destruct (IH xs eq_refl) as [A B]. split.
    + intros d [<-|I]; [exists x; split; [assumption|left; reflexivity]|]. destruct (A d I) as (d' & F & G). exists d'. split; [assumption|right; assumption].
    + intros d [<-|I]; [exists c; split; [left; reflexivity|assumption]|]. destruct (B d I) as (d' & F & G). exists d'. split; [right; assumption|assumption].
Qed.
Lemma collect_edges_ok f : forall cs, (forall c, In c cs -> exists c', f c = Ok c') -> exists es, collect_edges f cs = Ok es.
Proof.
  induction cs as [|c cs IH]; intros H; cbn; [eauto|]. destruct (H c (or_introl eq_refl)) as (c' & ->). cbn. destruct IH as (es & ->); [intros d I; apply H; right; assumption|]. cbn. eauto.
Qed.
Lemma task_edges_spec g infos f side : forall xs k es, task_edges g infos f side xs k = Ok es ->
  (forall j x c, nth_error xs j = Some x -> In c (edges g) -> side c = mi_pos x -> external infos c = true -> exists c', f (k + j)%nat c = Ok c' /\ In c' es) /\
  (forall c', In c' es -> exists j x c, nth_error xs j = Some x /\ In c (edges g) /\ side c = mi_pos x /\ external infos c = true /\ f (k + j)%nat c = Ok c').
Proof.
  induction xs as [|x xs IH]; intros k es H; cbn in H.
  - injection H as <-. split; [intros [|j] x c E; discriminate|intros c []].
  - set (cs := filter (fun c => (side c =? mi_pos x)%nat) (edges g)) in *. destruct (collect_edges (f k) cs) as [all| | |]; try discriminate. cbn in H.
    destruct (collect_edges (f k) (filter (external infos) cs)) as [own| | |] eqn:Eo; try discriminate. cbn in H.
    destruct (task_edges g infos f side xs (S k)) as [more| | |] eqn:Em; try discriminate. injection H as <-.
    apply collect_edges_spec in Eo. destruct Eo as [O1 O2]. destruct (IH _ _ Em) as [M1 M2]. split.
    + intros [|j] y c Hy I Sd X; cbn in Hy.
      * injection Hy as <-. destruct (O1 c) as (c' & F & G). { apply filter_In. split; [|assumption]. apply filter_In. split; [assumption|]. apply Nat.eqb_eq, Sd. }
        exists c'. rewrite Nat.add_0_r. split; [assumption|apply in_or_app; auto].
      * destruct (M1 j y c Hy I Sd X) as (c' & F & G). exists c'. rewrite <- Nat.add_succ_comm. split; [assumption|apply in_or_app; auto].
    + intros c' I. apply in_app_or in I. destruct I as [I|I].
      * destruct (O2 c' I) as (c & J & F). apply filter_In in J. destruct J as [J X]. apply filter_In in J. destruct J as [J Sd]. apply Nat.eqb_eq in Sd.
        exists 0%nat, x, c. rewrite Nat.add_0_r. auto.
      * destruct (M2 c' I) as (j & y & c & Hy & J & Sd & X & F). exists (S j), y, c. rewrite <- Nat.add_succ_comm. auto 6.
Qed.
Lemma task_edges_ok g infos f side : forall xs k,
  (forall j x c, nth_error xs j = Some x -> In c (edges g) -> side c = mi_pos x -> exists c', f (k + j)%nat c = Ok c') ->
  exists es, task_edges g infos f side xs k = Ok es.
Proof.
  induction xs as [|x xs IH]; intros k H; cbn; [eauto|].
  assert (A : forall c, In c (filter (fun c => (side c =? mi_pos x)%nat) (edges g)) -> exists c', f k c = Ok c').
  { intros c I. apply filter_In in I. destruct I as [I Sd]. apply Nat.eqb_eq in Sd. destruct (H 0%nat x c eq_refl I Sd) as (c' & E). rewrite Nat.add_0_r in E. eauto. }
  destruct (collect_edges_ok _ _ A) as (all & ->). cbn.
  destruct (collect_edges_ok (f k) (filter (external infos) (filter (fun c => (side c =? mi_pos x)%nat) (edges g)))) as (own & ->); [intros c I; apply filter_In in I; apply A, I|]. cbn.
  destruct (IH (S k)) as (more & ->); [|cbn; eauto]. intros j y c Hy I Sd. destruct (H (S j) y c Hy I Sd) as (c' & E). rewrite <- Nat.add_succ_comm in E. eauto.
Qed.

Section G.
Variables (g : graph) (N : nat -> Z) (ts : list task_schedule) (infos : list info) (l : list exec) (init : nat) (mid : Z) (ins outs : list edge).
Hypothesis WF : graph_wf g.
Hypothesis Good : forall x, In x infos -> good_info g N ts x.
Hypothesis ND : NoDup (map mi_id infos).
Hypothesis R : run_ok infos l.
Hypothesis Lt : (init < length l)%nat.
Hypothesis Ins : task_edges g infos (input_edge g infos l init) e_dst infos 0 = Ok ins.
Hypothesis Outs : task_edges g infos (output_edge g infos l init) e_src infos 0 = Ok outs.
Variables (gc f : Z).
Hypothesis Gc : 0 < gc.
Hypothesis Fpos : 0 < f.
Hypothesis Wper : forall k x, nth_error infos k = Some x -> gc * Z.of_nat (per_count l init k) = f * mi_ni x.
Hypothesis Wdiv : forall k x, nth_error infos k = Some x -> exists u, (per_count l init k = u * mi_phases x)%nat.
Hypothesis Bal : balanced g N.
Notation M := (length (kept g infos)).
Definition durs : list Q := map (exec_time infos) l.
Definition middle : vertex := mkVertex mid (length l - init) init (skipn init durs) (firstn init durs) 1.
Definition g' : graph := mkGraph (kept g infos ++ [middle]) (untouched g infos ++ ins ++ outs).

Lemma infos_good k x : nth_error infos k = Some x -> good_info g N ts x.
Proof. intros H. apply Good, (nth_error_In _ _ H). Qed.
Lemma infos_inj k k' x x' : nth_error infos k = Some x -> nth_error infos k' = Some x' -> mi_pos x = mi_pos x' -> k = k'.
Proof.
  intros H H' E. pose proof (good_pos_inj g N ts x x' (infos_good k x H) (infos_good k' x' H') E) as I.
  apply (proj1 (NoDup_nth_error (map mi_id infos)) ND); [rewrite map_length; apply nth_error_Some; congruence|]. rewrite !nth_error_map, H, H'. cbn. congruence.
Qed.
Lemma per_pos k x : nth_error infos k = Some x -> (0 < per_count l init k)%nat.
Proof. intros H. pose proof (Wper k x H). destruct (infos_good k x H) as (v & t & _ & _ & _ & _ & _ & P & _). nia. Qed.

(** Rank of a merged vertex in the map. *)
Definition rank (i : nat) : option nat :=
  find (fun k => match nth_error infos k with Some x => (mi_pos x =? i)%nat | None => false end) (seq 0 (length infos)).
Lemma rank_some i k : rank i = Some k -> exists x, nth_error infos k = Some x /\ mi_pos x = i.
Proof. unfold rank. intros H. apply find_some in H. destruct H as [_ H]. destruct (nth_error infos k) as [x|]; [|discriminate]. apply Nat.eqb_eq in H. eauto. Qed.
Lemma rank_of k x : nth_error infos k = Some x -> rank (mi_pos x) = Some k.
Proof.
  intros H. destruct (rank (mi_pos x)) as [k'|] eqn:E.
  - destruct (rank_some _ _ E) as (x' & H' & E'). f_equal. symmetry. apply (infos_inj k k' x x' H H'). congruence.
  - exfalso. unfold rank in E. assert (X := find_none _ _ E k). cbv beta in X. rewrite H, Nat.eqb_refl in X. assert (true = false); [|discriminate]. apply X, in_seq.
    assert (k < length infos)%nat by (apply nth_error_Some; congruence). lia.
Qed.
Lemma merged_rank i : is_merged infos i = true <-> exists k x, nth_error infos k = Some x /\ mi_pos x = i.
Proof.
  unfold is_merged. rewrite existsb_exists. split.
  - intros (x & I & E). apply Nat.eqb_eq in E. apply In_nth_error in I. destruct I as (k & H). eauto.
  - intros (k & x & H & E). exists x. split; [apply (nth_error_In _ _ H)|]. apply Nat.eqb_eq, E.
Qed.
Lemma rank_none i : is_merged infos i = false -> rank i = None.
Proof.
  intros H. destruct (rank i) as [k|] eqn:E; [|reflexivity]. apply rank_some in E. destruct E as (x & A & B).
  assert (is_merged infos i = true); [|congruence]. apply merged_rank. eauto.
Qed.

(** The schedule of the original graph read off one of the merged graph. *)
Definition unmerge (s' : schedule) : schedule := fun i c =>
  match rank i with Some k => s' M (pos l init k c) | None => s' (new_pos infos i) c end.

Lemma new_vertex i v : nth_error (vertices g) i = Some v -> is_merged infos i = false -> nth_error (vertices g') (new_pos infos i) = Some v.
Proof.
  intros V H. assert (L : (i < length (vertices g))%nat) by (apply nth_error_Some; congruence).
  pose proof (kept_nth (fun j => negb (is_merged infos j)) (vertices g) 0 i L) as K. cbn [Nat.add] in K. rewrite H in K. specialize (K eq_refl). fold (kept g infos) in K. fold (new_pos infos i) in K.
  cbn [g' vertices]. rewrite nth_error_app1; [rewrite K; assumption|]. apply nth_error_Some. congruence.
Qed.
Lemma new_middle : nth_error (vertices g') M = Some middle.
Proof. cbn [g' vertices]. rewrite nth_error_app2, Nat.sub_diag by lia. reflexivity. Qed.

Lemma middle_duration k x v c : nth_error infos k = Some x -> nth_error (vertices g) (mi_pos x) = Some v ->
  exec_duration middle (pos l init k c) = exec_duration v c.
Proof.
  intros Hx V. destruct (infos_good k x Hx) as (v' & t & V' & _ & _ & I0 & _ & _ & Ph & Du & Ld & Pp & _). assert (v' = v) as -> by congruence.
  destruct (pos_spec l init Lt k c (per_pos k x Hx)) as [E1 E2]. unfold exec_duration, middle. cbn [v_init_durations v_durations].
  unfold durs. rewrite (duration_at infos l init R Lt x); rewrite ?E1; [|assumption|lia|rewrite Du, Ph; assumption|apply Wdiv, Hx]. rewrite E2, Du.
  assert (v_init_durations v = []) as ->; [|reflexivity]. destruct WF as [VW _]. destruct (VW v (nth_error_In _ _ V)) as (_ & _ & Li & _). rewrite I0 in Li. destruct (v_init_durations v); [reflexivity|discriminate].
Qed.

Lemma end_unmerge s' k x c : nth_error infos k = Some x ->
  end_of (unmerge s') g (mi_pos x) c = (s' M (pos l init k c) + exec_duration middle (pos l init k c))%Q.
Proof.
  intros Hx. destruct (infos_good k x Hx) as (v & t & V & _). unfold end_of, unmerge. rewrite V, (rank_of k x Hx), (middle_duration k x v c Hx V). reflexivity.
Qed.
Lemma end_kept s' i c : (i < length (vertices g))%nat -> is_merged infos i = false -> end_of (unmerge s') g i c = end_of s' g' (new_pos infos i) c.
Proof.
  intros L H. destruct (nth_error (vertices g) i) as [v|] eqn:V; [|apply nth_error_None in V; lia].
  unfold end_of, unmerge. rewrite V, (new_vertex i v V H), (rank_none i H). reflexivity.
Qed.

(** Shape of the channels of a merged task. *)
Lemma out_shape k x c : nth_error infos k = Some x -> In c (edges g) -> e_dst c = mi_pos x -> e_out_init c = [] /\ length (e_out c) = mi_phases x /\ (0 < mi_phases x)%nat.
Proof.
  intros Hx I E. destruct (infos_good k x Hx) as (v & t & V & _ & _ & I0 & _ & _ & Ph & _ & _ & Pp & _). destruct WF as (_ & EW & _).
  destruct (EW c I) as (vs & vd & _ & Vd & _ & Lo & _ & Loi & _). rewrite E in Vd. assert (vd = v) as -> by congruence. rewrite I0 in Loi.
  split; [destruct (e_out_init c); [reflexivity|discriminate]|]. lia.
Qed.
Lemma in_shape k x c : nth_error infos k = Some x -> In c (edges g) -> e_src c = mi_pos x -> e_in_init c = [] /\ length (e_in c) = mi_phases x /\ (0 < mi_phases x)%nat.
Proof.
  intros Hx I E. destruct (infos_good k x Hx) as (v & t & V & _ & _ & I0 & _ & _ & Ph & _ & _ & Pp & _). destruct WF as (_ & EW & _).
  destruct (EW c I) as (vs & vd & Vs & _ & Li & _ & Lii & _). rewrite E in Vs. assert (vs = v) as -> by congruence. rewrite I0 in Lii.
  split; [destruct (e_in_init c); [reflexivity|discriminate]|]. lia.
Qed.

Lemma never_negative_ext p e1 r1 s1 q1 e2 r2 s2 q2 : (forall m, (e1 m == e2 m)%Q) -> (forall m, r1 m = r2 m) -> (forall m, (s1 m == s2 m)%Q) -> (forall m, q1 m = q2 m) ->
  never_negative p e1 r1 s1 q1 -> never_negative p e2 r2 s2 q2.
Proof.
  intros He Hr Hs Hq NN t nc. destruct (NN t nc) as (np & H). exists np. rewrite <- (moved_by_ext e1 e2) by assumption. rewrite <- (moved_by_ext s1 s2) by assumption.
  unfold moved_by in *. rewrite (sumf_ext _ (fun m => if Qle_bool (s1 m) t then q1 m else 0)) by (intros m _; rewrite Hq; reflexivity).
  rewrite (sumf_ext (fun m => if Qle_bool (e1 m) t then r2 m else 0) (fun m => if Qle_bool (e1 m) t then r1 m else 0)) by (intros m _; rewrite Hr; reflexivity). exact H.
Qed.

Lemma phases_div k x ph : nth_error infos k = Some x -> ph = mi_phases x -> exists u, (per_count l init k = u * ph)%nat.
Proof. intros H ->. apply (Wdiv k x H). Qed.

(** The schedule the tasks were merged from. *)
Hypothesis Valid : schedule_valid g (denoted ts).
Hypothesis Dpos : forall x d, In x infos -> In d (mi_durations x) -> (0 < d)%Q.

Lemma sched_mono i v : nth_error (vertices g) i = Some v -> forall c, (denoted ts i c <= denoted ts i (S c))%Q.
Proof.
  intros V c. destruct Valid as [_ Se]. specialize (Se i v V c). unfold start_of in Se. assert (0 <= exec_duration v c)%Q; [|lra].
  destruct WF as (VW & _). destruct (VW v (nth_error_In _ _ V)) as (P & L & _ & D). unfold exec_duration.
  assert (I := cyclic_in 0%Q (v_init_durations v) (v_durations v) c ltac:(lia)). apply D. apply in_or_app. apply in_app_or in I. tauto.
Qed.
Lemma middle_nonneg s' : schedule_valid g' s' -> forall m, (0 <= exec_duration middle m)%Q.
Proof.
  intros _ m. destruct (tk_known l init Lt infos m R) as (x & Hx). pose proof (per_pos _ _ Hx) as Pk. rewrite <- (pos_cnt l init Lt m Pk).
  destruct (infos_good _ _ Hx) as (v & t & V & _). rewrite (middle_duration _ x v _ Hx V). destruct WF as (VW & _).
  destruct (VW v (nth_error_In _ _ V)) as (P & L & _ & D). unfold exec_duration. assert (I := cyclic_in 0%Q (v_init_durations v) (v_durations v) (cnt l init (tk l init m) m) ltac:(lia)).
  apply D. apply in_or_app. apply in_app_or in I. tauto.
Qed.

Lemma unmerge_channel s' c : schedule_valid g' s' -> In c (edges g) -> channel_valid g (unmerge s') c.
Proof.
  intros V' I. destruct WF as (VW & EW & _). destruct (EW c I) as (vs & vd & Vs & Vd & Li & Lo & Lii & Loi & NNr & Si & So & Pre).
  assert (Ls : (e_src c < length (vertices g))%nat) by (apply nth_error_Some; congruence). assert (Ld : (e_dst c < length (vertices g))%nat) by (apply nth_error_Some; congruence).
  destruct (is_merged infos (e_src c)) eqn:Ms; destruct (is_merged infos (e_dst c)) eqn:Md.
  - (* internal *)
    apply merged_rank in Ms. destruct Ms as (ka & xa & Ha & Ea). apply merged_rank in Md. destruct Md as (kb & xb & Hb & Eb).
    destruct (in_shape ka xa c Ha I (eq_sym Ea)) as (Ini & Lin & Pa). destruct (out_shape kb xb c Hb I (eq_sym Eb)) as (Oni & Lout & Pb).
    destruct (phases_div ka xa (length (e_in c)) Ha Lin) as (ua & Ua). destruct (phases_div kb xb (length (e_out c)) Hb Lout) as (ub & Ub).
    pose proof (infos_good _ _ Ha) as Ga. pose proof (infos_good _ _ Hb) as Gb.
    assert (BB : Z.of_nat ua * sumZ (e_in c) = Z.of_nat ub * sumZ (e_out c)).
    { pose proof (Bal c I) as B. pose proof (Wper ka xa Ha) as WA. pose proof (Wper kb xb Hb) as WB. rewrite Ua in WA. rewrite Ub in WB.
      destruct Ga as (_ & _ & _ & _ & _ & _ & Na & _). destruct Gb as (_ & _ & _ & _ & _ & _ & Nb & _). rewrite Na, Ea in WA. rewrite Nb, Eb in WB.
      set (A := sumZ (e_in c)) in *. set (Bz := sumZ (e_out c)) in *. rewrite Lin, Lout in *. rewrite !Nat2Z.inj_mul in *.
      set (pa := Z.of_nat (mi_phases xa)) in *. set (pb := Z.of_nat (mi_phases xb)) in *. assert (0 < pa) by lia. assert (0 < pb) by lia.
      assert (E : gc * pa * pb * (Z.of_nat ua * A) = gc * pa * pb * (Z.of_nat ub * Bz)).
      { transitivity (A * pb * (gc * (Z.of_nat ua * pa))); [ring|]. rewrite WA. transitivity (f * (A * N (e_src c) * pb)); [ring|]. rewrite B.
        transitivity (Bz * pa * (f * N (e_dst c))); [ring|]. rewrite <- WB. ring. }
      apply Z.mul_reg_l in E; [exact E|]. nia. }
    unfold channel_valid, prod_rate, cons_rate. rewrite Ini, Oni.
    refine (never_negative_ext _ _ _ _ _ _ _ _ _ _ (fun m => eq_refl) _ (fun m => eq_refl) (internal_channel infos l init R Lt ka kb xa xb (e_in c) (e_out c) (e_preload c)
       (denoted ts (e_src c)) (denoted ts (e_dst c)) (exec_duration vs) Ha Hb _ _ _ _ _ _ _ _ _ ua ub Ua Ub BB (s' M) (exec_duration middle) _ _ _ _ _ Pre)).
    + intros m. rewrite <- Ea. rewrite (end_unmerge s' ka xa m Ha). reflexivity.
    + intros m. unfold start_of, unmerge. rewrite <- Eb, (rank_of kb xb Hb). reflexivity.
    + intros j. rewrite (next_time_denoted _ _ _ _ j Ga), Ea. reflexivity.
    + intros j. rewrite (next_time_denoted _ _ _ _ j Gb), Eb. reflexivity.
    + apply (sched_mono _ vs Vs).
    + apply (sched_mono _ vd Vd).
    + intros j. destruct Ga as (v0 & t0 & V0 & _ & _ & I0 & _ & _ & Ph0 & Du0 & Ld0 & _). rewrite Ea in V0. assert (v0 = vs) as -> by congruence.
      destruct (VW vs (nth_error_In _ _ Vs)) as (P0 & _ & Lid & _). rewrite I0 in Lid. unfold exec_duration. destruct (v_init_durations vs); [|discriminate].
      assert (In (cyclic 0%Q [] (v_durations vs) j) (v_durations vs)) by (apply (cyclic_in 0%Q [] (v_durations vs) j); lia).
      apply (Dpos xa); [apply (nth_error_In _ _ Ha)|]. rewrite Du0. assumption.
    + intros y Iy. apply NNr. apply in_or_app. auto.
    + lia.
    + lia.
    + destruct Valid as [VC _]. specialize (VC c I). unfold channel_valid, prod_rate, cons_rate in VC. rewrite Ini, Oni in VC.
      refine (never_negative_ext _ _ _ _ _ _ _ _ _ _ (fun m => eq_refl) (fun m => Qeq_refl _) (fun m => eq_refl) VC). intros m. unfold end_of. rewrite Vs. reflexivity.
    + apply (per_pos ka xa Ha).
    + apply (per_pos kb xb Hb).
    + apply (middle_nonneg s' V').
    + intros m. destruct V' as [_ S']. apply (S' M middle new_middle m).
    + intros y Iy. apply NNr. apply in_or_app. right. apply in_or_app. auto.
  - (* producer merged *)
    pose proof Ms as Ms'. apply merged_rank in Ms. destruct Ms as (ka & xa & Ha & Ea). destruct (in_shape ka xa c Ha I (eq_sym Ea)) as (Ini & Lin & Pa).
    destruct (task_edges_spec _ _ _ _ _ _ _ Outs) as [O1 _]. destruct (O1 ka xa c Ha I (eq_sym Ea)) as (c' & F & Ic'); [unfold external; rewrite Md, andb_false_r; reflexivity|].
    cbn [Nat.add] in F. unfold output_edge in F. destruct (merged_rates l ka (e_in c)) as [r| | |] eqn:Er; try discriminate. cbn in F. injection F as <-.
    destruct V' as [VC' _]. assert (Ch := VC' _ (in_or_app _ _ _ (or_intror (in_or_app _ _ _ (or_intror Ic'))))). unfold channel_valid, prod_rate, cons_rate in Ch. cbn in Ch.
    intros t nc. destruct (Ch t nc) as (np & H). exists (cnt l init ka np). unfold cons_rate, prod_rate. rewrite Ini.
    assert (E1 : moved_by (start_of (unmerge s') (e_dst c)) (cyclic 0 (e_out_init c) (e_out c)) nc t = moved_by (start_of s' (new_pos infos (e_dst c))) (cyclic 0 (e_out_init c) (e_out c)) nc t).
    { apply moved_by_ext. intros m. unfold start_of, unmerge. rewrite (rank_none _ Md). reflexivity. }
    rewrite E1. etransitivity; [exact H|]. apply Z.add_le_mono_l. apply Z.eq_le_incl.
    transitivity (moved_by (end_of s' g' M) (fun m => if (tk l init m =? ka)%nat then cyclic 0 [] (e_in c) (cnt l init ka m) else 0) np t).
    { unfold moved_by. apply sumf_ext. intros m _. rewrite (rate_at infos l init R Lt ka (e_in c) r m Er) by (try lia; apply (phases_div ka xa _ Ha Lin)). reflexivity. }
    rewrite (moved_reindex l init Lt) by apply (per_pos ka xa Ha). apply moved_by_ext. intros j. rewrite <- Ea, (end_unmerge s' ka xa j Ha). unfold end_of. rewrite new_middle. reflexivity.
  - (* consumer merged *)
    pose proof Md as Md'. apply merged_rank in Md. destruct Md as (kb & xb & Hb & Eb). destruct (out_shape kb xb c Hb I (eq_sym Eb)) as (Oni & Lout & Pb).
    destruct (task_edges_spec _ _ _ _ _ _ _ Ins) as [O1 _]. destruct (O1 kb xb c Hb I (eq_sym Eb)) as (c' & F & Ic'); [unfold external; rewrite Ms; reflexivity|].
    cbn [Nat.add] in F. unfold input_edge in F. destruct (merged_rates l kb (e_out c)) as [r| | |] eqn:Er; try discriminate. cbn in F. injection F as <-.
    destruct V' as [VC' _]. assert (Ch := VC' _ (in_or_app _ _ _ (or_intror (in_or_app _ _ _ (or_introl Ic'))))). unfold channel_valid, prod_rate, cons_rate in Ch. cbn in Ch.
    intros t nc. destruct (Ch t (pos l init kb nc)) as (np & H). exists np. unfold cons_rate, prod_rate. rewrite Oni.
    rewrite (moved_by_ext (end_of (unmerge s') g (e_src c)) (end_of s' g' (new_pos infos (e_src c)))) by (intros m; rewrite (end_kept s' _ m Ls Ms); reflexivity).
    etransitivity; [|exact H]. apply Z.eq_le_incl. symmetry.
    transitivity (moved_by (start_of s' M) (fun m => if (tk l init m =? kb)%nat then cyclic 0 [] (e_out c) (cnt l init kb m) else 0) (pos l init kb nc) t).
    { unfold moved_by. apply sumf_ext. intros m _. rewrite (rate_at infos l init R Lt kb (e_out c) r m Er) by (try lia; apply (phases_div kb xb _ Hb Lout)). reflexivity. }
    rewrite (moved_reindex l init Lt) by apply (per_pos kb xb Hb). rewrite (proj2 (pos_spec l init Lt kb nc (per_pos kb xb Hb))).
    apply moved_by_ext. intros j. unfold start_of, unmerge. rewrite <- Eb, (rank_of kb xb Hb). reflexivity.
  - (* untouched *)
    destruct V' as [VC' _].
    assert (Ic : In (mkEdge (e_id c) (new_pos infos (e_src c)) (new_pos infos (e_dst c)) (e_in c) (e_out c) (e_in_init c) (e_out_init c) (e_preload c)) (edges g')).
    { cbn [g' edges]. apply in_or_app. left. apply (in_map (fun c => mkEdge (e_id c) (new_pos infos (e_src c)) (new_pos infos (e_dst c)) (e_in c) (e_out c) (e_in_init c) (e_out_init c) (e_preload c))).
      apply filter_In. split; [assumption|]. rewrite Ms, Md. reflexivity. }
    specialize (VC' _ Ic). unfold channel_valid, prod_rate, cons_rate in *. cbn in VC'.
    refine (never_negative_ext _ _ _ _ _ _ _ _ _ _ (fun m => eq_refl) _ (fun m => eq_refl) VC').
    + intros m. rewrite (end_kept s' _ m Ls Ms). reflexivity.
    + intros m. unfold start_of, unmerge. rewrite (rank_none _ Md). reflexivity.
Qed.

Theorem unmerge_valid s' : schedule_valid g' s' -> schedule_valid g (unmerge s').
Proof.
  intros V'. split; [intros c I; apply unmerge_channel; assumption|]. intros i v V m. unfold start_of, unmerge.
  destruct (is_merged infos i) eqn:E.
  - apply merged_rank in E. destruct E as (k & x & Hx & <-). rewrite (rank_of k x Hx). rewrite <- (middle_duration k x v m Hx V).
    pose proof (per_pos k x Hx) as Pk. pose proof (pos_mono l init Lt k m (S m) Pk ltac:(lia)) as L. pose proof (middle_nonneg s' V') as D0.
    destruct V' as [_ S']. pose proof (S' M middle new_middle) as Ser. unfold task_serialised, serialised, start_of in Ser.
    apply Qle_trans with (s' M (S (pos l init k m))); [apply Ser|]. apply (mono_le (s' M)); [|lia]. intros j. specialize (Ser j). specialize (D0 j). lra.
  - rewrite (rank_none i E). destruct V' as [_ S']. apply (S' _ v (new_vertex i v V E) m).
Qed.

(** ** Consistency of the merged graph *)
Lemma sum_reindex (r : nat -> Z) k n :
  sumf (fun m => if (tk l init m =? k)%nat then r (cnt l init k m) else 0) n = sumf r (cnt l init k n).
Proof. induction n as [|n IH]; [reflexivity|]. cbn [sumf cnt]. rewrite IH. destruct (_ =? k)%nat; cbn [sumf]; lia. Qed.

Lemma period_sum k x rates r u : nth_error infos k = Some x -> merged_rates l k rates = Ok r -> length rates = mi_phases x -> (0 < mi_phases x)%nat ->
  (per_count l init k = u * length rates)%nat -> sumZ (skipn init r) = Z.of_nat u * sumZ rates.
Proof.
  intros Hx Er Lr Pp Hu. destruct (merged_rates_ok infos l k rates r R Er) as [Len _].
  pose proof (cyclic_sum (firstn init r) (skipn init r) init 1) as A. rewrite skipn_length, firstn_length, Len in A. specialize (A ltac:(lia) ltac:(lia)).
  assert (E : forall n, sumf (cyclic 0 (firstn init r) (skipn init r)) n = sumf (cyclic 0 [] rates) (cnt l init k n)).
  { intros n. rewrite <- sum_reindex. apply sumf_ext. intros m _. apply (rate_at infos l init R Lt k rates r m Er); [lia|eauto]. }
  rewrite !E in A. rewrite Nat.mul_1_l, (cnt_period l init Lt) in A by lia. rewrite Hu, sumf_cyclic_shift in A by lia. lia.
Qed.

Lemma rates_nonneg k rates r : merged_rates l k rates = Ok r -> (forall y, In y rates -> 0 <= y) -> (0 < length rates)%nat -> forall y, In y r -> 0 <= y.
Proof.
  intros Er NNr Lr y I. destruct (merged_rates_ok infos l k rates r R Er) as [Len Nth]. apply In_nth with (d := 0) in I. destruct I as (m & L & <-). rewrite Len in L.
  rewrite Nth by assumption. destruct (_ =? k)%nat; [|lia]. apply NNr, nth_In, Nat.mod_upper_bound. lia.
Qed.

Lemma src_kept k x c : nth_error infos k = Some x -> e_dst c = mi_pos x -> external infos c = true -> is_merged infos (e_src c) = false.
Proof.
  intros Hx E X. unfold external in X. assert (is_merged infos (e_dst c) = true) as Y by (apply merged_rank; rewrite E; eauto). rewrite Y, andb_true_r in X. destruct (is_merged infos (e_src c)); [discriminate|reflexivity].
Qed.
Lemma dst_kept k x c : nth_error infos k = Some x -> e_src c = mi_pos x -> external infos c = true -> is_merged infos (e_dst c) = false.
Proof.
  intros Hx E X. unfold external in X. assert (is_merged infos (e_src c) = true) as Y by (apply merged_rank; rewrite E; eauto). rewrite Y in X. destruct (is_merged infos (e_dst c)); [discriminate|reflexivity].
Qed.

Lemma exec_time_nonneg e : (0 <= exec_time infos e)%Q.
Proof.
  unfold exec_time. destruct (nth_error infos (fst e)) as [x|] eqn:Hx; [|apply Qle_refl]. destruct (infos_good _ _ Hx) as (v & t & V & _ & _ & _ & _ & _ & Ph & Du & Ld & Pp & _).
  destruct WF as (VW & _). destruct (VW v (nth_error_In _ _ V)) as (_ & _ & _ & D).
  destruct (snd e <? length (mi_durations x))%nat eqn:E; apply D, in_or_app; left; rewrite Du; apply nth_In; [rewrite Du in E; lia|].
  rewrite Ld, Ph. apply Nat.mod_upper_bound. lia.
Qed.

Lemma kept_ids_nodup (p : nat -> bool) : forall (vs : list vertex) a, NoDup (map v_id vs) ->
  NoDup (map v_id (map snd (filter (fun iv : nat * vertex => p (fst iv)) (combine (seq a (length vs)) vs)))).
Proof.
  induction vs as [|v vs IH]; intros a H; cbn; [constructor|]. inversion H as [|y ys H1 H2]; subst. specialize (IH (S a) H2). destruct (p a); cbn; [|exact IH].
  constructor; [|exact IH]. intros I. apply H1. apply in_map_iff in I. destruct I as (w & Ew & I). rewrite <- Ew. apply in_map. apply kept_in in I. exact I.
Qed.

Lemma in_kept v : In v (kept g infos) -> In v (vertices g).
Proof. exact (kept_in (fun i => negb (is_merged infos i)) (vertices g) 0 v). Qed.
Lemma merged_wf : ~ In mid (map v_id (vertices g)) -> graph_wf g'.
Proof.
  intros Fr. destruct WF as (VW & EW & NDi). split; [|split].
  - intros v I. cbn [g' vertices] in I. apply in_app_or in I. destruct I as [I|[<-|[]]]; [apply VW, in_kept, I|].
    unfold vertex_wf, middle, durs. cbn. rewrite skipn_length, firstn_length, map_length. repeat (split; [lia|]).
    intros y I. apply in_app_or in I. assert (J : In y (map (exec_time infos) l)). { rewrite <- (firstn_skipn init (map (exec_time infos) l)). apply in_or_app. tauto. }
    apply in_map_iff in J. destruct J as (e & <- & _). apply exec_time_nonneg.
  - intros c' I. cbn [g' edges] in I. apply in_app_or in I. destruct I as [I|I]; [|apply in_app_or in I; destruct I as [I|I]].
    + unfold untouched in I. apply in_map_iff in I. destruct I as (c & <- & I). apply filter_In in I. destruct I as [I K]. apply andb_prop in K. destruct K as [K1 K2].
      apply negb_true_iff in K1, K2. destruct (EW c I) as (vs & vd & Vs & Vd & H). exists vs, vd. cbn [e_src e_dst e_in e_out e_in_init e_out_init e_preload]. 
      split; [apply new_vertex; assumption|]. split; [apply new_vertex; assumption|]. exact H.
    + destruct (task_edges_spec _ _ _ _ _ _ _ Ins) as [_ O2]. destruct (O2 c' I) as (k & x & c & Hx & Ic & E & X & F). cbn [Nat.add] in F. unfold input_edge in F.
      destruct (merged_rates l k (e_out c)) as [r| | |] eqn:Er; try discriminate. cbn in F. injection F as <-. pose proof (src_kept k x c Hx E X) as Ks.
      destruct (out_shape k x c Hx Ic E) as (Oni & Lout & Pb). destruct (EW c Ic) as (vs & vd & Vs & Vd & Li & Lo & Lii & Loi & NNr & Si & So & Pre).
      destruct (merged_rates_ok infos l k _ r R Er) as [Len _]. destruct (phases_div k x (length (e_out c)) Hx Lout) as (u & Hu).
      exists vs, middle. cbn [e_src e_dst e_in e_out e_in_init e_out_init e_preload]. split; [apply new_vertex; assumption|]. split; [exact new_middle|]. unfold middle. cbn [v_phases v_init_phases].
      rewrite skipn_length, firstn_length, Len. repeat (split; [lia|]). split; [|split; [assumption|split; [|assumption]]].
      * intros y J. assert (Rr : In y r -> 0 <= y). { apply (rates_nonneg k _ r Er); [|lia]. intros z Iz. apply NNr. rewrite !in_app_iff. auto. }
        rewrite !in_app_iff in J. destruct J as [J|[J|[J|J]]]; [apply NNr; rewrite !in_app_iff; auto| |apply NNr; rewrite !in_app_iff; auto|];
          apply Rr; rewrite <- (firstn_skipn init r); apply in_or_app; auto.
      * rewrite (period_sum k x _ r u Hx Er Lout Pb Hu). pose proof (per_pos k x Hx). nia.
    + destruct (task_edges_spec _ _ _ _ _ _ _ Outs) as [_ O2]. destruct (O2 c' I) as (k & x & c & Hx & Ic & E & X & F). cbn [Nat.add] in F. unfold output_edge in F.
      destruct (merged_rates l k (e_in c)) as [r| | |] eqn:Er; try discriminate. cbn in F. injection F as <-. pose proof (dst_kept k x c Hx E X) as Ks.
      destruct (in_shape k x c Hx Ic E) as (Oni & Lout & Pb). destruct (EW c Ic) as (vs & vd & Vs & Vd & Li & Lo & Lii & Loi & NNr & Si & So & Pre).
      destruct (merged_rates_ok infos l k _ r R Er) as [Len _]. destruct (phases_div k x (length (e_in c)) Hx Lout) as (u & Hu).
      exists middle, vd. cbn [e_src e_dst e_in e_out e_in_init e_out_init e_preload]. split; [exact new_middle|]. split; [apply new_vertex; assumption|]. unfold middle. cbn [v_phases v_init_phases].
      rewrite skipn_length, firstn_length, Len. repeat (split; [lia|]). split; [|split; [|split; assumption]].
      * intros y J. assert (Rr : In y r -> 0 <= y). { apply (rates_nonneg k _ r Er); [|lia]. intros z Iz. apply NNr. rewrite !in_app_iff. auto. }
        rewrite !in_app_iff in J. destruct J as [J|[J|[J|J]]]; [|apply NNr; rewrite !in_app_iff; auto| |apply NNr; rewrite !in_app_iff; auto];
          apply Rr; rewrite <- (firstn_skipn init r); apply in_or_app; auto.
      * rewrite (period_sum k x _ r u Hx Er Lout Pb Hu). pose proof (per_pos k x Hx). nia.
  - cbn [g' vertices]. rewrite map_app. cbn [map]. rewrite <- (rev_involutive (map v_id (kept g infos) ++ _)). apply NoDup_rev. rewrite rev_app_distr. cbn [rev app].
    constructor; [|apply NoDup_rev, (kept_ids_nodup (fun i => negb (is_merged infos i)) (vertices g) 0), NDi].
    rewrite <- in_rev. intros I. apply Fr. cbn [v_id middle] in I. apply in_map_iff in I. destruct I as (w & Ew & I). rewrite <- Ew. apply in_map, in_kept, I.
Qed.

(** Repetition vector of the merged graph. *)
Definition old_pos (j : nat) : nat := nth j (filter (fun i => negb (is_merged infos i)) (seq 0 (length (vertices g)))) 0%nat.
Definition N' (j : nat) : Z := if (j <? M)%nat then f * N (old_pos j) else gc * Z.of_nat (length l - init).
Lemma N'_kept i : (i < length (vertices g))%nat -> is_merged infos i = false -> N' (new_pos infos i) = f * N i.
Proof.
  intros L H. pose proof (filter_seq_nth (fun i => negb (is_merged infos i)) (length (vertices g)) 0 i L) as E. cbn [Nat.add] in E. rewrite H in E. specialize (E eq_refl).
  fold (new_pos infos i) in E. unfold N', old_pos. rewrite (nth_error_nth _ _ 0%nat E). assert (K : (new_pos infos i < M)%nat).
  { unfold kept. rewrite (kept_length (fun j => negb (is_merged infos j))). apply nth_error_Some. congruence. }
  apply Nat.ltb_lt in K. rewrite K. reflexivity.
Qed.
Lemma N'_middle : N' M = gc * Z.of_nat (length l - init).
Proof. unfold N'. rewrite Nat.ltb_irrefl. reflexivity. Qed.

Lemma merged_balanced : balanced g' N'.
Proof.
  destruct WF as (VW & EW & _). intros c' I. cbn [g' edges] in I. apply in_app_or in I. destruct I as [I|I]; [|apply in_app_or in I; destruct I as [I|I]].
  - unfold untouched in I. apply in_map_iff in I. destruct I as (c & <- & I). apply filter_In in I. destruct I as [I K]. apply andb_prop in K. destruct K as [K1 K2].
    apply negb_true_iff in K1, K2. destruct (EW c I) as (vs & vd & Vs & Vd & _). cbn [e_src e_dst e_in e_out].
    rewrite !N'_kept; try assumption; try (apply nth_error_Some; congruence). pose proof (Bal c I). nia.
  - destruct (task_edges_spec _ _ _ _ _ _ _ Ins) as [_ O2]. destruct (O2 c' I) as (k & x & c & Hx & Ic & E & X & F). cbn [Nat.add] in F. unfold input_edge in F.
    destruct (merged_rates l k (e_out c)) as [r| | |] eqn:Er; try discriminate. cbn in F. injection F as <-. pose proof (src_kept k x c Hx E X) as Ks.
    destruct (out_shape k x c Hx Ic E) as (Oni & Lout & Pb). destruct (EW c Ic) as (vs & vd & Vs & Vd & _).
    destruct (merged_rates_ok infos l k _ r R Er) as [Len _]. destruct (phases_div k x (length (e_out c)) Hx Lout) as (u & Hu). cbn [e_src e_dst e_in e_out].
    rewrite N'_middle, N'_kept; [|apply nth_error_Some; congruence|assumption]. rewrite (period_sum k x _ r u Hx Er Lout Pb Hu), skipn_length, Len.
    pose proof (Bal c Ic) as B. pose proof (Wper k x Hx) as WB. destruct (infos_good _ _ Hx) as (_ & _ & _ & _ & _ & _ & Nb & _). rewrite Nb, <- E, Hu, Nat2Z.inj_mul in WB.
    set (A := sumZ (e_in c)) in *. set (Z1 := sumZ (e_out c)) in *. set (pb := Z.of_nat (length (e_out c))) in *. set (P := Z.of_nat (length l - init)) in *. set (pa := Z.of_nat (length (e_in c))) in *.
    assert (0 < pb) by lia. apply (Z.mul_reg_l _ _ pb); [lia|]. transitivity (f * P * (A * N (e_src c) * pb)); [ring|]. rewrite B.
    transitivity (Z1 * pa * P * (f * N (e_dst c))); [ring|]. rewrite <- WB. ring.
  - destruct (task_edges_spec _ _ _ _ _ _ _ Outs) as [_ O2]. destruct (O2 c' I) as (k & x & c & Hx & Ic & E & X & F). cbn [Nat.add] in F. unfold output_edge in F.
    destruct (merged_rates l k (e_in c)) as [r| | |] eqn:Er; try discriminate. cbn in F. injection F as <-. pose proof (dst_kept k x c Hx E X) as Ks.
    destruct (in_shape k x c Hx Ic E) as (Oni & Lout & Pb). destruct (EW c Ic) as (vs & vd & Vs & Vd & _).
    destruct (merged_rates_ok infos l k _ r R Er) as [Len _]. destruct (phases_div k x (length (e_in c)) Hx Lout) as (u & Hu). cbn [e_src e_dst e_in e_out].
    rewrite N'_middle, N'_kept; [|apply nth_error_Some; congruence|assumption]. rewrite (period_sum k x _ r u Hx Er Lout Pb Hu), skipn_length, Len.
    pose proof (Bal c Ic) as B. pose proof (Wper k x Hx) as WB. destruct (infos_good _ _ Hx) as (_ & _ & _ & _ & _ & _ & Nb & _). rewrite Nb, <- E, Hu, Nat2Z.inj_mul in WB.
    set (A := sumZ (e_in c)) in *. set (Z1 := sumZ (e_out c)) in *. set (pb := Z.of_nat (length (e_in c))) in *. set (P := Z.of_nat (length l - init)) in *. set (pa := Z.of_nat (length (e_out c))) in *.
    assert (0 < pb) by lia. apply (Z.mul_reg_l _ _ pb); [lia|]. transitivity (pa * P * A * (gc * (Z.of_nat u * pb))); [ring|]. rewrite WB. transitivity (f * P * (A * N (e_src c) * pa)); [ring|]. rewrite B. ring.
Qed.

(** ** Pace *)
Lemma unmerge_pace s' omega : (0 <= omega)%Q -> (forall i, (i < length (vertices g))%nat -> 0 < N i) ->
  (exists B, forall j m, (j < length (vertices g'))%nat -> (s' j m <= B + omega * (inject_Z (Z.of_nat m) / inject_Z (N' j)))%Q) ->
  exists B, forall i m, (i < length (vertices g))%nat -> (unmerge s' i m <= B + omega / inject_Z f * (inject_Z (Z.of_nat m) / inject_Z (N i)))%Q.
Proof.
  intros O HN (B & H). assert (Fq : (0 < inject_Z f)%Q) by (unfold Qlt; cbn; lia). assert (Gq : (0 < inject_Z gc)%Q) by (unfold Qlt; cbn; lia).
  set (P := (length l - init)%nat). assert (Pz : (0 < inject_Z (Z.of_nat P))%Q) by (unfold Qlt, P; cbn; lia).
  set (C := (omega * (inject_Z (Z.of_nat (init + P)) / (inject_Z gc * inject_Z (Z.of_nat P))))%Q).
  assert (C0 : (0 <= C)%Q).
  { unfold C. apply Qmult_le_0_compat; [assumption|]. apply Qle_shift_div_l; [apply Qmult_lt_0_compat; assumption|]. rewrite Qmult_0_l. unfold Qle; cbn; lia. }
  exists (B + C)%Q. intros i m L. destruct (nth_error (vertices g) i) as [v|] eqn:V; [|apply nth_error_None in V; lia].
  assert (Nq : (0 < inject_Z (N i))%Q) by (specialize (HN i L); unfold Qlt; cbn; lia). unfold unmerge. destruct (is_merged infos i) eqn:E.
  - apply merged_rank in E. destruct E as (k & x & Hx & Ex). rewrite <- Ex at 1. rewrite (rank_of k x Hx). assert (LM : (M < length (vertices g'))%nat) by (apply nth_error_Some; rewrite new_middle; discriminate).
    pose proof (per_pos k x Hx) as Pk. pose proof (pos_bound l init Lt k m Pk) as Pb. fold P in Pb. pose proof (Wper k x Hx) as WB. destruct (infos_good _ _ Hx) as (_ & _ & _ & _ & _ & _ & Nb & _). rewrite Nb, Ex in WB.
    eapply Qle_trans; [apply (H M _ LM)|]. rewrite N'_middle. fold P.
    assert (Wq : (0 < inject_Z (Z.of_nat (per_count l init k)))%Q) by (unfold Qlt; cbn; lia).
    assert (WQ : (inject_Z gc * inject_Z (Z.of_nat (per_count l init k)) == inject_Z f * inject_Z (N i))%Q) by (rewrite <- !inject_Z_mult, WB; reflexivity).
    assert (PQ : (inject_Z (Z.of_nat (pos l init k m)) * inject_Z (Z.of_nat (per_count l init k)) <= inject_Z (Z.of_nat (init + P)) * inject_Z (Z.of_nat (per_count l init k)) + inject_Z (Z.of_nat m) * inject_Z (Z.of_nat P))%Q).
    { rewrite <- !inject_Z_mult, <- inject_Z_plus, <- Zle_Qle. lia. }
    rewrite inject_Z_mult. set (w := inject_Z (Z.of_nat (per_count l init k))) in *. set (p := inject_Z (Z.of_nat (pos l init k m))) in *. set (mq := inject_Z (Z.of_nat m)) in *.
    set (Pq := inject_Z (Z.of_nat P)) in *. set (gq := inject_Z gc) in *. set (iq := inject_Z (Z.of_nat (init + P))) in *. set (fq := inject_Z f) in *. set (n := inject_Z (N i)) in *.
    assert (X : (p / (gq * Pq) <= iq / (gq * Pq) + mq / (fq * n))%Q).
    { apply Qle_shift_div_r; [apply Qmult_lt_0_compat; assumption|]. rewrite <- WQ.
      assert (Y : ((iq / (gq * Pq) + mq / (gq * w)) * (gq * Pq) == (iq * w + mq * Pq) / w)%Q) by (field; lra). rewrite Y. apply Qle_shift_div_l; assumption. }
    assert (Z0 : (omega / fq * (mq / n) == omega * (mq / (fq * n)))%Q) by (field; lra). rewrite Z0. unfold C.
    assert (omega * (p / (gq * Pq)) <= omega * (iq / (gq * Pq) + mq / (fq * n)))%Q. { rewrite !(Qmult_comm omega). apply Qmult_le_compat_r; assumption. }
    rewrite Qmult_plus_distr_r in H0. rewrite <- Qplus_assoc. apply Qplus_le_compat; [apply Qle_refl|assumption].
  - rewrite (rank_none i E). assert (LJ : (new_pos infos i < length (vertices g'))%nat) by (apply nth_error_Some; rewrite (new_vertex i v V E); discriminate).
    eapply Qle_trans; [apply (H _ m LJ)|]. rewrite (N'_kept i L E), inject_Z_mult.
    assert (Z0 : (omega / inject_Z f * (inject_Z (Z.of_nat m) / inject_Z (N i)) == omega * (inject_Z (Z.of_nat m) / (inject_Z f * inject_Z (N i))))%Q) by (field; lra).
    rewrite Z0. rewrite <- Qplus_assoc. apply Qplus_le_compat; [apply Qle_refl|]. lra.
Qed.
End G.
