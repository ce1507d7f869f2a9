(** Whole-graph statements: the generated event graph characterises exactly the valid
    K-periodic schedules. *)
From Coq Require Import QArith Qfield Znumtheory Lqa.
From Verif Require Import Base Graph Commons CommonsProofs FractionProofs KPeriodic ScheduleSpec ScheduleCore KPeriodicSpec KPeriodicProofs KPeriodicChannel KPeriodicSelfloop.
Open Scope Z_scope.

Lemma collect_ok {A B} (f : B -> outcome (list A)) l :
  (forall b, In b l -> exists r, f b = Ok r) -> exists cs, collect (map f l) = Ok cs.
Proof.
  induction l as [|b l IH]; intros H; [exists []; reflexivity|]. cbn [map collect].
  destruct (H b (or_introl eq_refl)) as [r ->]. cbn [bind].
  destruct IH as [cs ->]; [intros; apply H; right; assumption|]. eexists; reflexivity.
Qed.

Lemma collect_in {A B} (f : B -> outcome (list A)) l cs : collect (map f l) = Ok cs ->
  forall x, In x cs <-> exists b r, In b l /\ f b = Ok r /\ In x r.
Proof.
  revert cs. induction l as [|b l IH]; intros cs; cbn [map collect].
  - intros [= <-] x. split; [intros [] | intros (b & r & [] & _)].
  - destruct (f b) as [r| | |] eqn:E; cbn [bind]; try discriminate.
    destruct (collect (map f l)) as [t| | |]; cbn [bind]; try discriminate.
    intros [= <-] x. rewrite in_app_iff, (IH t eq_refl). split.
    + intros [H|(b' & r' & H1 & H2 & H3)]; [exists b, r; cbn; auto | exists b', r'; cbn; auto].
    + intros (b' & r' & [<-|H1] & H2 & H3); [left; congruence | right; exists b', r'; auto].
Qed.

Lemma indexed_in {A} (l : list A) i v : In (i, v) (indexed l) <-> nth_error l i = Some v.
Proof.
  unfold indexed. assert (G : forall a, In (i, v) (combine (seq a (length l)) l) <-> (a <= i)%nat /\ nth_error l (i - a) = Some v).
  { induction l as [|x l IH]; intros a; cbn [length seq combine].
    - split; [intros []|]. intros [_ H]. destruct (i - a)%nat; discriminate H.
    - cbn [In]. rewrite IH. split.
      + intros [[= -> ->]|[H1 H2]]; [split; [lia|rewrite Nat.sub_diag; reflexivity]|].
        split; [lia|]. replace (i - a)%nat with (S (i - S a)) by lia. exact H2.
      + intros [H1 H2]. destruct (Nat.eq_dec a i) as [->|NE].
        * rewrite Nat.sub_diag in H2. cbn in H2. injection H2 as ->. left. reflexivity.
        * right. split; [lia|]. replace (i - a)%nat with (S (i - S a)) in H2 by lia. exact H2. }
  rewrite G, Nat.sub_0_r. split; [intros [_ H]; exact H | intros H; split; [lia|exact H]].
Qed.

Lemma never_negative_ext M pe pe' p cs cs' c : (forall m, pe m = pe' m) -> (forall m, cs m = cs' m) ->
  never_negative M pe p cs c -> never_negative M pe' p cs' c.
Proof.
  intros H1 H2 H t nc. destruct (H t nc) as [np Hnp]. exists np. unfold moved_by in *.
  rewrite (sumf_ext _ (fun m => if Qle_bool (cs m) t then c m else 0)) by (intros; rewrite H2; reflexivity).
  rewrite (sumf_ext (fun m => if Qle_bool (pe' m) t then p m else 0) (fun m => if Qle_bool (pe m) t then p m else 0))
    by (intros; rewrite H1; reflexivity). exact Hnp.
Qed.

Lemma exec_duration_nn v m : vertex_wf v -> (0 <= exec_duration v m)%Q.
Proof.
  intros (HP & Hd & Hi & Hnn). apply Hnn.
  pose proof (cyclic_in 0%Q (v_init_durations v) (v_durations v) m ltac:(lia)) as H.
  rewrite in_app_iff in *. unfold exec_duration. tauto.
Qed.

Lemma serialised_mono_start start v : vertex_wf v -> serialised start (exec_duration v) -> mono start.
Proof.
  intros Hv Hs m. specialize (Hs m). pose proof (exec_duration_nn v m Hv). lra.
Qed.
Lemma serialised_mono_end start v : vertex_wf v -> serialised start (exec_duration v) ->
  mono (fun m => (start m + exec_duration v m)%Q).
Proof.
  intros Hv Hs m. cbv beta. pose proof (Hs m). pose proof (exec_duration_nn v (S m) Hv). lra.
Qed.

Lemma cyclic_unbounded init per : (0 < length per)%nat -> 0 < sumZ per ->
  (forall m, 0 <= cyclic 0 init per m) -> forall b, exists n, b <= sumf (cyclic 0 init per) n.
Proof.
  intros HP Hs Hnn b. exists (length init + Z.to_nat b * length per)%nat.
  rewrite cyclic_sum by lia. pose proof (sumf_nonneg _ (length init) Hnn). nia.
Qed.

(** Extra conditions for graphs with initial phases (vacuous without them). *)
Definition init_ok (g : graph) : Prop :=
  (forall v, In v (vertices g) -> (exec_duration v 0 <= exec_duration v (v_init_phases v))%Q) /\
  (forall c, In c (edges g) -> init_rates_ok c).

Lemma no_init_ok g : graph_wf g -> no_init g -> init_ok g.
Proof.
  intros (Hv & He & _) Hn. split.
  - intros v Hin. rewrite (Hn v Hin). apply Qle_refl.
  - intros c Hin gg _ x Hx. destruct (He c Hin) as (vs & vd & H1 & H2 & _ & _ & L3 & L4 & _).
    apply nth_error_In in H1, H2. rewrite (Hn _ H1) in L3. rewrite (Hn _ H2) in L4.
    destruct (e_in_init c); [|discriminate]. destruct (e_out_init c); [|discriminate]. destruct Hx.
Qed.

Section G.
Variables (var : variant) (g : graph) (N K : nat -> Z).
Hypothesis Hwf : graph_wf g.
Hypothesis Hbal : balanced g N.
Hypothesis HN : forall i, (i < length (vertices g))%nat -> 0 < N i.
Hypothesis HK : forall i, (i < length (vertices g))%nat -> 0 < K i.

Lemma vertex_lt i v : nth_error (vertices g) i = Some v -> (i < length (vertices g))%nat.
Proof. intros H. apply nth_error_Some. congruence. Qed.

Lemma K_nat i v : nth_error (vertices g) i = Some v -> K i = Z.of_nat (Z.to_nat (K i)) /\ (0 < Z.to_nat (K i))%nat.
Proof using HK. clear HN. intros H. apply vertex_lt in H. specialize (HK i H). lia. Qed.

Lemma edge_shape c : In c (edges g) -> exists vs vd,
  nth_error (vertices g) (e_src c) = Some vs /\ nth_error (vertices g) (e_dst c) = Some vd /\
  vertex_wf vs /\ vertex_wf vd /\ chan_shape c vs vd.
Proof.
  intros Hc. destruct Hwf as (Hv & He & _). destruct (He c Hc) as (vs & vd & H1 & H2 & H3).
  exists vs, vd. split; [exact H1|]. split; [exact H2|].
  split; [apply Hv; eapply nth_error_In; exact H1|]. split; [apply Hv; eapply nth_error_In; exact H2|]. exact H3.
Qed.

Lemma vertex_ok i v : nth_error (vertices g) i = Some v -> vertex_wf v.
Proof. intros H. destruct Hwf as (Hv & _). apply Hv. eapply nth_error_In; exact H. Qed.

Lemma generate_event_graph_ok : exists cs, generate_event_graph var g N K = Ok cs.
Proof.
  unfold generate_event_graph.
  destruct (collect_ok (fun iv => generate_selfloop (snd iv) (N (fst iv)) (K (fst iv))) (indexed (vertices g))) as [l ->].
  { intros [i v] Hin. apply indexed_in in Hin. cbn [fst snd]. destruct (K_nat i v Hin) as [Hkk Hk]. rewrite Hkk.
    destruct (generate_selfloop_spec v (N i) (Z.to_nat (K i)) (vertex_ok i v Hin) Hk) as (cs & Hcs & _).
    - apply HN, (vertex_lt _ _ Hin).
    - exists cs. exact Hcs. }
  cbn [bind].
  destruct (collect_ok (fun c => do s <- lookup_vertex g (e_src c); do t <- lookup_vertex g (e_dst c);
       generate_channel var c s t (N (e_src c)) (K (e_src c)) (K (e_dst c))) (edges g)) as [m ->].
  { intros c Hin. destruct (edge_shape c Hin) as (vs & vd & H1 & H2 & Hs & Hd & Hsh).
    unfold lookup_vertex. rewrite H1, H2. cbn [bind].
    destruct (K_nat _ _ H1) as [E1 Hk1]. destruct (K_nat _ _ H2) as [E2 Hk2]. rewrite E1, E2.
    destruct (generate_channel_spec var c vs vd _ _ (N (e_src c)) Hs Hd Hsh Hk1 Hk2) as (? & ? & cs & ? & ? & ? & ? & Hcs & _).
    - apply HN, (vertex_lt _ _ H1).
    - exists cs. exact Hcs. }
  cbn [bind]. eexists; reflexivity.
Qed.

(** The constraints are those of the self-loops and of the channels. *)
Lemma generate_event_graph_in cs : generate_event_graph var g N K = Ok cs ->
  forall x, In x cs <->
    (exists i v r, nth_error (vertices g) i = Some v /\ generate_selfloop v (N i) (K i) = Ok r /\ In x r) \/
    (exists c vs vd r, In c (edges g) /\ nth_error (vertices g) (e_src c) = Some vs /\
        nth_error (vertices g) (e_dst c) = Some vd /\
        generate_channel var c vs vd (N (e_src c)) (K (e_src c)) (K (e_dst c)) = Ok r /\ In x r).
Proof.
  unfold generate_event_graph.
  destruct (collect (map _ (indexed (vertices g)))) as [l| | |] eqn:E1; cbn [bind]; try discriminate.
  destruct (collect (map _ (edges g))) as [m| | |] eqn:E2; cbn [bind]; try discriminate.
  intros [= <-] x. rewrite in_app_iff, (collect_in _ _ _ E1), (collect_in _ _ _ E2). split.
  - intros [([i v] & r & H1 & H2 & H3)|(c & r & H1 & H2 & H3)].
    + left. exists i, v, r. apply indexed_in in H1. auto.
    + right. unfold lookup_vertex in H2. destruct (edge_shape c H1) as (vs & vd & V1 & V2 & _).
      rewrite V1, V2 in H2. cbn [bind] in H2. exists c, vs, vd, r. auto.
  - intros [(i & v & r & H1 & H2 & H3)|(c & vs & vd & r & H1 & H2 & H3 & H4 & H5)].
    + left. exists (i, v), r. split; [apply indexed_in; exact H1|]. auto.
    + right. exists c, r. split; [exact H1|]. unfold lookup_vertex. rewrite H2, H3. cbn [bind]. auto.
Qed.

Variables (omega : Q) (St : event -> Q) (cs : list constraint).
Hypothesis Hgen : generate_event_graph var g N K = Ok cs.
Hypothesis Hre : forall v, In v (vertices g) -> 0 < v_reentrancy v.

Let sch := kperiodic_schedule g N K omega St.

Let ks (i : nat) (v : vertex) : nat -> Q := kperiodic_start St v (Z.to_nat (K i))
     (task_period omega (Z.of_nat (Z.to_nat (K i))) (Z.of_nat (v_phases v)) (N i)).

Lemma sch_at i v : nth_error (vertices g) i = Some v -> forall m,
  start_of sch i m = ks i v m.
Proof.
  intros H m. unfold start_of, sch, kperiodic_schedule, ks. rewrite H. destruct (K_nat i v H) as [<- _]. reflexivity.
Qed.

Lemma serialised_ext s s' d : (forall m, s m = s' m) -> serialised s d -> serialised s' d.
Proof. intros E H m. rewrite <- !E. apply H. Qed.

Theorem constraints_sound : init_ok g -> (0 <= omega)%Q ->
  (forall x, In x cs -> satisfies omega St x) -> schedule_valid g sch.
Proof.
  intros [Hi1 Hi2] Hom Hsat.
  assert (Hser : forall i v, nth_error (vertices g) i = Some v -> task_serialised sch i v).
  { intros i v Hv. unfold task_serialised. eapply serialised_ext; [intros m; symmetry; apply (sch_at i v Hv)|].
    destruct (K_nat i v Hv) as [Hk Hkp].
    destruct (generate_selfloop_spec v (N i) (Z.to_nat (K i)) (vertex_ok i v Hv) Hkp (HN i (vertex_lt _ _ Hv)))
      as (r & Hr & _).
    apply (selfloop_serialises v (N i) (Z.to_nat (K i)) (vertex_ok i v Hv) Hkp (HN i (vertex_lt _ _ Hv)) omega St r).
    - apply Hre. eapply nth_error_In; exact Hv.
    - apply Hi1. eapply nth_error_In; exact Hv.
    - exact Hr.
    - intros x Hx. apply Hsat. apply (generate_event_graph_in cs Hgen). left. exists i, v, r. rewrite Hk. auto. }
  split; [|exact Hser].
  intros c Hc. destruct (edge_shape c Hc) as (vs & vd & V1 & V2 & Hs & Hd & Hsh).
  destruct (K_nat _ _ V1) as [Hk1 Hkp1]. destruct (K_nat _ _ V2) as [Hk2 Hkp2].
  pose proof (Hser _ _ V1) as S1. pose proof (Hser _ _ V2) as S2. unfold task_serialised in S1, S2.
  apply (serialised_ext _ (ks (e_src c) vs)) in S1; [|apply (sch_at _ _ V1)].
  apply (serialised_ext _ (ks (e_dst c) vd)) in S2; [|apply (sch_at _ _ V2)].
  unfold channel_valid.
  apply (never_negative_ext _ (fun m => ks (e_src c) vs m + exec_duration vs m)%Q _ _ (ks (e_dst c) vd)).
  { intros m. unfold end_of. rewrite V1. change (sch (e_src c) m) with (start_of sch (e_src c) m).
    rewrite (sch_at _ _ V1). reflexivity. }
  { intros m. symmetry. apply (sch_at _ _ V2). }
  apply useful_ordered_sufficient.
  - apply (prod_rate_nn c vs vd Hs Hsh).
  - apply (cons_rate_nn c vs vd Hd Hsh).
  - apply serialised_mono_end; assumption.
  - eapply serialised_mono_start; eassumption.
  - apply Hsh.
  - apply cyclic_unbounded; [destruct Hsh as (-> & _); apply Hs | apply Hsh | apply (prod_rate_nn c vs vd Hs Hsh)].
  - destruct (generate_channel_spec var c vs vd _ _ (N (e_src c)) Hs Hd Hsh Hkp1 Hkp2) as (? & ? & r & ? & ? & ? & ? & Hr & _).
    { apply HN, (vertex_lt _ _ V1). }
    apply (satisfied_orders var c vs vd _ _ (N (e_src c)) (N (e_dst c)) Hs Hd Hsh Hkp1 Hkp2) with (cs := r).
    + apply HN, (vertex_lt _ _ V1).
    + apply HN, (vertex_lt _ _ V2).
    + apply Hbal. exact Hc.
    + exact Hom.
    + apply Hi2. exact Hc.
    + exact Hr.
    + intros y Hy. apply Hsat. apply (generate_event_graph_in cs Hgen). right. exists c, vs, vd, r.
      rewrite Hk1, Hk2. auto.
Qed.

Theorem constraints_necessary : no_init g -> schedule_valid g sch ->
  forall x, In x cs -> satisfies omega St x.
Proof.
  intros Hni [Hch Hser] x Hx. apply (generate_event_graph_in cs Hgen) in Hx.
  destruct Hx as [(i & v & r & Hv & Hr & Hx)|(c & vs & vd & r & Hc & V1 & V2 & Hr & Hx)].
  - destruct (K_nat i v Hv) as [Hk Hkp].
    apply (serialised_selfloop v (N i) (Z.to_nat (K i)) (vertex_ok i v Hv) Hkp (HN i (vertex_lt _ _ Hv)) omega St r).
    + apply Hre. eapply nth_error_In; exact Hv.
    + apply Hni. eapply nth_error_In; exact Hv.
    + rewrite <- Hk. exact Hr.
    + eapply serialised_ext; [apply (sch_at i v Hv)|]. apply (Hser i v Hv).
    + exact Hx.
  - destruct (edge_shape c Hc) as (vs' & vd' & V1' & V2' & Hs & Hd & Hsh).
    rewrite V1 in V1'. rewrite V2 in V2'. injection V1' as <-. injection V2' as <-.
    destruct (K_nat _ _ V1) as [Hk1 Hkp1]. destruct (K_nat _ _ V2) as [Hk2 Hkp2].
    pose proof (Hser _ _ V1) as S1. pose proof (Hser _ _ V2) as S2. unfold task_serialised in S1, S2.
    apply (serialised_ext _ (ks (e_src c) vs)) in S1; [|apply (sch_at _ _ V1)].
  apply (serialised_ext _ (ks (e_dst c) vd)) in S2; [|apply (sch_at _ _ V2)].
    rewrite Hk1, Hk2 in Hr.
    apply (orders_satisfied var c vs vd _ _ (N (e_src c)) (N (e_dst c)) Hs Hd Hsh Hkp1 Hkp2) with (cs := r).
    + apply HN, (vertex_lt _ _ V1).
    + apply HN, (vertex_lt _ _ V2).
    + apply Hbal. exact Hc.
    + apply Hni. eapply nth_error_In; exact V1.
    + apply Hni. eapply nth_error_In; exact V2.
    + exact Hr.
    + apply (useful_ordered_necessary (e_preload c) _ (prod_rate c)).
      * apply (prod_rate_nn c vs vd Hs Hsh).
      * apply serialised_mono_end; assumption.
      * eapply serialised_mono_start; eassumption.
      * apply (never_negative_ext _ (end_of sch g (e_src c)) _ _ (start_of sch (e_dst c))); [| |exact (Hch c Hc)].
        -- intros m. unfold end_of. rewrite V1. change (sch (e_src c) m) with (start_of sch (e_src c) m).
           rewrite (sch_at _ _ V1). reflexivity.
        -- apply (sch_at _ _ V2).
    + exact Hx.
Qed.
End G.
