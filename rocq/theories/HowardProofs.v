(** Proofs about Howard's policy iteration. *)
From Coq Require Import QArith Qabs Qreduction Lqa.
From Verif Require Import Base Graph KPeriodic EventGraph EventGraphSpec EventGraphProofs Howard.
Open Scope Z_scope.

Lemma lessb_true a b : lessb a b = true <-> (a < b)%Q.
Proof. unfold lessb. rewrite negb_true_iff. destruct (Qle_bool b a) eqn:E; [apply Qle_bool_iff in E|]; split; intros H; auto; try discriminate; [lra|].
  apply Qnot_le_lt. intros L. apply Qle_bool_iff in L. congruence. Qed.
Lemma lessb_false a b : lessb a b = false <-> (b <= a)%Q.
Proof. unfold lessb. rewrite negb_false_iff. apply Qle_bool_iff. Qed.
Lemma better_true o a b : better o a b = true <-> (multiplier o * b < multiplier o * a)%Q.
Proof. destruct o; unfold better, multiplier; rewrite lessb_true; split; intros; lra. Qed.
Lemma better_false o a b : better o a b = false <-> (multiplier o * a <= multiplier o * b)%Q.
Proof. destruct o; unfold better, multiplier; rewrite lessb_false; split; intros; lra. Qed.
Lemma mult_sq o : (multiplier o * multiplier o == 1)%Q.
Proof. destruct o; unfold multiplier; lra. Qed.

Lemma upd_same {A} (f : event -> A) v x : upd f v x v = x.
Proof. unfold upd. rewrite event_eqb_refl. reflexivity. Qed.
Lemma upd_other {A} (f : event -> A) v x u : u <> v -> upd f v x u = f u.
Proof. unfold upd. intros H. destruct (event_eqb u v) eqn:E; [apply event_eqb_eq in E; contradiction|reflexivity]. Qed.
Lemma event_dec (a b : event) : {a = b} + {a <> b}.
Proof. destruct (event_eqb a b) eqn:E; [left; apply event_eqb_eq; assumption|right; intros ->; rewrite event_eqb_refl in E; discriminate]. Qed.
Lemma existsb_In u l : existsb (event_eqb u) l = true <-> In u l.
Proof. rewrite existsb_exists. split; [intros (x & H & E); apply event_eqb_eq in E; subst; auto|intros H; exists u; split; [auto|apply event_eqb_refl]]. Qed.
Lemma existsb_notIn u l : existsb (event_eqb u) l = false <-> ~ In u l.
Proof. rewrite <- existsb_In. destruct (existsb (event_eqb u) l); split; intros; congruence || (exfalso; auto). Qed.

Lemma out_edges_In cs v c : In c (out_edges cs v) <-> In c cs /\ c_source c = v.
Proof. unfold out_edges. rewrite filter_In, event_eqb_eq. reflexivity. Qed.

(** * Nothing to improve: the distances certify the ratio. *)
Lemma improve_arcs_true o eps cr v l : forall h h' b, improve_arcs o eps cr v l h true = Ok (h', b) -> b = true.
Proof.
  induction l as [|c l IH]; intros h h' b; cbn [improve_arcs]; [intros [= _ <-]; reflexivity|].
  destruct better; [|apply IH]. destruct (improve_policy h v c); cbn [bind]; try discriminate. apply IH.
Qed.
Lemma improve_arcs_false o eps cr v l : forall h h', improve_arcs o eps cr v l h false = Ok (h', false) ->
  h' = h /\ forall c, In c l -> better o (h_dm h v - eps * multiplier o * improve_ratio)%Q (c_w c - c_d c * cr + h_dm h (c_target c))%Q = false.
Proof.
  induction l as [|c l IH]; intros h h'; cbn [improve_arcs]; [intros [= <-]; split; [reflexivity|intros ? []]|].
  destruct better eqn:E.
  - destruct (improve_policy h v c); cbn [bind]; try discriminate. intros H. apply improve_arcs_true in H. discriminate.
  - intros H. apply IH in H. destruct H as [-> H]. split; [reflexivity|]. intros x [<-|I]; auto.
Qed.
Lemma try_improve_true o eps cr cs vs : forall h h' b, try_improve o eps cr cs vs h true = Ok (h', b) -> b = true.
Proof.
  induction vs as [|v vs IH]; intros h h' b; cbn [try_improve]; [intros [= _ <-]; reflexivity|].
  destruct (h_bad h v); cbn [negb].
  - destruct (h_sink h); try discriminate. apply IH.
  - destruct improve_arcs as [[h1 b1]| | |] eqn:E; cbn [bind]; try discriminate. apply improve_arcs_true in E as ->. apply IH.
Qed.
Lemma try_improve_false o eps cr cs vs : forall h h', try_improve o eps cr cs vs h false = Ok (h', false) ->
  h_cc h' = h_cc h /\
  forall v c, In v vs -> h_bad h v = false -> In c (out_edges cs v) -> h_bad h (c_target c) = false ->
    better o (h_dm h v - eps * multiplier o * improve_ratio)%Q (c_w c - c_d c * cr + h_dm h (c_target c))%Q = false.
Proof.
  induction vs as [|v vs IH]; intros h h'; cbn [try_improve]; [intros [= <-]; split; [reflexivity|intros ? ? []]|].
  destruct (h_bad h v) eqn:B; cbn [negb].
  - destruct (h_sink h) as [sk|]; try discriminate. set (h1 := if better o _ _ then set_dm h v _ else h).
    assert (E : h_bad h1 = h_bad h /\ h_cc h1 = h_cc h /\ forall u, h_bad h u = false -> h_dm h1 u = h_dm h u).
    { unfold h1. destruct better; [|auto]. split; [reflexivity|]. split; [reflexivity|]. intros u Bu. cbn. apply upd_other. congruence. }
    destruct E as (E1 & E2 & E3). intros H. apply IH in H. destruct H as [Hc H]. split; [congruence|].
    intros u c [<-|I] Bu Ic Bt; [congruence|]. specialize (H u c I). rewrite E1 in H. specialize (H Bu Ic Bt). rewrite !E3 in H by assumption. exact H.
  - destruct improve_arcs as [[h1 b1]| | |] eqn:E; cbn [bind fst snd]; try discriminate. intros H.
    destruct b1; [apply try_improve_true in H; discriminate|]. apply improve_arcs_false in E. destruct E as [-> E].
    apply IH in H. destruct H as [Hc H]. split; [assumption|]. intros u c [<-|I] Bu Ic Bt; auto.
Qed.

Lemma telescope (phi : event -> Q) e cr l : forall u v, path u l v ->
  (forall c, In c l -> phi (c_source c) - e <= c_w c - c_d c * cr + phi (c_target c))%Q ->
  (phi u - inject_Z (Z.of_nat (length l)) * e <= sumQ c_w l - cr * sumQ c_d l + phi v)%Q.
Proof.
  induction l as [|c l IH]; intros u v P H; cbn [path length] in *.
  - subst. rewrite !sumQ_nil. change (inject_Z (Z.of_nat 0)) with 0%Q. lra.
  - destruct P as [<- P]. specialize (IH _ _ P (fun x I => H x (or_intror I))). specialize (H c (or_introl eq_refl)).
    rewrite !sumQ_cons, Nat2Z.inj_succ. unfold Z.succ. rewrite inject_Z_plus. change (inject_Z 1) with 1%Q. lra.
Qed.

Lemma path_sources u l v c : path u l v -> In c l -> c_target c = v \/ exists c', In c' l /\ c_source c' = c_target c.
Proof.
  revert u. induction l as [|x l IH]; intros u P I; [destruct I|]. destruct P as [E P]. destruct I as [<-|I].
  - destruct l as [|y l]; [left; exact P|]. right. exists y. split; [right; left; reflexivity|apply P].
  - destruct (IH _ P I) as [H|(c' & H & E')]; [left; assumption|right; exists c'; split; [right|]; assumption].
Qed.
Lemma circuit_successor cs l c : circuit cs l -> In c l -> exists c', In c' l /\ c_source c' = c_target c.
Proof.
  intros (N & _ & u & P) I. destruct (path_sources _ _ _ _ P I) as [E|H]; [|assumption].
  destruct l as [|x l]; [contradiction|]. exists x. split; [left; reflexivity|]. destruct P as [-> _]. symmetry. exact E.
Qed.

Lemma certified o eps cr cs evs h h' : closed evs cs -> (forall v, h_bad h v = true -> out_edges cs v = []) ->
  try_improve o eps cr cs evs h false = Ok (h', false) ->
  forall l, circuit cs l ->
    (multiplier o * (cr * sumQ c_d l) <= multiplier o * sumQ c_w l + inject_Z (Z.of_nat (length l)) * (improve_ratio * eps))%Q.
Proof.
  intros CL B H l C. apply try_improve_false in H. destruct H as [_ H]. pose proof C as C'. destruct C' as (N & I & u & P).
  assert (G : forall c, In c cs -> h_bad h (c_source c) = false).
  { intros c Ic. destruct (h_bad h (c_source c)) eqn:E; [|reflexivity]. apply B in E.
    assert (F : In c (out_edges cs (c_source c))) by (apply out_edges_In; auto). rewrite E in F. destruct F. }
  assert (K : forall c, In c l -> (multiplier o * h_dm h (c_source c) - improve_ratio * eps <= multiplier o * (c_w c - c_d c * cr) + multiplier o * h_dm h (c_target c))%Q).
  { intros c Ic. destruct (circuit_successor _ _ _ C Ic) as (c' & Ic' & Ec'). pose proof (G _ (I _ Ic')) as G'. rewrite Ec' in G'.
    assert (Q1 := H (c_source c) c (proj1 (CL c (I c Ic))) (G _ (I _ Ic)) (proj2 (out_edges_In _ _ _) (conj (I _ Ic) eq_refl)) G').
    apply better_false in Q1. pose proof (mult_sq o) as M. 
    assert (E1 : (multiplier o * (h_dm h (c_source c) - eps * multiplier o * improve_ratio) == multiplier o * h_dm h (c_source c) - (multiplier o * multiplier o) * (improve_ratio * eps))%Q) by ring.
    rewrite E1, M in Q1. lra. }
  destruct o; unfold multiplier in K |- *.
  - pose proof (telescope (h_dm h) (improve_ratio * eps) cr l u u P) as T. apply Qle_trans with (y := (sumQ c_w l + inject_Z (Z.of_nat (length l)) * (improve_ratio * eps))%Q); [|lra].
    assert (T' : (h_dm h u - inject_Z (Z.of_nat (length l)) * (improve_ratio * eps) <= sumQ c_w l - cr * sumQ c_d l + h_dm h u)%Q); [|lra].
    apply T. intros c Ic. specialize (K c Ic). lra.
  - assert (T : forall u v, path u l v -> (- h_dm h u - inject_Z (Z.of_nat (length l)) * (improve_ratio * eps) <= - sumQ c_w l + cr * sumQ c_d l - h_dm h v)%Q).
    { clear - K. induction l as [|c l IH]; intros u v P; cbn [path length] in *.
      - subst. rewrite !sumQ_nil. change (inject_Z (Z.of_nat 0)) with 0%Q. lra.
      - destruct P as [<- P]. specialize (IH (fun x I => K x (or_intror I)) _ _ P). specialize (K c (or_introl eq_refl)).
        rewrite !sumQ_cons, Nat2Z.inj_succ. unfold Z.succ. rewrite inject_Z_plus. change (inject_Z 1) with 1%Q. lra. }
    specialize (T u u P). lra.
Qed.

(** * What each step leaves alone. *)
Definition same_but_dm (h h' : howard) : Prop :=
  h_bound h' = h_bound h /\ h_cr h' = h_cr h /\ h_policy h' = h_policy h /\ h_inel h' = h_inel h /\ h_bad h' = h_bad h /\ h_sink h' = h_sink h /\ h_cc h' = h_cc h.
Lemma same_refl h : same_but_dm h h. Proof. repeat split. Qed.
Lemma same_trans a b c : same_but_dm a b -> same_but_dm b c -> same_but_dm a c.
Proof. intros (A1 & A2 & A3 & A4 & A5 & A6 & A7) (B1 & B2 & B3 & B4 & B5 & B6 & B7). repeat split; congruence. Qed.
Lemma same_dm h v x : same_but_dm h (set_dm h v x). Proof. repeat split. Qed.
Lemma spread_same sv v cr ins : forall h q b r, spread sv v cr ins h q b = Ok r -> same_but_dm h (fst (fst r)).
Proof.
  induction ins as [|u ins IH]; intros h q b r; cbn [spread]; [intros [= <-]; apply same_refl|].
  destruct (event_eqb u sv); [apply IH|]. destruct (h_bad h u); cbn [bind].
  - intros H. apply IH in H. eapply same_trans; [apply same_dm|exact H].
  - destruct (h_policy h u); cbn [bind]; try discriminate. intros H. apply IH in H. eapply same_trans; [apply same_dm|exact H].
Qed.
Lemma bfv_same fuel sv cr : forall q h b r, bfv fuel sv cr q h b = Ok r -> same_but_dm h (fst r).
Proof.
  induction fuel as [|f IH]; intros q h b r; cbn [bfv]; [discriminate|]. destruct q as [|v q]; [intros [= <-]; apply same_refl|].
  destruct spread as [s| | |] eqn:E; cbn [bind]; try discriminate. intros H. apply IH in H. apply spread_same in E. eapply same_trans; eassumption.
Qed.

(** * The value kept is that of a circuit. *)
Definition policy_ok (cs : list constraint) (h : howard) : Prop := forall v c, h_policy h v = Some c -> In c cs /\ c_source c = v.
Definition attained (cs : list constraint) (b0 value : Q) (cc : list constraint) : Prop :=
  (value = b0 /\ cc = []) \/ (circuit cs cc /\ ~ (sumQ c_d cc == 0)%Q /\ (value * sumQ c_d cc == sumQ c_w cc)%Q).

Lemma path_app l1 l2 : forall u v w, path u l1 v -> path v l2 w -> path u (l1 ++ l2) w.
Proof. induction l1 as [|c l1 IH]; intros u v w; cbn [path app]; [intros -> H; exact H|]. intros [E P] H. split; [assumption|]. eapply IH; eassumption. Qed.

Lemma walk_path cs fuel h sv : policy_ok cs h -> forall v cc s1 s2 r, walk_cycle fuel h sv v cc s1 s2 = Ok r ->
  incl cc cs -> path sv cc v -> (s1 == sumQ c_w cc)%Q -> (s2 == sumQ c_d cc)%Q ->
  fst (fst r) <> [] /\ incl (fst (fst r)) cs /\ path sv (fst (fst r)) sv /\ (snd (fst r) == sumQ c_w (fst (fst r)))%Q /\ (snd r == sumQ c_d (fst (fst r)))%Q.
Proof.
  intros PO. induction fuel as [|f IH]; intros v cc s1 s2 r; cbn [walk_cycle]; [discriminate|].
  destruct (h_policy h v) as [c|] eqn:E; try discriminate. apply PO in E. destruct E as [Ic Ec].
  intros H HI HP H1 H2.
  assert (X : incl (cc ++ [c]) cs /\ path sv (cc ++ [c]) (c_target c) /\ (s1 + c_w c == sumQ c_w (cc ++ [c]))%Q /\ (s2 + c_d c == sumQ c_d (cc ++ [c]))%Q).
  { split; [intros x Ix; apply in_app_iff in Ix; destruct Ix as [Ix|[<-|[]]]; auto|].
    split; [eapply path_app; [exact HP|cbn; auto]|]. rewrite !sumQ_app, !sumQ_cons, !sumQ_nil, H1, H2. split; ring. }
  destruct X as (X1 & X2 & X3 & X4). destruct (event_eqb (c_target c) sv) eqn:Et.
  - assert (r = (cc ++ [c], (s1 + c_w c)%Q, (s2 + c_d c)%Q)) as -> by congruence. cbn [fst snd]. apply event_eqb_eq in Et. rewrite Et in X2.
    repeat (split; [assumption|]) || split; auto. destruct cc; discriminate.
  - cbn [fst snd] in H. eapply IH; eassumption.
Qed.

Lemma cycle_ratio_spec o cs fuel h sv r : policy_ok cs h -> cycle_ratio o fuel h sv = Ok r ->
  (fst r = h /\ (snd r = h_bound h \/ (multiplier o * h_cr h <= multiplier o * snd r)%Q)) \/
  ((multiplier o * snd r < multiplier o * h_cr h)%Q /\ exists cc, fst r = set_cr h (snd r) cc /\ circuit cs cc /\ ~ (sumQ c_d cc == 0)%Q /\ (snd r * sumQ c_d cc == sumQ c_w cc)%Q).
Proof.
  intros PO. unfold cycle_ratio. destruct (is_sink h sv); [intros [= <-]; left; cbn; auto|].
  destruct walk_cycle as [w| | |] eqn:E; cbn [bind]; try discriminate.
  destruct (walk_path cs _ _ _ PO _ _ _ _ _ E ltac:(intros ? []) eq_refl ltac:(reflexivity) ltac:(reflexivity)) as (W1 & W2 & W3 & W4 & W5).
  destruct (Qeq_bool (snd w) 0) eqn:Z; try discriminate. apply Qeq_bool_neq in Z. intros H.
  set (cr := Qred (snd (fst w) / snd w)) in *. assert (r = (if better o (h_cr h) cr then set_cr h cr (fst (fst w)) else h, cr)) as -> by congruence. cbn [fst snd].
  destruct (better o (h_cr h) cr) eqn:B.
  - right. apply better_true in B. split; [assumption|]. exists (fst (fst w)). split; [reflexivity|]. split; [repeat split; eauto|].
    split; [rewrite <- W5; assumption|]. unfold cr. rewrite Qred_correct, <- W5, <- W4. field. assumption.
  - left. split; [reflexivity|]. right. apply better_false. assumption.
Qed.

Definition keeps (cs : list constraint) (h h' : howard) : Prop :=
  h_bound h' = h_bound h /\ h_policy h' = h_policy h /\ h_inel h' = h_inel h /\ h_bad h' = h_bad h /\ h_sink h' = h_sink h.
Lemma policy_loop_spec o cs b0 fuel vs : forall h black mcr r, policy_ok cs h -> h_cr h = mcr -> attained cs b0 mcr (h_cc h) ->
  (multiplier o * mcr <= multiplier o * h_bound h)%Q -> policy_loop o fuel vs h black mcr = Ok r ->
  keeps cs h (fst r) /\ attained cs b0 (snd r) (h_cc (fst r)) /\ (multiplier o * snd r <= multiplier o * mcr)%Q.
Proof.
  induction vs as [|v vs IH]; intros h black mcr r PO Ec At Le; cbn [policy_loop]; [intros [= <-]; cbn [fst snd]; repeat split; auto; lra|].
  destruct (existsb (event_eqb v) black); [apply IH; assumption|].
  destruct find_cycle_vertex as [gv| | |]; cbn [bind]; try discriminate.
  destruct (cycle_ratio o fuel h gv) as [cr| | |] eqn:E; cbn [bind]; try discriminate.
  destruct bfv as [b| | |] eqn:Eb; cbn [bind]; try discriminate. apply bfv_same in Eb. destruct Eb as (B1 & B2 & B3 & B4 & B5 & B6 & B7).
  apply (cycle_ratio_spec o cs) in E; [|assumption]. destruct E as [[Eh Hv]|[Lt (cc & Eh & C1 & C2 & C3)]].
  - assert (Nb : better o mcr (snd cr) = false) by (apply better_false; destruct Hv as [->|H]; [assumption|rewrite <- Ec; assumption]).
    rewrite Nb. intros H. apply IH in H; rewrite ?B1, ?B2, ?B7, ?Eh; auto.
    + destruct H as ((K1 & K2 & K3 & K4 & K5) & H). split; [|exact H]. unfold keeps. rewrite B1, Eh in K1. rewrite B3, Eh in K2. rewrite B4, Eh in K3. rewrite B5, Eh in K4. rewrite B6, Eh in K5. repeat split; assumption.
    + unfold policy_ok. rewrite B3, Eh. exact PO.
  - rewrite Ec in Lt. assert (Nb : better o mcr (snd cr) = true) by (apply better_true; assumption). rewrite Nb. intros H.
    apply IH in H; rewrite ?B1, ?B2, ?B7, ?Eh; cbn [set_cr h_bound h_cr h_cc].
    + destruct H as ((K1 & K2 & K3 & K4 & K5) & H1 & H2). rewrite B1, Eh in K1. rewrite B3, Eh in K2. rewrite B4, Eh in K3. rewrite B5, Eh in K4. rewrite B6, Eh in K5.
      split; [repeat split; assumption|]. split; [assumption|]. lra.
    + unfold policy_ok. rewrite B3, Eh. exact PO.
    + reflexivity.
    + right. auto.
    + lra.
Qed.

Lemma improve_arcs_keeps o eps cr cs v l : forall h h' b0 b, incl l (out_edges cs v) -> policy_ok cs h -> improve_arcs o eps cr v l h b0 = Ok (h', b) ->
  policy_ok cs h' /\ h_bound h' = h_bound h /\ h_cc h' = h_cc h /\ h_bad h' = h_bad h.
Proof.
  induction l as [|c l IH]; intros h h' b0 b I PO; cbn [improve_arcs]; [intros [= <- _]; auto|].
  assert (I' : incl l (out_edges cs v)) by (intros x Hx; apply I; right; assumption).
  destruct better; [|apply IH; assumption]. destruct (improve_policy h v c) as [h1| | |] eqn:E; cbn [bind]; try discriminate. unfold improve_policy in E.
  destruct (h_policy h v); try discriminate. destruct erase_first; cbn [bind] in E; try discriminate. injection E as <-.
  intros H. apply IH in H; cbn [set_dm h_bound h_cc h_bad h_policy] in *; auto.
  intros u x. cbn. unfold upd. destruct (event_eqb u v) eqn:Eu; [|apply PO]. intros [= <-]. apply event_eqb_eq in Eu. subst u.
  apply out_edges_In. apply I. left. reflexivity.
Qed.
Lemma try_improve_keeps o eps cr cs vs : forall h h' b0 b, policy_ok cs h -> try_improve o eps cr cs vs h b0 = Ok (h', b) ->
  policy_ok cs h' /\ h_bound h' = h_bound h /\ h_cc h' = h_cc h /\ h_bad h' = h_bad h.
Proof.
  induction vs as [|v vs IH]; intros h h' b0 b PO; cbn [try_improve]; [intros [= <- _]; auto|].
  destruct (h_bad h v); cbn [negb].
  - destruct (h_sink h) as [sk|]; try discriminate. set (h1 := if better o _ _ then set_dm h v _ else h).
    assert (E : h_policy h1 = h_policy h /\ h_bound h1 = h_bound h /\ h_cc h1 = h_cc h /\ h_bad h1 = h_bad h) by (unfold h1; destruct better; auto).
    destruct E as (E1 & E2 & E3 & E4). intros H. apply IH in H; [rewrite <- E2, <- E3, <- E4; exact H|]. unfold policy_ok. rewrite E1. exact PO.
  - destruct improve_arcs as [[h1 b1]| | |] eqn:E; cbn [bind fst snd]; try discriminate. apply (improve_arcs_keeps o eps cr cs) in E; [|apply incl_refl|assumption].
    destruct E as (E1 & E2 & E3 & E4). intros H. apply IH in H; [|assumption]. rewrite <- E2, <- E3, <- E4. exact H.
Qed.

Lemma rounds_spec o eps cs evs b0 fuel : closed evs cs -> forall k h r, policy_ok cs h -> (forall v, h_bad h v = true -> out_edges cs v = []) ->
  attained cs b0 (h_bound h) (h_cc h) -> (multiplier o * h_bound h <= multiplier o * b0)%Q ->
  rounds o eps fuel k evs cs h = Ok r ->
  attained cs b0 (snd (fst r)) (h_cc (fst (fst r))) /\ (multiplier o * snd (fst r) <= multiplier o * b0)%Q /\
  (snd r = true -> forall l, circuit cs l ->
    (multiplier o * (snd (fst r) * sumQ c_d l) <= multiplier o * sumQ c_w l + inject_Z (Z.of_nat (length l)) * (improve_ratio * eps))%Q).
Proof.
  intros CL. induction k as [|k IH]; intros h r PO HB At Le; cbn [rounds]; unfold policy_mcr;
    (destruct policy_loop as [p| | |] eqn:E; cbn [bind]; try discriminate; apply (policy_loop_spec o cs b0) in E; [|assumption|reflexivity|assumption|apply Qle_refl]);
    destruct E as ((K1 & K2 & K3 & K4 & K5) & A & L); cbn [set_cr h_bound h_policy h_inel h_bad h_sink] in *;
    (destruct try_improve as [[h2 b2]| | |] eqn:E2; cbn [bind]; try discriminate);
    pose proof E2 as E3; (apply try_improve_keeps in E3; [|unfold policy_ok; cbn; rewrite K2; exact PO]); destruct E3 as (T1 & T2 & T3 & T4); cbn [set_bound h_bound h_cc h_bad fst snd] in *;
    destruct b2.
  - intros [= <-]. cbn [fst snd]. rewrite T3. split; [assumption|]. split; [lra|discriminate].
  - intros H. assert (r = (h2, snd p, true)) as -> by congruence. cbn [fst snd]. rewrite T3. split; [assumption|]. split; [lra|]. intros _ l C. refine (certified _ _ _ _ _ _ _ CL _ E2 l C).
    intros v. cbn. rewrite K4. apply HB.
  - intros H. apply IH in H; auto.
    + intros v. rewrite T4, K4. apply HB.
    + rewrite T2, T3. assumption.
    + rewrite T2. lra.
  - intros H. assert (r = (h2, snd p, true)) as -> by congruence. cbn [fst snd]. rewrite T3. split; [assumption|]. split; [lra|]. intros _ l C. refine (certified _ _ _ _ _ _ _ CL _ E2 l C).
    intros v. cbn. rewrite K4. apply HB.
Qed.

Lemma best_arc_In o l : forall b, best_arc o b l = b \/ In (best_arc o b l) l.
Proof. induction l as [|c l IH]; intros b; cbn [best_arc]; [auto|]. destruct (IH (if better o (c_w b) (c_w c) then c else b)) as [->|H]; [destruct better; cbn; auto|cbn; auto]. Qed.
Lemma construct_keeps o cs vs : forall h, policy_ok cs h -> (forall v, h_bad h v = true -> out_edges cs v = []) ->
  let h' := construct_policy o cs vs h in
  policy_ok cs h' /\ (forall v, h_bad h' v = true -> out_edges cs v = []) /\ h_bound h' = h_bound h /\ h_cc h' = h_cc h.
Proof.
  induction vs as [|v vs IH]; intros h PO HB; cbn [construct_policy]; [auto|]. destruct (out_edges cs v) as [|c l] eqn:E.
  - cbv zeta. match goal with |- context [construct_policy o cs vs ?x] => destruct (IH x) as (A1 & A2 & A3 & A4) end; [exact PO| |auto].
    intros u. cbn. unfold upd. destruct (event_eqb u v) eqn:Eu; [|apply HB]. apply event_eqb_eq in Eu. congruence.
  - cbv zeta. match goal with |- context [construct_policy o cs vs ?x] => destruct (IH x) as (A1 & A2 & A3 & A4) end; [|exact HB|auto].
    intros u x. cbn. unfold upd. destruct (event_eqb u v) eqn:Eu; [|apply PO]. intros [= <-]. apply event_eqb_eq in Eu. subst u.
    apply out_edges_In. rewrite E. destruct (best_arc_In o l c) as [->|H]; cbn; auto.
Qed.

Lemma ocr_spec o eps bound evs cs r : closed evs cs -> ocr_howard o eps bound evs cs = Ok r ->
  let b0 := match bound with Some b => b | None => mcr_bound o eps evs cs end in
  exists mcr, attained cs b0 mcr (r_cycle r) /\ (multiplier o * mcr <= multiplier o * b0)%Q /\
    r_value r = (if better o mcr (mcr_bound o eps evs cs - eps * multiplier o * multiplier o)%Q then None else Some mcr) /\
    (r_settled r = true -> forall l, circuit cs l ->
      (multiplier o * (mcr * sumQ c_d l) <= multiplier o * sumQ c_w l + inject_Z (Z.of_nat (length l)) * (improve_ratio * eps))%Q).
Proof.
  intros CL. unfold ocr_howard. set (b0 := match bound with Some b => b | None => _ end). set (h := mkHoward b0 b0 _ _ _ _ _ _).
  destruct (construct_keeps o cs evs h) as (P1 & P2 & P3 & P4); [intros v c; discriminate|intros v; discriminate|].
  destruct rounds as [x| | |] eqn:E; cbn [bind]; try discriminate. intros H. cbv zeta.
  assert (r = mkRatio (if better o (snd (fst x)) (mcr_bound o eps evs cs - eps * multiplier o * multiplier o)%Q then None else Some (snd (fst x))) (h_cc (fst (fst x))) (snd x)) as -> by congruence.
  apply (rounds_spec o eps cs evs b0) in E; auto.
  - destruct E as (E1 & E2 & E3). exists (snd (fst x)). cbn. auto.
  - left. rewrite P3, P4. auto.
  - rewrite P3. apply Qle_refl.
Qed.
