(** Howard's policy iteration always answers. *)
From Coq Require Import QArith Qabs Qreduction Lqa.
From Verif Require Import Base Graph KPeriodic EventGraph EventGraphSpec EventGraphProofs Howard HowardProofs.
Open Scope Z_scope.

(** The policy graph is a function on the events, and m_inel its inverse. *)
Record sound (cs : list constraint) (evs : list event) (h : howard) : Prop := {
  s_good : forall v, In v evs -> h_bad h v = false -> exists c, h_policy h v = Some c;
  s_policy : policy_ok cs h;
  s_sink : forall v, h_bad h v = true -> exists s, h_sink h = Some s;
  s_bad : forall s, h_sink h = Some s -> h_bad h s = true;
  s_in : forall v, h_bad h v = true -> In v evs;
  s_inel : forall x v, In v (h_inel h x) <-> In v evs /\ policy_next h v = Ok x;
  s_nodup : forall x, NoDup (h_inel h x) }.

Lemma next_total cs evs h v : closed evs cs -> sound cs evs h -> In v evs -> exists u, policy_next h v = Ok u /\ In u evs.
Proof.
  intros CL S I. unfold policy_next. destruct (h_bad h v) eqn:B.
  - destruct (s_sink _ _ _ S _ B) as (s & E). rewrite E. exists s. split; [reflexivity|]. apply (s_in _ _ _ S). apply (s_bad _ _ _ S). assumption.
  - destruct (s_good _ _ _ S _ I B) as (c & E). rewrite E. exists (c_target c). split; [reflexivity|]. apply CL. apply (s_policy _ _ _ S v c E).
Qed.

Lemma same_next h h' v : h_policy h' = h_policy h -> h_bad h' = h_bad h -> h_sink h' = h_sink h -> policy_next h' v = policy_next h v.
Proof. intros P B S. unfold policy_next. rewrite P, B, S. reflexivity. Qed.
Lemma sound_same cs evs h h' : h_policy h' = h_policy h -> h_inel h' = h_inel h -> h_bad h' = h_bad h -> h_sink h' = h_sink h ->
  sound cs evs h -> sound cs evs h'.
Proof.
  intros P I B S [A1 A2 A3 A4 A5 A6 A7]. constructor.
  - rewrite P, B. assumption.
  - unfold policy_ok. rewrite P. assumption.
  - rewrite B, S. assumption.
  - rewrite B, S. assumption.
  - rewrite B. assumption.
  - intros x v. rewrite I, (same_next h h') by assumption. apply A6.
  - rewrite I. assumption.
Qed.

Lemma NoDup_snoc (l : list event) v : NoDup l -> ~ In v l -> NoDup (l ++ [v]).
Proof. induction l as [|x l IH]; cbn; intros N I; [repeat constructor; intros []|]. inversion_clear N. constructor; [rewrite in_app_iff; cbn; intuition|apply IH; tauto]. Qed.

Lemma NoDup_join (l new : list event) : NoDup l -> NoDup new -> (forall u, In u new -> ~ In u l) -> NoDup (l ++ new).
Proof.
  induction l as [|x l IHl]; intros ND ND2 Fr; [exact ND2|]. inversion_clear ND. cbn. constructor.
  - rewrite in_app_iff. intros [X|X]; [contradiction|]. apply (Fr x X). left. reflexivity.
  - apply IHl; [assumption|assumption|]. intros u Hu X. apply (Fr u Hu). right. assumption.
Qed.

(** ** Building the first policy. *)
Lemma construct_sound o cs vs : forall done h, NoDup (done ++ vs) -> sound cs done h -> (forall v, h_policy h v <> None -> In v done) ->
  sound cs (done ++ vs) (construct_policy o cs vs h).
Proof.
  induction vs as [|v vs IH]; intros done h ND S HP; cbn [construct_policy]; [rewrite app_nil_r; assumption|].
  assert (Nv : ~ In v done) by (apply NoDup_remove_2 in ND; rewrite in_app_iff in ND; tauto).
  replace (done ++ v :: vs) with ((done ++ [v]) ++ vs) by (rewrite <- app_assoc; reflexivity).
  assert (ND' : NoDup ((done ++ [v]) ++ vs)) by (rewrite <- app_assoc; exact ND).
  destruct S as [A1 A2 A3 A4 A5 A6 A7].
  assert (Nb : h_bad h v = false) by (destruct (h_bad h v) eqn:E; [exfalso; auto|reflexivity]).
  assert (Np : h_policy h v = None) by (destruct (h_policy h v) eqn:E; [exfalso; apply Nv, HP; congruence|reflexivity]).
  assert (Ni : forall x, ~ In v (h_inel h x)) by (intros x I; apply A6 in I; tauto).
  destruct (out_edges cs v) as [|c l] eqn:E.
  - set (s := match h_sink h with Some s => s | None => v end).
    assert (Nx : forall u, In u done -> policy_next (mkHoward (h_bound h) (h_cr h) (h_dm h) (h_policy h) (upd (h_inel h) s (h_inel h s ++ [v])) (upd (h_bad h) v true) (Some s) (h_cc h)) u = policy_next h u).
    { intros u Iu. unfold policy_next. cbn. rewrite upd_other by (intros ->; contradiction). destruct (h_bad h u) eqn:B; [|reflexivity].
      destruct (A3 _ B) as (s' & Es). unfold s. rewrite Es. reflexivity. }
    apply IH; [assumption| |].
    + constructor; cbn.
      * intros u Iu. unfold upd. destruct (event_eqb u v) eqn:Eu; [discriminate|]. apply in_app_iff in Iu. destruct Iu as [Iu|[<-|[]]]; [auto|rewrite event_eqb_refl in Eu; discriminate].
      * exact A2.
      * intros u _. eauto.
      * intros s' [= <-]. unfold s. destruct (h_sink h) as [s'|] eqn:Es; [|apply upd_same]. destruct (event_dec s' v) as [->|N]; [apply upd_same|]. rewrite upd_other by assumption. auto.
      * intros u. unfold upd. destruct (event_eqb u v) eqn:Eu; [apply event_eqb_eq in Eu as ->; intros _; apply in_app_iff; right; left; reflexivity|]. intros B. apply in_app_iff. left. auto.
      * intros x u. destruct (event_dec u v) as [->|N].
        -- unfold policy_next at 1. cbn. rewrite upd_same. destruct (event_dec x s) as [->|Nx'].
           ++ rewrite upd_same, !in_app_iff. cbn. tauto.
           ++ rewrite upd_other by assumption. split; [intros I; exfalso; exact (Ni _ I)|intros [_ X]; congruence].
        -- assert (Eq : (In u (upd (h_inel h) s (h_inel h s ++ [v]) x) <-> In u (h_inel h x))).
           { destruct (event_dec x s) as [->|Nx']; [rewrite upd_same, in_app_iff; cbn; intuition congruence|rewrite upd_other by assumption; reflexivity]. }
           rewrite Eq, A6. split.
           ++ intros [I P]. split; [apply in_app_iff; auto|]. rewrite Nx by assumption. assumption.
           ++ intros [I P]. apply in_app_iff in I. destruct I as [I|[I|[]]]; [|congruence]. rewrite Nx in P by assumption. auto.
      * intros x. destruct (event_dec x s) as [->|Nx']; [rewrite upd_same|rewrite upd_other by assumption; apply A7].
        apply NoDup_snoc; [apply A7|apply Ni].
    + cbn. intros u H. apply in_app_iff. left. auto.
  - set (m := best_arc o c l).
    assert (Im : In m cs /\ c_source m = v) by (apply out_edges_In; rewrite E; unfold m; destruct (best_arc_In o l c) as [->|H]; cbn; auto).
    assert (Nx : forall u, In u done -> policy_next (mkHoward (h_bound h) (h_cr h) (h_dm h) (upd (h_policy h) v (Some m)) (upd (h_inel h) (c_target m) (h_inel h (c_target m) ++ [v])) (h_bad h) (h_sink h) (h_cc h)) u = policy_next h u).
    { intros u Iu. unfold policy_next. cbn. rewrite upd_other by (intros ->; contradiction). reflexivity. }
    apply IH; [assumption| |].
    + constructor; cbn.
      * intros u Iu B. destruct (event_dec u v) as [->|N]; [rewrite upd_same; eauto|]. rewrite upd_other by assumption. apply in_app_iff in Iu. destruct Iu as [Iu|[Iu|[]]]; [auto|congruence].
      * intros u x. cbn. unfold upd. destruct (event_eqb u v) eqn:Eu; [|apply A2]. intros [= <-]. apply event_eqb_eq in Eu. subst u. exact Im.
      * exact A3.
      * exact A4.
      * intros u B. apply in_app_iff. auto.
      * intros x u. destruct (event_dec u v) as [->|N].
        -- unfold policy_next at 1. cbn. rewrite Nb, upd_same. destruct (event_dec x (c_target m)) as [->|Nx'].
           ++ rewrite upd_same, !in_app_iff. cbn. tauto.
           ++ rewrite upd_other by assumption. split; [intros I; exfalso; exact (Ni _ I)|intros [_ X]; congruence].
        -- assert (Eq : (In u (upd (h_inel h) (c_target m) (h_inel h (c_target m) ++ [v]) x) <-> In u (h_inel h x))).
           { destruct (event_dec x (c_target m)) as [->|Nx']; [rewrite upd_same, in_app_iff; cbn; intuition congruence|rewrite upd_other by assumption; reflexivity]. }
           rewrite Eq, A6. split.
           ++ intros [I P]. split; [apply in_app_iff; auto|]. rewrite Nx by assumption. assumption.
           ++ intros [I P]. apply in_app_iff in I. destruct I as [I|[I|[]]]; [|congruence]. rewrite Nx in P by assumption. auto.
      * intros x. destruct (event_dec x (c_target m)) as [->|Nx']; [rewrite upd_same|rewrite upd_other by assumption; apply A7].
        apply NoDup_snoc; [apply A7|apply Ni].
    + cbn. intros u H. apply in_app_iff. destruct (event_dec u v) as [->|N]; [right; left; reflexivity|]. left. apply HP. rewrite upd_other in H by assumption. exact H.
Qed.

(** ** Walking along the policy. *)
Fixpoint steps (h : howard) (k : nat) (v w : event) : Prop :=
  match k with O => v = w | S k' => exists u, policy_next h v = Ok u /\ steps h k' u w end.
Lemma steps_snoc h k : forall v w x, steps h k v w -> policy_next h w = Ok x -> steps h (S k) v x.
Proof.
  induction k as [|k IH]; intros v w x; cbn [steps].
  - intros -> H. exists x. auto.
  - intros (u & E & H) N. exists u. split; [assumption|]. apply (IH u w x H N).
Qed.
Fixpoint trail (h : howard) (v : event) (seen : list event) : Prop :=
  match seen with [] => True | u :: seen' => policy_next h u = Ok v /\ trail h u seen' end.
Lemma trail_steps h : forall seen v u, trail h v seen -> In u (v :: seen) -> exists k, (k <= length seen)%nat /\ steps h k u v.
Proof.
  induction seen as [|x seen IH]; intros v u T [<-|I]; try (exists 0%nat; cbn; split; [lia|reflexivity]); [destruct I|].
  destruct T as [N T]. destruct (IH x u T I) as (k & K & H). exists (S k). split; [cbn; lia|]. eapply steps_snoc; eassumption.
Qed.
Lemma find_cycle_total cs evs h : closed evs cs -> sound cs evs h -> forall fuel seen v, (length evs < fuel + length seen)%nat ->
  NoDup (v :: seen) -> incl (v :: seen) evs -> trail h v seen ->
  exists u k, find_cycle_vertex fuel h seen v = Ok u /\ In u evs /\ (k < length evs)%nat /\ steps h (S k) u u.
Proof.
  intros CL S. induction fuel as [|fuel IH]; intros seen v F ND I T.
  - pose proof (NoDup_incl_length ND I). cbn in *. lia.
  - cbn [find_cycle_vertex]. destruct (next_total _ _ _ v CL S (I v (or_introl eq_refl))) as (u & E & Iu). rewrite E. cbn [bind].
    destruct (existsb (event_eqb u) (v :: seen)) eqn:X.
    + apply existsb_In in X. destruct (trail_steps h seen v u T X) as (k & K & H). exists u, k. split; [reflexivity|]. split; [assumption|].
      split; [pose proof (NoDup_incl_length ND I); cbn in *; lia|]. eapply steps_snoc; eassumption.
    + apply existsb_notIn in X. apply IH; [cbn; lia|constructor; assumption| |cbn; auto].
      intros x [<-|Ix]; auto.
Qed.

Lemma sink_stays cs evs h s : sound cs evs h -> h_sink h = Some s -> forall k w, steps h k s w -> w = s.
Proof.
  intros S E. induction k as [|k IH]; intros w; cbn [steps]; [auto|]. intros (u & N & H). unfold policy_next in N. rewrite (s_bad _ _ _ S s E), E in N. injection N as <-. auto.
Qed.
Lemma walk_total cs evs h sv : sound cs evs h -> is_sink h sv = false -> forall fuel k v cc s1 s2, (k < fuel)%nat -> In v evs ->
  closed evs cs -> steps h (S k) v sv -> exists r, walk_cycle fuel h sv v cc s1 s2 = Ok r.
Proof.
  intros S NS. induction fuel as [|fuel IH]; intros k v cc s1 s2 F Iv CL H; [lia|]. cbn [walk_cycle].
  destruct H as (u & E & H). assert (B : h_bad h v = false).
  { destruct (h_bad h v) eqn:B; [|reflexivity]. exfalso. unfold policy_next in E. rewrite B in E. destruct (h_sink h) as [s|] eqn:Es; [|discriminate]. injection E as <-.
    apply (sink_stays _ _ _ _ S Es) in H. subst sv. unfold is_sink in NS. rewrite Es, event_eqb_refl in NS. discriminate. }
  unfold policy_next in E. rewrite B in E. destruct (h_policy h v) as [c|] eqn:Ec; [|discriminate]. injection E as <-.
  destruct (event_eqb (c_target c) sv) eqn:Et; [eauto|]. destruct k as [|k]; [cbn in H; subst; rewrite event_eqb_refl in Et; discriminate|].
  cbn [fst snd]. apply (IH k); [lia| |assumption|assumption]. apply CL. apply (s_policy _ _ _ S v c Ec).
Qed.

Lemma sum_positive l : l <> [] -> (forall c, In c l -> 0 < c_d c)%Q -> (0 < sumQ c_d l)%Q.
Proof.
  induction l as [|c l IH]; [congruence|]. intros _ H. rewrite sumQ_cons. pose proof (H c (or_introl eq_refl)).
  destruct l as [|x l]; [rewrite sumQ_nil; lra|]. assert (0 < sumQ c_d (x :: l))%Q by (apply IH; [discriminate|intros y Hy; apply H; right; exact Hy]). lra.
Qed.
Lemma cycle_ratio_total o cs evs h sv fuel k : closed evs cs -> sound cs evs h -> (forall l, circuit cs l -> ~ (sumQ c_d l == 0)%Q) -> In sv evs ->
  (k < fuel)%nat -> steps h (S k) sv sv -> exists r, cycle_ratio o fuel h sv = Ok r.
Proof.
  intros CL S D I F H. unfold cycle_ratio. destruct (is_sink h sv) eqn:NS; [eauto|].
  destruct (walk_total _ _ _ _ S NS fuel k sv [] 0 0 F I CL H) as (r & E). rewrite E. cbn [bind].
  destruct (walk_path cs _ _ _ (s_policy _ _ _ S) _ _ _ _ _ E ltac:(intros ? []) eq_refl ltac:(reflexivity) ltac:(reflexivity)) as (W1 & W2 & W3 & _ & W5).
  destruct (Qeq_bool (snd r) 0) eqn:Z; [|eauto]. apply Qeq_bool_eq in Z. exfalso.
  apply (D (fst (fst r))); [split; [assumption|split; [assumption|eauto]]|]. rewrite <- W5. exact Z.
Qed.

(** ** Setting the distances. *)
Lemma spread_total cs evs sv v cr ins : forall h q b, sound cs evs h -> incl ins evs ->
  exists h' b', spread sv v cr ins h q b = Ok (h', q ++ filter (fun u => negb (event_eqb u sv)) ins, b') /\ same_but_dm h h'.
Proof.
  induction ins as [|u ins IH]; intros h q b S I; cbn [spread filter]; [rewrite app_nil_r; exists h, b; split; [reflexivity|apply same_refl]|].
  assert (I' : incl ins evs) by (intros x Hx; apply I; right; assumption).
  destruct (event_eqb u sv); cbn [negb]; [apply IH; assumption|]. destruct (h_bad h u) eqn:B; cbn [bind].
  - set (h1 := set_dm h u _). destruct (IH h1 (q ++ [u]) (u :: b)) as (h' & b' & E & K); [|assumption|].
    + apply (sound_same cs evs h); auto.
    + exists h', b'. rewrite E, <- app_assoc. split; [reflexivity|]. eapply same_trans; [apply same_dm|exact K].
  - destruct (s_good _ _ _ S u (I u (or_introl eq_refl)) B) as (c & Ec). rewrite Ec. cbn [bind].
    set (h1 := set_dm h u _). destruct (IH h1 (q ++ [u]) (u :: b)) as (h' & b' & E & K); [|assumption|].
    + apply (sound_same cs evs h); auto.
    + exists h', b'. rewrite E, <- app_assoc. split; [reflexivity|]. eapply same_trans; [apply same_dm|exact K].
Qed.
Lemma bfv_total cs evs sv cr : closed evs cs -> forall fuel popped q h b, sound cs evs h -> (length evs < fuel + length popped)%nat ->
  NoDup (popped ++ q) -> incl (popped ++ q) evs -> (forall u, In u (popped ++ q) -> u <> sv -> exists w, policy_next h u = Ok w /\ In w popped) ->
  exists r, bfv fuel sv cr q h b = Ok r.
Proof.
  intros CL. induction fuel as [|fuel IH]; intros popped q h b S F ND I P.
  - pose proof (NoDup_incl_length ND I) as L. rewrite app_length in L. lia.
  - cbn [bfv]. destruct q as [|v q]; [eauto|].
    assert (Iv : incl (h_inel h v) evs) by (intros u Hu; apply (s_inel _ _ _ S) in Hu; tauto).
    destruct (spread_total cs evs sv v cr (h_inel h v) h q b S Iv) as (h' & b' & E & K1 & K2 & K3 & K4 & K5 & K6 & K7). rewrite E. cbn [bind fst snd].
    set (new := filter _ _). assert (Hn : forall u, In u new -> In u evs /\ policy_next h u = Ok v /\ u <> sv).
    { intros u Hu. apply filter_In in Hu. destruct Hu as [Hu N]. apply (s_inel _ _ _ S) in Hu. destruct Hu as [Hu Nx]. split; [assumption|]. split; [assumption|].
      intros ->. rewrite event_eqb_refl in N. discriminate. }
    assert (Fresh : forall u, In u new -> ~ In u (popped ++ v :: q)).
    { intros u Hu X. destruct (Hn u Hu) as (_ & Nx & Ns). destruct (P u X Ns) as (w & Nw & Iw). rewrite Nx in Nw. injection Nw as <-.
      apply NoDup_remove_2 in ND. apply ND. apply in_app_iff. auto. }
    apply (IH (popped ++ [v])).
    + apply (sound_same cs evs h); auto.
    + rewrite app_length. cbn. lia.
    + rewrite <- app_assoc. cbn [app]. 
      assert (ND2 : NoDup new) by (apply NoDup_filter; apply (s_nodup _ _ _ S)).
      replace (popped ++ v :: q ++ new) with ((popped ++ v :: q) ++ new) by (rewrite <- app_assoc; reflexivity).
      apply NoDup_join; assumption.
    + rewrite <- app_assoc. cbn [app]. intros u Hu. rewrite in_app_iff in Hu. cbn in Hu. rewrite in_app_iff in Hu.
      destruct Hu as [Hu|[Hu|[Hu|Hu]]]; [apply I, in_app_iff; auto|apply I, in_app_iff; right; left; assumption|apply I, in_app_iff; right; right; assumption|apply Hn; assumption].
    + intros u Hu Ns. rewrite (same_next h h') by assumption. rewrite <- app_assoc in Hu. cbn [app] in Hu. rewrite in_app_iff in Hu. cbn in Hu. rewrite in_app_iff in Hu.
      assert (X : In u (popped ++ v :: q) \/ In u new) by (rewrite in_app_iff; cbn; tauto). destruct X as [X|X].
      * destruct (P u X Ns) as (w & Nw & Iw). exists w. split; [assumption|]. apply in_app_iff. auto.
      * destruct (Hn u X) as (_ & Nx & _). exists v. split; [assumption|]. apply in_app_iff. right. left. reflexivity.
Qed.

(** ** One evaluation of the policy. *)
Lemma set_cr_sound cs evs h x cc : sound cs evs h -> sound cs evs (set_cr h x cc).
Proof. intros S. apply (sound_same cs evs h); auto. Qed.
Lemma policy_loop_total o cs evs : closed evs cs -> (forall l, circuit cs l -> ~ (sumQ c_d l == 0)%Q) -> forall vs h black mcr, incl vs evs -> sound cs evs h ->
  exists r, policy_loop o (Datatypes.S (length evs)) vs h black mcr = Ok r /\ sound cs evs (fst r).
Proof.
  intros CL D. induction vs as [|v vs IH]; intros h black mcr I S; cbn [policy_loop]; [exists (h, mcr); auto|].
  assert (I' : incl vs evs) by (intros x Hx; apply I; right; assumption).
  destruct (existsb (event_eqb v) black); [apply IH; assumption|].
  destruct (find_cycle_total _ _ _ CL S (Datatypes.S (length evs)) [] v) as (u & k & E & Iu & K & St); [cbn; lia|repeat constructor; intros []|intros x [<-|[]]; apply I; left; reflexivity|exact Logic.I|].
  rewrite E. cbn [bind]. destruct (cycle_ratio_total o _ _ _ u (Datatypes.S (length evs)) k CL S D Iu ltac:(lia) St) as (r & Er). rewrite Er. cbn [bind].
  assert (S' : sound cs evs (fst r)).
  { destruct (cycle_ratio_spec o cs _ _ _ _ (s_policy _ _ _ S) Er) as [[-> _]|(_ & cc & -> & _)]; [assumption|apply set_cr_sound; assumption]. }
  destruct (bfv_total cs evs u (snd r) CL (Datatypes.S (length evs)) [] [u] (fst r) (u :: black) S') as (b & Eb); cbn [app]; [cbn; lia|repeat constructor; intros []|intros x [<-|[]]; assumption|intros x [<-|[]]; congruence|].
  rewrite Eb. cbn [bind]. apply IH; [assumption|]. apply bfv_same in Eb. destruct Eb as (_ & _ & B3 & B4 & B5 & B6 & _). apply (sound_same cs evs (fst r)); assumption.
Qed.

(** ** Improving the policy. *)
Lemma erase_total v l : In v l -> NoDup l -> exists l', erase_first v l = Ok l' /\ NoDup l' /\ forall u, In u l' <-> In u l /\ u <> v.
Proof.
  induction l as [|x l IH]; intros I N; [destruct I|]. inversion_clear N. cbn [erase_first]. destruct (event_eqb x v) eqn:E.
  - apply event_eqb_eq in E. subst x. exists l. split; [reflexivity|]. split; [assumption|]. intros u. cbn. split; [intros Hu; split; [auto|intros ->; contradiction]|intros [[->|Hu] Nu]; [congruence|assumption]].
  - destruct I as [->|I]; [rewrite event_eqb_refl in E; discriminate|]. destruct IH as (l' & El & Nl & Hl); [assumption|assumption|]. rewrite El. cbn [bind]. exists (x :: l'). split; [reflexivity|].
    split; [constructor; [rewrite Hl; tauto|assumption]|]. intros u. cbn. rewrite Hl. split; [intros [->|[Hu Nu]]; [split; [auto|intros ->; rewrite event_eqb_refl in E; discriminate]|auto]|tauto].
Qed.
Lemma improve_total cs evs h v c : sound cs evs h -> In v evs -> h_bad h v = false -> In c (out_edges cs v) ->
  exists h', improve_policy h v c = Ok h' /\ sound cs evs h' /\ h_bad h' = h_bad h /\ h_sink h' = h_sink h.
Proof.
  intros S Iv B Ic. pose proof S as [A1 A2 A3 A4 A5 A6 A7]. destruct (A1 v Iv B) as (old & Eo). unfold improve_policy. rewrite Eo.
  assert (N0 : policy_next h v = Ok (c_target old)) by (unfold policy_next; rewrite B, Eo; reflexivity).
  destruct (erase_total v (h_inel h (c_target old))) as (l & El & Nl & Hl); [apply A6; auto|apply A7|]. rewrite El. cbn [bind].
  eexists. split; [reflexivity|]. split; [|cbn; auto].
  set (inel := upd (h_inel h) (c_target old) l).
  assert (Hin : forall x u, In u (inel x) <-> In u (h_inel h x) /\ u <> v).
  { intros x u. unfold inel. destruct (event_dec x (c_target old)) as [->|N]; [rewrite upd_same; apply Hl|rewrite upd_other by assumption].
    split; [|tauto]. intros X. split; [assumption|]. intros ->. apply A6 in X. destruct X as [_ X]. congruence. }
  assert (Hnd : forall x, NoDup (inel x)) by (intros x; unfold inel; destruct (event_dec x (c_target old)) as [->|N]; [rewrite upd_same; exact Nl|rewrite upd_other by assumption; apply A7]).
  constructor; cbn.
  - intros u Iu Bu. destruct (event_dec u v) as [->|N]; [rewrite upd_same; eauto|]. rewrite upd_other by assumption. auto.
  - intros u x. cbn. unfold upd. destruct (event_eqb u v) eqn:Eu; [|apply A2]. intros [= <-]. apply event_eqb_eq in Eu. subst u. apply out_edges_In. assumption.
  - exact A3.
  - exact A4.
  - exact A5.
  - intros x u. destruct (event_dec u v) as [->|N].
    + unfold policy_next. cbn. rewrite B, upd_same. destruct (event_dec x (c_target c)) as [->|Nx].
      * rewrite upd_same, in_app_iff. cbn. tauto.
      * rewrite upd_other by assumption. rewrite Hin. split; [tauto|intros [_ X]; congruence].
    + assert (Nn : policy_next (mkHoward (h_bound h) (h_cr h) (h_dm h) (upd (h_policy h) v (Some c)) (upd inel (c_target c) (inel (c_target c) ++ [v])) (h_bad h) (h_sink h) (h_cc h)) u = policy_next h u)
        by (unfold policy_next; cbn; rewrite upd_other by assumption; reflexivity). rewrite Nn.
      destruct (event_dec x (c_target c)) as [->|Nx].
      * rewrite upd_same, in_app_iff, Hin, A6. cbn. intuition congruence.
      * rewrite upd_other by assumption. rewrite Hin, A6. tauto.
  - intros x. destruct (event_dec x (c_target c)) as [->|Nx]; [rewrite upd_same; apply NoDup_snoc; [apply Hnd|rewrite Hin; tauto]|rewrite upd_other by assumption; apply Hnd].
Qed.
Lemma improve_arcs_total o eps cr cs evs v l : forall h b, incl l (out_edges cs v) -> In v evs -> h_bad h v = false -> sound cs evs h ->
  exists r, improve_arcs o eps cr v l h b = Ok r /\ sound cs evs (fst r).
Proof.
  induction l as [|c l IH]; intros h b I Iv B S; cbn [improve_arcs]; [exists (h, b); auto|].
  assert (I' : incl l (out_edges cs v)) by (intros x Hx; apply I; right; assumption).
  destruct better; [|apply IH; assumption]. destruct (improve_total cs evs h v c S Iv B (I c (or_introl eq_refl))) as (h' & E & S' & B' & _). rewrite E. cbn [bind].
  apply IH; [assumption|assumption|cbn; rewrite B'; assumption|]. apply (sound_same cs evs h'); auto.
Qed.
Lemma try_improve_total o eps cr cs evs vs : forall h b, incl vs evs -> sound cs evs h ->
  exists r, try_improve o eps cr cs vs h b = Ok r /\ sound cs evs (fst r).
Proof.
  induction vs as [|v vs IH]; intros h b I S; cbn [try_improve]; [exists (h, b); auto|].
  assert (I' : incl vs evs) by (intros x Hx; apply I; right; assumption). destruct (h_bad h v) eqn:B; cbn [negb].
  - destruct (s_sink _ _ _ S v B) as (s & E). rewrite E. apply IH; [assumption|]. destruct better; [apply (sound_same cs evs h); auto|assumption].
  - destruct (improve_arcs_total o eps cr cs evs v (out_edges cs v) h b (incl_refl _) (I v (or_introl eq_refl)) B S) as (r & E & S'). rewrite E. cbn [bind]. apply IH; assumption.
Qed.
Lemma rounds_total o eps cs evs : closed evs cs -> (forall l, circuit cs l -> ~ (sumQ c_d l == 0)%Q) -> forall k h, sound cs evs h ->
  exists r, rounds o eps (Datatypes.S (length evs)) k evs cs h = Ok r.
Proof.
  intros CL D. induction k as [|k IH]; intros h S; cbn [rounds]; unfold policy_mcr;
    (destruct (policy_loop_total o cs evs CL D evs (set_cr h (h_bound h) (h_cc h)) [] (h_bound h) (incl_refl _) (set_cr_sound _ _ _ _ _ S)) as (r & E & S1));
    rewrite E; cbn [bind];
    (destruct (try_improve_total o eps (snd r) cs evs evs (set_bound (fst r) (snd r)) false (incl_refl _)) as (i & Ei & S2); [apply (sound_same cs evs (fst r)); auto|]);
    rewrite Ei; cbn [bind]; destruct (snd i); eauto.
Qed.
Lemma ocr_total_circuits o eps bound evs cs : NoDup evs -> closed evs cs -> (forall l, circuit cs l -> ~ (sumQ c_d l == 0)%Q) -> exists r, ocr_howard o eps bound evs cs = Ok r.
Proof.
  intros ND CL D. unfold ocr_howard. set (h := mkHoward _ _ _ _ _ _ _ _).
  destruct (rounds_total o eps cs evs CL D (max_iteration - 1) (construct_policy o cs evs h)) as (r & E).
  - apply (construct_sound o cs evs [] h); [assumption| |intros v; cbn; congruence].
    constructor; cbn; try (intros; discriminate).
    + intros v [].
    + intros x v. cbn. tauto.
    + intros x. constructor.
  - cbv zeta. rewrite E. cbn [bind]. eauto.
Qed.
Lemma ocr_total o eps bound evs cs : NoDup evs -> closed evs cs -> (forall c, In c cs -> 0 < c_d c)%Q -> exists r, ocr_howard o eps bound evs cs = Ok r.
Proof.
  intros ND CL D. apply ocr_total_circuits; try assumption. intros l (N & I & _) E.
  pose proof (sum_positive l N (fun c Ic => D c (I c Ic))). lra.
Qed.
