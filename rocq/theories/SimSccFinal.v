(** compute_asap_throughput as a whole. *)
From Coq Require Import QArith Qreduction Qround Lqa Qabs Permutation.
From Verif Require Import Base Graph ScheduleSpec ScheduleCore RepVec RepVecSpec RepVecProps KIterSpec Scc SccSpec SccProofs SccProps
  Sim SimSpec SimPeriod SimOptimal SimFinal SimTerm SimScc SimSccSpec SimSccSub SimSccCompose SimSccParts SimSccBusy SimSccIdle.
Open Scope Z_scope.

Fixpoint find_index {A} (P : A -> bool) (l : list A) : nat :=
  match l with [] => O | x :: l' => if P x then O else S (find_index P l') end.
Lemma find_index_spec {A} (P : A -> bool) l : (exists x, In x l /\ P x = true) -> exists x, nth_error l (find_index P l) = Some x /\ P x = true.
Proof.
  induction l as [|y l IH]; intros (x & I & E); [destruct I|]. cbn [find_index]. destruct (P y) eqn:Ey; [exists y; auto|].
  apply IH. destruct I as [->|I]; [congruence|eauto].
Qed.

Lemma part_ext g N k1 k2 s w : graph_wf g -> (forall i, (i < length (vertices g))%nat -> k1 i = k2 i) -> part g N k1 s w -> part g N k2 s w.
Proof.
  intros WF E (C & S & B & HB). split; [|split].
  - intros c I A1 A2. destruct (edge_bounds g WF c I) as [L1 L2]. apply C; [assumption|rewrite E; assumption|rewrite E; assumption].
  - intros i v A Ev. apply S; [rewrite E; [assumption|apply nth_error_Some; congruence]|assumption].
  - exists B. intros i A L. apply HB; [rewrite E; assumption|assumption].
Qed.

Lemma slowest_spec fuel ticks g N hs : forall best r, slowest fuel ticks g N hs best = Ok r ->
  (r <= best)%Q /\ (forall h, In h hs -> exists o, scaled_throughput fuel ticks g N h = Ok o /\ forall x, o = Some x -> (r <= x)%Q) /\
  (r = best \/ exists h x, In h hs /\ scaled_throughput fuel ticks g N h = Ok (Some x) /\ r = x).
Proof.
  induction hs as [|h hs IH]; intros best r; cbn [slowest]; [intros [= <-]; split; [lra|]; split; [intros h []|auto]|].
  destruct (scaled_throughput fuel ticks g N h) as [o| | |] eqn:E; try discriminate. cbn [bind]. intros H.
  destruct (IH _ _ H) as (A & B & C). set (b := match o with Some t => if Qlt_le_dec t best then t else best | None => best end) in *.
  assert (Hb : (b <= best)%Q /\ (forall x, o = Some x -> (b <= x)%Q) /\ (b = best \/ o = Some b)).
  { unfold b. destruct o as [t|]; [|split; [lra|split; [discriminate|auto]]]. destruct (Qlt_le_dec t best) as [L|L].
    - split; [lra|]. split; [intros x [= <-]; lra|auto].
    - split; [lra|]. split; [intros x [= <-]; lra|auto]. }
  destruct Hb as (B1 & B2 & B3). split; [lra|]. split.
  - intros h' [<-|I]; [exists o; split; [assumption|]; intros x Ex; specialize (B2 x Ex); lra|apply B; assumption].
  - destruct C as [->|(h' & x & I & Ex & ->)]; [|right; exists h', x; cbn; auto].
    destruct B3 as [->|B3]; [auto|]. right. exists h, b. rewrite <- B3. cbn. auto.
Qed.

Section Whole.
Variables (g : graph) (fuel ticks : nat) (N : list Z) (comps : list (list Z)).
Hypotheses (WF : graph_wf g) (NI : no_init g) (EV : even_self_loops g) (PD : positive_durations g) (SD : short_durations g)
  (WD : whole_lone_durations g) (NEg : vertices g <> []) (FU : (length (vertices g) < fuel)%nat)
  (EN : compute_repetition_vector fuel g = Ok (Some N)) (EK : kosaraju fuel g = Ok comps).

Lemma wf_ids : id_graph g.
Proof. split; [apply WF|]. intros c I. apply (edge_bounds g WF c I). Qed.
Lemma comps_spec : Permutation (concat comps) (map v_id (vertices g)) /\
    (forall c, In c comps -> c <> [] /\ NoDup c) /\
    (forall c u v, In c comps -> In u c -> (In v c <-> reaches g u v /\ reaches g v u)).
Proof. destruct (C23_components g fuel wf_ids FU) as (cs & E & P). rewrite EK in E. injection E as <-. exact P. Qed.

Lemma member_spec c i v : nth_error (vertices g) i = Some v -> (member c g i = true <-> In (v_id v) c).
Proof.
  intros E. unfold member. rewrite E, existsb_exists. split.
  - intros (x & I & X). apply Z.eqb_eq in X. subst x. assumption.
  - intros I. exists (v_id v). split; [assumption|apply Z.eqb_refl].
Qed.
Lemma comp_task c u : In c comps -> In u c -> exists i v, nth_error (vertices g) i = Some v /\ v_id v = u.
Proof.
  intros Ic Iu. destruct comps_spec as (P & _). assert (I : In u (map v_id (vertices g))).
  { apply (Permutation_in _ P). apply in_concat. eauto. }
  apply in_map_iff in I. destruct I as (v & E & I). apply In_nth_error in I. destruct I as [i Ei]. eauto.
Qed.

Lemma comp_strong c : In c comps -> strongly_connected (sub (member c g) g).
Proof.
  intros Ic. set (k := member c g). destruct comps_spec as (_ & _ & R).
  assert (W : forall l u j0 i v, walk g u l (v_id v) -> nth_error (vertices g) i = Some v -> In u c -> In (v_id v) c ->
    forall a va, nth_error (vertices g) a = Some va -> v_id va = u -> flows (sub k g) j0 (rank k a) -> flows (sub k g) j0 (rank k i)).
  { induction l as [|w l IH]; intros u j0 i v Wk Ei Iu Iv a va Ea Eu Fl; cbn [walk] in Wk.
    - assert (a = i) as <-; [|exact Fl]. pose proof (position_nth _ _ _ (proj2 (proj2 WF)) Ea) as X1. pose proof (position_nth _ _ _ (proj2 (proj2 WF)) Ei) as X2. congruence.
    - destruct Wk as [(e & sv & tv & Ie & Es & Et & Is & It) Wk].
      assert (Iw : In w c).
      { apply (R c u w Ic Iu). split.
        - exists [w]. cbn. split; [|reflexivity]. exists e, sv, tv. auto.
        - destruct (proj1 (R c u (v_id v) Ic Iu) Iv) as [_ Back]. refine (reaches_trans g wf_ids w (v_id v) u _ Back). exists l. exact Wk. }
      assert (e_src e = a) as Ea'.
      { pose proof (position_nth _ _ _ (proj2 (proj2 WF)) Ea) as X1. pose proof (position_nth _ _ _ (proj2 (proj2 WF)) Es) as X2. congruence. }
      apply (IH w j0 i v Wk Ei Iw Iv (e_dst e) tv Et It).
      assert (I' : In (moved k e) (edges (sub k g))).
      { apply sub_edge. exists e. split; [assumption|]. split; [apply (member_spec c _ sv Es); congruence|]. split; [apply (member_spec c _ tv Et); congruence|reflexivity]. }
      pose proof (flows_step (sub k g) j0 (moved k e) I') as St. cbn [moved set_ends e_src e_dst] in St. rewrite Ea' in St. exact (St Fl). }
  intros i' j' Hi Hj. destruct (sub_position g k i' Hi) as (i & Li & Ki & <- & _). destruct (sub_position g k j' Hj) as (j & Lj & Kj & <- & _).
  destruct (nth_error (vertices g) i) as [vi|] eqn:Ei; [|apply nth_error_None in Ei; lia]. destruct (nth_error (vertices g) j) as [vj|] eqn:Ej; [|apply nth_error_None in Ej; lia].
  pose proof (proj1 (member_spec c i vi Ei) Ki) as Ii. pose proof (proj1 (member_spec c j vj Ej) Kj) as Ij.
  destruct (proj1 (R c _ _ Ic Ii) Ij) as [[l Wl] _]. exact (W l (v_id vi) (rank k i) j vj Wl Ej Ii Ij i vi Ei eq_refl (flows_refl _ _)).
Qed.
Lemma comp_nonempty c : In c comps -> vertices (sub (member c g) g) <> [].
Proof.
  intros Ic. destruct comps_spec as (_ & NE & _). destruct (NE c Ic) as [Nc _]. destruct c as [|u c']; [congruence|].
  destruct (comp_task _ u Ic (or_introl eq_refl)) as (i & v & Ei & Ev). intros E.
  pose proof (sub_bound g (member (u :: c') g) i ltac:(apply nth_error_Some; congruence)) as L. rewrite E in L.
  specialize (L (proj2 (member_spec (u :: c') i v Ei) (or_introl (eq_sym Ev)))). cbn in L. lia.
Qed.
Lemma comp_alone c : In c comps -> edges (sub (member c g) g) = [] -> exists v, vertices (sub (member c g) g) = [v].
Proof.
  intros Ic NE. pose proof (comp_strong c Ic) as SC. pose proof (comp_nonempty c Ic) as Nv. destruct (vertices (sub (member c g) g)) as [|v [|w l]] eqn:E; [congruence|eauto|exfalso].
  assert (F : flows (sub (member c g) g) 0 1) by (apply SC; rewrite E; cbn; lia).
  remember 1%nat as one eqn:E1. destruct F as [|e Ie F]; [discriminate|]. rewrite NE in Ie. destruct Ie.
Qed.
Lemma comp_lone c v : In c comps -> edges (sub (member c g) g) = [] -> vertices (sub (member c g) g) = [v] -> forall l, ~ cycle g (v_id v) l.
Proof.
  intros Ic NE Ev l [Nl Wl]. destruct l as [|w l]; [congruence|]. cbn [walk] in Wl. destruct Wl as [(e & sv & tv & Ie & Es & Et & Is & It) Wl].
  destruct comps_spec as (_ & _ & R).
  assert (Iv : In (v_id v) c /\ exists i, nth_error (vertices g) i = Some v /\ rank (member c g) i = 0%nat).
  { destruct (sub_position g (member c g) 0%nat ltac:(rewrite Ev; cbn; lia)) as (i & Li & Ki & Ri & _).
    assert (Ei : nth_error (vertices g) i = Some v) by (rewrite <- (sub_vertex g (member c g) i Ki), Ri, Ev; reflexivity).
    split; [apply (member_spec c i v Ei); assumption|eauto]. }
  destruct Iv as [Iv _].
  assert (Iw : In w c).
  { apply (R c _ _ Ic Iv). split; [exists [w]; cbn; split; [exists e, sv, tv; auto|reflexivity]|exists l; exact Wl]. }
  assert (I' : In (moved (member c g) e) (edges (sub (member c g) g))).
  { apply sub_edge. exists e. split; [assumption|]. split; [apply (member_spec c _ sv Es); congruence|]. split; [apply (member_spec c _ tv Et); congruence|reflexivity]. }
  rewrite NE in I'. destruct I'.
Qed.

Lemma comp_verdict c o : In c comps -> scaled_throughput fuel ticks g N (sub (member c g) g) = Ok o ->
  exists x, o = Some x /\ verdict g (member c g) (as_vector N) x.
Proof.
  intros Ic H. destruct (edges (sub (member c g) g)) as [|e l] eqn:E.
  - destruct (comp_alone c Ic E) as [v Ev]. destruct o as [x|].
    + exists x. split; [reflexivity|]. apply (idle_verdict g (member c g) fuel ticks N WF NI PD NEg ltac:(lia) EN E); [|exact H].
      intros u d Eu Id. apply (WD u d); [|exact (comp_lone c u Ic E Eu)|exact Id]. apply (sub_in g (member c g)). rewrite Eu. left. reflexivity.
    + exfalso. revert H. unfold scaled_throughput. rewrite E. cbn [length Nat.ltb Nat.leb]. rewrite Ev.
      destruct (ni_by_id g N (v_id v)); try discriminate. cbn [bind]. destruct (vertex_by_id g (v_id v)); try discriminate. cbn [bind].
      destruct (match nth_error _ _ with Some u => _ | None => _ end); try discriminate. cbn [bind]. destruct (Qeq_bool _ _); discriminate.
  - assert (Hx : exists x, o = Some x).
    { revert H. unfold scaled_throughput. rewrite E. cbn [length Nat.ltb Nat.leb].
      destruct (prepare _ _ _); try discriminate. cbn [bind]. destruct (run _ _ _ _ _); try discriminate. cbn [bind]. destruct (throughput _); try discriminate. cbn [bind].
      destruct (id_of _ _); try discriminate. cbn [bind]. destruct (ni_by_id _ _ _); try discriminate. cbn [bind]. intros H. inversion H. eauto. }
    destruct Hx as [x ->]. exists x. split; [reflexivity|].
    apply (busy_verdict g (member c g) fuel ticks N WF NI EV PD SD NEg ltac:(lia) EN (comp_strong c Ic)); [rewrite E; discriminate|exact H].
Qed.

Definition cls (i : nat) : nat := find_index (fun c => member c g i) comps.
Lemma cls_spec i v : nth_error (vertices g) i = Some v -> exists c, nth_error comps (cls i) = Some c /\ In (v_id v) c.
Proof.
  intros E. destruct (find_index_spec (fun c => member c g i) comps) as (c & Ec & M).
  - destruct comps_spec as (P & _). assert (I : In (v_id v) (concat comps)) by (apply (Permutation_in _ (Permutation_sym P)); apply in_map; eapply nth_error_In; exact E).
    apply in_concat in I. destruct I as (c & Ic & Iv). exists c. split; [assumption|]. apply (member_spec c i v E). assumption.
  - exists c. split; [exact Ec|]. apply (member_spec c i v E). assumption.
Qed.
Lemma cls_member x c i : nth_error comps x = Some c -> (i < length (vertices g))%nat -> (cls i =? x)%nat = member c g i.
Proof.
  intros Ex Li. destruct (nth_error (vertices g) i) as [v|] eqn:Ei; [|apply nth_error_None in Ei; lia]. destruct (cls_spec i v Ei) as (d & Ed & Id).
  destruct (member c g i) eqn:M.
  - apply Nat.eqb_eq. apply (member_spec c i v Ei) in M.
    pose proof (topological g fuel comps wf_ids FU EK _ _ _ _ _ _ Ex Ed M Id (reaches_refl g _)).
    pose proof (topological g fuel comps wf_ids FU EK _ _ _ _ _ _ Ed Ex Id M (reaches_refl g _)). lia.
  - apply Nat.eqb_neq. intros E. rewrite E, Ex in Ed. injection Ed as <-. apply (member_spec c i v Ei) in Id. congruence.
Qed.

Lemma near_pace s w B : (0 < w)%Q -> (forall i, (i < length (vertices g))%nat -> near (as_vector N) s w i B) -> non_zeno g s /\ keeps_pace g (as_vector N) s w.
Proof.
  intros w0 Nr. destruct (C18_balance g fuel N (graph_wf_rates g WF) NEg ltac:(lia) EN) as (LN & NP & _). split.
  - intros i t Li. specialize (NP i Li). assert (nq : (0 < inject_Z (nth i N 0%Z))%Q) by (change 0%Q with (inject_Z 0); rewrite <- Zlt_Qlt; lia).
    set (q := (inject_Z (nth i N 0%Z) * (t + B) / w)%Q). exists (S (Z.to_nat (Qceiling q))). destruct (Nr i Li (S (Z.to_nat (Qceiling q)))) as [L _]. unfold as_vector in L.
    assert (C1 : (q < inject_Z (Z.of_nat (S (Z.to_nat (Qceiling q)))))%Q).
    { eapply Qle_lt_trans; [apply Qle_ceiling|]. rewrite <- Zlt_Qlt. lia. }
    set (M := inject_Z (Z.of_nat (S (Z.to_nat (Qceiling q))))) in *.
    assert (C2 : (t + B < w * (M / inject_Z (nth i N 0%Z)))%Q).
    { assert (E1 : (t + B == w * (q / inject_Z (nth i N 0%Z)))%Q) by (unfold q; field; split; lra). rewrite E1.
      apply Qmult_lt_l; [assumption|]. apply Qlt_shift_div_l; [assumption|].
      assert (E2 : (q / inject_Z (nth i N 0%Z) * inject_Z (nth i N 0%Z) == q)%Q) by (field; lra). rewrite E2. assumption. }
    lra.
  - exists B. intros i m Li. destruct (Nr i Li m) as [_ U]. lra.
Qed.

Definition exact_value (thr : Q) : Prop :=
  (0 <= thr)%Q /\ ((thr == 0)%Q -> forall s, ~ schedule_valid g s) /\
  ((0 < thr)%Q -> (exists s, schedule_valid g s /\ non_zeno g s /\ keeps_pace g (as_vector N) s (/ thr)) /\
    forall s omega, schedule_valid g s -> keeps_pace g (as_vector N) s omega -> (/ thr <= omega)%Q).

Lemma inv_le a b : (0 < a)%Q -> (a <= b)%Q -> (/ b <= / a)%Q.
Proof.
  intros A L. assert (E : (/ b == 1 / b)%Q) by (unfold Qdiv; ring). rewrite E. apply Qle_shift_div_r; [lra|].
  assert (X : (/ a * a == 1)%Q) by (field; lra). assert (0 < / a)%Q by (apply Qinv_lt_0_compat; assumption). nra.
Qed.

Lemma many_exact thr : slowest fuel ticks g N (map (fun c => sub (member c g) g) comps) long_max = Ok thr -> (thr < long_max)%Q -> exact_value thr.
Proof.
  intros H L. destruct (slowest_spec _ _ _ _ _ _ _ H) as (_ & Al & Wh).
  destruct Wh as [->|(h & x & I & Ex & ->)]; [lra|]. apply in_map_iff in I. destruct I as (c0 & <- & I0).
  destruct (comp_verdict c0 _ I0 Ex) as (x' & [= <-] & V0 & V1 & V2).
  split; [assumption|]. split; [exact V1|]. intros X0. destruct (V2 X0) as [_ Opt]. split; [|exact Opt].
  destruct (C18_balance g fuel N (graph_wf_rates g WF) NEg ltac:(lia) EN) as (LN & NP & BA & DV).
  assert (W0 : (0 < / x)%Q) by (apply Qinv_lt_0_compat; assumption).
  destruct (compose g (as_vector N) (/ x) WF NI NP BA DV W0 cls (length comps)) as (s & SV & B & HB).
  - intros i Li. destruct (nth_error (vertices g) i) as [v|] eqn:Ei; [|apply nth_error_None in Ei; lia]. destruct (cls_spec i v Ei) as (c & Ec & _). apply nth_error_Some. congruence.
  - intros e Ie. destruct (proj1 (proj2 WF) e Ie) as (vs & vd & Es & Ed & _). destruct (cls_spec _ vs Es) as (c & Ec & Ic). destruct (cls_spec _ vd Ed) as (d & Edd & Id).
    apply (topological g fuel comps wf_ids FU EK _ _ _ _ _ _ Ec Edd Ic Id). exists [v_id vd]. cbn. split; [exists e, vs, vd; auto|reflexivity].
  - intros y Ly. destruct (nth_error comps y) as [c|] eqn:Ec; [|apply nth_error_None in Ec; lia]. pose proof (nth_error_In _ _ Ec) as Ic.
    destruct (Al (sub (member c g) g)) as (o & Eo & Le); [apply in_map_iff; eauto|]. destruct (comp_verdict c o Ic Eo) as (z & -> & Z0 & _ & Z2). specialize (Le z eq_refl).
    destruct (Z2 ltac:(lra)) as [(s & Ps) _]. exists s, (/ z)%Q. split; [apply Qinv_lt_0_compat; lra|]. split; [apply inv_le; lra|].
    revert Ps. apply part_ext; [assumption|]. intros i Li. symmetry. apply cls_member; assumption.
  - exists s. split; [assumption|]. exact (near_pace s (/ x) B W0 HB).
Qed.

Lemma one_strong : (length comps <= 1)%nat -> strongly_connected g.
Proof.
  intros L1. assert (exists c, comps = [c]) as [c Ec].
  { destruct comps_spec as (P & _). destruct comps as [|c [|d l]]; [|eauto|cbn in L1; lia]. apply Permutation_length in P. rewrite map_length in P. cbn in P. destruct (vertices g); [congruence|cbn in P; lia]. }
  assert (Ic : In c comps) by (rewrite Ec; left; reflexivity). pose proof (comp_strong c Ic) as SC. rewrite sub_all in SC; [exact SC|].
  intros j. unfold member. destruct (nth_error (vertices g) j) as [v|] eqn:Ej; [|reflexivity]. apply existsb_exists. exists (v_id v). split; [|apply Z.eqb_refl].
  destruct comps_spec as (P & _). rewrite Ec in P. cbn in P. rewrite app_nil_r in P. apply (Permutation_in _ (Permutation_sym P)). apply in_map. eapply nth_error_In; exact Ej.
Qed.

Lemma one_exact a thr : (length comps <= 1)%nat -> edges g <> [] -> component_throughput fuel ticks g None = Ok a -> throughput a = Ok thr -> exact_value thr.
Proof.
  intros L1 EE H Et. pose proof (one_strong L1) as SC.
  assert (GD : all_guarded g false) by (apply strong_guarded; [intros c Ic; apply (edge_bounds g WF c Ic)|assumption|assumption]).
  destruct a as [m|n T|]; cbn [throughput] in Et; [discriminate| |].
  - destruct (component_exact g None fuel ticks WF NI EV GD (strong_connected g SC) NEg ltac:(lia) n T ltac:(discriminate) PD H) as (N' & E' & n0 & T0 & (s & [SV _] & NZ & KP & _) & Opt).
    rewrite EN in E'. injection E' as <-. destruct (Qeq_bool T 0); [discriminate|]. assert (thr = Qred (inject_Z (Z.of_nat n) / T)) as -> by congruence.
    assert (nq : (0 < inject_Z (Z.of_nat n))%Q) by (change 0%Q with (inject_Z 0); rewrite <- Zlt_Qlt; lia).
    set (X := Qred (inject_Z (Z.of_nat n) / T)). assert (EX : (X == inject_Z (Z.of_nat n) / T)%Q) by apply Qred_correct.
    assert (X0 : (0 < X)%Q) by (rewrite EX; apply Qlt_shift_div_l; lra). assert (EI : (/ X == T / inject_Z (Z.of_nat n))%Q) by (rewrite EX; field; split; lra).
    split; [lra|]. split; [lra|]. intros _. split.
    + exists s. split; [assumption|]. split; [assumption|]. destruct KP as [B HB]. exists B. intros i m Li. specialize (HB i m Li). rewrite EI. exact HB.
    + intros s' omega SV' KP'. rewrite EI. apply (Opt s'); [split; [assumption|discriminate]|assumption].
  - injection Et as <-. split; [lra|]. split; [|lra]. intros _ s SV.
    apply (component_deadlock g None fuel ticks WF NI EV GD NEg ltac:(lia) PD SD H s). split; [assumption|discriminate].
Qed.
End Whole.

Lemma asap_exact g fuel ticks thr : graph_wf g -> no_init g -> even_self_loops g -> positive_durations g -> short_durations g -> whole_lone_durations g ->
  (1 < length (vertices g))%nat \/ edges g <> [] -> vertices g <> [] -> (length (vertices g) < fuel)%nat ->
  compute_asap_throughput fuel ticks g = Ok thr -> (thr < long_max)%Q ->
  exists N, compute_repetition_vector fuel g = Ok (Some N) /\ exact_value g N thr.
Proof.
  intros WF NI EV PD SD WD Mo NE FU H L. unfold compute_asap_throughput in H.
  destruct (compute_repetition_vector fuel g) as [[N|]| | |] eqn:EN; cbn [bind] in H; try discriminate. exists N. split; [reflexivity|].
  destruct (kosaraju fuel g) as [comps| | |] eqn:EK; cbn [bind] in H; try discriminate.
  destruct (Nat.ltb_spec 1 (length comps)) as [L1|L1].
  - rewrite generate_sccs_sub in H by apply WF. cbn [bind] in H. exact (many_exact g fuel ticks N comps WF NI EV PD SD WD NE FU EN EK thr H L).
  - destruct (component_throughput fuel ticks g None) as [a| | |] eqn:Ea; cbn [bind] in H; try discriminate.
    refine (one_exact g fuel ticks N comps WF NI EV PD SD NE FU EN EK a thr L1 _ Ea H).
    destruct Mo as [M|M]; [|exact M]. pose proof (one_strong g fuel comps WF NE FU EK L1) as SC. intros Z.
    assert (F : flows g 0 1) by (apply SC; lia). remember 1%nat as one eqn:E1. destruct F as [|e Ie F]; [discriminate|]. rewrite Z in Ie. destruct Ie.
Qed.
