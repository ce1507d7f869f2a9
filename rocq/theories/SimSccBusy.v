(** A component with channels, and a task of its own. *)
From Coq Require Import QArith Qreduction Lqa Qabs Permutation.
From Verif Require Import Base Graph ScheduleSpec ScheduleCore RepVec RepVecSpec RepVecProps KIterSpec Scc SccSpec SccProofs
  Sim SimSpec SimPeriod SimOptimal SimFinal SimTerm SimScc SimSccSub SimSccCompose SimSccParts.
From Verif Require KPeriodicProofs.
Open Scope Z_scope.

Lemma strong_guarded h : (forall c, In c (edges h) -> (e_dst c < length (vertices h))%nat) -> strongly_connected h -> edges h <> [] -> all_guarded h false.
Proof.
  intros B SC NE j Hj. left. destruct (edges h) as [|c l] eqn:E; [congruence|].
  assert (Ic : In c (edges h)) by (rewrite E; left; reflexivity).
  assert (F := SC _ _ (B c ltac:(left; reflexivity)) Hj). remember (e_dst c) as d eqn:Ed. destruct F as [|c' Hc' F].
  - exists c. auto.
  - exists c'. auto.
Qed.
Lemma strong_connected h : strongly_connected h -> connected_graph h.
Proof. intros SC i j Hi Hj. assert (F := SC i j Hi Hj). clear -F. induction F as [|c Hc F IH]; [constructor|exact (linked_fwd _ _ _ Hc IH)]. Qed.

Section Busy.
Variables (g : graph) (keep : nat -> bool) (fuel ticks : nat) (N : list Z).
Hypotheses (WF : graph_wf g) (NI : no_init g) (EV : even_self_loops g) (PD : positive_durations g) (SD : short_durations g)
  (NEg : vertices g <> []) (FU : (length (vertices g) <= fuel)%nat) (EN : compute_repetition_vector fuel g = Ok (Some N)).
Let h := sub keep g.
Hypotheses (SC : strongly_connected h) (NE : edges h <> []).

Lemma sub_fuel : (length (vertices h) <= fuel)%nat.
Proof.
  unfold h, sub. cbn [vertices]. rewrite select_length.
  assert (X : forall j, (rank keep j <= j)%nat) by (induction j as [|j IH]; [cbn; lia|rewrite rank_S; destruct (keep j); lia]). specialize (X (length (vertices g))). lia.
Qed.
Lemma sub_ends c : In c (edges h) -> (e_src c < length (vertices h))%nat /\ (e_dst c < length (vertices h))%nat.
Proof. intros I. destruct (proj1 (proj2 (sub_wf g keep WF)) c I) as (vs & vd & Es & Ed & _). split; apply nth_error_Some; unfold h; congruence. Qed.
Lemma busy_guarded : all_guarded h false.
Proof. apply strong_guarded; [|assumption|assumption]. intros c I. apply sub_ends, I. Qed.
Lemma busy_nonempty : vertices h <> [].
Proof. destruct (edges h) as [|c l] eqn:E; [congruence|]. destruct (sub_ends c ltac:(rewrite E; left; reflexivity)) as [L _]. intros V. rewrite V in L. cbn in L. lia. Qed.

Lemma busy_solution : solution h (fun j => nth (unrank g keep j) N 0) /\
  (forall j v, nth_error (vertices h) j = Some v -> (Z.of_nat (v_phases v) | nth (unrank g keep j) N 0)).
Proof.
  destruct (C18_balance g fuel N (graph_wf_rates g WF) NEg FU EN) as (LN & NP & BA & DV). split; [split|].
  - intros j Hj. destruct (sub_position g keep j Hj) as (i & L & K & R & ->). apply NP. exact L.
  - intros c' I. apply sub_edge in I. destruct I as (c & I & A & B & ->). destruct (edge_bounds g WF c I) as [L1 L2].
    cbn [moved set_ends e_in e_out e_src e_dst]. rewrite !unrank_rank by assumption. apply BA. assumption.
  - intros j v E. assert (Hj : (j < length (vertices h))%nat) by (apply nth_error_Some; congruence).
    destruct (sub_position g keep j Hj) as (i & L & K & R & ->). rewrite <- R in E. unfold h in E. rewrite sub_vertex in E by assumption.
    apply (DV i v E). destruct (busy_guarded j Hj) as [(c' & I & D)|(F & _)]; [|discriminate].
    apply sub_edge in I. destruct I as (c & I & A & B & ->). cbn in D. exists c. split; [assumption|]. right. apply (rank_inj keep); congruence.
Qed.
Lemma busy_factor N' : compute_repetition_vector fuel h = Ok (Some N') ->
  exists k, 0 < k /\ forall i, (i < length (vertices g))%nat -> keep i = true -> nth i N 0 = k * nth (rank keep i) N' 0.
Proof.
  intros E'. destruct busy_solution as [So Dv].
  destruct (C19_least_solution h fuel N' (graph_wf_rates h (sub_wf g keep WF)) busy_nonempty sub_fuel (guarded_lonely h None busy_guarded) (strong_connected h SC) E' _ So Dv) as (k & K0 & Hk).
  exists k. split; [assumption|]. intros i Hi Ki. rewrite <- Hk by (apply sub_bound; assumption). cbv beta. rewrite unrank_rank by assumption. reflexivity.
Qed.

Lemma periodic_part n T : component_throughput fuel ticks h None = Ok (Periodic n T) ->
  exists N' k, compute_repetition_vector fuel h = Ok (Some N') /\ 0 < k /\
    (forall i, (i < length (vertices g))%nat -> keep i = true -> nth i N 0 = k * nth (rank keep i) N' 0) /\
    (0 < n)%nat /\ (0 < T)%Q /\
    (exists s, part g (as_vector N) keep s (inject_Z k * (T / inject_Z (Z.of_nat n)))) /\
    (forall s omega, schedule_valid g s -> keeps_pace g (as_vector N) s omega -> (inject_Z k * (T / inject_Z (Z.of_nat n)) <= omega)%Q).
Proof.
  intros H. pose proof (sub_wf g keep WF) as Wh. pose proof (sub_no_init g keep NI) as Ih. pose proof (sub_even g keep EV) as Eh.
  pose proof (sub_positive g keep PD) as Ph. pose proof busy_guarded as Gh. pose proof (strong_connected h SC) as Ch. pose proof busy_nonempty as Nh. pose proof sub_fuel as Fh.
  fold h in Wh, Ih, Eh, Ph.
  destruct (component_periodic h None fuel ticks Wh Ih Eh Gh Ch Nh Fh n T H) as (N' & E' & n0 & K0 & Per).
  destruct (component_exact h None fuel ticks Wh Ih Eh Gh Ch Nh Fh n T ltac:(discriminate) Ph H) as (N2 & E2 & _ & T0 & (s & [SV _] & _ & _ & Fi) & Opt).
  rewrite E' in E2. injection E2 as <-. destruct (busy_factor N' E') as (k & k0 & Hk).
  destruct (C18_balance h fuel N' (graph_wf_rates h Wh) Nh Fh E') as (LN' & NP' & _).
  destruct (C18_balance g fuel N (graph_wf_rates g WF) NEg FU EN) as (LN & NP & _).
  assert (kq : (0 < inject_Z k)%Q) by (change 0%Q with (inject_Z 0); rewrite <- Zlt_Qlt; lia).
  assert (nq : (0 < inject_Z (Z.of_nat n))%Q) by (change 0%Q with (inject_Z 0); rewrite <- Zlt_Qlt; lia).
  exists N', k. repeat (split; [assumption|]). split.
  - exists (fun i => s (rank keep i)). split; [|split].
    + intros c I A B. apply extend_channel; assumption.
    + intros i v K E. eapply extend_serialised; eauto.
    + assert (One : forall i, (i < length (vertices g))%nat -> keep i = true ->
        exists B, (0 <= B)%Q /\ near (as_vector N) (fun i => s (rank keep i)) (inject_Z k * (T / inject_Z (Z.of_nat n))) i B).
      { intros i Li K. pose proof (sub_bound g keep i Li K) as Lj. fold h in Lj. set (j := rank keep i) in *. specialize (NP' j Lj).
        destruct (steady (s j) (n * Z.to_nat (nth j N' 0)) K0 T ltac:(nia) ltac:(lra)) as (B & B0 & HB).
        { intros m Hm. destruct (Per j m Lj Hm) as (t & t' & F1 & F2 & Eq).
          rewrite (fires_fun h None _ _ _ _ (Fi j m Lj) F1), (fires_fun h None _ _ _ _ (Fi j _ Lj) F2). exact Eq. }
        exists B. split; [assumption|]. intros m. specialize (HB m). unfold as_vector. rewrite (Hk i Li K). fold j.
        rewrite Nat2Z.inj_mul, Z2Nat.id in HB by lia. rewrite inject_Z_mult in HB. rewrite inject_Z_mult.
        assert (Nq : (0 < inject_Z (nth j N' 0%Z))%Q) by (change 0%Q with (inject_Z 0); rewrite <- Zlt_Qlt; lia).
        assert (Eq : (inject_Z k * (T / inject_Z (Z.of_nat n)) * (inject_Z (Z.of_nat m) / (inject_Z k * inject_Z (nth j N' 0%Z))) ==
                      T * (inject_Z (Z.of_nat m) / (inject_Z (Z.of_nat n) * inject_Z (nth j N' 0%Z))))%Q) by (field; repeat split; lra).
        rewrite Eq. exact HB. }
      assert (All : forall M, exists B, (0 <= B)%Q /\ forall i, (i < M)%nat -> keep i = true -> (i < length (vertices g))%nat ->
        near (as_vector N) (fun i => s (rank keep i)) (inject_Z k * (T / inject_Z (Z.of_nat n))) i B).
      { induction M as [|M (B & B0 & HB)]; [exists 0%Q; split; [lra|intros; lia]|].
        destruct (keep M) eqn:KM; [destruct (lt_dec M (length (vertices g))) as [LM|LM]|].
        - destruct (One M LM KM) as (B' & B0' & HB'). exists (B + B')%Q. split; [lra|]. intros i Hi K L m.
          unfold near in *. cbv beta in *. destruct (Nat.eq_dec i M) as [->|]; [destruct (HB' m); split; lra|]. destruct (HB i ltac:(lia) K L m). split; lra.
        - exists B. split; [assumption|]. intros i Hi K L. apply HB; [lia|assumption|assumption].
        - exists B. split; [assumption|]. intros i Hi K L. apply HB; [|assumption|assumption]. destruct (Nat.eq_dec i M) as [->|]; [congruence|lia]. }
      destruct (All (length (vertices g))) as (B & B0 & HB). exists B. intros i K L. apply HB; assumption.
  - intros s' omega SV' (B & HB). 
    assert (X : (T / inject_Z (Z.of_nat n) <= omega / inject_Z k)%Q).
    { apply (Opt (fun j => s' (unrank g keep j)) (omega / inject_Z k)%Q); [split; [apply restrict_valid; assumption|discriminate]|].
      exists B. intros j m Lj. destruct (sub_position g keep j Lj) as (i & L & K & R & ->). specialize (HB i m L). unfold as_vector in *.
      rewrite (Hk i L K), R in HB. specialize (NP' j Lj). rewrite inject_Z_mult in HB.
      assert (Nq : (0 < inject_Z (nth j N' 0%Z))%Q) by (change 0%Q with (inject_Z 0); rewrite <- Zlt_Qlt; lia).
      assert (Eq : (omega / inject_Z k * (inject_Z (Z.of_nat m) / inject_Z (nth j N' 0%Z)) == omega * (inject_Z (Z.of_nat m) / (inject_Z k * inject_Z (nth j N' 0%Z))))%Q) by (field; split; lra).
      rewrite Eq. exact HB. }
    assert (Y : (omega == inject_Z k * (omega / inject_Z k))%Q) by (field; lra). rewrite Y. nra.
Qed.

Lemma busy_verdict x : scaled_throughput fuel ticks g N h = Ok (Some x) -> verdict g keep (as_vector N) x.
Proof.
  unfold scaled_throughput. destruct (Nat.ltb_spec 0 (length (edges h))) as [L|L]; [|destruct (edges h); [congruence|cbn in L; lia]].
  destruct (prepare fuel h None) as [p| | |] eqn:Ep; try discriminate. cbn [bind].
  destruct (run ticks h (fst (fst p)) (snd (fst p)) (snd p)) as [a| | |] eqn:Ea; try discriminate. cbn [bind].
  destruct (throughput a) as [thr| | |] eqn:Et; try discriminate. cbn [bind].
  destruct (id_of h (fst (fst p))) as [id| | |] eqn:Ei; try discriminate. cbn [bind].
  destruct (ni_by_id g N id) as [ni| | |] eqn:En; try discriminate. cbn [bind]. intros Hx.
  assert (x = Qred (thr * inject_Z (snd (fst p)) / inject_Z ni)) as -> by congruence. clear Hx.
  assert (HC : component_throughput fuel ticks h None = Ok a) by (unfold component_throughput; rewrite Ep; exact Ea).
  destruct a as [m|n T|]; cbn [throughput] in Et; [discriminate| |].
  - destruct (periodic_part n T HC) as (N' & k & E' & k0 & Hk & n0 & T0 & PX & OX).
    destruct (Qeq_bool T 0) eqn:ET; [discriminate|]. assert (thr = Qred (inject_Z (Z.of_nat n) / T)) as -> by congruence.
    unfold prepare in Ep. rewrite E' in Ep. cbn [bind] in Ep. destruct (actors_ok h 0 (vertices h)); cbn [bind] in Ep; try discriminate.
    destruct (min_actor N') as [[w rep]|] eqn:Em; [|discriminate]. injection Ep as <-. cbn [fst snd] in *.
    pose proof (min_actor_at N' w rep Em) as Ew. unfold id_of in Ei. destruct (nth_error (vertices h) w) as [v|] eqn:Ev; [|discriminate]. injection Ei as <-.
    assert (Lw : (w < length (vertices h))%nat) by (apply nth_error_Some; congruence).
    destruct (sub_position g keep w Lw) as (i & Li & Ki & Ri & _). rewrite <- Ri in Ev. unfold h in Ev. rewrite sub_vertex in Ev by assumption.
    unfold ni_by_id, vertex_by_id in En. rewrite (position_nth _ i v (proj2 (proj2 WF)) Ev) in En. cbn [bind] in En.
    destruct (nth_error N i) as [ni'|] eqn:Eni; [|discriminate]. injection En as <-.
    pose proof (Hk i Li Ki) as Hi. rewrite Ri, (nth_error_nth _ _ 0 Eni), (nth_error_nth _ _ 0 Ew) in Hi. 
    destruct (C18_balance g fuel N (graph_wf_rates g WF) NEg FU EN) as (LN & NP & _). specialize (NP i Li). rewrite (nth_error_nth _ _ 0 Eni) in NP.
    assert (rp : 0 < rep) by nia.
    assert (kq : (0 < inject_Z k)%Q) by (change 0%Q with (inject_Z 0); rewrite <- Zlt_Qlt; lia).
    assert (nq : (0 < inject_Z (Z.of_nat n))%Q) by (change 0%Q with (inject_Z 0); rewrite <- Zlt_Qlt; lia).
    assert (rq : (0 < inject_Z rep)%Q) by (change 0%Q with (inject_Z 0); rewrite <- Zlt_Qlt; lia).
    set (X := (Qred (Qred (inject_Z (Z.of_nat n) / T) * inject_Z rep / inject_Z ni'))%Q).
    assert (EX : (X == inject_Z (Z.of_nat n) / (inject_Z k * T))%Q).
    { unfold X. rewrite !Qred_correct, Hi, inject_Z_mult. field. repeat split; lra. }
    assert (PX0 : (0 < X)%Q). { rewrite EX. apply Qlt_shift_div_l; nra. }
    assert (EI : (/ X == inject_Z k * (T / inject_Z (Z.of_nat n)))%Q) by (rewrite EX; field; repeat split; lra).
    split; [lra|]. split; [intros Z; lra|]. intros _. split.
    + destruct PX as (s & C & S & B & HB). exists s. split; [assumption|]. split; [assumption|]. exists B. intros i' K' L' m. specialize (HB i' K' L' m). rewrite EI. exact HB.
    + intros s omega SV KP. rewrite EI. exact (OX s omega SV KP).
  - injection Et as <-. assert (E0 : (Qred (0 * inject_Z (snd (fst p)) / inject_Z ni) == 0)%Q).
    { rewrite Qred_correct. unfold Qdiv. lra. }
    split; [lra|]. split; [|lra]. intros _ s SV.
    apply (component_deadlock h None fuel ticks (sub_wf g keep WF) (sub_no_init g keep NI) (sub_even g keep EV) busy_guarded busy_nonempty sub_fuel
             (sub_positive g keep PD) (sub_short g keep SD) HC (fun j => s (unrank g keep j))).
    split; [apply restrict_valid; assumption|discriminate].
Qed.
End Busy.
