(** A component that is one task without channels of its own. *)
From Coq Require Import QArith Qreduction Lqa Qabs.
From Verif Require Import Base Graph ScheduleSpec ScheduleCore RepVec RepVecSpec RepVecProps KIterSpec Scc SccSpec SccProofs
  Sim SimSpec SimOptimal SimTerm SimScc SimSccSpec SimSccSub SimSccCompose SimSccParts.
From Verif Require KPeriodicProofs.
Open Scope Z_scope.

Fixpoint sumq (f : nat -> Q) (m : nat) : Q := match m with O => 0%Q | S m' => (sumq f m' + f m')%Q end.
Lemma sumq_shift f m : (sumq f (S m) == f 0%nat + sumq (fun j => f (S j)) m)%Q.
Proof. induction m as [|m IH]; [cbn; lra|]. change (sumq f (S (S m))) with (sumq f (S m) + f (S m))%Q. rewrite IH. cbn [sumq]. lra. Qed.
Lemma sumq_list l : (sumq (fun j => nth j l 0%Q) (length l) == qsum l)%Q.
Proof. induction l as [|x l IH]; [reflexivity|]. cbn [length qsum]. rewrite sumq_shift. cbn [nth]. rewrite IH. reflexivity. Qed.
Lemma sumq_ext f f' m : (forall k, (k < m)%nat -> f k = f' k) -> sumq f m = sumq f' m.
Proof. induction m as [|m IH]; intros H; [reflexivity|]. cbn [sumq]. rewrite IH, H by (auto; intros; apply H; lia). reflexivity. Qed.
Lemma sumq_period l m : (0 < length l)%nat -> (sumq (cyclic 0%Q [] l) (m + length l) == sumq (cyclic 0%Q [] l) m + qsum l)%Q.
Proof.
  intros H. induction m as [|m IH].
  - cbn [Nat.add sumq]. rewrite <- sumq_list. rewrite (sumq_ext _ (fun j => nth j l 0%Q)); [lra|].
    intros k Hk. unfold cyclic. cbn [length Nat.ltb Nat.leb]. rewrite Nat.sub_0_r, Nat.mod_small by lia. reflexivity.
  - cbn [Nat.add sumq]. rewrite IH. replace (cyclic 0%Q [] l (m + length l)) with (cyclic 0%Q [] l m); [lra|].
    pose proof (KPeriodicProofs.cyclic_shift 0%Q [] l m 1 H ltac:(cbn; lia)) as E. rewrite Nat.mul_1_l in E. auto.
Qed.

Lemma quot_whole x z : (x == inject_Z z)%Q -> Z.quot (Qnum x) (Zpos (Qden x)) = z.
Proof. unfold Qeq. cbn. rewrite Z.mul_1_r. intros ->. apply Z.quot_mul. discriminate. Qed.
Lemma accumulate_whole l : forall acc t, (forall d, In d l -> whole_number d) -> accumulate_durations l acc = Ok t -> (inject_Z t == inject_Z acc + qsum l)%Q.
Proof.
  induction l as [|d l IH]; intros acc t W; cbn [accumulate_durations qsum]; [intros [= <-]; lra|].
  destruct (W d (or_introl eq_refl)) as [z Ez].
  rewrite (quot_whole _ (acc + z)) by (rewrite Ez, inject_Z_plus; reflexivity).
  destruct (_ && _); [|discriminate]. intros H. rewrite (IH _ _ (fun x I => W x (or_intror I)) H), inject_Z_plus, Ez. lra.
Qed.

Section Idle.
Variables (g : graph) (keep : nat -> bool) (fuel ticks : nat) (N : list Z).
Hypotheses (WF : graph_wf g) (NI : no_init g) (PD : positive_durations g)
  (NEg : vertices g <> []) (FU : (length (vertices g) <= fuel)%nat) (EN : compute_repetition_vector fuel g = Ok (Some N)).
Let h := sub keep g.
Hypotheses (NE : edges h = []) (WD : forall v d, vertices h = [v] -> In d (v_durations v) -> whole_number d).

Lemma idle_verdict x : scaled_throughput fuel ticks g N h = Ok (Some x) -> verdict g keep (as_vector N) x.
Proof.
  unfold scaled_throughput. rewrite NE. cbn [length Nat.ltb Nat.leb]. destruct (vertices h) as [|v [|? ?]] eqn:Eh; try discriminate.
  destruct (sub_position g keep 0%nat) as (i & Li & Ki & Ri & _); [fold h; rewrite Eh; cbn; lia|].
  assert (Ev : nth_error (vertices g) i = Some v). { rewrite <- (sub_vertex g keep i Ki), Ri. unfold h in Eh. rewrite Eh. reflexivity. }
  assert (Only : forall j, (j < length (vertices g))%nat -> keep j = true -> j = i).
  { intros j Lj Kj. pose proof (sub_bound g keep j Lj Kj) as B. fold h in B. rewrite Eh in B. cbn in B. apply (rank_inj keep); [assumption|assumption|lia]. }
  unfold ni_by_id, vertex_by_id. rewrite (position_nth _ i v (proj2 (proj2 WF)) Ev). cbn [bind].
  destruct (nth_error N i) as [ni|] eqn:Eni; [|discriminate]. cbn [bind]. rewrite Ev. cbn [bind].
  destruct (total_duration v) as [total| | |] eqn:Et; try discriminate. cbn [bind]. destruct (Qeq_bool total 0) eqn:Ez; [discriminate|].
  intros Hx. assert (x = Qred (inject_Z (Z.of_nat (v_phases v)) / total / inject_Z ni)) as -> by congruence. clear Hx Ez.
  destruct (C18_balance g fuel N (graph_wf_rates g WF) NEg FU EN) as (LN & NP & _). specialize (NP i Li). rewrite (nth_error_nth _ _ 0 Eni) in NP.
  pose proof (nth_error_In _ _ Ev) as Iv. destruct (proj1 WF v Iv) as (P0 & LD & LI & DN).
  assert (I0 : v_init_durations v = []) by (apply length_zero_iff_nil; rewrite LI; apply NI; assumption).
  assert (ED : forall m, exec_duration v m = cyclic 0%Q [] (v_durations v) m) by (intros m; unfold exec_duration; rewrite I0; reflexivity).
  assert (Tt : (total == qsum (v_durations v))%Q).
  { unfold total_duration in Et. destruct (cassert _); cbn [bind] in Et; try discriminate.
    destruct (accumulate_durations (v_durations v) 0) as [t| | |] eqn:Ea; cbn [bind] in Et; try discriminate.
    assert (total = inject_Z t) as -> by congruence. rewrite (accumulate_whole _ _ _ (fun d I => WD v d eq_refl I) Ea). change (inject_Z 0) with 0%Q. lra. }
  assert (T0 : (0 < total)%Q).
  { rewrite Tt. assert (A : forall l, (forall d, In d l -> (0 < d)%Q) -> l <> [] -> (0 < qsum l)%Q).
    { induction l as [|d l IH]; intros H Hn; [congruence|]. cbn [qsum]. pose proof (H d (or_introl eq_refl)). destruct l as [|e l]; [cbn; lra|].
      specialize (IH (fun x I => H x (or_intror I)) ltac:(discriminate)). lra. }
    apply A; [intros d I; apply (PD v d Iv I)|]. intros E. rewrite E in LD. cbn in LD. lia. }
  set (P := v_phases v) in *.
  assert (pq : (0 < inject_Z (Z.of_nat P))%Q) by (change 0%Q with (inject_Z 0); rewrite <- Zlt_Qlt; lia).
  assert (nq : (0 < inject_Z ni)%Q) by (change 0%Q with (inject_Z 0); rewrite <- Zlt_Qlt; lia).
  set (X := Qred (inject_Z (Z.of_nat P) / total / inject_Z ni)).
  assert (EX : (X == inject_Z (Z.of_nat P) / (total * inject_Z ni))%Q) by (unfold X; rewrite Qred_correct; field; split; lra).
  assert (X0 : (0 < X)%Q) by (rewrite EX; apply Qlt_shift_div_l; nra).
  assert (EI : (/ X == total * inject_Z ni / inject_Z (Z.of_nat P))%Q) by (rewrite EX; field; repeat split; lra).
  split; [lra|]. split; [intros Z; lra|]. intros _. split.
  - exists (fun _ m => sumq (cyclic 0%Q [] (v_durations v)) m). split; [|split].
    + intros c Ic A B. exfalso. assert (I : In (moved keep c) (edges h)) by (apply sub_edge; eauto 6). rewrite NE in I. destruct I.
    + intros j u Kj Eu. assert (Lj : (j < length (vertices g))%nat) by (apply nth_error_Some; congruence). pose proof (Only j Lj Kj) as ->.
      assert (u = v) as -> by congruence. intros m. unfold start_of. rewrite ED. cbn [sumq]. lra.
    + destruct (steady (sumq (cyclic 0%Q [] (v_durations v))) P 0 total P0 ltac:(lra)) as (B & B0 & HB).
      { intros k _. rewrite <- LD. rewrite sumq_period by lia. rewrite Tt. reflexivity. }
      exists B. intros j Kj Lj. pose proof (Only j Lj Kj) as ->. intros m. specialize (HB m). unfold as_vector. rewrite (nth_error_nth _ _ 0%Z Eni), EI.
      assert (Eq : (total * inject_Z ni / inject_Z (Z.of_nat P) * (inject_Z (Z.of_nat m) / inject_Z ni) == total * (inject_Z (Z.of_nat m) / inject_Z (Z.of_nat P)))%Q) by (field; split; lra).
      rewrite Eq. exact HB.
  - intros s omega [_ TS] (B & HB). specialize (TS i v Ev).
    assert (G : forall m, (s i 0%nat + sumq (cyclic 0%Q [] (v_durations v)) m <= s i m)%Q).
    { induction m as [|m IH]; [cbn; lra|]. specialize (TS m). unfold start_of in TS. rewrite ED in TS. cbn [sumq]. lra. }
    assert (J : forall j : nat, (sumq (cyclic 0%Q [] (v_durations v)) (j * P) == inject_Z (Z.of_nat j) * total)%Q).
    { induction j as [|j IH]; [change (inject_Z (Z.of_nat 0)) with 0%Q; cbn [Nat.mul sumq]; lra|]. replace (S j * P)%nat with (j * P + length (v_durations v))%nat by (rewrite LD; lia).
      rewrite sumq_period by lia. rewrite IH, Tt, Nat2Z.inj_succ. unfold Z.succ. rewrite inject_Z_plus. change (inject_Z 1) with 1%Q. lra. }
    assert (Sl : (total <= omega * inject_Z (Z.of_nat P) / inject_Z ni)%Q).
    { apply (slope total (omega * inject_Z (Z.of_nat P) / inject_Z ni) (B - s i 0%nat)). intros j. specialize (G (j * P)%nat). rewrite J in G.
      specialize (HB i (j * P)%nat Li). unfold as_vector in HB. rewrite (nth_error_nth _ _ 0%Z Eni), Nat2Z.inj_mul, inject_Z_mult in HB.
      assert (Eq : (omega * (inject_Z (Z.of_nat j) * inject_Z (Z.of_nat P) / inject_Z ni) == inject_Z (Z.of_nat j) * (omega * inject_Z (Z.of_nat P) / inject_Z ni))%Q) by (field; lra).
      rewrite Eq in HB. lra. }
    rewrite EI. apply Qle_shift_div_r; [assumption|].
    assert (Eq : (omega * inject_Z (Z.of_nat P) == (omega * inject_Z (Z.of_nat P) / inject_Z ni) * inject_Z ni)%Q) by (field; lra). rewrite Eq. nra.
Qed.
End Idle.
