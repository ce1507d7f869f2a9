(** Storage dependencies of a periodic execution. *)
From Coq Require Import QArith Qreduction Lqa.
From Verif Require Import Base Graph ScheduleSpec RepVec RepVecSpec RepVecProofs RepVecFinal RepVecProps KIterSpec
  Sim SimSpec SimProofs SimTime SimAsap SimRecur SimPeriod SimOptimal SimFinal StorDep StorDepSpec StorDepScc StorDepDead StorDepPair StorDepTrace.
Open Scope Z_scope.

(** * A task whose dependencies all lead back to it *)
Lemma waits_to g d u v : task_deps g d -> In u (ids g) -> waits d u v -> In v (ids g).
Proof.
  intros TD Hu [l C]. revert u Hu C. induction l as [|x l IH]; intros u Hu; cbn [chain]; [intros <-; assumption|].
  intros [A C]. apply (IH x); [apply (TD u x A)|assumption].
Qed.
Lemma sink_exists d : forall n u L, (length L <= n)%nat -> In u L -> (forall v, waits d u v -> In v L) ->
  ~ ~ exists u0, waits d u u0 /\ forall v, waits d u0 v -> ~ ~ waits d v u0.
Proof.
  induction n as [|n IH]; intros u L Ln Hu HL NS; [destruct L; [destruct Hu|cbn in Ln; lia]|].
  apply NS. exists u. split; [exists []; reflexivity|]. intros v W NW.
  assert (Lr : (length (remove Z.eq_dec u L) <= n)%nat) by (pose proof (remove_length_lt Z.eq_dec L u Hu); lia).
  apply (IH v (remove Z.eq_dec u L) Lr).
  - apply in_in_remove; [|apply HL; assumption]. intros ->. apply NW. exists []. reflexivity.
  - intros x Wx. apply in_in_remove; [intros ->; contradiction|]. apply HL. eapply waits_trans; eauto.
  - intros (u0 & A & B). apply NS. exists u0. split; [eapply waits_trans; eauto|assumption].
Qed.
Lemma bounded_rows (f : nat -> nat -> Q) (lim : nat -> nat) M : exists B, forall i k, (i < M)%nat -> (k < lim i)%nat -> (f i k <= B)%Q.
Proof.
  assert (Row : forall h K, exists B, forall k, (k < K)%nat -> (h k <= B)%Q).
  { clear. intros h. induction K as [|K [B IH]]; [exists 0%Q; intros; lia|]. destruct (Qlt_le_dec B (h K)) as [L|L].
    - exists (h K). intros k Hk. destruct (Nat.eq_dec k K) as [->|]; [lra|]. specialize (IH k ltac:(lia)). lra.
    - exists B. intros k Hk. destruct (Nat.eq_dec k K) as [->|]; [lra|]. apply IH. lia. }
  induction M as [|M [B IH]]; [exists 0%Q; intros; lia|]. destruct (Row (f M) (lim M)) as [C HC]. destruct (Qlt_le_dec B C) as [L|L].
  - exists C. intros i k Hi Hk. destruct (Nat.eq_dec i M) as [->|]; [auto|]. specialize (IH i k ltac:(lia) Hk). lra.
  - exists B. intros i k Hi Hk. destruct (Nat.eq_dec i M) as [->|]; [specialize (HC k Hk); lra|]. apply IH; [lia|assumption].
Qed.

Section Period.
Variables (g : graph) (cap cap' : nat -> Z).
Hypotheses (WF : graph_wf g) (NI : no_init g) (EV : even_self_loops g) (GD : all_guarded g true) (PD : positive_durations g).
Notation m0 := (new_machine g (Some cap)).
Notation V := (length (vertices g)).
Variables (s s' : schedule).
Hypotheses (HS : forall i k, (i < V)%nat -> fires_at g (Some cap) i k (s i k)) (SV : bounded_valid g (Some cap') s').
Variables (pb fb : machine) (d : depgraph) (u0 : Z).
Hypotheses (PB : pinv g cap pb fb) (COV : forall j p m, pit g j (pb, fb) = Some (p, m) -> start_in g d p m)
  (ROOM : forall i x k c, (i < V)%nat -> (x < V)%nat -> waits d u0 (vid g i) -> In (vid g i, vid g x) d ->
     nth_error (edges g) k = Some c -> e_src c = i -> e_dst c = x -> cap' k <= cap k).

Lemma end_len sc x e : (x < V)%nat -> (end_of sc g x e - sc x e == end_of s g x e - s x e)%Q.
Proof.
  clear - s. intros Hx. unfold end_of. destruct (nth_error (vertices g) x) as [v|] eqn:Ev; [lra|apply nth_error_None in Ev; lia].
Qed.
(** Following what held the firings back, the other schedule takes as long. *)
Lemma as_long : forall n p m i k, pit g n (pb, fb) = Some (p, m) -> (k < started (m_log m) i)%nat -> (i < V)%nat -> waits d u0 (vid g i) ->
  exists j e, (j < V)%nat /\ (e < started (m_log fb) j)%nat /\ (s i k - s j e <= s' i k - s' j e)%Q.
Proof.
  intros n. induction n as [n IH] using lt_wf_ind. intros p m i k E L Hi W.
  destruct (Nat.lt_ge_cases k (started (m_log fb) i)) as [Lk|Lk]; [exists i, k; split; [assumption|split; [assumption|lra]]|].
  pose proof (pinv_free g cap pb fb PB) as Ffb.
  destruct (pit_starts g cap n pb fb p m i k Ffb E (conj Lk L)) as (j & p1 & m1 & m2 & Lj & E1 & P1 & T1 & Lg & Ek & v & Ev & Rd).
  pose proof (pit_pinv g cap j pb fb p1 m1 PB E1) as PI. pose proof (pinv_free g cap p1 m1 PI) as F1.
  destruct (tight g cap WF NI EV GD p1 m1 i v PI P1 Ev Rd) as (x & e & Hx & Le & Et & Why).
  assert (F2 : runs_to g 0 0 m0 m2) by (econstructor; eauto).
  assert (Si : s i k = m_now m1).
  { rewrite <- (s_nth g (Some cap) s HS m2 i k Hi F2) by (rewrite Lg; cbn; rewrite Nat.eqb_refl; lia).
    rewrite Lg. cbn [starts]. rewrite Nat.eqb_refl, app_nth2; rewrite starts_length; [|lia]. rewrite Ek, Nat.sub_diag. reflexivity. }
  destruct (nth_error (vertices g) x) as [vx|] eqn:Ex; [|apply nth_error_None in Ex; lia].
  pose proof (s_end g (Some cap) s WF NI EV GD HS m1 x vx e Ex F1 Le) as Se. rewrite Et in Se.
  assert (Lx : (e < started (m_log m1) x)%nat).
  { pose proof (inv_order _ _ _ (inv_runs g (Some cap) 0 0 WF NI EV m1 F1) x vx Ex). lia. }
  assert (Wx : waits d u0 (vid g x) /\ (end_of s' g x e <= s' i k)%Q).
  { destruct Why as [[-> Es]|(Hd & La & ->)].
    - split; [assumption|]. unfold end_of. rewrite Ex. pose proof (sched_step g (Some cap') s' SV i vx e Ex) as X.
      replace k with (S e) by lia. exact X.
    - assert (Dd : In (vid g i, vid g x) d) by (apply (COV j p1 m1 E1 i v P1 Ev Rd); assumption). split.
      + eapply waits_trans; [exact W|apply waits_one; assumption].
      + replace k with (started (m_log m1) i). eapply (lacks_needs g cap cap' s'); eauto. }
  destruct Wx as [Wx Sx]. destruct (IH j Lj p1 m1 x e E1 Lx Hx Wx) as (j' & e' & Hj' & Le' & Q).
  exists j', e'. split; [assumption|]. split; [assumption|]. pose proof (end_len s' x e Hx). rewrite <- Si in Se. lra.
Qed.
End Period.

Theorem period_stays fuel ticks g cap n T r cap' N : graph_wf g -> no_init g -> even_self_loops g -> all_guarded g true -> connected_graph g ->
  vertices g <> [] -> (length (vertices g) < fuel)%nat -> positive_durations g -> capacities_ok g (Some cap) ->
  component_cycles true fuel ticks g cap = Ok (Periodic n T, r) -> compute_repetition_vector fuel g = Ok (Some N) ->
  (forall k, In k r -> cap' k <= cap k) ->
  forall s' omega, bounded_valid g (Some cap') s' -> keeps_pace g (as_vector N) s' omega -> (T / inject_Z (Z.of_nat n) <= omega)%Q.
Proof.
  intros WF NI EV GD CG NE FU PD CO H EN Le s' omega SV (B & HB).
  assert (FU' : (length (vertices g) <= fuel)%nat) by lia.
  pose proof (component_cycles_throughput _ _ _ _ _ _ _ H) as HT.
  destruct (component_periodic g (Some cap) fuel ticks WF NI EV GD CG NE FU' n T HT) as (N' & EN' & Hn & K0 & HK).
  assert (N' = N) as -> by congruence.
  destruct (C18_balance g fuel N (graph_wf_rates g WF) NE FU' EN) as (LN & NP & _).
  assert (L0 : (0 < length (vertices g))%nat) by (destruct (vertices g); [congruence|cbn; lia]).
  destruct (choose_schedule g (Some cap) (endless_all g (Some cap) fuel ticks WF NI EV GD CG NE FU' n T HT)) as [s HS].
  assert (PER : forall i k, (i < length (vertices g))%nat -> (K0 <= k)%nat -> (s i (k + n * Z.to_nat (as_vector N i))%nat == s i k + T)%Q).
  { intros i k Hi Hk. destruct (HK i k Hi Hk) as (t & t' & F1 & F2 & E).
    rewrite <- (fires_fun g (Some cap) _ _ _ _ F1 (HS i k Hi)). unfold as_vector. rewrite <- (fires_fun g (Some cap) _ _ _ _ F2 (HS _ _ Hi)). exact E. }
  destruct (traced g cap fuel ticks WF NI EV GD CG NE FU' PD CO true n T r H) as (pb & fb & d & PB & S & TD & COV).
  destruct (storage_deps_scc_run g d TD fuel FU) as (r' & S' & Hr).
  { intros c Hc. apply In_nth_error in Hc. destruct Hc as [k E]. destruct (edge_in_range g k c WF E). split; apply vid_in; assumption. }
  assert (r' = r) as -> by (cbn [storage_deps] in S; congruence).
  destruct (Qlt_le_dec omega (T / inject_Z (Z.of_nat n))) as [Lt|]; [exfalso|assumption].
  apply (sink_exists d (length (ids g)) (vid g 0) (ids g) (le_n _) (vid_in g 0 L0)).
  { intros v Wv. eapply waits_to; eauto using vid_in. }
  intros (u0 & W0 & SK). apply Qlt_not_le in Lt. apply Lt. clear Lt.
  destruct (in_ids g u0 (waits_to g d _ _ TD (vid_in g 0 L0) W0)) as (i & Hi & Ei).
  assert (ROOM : forall j x k c, (j < length (vertices g))%nat -> (x < length (vertices g))%nat -> waits d u0 (vid g j) -> In (vid g j, vid g x) d ->
     nth_error (edges g) k = Some c -> e_src c = j -> e_dst c = x -> cap' k <= cap k).
  { intros j x k c Hj Hx Wj Hd Ek Es Ed. apply Le. destruct (in_dec Nat.eq_dec k r) as [|NI']; [assumption|exfalso].
    apply (SK (vid g x)); [eapply waits_trans; [exact Wj|apply waits_one; assumption]|]. intros Wx. apply NI'. apply Hr.
    exists c. rewrite Es, Ed. split; [assumption|]. split; [assumption|]. eapply waits_trans; eauto. }
  assert (Long : forall k, exists j e, (j < length (vertices g))%nat /\ (e < started (m_log fb) j)%nat /\ (s i k - s j e <= s' i k - s' j e)%Q).
  { intros k. pose proof (pinv_free g cap pb fb PB) as Ffb. destruct (s_reached g (Some cap) s HS i k Hi) as (m & Rm & Lk).
    destruct (Nat.lt_ge_cases k (started (m_log fb) i)) as [L|L]; [exists i, k; split; [assumption|split; [assumption|lra]]|].
    destruct (runs_linear g 0 0 _ _ _ Ffb Rm) as [R|R].
    - destruct (runs_pit g fb m R pb) as (q & p & E). eapply (as_long g cap cap' WF NI EV GD PD s s' HS SV pb fb d u0); eauto.
      rewrite Ei. exists []. reflexivity.
    - exfalso. destruct (runs_log _ _ _ _ _ R) as [l El]. rewrite El, started_app in L. lia. }
  destruct (bounded_rows (fun j e => (s j e - s' j e)%Q) (started (m_log fb)) (length (vertices g))) as [C HC].
  pose proof (NP i Hi) as NPi. set (D := (n * Z.to_nat (as_vector N i))%nat) in *.
  assert (nq : (0 < inject_Z (Z.of_nat n))%Q) by (change 0%Q with (inject_Z 0); rewrite <- Zlt_Qlt; lia).
  assert (Np : (0 < inject_Z (as_vector N i))%Q) by (change 0%Q with (inject_Z 0); rewrite <- Zlt_Qlt; exact NPi).
  apply Qle_shift_div_r; [assumption|].
  apply (slope T (omega * inject_Z (Z.of_nat n)) (B + C + omega * (inject_Z (Z.of_nat K0) / inject_Z (as_vector N i)) - s i K0)).
  intros q. pose proof (per_iter g (Some cap) s HS L0 (as_vector N) n K0 T NP Hn PER i K0 q Hi (le_n _)) as E. fold D in E.
  destruct (Long (K0 + q * D)%nat) as (j & e & Hj & Hee & Q). specialize (HC j e Hj Hee). cbv beta in HC. specialize (HB i (K0 + q * D)%nat Hi).
  rewrite Nat2Z.inj_add, Nat2Z.inj_mul in HB. subst D. rewrite Nat2Z.inj_mul, Z2Nat.id in HB by (unfold as_vector; lia).
  rewrite inject_Z_plus, !inject_Z_mult in HB.
  assert (Y : (omega * ((inject_Z (Z.of_nat K0) + inject_Z (Z.of_nat q) * (inject_Z (Z.of_nat n) * inject_Z (as_vector N i))) / inject_Z (as_vector N i)) ==
    omega * (inject_Z (Z.of_nat K0) / inject_Z (as_vector N i)) + inject_Z (Z.of_nat q) * (omega * inject_Z (Z.of_nat n)))%Q) by (field; lra).
  rewrite Y in HB. lra.
Qed.
