(** The analysis as a whole. *)
From Coq Require Import QArith Qreduction Lqa.
From Verif Require Import Base Graph ScheduleSpec RepVec RepVecSpec RepVecProofs RepVecFinal RepVecProps KIterSpec
  Sim SimSpec SimProofs SimTime SimAsap SimRecur SimPeriod SimOptimal.
Open Scope Z_scope.

Lemma run_stops fuel g w rep m a : run fuel g w rep m = Ok a -> exists m', runs_to g w rep m m' /\ tick g w rep m' = Ok a /\ (forall x, a <> Running x).
Proof.
  revert m. induction fuel as [|f IH]; intros m; cbn [run]; [discriminate|].
  destruct (tick g w rep m) as [x| | |] eqn:T; cbn [bind]; try discriminate. destruct x as [m1|n t|].
  - intros E. destruct (IH m1 E) as (m' & R & Tk & N). exists m'. split; [|auto].
    eapply runs_trans; [|exact R]. econstructor; [constructor|exact T].
  - intros [= <-]. exists m. split; [constructor|]. split; [assumption|discriminate].
  - intros [= <-]. exists m. split; [constructor|]. split; [assumption|discriminate].
Qed.

Lemma min_actor_at N w rep : min_actor N = Some (w, rep) -> nth_error N w = Some rep.
Proof.
  unfold min_actor.
  set (f := fun acc n => let '(best, i) := acc in
         (if n <? match best with Some b => snd b | None => int_max end then Some (i, n) else best, S i)).
  assert (H : forall l pre (best : option (nat * Z)), (forall i z, best = Some (i, z) -> nth_error (pre ++ l) i = Some z) ->
     forall i z, fst (fold_left f l (best, length pre)) = Some (i, z) -> nth_error (pre ++ l) i = Some z).
  { induction l as [|x l IH]; intros pre best Hb i z; [apply Hb|]. cbn [fold_left]. unfold f at 2. intros E.
    replace (pre ++ x :: l) with ((pre ++ [x]) ++ l) in * by (rewrite <- app_assoc; reflexivity).
    replace (S (length pre)) with (length (pre ++ [x])) in E by (rewrite app_length; cbn; lia).
    revert E. apply IH. intros j y. destruct (x <? _); [|apply Hb].
    intros [= <- <-]. rewrite <- app_assoc, nth_error_app2, Nat.sub_diag by lia. reflexivity. }
  apply (H N [] None). discriminate.
Qed.

Lemma component_inv fuel ticks g caps a : component_throughput fuel ticks g caps = Ok a ->
  exists N w rep, compute_repetition_vector fuel g = Ok (Some N) /\ nth_error N w = Some rep /\
    run ticks g w rep (new_machine g caps) = Ok a.
Proof.
  unfold component_throughput, prepare. intros H.
  destruct (compute_repetition_vector fuel g) as [[N|]| | |] eqn:EN; cbn [bind] in H; try discriminate.
  destruct (actors_ok g 0 (vertices g)); cbn [bind] in H; try discriminate.
  destruct (min_actor N) as [[w rep]|] eqn:Em; cbn [bind fst snd] in H; try discriminate.
  exists N, w, rep. split; [reflexivity|]. split; [apply min_actor_at; assumption|assumption].
Qed.

Section Answer.
Variables (g : graph) (caps : option (nat -> Z)) (fuel ticks : nat).
Hypotheses (WF : graph_wf g) (NI : no_init g) (EV : even_self_loops g)
  (GD : all_guarded g (match caps with Some _ => true | None => false end)) (CG : connected_graph g)
  (NE : vertices g <> []) (FU : (length (vertices g) <= fuel)%nat).

Lemma guarded_lonely : no_lonely_phases g.
Proof.
  intros i v Ev. left. assert (Hl : (i < length (vertices g))%nat) by (apply nth_error_Some; congruence).
  destruct (GD i Hl) as [(c & Hc & D)|(_ & c & Hc & D)]; exists c; auto.
Qed.

Lemma component_periodic n T : component_throughput fuel ticks g caps = Ok (Periodic n T) ->
  exists N, compute_repetition_vector fuel g = Ok (Some N) /\ (0 < n)%nat /\
    exists K0, forall i k, (i < length (vertices g))%nat -> (K0 <= k)%nat ->
      exists t t', fires_at g caps i k t /\ fires_at g caps i (k + n * Z.to_nat (nth i N 0%Z))%nat t' /\ (t' == t + T)%Q.
Proof.
  intros H. destruct (component_inv _ _ _ _ _ H) as (N & w & rep & EN & Ew & R). exists N. split; [assumption|].
  destruct (run_stops _ _ _ _ _ _ R) as (b & Rb & Tb & _).
  destruct (C18_balance g fuel N (graph_wf_rates g WF) NE FU EN) as (LN & NP & _).
  assert (Lw : (w < length (vertices g))%nat) by (rewrite <- LN; apply nth_error_Some; congruence).
  assert (RP : 0 < rep) by (rewrite <- (nth_error_nth _ _ 0 Ew); auto).
  destruct (periodic_points g caps w rep WF NI EV GD RP b n T Rb Tb) as (a & Ra & Rab & Al & Tm & Hn & Ce & _).
  split; [assumption|].
  destruct (period_counts g caps w rep WF NI EV GD a b Ra Rab Al ltac:(nia) CG Lw) as (So & Dv & De). cbv zeta in *.
  destruct (C19_least_solution g fuel N (graph_wf_rates g WF) NE FU guarded_lonely CG EN _ So Dv) as (k & Hk & HD).
  assert (k = Z.of_nat n).
  { pose proof (HD w Lw) as E. cbv beta in E. destruct (De w Lw) as [_ E2]. rewrite (nth_error_nth _ _ 0 Ew) in E.
    apply (Z.mul_cancel_r k (Z.of_nat n) rep); lia. }
  subst k.
  destruct (runs_core g w rep (new_machine g caps) a ltac:(cbn; lia) Ra) as (fa & Fa & Ca & Na).
  destruct (runs_core_from g w rep a b fa Ca Na Rab) as (fb & Fb & Cb & Nb).
  assert (Af : alike g fa fb).
  { destruct Ca as (A1 & A2 & A3 & A4 & A5 & A6 & A7 & A8 & A9). destruct Cb as (B1 & B2 & B3 & B4 & B5 & B6 & B7 & B8 & B9).
    unfold alike in *. rewrite <- A1, <- A2, <- A3, <- A5, <- A6, <- A9, <- B1, <- B2, <- B3, <- B5, <- B6, <- B9. exact Al. }
  assert (La : m_log fa = m_log a /\ m_now fa = m_now a) by (destruct Ca as (_ & _ & _ & _ & _ & _ & _ & -> & ->); auto).
  assert (Lb : m_log fb = m_log b /\ m_now fb = m_now b) by (destruct Cb as (_ & _ & _ & _ & _ & _ & _ & -> & ->); auto).
  destruct La as [La La']. destruct Lb as [Lb Lb'].
  assert (Fmb : runs_to g 0 0 (new_machine g caps) fb) by exact (runs_trans _ _ _ _ _ _ Fa Fb).
  assert (KB : exists K0, forall i, (i < length (vertices g))%nat -> (started (m_log a) i <= K0)%nat).
  { clear. assert (X : forall M, exists K0, forall i, (i < M)%nat -> (started (m_log a) i <= K0)%nat).
    { induction M as [|M [K0 IH]]; [exists 0%nat; intros; lia|]. exists (K0 + started (m_log a) M)%nat. intros i Hi.
      destruct (Nat.eq_dec i M) as [->|]; [lia|]. specialize (IH i ltac:(lia)). lia. }
    apply X. }
  destruct KB as [K0 HK0]. exists K0. intros i k Hi Hkk. specialize (HK0 i Hi).
  pose proof (repeats g caps WF NI EV fa fb i k Fa Fmb Fb Af) as Rp. rewrite La, Lb, La', Lb' in Rp.
  pose proof (HD i Hi) as Ei. cbv beta in Ei. pose proof (NP i Hi) as Np.
  destruct Rp as (t & t' & F1 & F2 & Eq); [nia|lia|].
  exists t, t'. split; [assumption|]. split; [|rewrite Eq; lra].
  replace (n * Z.to_nat (nth i N 0%Z))%nat with (started (m_log b) i - started (m_log a) i)%nat by nia. assumption.
Qed.

Lemma endless_all n T : component_throughput fuel ticks g caps = Ok (Periodic n T) ->
  forall i k, (i < length (vertices g))%nat -> exists t, fires_at g caps i k t.
Proof.
  intros H i k Hi. destruct (component_periodic n T H) as (N & _ & _ & K0 & HK).
  destruct (HK i (K0 + k)%nat Hi ltac:(lia)) as (t & _ & (m & R & E) & _).
  assert (Lk : (k < length (starts (m_log m) i))%nat) by (assert (K0 + k < length (starts (m_log m) i))%nat by (apply nth_error_Some; congruence); lia).
  exists (nth k (starts (m_log m) i) 0%Q), m. split; [assumption|]. apply nth_error_nth'. assumption.
Qed.

Lemma component_exact n T : capacities_ok g caps -> positive_durations g -> component_throughput fuel ticks g caps = Ok (Periodic n T) ->
  exists N, compute_repetition_vector fuel g = Ok (Some N) /\ (0 < n)%nat /\ (0 < T)%Q /\
    (exists s, bounded_valid g caps s /\ non_zeno g s /\ keeps_pace g (as_vector N) s (T / inject_Z (Z.of_nat n)) /\
       forall i k, (i < length (vertices g))%nat -> fires_at g caps i k (s i k)) /\
    (forall s omega, bounded_valid g caps s -> keeps_pace g (as_vector N) s omega -> (T / inject_Z (Z.of_nat n) <= omega)%Q).
Proof.
  intros CO PD H. destruct (component_periodic n T H) as (N & EN & Hn & K0 & HK). exists N. split; [assumption|]. split; [assumption|].
  destruct (choose_schedule g caps (endless_all n T H)) as [s HS].
  destruct (C18_balance g fuel N (graph_wf_rates g WF) NE FU EN) as (LN & NP & _).
  assert (L0 : (0 < length (vertices g))%nat) by (destruct (vertices g); [congruence|cbn; lia]).
  assert (PER : forall i k, (i < length (vertices g))%nat -> (K0 <= k)%nat -> (s i (k + n * Z.to_nat (as_vector N i))%nat == s i k + T)%Q).
  { intros i k Hi Hk. destruct (HK i k Hi Hk) as (t & t' & F1 & F2 & E).
    rewrite <- (fires_fun g caps _ _ _ _ F1 (HS i k Hi)). unfold as_vector. rewrite <- (fires_fun g caps _ _ _ _ F2 (HS _ _ Hi)). exact E. }
  split; [|split].
  - eapply (period_pos g caps s WF NI EV GD CO HS PD L0 (as_vector N) n K0 T); eauto.
  - exists s. split; [apply (endless_valid g caps s WF NI EV GD CO HS)|]. split; [|split; [|exact HS]].
    + eapply (endless_non_zeno g caps s WF NI EV GD CO HS PD L0 (as_vector N) n K0 T); eauto.
    + eapply (endless_pace g caps s WF NI EV GD CO HS PD L0 (as_vector N) n K0 T); eauto.
  - intros s' omega SV KP. eapply (endless_optimal g caps s WF NI EV GD HS PD L0 (as_vector N) n K0 T); eauto.
Qed.

Lemma component_deadlock : positive_durations g -> short_durations g -> component_throughput fuel ticks g caps = Ok Deadlock ->
  forall s, ~ bounded_valid g caps s.
Proof.
  intros PD SD H s SV. destruct (component_inv _ _ _ _ _ H) as (N & w & rep & EN & Ew & R).
  destruct (run_stops _ _ _ _ _ _ R) as (m & Rm & Tm & _).
  assert (L0 : (0 < length (vertices g))%nat) by (destruct (vertices g); [congruence|cbn; lia]).
  destruct (shift_nonneg g caps s WF NI PD L0 SV) as [d Hd].
  exact (deadlock_runs g caps w rep WF NI EV GD PD (shifted s d) (bounded_valid_shift g caps s d SV) Hd m SD L0 Rm Tm).
Qed.
End Answer.
