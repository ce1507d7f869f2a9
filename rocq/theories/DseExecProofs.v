(** The self-timed execution is a sound evaluation. *)
From Coq Require Import QArith Qreduction Lqa ConstructiveEpsilon.
From Verif Require Import Base Graph ScheduleSpec RepVec RepVecSpec RepVecProofs KIterSpec Sim SimSpec SimProofs SimTime SimRecur SimPeriod SimOptimal SimFinal SimProps
  StorDep StorDepSpec StorDepScc StorDepDead StorDepPeriod StorDepEnds StorDepProps Storage StorageSpec Dse DseSpec DseProofs DseExecSpec.
Open Scope Z_scope.

Section Exec.
Variables (g : graph) (N : list Z) (step : Z -> Z) (init : sd).
Hypotheses (WF : graph_wf g) (NI : no_init g) (EV : even_self_loops g) (GD : all_guarded g true) (CG : connected_graph g) (NE : vertices g <> [])
  (PD : positive_durations g) (SD : short_durations g) (EN : compute_repetition_vector (S (length (vertices g))) g = Ok (Some N))
  (IDS : forall e, In e (channel_ids g) -> 0 < e) (ST : forall e, In e (channel_ids g) -> 0 < step e) (CO : capacities_ok g (Some (room g init))).
Notation K := (channel_ids g).
Notation grid := (on_grid K 0 step init).
Notation fuel := (S (length (vertices g))).

Lemma channel_id k c : nth_error (edges g) k = Some c -> In (e_id c) K.
Proof. intros E. apply in_map. eapply nth_error_In; eauto. Qed.
Lemma grid_fits d : grid d -> capacities_ok g (Some (room g d)).
Proof.
  intros (_ & _ & H) cap [= <-] k c E. pose proof (CO _ eq_refl k c E) as X. unfold room in *. rewrite E in *. pose proof (channel_id k c E) as Hc.
  destruct (proj1 (H _ Hc) (IDS _ Hc)) as (j & Hj & ->). specialize (ST _ Hc). nia.
Qed.
(** The answer is no better when no channel listed has more room. *)
Lemma no_better ticks a r ticks' a' r' d d' : grid d -> grid d' -> component_cycles true fuel ticks g (room g d) = Ok (a, r) ->
  component_cycles true fuel ticks' g (room g d') = Ok (a', r') -> (forall k, In k r -> room g d' k <= room g d k) -> (rate a' <= rate a)%Q.
Proof.
  intros G G' H H' Le. pose proof (component_cycles_throughput _ _ _ _ _ _ _ H) as HT. pose proof (component_cycles_throughput _ _ _ _ _ _ _ H') as HT'.
  assert (P : forall t b n T, grid b -> component_throughput fuel t g (Some (room g b)) = Ok (Periodic n T) -> (0 < inject_Z (Z.of_nat n) / T)%Q /\ exists s, bounded_valid g (Some (room g b)) s).
  { intros t b n T Gb E. destruct (component_exact g (Some (room g b)) fuel t WF NI EV GD CG NE ltac:(lia) n T (grid_fits b Gb) PD E) as (_ & _ & Hn & HT0 & (s & SV & _) & _).
    split; [|eauto]. apply Qlt_shift_div_l; [assumption|]. rewrite Qmult_0_l. change 0%Q with (inject_Z 0). rewrite <- Zlt_Qlt. lia. }
  destruct a' as [m'|n' T'|]; cbn [rate].
  1,3: destruct a as [m|n T|]; cbn [rate]; try lra; destruct (P _ _ _ _ G HT); lra.
  destruct a as [m|n T|]; cbn [rate].
  - destruct (component_cycles_inv _ _ _ _ _ _ _ H) as (? & ? & ? & ? & _ & _ & []).
  - apply (C110_answers fuel ticks ticks' g (room g d) n T r (room g d') n' T'); auto using grid_fits.
  - exfalso. destruct (P _ _ _ _ G' HT') as [_ [s SV]]. refine (C109_deadlock true fuel ticks g (room g d) r (room g d') WF NI EV GD PD SD NE _ H Le s SV). lia.
Qed.

Lemma executes_sound thr critical : executes true g step init thr critical -> sound_evaluation K 0 step init thr critical.
Proof.
  intros EX. constructor.
  - intros a b Ga Gb E. destruct (EX a Ga) as (ta & aa & ra & Ha & Ta & _). destruct (EX b Gb) as (tb & ab & rb & Hb & Tb & _).
    assert (R : forall k, room g a k = room g b k).
    { intros k. unfold room. destruct (nth_error (edges g) k) as [c|] eqn:Ec; [|reflexivity]. apply E. eapply channel_id; eauto. }
    rewrite Ta, Tb. apply Qle_antisym; [apply (no_better tb ab rb ta aa ra b a)|apply (no_better ta aa ra tb ab rb a b)]; auto; intros k _; rewrite R; lia.
  - intros d e Gd He. destruct (EX d Gd) as (t & a & r & _ & _ & C). apply C in He. destruct He as (k & c & _ & Ec & <-). eapply channel_id; eauto.
  - intros a b Ga Gb Bl _ Lt. destruct (EX a Ga) as (ta & aa & ra & Ha & Ta & C). destruct (EX b Gb) as (tb & ab & rb & Hb & Tb & _).
    destruct (Exists_dec (fun e => quantity a e < quantity b e) (critical a)) as [X|X]; [intros e; destruct (Z_lt_dec (quantity a e) (quantity b e)); auto| |].
    + apply Exists_exists in X. destruct X as (e & He & L). exists e. split; [assumption|]. split; [|assumption]. apply IDS. apply C in He.
      destruct He as (k & c & _ & Ec & <-). eapply channel_id; eauto.
    + exfalso. assert (Le : (rate ab <= rate aa)%Q); [|lra]. apply (no_better ta aa ra tb ab rb a b Ga Gb Ha Hb). intros k Hk.
      unfold room. destruct (nth_error (edges g) k) as [c|] eqn:Ec; [|lia]. destruct (Z_le_gt_dec (quantity b (e_id c)) (quantity a (e_id c))) as [|L]; [assumption|exfalso].
      apply X. apply Exists_exists. exists (e_id c). split; [|lia]. apply C. eauto.
Qed.

(** The execution always answers. *)
Lemma always_answers corrected d : (exists i, (i < length (vertices g))%nat /\ nth i N 0 < Sim.int_max) -> capacities_ok g (Some (room g d)) -> exists ticks a r, component_cycles corrected fuel ticks g (room g d) = Ok (a, r).
Proof.
  intros Sm CD. destruct (C69_simulation_ends_partial g (Some (room g d)) fuel N WF NI EV GD NE ltac:(lia) EN Sm) as (t & E).
  { right. split; [discriminate|]. split; assumption. }
  assert (exists a, component_throughput fuel t g (Some (room g d)) = Ok a) as [a E'] by (destruct E as [E|(n & T & E)]; eauto).
  destruct (cycles_end corrected fuel t g (room g d) a) as (t' & r & H); eauto.
Qed.
Lemma executes_exists corrected : (exists i, (i < length (vertices g))%nat /\ nth i N 0 < Sim.int_max) -> exists th cr, executes corrected g step init th cr.
Proof.
  intros Sm.
  pose (fits d := forallb (fun c => e_preload c <=? quantity d (e_id c)) (edges g)).
  pose (ok d t := negb (fits d) || match component_cycles corrected fuel t g (room g d) with Ok _ => true | _ => false end).
  assert (F : forall d, exists t, ok d t = true).
  { intros d. destruct (fits d) eqn:E; [|exists 0%nat; subst ok; cbv beta; rewrite E; reflexivity].
    assert (CD : capacities_ok g (Some (room g d))).
    { intros cap [= <-] k c Ec. unfold room. rewrite Ec. subst fits. cbv beta in E. rewrite forallb_forall in E. apply Z.leb_le. apply E. eapply nth_error_In; eauto. }
    destruct (always_answers corrected d Sm CD) as (t & a & r & H). exists t. subst ok. cbv beta. rewrite H. apply orb_true_r. }
  pose (ticks d := proj1_sig (constructive_indefinite_ground_description_nat (fun t => ok d t = true) (fun t => bool_dec (ok d t) true) (F d))).
  exists (fun d => match component_cycles corrected fuel (ticks d) g (room g d) with Ok (a, _) => rate a | _ => 0%Q end).
  exists (fun d => match component_cycles corrected fuel (ticks d) g (room g d) with Ok (_, r) =>
    flat_map (fun k => match nth_error (edges g) k with Some c => [e_id c] | None => [] end) r | _ => [] end).
  intros d G. exists (ticks d). assert (T : ok d (ticks d) = true) by (subst ticks; cbv beta; apply proj2_sig).
  assert (E : fits d = true).
  { subst fits. cbv beta. apply forallb_forall. intros c Hc. apply In_nth_error in Hc. destruct Hc as [k Ek]. apply Z.leb_le.
    pose proof (grid_fits d G _ eq_refl k c Ek) as X. unfold room in X. rewrite Ek in X. exact X. }
  generalize dependent (ticks d). intros t T. subst ok. cbv beta in T. rewrite E in T. cbn [negb orb] in T.
  destruct (component_cycles corrected fuel t g (room g d)) as [[a r]| | |]; try discriminate. exists a, r. split; [reflexivity|]. split; [reflexivity|].
  intros e. rewrite in_flat_map. split.
  - intros (k & Hk & He). destruct (nth_error (edges g) k) as [c|] eqn:Ek; [|destruct He]. destruct He as [<-|[]]. eauto.
  - intros (k & c & Hk & Ek & <-). exists k. split; [assumption|]. rewrite Ek. left. reflexivity.
Qed.

(** ... and may be taken to be the answer within [t] ticks where there is one. *)
Definition run_thr (corrected : bool) (t : nat) (thr : sd -> Q) (d : sd) : Q :=
  match component_cycles corrected fuel t g (room g d) with Ok (a, _) => rate a | _ => thr d end.
Definition run_critical (corrected : bool) (t : nat) (critical : sd -> list Z) (d : sd) : list Z :=
  match component_cycles corrected fuel t g (room g d) with
  | Ok (_, r) => flat_map (fun k => match nth_error (edges g) k with Some c => [e_id c] | None => [] end) r
  | _ => critical d
  end.
Lemma executes_run corrected t thr critical : executes corrected g step init thr critical -> executes corrected g step init (run_thr corrected t thr) (run_critical corrected t critical).
Proof.
  clear. intros EX d G. unfold run_thr, run_critical. destruct (component_cycles corrected fuel t g (room g d)) as [[a r]| | |] eqn:E; try (exact (EX d G)).
  exists t, a, r. split; [assumption|]. split; [reflexivity|]. intros e. rewrite in_flat_map. split.
  - intros (k & Hk & He). destruct (nth_error (edges g) k) as [c|] eqn:Ek; [|destruct He]. destruct He as [<-|[]]. eauto.
  - intros (k & c & Hk & Ek & <-). exists k. split; [assumption|]. rewrite Ek. left. reflexivity.
Qed.

(** ** What the answers stand for *)
Lemma exec_meaning ticks a r d : grid d -> component_cycles true fuel ticks g (room g d) = Ok (a, r) ->
  ((rate a == 0)%Q /\ forall s, ~ bounded_valid g (Some (room g d)) s) \/
  ((0 < rate a)%Q /\ (exists s, bounded_valid g (Some (room g d)) s /\ non_zeno g s /\ keeps_pace g (as_vector N) s (/ rate a)) /\
    forall s omega, bounded_valid g (Some (room g d)) s -> keeps_pace g (as_vector N) s omega -> (/ rate a <= omega)%Q).
Proof.
  intros G H. pose proof (component_cycles_throughput _ _ _ _ _ _ _ H) as HT. destruct a as [m|n T|].
  - destruct (component_cycles_inv _ _ _ _ _ _ _ H) as (? & ? & ? & ? & _ & _ & []).
  - right. destruct (component_exact g (Some (room g d)) fuel ticks WF NI EV GD CG NE ltac:(lia) n T (grid_fits d G) PD HT) as (N' & EN' & Hn & TP & (s & SV & NZ & KP & _) & Opt).
    assert (N' = N) as -> by congruence. cbn [rate].
    assert (Pn : (0 < inject_Z (Z.of_nat n))%Q) by (change 0%Q with (inject_Z 0); rewrite <- Zlt_Qlt; lia).
    assert (E : (/ (inject_Z (Z.of_nat n) / T) == T / inject_Z (Z.of_nat n))%Q) by (field; lra).
    split; [apply Qlt_shift_div_l; [assumption|lra]|]. split.
    + exists s. split; [assumption|]. split; [assumption|]. destruct KP as [B KP]. exists B. intros i m Hi. rewrite E. apply KP. assumption.
    + intros s' omega SV' KP'. rewrite E. eapply Opt; eauto.
  - left. split; [reflexivity|]. intros s SV. refine (C109_deadlock true fuel ticks g (room g d) r (room g d) WF NI EV GD PD SD NE _ H _ s SV); lia.
Qed.
End Exec.
