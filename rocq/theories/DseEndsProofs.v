(** The exploration by self-timed execution ends: some buffers reach the throughput of the graph. *)
From Coq Require Import QArith Qreduction Lqa Sorted.
From Verif Require Import Base Graph ScheduleSpec KPeriodicProps RepVec RepVecSpec RepVecProofs RepVecProps KIterSpec Sim SimSpec SimProofs SimTime SimScc SimSccSpec SimSccFinal
  StorDep StorDepProps Storage StorageSpec Dse DseSpec DseProofs DseProps DseExecSpec DseExecProofs DseExecProps RoomEnough.
Open Scope Z_scope.

(** The distribution with given quantities. *)
Definition filled (K : list Z) (t q : Z -> Z) : sd := mkSD (Z.of_nat (length K)) 0%Q (map (fun e => (e, (t e, q e))) K) (sumZ (map q K)).
Lemma filled_find K t q e : In e K -> find_channel e (sd_chan (filled K t q)) = Some (t e, q e).
Proof.
  intros He. unfold filled. cbn [sd_chan].
  induction K as [|x K IH]; [destruct He|]. cbn [map find_channel]. destruct (Z.eqb_spec e x) as [<-|N]; [reflexivity|]. destruct He as [->|He]; [congruence|auto].
Qed.
Lemma filled_quantity K t q e : In e K -> quantity (filled K t q) e = q e.
Proof. intros He. unfold quantity, get_quantity. rewrite filled_find by assumption. reflexivity. Qed.
Lemma filled_tokens K t q e : In e K -> get_tokens (filled K t q) e = Ok (t e).
Proof. intros He. unfold get_tokens. rewrite filled_find by assumption. reflexivity. Qed.
Lemma filled_valid K t q : valid K (filled K t q).
Proof.
  split.
  - unfold get_edges, filled. cbn [sd_chan]. rewrite map_map. cbn [fst]. apply map_id.
  - reflexivity.
  - unfold filled at 1. cbn [sd_size]. f_equal. apply map_ext_in. intros e He. symmetry. apply filled_quantity. assumption.
Qed.

Section Ends.
Variables (g : graph) (N : list Z) (step : Z -> Z) (init : sd).
Hypotheses (WF : graph_wf g) (NI : no_init g) (EV : even_self_loops g) (GD : all_guarded g true) (CG : connected_graph g) (NE : vertices g <> [])
  (PD : positive_durations g) (SD : short_durations g) (EN : compute_repetition_vector (S (length (vertices g))) g = Ok (Some N))
  (POS : forall e, In e (channel_ids g) -> 0 < e /\ 0 < step e) (CO : capacities_ok g (Some (room g init))) (VI : valid (channel_ids g) init).
Notation K := (channel_ids g).
Notation grid := (on_grid K 0 step init).

Lemma guarded_phases : no_lonely_phases g.
Proof.
  intros i v Ei. left. destruct (GD i ltac:(apply nth_error_Some; congruence)) as [(c & Hc & E)|[_ (c & Hc & E)]]; exists c; auto.
Qed.
Lemma init_nonneg e : In e K -> 0 <= quantity init e.
Proof.
  intros He. apply in_map_iff in He. destruct He as (c & <- & Hc). destruct (In_nth_error _ _ Hc) as [k Ek].
  pose proof (CO _ eq_refl k c Ek) as X. unfold room in X. rewrite Ek in X. destruct WF as (_ & We & _). destruct (We c Hc) as (? & ? & _ & _ & _ & _ & _ & P). lia.
Qed.
(** A distribution of the grid with as much room as one likes everywhere. *)
Lemma grid_large R : exists b, grid b /\ forall k c, nth_error (edges g) k = Some c -> R <= room g b k.
Proof.
  exists (filled K (fun e => match get_tokens init e with Ok t => t | _ => 0 end) (fun e => quantity init e + Z.max 0 R * step e)). split.
  - split; [apply filled_valid|]. split.
    { intros e He. rewrite filled_tokens by assumption. rewrite <- (valid_edges _ _ VI) in He. pose proof (StorageProofs.get_quantity_in init e He) as Q. unfold get_quantity in Q.
      unfold get_tokens. destruct (find_channel e (sd_chan init)); [reflexivity|discriminate]. }
    intros e He. split; [intros _|intros L; destruct (POS e He); lia]. exists (Z.max 0 R). split; [lia|]. rewrite filled_quantity by assumption. reflexivity.
  - intros k c Ek. unfold room. rewrite Ek. assert (He : In (e_id c) K) by (apply in_map; eapply nth_error_In; eauto). rewrite filled_quantity by assumption.
    pose proof (init_nonneg _ He). destruct (POS _ He). nia.
Qed.

Section Target.
Variables (thr : sd -> Q) (critical : sd -> list Z) (target : Q).
Hypotheses (EX : executes true g step init thr critical) (T0 : (0 < target)%Q)
  (OPT : forall s omega, schedule_valid g s -> keeps_pace g (as_vector N) s omega -> (/ target <= omega)%Q).

Lemma thr_meaning d : grid d -> exists q, (thr d == q)%Q /\
    (((q == 0)%Q /\ forall s, ~ bounded_valid g (Some (room g d)) s) \/
     ((0 < q)%Q /\ (exists s, bounded_valid g (Some (room g d)) s /\ non_zeno g s /\ keeps_pace g (as_vector N) s (/ q)) /\
      forall s omega, bounded_valid g (Some (room g d)) s -> keeps_pace g (as_vector N) s omega -> (/ q <= omega)%Q)).
Proof.
  intros G. destruct (EX d G) as (t & a & ra & E & Et & _). exists (rate a). split; [assumption|].
  exact (exec_meaning g N step init WF NI EV GD CG NE PD SD EN (fun e He => proj1 (POS e He)) (fun e He => proj2 (POS e He)) CO t a ra d G E).
Qed.
Lemma inv_swap a b : (0 < a)%Q -> (0 < b)%Q -> (/ a <= / b)%Q -> (b <= a)%Q.
Proof.
  clear. intros A B H. setoid_replace b with (b * a * / a)%Q by (field; lra). setoid_replace a with (b * a * / b)%Q at 3 by (field; lra).
  apply Qmult_le_l; [nra|assumption].
Qed.
Lemma none_faster d : grid d -> (thr d <= target)%Q.
Proof.
  intros G. destruct (thr_meaning d G) as (q & -> & [[-> _]|(Q0 & (s & [SV _] & _ & KP) & _)]); [lra|]. apply inv_swap; try assumption. eapply OPT; eauto.
Qed.
Lemma some_reach s : schedule_valid g s -> keeps_pace g (as_vector N) s (/ target) -> exists b, grid b /\ (thr b == target)%Q.
Proof.
  intros SV KP. destruct (rv_for_scheduling g (S (length (vertices g))) N WF NE ltac:(lia) guarded_phases EN) as [Hb Hw].
  destruct (room_enough g (as_vector N) (/ target) WF NI) with (s := s) as (R & HR); auto.
  - intros i Hi. apply nth_error_Some in Hi. destruct (nth_error (vertices g) i) as [v|] eqn:Ei; [|congruence]. apply (Hw i v Ei).
  - intros i v Ei. apply (Hw i v Ei).
  - apply Qinv_lt_0_compat. assumption.
  - destruct (grid_large R) as (b & Gb & Rb). exists b. split; [assumption|]. destruct (HR (room g b) Rb) as (s' & SV' & _ & KP').
    apply Qle_antisym; [apply none_faster; assumption|]. destruct (thr_meaning b Gb) as (q & -> & [[_ D]|(Q0 & _ & O)]); [destruct (D s' SV')|].
    apply inv_swap; try assumption. eapply O; eauto.
Qed.
End Target.
End Ends.
