(** The theorems about symbolic execution, assembled. *)
From Coq Require Import QArith Permutation.
From Verif Require Import Base Graph KPeriodic ScheduleSpec KIterSpec RepVec RepVecSpec RepVecProofs RepVecProps SimScc SymbExec SymbExecSpec SymbExecProofs SymbExecEnd SymbExecTrace SymbExecFiring.
Open Scope Z_scope.

Lemma counts_nth l : forall n, n = length l -> sum_to (fun i => nth i l 0) n = sumZ l.
Proof.
  intros n ->. rewrite <- (rev_involutive l). induction (rev l) as [|x r IH]; [reflexivity|]. cbn [rev]. rewrite app_length, Nat.add_1_r. cbn [sum_to].
  rewrite (sum_to_ext _ (fun i => nth i (rev r) 0)) by (intros i Hi; apply app_nth1; exact Hi).
  rewrite IH, app_nth2, Nat.sub_diag by lia. rewrite sumZ_app. cbn. lia.
Qed.
Lemma sum_to_scale f k n : sum_to (fun i => f i * k) n = sum_to f n * k.
Proof. induction n as [|n IH]; cbn [sum_to]; [lia|]. rewrite IH. lia. Qed.

Section F.
Variable g : graph.
Variable Nl : list Z.
Hypothesis WF : graph_wf g.
Hypothesis NI : no_init g.
Hypothesis CH : distinct_channels g.
Hypothesis NE : vertices g <> [].
Hypothesis RV : compute_repetition_vector (length (vertices g)) g = Ok (Some Nl).
Let N : nat -> Z := fun i => nth i Nl 0.

Lemma rv_facts : length Nl = length (vertices g) /\ (forall i, (i < length (vertices g))%nat -> 0 < N i) /\
  (forall c, In c (edges g) -> edge_in_total c * N (e_src c) * Z.of_nat (length (e_out c)) = edge_out_total c * N (e_dst c) * Z.of_nat (length (e_in c))) /\
  (forall i v, nth_error (vertices g) i = Some v -> has_channel g i -> (Z.of_nat (v_phases v) | N i)).
Proof. destruct (rv_sound g _ Nl (graph_wf_rates g WF) NE (le_n _) RV) as (A & [B C] & D). unfold N. repeat split; auto. Qed.

Lemma counts_ok : consistent_counts g = Ok N.
Proof. unfold consistent_counts. rewrite RV. reflexivity. Qed.
Lemma start k : 0 <= k -> inv g (fun i => N i * k) [] (initial_state g N k).
Proof.
  intros Hk. apply initial_inv; [apply WF|exact CH|]. intros i Hi. destruct rv_facts as (_ & P & _). specialize (P i Hi). nia.
Qed.
Lemma in_nonneg c : In c (edges g) -> 0 <= edge_in_total c.
Proof. intros Hc. destruct (edge_facts g WF NI c Hc) as (_ & _ & _ & _ & _ & _ & H & _). lia. Qed.
Lemma ended k w st : inv g (fun i => N i * k) w st -> total st <= 0 -> forall i, (i < length (vertices g))%nat -> Z.of_nat (times i w) = N i * k.
Proof.
  intros I T. rewrite (inv_total _ _ _ _ I) in T.
  assert (NN : forall i, (i < length (vertices g))%nat -> 0 <= N i * k - Z.of_nat (times i w)) by (intros i Hi; pose proof (inv_room _ _ _ _ I i Hi); cbv beta in *; lia).
  pose proof (sum_to_nonneg _ _ NN) as P. assert (Z0 : sum_to (fun i => N i * k - Z.of_nat (times i w)) (length (vertices g)) = 0) by (cbv beta in *; lia).
  intros i Hi. pose proof (sum_to_zero _ _ NN Z0 i Hi). cbv beta in *. lia.
Qed.
Lemma start_total k : total (initial_state g N k) = sumZ Nl * k.
Proof.
  unfold initial_state. cbn [total]. rewrite (indexed_total (fun i => N i * k)), sum_to_scale. unfold N. rewrite counts_nth; [reflexivity|]. symmetry. apply rv_facts.
Qed.

(** ** The answer *)
Definition tt_inv (w : list nat) (x : unit) : Prop := True.
Lemma answer_live fuel b : symbolic_execution fuel g = Ok b -> b = true /\ live g N.
Proof.
  unfold symbolic_execution. rewrite counts_ok. cbn [bind]. destruct (loop g _ fuel _) as [(st, x)| | |] eqn:E; try discriminate. cbn [bind fst].
  intros H. injection H as <-.
  destruct (loop_ends g (proj2 (proj2 WF)) CH (fun i => N i * 1) (fun _ _ x => Ok x) tt_inv (fun _ _ _ _ _ _ _ _ _ _ _ => I) fuel [] _ _ _ _ (start 1 ltac:(lia)) I E) as (w & Iw & _ & T).
  cbn [app] in Iw. split.
  - apply Z.eqb_eq. rewrite (inv_total _ _ _ _ Iw) in *. cbv beta in *.
    pose proof (sum_to_nonneg (fun i => N i * 1 - Z.of_nat (times i w)) (length (vertices g)) (fun i Hi => proj2 (Z.le_0_sub _ _) (inv_room _ _ _ _ Iw i Hi))). lia.
  - pose proof (ended 1 w st Iw T) as C. destruct rv_facts as (_ & Pos & Bal & Cyc).
    apply (enough_live g WF NI N Bal Cyc Pos (spell g w)); [apply plays_playable; auto; apply (inv_plays _ _ _ _ Iw)|].
    intros i Hi. rewrite times_spell, Nat2Z.inj_mul, (C i Hi).
    assert (1 <= Z.of_nat (phases g i)).
    { unfold phases. destruct (nth_error (vertices g) i) as [v|] eqn:Ev; [|apply nth_error_None in Ev; lia].
      destruct (proj1 WF v (nth_error_In _ _ Ev)) as (P & _). lia. }
    specialize (Pos i Hi). nia.
Qed.

Lemma no_trouble {extra} (f : nat -> vertex -> extra -> outcome extra) : (forall i v x, exists y, f i v x = Ok y) ->
  forall fuel sx, (exists r, loop g f fuel sx = Ok r) \/ loop g f fuel sx = Timeout.
Proof.
  clear. intros Hf.
  assert (V : forall vs sx, exists r, pass g f vs sx = Ok r).
  { induction vs as [|(i, v) vs IH]; intros sx; cbn [pass]; [eauto|]. unfold visit. destruct (can_execute g (fst sx) i v); [|cbn [bind]; auto].
    destruct (Hf i v (snd sx)) as (y & ->). cbn [bind]. apply IH. }
  induction fuel as [|fuel IH]; intros sx; cbn [loop]; destruct (0 <? total (fst sx)); eauto.
  destruct (V (indexed (vertices g)) sx) as (r & ->). cbn [bind]. apply IH.
Qed.
Lemma answer_or_hang fuel : symbolic_execution fuel g = Ok true \/ symbolic_execution fuel g = Timeout.
Proof.
  destruct (symbolic_execution fuel g) as [b| | |] eqn:E; auto.
  - left. destruct (answer_live fuel b E) as [-> _]. reflexivity.
  - exfalso. unfold symbolic_execution in E. rewrite counts_ok in E. cbn [bind] in E.
    destruct (no_trouble (fun _ _ x => Ok x) (fun _ _ x => ex_intro _ x eq_refl) fuel (initial_state g N 1, tt)) as [(r & H)|H]; rewrite H in E; discriminate.
  - exfalso. unfold symbolic_execution in E. rewrite counts_ok in E. cbn [bind] in E.
    destruct (no_trouble (fun _ _ x => Ok x) (fun _ _ x => ex_intro _ x eq_refl) fuel (initial_state g N 1, tt)) as [(r & H)|H]; rewrite H in E; discriminate.
Qed.
Lemma dead_hangs fuel : ~ live g N -> symbolic_execution fuel g = Timeout.
Proof. intros D. destruct (answer_or_hang fuel) as [E|E]; [|exact E]. destruct (answer_live fuel true E). contradiction. Qed.

(** ** Completion on synchronous graphs *)
Hypothesis SDF : single_phase g.
Lemma sdf_completes {extra} (f : nat -> vertex -> extra -> outcome extra) (P : list nat -> extra -> Prop) k fuel x : 0 <= k -> live g N ->
  (forall w i v x x', plays g w -> Z.of_nat (times i w) < N i * k -> ready g w i -> nth_error (vertices g) i = Some v -> P w x -> f i v x = Ok x' -> P (w ++ [i]) x') ->
  (forall w i v x, plays g w -> Z.of_nat (times i w) < N i * k -> ready g w i -> nth_error (vertices g) i = Some v -> P w x -> exists x', f i v x = Ok x') ->
  P [] x -> sumZ Nl * k <= Z.of_nat fuel -> exists st' x', loop g f fuel (initial_state g N k, x) = Ok (st', x').
Proof.
  intros Hk (w & Pw & Tw) Step Fires P0 Fu. destruct rv_facts as (_ & Pos & Bal & Cyc).
  destruct (plays_iterations g WF NI N Bal Cyc Pos SDF w (Z.to_nat k)) as (W & PW & TW); [apply (playable_plays g WF NI N Bal Cyc Pos SDF w Pw)|exact Tw|].
  apply (loop_completes g (proj2 (proj2 WF)) CH (fun i => N i * k) f P Step Fires W in_nonneg PW) with (w := []).
  - intros i Hi. rewrite (TW i Hi), Z2Nat.id by lia. reflexivity.
  - apply start. exact Hk.
  - exact P0.
  - rewrite start_total. exact Fu.
Qed.

Lemma live_answers fuel : live g N -> sumZ Nl <= Z.of_nat fuel -> symbolic_execution fuel g = Ok true.
Proof.
  intros L Fu. destruct (sdf_completes (fun _ _ x => Ok x) (fun _ _ => True) 1 fuel tt) as (st & x & E); auto; try lia.
  - intros; eauto.
  - destruct (answer_or_hang fuel) as [A|A]; [exact A|]. unfold symbolic_execution in A. rewrite counts_ok in A. cbn [bind] in A. rewrite E in A. discriminate.
Qed.
End F.

(** ** Program order *)
Section Order.
Variable g : graph.
Hypothesis ids : NoDup (map v_id (vertices g)).

Definition ordered (w : list nat) (o : list Z) : Prop :=
  NoDup o /\ (forall i v, nth_error (vertices g) i = Some v -> (In (v_id v) o <-> In i w)) /\
  (forall x, In x o -> In x (map v_id (vertices g))) /\
  (forall c vs vd, In c (edges g) -> nth_error (vertices g) (e_src c) = Some vs -> nth_error (vertices g) (e_dst c) = Some vd ->
     e_preload c < edge_out_total c -> In (v_id vd) o -> exists a b, o = a ++ v_id vs :: b /\ In (v_id vd) b).

Lemma times_in i w : (0 < times i w)%nat <-> In i w.
Proof. unfold times. symmetry. apply count_occ_In. Qed.

Lemma ordered_step w i v o o' : plays g w -> ready g w i -> nth_error (vertices g) i = Some v -> ordered w o -> note_first i v o = Ok o' -> ordered (w ++ [i]) o'.
Proof.
  intros PW R Hv (ND & IFF & SUB & PR) E. unfold note_first in E. injection E as <-.
  destruct (existsb (Z.eqb (v_id v)) o) eqn:X.
  - apply existsb_exists in X. destruct X as (y & Hy & Ey). apply Z.eqb_eq in Ey. subst y.
    split; [exact ND|]. split; [|split; [exact SUB|exact PR]].
    intros j u Hu. rewrite in_app_iff, <- (IFF j u Hu). split; [tauto|]. intros [H|[->|[]]]; [exact H|]. congruence.
  - assert (NIN : ~ In (v_id v) o) by (intros H; assert (existsb (Z.eqb (v_id v)) o = true) by (apply existsb_exists; exists (v_id v); split; [exact H|apply Z.eqb_refl]); congruence).
    split.
    { rewrite <- (rev_involutive (o ++ [v_id v])), rev_app_distr. apply NoDup_rev. cbn. constructor; [rewrite <- in_rev; exact NIN|apply NoDup_rev; exact ND]. }
    split.
    { intros j u Hu. rewrite !in_app_iff, (IFF j u Hu). cbn [In]. split; intros [H|[H|[]]]; auto.
      - right. left. eapply id_inj; eauto.
      - right. left. congruence. }
    split.
    { intros x Hx. apply in_app_iff in Hx. destruct Hx as [Hx|[<-|[]]]; [auto|]. apply in_map. eapply nth_error_In; eauto. }
    intros c vs vd Hc Es Ed Lt Hin. apply in_app_iff in Hin. destruct Hin as [Hin|[Eq|[]]].
    + destruct (PR c vs vd Hc Es Ed Lt Hin) as (a & b & -> & Hb). exists a, (b ++ [v_id v]). split; [rewrite <- app_assoc; reflexivity|]. apply in_or_app. left. exact Hb.
    + assert (i = e_dst c) by (eapply id_inj; eauto). subst i.
      specialize (R c Hc eq_refl). unfold tok in R.
      assert (T0 : times (e_dst c) w = 0%nat).
      { destruct (times (e_dst c) w) eqn:T; [reflexivity|]. exfalso. apply NIN. apply (IFF _ _ Hv). apply times_in. lia. }
      rewrite T0 in R. assert (In (e_src c) w).
      { apply times_in. destruct (times (e_src c) w); [cbn in R; lia|lia]. }
      apply (IFF _ _ Es) in H. apply in_split in H. destruct H as (a & b & ->). exists a, (b ++ [v_id v]). split; [rewrite <- app_assoc; reflexivity|].
      apply in_or_app. right. left. exact Eq.
Qed.
End Order.

(** ** Packet sizes *)
Lemma send_divides : forall fuel e src dst deps data previous t t', send fuel e src dst deps data previous t = Ok t' -> (packet_size t | data) /\ packet_size t' = packet_size t.
Proof.
  induction fuel as [|fuel IH]; intros e src dst deps data previous t t' E; cbn [send] in E; destruct (Z.eqb_spec data 0) as [D|D].
  1,3: injection E as <-; rewrite D; split; [apply Z.divide_0_r|reflexivity].
  1: discriminate.
  destruct (print_line _ _) as [t1| | |] eqn:Pr; try discriminate. cbn [bind] in E. apply print_line_ok in Pr. destruct Pr as (_ & _ & E1).
  assert (E2 : packet_size t1 = packet_size t) by (rewrite E1; reflexivity).
  destruct (IH _ _ _ _ _ _ _ _ E) as [(q & A) B]. split; [|congruence]. exists (q + 1). rewrite E2 in A. lia.
Qed.

Section Size.
Variable g : graph.
Variable psize : Z.
Definition sized (fired : edge -> Prop) (t : trace) : Prop :=
  (forall c, In c (edges g) -> fired c -> (packet_size t | edge_in_total c)) /\
  (psize <> 0 -> packet_size t = psize) /\
  (psize = 0 -> packet_size t = 0 /\ (forall c, In c (edges g) -> ~ fired c) \/ packet_size t <> 0 /\ exists c, In c (edges g) /\ packet_size t = edge_in_total c).
Hypothesis pos : forall c, In c (edges g) -> 0 < edge_in_total c.

Lemma send_all_sized fuel v deps compute : forall es fired t t', incl es (edges g) -> sized fired t ->
  send_all fuel g v deps compute es t = Ok t' -> sized (fun c => fired c \/ In c es) t'.
Proof.
  induction es as [|c es IH]; intros fired t t' Hi (S1 & S2 & S3) E; cbn [send_all] in E.
  - injection E as <-. split; [intros c Hc [H|[]]; auto|]. split; [exact S2|]. intros Z0. destruct (S3 Z0) as [[A B]|A]; [left|right; exact A].
    split; [exact A|]. intros c Hc [H|[]]. exact (B c Hc H).
  - destruct (id_of g (e_dst c)) as [dst| | |] eqn:Id; try discriminate. cbn [bind] in E.
    set (t0 := mkTrace (last_packet t) (last_compute t) (packets t) (if packet_size t =? 0 then edge_in_total c else packet_size t) (printed t)) in *.
    destruct (send _ _ _ _ _ _ _ t0) as [t1| | |] eqn:Sd; try discriminate. cbn [bind] in E.
    destruct (send_divides _ _ _ _ _ _ _ _ _ Sd) as [Dv Ps]. cbn [t0 packet_size] in Dv, Ps.
    assert (Hc : In c (edges g)) by (apply Hi; left; reflexivity). pose proof (pos c Hc) as Pc.
    pose proof (IH (fun x => fired x \/ x = c) t1 t' (fun x H => Hi x (or_intror H))) as R.
    destruct R as (R1 & R2 & R3).
    + unfold sized. rewrite Ps. destruct (Z.eqb_spec (packet_size t) 0) as [Y|Y].
      * split.
        { intros x Hx [H| ->]; [|apply Z.divide_refl]. destruct (Z.eq_dec psize 0) as [P0|P0]; [|specialize (S2 P0); congruence].
          destruct (S3 P0) as [[_ B]|[B _]]; [destruct (B x Hx H)|congruence]. }
        split; [intros P0; specialize (S2 P0); congruence|]. intros P0. right. split; [lia|]. exists c. auto.
      * split; [intros x Hx [H| ->]; auto|]. split; [exact S2|]. intros P0. destruct (S3 P0) as [[B _]|B]; [contradiction|]. right. exact B.
    + exact E.
    + split; [intros x Hx [H|[<-|H]]; apply R1; auto|]. split; [exact R2|]. intros P0. destruct (R3 P0) as [[A B]|A]; [|right; exact A].
      left. split; [exact A|]. intros x Hx [H|[<-|H]]; apply (B _ Hx); auto.
Qed.

Definition fired_by (w : list nat) (c : edge) : Prop := In (e_src c) w.
Lemma sized_step fuel w i v t t' : sized (fired_by w) t -> print_firing fuel g i v t = Ok t' -> sized (fired_by (w ++ [i])) t'.
Proof.
  intros Sz E. unfold print_firing in E. destruct (total_duration v) as [d| | |]; try discriminate. cbn [bind] in E.
  destruct (print_line _ _) as [t1| | |] eqn:Pr; try discriminate. cbn [bind] in E. apply print_line_ok in Pr. destruct Pr as (_ & _ & E1).
  assert (E2 : packet_size t1 = packet_size t) by (rewrite E1; reflexivity).
  apply (send_all_sized _ _ _ _ _ (fired_by w)) in E; [|intros c Hc; apply filter_In in Hc; tauto|unfold sized in *; cbn [packet_size]; rewrite E2; exact Sz].
  destruct E as (R1 & R2 & R3).
  assert (EQ : forall c, In c (edges g) -> (fired_by (w ++ [i]) c <-> fired_by w c \/ In c (outputs g i))).
  { intros c Hc. unfold fired_by, outputs. rewrite in_app_iff, filter_In, Nat.eqb_eq. cbn [In]. intuition. }
  split; [intros c Hc H; apply R1; [exact Hc|apply EQ; assumption]|]. split; [exact R2|]. intros P0. destruct (R3 P0) as [[A B]|A]; [left|right; exact A].
  split; [exact A|]. intros c Hc H. apply (B c Hc). apply EQ; assumption.
Qed.
End Size.
