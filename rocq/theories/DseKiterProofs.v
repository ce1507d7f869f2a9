(** K-Iter on the graph with feedback channels is a sound evaluation of storage distributions. *)
From Coq Require Import QArith Qreduction Lqa Permutation Sorted.
From Verif Require Import Base Graph ScheduleSpec KPeriodic KPeriodicProps EventGraphSpec KIter KIterSpec KIterProofs KIterLoop KIterFinal KIterProps PeriodicProofs SimSpec
  Storage StorageSpec StorageProofs Dse DseSpec DseProofs DseGraphProofs DseKiterSpec RoomEnough DseEndsProofs RandomGenSpec RandomGenMarking RandomGenLoop.
Open Scope Z_scope.

Lemma never_negative_less p q ta ra tb rb : p <= q -> never_negative p ta ra tb rb -> never_negative q ta ra tb rb.
Proof. intros L H t nc. destruct (H t nc) as [np Hn]. exists np. lia. Qed.
Lemma no_easier_valid g g' s c c' : vertices g' = vertices g -> no_easier c' c -> channel_valid g' s c' -> channel_valid g s c.
Proof.
  intros EV (E1 & E2 & E3 & E4 & E5 & E6 & L) H. unfold channel_valid, end_of, prod_rate, cons_rate in *. rewrite E1, E2, E3, E4, E5, E6, EV in H.
  exact (never_negative_less _ _ _ _ _ _ L H).
Qed.

Lemma blame solve arrange var g N fuel r K cs : (forall l, Permutation (arrange l) l) ->
  graph_wf g -> balanced g N -> no_init g -> no_overlap g -> whole_cycles g N -> edge_ids_ok g ->
  (iteration_bound g N <= fuel)%nat -> kiter solve arrange fuel var g N = Ok (r, K, cs) -> exact_answer cs (solve cs) ->
  forall g' s omega, vertices g' = vertices g ->
    (forall c, In c (kr_critical r) -> exists c', In c' (edges g') /\ no_easier c' c) ->
    schedule_valid g' s -> non_zeno g' s -> keeps_pace g' N s omega -> (0 < kr_throughput r)%Q /\ (/ kr_throughput r <= omega)%Q.
Proof.
  intros Ha Hwf Hb Hni Hno Hc Hi Hf Hk He g' s omega EV HC [V1 V2] NZ KP.
  destruct (kiter_optimal_along solve arrange var g N fuel r K cs Ha Hwf Hb Hni Hno Hc Hi Hf Hk He) as [A B].
  assert (VA : valid_along g (kr_critical r) s).
  { split.
    - intros c Hin. destruct (HC c Hin) as (c' & Hc' & NE). exact (no_easier_valid g g' s c c' EV NE (V1 c' Hc')).
    - intros i v E. rewrite <- EV in E. exact (V2 i v E). }
  assert (NZ' : non_zeno g s) by (unfold non_zeno in *; rewrite EV in NZ; exact NZ).
  assert (KP' : keeps_pace g N s omega) by (unfold keeps_pace in *; rewrite EV in KP; exact KP).
  destruct (Qlt_le_dec 0 (kr_throughput r)) as [P|P]; [|destruct (B P s omega VA NZ' KP')]. split; [exact P|]. destruct (A P) as [_ H]. exact (H s omega VA NZ' KP').
Qed.

Lemma feedbacks_in x : forall cs id, In x (feedbacks id cs) <-> exists i c, nth_error cs i = Some c /\ x = feedback (id + Z.of_nat i) c.
Proof.
  induction cs as [|c cs IH]; intros id; cbn [feedbacks]; split.
  - intros [].
  - intros (i & c & E & _). destruct i; discriminate.
  - intros [<-|H].
    + exists 0%nat, c. split; [reflexivity|]. replace (id + Z.of_nat 0) with id by lia. reflexivity.
    + apply IH in H. destruct H as (i & c' & E & ->). exists (S i), c'. split; [exact E|]. f_equal. lia.
  - intros (i & c' & E & ->). destruct i as [|i]; cbn [nth_error] in E.
    + injection E as ->. left. f_equal. lia.
    + right. apply IH. exists i, c'. split; [exact E|]. f_equal. lia.
Qed.
Lemma loadeds_ids d : forall cs id, map e_id (loadeds d id cs) = map e_id (feedbacks id cs).
Proof. induction cs as [|c cs IH]; intros id; cbn [loadeds feedbacks map]; [reflexivity|]. rewrite IH. reflexivity. Qed.
Lemma loadeds_same a b : forall cs id, (forall i c, nth_error cs i = Some c -> quantity a (id + Z.of_nat i) = quantity b (id + Z.of_nat i)) -> loadeds a id cs = loadeds b id cs.
Proof.
  induction cs as [|c cs IH]; intros id H; cbn [loadeds]; [reflexivity|]. f_equal.
  - unfold loaded. f_equal. pose proof (H 0%nat c eq_refl) as X. rewrite Nat2Z.inj_0, Z.add_0_r in X. lia.
  - apply IH. intros i c' E. pose proof (H (S i) c' E) as X. replace (id + 1 + Z.of_nat i) with (id + Z.of_nat (S i)) by lia. exact X.
Qed.
Lemma feedbacks_low : forall cs id x, In x (map e_id (feedbacks id cs)) -> id <= x.
Proof. induction cs as [|c cs IH]; intros id x; cbn [feedbacks map]; [intros []|]. intros [<-|H]; [cbn; lia|]. apply IH in H. lia. Qed.
Lemma feedbacks_nodup : forall cs id, NoDup (map e_id (feedbacks id cs)).
Proof.
  induction cs as [|c cs IH]; intros id; cbn [feedbacks map]; constructor; [|apply IH]. intros H. apply feedbacks_low in H. cbn in H. lia.
Qed.
Lemma sorted_nodup : forall l : list Z, StronglySorted Z.lt l -> NoDup l.
Proof. induction 1 as [|x l S IH F]; constructor; [|exact IH]. intros H. rewrite Forall_forall in F. specialize (F x H). lia. Qed.

Lemma nodup_left {A} (a b : list A) : NoDup (a ++ b) -> NoDup a.
Proof.
  induction a as [|x a IH]; intros H; [constructor|]. cbn in H. inversion H as [|? ? N R]; subst. constructor; [|exact (IH R)]. intros I. apply N, in_or_app. left. exact I.
Qed.

Section Loaded.
Variables (g : graph) (N : nat -> Z) (step : Z -> Z) (init : sd).
Hypotheses (WF : graph_wf g) (BA : balanced g N) (NI : no_init g) (NO : no_overlap g) (WC : whole_cycles g N)
  (IDS : forall c, In c (edges g) -> 0 < e_id c <= Z.of_nat (length (edges g)))
  (CL : channel_list (all_ids g)) (FD : first_distribution g init) (ST : forall k, (k < length (edges g))%nat -> 0 < step (feedback_id g k)).
Notation count := (Z.of_nat (length (edges g))).
Notation grid := (on_grid (all_ids g) count step init).
Definition load (d : sd) : graph := mkGraph (vertices g) (edges g ++ loadeds d (count + 1) (edges g)).

Lemma feedback_in k c : nth_error (edges g) k = Some c -> In (feedback_id g k) (all_ids g).
Proof.
  intros E. unfold all_ids, with_feedback. cbn [edges]. rewrite map_app. apply in_or_app. right.
  change (feedback_id g k) with (e_id (feedback (feedback_id g k) c)). apply in_map. apply feedbacks_in. exists k, c. split; [exact E|reflexivity].
Qed.
Lemma all_ids_cases e : In e (all_ids g) -> e <= count \/ exists k c, nth_error (edges g) k = Some c /\ e = feedback_id g k.
Proof.
  unfold all_ids, with_feedback. cbn [edges]. rewrite map_app. intros H. apply in_app_or in H. destruct H as [H|H].
  - apply in_map_iff in H. destruct H as (c & <- & Hc). left. apply IDS, Hc.
  - apply in_map_iff in H. destruct H as (c & <- & Hc). apply feedbacks_in in Hc. destruct Hc as (k & c' & E & ->). right. exists k, c'. auto.
Qed.
Lemma step_pos e : In e (all_ids g) -> count < e -> 0 < step e.
Proof. intros He L. destruct (all_ids_cases e He) as [X|(k & c & E & ->)]; [lia|]. apply ST, nth_error_Some. congruence. Qed.
Lemma loads d : grid d -> load_distribution count d (with_feedback g) = Ok (load d).
Proof.
  intros (V & T & _). apply with_feedback_load; [intros c Hc; apply IDS, Hc|]. intros i c E. pose proof (feedback_in i c E) as Hi.
  split; [rewrite (valid_edges _ _ V); exact Hi|]. change (get_tokens d (feedback_id g i) = Ok (e_preload c)). rewrite T by exact Hi. apply FD, E.
Qed.
Lemma enough d k c : grid d -> nth_error (edges g) k = Some c -> e_preload c <= buffers g d k.
Proof.
  intros (V & _ & G) E. destruct FD as (_ & _ & F). destruct (F k c E) as [_ L]. destruct (proj1 (G _ (feedback_in k c E))) as (j & J0 & Ej); [unfold feedback_id; lia|].
  assert (0 < step (feedback_id g k)) by (apply ST, nth_error_Some; congruence). unfold buffers in *. rewrite Ej. nia.
Qed.
Lemma plain c : In c (edges g) -> e_in_init c = [] /\ e_out_init c = [].
Proof.
  intros Hc. destruct WF as (_ & We & _). destruct (We c Hc) as (vs & vd & E1 & E2 & _ & _ & H1 & H2 & _).
  rewrite (NI vs) in H1 by (eapply nth_error_In; eauto). rewrite (NI vd) in H2 by (eapply nth_error_In; eauto).
  split; apply length_zero_iff_nil; assumption.
Qed.
Lemma load_in d c : In c (edges (load d)) -> In c (edges g) \/ exists k c', nth_error (edges g) k = Some c' /\ c = loaded d (feedback_id g k) c'.
Proof.
  cbn [load edges]. intros H. apply in_app_or in H. destruct H as [H|H]; [left; exact H|right]. apply loadeds_in in H. exact H.
Qed.
Lemma load_wf d : grid d -> graph_wf (load d).
Proof.
  intros G. destruct WF as (Wv & We & Wn). split; [exact Wv|]. split; [|exact Wn]. intros c Hc. apply load_in in Hc. destruct Hc as [Hc|(k & c' & E & ->)]; [exact (We c Hc)|].
  pose proof (enough d k c' G E) as L. pose proof (plain c' (nth_error_In _ _ E)) as [P1 P2].
  destruct (We c' (nth_error_In _ _ E)) as (vs & vd & E1 & E2 & H1 & H2 & H3 & H4 & H5 & H6). exists vd, vs. cbn [loaded set_preload feedback e_src e_dst e_in e_out e_in_init e_out_init e_preload load vertices].
  split; [exact E2|]. split; [exact E1|]. split; [exact H2|]. split; [exact H1|]. rewrite P1 in H3. rewrite P2 in H4. split; [exact H4|]. split; [exact H3|].
  split; [|unfold buffers in L; lia]. intros x Hx. apply H5. rewrite P1, P2. rewrite !app_nil_r in *. apply in_app_or in Hx. apply in_or_app. tauto.
Qed.
Lemma load_balanced d : balanced (load d) N.
Proof.
  intros c Hc. apply load_in in Hc. destruct Hc as [Hc|(k & c' & E & ->)]; [exact (BA c Hc)|]. symmetry. exact (BA c' (nth_error_In _ _ E)).
Qed.
Lemma load_ids d : map e_id (edges (load d)) = all_ids g.
Proof. unfold all_ids, load, with_feedback. cbn [edges]. rewrite !map_app, loadeds_ids. reflexivity. Qed.
Lemma load_ids_ok d : edge_ids_ok (load d).
Proof.
  split; [rewrite load_ids; apply sorted_nodup; exact CL|]. intros c Hc. apply load_in in Hc. destruct Hc as [Hc|(k & c' & E & ->)]; [apply IDS, Hc|]. cbn. unfold feedback_id. lia.
Qed.
Lemma load_bounded d s : schedule_valid (load d) s <-> bounded_valid g (Some (buffers g d)) s.
Proof.
  unfold bounded_valid, schedule_valid. split.
  - intros [V1 V2]. split; [split; [|exact V2]|].
    + intros c Hc. apply (channel_valid_vertices (load d)); [reflexivity|]. apply V1. cbn [load edges]. apply in_or_app. left. exact Hc.
    + intros cap k c [= <-] E. pose proof (plain c (nth_error_In _ _ E)) as [P1 P2].
      assert (H : channel_valid (load d) s (loaded d (feedback_id g k) c)). { apply V1. cbn [load edges]. apply in_or_app. right. apply loadeds_in. exists k, c. auto. }
      unfold channel_valid, end_of, prod_rate, cons_rate in *. cbn [loaded set_preload feedback e_src e_dst e_in e_out e_in_init e_out_init e_preload load vertices] in H. rewrite P1, P2. exact H.
  - intros [[V1 V2] V3]. split; [|exact V2]. intros c Hc. apply load_in in Hc. destruct Hc as [Hc|(k & c' & E & ->)].
    + apply (channel_valid_vertices g); [reflexivity|]. apply V1, Hc.
    + pose proof (plain c' (nth_error_In _ _ E)) as [P1 P2]. pose proof (V3 _ k c' eq_refl E) as H.
      unfold channel_valid, end_of, prod_rate, cons_rate in *. cbn [loaded set_preload feedback e_src e_dst e_in e_out e_in_init e_out_init e_preload load vertices]. rewrite P1, P2 in H. exact H.
Qed.

Section Evaluated.
Variables (solve : list constraint -> Q * list constraint) (arrange : list edge -> list edge) (fuel : nat) (var : variant) (thr : sd -> Q) (critical : sd -> list Z).
Hypotheses (AR : forall l, Permutation (arrange l) l) (FU : (iteration_bound g N <= fuel)%nat) (EV : kiter_evaluates solve arrange fuel var g N step init thr critical).

(** What the answer means. *)
Lemma answered d : grid d -> exists r K cs, kiter solve arrange fuel var (load d) N = Ok (r, K, cs) /\ exact_answer cs (solve cs) /\ (thr d == kr_throughput r)%Q /\ critical d = map e_id (kr_critical r).
Proof.
  intros G. destruct (EV d G) as (h & r & K & cs & H1 & H). rewrite loads in H1 by exact G. injection H1 as <-. exists r, K, cs. exact H.
Qed.
Lemma load_meaning d : grid d ->
  ((0 < thr d)%Q ->
     (exists s, bounded_valid g (Some (buffers g d)) s /\ non_zeno g s /\ keeps_pace g N s (/ thr d)) /\
     (forall s omega, bounded_valid g (Some (buffers g d)) s -> non_zeno g s -> keeps_pace g N s omega -> (/ thr d <= omega)%Q)) /\
  ((thr d <= 0)%Q -> forall s omega, bounded_valid g (Some (buffers g d)) s -> non_zeno g s -> ~ keeps_pace g N s omega).
Proof.
  intros G. destruct (answered d G) as (r & K & cs & Hk & He & Et & _).
  destruct (kiter_optimal solve arrange var (load d) N fuel r K cs AR (load_wf d G) (load_balanced d) NI NO WC (load_ids_ok d) FU Hk He) as [A B].
  destruct (kiter_spec var (load d) N (load_wf d G) WC NI (load_ids_ok d) solve arrange AR fuel FU) as (K' & cs' & cs1 & Hk' & HK & _).
  rewrite Hk in Hk'. injection Hk' as _ <- _. split.
  - intros P. assert (P' : (0 < kr_throughput r)%Q) by lra. destruct (A P') as [(s & Ps & Vs & Ks) O]. assert (I0 : (0 < / kr_throughput r)%Q) by (apply Qinv_lt_0_compat; exact P').
    split.
    + exists s. split; [apply load_bounded; exact Vs|]. split.
      * exact (periodic_non_zeno (load d) N (load_wf d G) WC K (/ kr_throughput r) s (kdiv_pos (load d) N K HK) I0 Ps).
      * destruct Ks as [C Ks]. exists C. intros i m Hi. rewrite Et. exact (Ks i m Hi).
    + intros s' omega V Z P2. rewrite Et. apply load_bounded in V. exact (O s' omega V Z P2).
  - intros P s omega V Z P2. apply load_bounded in V. apply (B ltac:(lra) s omega V Z P2).
Qed.

Lemma kiter_sound : sound_evaluation (all_ids g) count step init thr critical.
Proof.
  constructor.
  - intros a b Ga Gb Sa. destruct (answered a Ga) as (r & K & cs & Hk & _ & Et & _). destruct (answered b Gb) as (r' & K' & cs' & Hk' & _ & Et' & _).
    assert (E : load a = load b).
    { unfold load. do 2 f_equal. apply loadeds_same. intros i c E. apply Sa. exact (feedback_in i c E). }
    rewrite E, Hk' in Hk. injection Hk as -> _ _. rewrite Et, Et'. reflexivity.
  - intros d e G He. destruct (answered d G) as (r & K & cs & Hk & _ & _ & Ec). rewrite Ec in He. apply in_map_iff in He. destruct He as (c & <- & Hc).
    destruct (kiter_spec var (load d) N (load_wf d G) WC NI (load_ids_ok d) solve arrange AR fuel FU) as (K' & cs' & cs1 & Hk' & _).
    rewrite Hk in Hk'. injection Hk' as -> _ _. apply (solve_critical_incl (load d) (load_ids_ok d) solve arrange AR cs') in Hc. rewrite <- (load_ids d). apply in_map, Hc.
  - intros a b Ga Gb Bab Pb Lt. destruct (answered a Ga) as (r & K & cs & Hk & He & Et & Ec).
    destruct (existsb (fun e => (count <? e) && (quantity a e <? quantity b e)) (critical a)) eqn:X.
    { apply existsb_exists in X. destruct X as (e & Hin & X). exists e. split; [exact Hin|]. apply andb_prop in X. destruct X as [X1 X2]. lia. }
    exfalso. assert (Q : forall e, In e (critical a) -> count < e -> quantity b e <= quantity a e).
    { intros e Hin L. assert (Y : (count <? e) && (quantity a e <? quantity b e) = false). { destruct ((count <? e) && (quantity a e <? quantity b e)) eqn:Y; [|reflexivity]. rewrite <- X. symmetry. apply existsb_exists. exists e. auto. }
      destruct (Z.ltb_spec count e); [|lia]. cbn in Y. apply Z.ltb_ge in Y. exact Y. }
    destruct (load_meaning b Gb) as [Mb _]. destruct (Mb Pb) as [(s & SV & NZ & KP) _].
    destruct (blame solve arrange var (load a) N fuel r K cs AR (load_wf a Ga) (load_balanced a) NI NO WC (load_ids_ok a) FU Hk He (load b) s (/ thr b)%Q eq_refl) as [P1 P2].
    + intros c Hc. assert (Hcr : In (e_id c) (critical a)) by (rewrite Ec; apply in_map, Hc).
      destruct (kiter_spec var (load a) N (load_wf a Ga) WC NI (load_ids_ok a) solve arrange AR fuel FU) as (K' & cs' & cs1 & Hk' & _).
      rewrite Hk in Hk'. injection Hk' as -> _ _. apply (solve_critical_incl (load a) (load_ids_ok a) solve arrange AR cs') in Hc. apply load_in in Hc.
      destruct Hc as [Hc|(k & c' & E & ->)].
      * exists c. split; [cbn [load edges]; apply in_or_app; left; exact Hc|]. repeat (split; [reflexivity|]). lia.
      * exists (loaded b (feedback_id g k) c'). split; [cbn [load edges]; apply in_or_app; right; apply loadeds_in; exists k, c'; auto|]. repeat (split; [reflexivity|]).
        cbn [loaded set_preload e_preload]. specialize (Q (feedback_id g k) Hcr). unfold feedback_id in *. lia.
    + apply load_bounded. exact SV.
    + exact NZ.
    + exact KP.
    + rewrite <- Et in P1, P2. pose proof (inv_swap (thr a) (thr b) P1 Pb P2). lra.
Qed.
Section Target.
Variable target : Q.
Hypotheses (T0 : (0 < target)%Q) (OPT : forall s omega, schedule_valid g s -> non_zeno g s -> keeps_pace g N s omega -> (/ target <= omega)%Q).

Lemma kiter_none_faster d : grid d -> (thr d <= target)%Q.
Proof.
  intros G. destruct (Qlt_le_dec 0 (thr d)) as [P|P]; [|lra]. destruct (load_meaning d G) as [M _]. destruct (M P) as [(s & [SV _] & NZ & KP) _].
  pose proof (OPT s _ SV NZ KP) as L. exact (inv_swap target (thr d) T0 P L).
Qed.
Lemma kiter_large R : exists b, grid b /\ forall k c, nth_error (edges g) k = Some c -> R <= buffers g b k.
Proof.
  destruct FD as (VI & Q0 & _).
  exists (filled (all_ids g) (fun e => match get_tokens init e with Ok t => t | _ => 0 end) (fun e => if count <? e then quantity init e + Z.max 0 R * step e else quantity init e)). split.
  - split; [apply filled_valid|]. split.
    + intros e He. rewrite filled_tokens by assumption. rewrite <- (valid_edges _ _ VI) in He. pose proof (get_quantity_in init e He) as Q. unfold get_quantity in Q.
      unfold get_tokens. destruct (find_channel e (sd_chan init)); [reflexivity|discriminate].
    + intros e He. rewrite filled_quantity by assumption. destruct (Z.ltb_spec count e) as [L|L]; (split; [intros X|intros X; lia]); [|lia]. exists (Z.max 0 R). split; [lia|reflexivity].
  - intros k c E. pose proof (feedback_in k c E) as Hk. unfold buffers. rewrite filled_quantity by assumption.
    assert (L : count < feedback_id g k) by (unfold feedback_id; lia). destruct (Z.ltb_spec count (feedback_id g k)); [|lia].
    specialize (Q0 _ Hk). pose proof (step_pos _ Hk L). nia.
Qed.
Lemma kiter_some_reach s : schedule_valid g s -> keeps_pace g N s (/ target) -> exists b, grid b /\ (thr b == target)%Q.
Proof.
  intros SV KP. destruct (room_enough g N (/ target) WF NI) with (s := s) as (R & HR); auto.
  - exact (HN_pos g N WC).
  - intros i v E. apply (WC i v E).
  - apply Qinv_lt_0_compat, T0.
  - destruct (kiter_large R) as (b & Gb & Rb). exists b. split; [exact Gb|]. apply Qle_antisym; [apply kiter_none_faster, Gb|].
    destruct (HR _ Rb) as (s' & SV' & NZ' & KP'). destruct (load_meaning b Gb) as [M1 M2].
    destruct (Qlt_le_dec 0 (thr b)) as [P|P]; [|destruct (M2 P s' _ SV' NZ' KP')]. destruct (M1 P) as [_ O]. exact (inv_swap (thr b) target P T0 (O s' _ SV' NZ' KP')).
Qed.
End Target.
End Evaluated.
Lemma kiter_evaluates_exact solve arrange fuel var : (forall l, Permutation (arrange l) l) -> exact_solver solve -> vertices g <> [] -> positive_durations g ->
  (iteration_bound g N <= fuel)%nat -> kiter_evaluates solve arrange fuel var g N step init (kiter_thr solve arrange fuel var g N) (kiter_critical solve arrange fuel var g N).
Proof.
  intros AR XS NE PD FU d G. pose proof (loads d G) as L.
  destruct (kiter_spec var (load d) N (load_wf d G) WC NI (load_ids_ok d) solve arrange AR fuel FU) as (K' & cs' & cs1 & Hk' & _).
  exists (load d), (solve_graph solve arrange (load d) cs'), K', cs'. split; [exact L|]. split; [exact Hk'|]. split.
  - apply (exact_on_kiter solve arrange var (load d) N fuel _ K' cs' AR XS) in Hk'; [exact Hk'| |exact FU]. constructor; auto using load_wf, load_balanced, load_ids_ok.
  - unfold kiter_thr, kiter_critical, kiter_answer. rewrite L, Hk'. split; reflexivity.
Qed.
End Loaded.
