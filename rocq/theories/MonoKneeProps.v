(** C148, C149: the handling of infeasible points and the monotonic optimisation with knee sets. *)
From Coq Require Import QArith Sorted.
From Verif Require Import Base Graph Storage StorageSpec StorageProofs StorageSets StorageProps Dse MonoOpt MonoOptSearch Knees KneesSpec KneesProofs KneesProps MonoKnee MonoKneeSpec MonoKneeProofs.
Open Scope Z_scope.

(** ** C148 *)
Lemma handle_lb fuel bounded buffers critical d F p p' : handle_infeasible fuel bounded buffers critical d F p = Ok p' -> new_bounds bounded critical d (p_lb p) = Ok (p_lb p').
Proof.
  unfold handle_infeasible. destruct (new_bounds bounded critical d (p_lb p)) as [lb| | |]; cbn [bind]; try discriminate. destruct (update_infeasible_set d lb (p_infeasible p)) as [u| | |]; cbn [bind]; try discriminate.
  destruct (update_knee_set fuel buffers lb u F (p_knees p)) as [k| | |]; cbn [bind]; try discriminate. intros E. injection E as <-. reflexivity.
Qed.
Lemma count_all critical es : (forall e, In e es -> In e critical) -> critical_count critical es = Z.of_nat (length es).
Proof.
  intros H. unfold critical_count. f_equal. f_equal. induction es as [|e es IH]; [reflexivity|]. cbn [filter]. replace (existsb (Z.eqb e) critical) with true.
  - f_equal. apply IH. intros x Hx. apply H. right. exact Hx.
  - symmetry. apply existsb_exists. exists e. split; [apply H; left; reflexivity|apply Z.eqb_refl].
Qed.
Lemma filter_le {A} (f : A -> bool) l : (length (filter f l) <= length l)%nat.
Proof. induction l as [|x l IH]; cbn; [lia|]. destruct (f x); cbn; lia. Qed.
Lemma count_less critical es e : In e es -> ~ In e critical -> critical_count critical es < Z.of_nat (length es).
Proof.
  intros He N. unfold critical_count. apply inj_lt. induction es as [|x es IH]; [destruct He|]. cbn [filter length]. destruct (existsb (Z.eqb x) critical) eqn:X.
  - destruct He as [->|He]; [apply existsb_exists in X as (y & Hy & Y); apply Z.eqb_eq in Y as ->; contradiction|]. cbn [length]. specialize (IH He). lia.
  - pose proof (filter_le (fun e => existsb (Z.eqb e) critical) es). lia.
Qed.

(** Lower bounds are never decreased.  A bound is raised exactly to what the infeasible point gives
    to a critical channel, and only when some channel is not critical. *)
Theorem C148_bounds : forall K fuel bounded buffers critical d feasible p p', channel_list K -> valid K d ->
  (length (buffer_edges bounded K) = if bounded then length K / 2 else length K)%nat ->
  handle_infeasible fuel bounded buffers critical d feasible p = Ok p' ->
  let some_free := exists e, considered bounded K e /\ ~ In e critical in
  forall e, (some_free -> In e critical -> considered bounded K e -> bound_of (p_lb p') e = Z.max (bound_of (p_lb p) e) (quantity d e)) /\
            (~ some_free \/ ~ In e critical \/ ~ considered bounded K e -> bound_of (p_lb p') e = bound_of (p_lb p) e).
Proof.
  intros K fuel bounded buffers critical d F p p' HK V Half E some_free. apply handle_lb in E. destruct (new_bounds_ok K HK bounded critical d (p_lb p) V) as (lb & E' & _ & All & Some). rewrite E in E'. injection E' as <-.
  assert (Half' : Z.of_nat (length (buffer_edges bounded K)) = if bounded then Z.of_nat (length K) / 2 else Z.of_nat (length K)). { rewrite Half. destruct bounded; [rewrite Nat2Z.inj_div; reflexivity|reflexivity]. }
  assert (Ex : forall e l, existsb (Z.eqb e) l = true <-> In e l). { intros e l. rewrite existsb_exists. split; [intros (y & Hy & Y); apply Z.eqb_eq in Y as ->; exact Hy|intros H; exists e; split; [exact H|apply Z.eqb_refl]]. }
  assert (Free : some_free -> forall e, bound_of (p_lb p') e = if existsb (Z.eqb e) (buffer_edges bounded K) && existsb (Z.eqb e) critical then Z.max (bound_of (p_lb p) e) (quantity d e) else bound_of (p_lb p) e).
  { intros (x & Hx & Nx). apply Some. rewrite <- Half'. apply (buffer_in K) in Hx. pose proof (count_less critical _ x Hx Nx). lia. }
  intros e. split.
  - intros Fr Hc Hk. rewrite (Free Fr). apply (buffer_in K) in Hk. apply Ex in Hk, Hc. rewrite Hk, Hc. reflexivity.
  - intros H. destruct (existsb (fun x => negb (existsb (Z.eqb x) critical)) (buffer_edges bounded K)) eqn:X.
    + assert (Fr : some_free). { apply existsb_exists in X as (x & Hx & X). exists x. split; [apply (buffer_in K); exact Hx|]. rewrite <- Ex. destruct (existsb (Z.eqb x) critical); [discriminate|congruence]. }
      rewrite (Free Fr). destruct H as [H|[H|H]]; [contradiction| |].
      * destruct (existsb (Z.eqb e) critical) eqn:Y; [apply Ex in Y; contradiction|]. rewrite andb_false_r. reflexivity.
      * destruct (existsb (Z.eqb e) (buffer_edges bounded K)) eqn:Y; [apply Ex, (buffer_in K) in Y; contradiction|reflexivity].
    + rewrite All; [reflexivity|]. rewrite <- Half'. apply count_all. intros x Hx. apply Ex. destruct (existsb (Z.eqb x) critical) eqn:Y; [reflexivity|].
      assert (Z : existsb (fun x => negb (existsb (Z.eqb x) critical)) (buffer_edges bounded K) = true) by (apply existsb_exists; exists x; rewrite Y; auto). congruence.
Qed.
Print Assumptions C148_bounds.

(** ** C149 *)
(** On an initial distribution that meets the target the first knee point is looked up in an empty
    set. *)
Theorem C149_feasible_start_refuted : forall K kfuel fuel thr critical bounded target init, channel_list K -> valid K init -> (target <= sd_thr init)%Q ->
  monotonic_optimised kfuel fuel thr critical bounded target init = Undefined.
Proof.
  intros K kfuel fuel thr critical bounded target init HK V T. unfold monotonic_optimised. destruct (start_inv K HK init V) as (lb & -> & _). cbn [bind]. apply Qle_bool_iff in T.
  assert (R : reach kfuel thr critical bounded (buffer_edges true (get_edges init)) target fuel init (sd_thr init) (mkPoints sds_empty sds_empty lb) = Ok (init, sd_thr init, mkPoints sds_empty sds_empty lb)) by (destruct fuel; cbn [reach]; rewrite T; reflexivity).
  rewrite R. cbn [bind]. unfold update_feasible_set. cbn [set_count flat sds_empty ss_map map concat length Z.of_nat Z.eqb]. destruct (add_sd_ok K init sds_empty V (wf_empty K)) as (s & -> & _). reflexivity.
Qed.
Print Assumptions C149_feasible_start_refuted.

(** Whenever a set is returned, it holds one distribution only, which is the initial one with one
    token less on one channel. *)
Theorem C149_returned : forall K kfuel fuel thr critical bounded target init r, channel_list K -> valid K init -> monotonic_optimised kfuel fuel thr critical bounded target init = Ok r ->
  ~ (target <= sd_thr init)%Q /\ exists v c, flat r = [v] /\ resizable K c /\ one_less K init c v.
Proof.
  intros K kfuel fuel thr critical bounded target init r HK V E. split; [intros T; rewrite (C149_feasible_start_refuted K kfuel fuel thr critical bounded target init HK V T) in E; discriminate|].
  unfold monotonic_optimised in E. destruct (start_inv K HK init V) as (lb & Es & _ & I). rewrite Es in E. cbn [bind] in E. rewrite (valid_edges K _ V) in E.
  destruct (reach kfuel thr critical bounded (buffer_edges true K) target fuel init (sd_thr init) (mkPoints sds_empty sds_empty lb)) as [[[d current] p]| | |] eqn:Er; cbn [bind] in E; try discriminate.
  destruct (reach_ok K HK init kfuel thr critical bounded target fuel init (sd_thr init) _ _ _ _ V I (or_intror (conj eq_refl eq_refl)) Er) as (Vd & Ip & Q).
  destruct (update_feasible_ok K d sds_empty Vd (wf_empty K)) as (F & EF & WF & AF & _); [intros x y []|]. rewrite EF in E. cbn [bind] in E.
  destruct (select_new (buffer_edges true K) p F current target (mkSelection sd_default false false 1 [] sd_default)) as [c| | |] eqn:Ec; cbn [bind] in E; try discriminate.
  pose proof (select_new_ok K HK init p F current target _ c WF Ip (or_intror (eq_refl : se_init (mkSelection sd_default false false 1 [] sd_default) = false)) Ec) as [C N]. assert (S : started init p). { destruct Q as [[_ ->]|S]; [destruct N; reflexivity|exact S]. }
  exact (refine_ok K HK init kfuel thr critical bounded target fuel c p F r WF AF Ip S C N E).
Qed.
Print Assumptions C149_returned.

Lemma reach_undefined kfuel thr critical bounded target init fuel : handle_infeasible kfuel bounded (buffer_edges true (get_edges init)) (critical init) init sds_empty (mkPoints sds_empty sds_empty (match start_bounds (get_edges init) init [] with Ok lb => lb | _ => [] end)) = Undefined ->
  (exists lb, start_bounds (get_edges init) init [] = Ok lb) -> ~ (target <= sd_thr init)%Q -> (1 <= fuel)%nat -> monotonic_optimised kfuel fuel thr critical bounded target init = Undefined.
Proof.
  intros H (lb & E) T Hf. unfold monotonic_optimised. rewrite E in *. cbn [bind]. destruct fuel as [|f]; [lia|]. cbn [reach]. destruct (Qle_bool target (sd_thr init)) eqn:Q; [apply Qle_bool_iff in Q; contradiction|]. cbn [negb]. rewrite H. reflexivity.
Qed.

(** With two channels to resize that are not critical at first, or with at least two that all are,
    nothing is returned. *)
Theorem C149_two_free_refuted : forall K kfuel fuel thr critical bounded target init c c', channel_list K -> valid K init -> ~ (target <= sd_thr init)%Q -> (1 <= fuel)%nat ->
  resizable K c -> resizable K c' -> c <> c' ->
  (~ In c (critical init) /\ ~ In c' (critical init)) \/ (bounded = true /\ (length (buffer_edges true K) = length K / 2)%nat /\ forall e, resizable K e -> In e (critical init)) ->
  monotonic_optimised kfuel fuel thr critical bounded target init = Undefined.
Proof.
  intros K kfuel fuel thr critical bounded target init c c' HK V T Hf Hc Hc' Nc Crit. destruct (start_inv K HK init V) as (lb & Es & B & I). apply reach_undefined; eauto. rewrite Es, (valid_edges K _ V).
  unfold handle_infeasible. cbn [p_lb p_infeasible p_knees]. destruct (new_bounds_ok K HK bounded (critical init) init lb V) as (lb' & En & Any & All & _). rewrite En. cbn [bind].
  destruct (update_none K init lb' sds_empty V (wf_empty K) eq_refl) as (U & -> & WU & FU). cbn [bind].
  assert (L : bound_of lb' c = quantity init c - 1 /\ bound_of lb' c' = quantity init c' - 1).
  { rewrite <- (B c) by apply Hc. rewrite <- (B c') by apply Hc'. destruct Crit as [[N1 N2]|(-> & Hl & A)].
    - assert (Ex : forall e, ~ In e (critical init) -> existsb (Z.eqb e) (critical init) = false). { intros e Ne. destruct (existsb (Z.eqb e) (critical init)) eqn:X; [|reflexivity]. apply existsb_exists in X as (y & Hy & Y). apply Z.eqb_eq in Y as ->. contradiction. }
      destruct Any as [Any|Any]; rewrite !Any; [auto|]. rewrite (Ex c N1), (Ex c' N2), !andb_false_r. auto.
    - rewrite All; [auto|]. rewrite count_all by (intros e He; apply A; apply buffers_resizable; exact He). rewrite Hl, Nat2Z.inj_div. reflexivity. }
  destruct L as [L1 L2]. destruct (knees_single K HK kfuel (buffer_edges true K) lb' U sds_empty sds_empty init (buffers_incl K) WU (wf_empty K) (wf_empty K) FU) as (k2 & W2 & M & _ & Two). rewrite Two; [reflexivity|].
  assert (G : forall x, resizable K x -> bound_of lb' x = quantity init x - 1 -> mem K k2 (set_quantity x (quantity init x - 1) init)).
  { intros x Hx Lx. apply M. right. assert (Q : forall e, quantity (set_quantity x (quantity init x - 1) init) e = if e =? x then quantity init x - 1 else quantity init e) by (intros e; apply (set_quantity_quantity K HK); exact V).
    split; [intros S; specialize (S x (proj1 Hx)); rewrite Q, Z.eqb_refl in S; lia|]. split; [intros (y & [] & _)|]. exists x. split; [apply buffers_resizable; exact Hx|]. rewrite Q, Z.eqb_refl. split; [lia|]. intros e He Ne. rewrite Q. destruct (Z.eqb_spec e x); [contradiction|reflexivity]. }
  destruct (G c Hc L1) as (x & Hx & Sx), (G c' Hc' L2) as (y & Hy & Sy). destruct (flat k2) as [|z [|z' l]]; cbn [length]; [destruct Hx| |lia]. exfalso. destruct Hx as [->|[]], Hy as [->|[]].
  specialize (Sx c (proj1 Hc)). specialize (Sy c (proj1 Hc)). rewrite (set_quantity_quantity K HK) in Sx, Sy by exact V. rewrite Z.eqb_refl in Sx. destruct (Z.eqb_spec c c'); [contradiction|]. lia.
Qed.
Print Assumptions C149_two_free_refuted.

Lemma double_doubled K (HK : channel_list K) : forall es d, NoDup es -> valid K d -> exists d', double (buffer_edges true K) es d = Ok d' /\ valid K d' /\ doubled K es d d'.
Proof.
  induction es as [|x es IH]; intros d Nd V; cbn [double]; [exists d; split; [reflexivity|]; split; [exact V|]; intros e He; split; [intros []|reflexivity]|]. inversion Nd as [|? ? Nx Nd']; subst.
  destruct (existsb (Z.eqb x) (buffer_edges true K)) eqn:X.
  - apply existsb_exists in X as (y & Hy & Y). apply Z.eqb_eq in Y as ->. apply buffers_resizable in Hy. rewrite get_quantity_in by (rewrite (valid_edges K _ V); apply Hy). cbn [bind].
    destruct (IH (set_quantity y (quantity d y * 2) d) Nd' (set_quantity_valid K HK _ _ _ V (proj1 Hy))) as (d' & -> & V' & D). exists d'. split; [reflexivity|]. split; [exact V'|].
    intros e He. destruct (D e He) as [D1 D2]. rewrite (set_quantity_quantity K HK) in D1, D2 by exact V. split.
    + intros [->|Hin] R; [|destruct (Z.eqb_spec e y) as [->|]; [contradiction|apply D1; assumption]]. rewrite Z.eqb_refl in D2. rewrite D2; [lia|]. intros [H _]. contradiction.
    + intros N. destruct (Z.eqb_spec e y) as [->|Ne]; [destruct N; split; [left; reflexivity|exact Hy]|]. apply D2. intros [H R]. apply N. split; [right; exact H|exact R].
  - destruct (IH d Nd' V) as (d' & -> & V' & D). exists d'. split; [reflexivity|]. split; [exact V'|]. assert (NR : ~ resizable K x). { intros R. apply buffers_resizable in R. assert (Y : existsb (Z.eqb x) (buffer_edges true K) = true) by (apply existsb_exists; exists x; split; [exact R|apply Z.eqb_refl]). congruence. }
    intros e He. destruct (D e He) as [D1 D2]. split; [intros [->|Hin] R; [contradiction|apply D1; assumption]|]. intros N. apply D2. intros [H R]. apply N. split; [right; exact H|exact R].
Qed.

(** When the initial distribution and the first enlarged one both miss the target, nothing is
    returned. *)
Theorem C149_second_refuted : forall K kfuel fuel thr critical bounded target init e, channel_list K -> valid K init -> ~ (target <= sd_thr init)%Q -> (2 <= fuel)%nat -> NoDup (critical init) ->
  In e (critical init) -> resizable K e -> 0 < quantity init e ->
  (forall d, valid K d -> doubled K (critical init) init d -> ~ (target <= clamp (thr d))%Q) ->
  monotonic_optimised kfuel fuel thr critical bounded target init = Undefined.
Proof.
  intros K kfuel fuel thr critical bounded target init e HK V T Hf Nd Hin R Pos H. unfold monotonic_optimised. destruct (start_inv K HK init V) as (lb & -> & _ & I). cbn [bind]. rewrite (valid_edges K _ V).
  destruct fuel as [|[|f]]; [lia|lia|]. cbn [reach]. destruct (Qle_bool target (sd_thr init)) eqn:Q; [apply Qle_bool_iff in Q; contradiction|]. cbn [negb].
  destruct (handle_ok K HK init kfuel bounded (critical init) init sds_empty _ V (wf_empty K) I (or_intror (conj eq_refl eq_refl))) as [->|(p1 & -> & I1 & S1 & _)]; [reflexivity|]. cbn [bind].
  destruct (double_doubled K HK (critical init) init Nd V) as (d & -> & Vd & D). cbn [bind]. destruct (Qle_bool target (clamp (thr d))) eqn:Q2; [apply Qle_bool_iff in Q2; destruct (H d Vd D Q2)|]. cbn [negb].
  destruct (handle_ok K HK init kfuel bounded (critical (set_thr (clamp (thr d)) d)) (set_thr (clamp (thr d)) d) sds_empty p1 (set_thr_valid K _ _ Vd) (wf_empty K) I1 (or_introl S1)) as [->|(p2 & _ & _ & _ & B & _)]; [reflexivity|].
  exfalso. specialize (B e (proj1 R)). change (quantity (set_thr (clamp (thr d)) d) e) with (quantity d e) in B. destruct (D e (proj1 R)) as [D1 _]. rewrite D1 in B by assumption. lia.
Qed.
Print Assumptions C149_second_refuted.

(** Four channels, the last two modelling the buffers of the first two; channel 4 is critical. *)
Definition ex_init : sd := sd_make 4 0%Q [(1, (0, 0)); (2, (0, 0)); (3, (0, 4)); (4, (0, 4))] 8.
Definition ex_K4 : list Z := [1; 2; 3; 4].
Lemma ex_K4_ok : channel_list ex_K4. Proof. repeat constructor. Qed.
Lemma ex_init_ok : valid ex_K4 ex_init. Proof. constructor; reflexivity. Qed.
Definition ex_thr (d : sd) : Q := if quantity d 4 >? 4 then 1%Q else 0%Q.
Example C149_returned_hyp : exists r v, monotonic_optimised 3 20 ex_thr (fun _ => [4]) true 1%Q ex_init = Ok r /\ flat r = [v] /\ map (quantity v) ex_K4 = [0; 0; 3; 4].
Proof. eexists. eexists. split; [vm_compute; reflexivity|]. split; reflexivity. Qed.
Example C149_two_hyp : resizable ex_K4 3 /\ resizable ex_K4 4 /\ monotonic_optimised 3 20 ex_thr (fun _ => [1]) true 1%Q ex_init = Undefined /\ monotonic_optimised 3 20 ex_thr (fun _ => [3; 4]) true 1%Q ex_init = Undefined.
Proof. split; [split; [cbn; auto|reflexivity]|]. split; [split; [cbn; auto|reflexivity]|]. split; vm_compute; reflexivity. Qed.
Example C149_second_hyp : monotonic_optimised 3 20 (fun d => if quantity d 4 >? 8 then 1%Q else 0%Q) (fun _ => [4]) true 1%Q ex_init = Undefined /\
  (forall d, doubled ex_K4 [4] ex_init d -> clamp (if quantity d 4 >? 8 then 1%Q else 0%Q) = 0%Q).
Proof. split; [vm_compute; reflexivity|]. intros d D. destruct (D 4) as [D1 _]; [cbn; auto|]. rewrite D1; [reflexivity|cbn; auto|split; [cbn; auto|reflexivity]]. Qed.
Example C148_hyp : (length (buffer_edges true ex_K4) = length ex_K4 / 2)%nat /\ exists p, handle_infeasible 3 true [3; 4] [4] ex_init sds_empty (mkPoints sds_empty sds_empty [(3, 3); (4, 3)]) = Ok p /\ p_lb p = [(3, 3); (4, 4)].
Proof. split; [reflexivity|]. eexists. split; vm_compute; reflexivity. Qed.
