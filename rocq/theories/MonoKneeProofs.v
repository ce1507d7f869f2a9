(** Proofs about the monotonic optimisation with knee sets. *)
From Coq Require Import QArith Sorted.
From Verif Require Import Base Graph Storage StorageSpec StorageProofs StorageSets Dse MonoOpt MonoOptSearch Knees KneesSpec KneesProofs MonoKnee MonoKneeSpec.
Open Scope Z_scope.

Section Over.
Context (K : list Z) (HK : channel_list K).
Notation valid := (valid K). Notation same := (same K). Notation below := (below K). Notation wf := (wf K). Notation mem := (mem K).

(** ** Bounds *)
Lemma buffer_in bounded e : In e (buffer_edges bounded K) <-> considered bounded K e.
Proof.
  unfold buffer_edges, considered, is_buffer. rewrite filter_In. destruct bounded; cbn [negb orb]; [rewrite Z.gtb_lt|]; split; intros [A B]; (split; [exact A|]); auto. discriminate.
Qed.
Lemma buffers_resizable e : In e (buffer_edges true K) <-> resizable K e.
Proof. rewrite buffer_in. unfold considered, resizable. split; intros [A B]; auto. Qed.
Lemma raise_bounds_ok critical d : valid d -> forall es lb, incl es K -> NoDup es -> exists lb', raise_bounds critical es d lb = Ok lb' /\
  forall e, bound_of lb' e = if existsb (Z.eqb e) es && existsb (Z.eqb e) critical then Z.max (bound_of lb e) (quantity d e) else bound_of lb e.
Proof.
  intros V. induction es as [|x es IH]; intros lb I Nd; cbn [raise_bounds].
  - exists lb. split; reflexivity.
  - inversion Nd as [|? ? Nx Nd']; subst. assert (Hx : In x K) by (apply I; left; reflexivity). assert (I' : incl es K) by (intros z Hz; apply I; right; exact Hz).
    assert (Ne : existsb (Z.eqb x) es = false) by (destruct (existsb (Z.eqb x) es) eqn:X; [|reflexivity]; apply existsb_exists in X as (y & Hy & Y); apply Z.eqb_eq in Y as ->; contradiction).
    destruct (existsb (Z.eqb x) critical) eqn:C.
    + rewrite get_quantity_in by (rewrite (valid_edges K _ V); exact Hx). cbn [bind]. destruct (IH (if bound_of lb x <? quantity d x then put_bound x (quantity d x) lb else lb) I' Nd') as (lb' & -> & B). exists lb'. split; [reflexivity|].
      intros e. rewrite B. cbn [existsb]. destruct (Z.eqb_spec e x) as [->|N].
      * rewrite Ne, C. cbn [andb orb]. destruct (Z.ltb_spec (bound_of lb x) (quantity d x)); [rewrite put_bound_of, Z.eqb_refl|]; lia.
      * cbn [orb]. assert (E : bound_of (if bound_of lb x <? quantity d x then put_bound x (quantity d x) lb else lb) e = bound_of lb e) by (destruct (bound_of lb x <? quantity d x); [rewrite put_bound_of; destruct (Z.eqb_spec e x); [contradiction|reflexivity]|reflexivity]). rewrite E. reflexivity.
    + destruct (IH lb I' Nd') as (lb' & -> & B). exists lb'. split; [reflexivity|]. intros e. rewrite B. cbn [existsb]. destruct (Z.eqb_spec e x) as [->|N]; [rewrite Ne, C; reflexivity|reflexivity].
Qed.
Lemma new_bounds_ok bounded critical d lb : valid d -> exists lb', new_bounds bounded critical d lb = Ok lb' /\
  ((forall e, bound_of lb' e = bound_of lb e) \/ forall e, bound_of lb' e = if existsb (Z.eqb e) (buffer_edges bounded K) && existsb (Z.eqb e) critical then Z.max (bound_of lb e) (quantity d e) else bound_of lb e) /\
  (critical_count critical (buffer_edges bounded K) = (if bounded then Z.of_nat (length K) / 2 else Z.of_nat (length K)) -> lb' = lb) /\
  (critical_count critical (buffer_edges bounded K) <> (if bounded then Z.of_nat (length K) / 2 else Z.of_nat (length K)) -> forall e, bound_of lb' e = if existsb (Z.eqb e) (buffer_edges bounded K) && existsb (Z.eqb e) critical then Z.max (bound_of lb e) (quantity d e) else bound_of lb e).
Proof.
  intros V. unfold new_bounds. rewrite (valid_edges K _ V). destruct (Z.eqb_spec (critical_count critical (buffer_edges bounded K)) (if bounded then Z.of_nat (length K) / 2 else Z.of_nat (length K))) as [E|E].
  - exists lb. split; [reflexivity|]. split; [left; reflexivity|]. split; [reflexivity|intros X; contradiction].
  - destruct (raise_bounds_ok critical d V (buffer_edges bounded K) lb) as (lb' & -> & B); [intros e He; apply buffer_in in He as [He _]; exact He|apply NoDup_filter; apply sorted_nodup; exact HK|].
    exists lb'. split; [reflexivity|]. split; [right; exact B|]. split; [intros X; contradiction|auto].
Qed.
Lemma new_bounds_le bounded critical d lb lb' : valid d -> new_bounds bounded critical d lb = Ok lb' -> forall e, bound_of lb e <= bound_of lb' e /\ (bound_of lb' e = bound_of lb e \/ (In e K /\ bound_of lb' e = quantity d e)).
Proof.
  intros V E e. destruct (new_bounds_ok bounded critical d lb V) as (x & E' & B & _). rewrite E in E'. injection E' as <-. destruct B as [B|B]; rewrite B; [lia|].
  destruct (existsb (Z.eqb e) (buffer_edges bounded K) && existsb (Z.eqb e) critical) eqn:C; [|lia]. apply andb_prop in C as [C _]. apply existsb_exists in C as (y & Hy & Y). apply Z.eqb_eq in Y as ->. apply buffer_in in Hy as [Hy _]. split; [lia|].
  destruct (Z.max_spec (bound_of lb y) (quantity d y)) as [[_ ->]|[_ ->]]; auto.
Qed.

(** ** The infeasible set keeps a single point *)
Lemma one_of (l : list sd) a : In a l -> (length l <= 1)%nat -> l = [a].
Proof. destruct l as [|x [|y l]]; cbn; intros H L; [destruct H|destruct H as [->|[]]; reflexivity|lia]. Qed.
Lemma update_single d lb s a : valid d -> wf s -> flat s = [a] -> update_infeasible_set d lb s = Undefined \/ (exists s', update_infeasible_set d lb s = Ok s' /\ wf s' /\ flat s' = [a] /\ below d a).
Proof.
  intros V W Fs. unfold update_infeasible_set. replace (set_count s =? 0) with false by (unfold set_count; rewrite Fs; reflexivity).
  assert (Va : valid a) by (apply (wf_valid K s a W); rewrite Fs; left; reflexivity).
  assert (S1 : exists s1, (if sd_size d >=? last_key (ss_map s) 0 then add_sd d s else scan (fun a b => a >? b) d (flat s) s false) = Ok s1 /\ wf s1 /\ In a (flat s1) /\ (length (flat s1) <= 1 -> below d a)%nat).
  { destruct (add_sd_ok K d s V W) as (s1 & E1 & W1 & M1). assert (H1 : In a (flat s1)) by (apply M1; left; rewrite Fs; left; reflexivity).
    assert (G : (length (flat s1) <= 1 -> below d a)%nat).
    { intros L. destruct (same_dec K d a) as [S|S]; [apply same_below; exact S|]. assert (Hd : In d (flat s1)). { apply M1. right. split; [reflexivity|]. intros y Hy. rewrite Fs in Hy. destruct Hy as [<-|[]]. exact S. }
      rewrite (one_of _ a H1 L) in Hd. destruct Hd as [<-|[]]. apply below_refl. }
    destruct (sd_size d >=? last_key (ss_map s) 0); [exists s1; auto|]. rewrite (scan_ok K) by (auto; intros y Hy; exact (wf_valid K s y W Hy)). rewrite Fs. cbn [existsb]. rewrite orb_false_r.
    destruct (existsb (fun e => quantity d e >? quantity a e) K) eqn:X; [exists s1; auto|]. exists s. split; [reflexivity|]. split; [exact W|]. split; [rewrite Fs; left; reflexivity|]. intros _ e He.
    destruct (Z.leb_spec (quantity d e) (quantity a e)) as [L|L]; [exact L|]. assert (Y : existsb (fun e => quantity d e >? quantity a e) K = true) by (apply existsb_exists; exists e; split; [exact He|lia]). congruence. }
  destruct S1 as (s1 & -> & W1 & H1 & B1). cbn [bind]. destruct (le_lt_dec (length (flat s1)) 1) as [L|L].
  - right. rewrite each_maximum_one by exact L. exists s1. split; [reflexivity|]. split; [exact W1|]. split; [apply one_of; assumption|auto].
  - left. apply (each_maximum_undefined K); [exact W1|lia].
Qed.
Lemma update_none d lb s : valid d -> wf s -> flat s = [] -> exists s', update_infeasible_set d lb s = Ok s' /\ wf s' /\ flat s' = [d].
Proof.
  intros V W Fs. unfold update_infeasible_set. replace (set_count s =? 0) with true by (unfold set_count; rewrite Fs; reflexivity). destruct (add_sd_ok K d s V W) as (s' & E & W' & M). exists s'. split; [exact E|]. split; [exact W'|].
  assert (Hd : In d (flat s')) by (apply M; right; split; [reflexivity|intros y Hy; rewrite Fs in Hy; destruct Hy]). apply one_of; [exact Hd|]. pose proof (wf_nodup K s' W') as N. assert (I : incl (flat s') [d]). { intros x Hx. apply M in Hx as [Hx|[-> _]]; [rewrite Fs in Hx; destruct Hx|left; reflexivity]. }
  pose proof (NoDup_incl_length N I). cbn [length] in H. exact H.
Qed.

(** With a single infeasible point, the knees are the edge knees. *)
Lemma knees_single fuel buffers lb U F knees a : incl buffers K -> wf U -> wf F -> wf knees -> flat U = [a] ->
  exists k2, wf k2 /\ (forall v, mem k2 v <-> mem knees v \/ (~ same v a /\ ~ mem F v /\ exists c, In c buffers /\ quantity v c = bound_of lb c /\ forall e, In e K -> e <> c -> quantity v e = quantity a e)) /\
    ((length (flat k2) <= 1)%nat -> update_knee_set fuel buffers lb U F knees = Ok k2) /\ ((2 <= length (flat k2))%nat -> update_knee_set fuel buffers lb U F knees = Undefined).
Proof.
  intros I WU WF Wk Fu. unfold update_knee_set. replace (set_count U >? 1) with false by (unfold set_count; rewrite Fu; reflexivity). cbn [bind].
  destruct (add_edge_knees_ok K HK buffers lb U F knees I WU WF Wk) as (k2 & -> & W2 & M); [rewrite Fu; discriminate|]. exists k2. split; [exact W2|]. cbn [bind]. split; [|split; [apply each_maximum_one|apply (each_maximum_undefined K); exact W2]].
  intros v. rewrite M. assert (MU : mem U v <-> same v a). { unfold StorageSets.mem. rewrite Fu. split; [intros (y & [<-|[]] & S); exact S|intros S; exists a; cbn; auto]. }
  rewrite MU. unfold edge_knee. split.
  - intros [H|(N1 & N2 & c & Hc & top & [A B] & N3 & E & R)]; [auto|]. right. split; [exact N1|]. split; [exact N2|]. exists c. split; [exact Hc|]. split; [exact E|]. intros e He Ne. rewrite R by assumption. rewrite Fu in B. destruct (B e He) as (p & [<-|[]] & ->). reflexivity.
  - intros [H|(N1 & N2 & c & Hc & E & R)]; [auto|]. right. split; [exact N1|]. split; [exact N2|]. exists c. split; [exact Hc|]. exists a. rewrite Fu. split; [|auto]. split; [intros p [<-|[]]; apply below_refl|]. intros e He. exists a. cbn; auto.
Qed.

(** ** The search, from the first infeasible point [a] *)
Section Run.
Context (a : sd) (Va : valid a).
Notation buffers := (buffer_edges true K).
Lemma buffers_incl : incl buffers K.
Proof. intros e He. apply buffer_in in He as [He _]. exact He. Qed.

Record inv (p : points) : Prop := {
  v_wu : wf (p_infeasible p); v_wk : wf (p_knees p);
  v_lb : forall e, In e K -> quantity a e - 1 <= bound_of (p_lb p) e <= quantity a e;
  v_knees : forall v, In v (flat (p_knees p)) -> exists c, resizable K c /\ one_less K a c v;
  v_few : (length (flat (p_knees p)) <= 1)%nat }.
Definition started (p : points) : Prop := flat (p_infeasible p) = [a].

Lemma handle_ok kfuel bounded critical d F p : valid d -> wf F -> inv p -> (started p \/ (flat (p_infeasible p) = [] /\ d = a)) ->
  handle_infeasible kfuel bounded buffers critical d F p = Undefined \/
  exists p', handle_infeasible kfuel bounded buffers critical d F p = Ok p' /\ inv p' /\ started p' /\ below d a /\ (flat (p_knees p) <> [] -> flat (p_knees p') <> []).
Proof.
  intros V WF I S. unfold handle_infeasible. destruct (new_bounds_ok bounded critical d (p_lb p) V) as (lb & E & _). pose proof (new_bounds_le _ _ _ _ _ V E) as L. rewrite E. cbn [bind].
  assert (U : update_infeasible_set d lb (p_infeasible p) = Undefined \/ exists U', update_infeasible_set d lb (p_infeasible p) = Ok U' /\ wf U' /\ flat U' = [a] /\ below d a).
  { destruct S as [S|[S ->]]; [apply (update_single d lb _ a V (v_wu p I) S)|]. right. destruct (update_none a lb _ V (v_wu p I) S) as (U' & EU & WU & FU). exists U'. split; [exact EU|]. split; [exact WU|]. split; [exact FU|]. apply below_refl. }
  destruct U as [->|(U' & -> & WU & FU & Bd)]; [left; reflexivity|]. cbn [bind].
  destruct (knees_single kfuel buffers lb U' F (p_knees p) a buffers_incl WU WF (v_wk p I) FU) as (k2 & W2 & M & One & Two). destruct (le_lt_dec (length (flat k2)) 1) as [Lk|Lk]; [|left; rewrite Two by lia; reflexivity].
  right. rewrite (One Lk). cbn [bind]. eexists. split; [reflexivity|]. assert (B : forall e, In e K -> quantity a e - 1 <= bound_of lb e <= quantity a e).
  { intros e He. pose proof (v_lb p I e He). destruct (L e) as [L1 [L2|[_ L2]]]; [lia|]. specialize (Bd e He). lia. }
  split; [|split; [exact FU|]; split; [exact Bd|]].
  - constructor; cbn [p_infeasible p_knees p_lb]; auto. intros v Hv. apply (in_mem K) in Hv. apply M in Hv as [(y & Hy & Sy)|(N1 & N2 & c & Hc & Ec & R)].
    + destruct (v_knees p I y Hy) as (c & Hc & A1 & A2). exists c. split; [exact Hc|]. destruct Hc as [Hc _]. split; [rewrite Sy by exact Hc; exact A1|]. intros e He Ne. rewrite Sy by exact He. apply A2; assumption.
    + exists c. split; [apply buffers_resizable; exact Hc|]. split; [|exact R]. apply buffers_incl in Hc. specialize (B c Hc). destruct (Z.eq_dec (quantity v c) (quantity a c)) as [X|X]; [|lia]. exfalso. apply N1. intros e He. destruct (Z.eq_dec e c) as [->|Ne]; [exact X|apply R; assumption].
  - cbn [p_knees]. intros N X. destruct (flat (p_knees p)) as [|v l] eqn:Ek; [contradiction|]. assert (Mv : mem k2 v) by (apply M; left; apply in_mem; rewrite Ek; left; reflexivity). destruct Mv as (y & Hy & _). rewrite X in Hy. destruct Hy.
Qed.

Lemma double_ok : forall es d, valid d -> exists d', double buffers es d = Ok d' /\ valid d'.
Proof.
  induction es as [|e es IH]; intros d V; cbn [double]; [eauto|]. destruct (existsb (Z.eqb e) buffers) eqn:X; [|apply IH; exact V]. apply existsb_exists in X as (y & Hy & Y). apply Z.eqb_eq in Y as ->. apply buffers_incl in Hy.
  rewrite get_quantity_in by (rewrite (valid_edges K _ V); exact Hy). cbn [bind]. apply IH. apply set_quantity_valid; auto.
Qed.
Lemma set_thr_valid t d : valid d -> valid (set_thr t d).
Proof. intros [A B C]. constructor; auto. Qed.

Lemma reach_ok kfuel thr critical bounded target : forall fuel d current p d' t p', valid d -> inv p -> (started p \/ (flat (p_infeasible p) = [] /\ d = a)) ->
  reach kfuel thr critical bounded buffers target fuel d current p = Ok (d', t, p') -> valid d' /\ inv p' /\ ((d' = d /\ p' = p) \/ started p').
Proof.
  induction fuel as [|f IH]; intros d current p d' t p' V I S; cbn [reach]; destruct (negb (Qle_bool target current)); try discriminate.
  - intros E. injection E as -> _ ->. auto.
  - destruct (handle_ok kfuel bounded (critical d) d sds_empty p V (wf_empty K) I S) as [->|(p1 & -> & I1 & S1 & _)]; cbn [bind]; [discriminate|]. destruct (double_ok (critical d) d V) as (d1 & -> & V1). cbn [bind]. intros E.
    destruct (IH _ _ _ _ _ _ (set_thr_valid _ _ V1) I1 (or_introl S1) E) as (A & B & [[_ ->]|C]); auto.
  - intros E. injection E as -> _ ->. auto.
Qed.

Lemma half_step_ok lb kmin smin : valid kmin -> valid smin -> forall cs step acc, incl cs K -> valid acc -> exists r, half_step cs lb kmin smin step acc = Ok r /\ valid (snd r).
Proof.
  intros Vk Vs. induction cs as [|c cs IH]; intros step acc I V; cbn [half_step]; [eexists; split; [reflexivity|exact V]|]. assert (Hc : In c K) by (apply I; left; reflexivity).
  rewrite !get_quantity_in by (rewrite ?(valid_edges K _ V), ?(valid_edges K _ Vk), ?(valid_edges K _ Vs); exact Hc). cbn [bind]. apply IH; [intros z Hz; apply I; right; exact Hz|apply set_quantity_valid; auto].
Qed.
Lemma stretch_ok lb step mult : forall cs acc d, incl cs K -> valid acc -> stretch cs lb step mult acc = Ok d -> valid d.
Proof.
  induction cs as [|c cs IH]; intros acc d I V; cbn [stretch]; [intros E; injection E as <-; exact V|]. assert (Hc : In c K) by (apply I; left; reflexivity).
  rewrite get_quantity_in by (rewrite (valid_edges K _ V); exact Hc). cbn [bind]. apply IH; [intros z Hz; apply I; right; exact Hz|apply set_quantity_valid; auto].
Qed.
Definition sel_ok (c : selection) : Prop := valid (se_point c) /\ se_init c = true /\ valid (se_kmin c).
Lemma select_half_ok p F c c' : wf F -> inv p -> select_half buffers p F c = Ok c' -> sel_ok c' /\ flat (p_knees p) <> [].
Proof.
  intros WF I. unfold select_half. destruct (get_next_ok K (p_knees p) (v_wk p I)) as [G1 G2]. destruct (flat (p_knees p)) as [|k ks] eqn:Ek; [rewrite G1 by reflexivity; discriminate|]. destruct G2 as (kmin & -> & Hk & _); [discriminate|]. cbn [bind].
  assert (Vk : valid kmin) by (apply (wf_valid K (p_knees p) kmin (v_wk p I)); rewrite Ek; exact Hk).
  destruct (get_next_ok K F WF) as [F1 F2]. destruct (flat F) as [|f fs] eqn:Ef; [rewrite F1 by reflexivity; discriminate|]. destruct F2 as (smin & -> & Hs & _); [discriminate|]. cbn [bind].
  assert (Vs : valid smin) by (apply (wf_valid K F smin WF); rewrite Ef; exact Hs).
  destruct (half_step_ok (p_lb p) kmin smin Vk Vs buffers (se_step c) kmin buffers_incl Vk) as (r & -> & Vr). cbn [bind].
  destruct (do b <- back_or_in (snd r) (p_lb p) (p_infeasible p); if b then Ok true else fore_or_in (snd r) F) as [b| | |]; cbn [bind]; try discriminate. intros E. injection E as <-. split; [|discriminate]. split; [exact Vr|]. split; [reflexivity|exact Vk].
Qed.
Lemma select_new_ok p F current target c c' : wf F -> inv p -> (sel_ok c /\ flat (p_knees p) <> [] \/ se_init c = false) -> select_new buffers p F current target c = Ok c' -> sel_ok c' /\ flat (p_knees p) <> [].
Proof.
  intros WF I C. unfold select_new. destruct C as [[(V1 & V2 & V3) N]| ->]; [|cbn [andb]; apply select_half_ok; assumption]. rewrite V2. cbn [andb]. destruct (negb (Qle_bool target current)); [|apply select_half_ok; assumption].
  destruct (stretch buffers (p_lb p) (se_step c) (se_mult c * 2) (se_kmin c)) as [d| | |] eqn:E; cbn [bind]; try discriminate. apply stretch_ok in E; [|exact buffers_incl|exact V3].
  destruct (fore_or_in d F) as [b| | |]; cbn [bind]; try discriminate. destruct b; [apply select_half_ok; assumption|]. intros X. injection X as <-. split; [split; [exact E|auto]|exact N].
Qed.

Lemma refine_ok kfuel thr critical bounded target : forall fuel c p F r, wf F -> antichain K F -> inv p -> started p -> sel_ok c -> flat (p_knees p) <> [] ->
  refine kfuel thr critical bounded buffers target fuel c p F = Ok r -> exists v ch, flat r = [v] /\ resizable K ch /\ one_less K a ch v.
Proof.
  induction fuel as [|f IH]; intros c p F r WF AF I S C N; cbn [refine].
  all: assert (G : forall r, Ok (p_knees p) = Ok r -> exists v ch, flat r = [v] /\ resizable K ch /\ one_less K a ch v)
    by (intros r0 E; injection E as <-; destruct (flat (p_knees p)) as [|v l] eqn:Ek; [contradiction|]; pose proof (v_few p I) as L; pose proof (v_knees p I v) as Q; rewrite Ek in L, Q; destruct l; [|cbn in L; lia]; destruct (Q (or_introl eq_refl)) as (ch & A & B); exists v, ch; auto).
  all: destruct (se_found c); [apply G|]; try discriminate.
  destruct C as (V1 & V2 & V3). pose proof (set_thr_valid (clamp (thr (se_point c))) _ V1) as Vd.
  destruct (negb (Qle_bool target (clamp (thr (se_point c))))).
  - destruct (handle_ok kfuel bounded (critical (se_point c)) _ F p Vd WF I (or_introl S)) as [->|(p1 & -> & I1 & S1 & _ & N1)]; cbn [bind fst snd]; [discriminate|].
    destruct (select_new buffers p1 F (clamp (thr (se_point c))) target c) as [c1| | |] eqn:E; cbn [bind]; try discriminate.
    destruct (select_new_ok p1 F _ target c c1 WF I1 (or_introl (conj (conj V1 (conj V2 V3)) (N1 N))) E) as [C1 N2]. apply IH; auto.
  - destruct (update_feasible_ok K _ F Vd WF AF) as (F1 & -> & WF1 & AF1 & _). cbn [bind fst snd].
    destruct (select_new buffers p F1 (clamp (thr (se_point c))) target c) as [c1| | |] eqn:E; cbn [bind]; try discriminate.
    destruct (select_new_ok p F1 _ target c c1 WF1 I (or_introl (conj (conj V1 (conj V2 V3)) N)) E) as [C1 N2]. apply IH; auto.
Qed.
End Run.

Lemma start_bounds_ok : forall es d lb, incl es K -> NoDup es -> valid d -> exists lb', start_bounds es d lb = Ok lb' /\ forall e, In e es -> bound_of lb' e = quantity d e - 1.
Proof.
  assert (G : forall es d lb, incl es K -> NoDup es -> valid d -> exists lb', start_bounds es d lb = Ok lb' /\ forall e, bound_of lb' e = if existsb (Z.eqb e) es then quantity d e - 1 else bound_of lb e).
  { induction es as [|x es IH]; intros d lb I Nd V; cbn [start_bounds]; [exists lb; split; reflexivity|]. inversion Nd as [|? ? Nx Nd']; subst. assert (Hx : In x K) by (apply I; left; reflexivity).
    rewrite get_quantity_in by (rewrite (valid_edges K _ V); exact Hx). cbn [bind]. destruct (IH (set_quantity x (quantity d x - 1) d) (put_bound x (quantity d x - 1) lb)) as (lb' & -> & B); [intros z Hz; apply I; right; exact Hz|exact Nd'|apply set_quantity_valid; auto|].
    exists lb'. split; [reflexivity|]. intros e. rewrite B, (set_quantity_quantity K HK) by exact V. rewrite put_bound_of. cbn [existsb]. destruct (Z.eqb_spec e x) as [->|N]; cbn [orb]; [|reflexivity].
    destruct (existsb (Z.eqb x) es) eqn:X; [|reflexivity]. apply existsb_exists in X as (y & Hy & Y). apply Z.eqb_eq in Y as ->. contradiction. }
  intros es d lb I Nd V. destruct (G es d lb I Nd V) as (lb' & E & B). exists lb'. split; [exact E|]. intros e He. rewrite B. replace (existsb (Z.eqb e) es) with true; [reflexivity|]. symmetry. apply existsb_exists. exists e. split; [exact He|apply Z.eqb_refl].
Qed.
Lemma start_inv a : valid a -> exists lb, start_bounds (get_edges a) a [] = Ok lb /\ (forall e, In e K -> bound_of lb e = quantity a e - 1) /\ inv a (mkPoints sds_empty sds_empty lb).
Proof.
  intros V. rewrite (valid_edges K _ V). destruct (start_bounds_ok K a [] (incl_refl K) (sorted_nodup K HK) V) as (lb & E & B). exists lb. split; [exact E|]. split; [exact B|].
  constructor; cbn [p_infeasible p_knees p_lb]; [apply wf_empty|apply wf_empty| |intros v []|cbn; lia]. intros e He. rewrite B by exact He. lia.
Qed.
End Over.
