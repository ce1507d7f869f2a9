(** The cleaning step, and the value obtained with the code's own solver. *)
From Coq Require Import QArith Qabs Lqa Permutation ZifyNat.
From Verif Require Import Base Graph Commons KPeriodic ScheduleSpec KPeriodicSpec KPeriodicGraph EventGraph EventGraphSpec EventGraphProofs
  KPeriodicEnd KPeriodicProps KIterSpec SimSpec Howard HowardProofs HowardTotal HowardFinal PeriodicSpec Degroote DegrooteSpec DegrooteProofs.
Open Scope Z_scope.

(** * Circuits survive the cleaning *)
Lemma path_split l1 : forall u c l2 v, path u (l1 ++ c :: l2) v -> path u l1 (c_source c) /\ path (c_target c) l2 v.
Proof.
  induction l1 as [|x l1 IH]; cbn; intros u c l2 v H; [destruct H as [-> H]; auto|]. destruct H as [A B]. destruct (IH _ _ _ _ B). auto.
Qed.
Lemma path_last l : forall u v, path u l v -> l = [] /\ u = v \/ exists c, In c l /\ c_target c = v.
Proof.
  induction l as [|x l IH]; cbn; intros u v H; [auto|]. right. destruct H as [_ H]. destruct (IH _ _ H) as [[-> E]|(c & I & E)]; [exists x|exists c]; auto.
Qed.
Lemma path_first l : forall u v, path u l v -> l = [] /\ u = v \/ exists c, In c l /\ c_source c = u.
Proof. destruct l as [|x l]; cbn; intros u v H; [auto|]. right. exists x. tauto. Qed.
Lemma circuit_next cs l c : circuit cs l -> In c l -> exists c', In c' l /\ c_source c' = c_target c.
Proof.
  intros (Ne & _ & u & P) I. apply in_split in I as (l1 & l2 & ->). destruct (path_split l1 u c l2 u P) as [P1 P2].
  destruct (path_first l2 _ _ P2) as [[-> E]|(c' & I & E)]; [|exists c'; split; [apply in_app_iff; right; right; exact I|exact E]].
  rewrite E. destruct (path_first (l1 ++ [c]) u u P) as [[X _]|(c' & I & E')]; [destruct l1; discriminate|]. exists c'. auto.
Qed.
Lemma circuit_prev cs l c : circuit cs l -> In c l -> exists c', In c' l /\ c_target c' = c_source c.
Proof.
  intros (Ne & _ & u & P) I. apply in_split in I as (l1 & l2 & ->). destruct (path_split l1 u c l2 u P) as [P1 P2].
  destruct (path_last l1 _ _ P1) as [[-> E]|(c' & I & E)]; [|exists c'; split; [apply in_app_iff; left; exact I|exact E]].
  rewrite <- E. destruct (path_last ([] ++ c :: l2) u u P) as [[X _]|(c' & I & E')]; [discriminate|]. exists c'. auto.
Qed.

Lemma circuit_incl cs cs' l : incl cs cs' -> circuit cs l -> circuit cs' l.
Proof. intros I (Ne & J & P). split; [assumption|]. split; [intros c X; apply I, J, X|exact P]. Qed.
Definition kept (e : event) (cs : list constraint) : list constraint :=
  filter (fun c => negb (event_eqb (c_source c) e || event_eqb (c_target c) e)) cs.
Lemma kept_circuit e cs l : xorb (existsb (fun c => event_eqb (c_source c) e) cs) (existsb (fun c => event_eqb (c_target c) e) cs) = true ->
  circuit cs l -> circuit (kept e cs) l.
Proof.
  intros X C. pose proof C as (Ne & I & P). split; [assumption|]. split; [|exact P]. intros c J. apply filter_In. split; [apply I, J|].
  assert (Out : forall x, In x l -> c_source x = e -> existsb (fun c => event_eqb (c_source c) e) cs = true).
  { intros x K E. apply existsb_exists. exists x. split; [apply I, K|apply event_eqb_eq, E]. }
  assert (Inn : forall x, In x l -> c_target x = e -> existsb (fun c => event_eqb (c_target c) e) cs = true).
  { intros x K E. apply existsb_exists. exists x. split; [apply I, K|apply event_eqb_eq, E]. }
  assert (No : c_source c <> e /\ c_target c <> e).
  { split; intros E.
    - destruct (circuit_prev cs l c C J) as (c' & J' & E'). rewrite (Out c J E), (Inn c' J' ltac:(congruence)) in X. discriminate.
    - destruct (circuit_next cs l c C J) as (c' & J' & E'). rewrite (Inn c J E), (Out c' J' ltac:(congruence)) in X. discriminate. }
  destruct No as [N1 N2]. destruct (event_eqb (c_source c) e) eqn:E1; [apply event_eqb_eq in E1; congruence|].
  destruct (event_eqb (c_target c) e) eqn:E2; [apply event_eqb_eq in E2; congruence|]. reflexivity.
Qed.
Lemma pass_circuits evs : forall cs l, circuit (fst (clean_pass evs cs)) l <-> circuit cs l.
Proof.
  induction evs as [|e evs IH]; intros cs l; cbn [clean_pass]; [reflexivity|]. destruct (xorb _ _) eqn:X; cbn [fst]; rewrite IH; [|reflexivity].
  fold (kept e cs). split; [apply circuit_incl; intros c J; apply filter_In in J; tauto|apply kept_circuit; exact X].
Qed.
Lemma pass_incl evs : forall cs, incl (fst (clean_pass evs cs)) cs.
Proof.
  induction evs as [|e evs IH]; intros cs; cbn [clean_pass]; [intros c J; exact J|]. destruct (xorb _ _); cbn [fst]; [|apply IH].
  intros c J. apply IH in J. apply filter_In in J. tauto.
Qed.
Lemma kept_shorter e cs : xorb (existsb (fun c => event_eqb (c_source c) e) cs) (existsb (fun c => event_eqb (c_target c) e) cs) = true ->
  (length (kept e cs) < length cs)%nat.
Proof.
  intros X. assert (Ex : exists c, In c cs /\ (event_eqb (c_source c) e || event_eqb (c_target c) e) = true).
  { destruct (existsb (fun c => event_eqb (c_source c) e) cs) eqn:E1.
    - apply existsb_exists in E1 as (c & I & E). exists c. rewrite E. auto.
    - destruct (existsb (fun c => event_eqb (c_target c) e) cs) eqn:E2; [|discriminate]. apply existsb_exists in E2 as (c & I & E). exists c. rewrite E, orb_true_r. auto. }
  destruct Ex as (c & I & B). clear X. unfold kept. induction cs as [|x cs IH]; [destruct I|]. cbn [filter length].
  assert (Le : forall (f : constraint -> bool) l, (length (filter f l) <= length l)%nat) by (intros f l; induction l as [|y l IHl]; cbn; [lia|]; destruct (f y); cbn; lia).
  destruct I as [->|I].
  - rewrite B. cbn [negb]. specialize (Le (fun c => negb (event_eqb (c_source c) e || event_eqb (c_target c) e)) cs). lia.
  - specialize (IH I). destruct (negb _); cbn [length]; lia.
Qed.
Lemma pass_length evs : forall cs, (length (fst (clean_pass evs cs)) + snd (clean_pass evs cs) <= length cs)%nat.
Proof.
  induction evs as [|e evs IH]; intros cs; cbn [clean_pass fst snd]; [lia|]. destruct (xorb _ _) eqn:X; cbn [fst snd]; [|apply IH].
  fold (kept e cs). specialize (IH (kept e cs)). pose proof (kept_shorter e cs X). lia.
Qed.
Lemma pass_zero evs : forall cs, snd (clean_pass evs cs) = 0%nat -> fst (clean_pass evs cs) = cs /\
  forall e, In e evs -> ((exists c, In c cs /\ c_source c = e) <-> (exists c, In c cs /\ c_target c = e)).
Proof.
  induction evs as [|e evs IH]; intros cs; cbn [clean_pass fst snd]; [split; [reflexivity|intros e []]|]. destruct (xorb _ _) eqn:X; cbn [fst snd]; [discriminate|].
  intros H. destruct (IH cs H) as [A B]. split; [assumption|]. intros e' [<-|I]; [|apply B, I].
  apply xorb_eq in X. assert (R : forall f : constraint -> event, existsb (fun c => event_eqb (f c) e) cs = true <-> exists c, In c cs /\ f c = e).
  { intros f. rewrite existsb_exists. split; intros (c & J & E); exists c; (split; [exact J|]); apply event_eqb_eq; exact E. }
  rewrite <- !R, X. reflexivity.
Qed.
Lemma clean_spec evs : forall fuel cs, (length cs < fuel)%nat -> exists cs', clean_lcg fuel evs cs = Ok cs' /\ incl cs' cs /\ (forall l, circuit cs' l <-> circuit cs l) /\
  (forall e, In e evs -> ((exists c, In c cs' /\ c_source c = e) <-> (exists c, In c cs' /\ c_target c = e))).
Proof.
  induction fuel as [|fuel IH]; intros cs L; [lia|]. cbn [clean_lcg]. pose proof (pass_length evs cs) as PL. destruct (snd (clean_pass evs cs) =? 0)%nat eqn:Z.
  - apply Nat.eqb_eq in Z. destruct (pass_zero evs cs Z) as [E B]. rewrite E. exists cs. split; [reflexivity|]. split; [intros c J; exact J|]. split; [reflexivity|exact B].
  - apply Nat.eqb_neq in Z. destruct (IH (fst (clean_pass evs cs)) ltac:(lia)) as (cs' & E & I & C & B). exists cs'. split; [exact E|].
    split; [intros c J; apply (pass_incl evs cs), I, J|]. split; [|exact B]. intros l. rewrite C. apply pass_circuits.
Qed.
Lemma maximum_circuits cs cs' r : (forall l, circuit cs' l <-> circuit cs l) -> exact_maximum cs r -> exact_maximum cs' r.
Proof. intros C (A & B & D & E). split; [apply C, A|]. split; [assumption|]. split; [assumption|]. intros l X. apply E, C, X. Qed.

(** * With Howard's algorithm as the solver *)
Section Own.
Variables (g : graph) (N : nat -> Z).
Hypothesis Hwf : graph_wf g.
Hypothesis Hbal : balanced g N.
Hypothesis Hni : no_init g.
Hypothesis Hsdf : sdf g.
Hypothesis Hone : single_server g.
Hypothesis Hcyc : whole_cycles g N.
Hypothesis Hpos : positive_durations g.
Hypothesis Hne : vertices g <> [].

Lemma delays_nonneg cs c : generate_lcg g N = Ok cs -> In c cs -> (0 <= c_d c)%Q /\ (0 < c_w c)%Q.
Proof using All.
  intros H I.
  assert (Tp : forall i v t, nth_error (vertices g) i = Some v -> v_durations v = [t] -> (0 < t)%Q).
  { intros i v t E T. apply (Hpos v t (nth_error_In _ _ E)). rewrite T. left. reflexivity. }
  assert (D : forall x Ni, 0 < Ni -> x <= Ni -> (0 <= inject_Z (- ((x - 1) / Ni)))%Q).
  { intros x Ni P L. change 0%Q with (inject_Z 0). rewrite <- Zle_Qle. assert ((x - 1) / Ni < 1) by (apply Z.div_lt_upper_bound; lia). lia. }
  apply (lcg_in g N cs H) in I as [(i & v & l & E & L & J)|(e & l & I & L & J)].
  - destruct (task_shape g Hwf Hni Hsdf Hone i v E) as (t & T & _). rewrite (task_ok g N Hwf Hni Hsdf Hone i v t E T) in L. pose proof (N_pos g N Hcyc i v E).
    apply (channel_in _ _ _ _ _ 1 1 1 t ltac:(lia) H0 H0 ltac:(lia) ltac:(lia) l c L) in J as (j & J & ->). cbn [c_d c_w]. split; [|apply (Tp i v t E T)].
    apply D; [assumption|]. apply (need_le 0 0 0 (N i) (N i) 1 1 1 t); lia.
  - destruct (edge_shape g N Hwf Hbal Hni Hsdf e I) as (vs & vd & a & b & Vs & Vd & A & B & Pa & Pb & Pm & Bl & _).
    destruct (task_shape g Hwf Hni Hsdf Hone _ vd Vd) as (td & Td & _).
    rewrite (edge_ok g N e vs vd td Vs Vd Td), A, B in L. pose proof (N_pos g N Hcyc _ _ Vs) as P1. pose proof (N_pos g N Hcyc _ _ Vd) as P2.
    apply (channel_in _ _ _ _ _ a b (e_preload e) td Pa P1 P2 Pm Bl l c L) in J as (j & J & ->). cbn [c_d c_w]. split; [|apply (Tp _ vd td Vd Td)].
    apply D; [assumption|]. apply (need_le 0 0 0 (N (e_src e)) (N (e_dst e)) a b (e_preload e) td); try assumption; lia.
Qed.
Lemma sums_nonneg cs l : generate_lcg g N = Ok cs -> circuit cs l -> (0 <= sumQ c_d l)%Q /\ (0 < sumQ c_w l)%Q.
Proof using All.
  intros H (Ne & I & _). assert (G : forall l', incl l' cs -> (0 <= sumQ c_d l')%Q /\ (0 <= sumQ c_w l')%Q).
  { induction l' as [|c l' IH]; intros J; [unfold sumQ; cbn; lra|]. rewrite !sumQ_cons. destruct (delays_nonneg cs c H (J c (or_introl eq_refl))).
    destruct IH; [intros x X; apply J; right; exact X|]. lra. }
  destruct l as [|c l]; [congruence|]. rewrite !sumQ_cons. destruct (delays_nonneg cs c H (I c (or_introl eq_refl))). destruct (G l); [intros x X; apply I; right; exact X|]. lra.
Qed.
Lemma fits_positive cs omega : generate_lcg g N = Ok cs -> fits cs omega -> (0 < omega)%Q.
Proof using All.
  intros H F. destruct (proj2 (lcg_exact g N Hwf Hbal Hni Hsdf Hone Hcyc cs omega H) F) as (s & P & V).
  destruct (vertices g) as [|v vs] eqn:Ev; [congruence|]. assert (E : nth_error (vertices g) 0 = Some v) by (rewrite Ev; reflexivity).
  destruct (task_shape g Hwf Hni Hsdf Hone 0%nat v E) as (t & T & _ & _ & D & _). pose proof (N_pos g N Hcyc _ _ E) as Np.
  assert (Tp : (0 < t)%Q) by (apply (Hpos v t (nth_error_In _ _ E)); rewrite T; left; reflexivity).
  pose proof (n_periodic g N Hwf Hni Hsdf Hone Hcyc s omega P 0%nat v E 0%nat) as Pe. cbn [Nat.add] in Pe.
  assert (G : forall k, (0 < k)%nat -> (s 0%nat 0%nat + t <= s 0%nat k)%Q).
  { pose proof (proj2 V 0%nat v E) as Se. induction k as [|k IH]; [lia|]. intros _. specialize (Se k). unfold start_of in Se. rewrite D in Se.
    destruct k as [|k]; [exact Se|]. specialize (IH ltac:(lia)). lra. }
  specialize (G (Z.to_nat (N 0%nat)) ltac:(lia)). lra.
Qed.
Lemma bound_nonpos eps evs cs : (0 <= eps)%Q -> (mcr_bound Maximum eps evs cs <= 0)%Q.
Proof using.
  intros E. rewrite bound_eq. pose proof (shortest_pos eps evs cs E) as P. set (z := shortest eps evs cs) in *.
  assert (S0 : (0 <= total_weight evs cs)%Q).
  { unfold total_weight. generalize (flat_map (out_edges cs) evs). intros L. induction L as [|c L IH]; [rewrite sumQ_nil; lra|]. rewrite sumQ_cons. pose proof (Qabs_nonneg (c_w c)). lra. }
  assert (0 <= total_weight evs cs / z)%Q by (apply Qle_shift_div_l; lra). cbn [multiplier]. lra.
Qed.
Lemma own_maximum cs q : generate_lcg g N = Ok cs -> max_cycle_ratio 0 (lcg_events g N) cs = Ok q -> r_settled q = true ->
  exists v, r_value q = Some v /\ (0 < v)%Q /\ exact_maximum cs (v, r_cycle q).
Proof using All.
  intros H R ST. pose proof (lcg_closed g N Hwf Hbal Hni Hsdf Hone Hcyc cs H) as CL.
  destruct (ocr_spec Maximum 0 None _ cs q CL R) as (v & At & Le & V & Cert). specialize (Cert ST). cbv beta zeta in *.
  assert (F : fits cs v). { intros l C. specialize (Cert l C). unfold multiplier, improve_ratio in Cert. lra. }
  pose proof (fits_positive cs v H F) as Pv. exists v.
  pose proof (bound_nonpos 0 (lcg_events g N) cs (Qle_refl 0)) as Bn. split; [|split; [assumption|]].
  - rewrite V. destruct (better Maximum v _) eqn:B; [|reflexivity]. apply better_true in B. exfalso. cbn [multiplier] in B. lra.
  - destruct At as [[-> _]|(A1 & A2 & A3)]; [lra|]. split; [exact A1|]. cbn [fst snd]. split; [|split; [exact A3|exact F]].
    destruct (sums_nonneg cs _ H A1) as [S1 _]. destruct (Qlt_le_dec 0 (sumQ c_d (r_cycle q))); [assumption|]. exfalso. apply A2. apply Qle_antisym; assumption.
Qed.
(** The solver answers on every graph that has a schedule. *)
Lemma events_nodup : NoDup (lcg_events g N).
Proof using Hwf.
  clear Hne. unfold lcg_events. pose proof (proj2 (proj2 Hwf)) as ND. unfold indexed. generalize 0%nat as k. revert ND. induction (vertices g) as [|v l IH]; intros ND k; cbn [length seq combine flat_map]; [constructor|].
  cbn [map] in ND. inversion_clear ND as [|x y Nin ND']. assert (Z1 : forall b, NoDup (zrange 1 b)).
  { intros b. unfold zrange. apply FinFun.Injective_map_NoDup; [intros x y E; lia|apply seq_NoDup]. }
  assert (App : forall (l1 l2 : list event), NoDup l1 -> NoDup l2 -> (forall x, In x l1 -> ~ In x l2) -> NoDup (l1 ++ l2)).
  { induction l1 as [|x l1 IHl]; intros l2 N1 N2 Dj; [assumption|]. inversion_clear N1. cbn. constructor; [rewrite in_app_iff; intros [X|X]; [contradiction|apply (Dj x (or_introl eq_refl) X)]|].
    apply IHl; try assumption. intros z Z. apply Dj. right. exact Z. }
  apply App; [|apply IH; assumption|].
  - apply FinFun.Injective_map_NoDup; [intros x y E; congruence|apply Z1].
  - intros x I J. apply in_map_iff in I as (j & <- & _). apply in_flat_map in J as ((i & w) & I & J). apply in_map_iff in J as (j' & E & _). cbn in E.
    apply in_combine_r in I. apply Nin. apply in_map_iff. exists w. split; [congruence|exact I].
Qed.
Lemma own_answers cs eps s omega : generate_lcg g N = Ok cs -> schedule_valid g s -> non_zeno g s -> keeps_pace g N s omega ->
  exists q, max_cycle_ratio eps (lcg_events g N) cs = Ok q.
Proof using All.
  intros H V Z K. apply ocr_total_circuits; [apply events_nodup|apply (lcg_closed g N); assumption|]. intros l C E.
  destruct (sums_nonneg cs l H C) as [_ W].
  apply (lcg_deadlock g N Hwf Hbal Hni Hsdf Hone Hcyc cs l Hne H C E W s omega V Z K).
Qed.
End Own.
