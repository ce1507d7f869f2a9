(** Proofs about the expansion-based throughput. *)
From Coq Require Import QArith Lqa Znumtheory Permutation ZifyNat.
From Verif Require Import Base Graph Commons CommonsProofs KPeriodic ScheduleSpec ScheduleCore KPeriodicSpec KPeriodicProofs KPeriodicGraph EventGraph EventGraphSpec EventGraphProofs
  KPeriodicEnd KPeriodicProps KIter KIterSpec KIterProofs KIterLoop KIterProps Periodic PeriodicSpec PeriodicProofs Degroote DegrooteSpec.
Open Scope Z_scope.

(** * The required producer execution *)
Definition need (a b m : Z) (j : Z) : Z := - ((- (j * b - m)) / a).
Lemma need_spec a b m j : 0 < a -> (need a b m j - 1) * a < j * b - m <= need a b m j * a.
Proof. intros H. unfold need. pose proof (Z.div_mod (- (j * b - m)) a ltac:(lia)). pose proof (Z.mod_pos_bound (- (j * b - m)) a H). nia. Qed.
Lemma need_unique a b m j p : 0 < a -> (p - 1) * a < j * b - m <= p * a -> p = need a b m j.
Proof. intros H E. pose proof (need_spec a b m j H). nia. Qed.
Lemma need_shift a b m j Ni Nj q : 0 < a -> a * Ni = b * Nj -> need a b m (j + q * Nj) = need a b m j + q * Ni.
Proof.
  intros H B. symmetry. apply need_unique; [assumption|]. pose proof (need_spec a b m j H).
  replace ((j + q * Nj) * b - m) with (j * b - m + q * (b * Nj)) by ring. rewrite <- B. nia.
Qed.

(** * Channels with one rate on each side *)
Section Rates.
Variables (m a b : Z) (pe cs : nat -> Q).
Hypothesis Ha : 0 < a.
Hypothesis Hb : 0 < b.
Hypothesis Hm : 0 <= m.
Hypothesis Mp : mono pe.
Hypothesis Mc : mono cs.
Lemma sumf_const x n : sumf (fun _ => x) n = Z.of_nat n * x.
Proof using. induction n; cbn [sumf]; [lia|]. rewrite IHn. lia. Qed.
Definition waits : Prop := forall f, 1 <= need a b m (Z.of_nat f + 1) -> (pe (Z.to_nat (need a b m (Z.of_nat f + 1) - 1)) <= cs f)%Q.
Lemma waits_iff : never_negative m pe (fun _ => a) cs (fun _ => b) <-> waits.
Proof using All.
  split.
  - intros NN f P. pose proof (need_spec a b m (Z.of_nat f + 1) Ha) as S. set (p := need a b m (Z.of_nat f + 1)) in *.
    apply Qnot_lt_le. intros L. destruct (NN (cs f) (Datatypes.S f)) as (np & H).
    rewrite (moved_all cs (fun _ => b)) in H by (intros k K; apply (mono_le cs Mc); lia). rewrite sumf_const in H.
    pose proof (moved_prefix_le pe (fun _ => a) np (Z.to_nat (p - 1)) (cs f) ltac:(intros; lia)) as U.
    rewrite sumf_const in U. assert (moved_by pe (fun _ => a) np (cs f) <= Z.of_nat (Z.to_nat (p - 1)) * a).
    { apply U. intros k K Le. pose proof (mono_le pe Mp (Z.to_nat (p - 1)) k ltac:(lia)). lra. }
    nia.
  - intros W. apply useful_ordered_sufficient; try assumption.
    + intros; lia.
    + intros; lia.
    + intros x. exists (Z.to_nat (Z.max 0 x)). rewrite sumf_const. nia.
    + intros e f U. unfold useful in U. rewrite !sumf_const in U.
      assert (E : Z.of_nat e + 1 = need a b m (Z.of_nat f + 1)) by (apply need_unique; [assumption|]; nia).
      specialize (W f). rewrite <- E in W. replace (Z.to_nat (Z.of_nat e + 1 - 1)) with e in W by lia. apply W. lia.
Qed.
End Rates.

(** * One group of constraints *)
Definition holds (omega : Q) (S : event -> Q) (c : constraint) : Prop :=
  (S (c_source c) + c_w c - omega * c_d c <= S (c_target c))%Q.

Lemma collect_ok {A B} (f : B -> outcome (list A)) (l : list B) : (forall x, In x l -> exists y, f x = Ok y) -> exists r, collect (map f l) = Ok r.
Proof.
  induction l as [|x l IH]; intros H; [eexists; reflexivity|]. cbn [map collect]. destruct (H x (or_introl eq_refl)) as (y & ->).
  destruct IH as (r & ->); [intros z I; apply H; right; exact I|]. cbn. eauto.
Qed.
Lemma collect_in {A B} (f : B -> outcome (list A)) (l : list B) r : collect (map f l) = Ok r ->
  forall z, In z r <-> exists x y, In x l /\ f x = Ok y /\ In z y.
Proof.
  revert r. induction l as [|x l IH]; cbn [map collect]; intros r H z; [injection H as <-; split; [intros []|intros (x & _ & [] & _)]|].
  destruct (f x) as [h| | |] eqn:E; cbn [bind] in H; try discriminate. destruct (collect (map f l)) as [t| | |] eqn:E2; cbn [bind] in H; try discriminate.
  injection H as <-. rewrite in_app_iff, (IH t eq_refl). split.
  - intros [I|(u & y & I & F & J)]; [exists x, h|exists u, y]; cbn; auto.
  - intros (u & y & [<-|I] & F & J); [left; congruence|right; eauto].
Qed.

Section Group.
Variables (src dst id Ni Nj a b m : Z) (tj : Q).
Hypothesis Ha : 0 < a.
Hypothesis HNi : 0 < Ni.
Hypothesis HNj : 0 < Nj.
Hypothesis Hm : 0 <= m.
Hypothesis Hbal : a * Ni = b * Nj.

Lemma need_le j : j <= Nj -> need a b m j <= Ni.
Proof using All. intros L. pose proof (need_spec a b m j Ha). assert (0 < b) by nia. nia. Qed.

Lemma constraint_ok j : lcg_constraint src dst id Ni a b m tj j =
  Ok (mkConstraint (mkEvent src 1 ((need a b m j - 1) mod Ni + 1)) (mkEvent dst 1 j) tj (inject_Z (- ((need a b m j - 1) / Ni))) id).
Proof using All.
  unfold lcg_constraint, ceil_div, floor_div. destruct (Z.eqb_spec a 0) as [->|_]; [lia|]. cbn [bind]. fold (need a b m j).
  destruct (Z.eqb_spec Ni 0) as [->|_]; [lia|]. rewrite modulo_is_Zmod by lia. cbn [bind]. reflexivity.
Qed.
Lemma channel_ok : exists cs, lcg_channel src dst id Ni Nj a b m tj = Ok cs.
Proof using All. apply collect_ok. intros j _. rewrite constraint_ok. cbn. eauto. Qed.
Lemma channel_in cs c : lcg_channel src dst id Ni Nj a b m tj = Ok cs -> (In c cs <-> exists j, 1 <= j <= Nj /\
  c = mkConstraint (mkEvent src 1 ((need a b m j - 1) mod Ni + 1)) (mkEvent dst 1 j) tj (inject_Z (- ((need a b m j - 1) / Ni))) id).
Proof using All.
  intros H. rewrite (collect_in _ _ _ H c). split.
  - intros (j & y & I & F & J). rewrite constraint_ok in F. cbn in F. injection F as <-. destruct J as [<-|[]]. apply zrange_in in I. eauto.
  - intros (j & I & ->). exists j. eexists. split; [apply zrange_in; exact I|]. rewrite constraint_ok. split; [reflexivity|left; reflexivity].
Qed.

Variables (omega ti : Q) (si sj : nat -> Q) (S : event -> Q).
Hypothesis Pi : forall k, (si (k + Z.to_nat Ni)%nat == si k + omega)%Q.
Hypothesis Pj : forall k, (sj (k + Z.to_nat Nj)%nat == sj k + omega)%Q.
Hypothesis Si : forall k, 1 <= k <= Ni -> (S (mkEvent src 1 k) == si (Z.to_nat (k - 1)) + ti)%Q.
Hypothesis Sj : forall k, 1 <= k <= Nj -> (S (mkEvent dst 1 k) == sj (Z.to_nat (k - 1)) + tj)%Q.

Lemma group_iff cs : lcg_channel src dst id Ni Nj a b m tj = Ok cs ->
  ((forall c, In c cs -> holds omega S c) <-> waits m a b (fun k => si k + ti)%Q sj).
Proof using All.
  intros H. split.
  - intros A f P. set (j := Z.of_nat f mod Nj + 1). set (q := Z.of_nat f / Nj).
    assert (J : 1 <= j <= Nj) by (unfold j; pose proof (Z.mod_pos_bound (Z.of_nat f) Nj HNj); lia).
    assert (Q0 : 0 <= q) by (apply Z.div_pos; lia).
    assert (Ef : Z.of_nat f + 1 = j + q * Nj) by (unfold j, q; pose proof (Z.div_mod (Z.of_nat f) Nj ltac:(lia)); lia).
    rewrite Ef in *. rewrite (need_shift a b m j Ni Nj q Ha Hbal) in *. set (p := need a b m j) in *.
    set (r := (p - 1) mod Ni). set (d := (p - 1) / Ni). assert (R : 0 <= r < Ni) by (apply Z.mod_pos_bound; assumption).
    assert (Ep : p - 1 = d * Ni + r) by (unfold d, r; pose proof (Z.div_mod (p - 1) Ni ltac:(lia)); lia).
    assert (D : 0 <= q + d) by nia.
    specialize (A _ (proj2 (channel_in cs _ H) (ex_intro _ j (conj J eq_refl)))). unfold holds in A. cbn [c_source c_target c_w c_d] in A.
    fold p r d in A. rewrite (Si (r + 1)) in A by lia. rewrite (Sj j) in A by lia.
    replace (Z.to_nat (p + q * Ni - 1)) with (Z.to_nat (r + 1 - 1) + Z.to_nat (q + d) * Z.to_nat Ni)%nat by nia.
    replace f with (Z.to_nat (j - 1) + Z.to_nat q * Z.to_nat Nj)%nat by nia.
    rewrite (periodic_multiple si _ _ Pi), (periodic_multiple sj _ _ Pj). rewrite !Z2Nat.id by lia.
    rewrite inject_Z_opp in A. rewrite inject_Z_plus. set (x := si (Z.to_nat (r + 1 - 1))) in *. set (y := sj (Z.to_nat (j - 1))) in *.
    generalize dependent (inject_Z d). generalize dependent (inject_Z q). intros. lra.
  - intros W c I. apply (channel_in cs c H) in I as (j & J & ->). unfold holds. cbn [c_source c_target c_w c_d].
    pose proof (need_le j ltac:(lia)) as L. set (p := need a b m j) in *. set (r := (p - 1) mod Ni). set (d := (p - 1) / Ni).
    assert (R : 0 <= r < Ni) by (apply Z.mod_pos_bound; assumption).
    assert (Ep : p - 1 = d * Ni + r) by (unfold d, r; pose proof (Z.div_mod (p - 1) Ni ltac:(lia)); lia).
    assert (D : d <= 0) by nia. rewrite (Si (r + 1)), (Sj j) by lia.
    specialize (W (Z.to_nat (j - 1) + Z.to_nat (- d) * Z.to_nat Nj)%nat).
    assert (Ef : Z.of_nat (Z.to_nat (j - 1) + Z.to_nat (- d) * Z.to_nat Nj) + 1 = j + (- d) * Nj) by nia.
    rewrite Ef, (need_shift a b m j Ni Nj (- d) Ha Hbal) in W. fold p in W. replace (p + - d * Ni) with (r + 1) in W by lia.
    specialize (W ltac:(lia)). rewrite (periodic_multiple sj _ _ Pj) in W. rewrite Z2Nat.id in W by lia.
    set (x := si _) in *. set (y := sj _) in *. generalize dependent (inject_Z (- d)). intros. lra.
Qed.
End Group.

(** * The whole graph *)
Lemma never_negative_ext m pe pe' p p' cs c c' : (forall k, (pe k == pe' k)%Q) -> (forall k, p k = p' k) -> (forall k, c k = c' k) ->
  never_negative m pe p cs c <-> never_negative m pe' p' cs c'.
Proof.
  intros E P C. assert (X : forall np t, moved_by pe p np t = moved_by pe' p' np t).
  { intros np t. rewrite (moved_by_ext pe pe' p np t E). unfold moved_by. apply sumf_ext. intros k _. rewrite P. reflexivity. }
  assert (Y : forall n t, moved_by cs c n t = moved_by cs c' n t) by (intros n t; unfold moved_by; apply sumf_ext; intros k _; rewrite C; reflexivity).
  unfold never_negative. split; intros H t n; destruct (H t n) as (np & L); exists np; [rewrite <- X, <- Y|rewrite X, Y]; exact L.
Qed.
Lemma cyclic_one {A} (d x : A) k : cyclic d [] [x] k = x.
Proof. unfold cyclic. cbn [length Nat.ltb Nat.leb]. rewrite Nat.mod_1_r. reflexivity. Qed.
Lemma length_one {A} (l : list A) : length l = 1%nat -> exists x, l = [x].
Proof. destruct l as [|x [|]]; cbn; try discriminate. eauto. Qed.

Lemma serialised_iff (st : nat -> Q) (t : Q) : waits 1 1 1 (fun k => st k + t)%Q st <-> serialised st (fun _ => t).
Proof.
  assert (E : forall f, need 1 1 1 (Z.of_nat f + 1) = Z.of_nat f) by (intros f; symmetry; apply need_unique; lia).
  split.
  - intros W k. specialize (W (S k)). rewrite E in W. replace (Z.to_nat (Z.of_nat (S k) - 1)) with k in W by lia. apply W. lia.
  - intros Se f L. rewrite E in *. destruct f as [|f]; [lia|]. replace (Z.to_nat (Z.of_nat (S f) - 1)) with f by lia. apply Se.
Qed.

Section Graph.
Variables (g : graph) (N : nat -> Z).
Hypothesis Hwf : graph_wf g.
Hypothesis Hbal : balanced g N.
Hypothesis Hni : no_init g.
Hypothesis Hsdf : sdf g.
Hypothesis Hone : single_server g.
Hypothesis Hcyc : whole_cycles g N.

Lemma no_overlap_of : no_overlap g.
Proof using Hone. intros v I. rewrite (Hone v I). lia. Qed.
Lemma N_pos i v : nth_error (vertices g) i = Some v -> 0 < N i.
Proof using Hcyc. intros E. apply (Hcyc i v E). Qed.
Lemma task_shape i v : nth_error (vertices g) i = Some v -> exists t, v_durations v = [t] /\ (0 <= t)%Q /\ v_reentrancy v = 1 /\
  (forall k, exec_duration v k = t) /\ v_phases v = 1%nat /\ v_init_phases v = 0%nat.
Proof using Hwf Hni Hsdf Hone.
  intros E. pose proof (nth_error_In _ _ E) as I. destruct (proj1 Hwf v I) as (_ & L & Li & P). rewrite (Hsdf v I) in L. destruct (length_one _ L) as (t & T).
  exists t. split; [assumption|]. split; [apply P; rewrite T; left; reflexivity|]. split; [apply Hone, I|]. split; [|split; [apply Hsdf, I|apply Hni, I]].
  intros k. unfold exec_duration. rewrite (Hni v I) in Li. destruct (v_init_durations v); [|discriminate]. rewrite T. apply cyclic_one.
Qed.
Lemma edge_shape c : In c (edges g) -> exists vs vd a b, nth_error (vertices g) (e_src c) = Some vs /\ nth_error (vertices g) (e_dst c) = Some vd /\
  edge_in_total c = a /\ edge_out_total c = b /\ 0 < a /\ 0 < b /\ 0 <= e_preload c /\ a * N (e_src c) = b * N (e_dst c) /\
  (forall k, prod_rate c k = a) /\ (forall k, cons_rate c k = b).
Proof using Hwf Hbal Hni Hsdf.
  intros I. destruct (proj1 (proj2 Hwf) c I) as (vs & vd & Vs & Vd & L1 & L2 & L3 & L4 & _ & P1 & P2 & P3).
  pose proof (nth_error_In _ _ Vs) as Is. pose proof (nth_error_In _ _ Vd) as Id.
  rewrite (Hsdf vs Is) in L1. rewrite (Hsdf vd Id) in L2. rewrite (Hni vs Is) in L3. rewrite (Hni vd Id) in L4.
  destruct (length_one _ L1) as (a & A). destruct (length_one _ L2) as (b & B). pose proof (Hbal c I) as Bl.
  destruct (e_in_init c) eqn:E3; [|discriminate]. destruct (e_out_init c) eqn:E4; [|discriminate].
  rewrite A, B in *. cbn [sumZ fold_right length] in *.
  exists vs, vd, a, b. repeat (split; [assumption|]). unfold edge_in_total, edge_out_total, prod_rate, cons_rate. rewrite A, B, E3, E4.
  cbn [sumZ fold_right]. split; [lia|]. split; [lia|]. split; [lia|]. split; [lia|]. split; [lia|]. split; [lia|]. split; intros k; apply cyclic_one.
Qed.

Lemma indexed_in {A} (l : list A) iv : In iv (indexed l) <-> nth_error l (fst iv) = Some (snd iv).
Proof using.
  unfold indexed. assert (G : forall k, In iv (combine (seq k (length l)) l) <-> (k <= fst iv)%nat /\ nth_error l (fst iv - k) = Some (snd iv)).
  { induction l as [|x l IH]; intros k; cbn [length seq combine In].
    - split; [intros []|]. intros [_ H]. destruct (fst iv - k)%nat; discriminate.
    - rewrite IH. destruct iv as [i v]. cbn [fst snd]. split.
      + intros [[= <- <-]|[L H]]; [split; [lia|]; rewrite Nat.sub_diag; reflexivity|]. split; [lia|]. replace (i - k)%nat with (S (i - S k)) by lia. exact H.
      + intros [L H]. destruct (Nat.eq_dec i k) as [->|Ne]; [left; rewrite Nat.sub_diag in H; cbn in H; congruence|right].
        split; [lia|]. replace (i - k)%nat with (S (i - S k)) in H by lia. exact H. }
  rewrite (G 0%nat), Nat.sub_0_r. split; [intros [_ H]; exact H|]. intros H. split; [lia|exact H].
Qed.

Lemma task_ok i v t : nth_error (vertices g) i = Some v -> v_durations v = [t] ->
  lcg_task v (N i) = lcg_channel (v_id v) (v_id v) 0 (N i) (N i) 1 1 1 t.
Proof using Hwf Hni Hsdf Hone.
  intros E T. destruct (task_shape i v E) as (t' & T' & _ & R & _). unfold lcg_task, single_duration. rewrite R, T. reflexivity.
Qed.
Lemma edge_ok c vs vd t : nth_error (vertices g) (e_src c) = Some vs -> nth_error (vertices g) (e_dst c) = Some vd -> v_durations vd = [t] ->
  lcg_edge g N c = lcg_channel (v_id vs) (v_id vd) (e_id c) (N (e_src c)) (N (e_dst c)) (edge_in_total c) (edge_out_total c) (e_preload c) t.
Proof using. intros Vs Vd T. unfold lcg_edge, lookup_vertex, single_duration. rewrite Vs, Vd. cbn [bind]. rewrite T. reflexivity. Qed.

Lemma task_group i v : nth_error (vertices g) i = Some v -> exists cs, lcg_task v (N i) = Ok cs.
Proof using All.
  intros E. destruct (task_shape i v E) as (t & T & _). rewrite (task_ok i v t E T). pose proof (N_pos i v E). apply channel_ok; lia.
Qed.
Lemma edge_group c : In c (edges g) -> exists cs, lcg_edge g N c = Ok cs.
Proof using All.
  intros I. destruct (edge_shape c I) as (vs & vd & a & b & Vs & Vd & A & B & Pa & Pb & Pm & Bl & _). destruct (task_shape _ vd Vd) as (t & T & _).
  rewrite (edge_ok c vs vd t Vs Vd T), A, B. pose proof (N_pos _ _ Vs). pose proof (N_pos _ _ Vd). apply channel_ok; assumption.
Qed.
Lemma lcg_ok : exists cs, generate_lcg g N = Ok cs.
Proof using All.
  unfold generate_lcg. assert (forallb (fun v => (v_phases v =? 1)%nat) (vertices g) = true) as ->.
  { apply forallb_forall. intros v I. apply Nat.eqb_eq, Hsdf, I. }
  cbn [cassert bind].
  destruct (collect_ok (fun iv => lcg_task (snd iv) (N (fst iv))) (indexed (vertices g))) as (l1 & ->).
  { intros iv I. apply indexed_in in I. apply (task_group _ _ I). }
  destruct (collect_ok (lcg_edge g N) (edges g)) as (l2 & ->); [intros c I; apply edge_group, I|]. cbn [bind]. eauto.
Qed.
Lemma lcg_in cs : generate_lcg g N = Ok cs -> forall c, In c cs <->
  (exists i v l, nth_error (vertices g) i = Some v /\ lcg_task v (N i) = Ok l /\ In c l) \/
  (exists e l, In e (edges g) /\ lcg_edge g N e = Ok l /\ In c l).
Proof using.
  unfold generate_lcg. destruct (forallb _ _); cbn [cassert bind]; [|discriminate]. intros H c.
  destruct (collect (map (fun iv => lcg_task (snd iv) (N (fst iv))) (indexed (vertices g)))) as [l1| | |] eqn:E1; cbn [bind] in H; try discriminate.
  destruct (collect (map (lcg_edge g N) (edges g))) as [l2| | |] eqn:E2; cbn [bind] in H; try discriminate. injection H as <-.
  rewrite in_app_iff, (collect_in _ _ _ E1), (collect_in _ _ _ E2). split; intros [H|H]; [left|right|left|right].
  - destruct H as ((i & v) & l & I & F & J). apply indexed_in in I. exists i, v, l. auto.
  - exact H.
  - destruct H as (i & v & l & I & F & J). exists (i, v), l. split; [apply indexed_in; exact I|auto].
  - exact H.
Qed.

(** Event times [S] are the end times of the N-periodic schedule [s]. *)
Definition ends (s : schedule) (S : event -> Q) : Prop :=
  forall i v t k, nth_error (vertices g) i = Some v -> v_durations v = [t] -> 1 <= k <= N i ->
    (S (mkEvent (v_id v) 1 k) == s i (Z.to_nat (k - 1)) + t)%Q.

Lemma n_periodic s omega : periodic_schedule g N N omega s -> forall i v, nth_error (vertices g) i = Some v ->
  forall k, (s i (k + Z.to_nat (N i))%nat == s i k + omega)%Q.
Proof using Hwf Hni Hsdf Hone Hcyc.
  intros P i v E k. specialize (P i v k E). destruct (task_shape i v E) as (_ & _ & _ & _ & _ & Ph & _). rewrite Ph, Nat.mul_1_r in P. rewrite P.
  unfold task_period. pose proof (N_pos i v E). rewrite Z.mul_1_r. assert (~ (inject_Z (N i) == 0)%Q) by (intros X; change 0%Q with (inject_Z 0) in X; apply (proj1 (inject_Z_injective _ _)) in X; lia).
  field. assumption.
Qed.

Lemma valid_iff s S omega cs : generate_lcg g N = Ok cs -> periodic_schedule g N N omega s -> ends s S ->
  ((forall c, In c cs -> holds omega S c) <-> schedule_valid g s).
Proof using All.
  intros H P En.
  assert (Loop : forall i v t l, nth_error (vertices g) i = Some v -> v_durations v = [t] -> lcg_task v (N i) = Ok l ->
    ((forall c, In c l -> holds omega S c) <-> serialised (s i) (fun _ => t))).
  { intros i v t l E T L. rewrite <- serialised_iff. rewrite (task_ok i v t E T) in L. pose proof (N_pos i v E).
    apply (group_iff (v_id v) (v_id v) 0 (N i) (N i) 1 1 1 t) with (cs := l); try lia; try (intros k K; apply (En i v t k E T K)); try assumption;
      intros k; apply (n_periodic s omega P i v E). }
  assert (Mono : forall i v t, nth_error (vertices g) i = Some v -> v_durations v = [t] -> serialised (s i) (fun _ => t) -> mono (s i) /\ mono (fun k => s i k + t)%Q).
  { intros i v t E T Se. destruct (task_shape i v E) as (t' & T' & Pt & _). assert (t' = t) as -> by congruence.
    split; intros k; specialize (Se k); cbv beta in *; lra. }
  assert (Chan : forall c l, In c (edges g) -> lcg_edge g N c = Ok l -> (forall i v t, nth_error (vertices g) i = Some v -> v_durations v = [t] -> serialised (s i) (fun _ => t)) ->
    ((forall x, In x l -> holds omega S x) <-> channel_valid g s c)).
  { intros c l I L Se. destruct (edge_shape c I) as (vs & vd & a & b & Vs & Vd & A & B & Pa & Pb & Pm & Bl & Pr & Cr).
    destruct (task_shape _ vd Vd) as (td & Td & _). destruct (task_shape _ vs Vs) as (ts & Ts & _ & _ & Ds & _).
    rewrite (edge_ok c vs vd td Vs Vd Td), A, B in L. pose proof (N_pos _ _ Vs). pose proof (N_pos _ _ Vd).
    unfold channel_valid. rewrite (never_negative_ext _ _ (fun k => s (e_src c) k + ts)%Q _ (fun _ => a) _ _ (fun _ => b)); [|intros k; unfold end_of; rewrite Vs, Ds; reflexivity|assumption|assumption].
    destruct (Mono _ _ _ Vs Ts (Se _ _ _ Vs Ts)) as [_ M1]. destruct (Mono _ _ _ Vd Td (Se _ _ _ Vd Td)) as [M2 _].
    rewrite (waits_iff (e_preload c) a b _ _ Pa Pb Pm M1 M2).
    apply (group_iff (v_id vs) (v_id vd) (e_id c) (N (e_src c)) (N (e_dst c)) a b (e_preload c) td) with (cs := l); try assumption;
      try (intros k K; eapply En; eassumption); intros k; eapply n_periodic; eassumption. }
  split.
  - intros A. assert (Se : forall i v t, nth_error (vertices g) i = Some v -> v_durations v = [t] -> serialised (s i) (fun _ => t)).
    { intros i v t E T. destruct (task_group i v E) as (l & L). apply (Loop i v t l E T L). intros c I. apply A. apply (lcg_in cs H). left. eauto 6. }
    split.
    + intros c I. destruct (edge_group c I) as (l & L). apply (Chan c l I L Se). intros x J. apply A. apply (lcg_in cs H). right. eauto.
    + intros i v E. destruct (task_shape i v E) as (t & T & _ & _ & D & _). intros k. specialize (Se i v t E T k). unfold start_of. rewrite D. exact Se.
  - intros [Vc Vs]. assert (Se : forall i v t, nth_error (vertices g) i = Some v -> v_durations v = [t] -> serialised (s i) (fun _ => t)).
    { intros i v t E T k. destruct (task_shape i v E) as (t' & T' & _ & _ & D & _). assert (t' = t) as -> by congruence. specialize (Vs i v E k). unfold start_of in Vs. rewrite D in Vs. exact Vs. }
    intros c I. apply (lcg_in cs H) in I as [(i & v & l & E & L & J)|(e & l & I & L & J)].
    + destruct (task_shape i v E) as (t & T & _). apply (proj2 (Loop i v t l E T L) (Se i v t E T) c J).
    + apply (proj2 (Chan e l I L Se) (Vc e I) c J).
Qed.

Lemma lcg_closed cs : generate_lcg g N = Ok cs -> closed (lcg_events g N) cs.
Proof using All.
  intros H. assert (Ev : forall i v k, nth_error (vertices g) i = Some v -> 1 <= k <= N i -> In (mkEvent (v_id v) 1 k) (lcg_events g N)).
  { intros i v k E K. apply in_flat_map. exists (i, v). split; [apply indexed_in; exact E|]. apply in_map_iff. exists k. split; [reflexivity|apply zrange_in; exact K]. }
  intros c I. apply (lcg_in cs H) in I as [(i & v & l & E & L & J)|(e & l & I & L & J)].
  - destruct (task_shape i v E) as (t & T & _). rewrite (task_ok i v t E T) in L. pose proof (N_pos i v E).
    apply (channel_in _ _ _ _ _ 1 1 1 t ltac:(lia) H0 H0 ltac:(lia) ltac:(lia) l c L) in J as (j & J & ->). cbn [c_source c_target].
    split; apply (Ev i v _ E); [|assumption]. pose proof (Z.mod_pos_bound (need 1 1 1 j - 1) (N i)). lia.
  - destruct (edge_shape e I) as (vs & vd & a & b & Vs & Vd & A & B & Pa & Pb & Pm & Bl & _). destruct (task_shape _ vd Vd) as (td & Td & _).
    rewrite (edge_ok e vs vd td Vs Vd Td), A, B in L. pose proof (N_pos _ _ Vs) as P1. pose proof (N_pos _ _ Vd) as P2.
    apply (channel_in _ _ _ _ _ a b (e_preload e) td Pa P1 P2 Pm Bl l c L) in J as (j & J & ->). cbn [c_source c_target].
    split; [apply (Ev _ vs _ Vs)|apply (Ev _ vd _ Vd); assumption]. pose proof (Z.mod_pos_bound (need a b (e_preload e) j - 1) (N (e_src e))). lia.
Qed.

(** Weights exchanged: the form of EventGraphProofs. *)
Definition swap (c : constraint) : constraint := mkConstraint (c_source c) (c_target c) (c_d c) (c_w c) (c_channel c).
Lemma swap_swap c : swap (swap c) = c.
Proof using. destruct c. reflexivity. Qed.
Lemma path_swap l : forall u v, path u l v -> path u (map swap l) v.
Proof using. induction l as [|c l IH]; cbn; intros u v H; [assumption|]. destruct H as [A B]. split; [assumption|apply IH, B]. Qed.
Lemma circuit_swap cs l : circuit cs l -> circuit (map swap cs) (map swap l).
Proof using.
  intros (Ne & In & u & P). split; [destruct l; [congruence|discriminate]|]. split; [|exists u; apply path_swap, P].
  intros c J. apply in_map_iff in J as (x & <- & J). apply in_map, In, J.
Qed.
Lemma map_swap_swap l : map swap (map swap l) = l.
Proof using. rewrite map_map. rewrite (map_ext _ (fun c => c)); [apply map_id|apply swap_swap]. Qed.
Lemma sum_swap_d l : sumQ c_d (map swap l) = sumQ c_w l.
Proof using. induction l as [|c l IH]; [reflexivity|]. unfold sumQ in *. cbn [map fold_right]. rewrite IH. reflexivity. Qed.
Lemma sum_swap_w l : sumQ c_w (map swap l) = sumQ c_d l.
Proof using. induction l as [|c l IH]; [reflexivity|]. unfold sumQ in *. cbn [map fold_right]. rewrite IH. reflexivity. Qed.
Definition fits (cs : list constraint) (omega : Q) : Prop := forall l, circuit cs l -> (sumQ c_w l <= omega * sumQ c_d l)%Q.
Lemma fits_swap cs omega : fits cs omega <-> circuits_fit (map swap cs) omega.
Proof using.
  split; intros F l C.
  - apply circuit_swap in C. rewrite map_swap_swap in C. specialize (F _ C). rewrite sum_swap_d, sum_swap_w in F. exact F.
  - apply circuit_swap in C. specialize (F _ C). rewrite sum_swap_d, sum_swap_w in F. exact F.
Qed.
Lemma solution_iff cs omega : generate_lcg g N = Ok cs -> ((exists S, forall c, In c cs -> holds omega S c) <-> fits cs omega).
Proof using All.
  intros H. rewrite fits_swap. rewrite <- (satisfiable_iff_fit (lcg_events g N)).
  - split; intros (S & A); exists S; intros c I.
    + apply in_map_iff in I as (x & <- & I). specialize (A x I). exact A.
    + specialize (A (swap c) (in_map swap cs c I)). exact A.
  - intros c I. apply in_map_iff in I as (x & <- & I). apply (lcg_closed cs H x I).
Qed.

Definition end_times (s : schedule) (e : event) : Q :=
  let i := index_of (vertices g) (ev_task e) in
  match nth_error (vertices g) i with
  | Some v => (s i (Z.to_nat (ev_occ e - 1)) + hd 0 (v_durations v))%Q
  | None => 0%Q
  end.
Lemma end_times_ends s : ends s (end_times s).
Proof using Hwf.
  intros i v t k E T K. unfold end_times. cbn [ev_task ev_occ]. rewrite (index_of_nth _ (proj2 (proj2 Hwf)) i v E), E, T. reflexivity.
Qed.
Definition unrolled (omega : Q) (S : event -> Q) : schedule := fun i k =>
  match nth_error (vertices g) i with
  | Some v => (S (mkEvent (v_id v) 1 (Z.of_nat k mod N i + 1)) - hd 0 (v_durations v) + inject_Z (Z.of_nat k / N i) * omega)%Q
  | None => 0%Q
  end.
Lemma unrolled_ends omega S : ends (unrolled omega S) S.
Proof using.
  intros i v t k E T K. unfold unrolled. rewrite E, T. cbn [hd]. rewrite Z2Nat.id by lia. rewrite Z.mod_small, Z.div_small by lia.
  replace (k - 1 + 1) with k by lia. change (inject_Z 0) with 0%Q. lra.
Qed.
Lemma unrolled_periodic omega S : periodic_schedule g N N omega (unrolled omega S).
Proof using Hwf Hni Hsdf Hone Hcyc.
  intros i v k E. destruct (task_shape i v E) as (_ & _ & _ & _ & _ & Ph & _). rewrite Ph, Nat.mul_1_r. unfold unrolled. rewrite E. pose proof (N_pos i v E) as P.
  replace (Z.of_nat (k + Z.to_nat (N i))) with (Z.of_nat k + 1 * N i) by lia. rewrite Z.mod_add, Z.div_add by lia. rewrite inject_Z_plus.
  unfold task_period. rewrite Z.mul_1_r. assert (~ (inject_Z (N i) == 0)%Q) by (intros X; change 0%Q with (inject_Z 0) in X; apply (proj1 (inject_Z_injective _ _)) in X; lia).
  change (inject_Z 1) with 1%Q. field. assumption.
Qed.

Lemma lcg_exact cs omega : generate_lcg g N = Ok cs -> ((exists s, periodic_schedule g N N omega s /\ schedule_valid g s) <-> fits cs omega).
Proof using All.
  intros H. rewrite <- (solution_iff cs omega H). split.
  - intros (s & P & V). exists (end_times s). apply (valid_iff s (end_times s) omega cs H P (end_times_ends s)). exact V.
  - intros (S & A). exists (unrolled omega S). split; [apply unrolled_periodic|].
    apply (valid_iff _ S omega cs H (unrolled_periodic omega S) (unrolled_ends omega S)). exact A.
Qed.

Lemma fits_of_maximum cs r : exact_maximum cs r -> fits cs (fst r).
Proof using. intros (_ & _ & _ & U). exact U. Qed.
Lemma maximum_of_fits cs r omega : exact_maximum cs r -> fits cs omega -> (fst r <= omega)%Q.
Proof using.
  intros (C & D & At & _) F. specialize (F _ C). rewrite <- At in F. apply Qmult_le_r in F; assumption.
Qed.

(** The ratio is the period of the best schedule there is. *)
Lemma lcg_best cs r : vertices g <> [] -> generate_lcg g N = Ok cs -> exact_maximum cs r -> (0 < fst r)%Q -> best_throughput g N (/ fst r).
Proof using All.
  intros NE H X P. pose proof (HN_pos g N Hcyc) as HN. pose proof no_overlap_of as NO.
  destruct (generate_event_graph_ok StronglyOptimized g N N Hwf HN HN) as (csn & Hn). split.
  - intros _. destruct (proj2 (lcg_exact cs (fst r) H) (fits_of_maximum cs r X)) as (s & Ps & Vs). exists s.
    split; [assumption|]. split; [apply (periodic_non_zeno g N Hwf Hcyc N (fst r)); assumption|].
    apply (periodic_keeps_pace g N N _ s HN HN); [|intros i v k E; rewrite (Ps i v k E); unfold task_period; rewrite Qinv_involutive; reflexivity]. intros v I. apply Hwf, I.
  - intros s omega V Z K. pose proof (pace_pos g N Hcyc s omega NE Z K) as Po. split; [apply Qinv_lt_0_compat; assumption|]. rewrite Qinv_involutive.
    apply (maximum_of_fits cs r omega X). apply (lcg_exact cs omega H).
    apply (periodic_exists_iff StronglyOptimized g N N omega csn Hwf Hbal Hni NO HN HN ltac:(lra) Hn).
    apply (any_pace_fits g N Hwf Hbal Hni NO Hcyc csn s omega NE Hn V Z K). lra.
Qed.
(** A circuit without tokens and with a positive duration: no schedule at all keeps a pace. *)
Lemma lcg_deadlock cs l : vertices g <> [] -> generate_lcg g N = Ok cs -> circuit cs l -> (sumQ c_d l == 0)%Q -> (0 < sumQ c_w l)%Q ->
  forall s omega, schedule_valid g s -> non_zeno g s -> ~ keeps_pace g N s omega.
Proof using All.
  intros NE H C D W s omega V Z K. pose proof (HN_pos g N Hcyc) as HN. pose proof no_overlap_of as NO.
  destruct (generate_event_graph_ok StronglyOptimized g N N Hwf HN HN) as (csn & Hn).
  pose proof (pace_pos g N Hcyc s omega NE Z K) as Po.
  assert (F : fits cs omega).
  { apply (lcg_exact cs omega H). apply (periodic_exists_iff StronglyOptimized g N N omega csn Hwf Hbal Hni NO HN HN ltac:(lra) Hn).
    apply (any_pace_fits g N Hwf Hbal Hni NO Hcyc csn s omega NE Hn V Z K). lra. }
  specialize (F l C). rewrite D in F. lra.
Qed.
End Graph.
