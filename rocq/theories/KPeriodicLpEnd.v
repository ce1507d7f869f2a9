(** The linear program of a graph: its answers are the K-periodic schedules. *)
From Coq Require Import QArith Lqa.
From Verif Require Import Base Graph Commons CommonsProofs KPeriodic ScheduleSpec ScheduleCore KPeriodicSpec
  KPeriodicProofs KPeriodicChannel KPeriodicSelfloop KPeriodicGraph EventGraph EventGraphSpec EventGraphProofs KPeriodicEnd KPeriodicProps
  KPeriodicLp KPeriodicLpSpec KPeriodicLpProofs.
Open Scope Z_scope.

Lemma lp_rows_spec var g N K : graph_wf g -> no_init g -> no_overlap g -> positive_on g N -> positive_on g K -> whole_cycles g N ->
  exists rows cs, lp_rows g N K = Ok rows /\ generate_event_graph var g N K = Ok cs /\
  forall omega St, (forall r, In r rows -> row_holds omega St r) <-> (forall x, In x cs -> satisfies omega St x).
Proof.
  intros WF NI NO HN HK WC.
  destruct (generate_event_graph_ok var g N K WF HN HK) as (cs & Hcs).
  pose proof (generate_event_graph_in var g N K WF cs Hcs) as IN.
  assert (T : forall i v, nth_error (vertices g) i = Some v -> exists rows r, reentrancy_rows v (N i) (K i) = Ok rows /\ generate_selfloop v (N i) (K i) = Ok r /\
     forall omega St, (forall r, In r rows -> row_holds omega St r) <-> (forall x, In x r -> satisfies omega St x)).
  { intros i v Hv. destruct (K_nat g K HK i v Hv) as [Hk Hkp]. rewrite Hk.
    apply (task_rows v (N i) (Z.to_nat (K i)) (vertex_ok g WF i v Hv) Hkp (HN i (vertex_lt g _ _ Hv))).
    - apply NI, (nth_error_In _ _ Hv).
    - apply NO, (nth_error_In _ _ Hv). }
  assert (C : forall c vs vd, In c (edges g) -> nth_error (vertices g) (e_src c) = Some vs -> nth_error (vertices g) (e_dst c) = Some vd ->
     exists rows r, precedence_rows c vs vd (N (e_src c)) (K (e_src c)) (K (e_dst c)) = Ok rows /\
       generate_channel var c vs vd (N (e_src c)) (K (e_src c)) (K (e_dst c)) = Ok r /\
     forall omega St, (forall r, In r rows -> row_holds omega St r) <-> (forall x, In x r -> satisfies omega St x)).
  { intros c vs vd Hc V1 V2. destruct (edge_shape g WF c Hc) as (vs' & vd' & V1' & V2' & Hs & Hd & Hsh).
    rewrite V1 in V1'. rewrite V2 in V2'. injection V1' as <-. injection V2' as <-.
    destruct (K_nat g K HK _ _ V1) as [Hk1 Hkp1]. destruct (K_nat g K HK _ _ V2) as [Hk2 Hkp2]. rewrite Hk1, Hk2.
    apply (channel_rows c vs vd (Z.to_nat (K (e_src c))) (Z.to_nat (K (e_dst c))) (N (e_src c)) Hs Hd Hsh Hkp1 Hkp2
      (HN _ (vertex_lt g _ _ V1)) (WC _ _ V1) (NI _ (nth_error_In _ _ V1)) (NI _ (nth_error_In _ _ V2)) var). }
  unfold lp_rows.
  destruct (collect_ok (fun iv => reentrancy_rows (snd iv) (N (fst iv)) (K (fst iv))) (indexed (vertices g))) as [l Hl].
  { intros [i v] Hin. apply indexed_in in Hin. cbn [fst snd]. destruct (T i v Hin) as (rows & _ & E & _). eauto. }
  pose proof (collect_in _ _ _ Hl) as Il. rewrite Hl. cbn [bind].
  set (f := fun c : edge => bind _ _).
  destruct (collect_ok f (edges g)) as [l' Hl'].
  { intros c Hc. unfold f. destruct (edge_shape g WF c Hc) as (vs & vd & V1 & V2 & _). unfold lookup_vertex. rewrite V1, V2. cbn [bind].
    destruct (C c vs vd Hc V1 V2) as (rows & _ & E & _). eauto. }
  pose proof (collect_in _ _ _ Hl') as Il'. rewrite Hl'. cbn [bind]. exists (l ++ l'), cs. split; [reflexivity|]. split; [exact Hcs|].
  intros omega St. split.
  - intros A x Hx. apply IN in Hx as [(i & v & r & Hv & Hr & Hx)|(c & vs & vd & r & Hc & V1 & V2 & Hr & Hx)].
    + destruct (T i v Hv) as (rows & r' & E & E' & Q). rewrite Hr in E'. injection E' as <-. revert x Hx. apply (proj1 (Q omega St)).
      intros y Hy. apply A, in_or_app. left. apply Il. exists (i, v), rows. split; [apply indexed_in; exact Hv|]. auto.
    + destruct (C c vs vd Hc V1 V2) as (rows & r' & E & E' & Q). rewrite Hr in E'. injection E' as <-. revert x Hx. apply (proj1 (Q omega St)).
      intros y Hy. apply A, in_or_app. right. apply Il'. exists c, rows. split; [exact Hc|]. split; [|exact Hy].
      unfold f, lookup_vertex. rewrite V1, V2. exact E.
  - intros A y Hy. apply in_app_or in Hy. destruct Hy as [Hy|Hy].
    + apply Il in Hy as ([i v] & r & Hv & E & Hy). apply indexed_in in Hv. cbn [fst snd] in E.
      destruct (T i v Hv) as (rows & r' & E1 & E' & Q). rewrite E in E1. injection E1 as <-. revert y Hy. apply (proj2 (Q omega St)).
      intros x Hx. apply A, IN. left. exists i, v, r'. auto.
    + apply Il' in Hy as (c & r & Hc & E & Hy). unfold f in E. destruct (edge_shape g WF c Hc) as (vs & vd & V1 & V2 & _).
      unfold lookup_vertex in E. rewrite V1, V2 in E. cbn [bind] in E.
      destruct (C c vs vd Hc V1 V2) as (rows & r' & E1 & E' & Q). rewrite E in E1. injection E1 as <-. revert y Hy. apply (proj2 (Q omega St)).
      intros x Hx. apply A, IN. right. exists c, vs, vd, r'. auto 8.
Qed.

Lemma rows_valid g N K rows : graph_wf g -> balanced g N -> no_init g -> no_overlap g -> positive_on g N -> positive_on g K -> whole_cycles g N ->
  lp_rows g N K = Ok rows -> forall omega St, (0 <= omega)%Q ->
  (forall r, In r rows -> row_holds omega St r) <-> schedule_valid g (kperiodic_schedule g N K omega St).
Proof.
  intros WF B NI NO HN HK WC E omega St Ho.
  destruct (lp_rows_spec StronglyOptimized g N K WF NI NO HN HK WC) as (rows' & cs & E' & G & Q). rewrite E in E'. injection E' as <-.
  rewrite (Q omega St). symmetry. apply (sound_iff StronglyOptimized); assumption.
Qed.

(** Starting times can be shifted until none is negative. *)
Lemma shift_exists St (l : list event) : exists b, forall e, In e l -> (0 <= St e + b)%Q.
Proof.
  induction l as [|e l (b & IH)]; [exists 0%Q; intros ? []|].
  exists (if Qle_bool b (- St e) then (- St e)%Q else b). intros e' [<-|H].
  - destruct (Qle_bool b (- St e)) eqn:C; [lra|]. assert (~ (b <= - St e)%Q) by (rewrite <- Qle_bool_iff; congruence). lra.
  - specialize (IH e' H). destruct (Qle_bool b (- St e)) eqn:C; [apply Qle_bool_iff in C; lra|exact IH].
Qed.

Lemma feasible_exists g N K rows : graph_wf g -> balanced g N -> no_init g -> no_overlap g -> positive_on g N -> positive_on g K -> whole_cycles g N ->
  lp_rows g N K = Ok rows -> forall omega s, (0 <= omega)%Q -> periodic_schedule g N K omega s -> schedule_valid g s ->
  exists St, feasible (lp_columns g K) rows omega St.
Proof.
  intros WF B NI NO HN HK WC E omega s Ho Hp Hv.
  destruct (lp_rows_spec StronglyOptimized g N K WF NI NO HN HK WC) as (rows' & cs & E' & G & Q). rewrite E in E'. injection E' as <-.
  assert (S0 : forall x, In x cs -> satisfies omega (starts_of g s) x).
  { apply (sound_iff StronglyOptimized g N K omega (starts_of g s) cs); auto.
    eapply schedule_valid_ext; [exact WF| |exact Hv]. apply starts_of_periodic; auto. }
  destruct (shift_exists (starts_of g s) (lp_columns g K)) as (b & Hb).
  exists (fun e => (starts_of g s e + b)%Q). split; [exact Ho|]. split; [exact Hb|].
  apply (proj2 (Q _ _)). intros x Hx. specialize (S0 x Hx). unfold satisfies in *. lra.
Qed.

Lemma lp_answer solve g N K : exact_solver solve (lp_columns g K) (lp_rows g N K) -> vertices g <> [] -> graph_wf g -> balanced g N -> no_init g -> no_overlap g ->
  positive_on g N -> positive_on g K -> whole_cycles g N ->
  exists rows, lp_rows g N K = Ok rows /\
    ((exists omega St, kperiodic_lp solve g N K = Ok (Some (omega, collect_results g N K omega St)) /\ optimal (lp_columns g K) rows omega St) \/
     (kperiodic_lp solve g N K = Ok None /\ forall omega St, ~ feasible (lp_columns g K) rows omega St)).
Proof.
  intros HS NE WF B NI NO HN HK WC.
  destruct (lp_rows_spec StronglyOptimized g N K WF NI NO HN HK WC) as (rows & _ & E & _). exists rows. split; [exact E|].
  unfold kperiodic_lp. destruct (vertices g); [contradiction|]. rewrite E. cbn [bind]. specialize (HS rows E).
  destruct (solve (lp_columns g K) rows) as [[omega St]|]; [left; eauto|right; auto].
Qed.

Lemma columns_no_init v K : v_init_phases v = 0%nat ->
  task_columns v K = flat_map (fun a => map (fun k => mkEvent (v_id v) a k) (zrange 1 K)) (zrange 1 (Z.of_nat (v_phases v))).
Proof. intros H. unfold task_columns. rewrite H. reflexivity. Qed.

Lemma zrange_seq n : zrange 1 (Z.of_nat n) = map (fun i => 1 + Z.of_nat i) (seq 0 n).
Proof. unfold zrange. f_equal. f_equal. lia. Qed.

(** The place of phase [a + 1], occurrence [k + 1] in the list of a task. *)
Lemma columns_length v (K : nat) : v_init_phases v = 0%nat -> length (task_columns v (Z.of_nat K)) = (v_phases v * K)%nat.
Proof.
  intros H. rewrite columns_no_init by exact H. rewrite !zrange_seq. generalize (v_phases v) as P. intros P.
  assert (G : forall l, length (flat_map (fun a => map (fun k => mkEvent (v_id v) a k) (map (fun i => 1 + Z.of_nat i) (seq 0 K))) l) = (length l * K)%nat).
  { induction l as [|x l IH]; [reflexivity|]. cbn [flat_map length]. rewrite app_length, IH, !map_length, seq_length. lia. }
  rewrite G, map_length, seq_length. reflexivity.
Qed.
Lemma columns_nth v (K : nat) a k : v_init_phases v = 0%nat -> (a < v_phases v)%nat -> (k < K)%nat ->
  nth_error (task_columns v (Z.of_nat K)) (a * K + k) = Some (mkEvent (v_id v) (Z.of_nat a + 1) (Z.of_nat k + 1)).
Proof.
  intros H Ha Hk. rewrite columns_no_init by exact H. rewrite !zrange_seq. revert Ha. generalize (v_phases v) as P. intros P Ha.
  assert (G : forall n s a, (a < n)%nat ->
     nth_error (flat_map (fun a => map (fun k => mkEvent (v_id v) a k) (map (fun i => 1 + Z.of_nat i) (seq 0 K))) (map (fun i => 1 + Z.of_nat i) (seq s n))) (a * K + k)
     = Some (mkEvent (v_id v) (1 + Z.of_nat (s + a)) (1 + Z.of_nat k))).
  { induction n as [|n IH]; intros s a' L; [lia|]. cbn [seq map flat_map]. destruct a' as [|a'].
    - cbn [Nat.mul Nat.add]. rewrite nth_error_app1 by (rewrite !map_length, seq_length; lia).
      rewrite map_map. rewrite (map_nth_error _ k (seq 0 K) (d := k)); [|rewrite (nth_error_nth' _ 0%nat) by (rewrite seq_length; lia); rewrite seq_nth by lia; reflexivity].
      rewrite Nat.add_0_r. reflexivity.
    - rewrite nth_error_app2 by (rewrite !map_length, seq_length; lia). rewrite !map_length, seq_length.
      replace (S a' * K + k - K)%nat with (a' * K + k)%nat by lia. rewrite IH by lia. replace (S s + a')%nat with (s + S a')%nat by lia. reflexivity. }
  rewrite G by exact Ha. rewrite Nat.add_0_l. do 2 f_equal; lia.
Qed.

Lemma results_nth g N K omega St i v : nth_error (vertices g) i = Some v ->
  nth_error (collect_results g N K omega St) i = Some (mkTaskSchedule (omega / (inject_Z (N i) / inject_Z (K i)))%Q (map St (task_columns v (K i)))).
Proof.
  intros H. unfold collect_results. rewrite (map_nth_error _ i _ (d := (i, v))); [reflexivity|]. rewrite indexed_nth, H. reflexivity.
Qed.

(** The period recorded for a task is that of one phase, not of its cycle. *)
Lemma period_short (omega : Q) K P N : 0 < N -> 0 < K ->
  (omega / (inject_Z N / inject_Z K) * inject_Z P == task_period omega K P N)%Q.
Proof.
  intros HN HK. unfold task_period. rewrite inject_Z_mult.
  assert (nz : forall z, z <> 0 -> ~ (inject_Z z == 0)%Q) by (intros z Hz H; apply Hz; apply (proj1 (inject_Z_injective z 0)); exact H).
  field. split; apply nz; lia.
Qed.

(** With one phase per task the recorded schedule is the schedule of the solution. *)
Lemma single_phase_same g N K omega St : graph_wf g -> no_init g -> positive_on g N -> positive_on g K ->
  (forall v, In v (vertices g) -> v_phases v = 1%nat) ->
  same_schedule g (kperiodic_schedule g N K omega St) (denoted (collect_results g N K omega St)).
Proof.
  intros WF NI HN HK P1 i m Hi. destruct (nth_error (vertices g) i) as [v|] eqn:E; [|apply nth_error_None in E; lia].
  pose proof (nth_error_In _ _ E) as Iv. unfold kperiodic_schedule, denoted. rewrite E, (results_nth g N K omega St i v E).
  cbn [ts_starts ts_period]. destruct (K_nat g K HK i v E) as [Hk Hkp]. set (k := Z.to_nat (K i)) in *.
  assert (XL : length (map St (task_columns v (K i))) = k) by (rewrite map_length, Hk, (columns_length v k (NI v Iv)), (P1 v Iv); lia).
  rewrite XL.
  unfold kperiodic_start. rewrite (NI v Iv), (P1 v Iv). cbn [Nat.ltb Nat.leb]. rewrite Nat.sub_0_r, Nat.mod_1_r, Nat.div_1_r, Nat.mul_1_r.
  assert (Mk : (m mod k < k)%nat) by (apply Nat.mod_upper_bound; lia).
  assert (X : nth (m mod k) (map St (task_columns v (K i))) 0%Q = St (mkEvent (v_id v) (Z.of_nat 0 + 1) (Z.of_nat (m mod k) + 1))).
  { apply nth_error_nth. apply map_nth_error. rewrite Hk. rewrite <- (columns_nth v k 0 (m mod k) (NI v Iv)); [reflexivity|rewrite (P1 v Iv); lia|exact Mk]. }
  rewrite X. rewrite <- (period_short omega (K i) (Z.of_nat 1) (N i) (HN i Hi) (HK i Hi)). change (inject_Z (Z.of_nat 1)) with 1%Q. ring.
Qed.

(** * Strictly periodic executions *)
Lemma even_rows_spec v n : 0 < n -> exists rows, even_rows v n = Ok rows /\
  forall omega St, (forall r, In r rows -> row_holds omega St r) <->
    (forall p, (S p < v_phases v)%nat -> (St (mkEvent (v_id v) (Z.of_nat (S p) + 1) 1) == St (mkEvent (v_id v) (Z.of_nat p + 1) 1) + omega / inject_Z n)%Q).
Proof.
  intros Hn. unfold even_rows. rewrite (qdiv_ok 1 n) by lia. cbn [bind]. set (f := fun a : Z => Ok _).
  destruct (collect_ok f (zrange 2 (Z.of_nat (v_phases v)))) as (rows & E); [intros a _; eexists; reflexivity|].
  pose proof (collect_in _ _ _ E) as IN. exists rows. split; [exact E|]. intros omega St.
  assert (D : (inject_Z 1 / inject_Z n * omega == omega / inject_Z n)%Q) by (unfold Qdiv; change (inject_Z 1) with 1%Q; ring).
  split.
  - intros A p Hp. assert (B : row_holds omega St (mkRow true 0 (- (inject_Z 1 / inject_Z n)) [(mkEvent (v_id v) (Z.of_nat (S p) + 1 - 1) 1, (-1)%Q); (mkEvent (v_id v) (Z.of_nat (S p) + 1) 1, 1%Q)])).
    { apply A, IN. exists (Z.of_nat (S p) + 1). eexists. split; [apply zrange_in; lia|]. split; [reflexivity|]. left. reflexivity. }
    unfold row_holds in B. cbn [row_fixed row_bound row_omega row_starts weighted] in B.
    replace (Z.of_nat (S p) + 1 - 1) with (Z.of_nat p + 1) in B by lia. rewrite <- D. lra.
  - intros A r Hr. apply IN in Hr as (a & l & Ha & [= <-] & [<-|[]]). apply zrange_in in Ha.
    unfold row_holds. cbn [row_fixed row_bound row_omega row_starts weighted]. specialize (A (Z.to_nat (a - 2)) ltac:(lia)).
    replace (Z.of_nat (S (Z.to_nat (a - 2))) + 1) with a in A by lia. replace (Z.of_nat (Z.to_nat (a - 2)) + 1) with (a - 1) in A by lia.
    rewrite <- D in A. lra.
Qed.

Lemma even_from_first (f : nat -> Q) w P : (forall p, (S p < P)%nat -> (f (S p) == f p + w)%Q) ->
  forall p, (p < P)%nat -> (f p == f 0%nat + inject_Z (Z.of_nat p) * w)%Q.
Proof.
  intros H. induction p as [|p IH]; intros Hp; [change (inject_Z (Z.of_nat 0)) with 0%Q; ring|].
  rewrite H, IH by lia. rewrite Nat2Z.inj_succ. unfold Z.succ. rewrite inject_Z_plus. change (inject_Z 1) with 1%Q. ring.
Qed.

(** The rows of a task hold exactly when its executions are evenly spaced. *)
Lemma even_task g N omega St i v : graph_wf g -> no_init g -> nth_error (vertices g) i = Some v -> 0 < N i ->
  (forall p, (S p < v_phases v)%nat -> (St (mkEvent (v_id v) (Z.of_nat (S p) + 1) 1) == St (mkEvent (v_id v) (Z.of_nat p + 1) 1) + omega / inject_Z (N i))%Q) <->
  (forall m, (kperiodic_schedule g N (fun _ => 1%Z) omega St i (S m) == kperiodic_schedule g N (fun _ => 1%Z) omega St i m + omega / inject_Z (N i))%Q).
Proof.
  intros WF NI E HN. pose proof (nth_error_In _ _ E) as Iv. destruct (vertex_ok g WF i v E) as (HP & _).
  set (P := v_phases v) in *. set (w := (omega / inject_Z (N i))%Q).
  set (F := fun p : nat => St (mkEvent (v_id v) (Z.of_nat p + 1) 1)).
  assert (K1 : forall m, (kperiodic_schedule g N (fun _ => 1%Z) omega St i m == F (m mod P)%nat + inject_Z (Z.of_nat (m / P)) * (inject_Z (Z.of_nat P) * w))%Q).
  { intros m. unfold kperiodic_schedule. rewrite E. unfold kperiodic_start. rewrite (NI v Iv). cbn [Nat.ltb Nat.leb]. rewrite Nat.sub_0_r. fold P.
    change (Z.to_nat 1) with 1%nat. rewrite Nat.mod_1_r, Nat.mul_1_l. unfold F. change (Z.of_nat 0 + 1) with 1.
    unfold task_period, w. rewrite Z.mul_1_l. unfold Qdiv. ring. }
  split.
  - intros A. assert (A' : forall p, (S p < P)%nat -> (F (S p) == F p + w)%Q) by exact A.
    pose proof (even_from_first F w P A') as G.
    assert (K2 : forall m, (kperiodic_schedule g N (fun _ => 1%Z) omega St i m == F 0%nat + inject_Z (Z.of_nat m) * w)%Q).
    { intros m. rewrite K1, G by (apply Nat.mod_upper_bound; lia). rewrite (Nat.div_mod m P) at 3 by lia.
      rewrite Nat2Z.inj_add, Nat2Z.inj_mul, inject_Z_plus, inject_Z_mult. ring. }
    intros m. rewrite !K2. rewrite Nat2Z.inj_succ. unfold Z.succ. rewrite inject_Z_plus. change (inject_Z 1) with 1%Q. ring.
  - intros A p Hp. specialize (A p). rewrite !K1 in A. rewrite !Nat.mod_small, !Nat.div_small in A by lia.
    change (inject_Z (Z.of_nat 0)) with 0%Q in A. unfold F in A. fold w in A. rewrite !Qmult_0_l, !Qplus_0_r in A. exact A.
Qed.

Lemma real_rows_spec g N : graph_wf g -> balanced g N -> no_init g -> no_overlap g -> positive_on g N -> whole_cycles g N ->
  exists rows, real_lp_rows g N = Ok rows /\ forall omega St, (0 <= omega)%Q ->
  (forall r, In r rows -> row_holds omega St r) <->
  (schedule_valid g (kperiodic_schedule g N (fun _ => 1%Z) omega St) /\ evenly_spaced g N omega (kperiodic_schedule g N (fun _ => 1%Z) omega St)).
Proof.
  intros WF B NI NO HN WC. assert (HK : positive_on g (fun _ => 1%Z)) by (intros i _; lia).
  destruct (lp_rows_spec StronglyOptimized g N (fun _ => 1%Z) WF NI NO HN HK WC) as (rows & _ & E & _).
  unfold real_lp_rows. assert (F : forallb (fun v => Nat.eqb (v_init_phases v) 0) (vertices g) = true).
  { apply forallb_forall. intros v Hv. rewrite (NI v Hv). reflexivity. }
  rewrite F. cbn [cassert bind].
  destruct (collect_ok (fun iv => even_rows (snd iv) (N (fst iv))) (indexed (vertices g))) as (ev & Ev).
  { intros [i v] Hv. apply indexed_in in Hv. destruct (even_rows_spec v (N i) (HN i (vertex_lt g _ _ Hv))) as (r & Hr & _). eauto. }
  pose proof (collect_in _ _ _ Ev) as IN. rewrite Ev. cbn [bind]. rewrite E. cbn [bind]. exists (ev ++ rows). split; [reflexivity|].
  intros omega St Ho. pose proof (rows_valid g N (fun _ => 1%Z) rows WF B NI NO HN HK WC E omega St Ho) as RV.
  split.
  - intros A. split; [apply RV; intros r Hr; apply A, in_or_app; right; exact Hr|].
    intros i m Hi. destruct (nth_error (vertices g) i) as [v|] eqn:V; [|apply nth_error_None in V; lia].
    destruct (even_rows_spec v (N i) (HN i Hi)) as (r & Hr & Q). apply (even_task g N omega St i v WF NI V (HN i Hi)).
    apply (proj1 (Q omega St)). intros y Hy. apply A, in_or_app. left. apply IN. exists (i, v), r. split; [apply indexed_in; exact V|]. auto.
  - intros [A1 A2] r Hr. apply in_app_or in Hr as [Hr|Hr]; [|apply (proj2 RV A1); exact Hr].
    apply IN in Hr as ([i v] & l & Hv & Hl & Hr). apply indexed_in in Hv. cbn [fst snd] in Hl. pose proof (vertex_lt g _ _ Hv) as Hi.
    destruct (even_rows_spec v (N i) (HN i Hi)) as (l' & Hl' & Q). rewrite Hl in Hl'. injection Hl' as <-. revert r Hr. apply (proj2 (Q omega St)).
    apply (even_task g N omega St i v WF NI Hv (HN i Hi)). intros m. apply A2. exact Hi.
Qed.

Lemma even_periodic g N omega s : graph_wf g -> positive_on g N -> evenly_spaced g N omega s -> periodic_schedule g N (fun _ => 1%Z) omega s.
Proof.
  intros WF HN H i v m E. pose proof (vertex_lt g _ _ E) as Hi. change (Z.to_nat 1) with 1%nat. rewrite Nat.mul_1_l.
  assert (G : forall n, (s i (m + n)%nat == s i m + inject_Z (Z.of_nat n) * (omega / inject_Z (N i)))%Q).
  { induction n as [|n IH]; [rewrite Nat.add_0_r; change (inject_Z (Z.of_nat 0)) with 0%Q; ring|].
    rewrite Nat.add_succ_r, (H i _ Hi), IH. rewrite Nat2Z.inj_succ. unfold Z.succ. rewrite inject_Z_plus. change (inject_Z 1) with 1%Q. ring. }
  rewrite G. unfold task_period. rewrite Z.mul_1_l. unfold Qdiv. ring.
Qed.

Lemma same_even g N omega s s' : same_schedule g s s' -> evenly_spaced g N omega s -> evenly_spaced g N omega s'.
Proof. intros E H i m Hi. rewrite <- !(E i _ Hi). apply H. exact Hi. Qed.

Lemma even_shift g N omega St b : evenly_spaced g N omega (kperiodic_schedule g N (fun _ => 1%Z) omega St) ->
  evenly_spaced g N omega (kperiodic_schedule g N (fun _ => 1%Z) omega (fun e => (St e + b)%Q)).
Proof.
  intros H i m Hi. specialize (H i m Hi). unfold kperiodic_schedule in *.
  destruct (nth_error (vertices g) i) as [v|] eqn:V; [|exact H].
  assert (G : forall m, (kperiodic_start (fun e => (St e + b)%Q) v (Z.to_nat 1) (task_period omega 1 (Z.of_nat (v_phases v)) (N i)) m ==
    kperiodic_start St v (Z.to_nat 1) (task_period omega 1 (Z.of_nat (v_phases v)) (N i)) m + b)%Q).
  { intros n. unfold kperiodic_start. destruct (Nat.ltb n (v_init_phases v)); [reflexivity|]. ring. }
  rewrite !G, H. ring.
Qed.

Lemma real_feasible_exists g N rows : graph_wf g -> balanced g N -> no_init g -> no_overlap g -> positive_on g N -> whole_cycles g N ->
  real_lp_rows g N = Ok rows -> forall omega s, (0 <= omega)%Q -> evenly_spaced g N omega s -> schedule_valid g s ->
  exists St, feasible (lp_columns g (fun _ => 1%Z)) rows omega St.
Proof.
  intros WF B NI NO HN WC E omega s Ho Hp Hv. assert (HK : positive_on g (fun _ => 1%Z)) by (intros i _; lia).
  destruct (real_rows_spec g N WF B NI NO HN WC) as (rows' & E' & Q). rewrite E in E'. injection E' as <-.
  destruct (lp_rows_spec StronglyOptimized g N (fun _ => 1%Z) WF NI NO HN HK WC) as (rr & cs & _ & G & _).
  pose proof (starts_of_periodic g N (fun _ => 1%Z) omega s WF NI HK (even_periodic g N omega s WF HN Hp)) as SS.
  assert (S0 : forall x, In x cs -> satisfies omega (starts_of g s) x).
  { apply (sound_iff StronglyOptimized g N (fun _ => 1%Z) omega (starts_of g s) cs); auto.
    eapply schedule_valid_ext; [exact WF|exact SS|exact Hv]. }
  destruct (shift_exists (starts_of g s) (lp_columns g (fun _ => 1%Z))) as (b & Hb).
  exists (fun e => (starts_of g s e + b)%Q). split; [exact Ho|]. split; [exact Hb|].
  apply (proj2 (Q _ _ Ho)). split.
  - apply (sound_iff StronglyOptimized g N (fun _ => 1%Z) omega (fun e => (starts_of g s e + b)%Q) cs); auto.
    intros x Hx. specialize (S0 x Hx). unfold satisfies in *. lra.
  - apply even_shift. apply (same_even g N omega s); assumption.
Qed.
