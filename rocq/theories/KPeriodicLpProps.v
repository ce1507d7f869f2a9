(** Properties C159 and C160: scheduling by linear programming. *)
From Coq Require Import QArith Lqa.
From Verif Require Import Base Graph KPeriodic ScheduleSpec KPeriodicSpec KPeriodicChannel KPeriodicGraph EventGraph
  KPeriodicEnd KPeriodicProps KPeriodicLp KPeriodicLpSpec KPeriodicLpProofs KPeriodicLpEnd.
Open Scope Z_scope.

(** What the analysis requires of the graph and its two vectors. *)
Definition lp_ready (g : graph) (N K : nat -> Z) : Prop :=
  vertices g <> [] /\ graph_wf g /\ balanced g N /\ no_init g /\ no_overlap g /\ positive_on g N /\ positive_on g K /\ whole_cycles g N.

(** C159: the program can be written, and its rows hold exactly for the starting times of
    valid K-periodic schedules. *)
Theorem C159_rows_are_schedules : forall g N K, lp_ready g N K ->
  exists rows, lp_rows g N K = Ok rows /\ forall omega St, (0 <= omega)%Q ->
    (forall r, In r rows -> row_holds omega St r) <-> schedule_valid g (kperiodic_schedule g N K omega St).
Proof.
  intros g N K (NE & WF & B & NI & NO & HN & HK & WC).
  destruct (lp_rows_spec StronglyOptimized g N K WF NI NO HN HK WC) as (rows & _ & E & _). exists rows. split; [exact E|].
  intros omega St Ho. apply (rows_valid g N K rows); assumption.
Qed.
Print Assumptions C159_rows_are_schedules.

(** C159: with an exact solver, the period returned is the smallest one of all valid
    K-periodic schedules, and nothing is returned only when there is none. *)
Theorem C159_period_optimal : forall solve g N K, exact_solver solve (lp_columns g K) (lp_rows g N K) -> lp_ready g N K ->
  match kperiodic_lp solve g N K with
  | Ok (Some (omega, _)) =>
      (0 <= omega)%Q /\ (exists s, periodic_schedule g N K omega s /\ schedule_valid g s) /\
      forall omega' s, (0 <= omega')%Q -> periodic_schedule g N K omega' s -> schedule_valid g s -> (omega <= omega')%Q
  | Ok None => forall omega s, (0 <= omega)%Q -> periodic_schedule g N K omega s -> ~ schedule_valid g s
  | _ => False
  end.
Proof.
  intros solve g N K HS (NE & WF & B & NI & NO & HN & HK & WC).
  destruct (lp_answer solve g N K HS NE WF B NI NO HN HK WC) as (rows & E & [(omega & St & -> & (Ho & Hc & Hr) & Hopt)|(-> & Hno)]).
  - split; [exact Ho|]. split.
    + exists (kperiodic_schedule g N K omega St). split; [apply kperiodic_schedule_periodic; assumption|].
      apply (rows_valid g N K rows WF B NI NO HN HK WC E omega St Ho). exact Hr.
    + intros omega' s Ho' Hp Hv. destruct (feasible_exists g N K rows WF B NI NO HN HK WC E omega' s Ho' Hp Hv) as (St' & HF). apply (Hopt omega' St' HF).
  - intros omega s Ho Hp Hv. destruct (feasible_exists g N K rows WF B NI NO HN HK WC E omega s Ho Hp Hv) as (St & HF). apply (Hno omega St HF).
Qed.
Print Assumptions C159_period_optimal.

(** C159: when every task has one phase, the schedule returned is valid. *)
Theorem C159_single_phase_schedule : forall solve g N K omega ts, exact_solver solve (lp_columns g K) (lp_rows g N K) -> lp_ready g N K ->
  (forall v, In v (vertices g) -> v_phases v = 1%nat) ->
  kperiodic_lp solve g N K = Ok (Some (omega, ts)) -> schedule_valid g (denoted ts).
Proof.
  intros solve g N K omega ts HS (NE & WF & B & NI & NO & HN & HK & WC) P1 R.
  destruct (lp_answer solve g N K HS NE WF B NI NO HN HK WC) as (rows & E & [(om & St & R' & (Ho & Hc & Hr) & Hopt)|(R' & Hno)]); rewrite R in R'; [|discriminate R'].
  assert (ET : ts = collect_results g N K om St) by congruence. subst ts.
  eapply schedule_valid_ext; [exact WF|apply single_phase_same; assumption|].
  apply (rows_valid g N K rows WF B NI NO HN HK WC E om St Ho). exact Hr.
Qed.
Print Assumptions C159_single_phase_schedule.

(** C159, refuted: with several phases and several occurrences the starts are not returned
    in the order of the executions, whatever the solution: the second entry (first phase of the
    second occurrence) is later than a following one (second phase of the first occurrence). *)
Theorem C159_start_order_refuted : forall solve g N K omega ts i v t, exact_solver solve (lp_columns g K) (lp_rows g N K) -> lp_ready g N K ->
  kperiodic_lp solve g N K = Ok (Some (omega, ts)) ->
  nth_error (vertices g) i = Some v -> nth_error ts i = Some t ->
  (2 <= v_phases v)%nat -> 2 <= K i -> (forall d, In d (v_durations v) -> (0 < d)%Q) ->
  exists a b, (a < b < length (ts_starts t))%nat /\ (nth b (ts_starts t) 0 < nth a (ts_starts t) 0)%Q.
Proof.
  intros solve g N K omega ts i v t HS (NE & WF & B & NI & NO & HN & HK & WC) R V T HP HK2 HD.
  destruct (lp_answer solve g N K HS NE WF B NI NO HN HK WC) as (rows & E & [(om & St & R' & (Ho & Hc & Hr) & Hopt)|(R' & Hno)]); rewrite R in R'; [|discriminate R'].
  assert (ET : ts = collect_results g N K om St) by congruence. subst ts.
  rewrite (results_nth g N K om St i v V) in T. injection T as <-. cbn [ts_starts].
  pose proof (nth_error_In _ _ V) as Iv. destruct (K_nat g K HK i v V) as [Hk Hkp]. set (k := Z.to_nat (K i)) in *.
  assert (k2 : (2 <= k)%nat) by lia. pose proof (NI v Iv) as I0.
  pose proof (proj1 (rows_valid g N K rows WF B NI NO HN HK WC E om St Ho) Hr) as [_ SV]. specialize (SV i v V).
  unfold task_serialised, serialised, start_of in SV.
  assert (KS : forall p q, (p < v_phases v)%nat -> (q < k)%nat ->
     (kperiodic_schedule g N K om St i (q * v_phases v + p)%nat == St (mkEvent (v_id v) (Z.of_nat p + 1) (Z.of_nat q + 1)))%Q).
  { intros p q Lp Lq. unfold kperiodic_schedule. rewrite V. unfold kperiodic_start. rewrite I0. cbn [Nat.ltb Nat.leb]. rewrite Nat.sub_0_r.
    rewrite (Nat.add_comm (q * _) p), Nat.div_add, Nat.mod_add, (Nat.div_small p), (Nat.mod_small p) by lia. cbn [Nat.add].
    fold k. rewrite Nat.mod_small by exact Lq.
    rewrite (Nat.div_small (p + q * v_phases v)) by nia. change (inject_Z (Z.of_nat 0)) with 0%Q. ring. }
  assert (DP : forall m, (0 < exec_duration v m)%Q).
  { intros m. destruct (vertex_ok g WF i v V) as (P0 & D1 & D2 & _). rewrite I0 in D2. apply HD.
    unfold exec_duration, cyclic. destruct (v_init_durations v); [|discriminate D2]. cbn [length Nat.ltb Nat.leb].
    apply nth_In. apply Nat.mod_upper_bound. lia. }
  assert (UP : forall n, (kperiodic_schedule g N K om St i 1%nat < kperiodic_schedule g N K om St i (2 + n)%nat)%Q).
  { induction n as [|n IH].
    - pose proof (SV 1%nat). pose proof (DP 1%nat). change (2 + 0)%nat with 2%nat. lra.
    - pose proof (SV (2 + n)%nat). pose proof (DP (2 + n)%nat). change (2 + S n)%nat with (S (2 + n)). lra. }
  exists 1%nat, k. assert (LE : length (map St (task_columns v (K i))) = (v_phases v * k)%nat) by (rewrite map_length, Hk; apply columns_length; exact I0).
  split; [rewrite LE; nia|].
  assert (X : nth 1 (map St (task_columns v (K i))) 0%Q = St (mkEvent (v_id v) (Z.of_nat 0 + 1) (Z.of_nat 1 + 1))).
  { apply nth_error_nth. apply map_nth_error. rewrite Hk. rewrite <- (columns_nth v k 0 1 I0) by lia. reflexivity. }
  assert (Y : nth k (map St (task_columns v (K i))) 0%Q = St (mkEvent (v_id v) (Z.of_nat 1 + 1) (Z.of_nat 0 + 1))).
  { apply nth_error_nth. apply map_nth_error. rewrite Hk. rewrite <- (columns_nth v k 1 0 I0) by lia. f_equal. lia. }
  rewrite X, Y. rewrite <- (KS 0%nat 1%nat), <- (KS 1%nat 0%nat) by lia.
  specialize (UP (v_phases v - 2)%nat). replace (2 + (v_phases v - 2))%nat with (1 * v_phases v + 0)%nat in UP by lia.
  cbn [Nat.mul Nat.add] in *. exact UP.
Qed.
Print Assumptions C159_start_order_refuted.

(** C159, refuted: the period recorded for a task is that of its cycle divided by the number
    of its phases. *)
Theorem C159_task_period_refuted : forall solve g N K omega ts i v t, lp_ready g N K ->
  kperiodic_lp solve g N K = Ok (Some (omega, ts)) ->
  nth_error (vertices g) i = Some v -> nth_error ts i = Some t ->
  (ts_period t * inject_Z (Z.of_nat (v_phases v)) == task_period omega (K i) (Z.of_nat (v_phases v)) (N i))%Q.
Proof.
  intros solve g N K omega ts i v t (NE & WF & B & NI & NO & HN & HK & WC) R V T.
  unfold kperiodic_lp in R. destruct (vertices g) as [|v0 vs] eqn:EV; [discriminate R|]. rewrite <- EV in *.
  destruct (lp_rows g N K); cbn [bind] in R; try discriminate R.
  destruct (solve (lp_columns g K) a) as [[om St]|]; [|discriminate R].
  assert (ET : ts = collect_results g N K om St) by congruence. assert (EO : omega = om) by congruence. subst ts om.
  rewrite (results_nth g N K omega St i v V) in T. injection T as <-. cbn [ts_period].
  apply period_short; [apply HN|apply HK]; apply (vertex_lt g _ _ V).
Qed.
Print Assumptions C159_task_period_refuted.

(** One task of two phases of duration 1. *)
Definition two_phases : graph := mkGraph [mkVertex 1 2 0 [1%Q; 1%Q] [] 1] [].
Definition two (_ : nat) : Z := 2.
Definition one (_ : nat) : Z := 1.
Example two_ready : lp_ready two_phases two one.
Proof.
  split; [discriminate|]. split; [|split; [|split; [|split; [|split; [|split]]]]].
  - split; [|split].
    + intros v [<-|[]]. split; [cbn; lia|]. split; [reflexivity|]. split; [reflexivity|]. intros x Hx. cbn in Hx. destruct Hx as [<-|[<-|[]]]; discriminate.
    + intros c [].
    + repeat constructor. intros [].
  - intros c [].
  - intros v [<-|[]]. reflexivity.
  - intros v [<-|[]]. reflexivity.
  - intros i _. reflexivity.
  - intros i _. reflexivity.
  - intros [|[|i]] v H; try discriminate H. injection H as <-. exists 1. reflexivity.
Qed.
Example two_rows : lp_rows two_phases two one =
  Ok [mkRow false 1 0 [(mkEvent 1 1 1, (-1)%Q); (mkEvent 1 2 1, 1%Q)];
      mkRow false 1 (inject_Z 2 / inject_Z 2) [(mkEvent 1 1 1, 1%Q); (mkEvent 1 2 1, (-1)%Q)]].
Proof. reflexivity. Qed.

Definition two_start (e : event) : Q := if ev_phase e =? 2 then 1%Q else 0%Q.

(** C159, refuted: every exact solver gives this task a schedule in which its third
    execution starts while the second one runs. *)
Theorem C159_schedule_valid_refuted : forall solve, exact_solver solve (lp_columns two_phases one) (lp_rows two_phases two one) ->
  exists omega ts, kperiodic_lp solve two_phases two one = Ok (Some (omega, ts)) /\ (omega == 2)%Q /\
    ~ schedule_valid two_phases (denoted ts).
Proof.
  intros solve HS. destruct two_ready as (NE & WF & B & NI & NO & HN & HK & WC).
  destruct (lp_answer solve two_phases two one HS NE WF B NI NO HN HK WC) as (rows & E & D). rewrite two_rows in E.
  assert (ER := f_equal (fun o => match o with Ok x => x | _ => [] end) E). cbv beta iota in ER. subst rows. clear E.
  match type of D with context [optimal _ ?rr] => set (rows := rr) in * end.
  assert (F : feasible (lp_columns two_phases one) rows 2 two_start).
  { split; [discriminate|]. split.
    - intros e He. unfold two_start. destruct (ev_phase e =? 2); discriminate.
    - intros r [<-|[<-|[]]]; vm_compute; discriminate. }
  destruct D as [(omega & St & -> & (Ho & _ & Hr) & Hopt)|(_ & Hno)]; [|exfalso; exact (Hno _ _ F)].
  exists omega. eexists. split; [reflexivity|].
  pose proof (Hopt _ _ F) as Up. pose proof (Hr _ (or_introl eq_refl)) as R1. pose proof (Hr _ (or_intror (or_introl eq_refl))) as R2.
  unfold row_holds in R1, R2. cbn [row_fixed row_bound row_omega row_starts weighted] in R1, R2.
  assert (C : (inject_Z 2 / inject_Z 2 == 1)%Q) by reflexivity. rewrite C in R2.
  assert (EO : (omega == 2)%Q) by lra. split; [exact EO|]. intros [_ SV]. specialize (SV 0%nat _ eq_refl 1%nat).
  change ((St (mkEvent 1 2 1) + inject_Z 0 * (omega / (inject_Z 2 / inject_Z 1)) + 1 <= St (mkEvent 1 1 1) + inject_Z 1 * (omega / (inject_Z 2 / inject_Z 1)))%Q) in SV.
  assert (D1 : (omega / (inject_Z 2 / inject_Z 1) == 1)%Q) by (rewrite EO; reflexivity).
  rewrite D1 in SV. change (inject_Z 0) with 0%Q in SV. change (inject_Z 1) with 1%Q in SV. lra.
Qed.
Print Assumptions C159_schedule_valid_refuted.

(** C160: the program of the strictly periodic schedules can be written, and its rows hold
    exactly for valid schedules in which each task starts at even distances. *)
Theorem C160_rows_are_even_schedules : forall g N, lp_ready g N one ->
  exists rows, real_lp_rows g N = Ok rows /\ forall omega St, (0 <= omega)%Q ->
    (forall r, In r rows -> row_holds omega St r) <->
    (schedule_valid g (kperiodic_schedule g N one omega St) /\ evenly_spaced g N omega (kperiodic_schedule g N one omega St)).
Proof. intros g N (NE & WF & B & NI & NO & HN & HK & WC). exact (real_rows_spec g N WF B NI NO HN WC). Qed.
Print Assumptions C160_rows_are_even_schedules.

(** C160: with an exact solver, the period returned is the smallest one of all valid
    schedules with even distances, and nothing is returned only when there is none. *)
Theorem C160_period_optimal : forall solve g N, exact_solver solve (lp_columns g one) (real_lp_rows g N) -> lp_ready g N one ->
  match real_lp solve g N with
  | Ok (Some (omega, _)) =>
      (0 <= omega)%Q /\ (exists s, evenly_spaced g N omega s /\ schedule_valid g s) /\
      forall omega' s, (0 <= omega')%Q -> evenly_spaced g N omega' s -> schedule_valid g s -> (omega <= omega')%Q
  | Ok None => forall omega s, (0 <= omega)%Q -> evenly_spaced g N omega s -> ~ schedule_valid g s
  | _ => False
  end.
Proof.
  intros solve g N HS (NE & WF & B & NI & NO & HN & HK & WC).
  destruct (real_rows_spec g N WF B NI NO HN WC) as (rows & E & Q).
  pose proof (real_feasible_exists g N rows WF B NI NO HN WC E) as FE.
  unfold real_lp. destruct (vertices g) as [|v0 vs] eqn:EV; [contradiction|]. rewrite E. cbn [bind].
  specialize (HS rows E). unfold one in HS. destruct (solve (lp_columns g (fun _ => 1)) rows) as [[omega St]|].
  - destruct HS as ((Ho & Hc & Hr) & Hopt). split; [exact Ho|]. split.
    + exists (kperiodic_schedule g N (fun _ => 1%Z) omega St). destruct (proj1 (Q omega St Ho) Hr). split; assumption.
    + intros omega' s Ho' Hp Hv. destruct (FE omega' s Ho' Hp Hv) as (St' & HF). apply (Hopt omega' St' HF).
  - intros omega s Ho Hp Hv. destruct (FE omega s Ho Hp Hv) as (St & HF). apply (HS omega St HF).
Qed.
Print Assumptions C160_period_optimal.

(** C160: even distances cost throughput, never gain any. *)
Theorem C160_not_faster : forall solve g N omega ts omega' ts',
  exact_solver solve (lp_columns g one) (real_lp_rows g N) -> exact_solver solve (lp_columns g one) (lp_rows g N one) -> lp_ready g N one ->
  real_lp solve g N = Ok (Some (omega, ts)) -> kperiodic_lp solve g N one = Ok (Some (omega', ts')) -> (omega' <= omega)%Q.
Proof.
  intros solve g N omega ts omega' ts' HS HS' H R1 R2.
  pose proof (C160_period_optimal solve g N HS H) as A. rewrite R1 in A. destruct A as (Ho & (s & Hp & Hv) & _).
  pose proof (C159_period_optimal solve g N one HS' H) as B. rewrite R2 in B. destruct B as (_ & _ & B).
  apply (B omega s Ho); [|exact Hv]. destruct H as (NE & WF & _ & _ & _ & HN & _). apply (even_periodic g N omega s WF HN Hp).
Qed.
Print Assumptions C160_not_faster.

(** * The hypotheses are met *)
Example ex_ready : lp_ready ex_graph ex_N ex_K /\ lp_ready ex_graph ex_N one.
Proof.
  destruct ex_positive as (HN & HK & H1).
  assert (WC : whole_cycles ex_graph ex_N).
  { intros [|[|i]] v H; try discriminate H.
    - injection H as <-. exists 2. reflexivity.
    - injection H as <-. exists 3. reflexivity.
    - destruct i; discriminate H. }
  split; (split; [discriminate|]; split; [exact ex_wf|]; split; [exact ex_balanced|]; split; [exact ex_no_init|]; split; [exact ex_no_overlap|]; split; [exact HN|]; split; [assumption|exact WC]).
Qed.

(** The program of this graph at K = (2,3), at the smallest period 6, and a row of it. *)
Definition holds_b (omega : Q) (St : event -> Q) (r : lp_row) : bool :=
  let value := (row_omega r * omega + weighted St (row_starts r))%Q in
  if row_fixed r then Qeq_bool value (row_bound r) else Qle_bool (row_bound r) value.
Definition lp_check (K : nat -> Z) (omega : Q) : bool :=
  match generate_event_graph StronglyOptimized ex_graph ex_N K, lp_rows ex_graph ex_N K with
  | Ok cs, Ok rows =>
      forallb (holds_b omega (fst (compute_starting_time (event_list ex_graph K) cs (Some omega)))) rows && (10 <? Z.of_nat (length rows))
  | _, _ => false
  end.
Example ex_lp : lp_check ex_K 6 = true /\ lp_check ex_K 5 = false.
Proof. vm_compute. auto. Qed.

(** The strictly periodic program of the two-phase task. *)
Example two_real_rows : real_lp_rows two_phases two =
  Ok [mkRow true 0 (- (inject_Z 1 / inject_Z 2)) [(mkEvent 1 1 1, (-1)%Q); (mkEvent 1 2 1, 1%Q)];
      mkRow false 1 0 [(mkEvent 1 1 1, (-1)%Q); (mkEvent 1 2 1, 1%Q)];
      mkRow false 1 (inject_Z 2 / inject_Z 2) [(mkEvent 1 1 1, 1%Q); (mkEvent 1 2 1, (-1)%Q)]].
Proof. reflexivity. Qed.
Example two_even : (forall r, In r (match real_lp_rows two_phases two with Ok rows => rows | _ => [] end) -> row_holds 2 two_start r).
Proof. intros r [<-|[<-|[<-|[]]]]; vm_compute; first [reflexivity|discriminate]. Qed.

(** An exact solver of both programs of the two-phase task. *)
Example two_solver : exact_solver (fun _ _ => Some (2%Q, two_start)) (lp_columns two_phases one) (lp_rows two_phases two one) /\
  exact_solver (fun _ _ => Some (2%Q, two_start)) (lp_columns two_phases one) (real_lp_rows two_phases two).
Proof.
  assert (C : (inject_Z 2 / inject_Z 2 == 1)%Q) by reflexivity.
  split; intros rows E; [rewrite two_rows in E|rewrite two_real_rows in E];
    assert (ER := f_equal (fun o => match o with Ok x => x | _ => [] end) E); cbv beta iota in ER; subst rows; clear E.
  - split.
    + split; [discriminate|]. split; [intros e _; unfold two_start; destruct (ev_phase e =? 2); discriminate|].
      intros r [<-|[<-|[]]]; vm_compute; discriminate.
    + intros omega' St' (_ & _ & Hr). pose proof (Hr _ (or_introl eq_refl)) as R1. pose proof (Hr _ (or_intror (or_introl eq_refl))) as R2.
      unfold row_holds in R1, R2. cbn [row_fixed row_bound row_omega row_starts weighted] in R1, R2. rewrite C in R2. lra.
  - split.
    + split; [discriminate|]. split; [intros e _; unfold two_start; destruct (ev_phase e =? 2); discriminate|].
      intros r [<-|[<-|[<-|[]]]]; vm_compute; first [reflexivity|discriminate].
    + intros omega' St' (_ & _ & Hr). pose proof (Hr _ (or_intror (or_introl eq_refl))) as R1. pose proof (Hr _ (or_intror (or_intror (or_introl eq_refl)))) as R2.
      unfold row_holds in R1, R2. cbn [row_fixed row_bound row_omega row_starts weighted] in R1, R2. rewrite C in R2. lra.
Qed.

(** At K = 2 the same task, with an exact solver: the case of C159_start_order_refuted. *)
Definition four_start (e : event) : Q := inject_Z (2 * (ev_occ e - 1) + (ev_phase e - 1)).
Example four_ready : lp_ready two_phases two two.
Proof. destruct two_ready as (NE & WF & B & NI & NO & HN & HK & WC). split; [exact NE|]. do 6 (split; [assumption|]). exact WC. Qed.
Example four_rows : lp_rows two_phases two two =
  Ok [mkRow false 1 0 [(mkEvent 1 1 1, (-1)%Q); (mkEvent 1 2 1, 1%Q)];
      mkRow false 1 0 [(mkEvent 1 2 1, (-1)%Q); (mkEvent 1 1 2, 1%Q)];
      mkRow false 1 0 [(mkEvent 1 1 2, (-1)%Q); (mkEvent 1 2 2, 1%Q)];
      mkRow false 1 (inject_Z 4 / inject_Z 2) [(mkEvent 1 1 1, 1%Q); (mkEvent 1 2 2, (-1)%Q)]].
Proof. reflexivity. Qed.
Example four_solver : exact_solver (fun _ _ => Some (2%Q, four_start)) (lp_columns two_phases two) (lp_rows two_phases two two).
Proof.
  assert (C : (inject_Z 4 / inject_Z 2 == 2)%Q) by reflexivity.
  intros rows E. rewrite four_rows in E. assert (ER := f_equal (fun o => match o with Ok x => x | _ => [] end) E); cbv beta iota in ER; subst rows; clear E.
  split.
  - split; [discriminate|]. split; [intros e [<-|[<-|[<-|[<-|[]]]]]; vm_compute; discriminate|].
    intros r [<-|[<-|[<-|[<-|[]]]]]; vm_compute; discriminate.
  - intros omega' St' (_ & _ & Hr). pose proof (Hr _ (or_introl eq_refl)) as R1. pose proof (Hr _ (or_intror (or_introl eq_refl))) as R2.
    pose proof (Hr _ (or_intror (or_intror (or_introl eq_refl)))) as R3. pose proof (Hr _ (or_intror (or_intror (or_intror (or_introl eq_refl))))) as R4.
    unfold row_holds in R1, R2, R3, R4. cbn [row_fixed row_bound row_omega row_starts weighted] in R1, R2, R3, R4. rewrite C in R4. lra.
Qed.
Example four_returned : kperiodic_lp (fun _ _ => Some (2%Q, four_start)) two_phases two two
  = Ok (Some (2%Q, [mkTaskSchedule (2 / (inject_Z 2 / inject_Z 2)) [inject_Z 0; inject_Z 2; inject_Z 1; inject_Z 3]])).
Proof. reflexivity. Qed.
