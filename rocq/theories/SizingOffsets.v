(** Offset generators, the strictly periodic program, and the existence of capacities. *)
From Coq Require Import QArith Qround Lqa Lia.
From Verif Require Import Base Graph Commons CommonsProofs KPeriodic ScheduleSpec ScheduleCore KPeriodicSpec KPeriodicProofs KPeriodicChannel KPeriodicGraph KPeriodicEnd
  KIterSpec SPeriodicSpec SPeriodicProofs DseSpec Sizing SizingSpec SizingCore SizingLp SizingFeasible SizingProofs SizingFinal SizingEnd.
Open Scope Z_scope.

Lemma elapsed_nn v n : vertex_wf v -> (0 <= elapsed v n)%Q.
Proof. intros W. induction n; cbn [elapsed]; [lra|]. pose proof (exec_duration_nn v n W). lra. Qed.
Lemma elapsed_le v a b : vertex_wf v -> (a <= b)%nat -> (elapsed v a <= elapsed v b)%Q.
Proof. intros W H. induction H; [lra|]. cbn [elapsed]. pose proof (exec_duration_nn v m W). lra. Qed.

Section V.
Variable v : vertex.
Hypothesis W : vertex_wf v.
Hypothesis I0 : v_init_phases v = 0%nat.

Lemma burst_loop_ok n : forall a, (a + n <= v_phases v)%nat ->
  burst_loop v (map (fun j => Z.of_nat j + 1) (seq a n)) (elapsed v (pred a)) = Ok (map (elapsed v) (seq a n)).
Proof.
  induction n as [|n IH]; intros a La; [reflexivity|]. cbn [seq map burst_loop].
  assert (E : (if Z.of_nat a + 1 >? 1 then do d <- vertex_duration v (Z.of_nat a + 1 - 1); Ok (elapsed v (pred a) + d)%Q else Ok (elapsed v (pred a))) = Ok (elapsed v a)).
  { destruct a as [|a]; [reflexivity|]. destruct (Z.of_nat (S a) + 1 >? 1) eqn:G; [|lia]. replace (Z.of_nat (S a) + 1 - 1) with (Z.of_nat a + 1) by lia.
    rewrite (phase_duration v a W I0) by lia. reflexivity. }
  rewrite E. cbn [bind]. change (elapsed v a) with (elapsed v (pred (S a))) at 1. rewrite IH by lia. reflexivity.
Qed.
Lemma burst_ok : burst_offsets_task v = Ok (map (elapsed v) (seq 0 (v_phases v))).
Proof. unfold burst_offsets_task. rewrite zrange_seq. exact (burst_loop_ok (v_phases v) 0%nat ltac:(lia)). Qed.

Lemma sum_durations_ok n : forall a, (a + n <= v_phases v)%nat -> sum_durations v (map (fun j => Z.of_nat j + 1) (seq a n)) (elapsed v a) = Ok (elapsed v (a + n)).
Proof.
  induction n as [|n IH]; intros a La; [cbn; rewrite Nat.add_0_r; reflexivity|]. cbn [seq map sum_durations].
  rewrite (phase_duration v a W I0) by lia. cbn [bind]. change (elapsed v a + exec_duration v a)%Q with (elapsed v (S a)). rewrite IH by lia. f_equal. f_equal. lia.
Qed.

Definition average_at (muti lti : Q) (a : nat) : Q := (if Qeq_bool lti 0 then 0 else elapsed v a * (muti / lti))%Q.
Lemma average_loop_ok muti lti n : forall a, (a + n <= v_phases v)%nat ->
  average_loop v muti lti (map (fun j => Z.of_nat j + 1) (seq a n)) (elapsed v (pred a)) = Ok (map (average_at muti lti) (seq a n)).
Proof.
  induction n as [|n IH]; intros a La; [reflexivity|]. cbn [seq map average_loop].
  assert (E : (if Z.of_nat a + 1 >? 1 then do d <- vertex_duration v (Z.of_nat a + 1 - 1); Ok (elapsed v (pred a) + d)%Q else Ok (elapsed v (pred a))) = Ok (elapsed v a)).
  { destruct a as [|a]; [reflexivity|]. destruct (Z.of_nat (S a) + 1 >? 1) eqn:G; [|lia]. replace (Z.of_nat (S a) + 1 - 1) with (Z.of_nat a + 1) by lia.
    rewrite (phase_duration v a W I0) by lia. reflexivity. }
  rewrite E. cbn [bind]. change (elapsed v a) with (elapsed v (pred (S a))) at 1. rewrite IH by lia. reflexivity.
Qed.
Lemma nth_map_seq (f : nat -> Q) n a : (a < n)%nat -> nth a (map f (seq 0 n)) 0%Q = f a.
Proof.
  intros H. rewrite (nth_indep _ 0%Q (f 0%nat)) by (rewrite map_length, seq_length; exact H). rewrite map_nth, seq_nth by exact H. reflexivity.
Qed.

(** A phase of a task of total duration zero takes no time. *)
Lemma elapsed_zero a n : (a < n)%nat -> (elapsed v n == 0)%Q -> (exec_duration v a == 0)%Q.
Proof using W.
  clear I0.
  intros H E. pose proof (elapsed_le v (S a) n W ltac:(lia)) as A. cbn [elapsed] in A. pose proof (elapsed_nn v a W). pose proof (exec_duration_nn v a W). lra.
Qed.
End V.

Section G.
Variables (ilp : bool) (theta : nat -> Z) (g : graph) (N : nat -> Z) (period : Q).
Hypothesis Hwf : graph_wf g.
Hypothesis Hbal : balanced g N.
Hypothesis Hno : no_init g.
Hypothesis Hcyc : whole_cycles g N.
Hypothesis Hper : (0 < period)%Q.

Lemma burst_fit offs : work_fits g N period -> (forall i v, nth_error (vertices g) i = Some v -> burst_offsets_task v = Ok (offs i)) -> offsets_fit g N offs period.
Proof.
  intros HW HO i v E. specialize (HO i v E). specialize (HW i v E). pose proof (vertex_ok g Hwf i v E) as W. pose proof (Hno v (nth_error_In _ _ E)) as I0.
  rewrite (burst_ok v W I0) in HO. assert (Eo : offs i = map (elapsed v) (seq 0 (v_phases v))) by congruence. rewrite Eo. pose proof W as (Pp & _).
  split; [rewrite map_length, seq_length; reflexivity|]. split; intros a La.
  - rewrite !nth_map_seq by lia. cbn [elapsed]. lra.
  - rewrite !nth_map_seq by lia. rewrite <- La in HW |- *. cbn [elapsed] in *. lra.
Qed.

Lemma average_fit offs : work_fits g N period -> (forall i v, nth_error (vertices g) i = Some v -> average_offsets_task period v (N i) = Ok (offs i)) -> offsets_fit g N offs period.
Proof.
  intros HW HO i v E. specialize (HO i v E). specialize (HW i v E). pose proof (vertex_ok g Hwf i v E) as W. pose proof (Hno v (nth_error_In _ _ E)) as I0. pose proof W as (Pp & _).
  destruct (Hcyc i v E) as [Np _]. unfold average_offsets_task in HO. rewrite time_over_ok in HO by lia. cbn [bind] in HO.
  set (muti := (period * inject_Z (Z.of_nat (v_phases v)) / inject_Z (N i))%Q) in *.
  destruct (cassert (negb (Qle_bool muti 0))) eqn:EA; cbn [bind] in HO; try discriminate. clear a EA.
  rewrite zrange_seq in HO. change 0%Q with (elapsed v 0) in HO at 1. rewrite (sum_durations_ok v W I0 (v_phases v) 0%nat ltac:(lia)) in HO. cbn [bind] in HO.
  change (0 + v_phases v)%nat with (v_phases v) in HO. set (lti := elapsed v (v_phases v)) in *.
  destruct (Z.eqb_spec (Z.of_nat (v_phases v)) 1) as [P1|P1].
  - assert (Eo : offs i = [0%Q]) by congruence. rewrite Eo. assert (v_phases v = 1%nat) by lia. split; [cbn; lia|]. split; [intros; lia|].
    intros a La. assert (a = 0%nat) by lia. subst a. cbn [nth]. unfold lti in HW. rewrite H in HW. cbn [elapsed] in HW. lra.
  - change 0%Q with (elapsed v (pred 0)) in HO. rewrite (average_loop_ok v W I0 muti lti (v_phases v) 0%nat ltac:(lia)) in HO.
    assert (Eo : offs i = map (average_at v muti lti) (seq 0 (v_phases v))) by congruence. rewrite Eo. split; [rewrite map_length, seq_length; reflexivity|].
    pose proof (elapsed_nn v (v_phases v) W) as Ln. fold lti in Ln.
    assert (Mp : (0 <= muti)%Q) by lra.
    destruct (Qeq_bool lti 0) eqn:Z0.
    + apply Qeq_bool_iff in Z0. assert (Zd : forall a, (a < v_phases v)%nat -> (exec_duration v a == 0)%Q) by (intros a La; exact (elapsed_zero v W a _ La Z0)).
      assert (Av : forall a, average_at v muti lti a = 0%Q) by (intros a; unfold average_at; rewrite (proj2 (Qeq_bool_iff lti 0) Z0); reflexivity).
      split; intros a La; rewrite !nth_map_seq by lia; rewrite !Av, Zd by lia; lra.
    + apply Qeq_bool_neq in Z0. assert (Lp : (0 < lti)%Q) by lra.
      assert (Av : forall a, average_at v muti lti a = (elapsed v a * (muti / lti))%Q).
      { intros a. unfold average_at. destruct (Qeq_bool lti 0) eqn:Z1; [|reflexivity]. apply Qeq_bool_iff in Z1. contradiction. }
      set (r := (muti / lti)%Q) in *.
      assert (R1 : (1 <= r)%Q) by (unfold r; apply Qle_shift_div_l; [exact Lp|lra]).
      assert (Rm : (lti * r == muti)%Q) by (unfold r; field; exact Z0).
      split; intros a La; rewrite !nth_map_seq by lia; rewrite !Av; pose proof (exec_duration_nn v a W) as Dn; cbn [elapsed].
      * assert ((exec_duration v a <= exec_duration v a * r)%Q) by nra. lra.
      * assert (X : (lti == elapsed v a + exec_duration v a)%Q) by (unfold lti; rewrite <- La; reflexivity).
        assert ((exec_duration v a <= exec_duration v a * r)%Q) by nra. rewrite <- Rm. rewrite X. lra.
Qed.

(** ** Evenly spaced starts. *)
Definition shift (i : nat) : Q := (period / inject_Z (N i))%Q.
Definition even_offsets (v : vertex) (i : nat) : list Q := if (v_phases v =? 1)%nat then [0%Q] else map (fun a => (inject_Z (Z.of_nat a) * shift i)%Q) (seq 0 (v_phases v)).

Lemma strict_loop_spec v sh (W : vertex_wf v) (I0 : v_init_phases v = 0%nat) n : forall a, (a + n <= v_phases v)%nat ->
  exists r, (fix loop (ks : list Z) : outcome (option (list Q)) :=
          match ks with
          | [] => Ok (Some [])
          | k :: ks' => do d <- vertex_duration v k;
                        if negb (Qle_bool d sh) then Ok None
                        else do r <- loop ks'; Ok (option_map (cons (inject_Z (k - 1) * sh)%Q) r)
          end) (map (fun j => Z.of_nat j + 1) (seq a n)) = Ok r /\
    ((exists l, r = Some l) <-> forall b, (a <= b < a + n)%nat -> (exec_duration v b <= sh)%Q) /\
    (forall l, r = Some l -> l = map (fun b => (inject_Z (Z.of_nat b) * sh)%Q) (seq a n)).
Proof.
  induction n as [|n IH]; intros a La.
  - exists (Some []). split; [reflexivity|]. split; [split; [intros _ b Lb; lia|intros _; eexists; reflexivity]|]. intros l [=<-]. reflexivity.
  - cbn [seq map]. rewrite (phase_duration v a W I0) by lia. cbn [bind]. destruct (Qle_bool (exec_duration v a) sh) eqn:Le; cbn [negb].
    + apply Qle_bool_iff in Le. destruct (IH (S a) ltac:(lia)) as (r & E & R1 & R2). rewrite E. cbn [bind]. eexists. split; [reflexivity|]. split.
      * split.
        -- intros [l El] b Lb. destruct (Nat.eq_dec b a) as [->|Ne]; [exact Le|]. apply R1; [|lia]. destruct r; [eexists; reflexivity|discriminate].
        -- intros H. destruct (proj2 R1) as [l ->]; [intros; apply H; lia|]. eexists. reflexivity.
      * intros l El. destruct r as [l'|]; [|discriminate]. cbn in El. injection El as <-. rewrite (R2 l' eq_refl). replace (Z.of_nat a + 1 - 1) with (Z.of_nat a) by lia. reflexivity.
    + exists None. split; [reflexivity|]. split; [split; [intros [l [=]]|]|intros l [=]]. intros H. exfalso. specialize (H a ltac:(lia)).
      apply Qle_bool_iff in H. congruence.
Qed.

Lemma strict_task_spec i v : nth_error (vertices g) i = Some v -> exists r, strict_offsets_task period v (N i) = Ok r /\
  ((exists l, r = Some l) <-> ((1 < v_phases v)%nat -> forall a, (a < v_phases v)%nat -> (exec_duration v a <= shift i)%Q)) /\
  (forall l, r = Some l -> l = even_offsets v i).
Proof.
  intros E. pose proof (vertex_ok g Hwf i v E) as W. pose proof (Hno v (nth_error_In _ _ E)) as I0. pose proof W as (Pp & _). destruct (Hcyc i v E) as [Np _].
  unfold strict_offsets_task. rewrite time_over_ok by lia. cbn [bind]. fold (shift i). unfold even_offsets.
  destruct (Z.eqb_spec (Z.of_nat (v_phases v)) 1) as [P1|P1].
  - exists (Some [0%Q]). split; [reflexivity|]. assert (v_phases v = 1)%nat as -> by lia. split; [split; [intros; lia|intros _; eexists; reflexivity]|]. intros l [=<-]. reflexivity.
  - rewrite zrange_seq. destruct (strict_loop_spec v (shift i) W I0 (v_phases v) 0%nat ltac:(lia)) as (r & E1 & R1 & R2). exists r. split; [exact E1|].
    destruct (Nat.eqb_spec (v_phases v) 1); [lia|]. split; [|exact R2]. rewrite R1. split; intros H; [intros _ a La; apply H; lia|intros b Lb; apply H; lia].
Qed.

(** Phases of tasks with several phases fit the interval between two starts. *)
Definition phases_fit : Prop := forall i v, nth_error (vertices g) i = Some v -> (1 < v_phases v)%nat -> forall a, (a < v_phases v)%nat -> (exec_duration v a <= shift i)%Q.

Lemma strict_offsets_spec : exists r, strict_offsets period g N = Ok r /\ ((exists l, r = Some l) <-> phases_fit) /\
  (forall l, r = Some l -> forall i v, nth_error (vertices g) i = Some v -> nth i l [] = even_offsets v i).
Proof.
  unfold strict_offsets. destruct (Qeq_bool period 0) eqn:E0; [apply Qeq_bool_iff in E0; lra|].
  assert (G : forall l a, (forall k v, nth_error l k = Some v -> nth_error (vertices g) (a + k) = Some v) ->
    exists r, strict_offsets_all period N (combine (seq a (length l)) l) = Ok r /\
     ((exists o, r = Some o) <-> forall k v, nth_error l k = Some v -> (1 < v_phases v)%nat -> forall b, (b < v_phases v)%nat -> (exec_duration v b <= shift (a + k))%Q) /\
     (forall o, r = Some o -> forall k v, nth_error l k = Some v -> nth k o [] = even_offsets v (a + k))).
  { induction l as [|v l IH]; intros a Ha.
    - exists (Some []). split; [reflexivity|]. split; [split; [intros _ [|k] v [=]|intros _; eexists; reflexivity]|]. intros o _ [|k] v [=].
    - cbn [length seq combine strict_offsets_all]. pose proof (Ha 0%nat v eq_refl) as Ev. rewrite Nat.add_0_r in Ev.
      destruct (strict_task_spec a v Ev) as (r0 & E & R1 & R2). rewrite E. cbn [bind].
      destruct (IH (S a)) as (r & E' & S1 & S2). { intros k w Hk. specialize (Ha (S k) w Hk). rewrite <- Ha. f_equal. lia. }
      destruct r0 as [l0|].
      + rewrite E'. cbn [bind]. eexists. split; [reflexivity|]. pose proof (proj1 R1 (ex_intro _ _ eq_refl)) as Fv. split.
        * split.
          -- intros [o Eo] [|k] w Hk; cbn in Hk.
             ++ injection Hk as <-. rewrite Nat.add_0_r. exact Fv.
             ++ replace (a + S k)%nat with (S a + k)%nat by lia. apply (proj1 S1); [|exact Hk]. destruct r; [eexists; reflexivity|discriminate].
          -- intros H. destruct (proj2 S1) as [o ->]; [|eexists; reflexivity]. intros k w Hk. replace (S a + k)%nat with (a + S k)%nat by lia. apply H. exact Hk.
        * intros o Eo. destruct r as [o'|]; [|discriminate]. cbn in Eo. injection Eo as <-. intros [|k] w Hk; cbn in Hk.
          -- injection Hk as <-. rewrite Nat.add_0_r. exact (R2 l0 eq_refl).
          -- cbn [nth]. rewrite (S2 o' eq_refl k w Hk). f_equal. lia.
      + exists None. split; [reflexivity|]. split; [split; [intros [o [=]]|]|intros o [=]]. intros H. exfalso. destruct (proj2 R1) as [z [=]].
        specialize (H 0%nat v eq_refl). rewrite Nat.add_0_r in H. exact H. }
  destruct (G (vertices g) 0%nat ltac:(intros; assumption)) as (r & E & R1 & R2). exists r. split; [exact E|]. split; [rewrite R1; reflexivity|exact R2].
Qed.

Lemma even_offset_at v i a : (0 < v_phases v)%nat -> (a < v_phases v)%nat -> (nth a (even_offsets v i) 0 == inject_Z (Z.of_nat a) * shift i)%Q.
Proof.
  intros Pp La. unfold even_offsets. destruct (Nat.eqb_spec (v_phases v) 1) as [P1|P1].
  - assert (a = 0)%nat as -> by lia. cbn. ring.
  - rewrite nth_map_seq by exact La. reflexivity.
Qed.

(** An evenly spaced schedule is a 1-periodic one with even offsets. *)
Lemma evenly_iff offs s : (forall i v, nth_error (vertices g) i = Some v -> offs i = even_offsets v i) ->
  (evenly_spaced g N period s <-> one_periodic g N period s /\ follows_offsets g offs s).
Proof.
  intros HO. split.
  - intros H. split.
    + intros i v m E. assert (Li : (i < length (vertices g))%nat) by (apply nth_error_Some; congruence). destruct (Hcyc i v E) as [Np _].
      cbv beta. change (Z.to_nat 1) with 1%nat. rewrite Nat.mul_1_l. rewrite (H i (m + v_phases v)%nat Li), (H i m Li). unfold task_period.
      rewrite Nat2Z.inj_add, inject_Z_plus, Z.mul_1_l. field. apply nz_inject. lia.
    + exists (fun i => s i 0%nat). intros i v a E La. assert (Li : (i < length (vertices g))%nat) by (apply nth_error_Some; congruence).
      rewrite (HO i v E), even_offset_at by lia. apply (H i a Li).
  - intros [Per (base & Fol)] i m Li. destruct (nth_error (vertices g) i) as [v|] eqn:E; [|apply nth_error_None in E; lia]. destruct (Hcyc i v E) as [Np _].
    pose proof (vertex_ok g Hwf i v E) as (Pp & _). pose proof (nz_inject (N i) ltac:(lia)) as Nz.
    pose proof (Nat.div_mod m (v_phases v) ltac:(lia)) as Dm. pose proof (Nat.mod_upper_bound m (v_phases v) ltac:(lia)) as Um.
    set (q := (m / v_phases v)%nat) in *. set (a := (m mod v_phases v)%nat) in *. assert (Em : m = (a + q * v_phases v)%nat) by lia. rewrite Em. clear Dm. clearbody q a.
    rewrite (one_periodic_multiple g N period s Per i v E a q), (Fol i v a E Um), (Fol i v 0%nat E Pp), (HO i v E), !even_offset_at by lia.
    unfold SizingLp.mu_of, shift. rewrite (vertex_at_ok _ _ _ E), Nat2Z.inj_add, Nat2Z.inj_mul, inject_Z_plus, inject_Z_mult. change (inject_Z (Z.of_nat 0)) with 0%Q. field. exact Nz.
Qed.

Lemma runs_evenly_iff offs cap : (forall i v, nth_error (vertices g) i = Some v -> offs i = even_offsets v i) ->
  (runs_evenly g N period cap <-> runs_within_offsets g N offs period cap).
Proof.
  intros HO. unfold runs_evenly, runs_within_offsets. split.
  - intros (s & A & B & C). exists s. destruct (proj1 (evenly_iff offs s HO) A). repeat split; try assumption; apply B.
  - intros (s & A & A' & B & C). exists s. split; [apply (evenly_iff offs s HO); split; assumption|]. split; assumption.
Qed.

Lemma even_phases_fit s : evenly_spaced g N period s -> schedule_valid g s -> forall i v, nth_error (vertices g) i = Some v -> forall a, (exec_duration v a <= shift i)%Q.
Proof.
  intros Ev [_ Ser] i v E a. assert (Li : (i < length (vertices g))%nat) by (apply nth_error_Some; congruence). specialize (Ser i v E a). unfold start_of in Ser.
  rewrite (Ev i a Li), (Ev i (S a) Li) in Ser. rewrite Nat2Z.inj_succ, <- Z.add_1_r, inject_Z_plus in Ser. fold (shift i) in Ser. change (inject_Z 1) with 1%Q in Ser. lra.
Qed.

Lemma even_offsets_fit offs : (forall i v, nth_error (vertices g) i = Some v -> offs i = even_offsets v i) ->
  (forall i v a, nth_error (vertices g) i = Some v -> (a < v_phases v)%nat -> (exec_duration v a <= shift i)%Q) -> offsets_fit g N offs period.
Proof.
  intros HO HF i v E. pose proof (vertex_ok g Hwf i v E) as (Pp & _). destruct (Hcyc i v E) as [Np _]. rewrite (HO i v E).
  split; [unfold even_offsets; destruct (Nat.eqb_spec (v_phases v) 1) as [->|]; [reflexivity|rewrite map_length, seq_length; reflexivity]|].
  split; intros a La; pose proof (HF i v a E ltac:(lia)) as F; rewrite !even_offset_at by lia.
  - rewrite Nat2Z.inj_succ, <- Z.add_1_r, inject_Z_plus. change (inject_Z 1) with 1%Q. lra.
  - assert (X : (period * inject_Z (Z.of_nat (v_phases v)) / inject_Z (N i) == inject_Z (Z.of_nat (v_phases v)) * shift i)%Q) by (unfold shift; field; apply nz_inject; lia).
    rewrite X. rewrite <- La. rewrite Nat2Z.inj_succ, <- Z.add_1_r, inject_Z_plus. change (inject_Z 1) with 1%Q. change (inject_Z (Z.of_nat 0)) with 0%Q. lra.
Qed.

(** ** Capacities always exist. *)
Lemma big_enough (t b : Q) : (0 < t)%Q -> exists r0, forall a, a <= r0 -> (inject_Z a * t <= b)%Q.
Proof.
  intros Ht. exists (Qfloor (b / t)). intros a Ha. pose proof (Qfloor_le (b / t)) as F. assert (A : (inject_Z a <= b / t)%Q) by (eapply Qle_trans; [rewrite <- Zle_Qle; exact Ha|exact F]).
  apply (Qmult_le_compat_r _ _ t) in A; [|lra]. assert ((b / t * t == b)%Q) by (field; lra). lra.
Qed.
Lemma finite_max (P : nat -> Z -> Prop) n : (forall i, (i < n)%nat -> exists r0, forall r, r0 <= r -> P i r) -> exists r0, forall i r, (i < n)%nat -> r0 <= r -> P i r.
Proof.
  induction n as [|n IH]; intros H; [exists 0; intros; lia|]. destruct IH as [r1 H1]; [intros; apply H; lia|]. destruct (H n ltac:(lia)) as [r2 H2].
  exists (Z.max r1 r2). intros i r Li Lr. destruct (Nat.eq_dec i n) as [->|Ne]; [apply H2; lia|apply H1; lia].
Qed.

Lemma capacities_exist s : one_periodic g N period s -> schedule_valid g s -> exists cap, fits g cap s.
Proof.
  intros Per [Val Ser].
  assert (One : forall c, In c (edges g) -> exists cap, within_capacity cap (e_preload c) (start_of s (e_src c)) (prod_rate c) (end_of s g (e_dst c)) (cons_rate c)).
  { intros c Hin. destruct (ends g Hwf c Hin) as (vs & vd & Vs & Vd). destruct (mu_tick g N period Hwf Hbal Hno Hcyc Hper c vs vd Hin Vs Vd) as (_ & _ & _ & Tp).
    set (t := tick g N period c) in *.
    destruct (finite_max (fun i r => forall j a, (j < v_phases vd)%nat -> a < sumf (prod_rate c) (S i) - sumf (cons_rate c) j - r ->
                (s (e_dst c) j + exec_duration vd j + inject_Z a * t <= s (e_src c) i)%Q) (v_phases vs)) as [r0 Hr].
    { intros i Li. destruct (finite_max (fun j r => forall a, a < sumf (prod_rate c) (S i) - sumf (cons_rate c) j - r ->
                (s (e_dst c) j + exec_duration vd j + inject_Z a * t <= s (e_src c) i)%Q) (v_phases vd)) as [r0 Hr].
      - intros j Lj. destruct (big_enough t (s (e_src c) i - s (e_dst c) j - exec_duration vd j) Tp) as [a0 Ha].
        exists (sumf (prod_rate c) (S i) - sumf (cons_rate c) j - a0). intros r Lr a La. specialize (Ha a ltac:(lia)). lra.
      - exists r0. intros r Lr j a Lj La. exact (Hr j r Lj Lr a La). }
    exists (Z.max 0 r0 + e_preload c). apply (room_suffices g N period Hwf Hbal Hno Hcyc Hper s Per Ser c vs vd Hin Vs Vd); [lia|].
    replace (Z.max 0 r0 + e_preload c - e_preload c) with (Z.max 0 r0) by lia. intros i j a Li Lj _ _ Hd. unfold due in Hd. apply (Hr i (Z.max 0 r0) Li ltac:(lia) j a Lj Hd). }
  assert (G : forall l, (forall c, In c l -> In c (edges g)) -> exists caps : list Z, forall k c, nth_error l k = Some c ->
     within_capacity (nth k caps 0) (e_preload c) (start_of s (e_src c)) (prod_rate c) (end_of s g (e_dst c)) (cons_rate c)).
  { induction l as [|c l IH]; intros H; [exists []; intros [|k] c [=]|]. destruct IH as [caps Hc]; [intros; apply H; right; assumption|].
    destruct (One c (H c (or_introl eq_refl))) as [z Hz]. exists (z :: caps). intros [|k] c' E; cbn in E; [injection E as <-; exact Hz|exact (Hc k c' E)]. }
  destruct (G (edges g) ltac:(auto)) as [caps Hc]. exists (fun k => nth k caps 0). exact Hc.
Qed.
End G.
