(** The MINMAX offsets with an exact solver. *)
From Coq Require Import QArith Qminmax Lqa Lia ZifyBool ZifyNat.
From Verif Require Import Base Graph Commons KPeriodic ScheduleSpec ScheduleCore KIterSpec SPeriodicProofs Sizing SizingSpec SizingLp SizingProofs SizingOffsets KPeriodicGraph
  Wiggers WiggersSpec WiggersProofs WiggersLate WiggersEnd MinMax MinMaxSpec MinMaxProofs.
Open Scope Z_scope.

Definition top (f : nat -> Q) (n : nat) : Q := fold_right (fun a acc => Qmax (f a) acc) 0%Q (seq 0 n).
Lemma top_le f n a : (a < n)%nat -> (f a <= top f n)%Q.
Proof.
  unfold top. intros H. assert (G : In a (seq 0 n)) by (apply in_seq; lia). revert G. generalize (seq 0 n). clear. induction l as [|b l IH]; intros G; [destruct G|]. cbn [fold_right].
  destruct G as [->|G]; [apply Q.le_max_l|]. specialize (IH G). pose proof (Q.le_max_r (f b) (fold_right (fun a acc => Qmax (f a) acc) 0%Q l)). lra.
Qed.
Lemma map_nth_seq (l : list Q) : map (fun j => nth j l 0%Q) (seq 0 (length l)) = l.
Proof.
  induction l as [|x l IH]; [reflexivity|]. cbn [length seq map nth]. f_equal. rewrite <- seq_shift, map_map. exact IH.
Qed.
Lemma covers_exist g i v cycle o : exists D E, covers g i v cycle o D E.
Proof.
  set (at_edge := fun (f : edge -> nat -> Q) (k : nat) => match nth_error (edges g) k with Some c => top (f c) (v_phases v) | None => 0%Q end).
  exists (fun k => Qmax (at_edge (fun c a => nth a o 0 + exec_duration v a + cycle / inject_Z (sumZ (e_in c)) * inject_Z (out_late c a))%Q k)
                        (at_edge (fun c a => nth a o 0 + exec_duration v a + cycle / inject_Z (sumZ (e_out c)) * inject_Z (in_late c a))%Q k)),
    (fun k => Qmax (at_edge (fun c a => cycle / inject_Z (sumZ (e_in c)) * inject_Z (out_early c a) - nth a o 0)%Q k)
                   (at_edge (fun c a => cycle / inject_Z (sumZ (e_out c)) * inject_Z (in_early c a) - nth a o 0)%Q k)).
  intros k c a Hk Ha. cbv zeta.
  assert (A : forall f, (f c a <= at_edge f k)%Q) by (intros f; unfold at_edge; rewrite Hk; exact (top_le (f c) _ a Ha)). clearbody at_edge.
  split; intros _; split.
  - eapply Qle_trans; [exact (A (fun c a => nth a o 0 + exec_duration v a + cycle / inject_Z (sumZ (e_in c)) * inject_Z (out_late c a))%Q)|apply Q.le_max_l].
  - eapply Qle_trans; [exact (A (fun c a => cycle / inject_Z (sumZ (e_in c)) * inject_Z (out_early c a) - nth a o 0)%Q)|apply Q.le_max_l].
  - eapply Qle_trans; [exact (A (fun c a => nth a o 0 + exec_duration v a + cycle / inject_Z (sumZ (e_out c)) * inject_Z (in_late c a))%Q)|apply Q.le_max_r].
  - eapply Qle_trans; [exact (A (fun c a => cycle / inject_Z (sumZ (e_out c)) * inject_Z (in_early c a) - nth a o 0)%Q)|apply Q.le_max_r].
Qed.

Lemma admissible_work v cycle o : (0 < v_phases v)%nat -> admissible v cycle o -> (elapsed v (v_phases v) <= cycle)%Q /\ forall a, (a < v_phases v)%nat -> (elapsed v a <= nth a o 0)%Q.
Proof.
  intros Pp (_ & Z0 & St & La). assert (G : forall a, (a < v_phases v)%nat -> (elapsed v a <= nth a o 0)%Q).
  { induction a as [|a IH]; intros H; cbn [elapsed]; [lra|]. specialize (IH ltac:(lia)). specialize (St a H). lra. }
  split; [|exact G]. destruct (v_phases v) as [|n]; [lia|]. cbn [elapsed]. specialize (G n ltac:(lia)). specialize (La n eq_refl). lra.
Qed.

Section G.
Variables (msolve : mlp -> option (mvar -> Q)) (theta : nat -> Z) (g : graph) (N : nat -> Z) (period : Q).
Hypothesis Hwf : graph_wf g.
Hypothesis Hno : no_init g.
Hypothesis Hcyc : whole_cycles g N.
Hypothesis Hper : (0 < period)%Q.
Hypothesis Hsol : forall i v p, nth_error (vertices g) i = Some v -> mm_lp theta period g N i v = Ok p -> msolves msolve p.

Lemma point_of v o D E : length o = v_phases v -> exists x : mvar -> Q, offsets_of v x = o /\ (forall k, x (Dl k) = D k) /\ (forall k, x (Ep k) = E k).
Proof using.
  clear. intros L. exists (fun y => match y with Ct k => nth (Z.to_nat (k - 1)) o 0%Q | Dl k => D k | Ep k => E k end). split; [|split; reflexivity].
  rewrite offsets_of_seq, <- L, <- (map_nth_seq o) at 1. rewrite map_nth_seq at 1. rewrite <- (map_nth_seq o) at 2. rewrite L. apply map_ext. intros j. unfold ct. f_equal. lia.
Qed.

Definition minmax_is (i : nat) (v : vertex) (o : list Q) : Prop :=
  (v_phases v = 1%nat -> o = [0%Q]) /\
  ((2 <= v_phases v)%nat -> admissible v (cycle_time N period i v) o /\ tightest theta g i v (cycle_time N period i v) o).

Lemma mm_task_ok i v : nth_error (vertices g) i = Some v -> ((2 <= v_phases v)%nat -> ~ self_loop g i /\ (elapsed v (v_phases v) <= cycle_time N period i v)%Q) ->
  exists o, mm_task msolve theta period g N i v = Ok (Some o) /\ minmax_is i v o.
Proof.
  intros E H. pose proof (vertex_ok g Hwf i v E) as W. pose proof W as (Pp & _). unfold mm_task. destruct (Z.of_nat (v_phases v) <=? 1) eqn:E1.
  - eexists. split; [reflexivity|]. split; [reflexivity|intros; lia].
  - destruct (H ltac:(lia)) as [NL Fit]. destruct (program_ok theta g N period Hwf Hno Hcyc i v E NL) as (p & Elp & F & Ob). rewrite Elp. cbn [bind]. pose proof (Hsol i v p E Elp) as S. unfold msolves in S.
    set (cy := cycle_time N period i v) in *. destruct (msolve p) as [x|].
    + destruct S as [Fx Op]. eexists. split; [reflexivity|]. fold (offsets_of v x). split; [intros; lia|]. intros _. destruct (proj1 (F x) Fx) as [A C]. split; [exact A|].
      exists (fun k => x (Dl k)), (fun k => x (Ep k)). split; [exact C|]. intros o' D' E' A' C'. destruct (point_of v o' D' E' (proj1 A')) as (y & Ey & ED & EE).
      assert (Fy : mfeasible p y).
      { apply F. rewrite Ey. split; [exact A'|]. intros k c a Hk Ha. rewrite ED, EE. exact (C' k c a Hk Ha). }
      specialize (Op y Fy). rewrite !Ob in Op. assert (X : spread theta g i (fun k => y (Dl k)) (fun k => y (Ep k)) = spread theta g i D' E').
      { unfold spread. clear - ED EE. induction (combine (seq 0 (length (edges g))) (edges g)) as [|kc L IH]; [reflexivity|]. cbn [fold_right]. rewrite IH, ED, EE. reflexivity. }
      rewrite X in Op. exact Op.
    + exfalso. set (o := map (elapsed v) (seq 0 (v_phases v))). assert (Lo : length o = v_phases v) by (unfold o; rewrite map_length, seq_length; reflexivity).
      destruct (covers_exist g i v cy o) as (D & E' & C). destruct (point_of v o D E' Lo) as (y & Ey & ED & EE). apply (S y). apply F. rewrite Ey.
      assert (No : forall a, (a < v_phases v)%nat -> nth a o 0%Q = elapsed v a) by (intros a Ha; unfold o; apply nth_map_seq; exact Ha). split.
      * split; [exact Lo|]. split; [rewrite No by lia; reflexivity|]. split; [intros a Ha; rewrite !No by lia; cbn [elapsed]; lra|].
        intros a Ha. rewrite No by lia. change (elapsed v a + exec_duration v a)%Q with (elapsed v (Datatypes.S a)). rewrite Ha. exact Fit.
      * intros k c a Hk Ha. rewrite ED, EE. exact (C k c a Hk Ha).
Qed.

Lemma mm_task_stuck i v : nth_error (vertices g) i = Some v -> (2 <= v_phases v)%nat -> self_loop g i \/ (cycle_time N period i v < elapsed v (v_phases v))%Q ->
  forall o, mm_task msolve theta period g N i v = Ok o -> o = None.
Proof.
  intros E H2 St o. pose proof (vertex_ok g Hwf i v E) as W. pose proof W as (Pp & _). unfold mm_task. destruct (Z.of_nat (v_phases v) <=? 1) eqn:E1; [lia|].
  destruct (existsb (fun c => (e_src c =? i)%nat && (e_dst c =? i)%nat) (edges g)) eqn:EX.
  - unfold mm_lp. rewrite EX. cbn [negb cassert]. destruct (time_over _ _); cbn [bind]; try discriminate. destruct (vertex_duration _ _); cbn [bind]; try discriminate.
    destruct (mm_order _ _); cbn [bind]; try discriminate. destruct (mm_channels _ _ _ _ _); cbn [bind]; discriminate.
  - assert (NL : ~ self_loop g i).
    { intros (c & Hc & A & B). assert (X : existsb (fun c => (e_src c =? i)%nat && (e_dst c =? i)%nat) (edges g) = true) by (apply existsb_exists; exists c; rewrite A, B, Nat.eqb_refl; auto). congruence. }
    destruct St as [SL|Lt]; [contradiction|]. destruct (program_ok theta g N period Hwf Hno Hcyc i v E NL) as (p & Elp & F & _). rewrite Elp. cbn [bind].
    pose proof (Hsol i v p E Elp) as S. unfold msolves in S. destruct (msolve p) as [x|]; [|intros [=<-]; reflexivity].
    exfalso. destruct S as [Fx _]. apply F in Fx as [A _]. apply (admissible_work v _ _ Pp) in A as [A _]. lra.
Qed.

Lemma mm_all_ok ivs : (forall iv, In iv ivs -> nth_error (vertices g) (fst iv) = Some (snd iv) /\ ((2 <= v_phases (snd iv))%nat -> ~ self_loop g (fst iv) /\ (elapsed (snd iv) (v_phases (snd iv)) <= cycle_time N period (fst iv) (snd iv))%Q)) ->
  exists l, mm_tasks msolve theta period g N true ivs = Ok l /\ Forall2 (fun iv o => minmax_is (fst iv) (snd iv) o) ivs l.
Proof.
  induction ivs as [|[i v] ivs IH]; intros H; cbn [mm_tasks]; [exists []; split; [reflexivity|constructor]|]. destruct (H _ (or_introl eq_refl)) as [E F].
  destruct (mm_task_ok i v E F) as (o & -> & To). cbn [bind]. destruct IH as (l & -> & Fl); [intros iv Hi; apply H; right; exact Hi|]. cbn [bind]. eexists. split; [reflexivity|]. constructor; [exact To|exact Fl].
Qed.

Lemma mm_all_stuck ivs work l : (forall iv, In iv ivs -> nth_error (vertices g) (fst iv) = Some (snd iv)) -> mm_tasks msolve theta period g N work ivs = Ok l ->
  Forall2 (fun iv o => (2 <= v_phases (snd iv))%nat -> self_loop g (fst iv) \/ (cycle_time N period (fst iv) (snd iv) < elapsed (snd iv) (v_phases (snd iv)))%Q -> o = []) ivs l.
Proof.
  revert work l. induction ivs as [|[i v] ivs IH]; intros work l H; cbn [mm_tasks]; [intros [=<-]; constructor|]. pose proof (H _ (or_introl eq_refl)) as E. cbn [fst snd] in E.
  destruct (if work then mm_task msolve theta period g N i v else Ok None) as [o| | |] eqn:Eo; cbn [bind]; try discriminate.
  destruct (mm_tasks _ _ _ _ _ _ ivs) as [r| | |] eqn:Er; cbn [bind]; try discriminate. intros [=<-]. constructor; [|apply (IH _ _ (fun iv Hi => H iv (or_intror Hi)) Er)].
  cbn [fst snd]. intros P2 St. destruct work; [rewrite (mm_task_stuck i v E P2 St o Eo); reflexivity|]. injection Eo as <-. reflexivity.
Qed.

Lemma minmax_ok : several_fit g N period -> (forall i v, nth_error (vertices g) i = Some v -> (2 <= v_phases v)%nat -> ~ self_loop g i) ->
  exists l, minmax_offsets msolve theta period g N = Ok l /\ length l = length (vertices g) /\
    forall i v, nth_error (vertices g) i = Some v -> exists o, nth_error l i = Some o /\ minmax_is i v o.
Proof.
  intros F NL. unfold minmax_offsets. destruct (mm_all_ok (indexed (vertices g))) as (l & -> & Fl).
  - intros iv Hi. pose proof (indexed_nth _ _ Hi) as E. split; [exact E|]. intros L. split; [exact (NL _ _ E L)|exact (F _ _ E L)].
  - exists l. split; [reflexivity|]. exact (forall2_indexed _ _ 0%nat l Fl).
Qed.
Lemma minmax_stuck i v l : nth_error (vertices g) i = Some v -> (2 <= v_phases v)%nat -> self_loop g i \/ (cycle_time N period i v < elapsed v (v_phases v))%Q ->
  minmax_offsets msolve theta period g N = Ok l -> nth_error l i = Some [].
Proof.
  intros E P2 St El. destruct (forall2_indexed _ _ 0%nat l (mm_all_stuck _ _ l (fun iv Hi => indexed_nth _ _ Hi) El)) as [_ G]. destruct (G i v E) as (o & Eo & Ho). cbn [Nat.add fst snd] in Ho. rewrite Eo, (Ho P2 St). reflexivity.
Qed.

Lemma minmax_fits offs : work_fits g N period -> (forall i v, nth_error (vertices g) i = Some v -> minmax_is i v (offs i)) -> offsets_fit g N offs period.
Proof.
  intros HW HO i v E. destruct (HO i v E) as [O1 O2]. specialize (HW i v E). pose proof (vertex_ok g Hwf i v E) as (Pp & _). fold (cycle_time N period i v) in HW |- *. destruct (Nat.eq_dec (v_phases v) 1) as [P1|P1].
  - rewrite (O1 P1), P1. split; [reflexivity|]. split; [intros; lia|]. intros a Ha. assert (a = 0%nat) by lia. subst a. rewrite P1 in HW. cbn [elapsed nth] in *. lra.
  - destruct (O2 ltac:(lia)) as [(L & B1 & B2 & B3) _]. split; [exact L|]. split; [exact B2|]. intros a Ha. specialize (B3 a Ha). lra.
Qed.

Lemma minmax_generated : work_fits g N period -> (forall i v, nth_error (vertices g) i = Some v -> (2 <= v_phases v)%nat -> ~ self_loop g i) ->
  exists l, minmax_offsets msolve theta period g N = Ok l /\ check_offsets period g (fun i => nth_error l i) = Ok tt /\ offsets_fit g N (got l) period /\
    forall i v, nth_error (vertices g) i = Some v -> minmax_is i v (got l i).
Proof.
  intros HW NL. destruct (minmax_ok (fun i v E _ => HW i v E) NL) as (l & El & L & F). exists l. split; [exact El|].
  assert (G : forall i v, nth_error (vertices g) i = Some v -> minmax_is i v (got l i)) by (intros i v E; destruct (F i v E) as (o & Eo & Po); unfold got; rewrite Eo; exact Po).
  split; [|split; [apply minmax_fits; [exact HW|exact G]|exact G]].
  apply check_passes; [exact Hper|exact L|]. intros i v E. pose proof (vertex_ok g Hwf i v E) as W. pose proof W as (Pp & _). destruct (G i v E) as [O1 O2]. destruct (Nat.eq_dec (v_phases v) 1) as [P1|P1].
  + rewrite (O1 P1), P1. split; [reflexivity|]. intros a La. assert (a = 0%nat) by lia. subst a. cbn [nth]. lra.
  + destruct (O2 ltac:(lia)) as [A _]. split; [exact (proj1 A)|]. intros a La. pose proof (proj2 (admissible_work v _ _ Pp A) a La). pose proof (elapsed_nn v a W). lra.
Qed.
End G.
