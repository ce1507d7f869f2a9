(** Schedules of the parts of a graph make a schedule of the graph. *)
From Coq Require Import QArith Lqa Qabs.
From Verif Require Import Base Graph ScheduleSpec ScheduleCore RepVecSpec KIterSpec Sim SimSpec SimTerm.
From Verif Require KPeriodicProofs.
Open Scope Z_scope.

Lemma nn_ext p pe pe' r cs cs' c : (forall m, pe m = pe' m) -> (forall m, cs m = cs' m) ->
  never_negative p pe r cs c -> never_negative p pe' r cs' c.
Proof.
  intros E1 E2 H t nc. destruct (H t nc) as [np Hn]. exists np. unfold moved_by in *.
  rewrite (sumf_ext _ (fun m => if Qle_bool (cs' m) t then c m else 0)) in Hn by (intros; now rewrite E2).
  rewrite (sumf_ext (fun m => if Qle_bool (pe m) t then r m else 0) (fun m => if Qle_bool (pe' m) t then r m else 0)) in Hn by (intros; now rewrite E1).
  exact Hn.
Qed.
Lemma channel_ext g s s' c : (forall m, s (e_src c) m = s' (e_src c) m) -> (forall m, s (e_dst c) m = s' (e_dst c) m) ->
  channel_valid g s c -> channel_valid g s' c.
Proof.
  intros E1 E2. unfold channel_valid. apply nn_ext; [|exact E2].
  intros m. unfold end_of. destruct (nth_error (vertices g) (e_src c)); now rewrite E1.
Qed.
Lemma qle_bool_eq a b c d : ((a <= b)%Q <-> (c <= d)%Q) -> Qle_bool a b = Qle_bool c d.
Proof.
  intros H. destruct (Qle_bool a b) eqn:A; destruct (Qle_bool c d) eqn:C; try reflexivity.
  - apply Qle_bool_iff, H, Qle_bool_iff in A. congruence.
  - apply Qle_bool_iff, H, Qle_bool_iff in C. congruence.
Qed.

(** Stretching and delaying. *)
Lemma stretch_channel g s c f d : graph_wf g -> no_init g -> In c (edges g) -> (1 <= f)%Q -> channel_valid g s c ->
  channel_valid g (fun i m => d + f * s i m)%Q c.
Proof.
  intros (WV & WE & _) NI Hc Hf V t nc. destruct (WE c Hc) as (vs & vd & Es & Ed & L1 & L2 & L3 & L4 & NN & _ & _ & _).
  destruct (V ((t - d) / f)%Q nc) as [np H]. exists np.
  assert (Sw : forall x, (d + f * x <= t <-> x <= (t - d) / f)%Q).
  { intros x. split; intros X.
    - apply Qle_shift_div_l; [lra|]. lra.
    - assert (E : (t == d + f * ((t - d) / f))%Q) by (field; lra). assert (f * x <= f * ((t - d) / f))%Q by nra. lra. }
  unfold moved_by in *. rewrite (sumf_ext _ (fun m => if Qle_bool (start_of s (e_dst c) m) ((t - d) / f) then cons_rate c m else 0))
    by (intros m _; unfold start_of; rewrite (qle_bool_eq _ _ _ _ (Sw (s (e_dst c) m))); reflexivity).
  eapply Z.le_trans; [exact H|]. apply Z.add_le_mono_l. apply sumf_le. intros m _.
  assert (P0 : 0 <= prod_rate c m).
  { unfold prod_rate. apply NN. pose proof (KPeriodicProofs.cyclic_in 0 (e_in_init c) (e_in c) m) as I. rewrite L1 in I.
    specialize (I (proj1 (WV vs (nth_error_In _ _ Es)))). rewrite !in_app_iff in *. tauto. }
  assert (D0 : (0 <= exec_duration vs m)%Q).
  { destruct (WV vs (nth_error_In _ _ Es)) as (A & B & C & D). apply D. pose proof (KPeriodicProofs.cyclic_in 0%Q (v_init_durations vs) (v_durations vs) m ltac:(lia)) as I. rewrite in_app_iff in *. tauto. }
  unfold end_of. rewrite Es. destruct (Qle_bool (s (e_src c) m + exec_duration vs m) ((t - d) / f)) eqn:X.
  - rewrite (proj2 (Qle_bool_iff _ _)); [lia|]. apply Qle_bool_iff, Sw in X. nra.
  - destruct (Qle_bool (d + f * s (e_src c) m + exec_duration vs m) t); lia.
Qed.
Lemma stretch_serialised s i v f d : (forall m, 0 <= exec_duration v m)%Q -> (1 <= f)%Q -> task_serialised s i v ->
  task_serialised (fun i m => d + f * s i m)%Q i v.
Proof. intros D0 Hf H m. specialize (H m). specialize (D0 m). unfold start_of in *. cbv beta. nra. Qed.

Section Compose.
Variables (g : graph) (N : nat -> Z) (omega : Q).
Hypotheses (WF : graph_wf g) (NI : no_init g) (NP : forall i, (i < length (vertices g))%nat -> 0 < N i)
  (BA : balanced g N) (WC : forall i v, nth_error (vertices g) i = Some v -> has_channel g i -> (Z.of_nat (v_phases v) | N i))
  (W0 : (0 < omega)%Q).

(** Within a bounded distance of one iteration every [w]. *)
Definition near (s : schedule) (w : Q) (i : nat) (B : Q) : Prop :=
  forall m, (w * (inject_Z (Z.of_nat m) / inject_Z (N i)) - B <= s i m /\ s i m <= w * (inject_Z (Z.of_nat m) / inject_Z (N i)) + B)%Q.
(** A schedule of the tasks chosen by [keep] and of the channels among them. *)
Definition part (keep : nat -> bool) (s : schedule) (w : Q) : Prop :=
  (forall c, In c (edges g) -> keep (e_src c) = true -> keep (e_dst c) = true -> channel_valid g s c) /\
  (forall i v, keep i = true -> nth_error (vertices g) i = Some v -> task_serialised s i v) /\
  exists B, forall i, keep i = true -> (i < length (vertices g))%nat -> near s w i B.

Lemma duration_nonneg v m : In v (vertices g) -> (0 <= exec_duration v m)%Q.
Proof.
  intros Hv. destruct (proj1 WF v Hv) as (A & B & C & D). apply D.
  pose proof (KPeriodicProofs.cyclic_in 0%Q (v_init_durations v) (v_durations v) m ltac:(lia)) as I. rewrite in_app_iff in *. tauto.
Qed.
Lemma part_stretch keep s w : (0 < w)%Q -> (w <= omega)%Q -> part keep s w -> exists s', part keep s' omega.
Proof.
  intros w0 Hw (C & S & B & HB). set (f := (omega / w)%Q).
  assert (Ef : (f * w == omega)%Q) by (unfold f; field; lra).
  assert (Hf : (1 <= f)%Q) by (unfold f; apply Qle_shift_div_l; lra).
  exists (fun i m => 0 + f * s i m)%Q. split; [|split].
  - intros c Hc K1 K2. apply stretch_channel; auto.
  - intros i v K E. apply stretch_serialised; auto. intros m. apply duration_nonneg. eapply nth_error_In; exact E.
  - exists (f * B)%Q. intros i K Hi m. specialize (HB i K Hi m). set (y := (inject_Z (Z.of_nat m) / inject_Z (N i))%Q) in *.
    assert (E : (omega * y == f * (w * y))%Q) by (rewrite <- Ef; ring). rewrite E. nra.
Qed.

Variables (cls : nat -> nat) (X : nat).
Hypotheses (CX : forall i, (i < length (vertices g))%nat -> (cls i < X)%nat)
  (TO : forall c, In c (edges g) -> (cls (e_src c) <= cls (e_dst c))%nat)
  (PT : forall x, (x < X)%nat -> exists s w, (0 < w)%Q /\ (w <= omega)%Q /\ part (fun i => (cls i =? x)%nat) s w).

Lemma gather : forall Y, (Y <= X)%nat -> exists s B, (0 <= B)%Q /\
  (forall c, In c (edges g) -> cls (e_src c) = cls (e_dst c) -> (cls (e_src c) < Y)%nat -> channel_valid g s c) /\
  (forall i v, (cls i < Y)%nat -> nth_error (vertices g) i = Some v -> task_serialised s i v) /\
  (forall i, (cls i < Y)%nat -> (i < length (vertices g))%nat -> near s omega i B).
Proof.
  induction Y as [|Y IH]; intros HY.
  - exists (fun _ _ => 0%Q), 0%Q. split; [lra|]. split; [intros; lia|]. split; intros; lia.
  - destruct IH as (s & B & B0 & C & S & P); [lia|]. destruct (PT Y ltac:(lia)) as (s1 & w & w0 & wo & Pt).
    destruct (part_stretch _ _ _ w0 wo Pt) as (s2 & C2 & S2 & B2 & P2).
    exists (fun i m => if (cls i =? Y)%nat then s2 i m else s i m), (B + Qabs B2)%Q.
    pose proof (Qabs_nonneg B2) as QA. pose proof (Qle_Qabs B2) as QB. split; [lra|]. split; [|split].
    + intros c Hc E L. destruct (Nat.eqb_spec (cls (e_src c)) Y) as [Y1|Y1].
      * apply (channel_ext g s2); [| |apply C2; [assumption|apply Nat.eqb_eq; lia|apply Nat.eqb_eq; lia]];
          intros m; rewrite (proj2 (Nat.eqb_eq _ _)) by lia; reflexivity.
      * apply (channel_ext g s); [| |apply C; [assumption|assumption|lia]];
          intros m; rewrite (proj2 (Nat.eqb_neq _ _)) by lia; reflexivity.
    + intros i v L E. destruct (Nat.eqb_spec (cls i) Y) as [Y1|Y1].
      * intros m. unfold start_of. rewrite (proj2 (Nat.eqb_eq _ _)) by lia. apply (S2 i v); [apply Nat.eqb_eq; lia|assumption].
      * intros m. unfold start_of. rewrite (proj2 (Nat.eqb_neq _ _)) by lia. apply (S i v); [lia|assumption].
    + intros i L Hi m. destruct (Nat.eqb_spec (cls i) Y) as [Y1|Y1].
      * pose proof (P2 i ltac:(apply Nat.eqb_eq; lia) Hi m). lra.
      * pose proof (P i ltac:(lia) Hi m). lra.
Qed.

Lemma nat_q n : (0 <= inject_Z (Z.of_nat n))%Q.
Proof. change 0%Q with (inject_Z 0). rewrite <- Zle_Qle. lia. Qed.
Lemma N_q i : (i < length (vertices g))%nat -> (0 < inject_Z (N i))%Q.
Proof. intros H. change 0%Q with (inject_Z 0). rewrite <- Zlt_Qlt. auto. Qed.

(** Tokens moved by whole iterations. *)
Lemma iteration_sum c q : In c (edges g) ->
  sumf (prod_rate c) (q * Z.to_nat (N (e_src c))) = sumf (cons_rate c) (q * Z.to_nat (N (e_dst c))).
Proof.
  intros Hc. destruct (proj1 (proj2 WF) c Hc) as (vs & vd & Es & Ed & L1 & L2 & L3 & L4 & NN & _).
  pose proof (nth_error_In _ _ Es) as Is. pose proof (nth_error_In _ _ Ed) as Id.
  pose proof (proj1 (proj1 WF vs Is)) as Ps. pose proof (proj1 (proj1 WF vd Id)) as Pd.
  pose proof (NP (e_src c) ltac:(apply nth_error_Some; congruence)) as N1. pose proof (NP (e_dst c) ltac:(apply nth_error_Some; congruence)) as N2.
  assert (I1 : e_in_init c = []) by (apply length_zero_iff_nil; rewrite L3; apply NI; assumption).
  assert (I2 : e_out_init c = []) by (apply length_zero_iff_nil; rewrite L4; apply NI; assumption).
  destruct (WC _ _ Es ltac:(exists c; auto)) as [a Ea]. destruct (WC _ _ Ed ltac:(exists c; auto)) as [b Eb].
  pose proof (BA c Hc) as Bc. rewrite L1, L2, Ea, Eb in Bc.
  unfold prod_rate, cons_rate. rewrite I1, I2.
  pose proof (KPeriodicProofs.cyclic_sum [] (e_in c) 0 (q * Z.to_nat a) ltac:(lia) ltac:(cbn; lia)) as X1.
  pose proof (KPeriodicProofs.cyclic_sum [] (e_out c) 0 (q * Z.to_nat b) ltac:(lia) ltac:(cbn; lia)) as X2.
  cbn [Nat.add sumf] in X1, X2. rewrite L1 in X1. rewrite L2 in X2.
  replace (q * Z.to_nat (N (e_src c)))%nat with (q * Z.to_nat a * v_phases vs)%nat by (rewrite Ea; nia).
  replace (q * Z.to_nat (N (e_dst c)))%nat with (q * Z.to_nat b * v_phases vd)%nat by (rewrite Eb; nia).
  rewrite X1, X2. assert (a > 0 /\ b > 0) by nia. rewrite !Nat2Z.inj_mul, !Z2Nat.id by lia.
  assert (EQ : sumZ (e_in c) * a = sumZ (e_out c) * b).
  { apply (Z.mul_cancel_r _ _ (Z.of_nat (v_phases vs) * Z.of_nat (v_phases vd))); [nia|].
    transitivity (sumZ (e_in c) * (a * Z.of_nat (v_phases vs)) * Z.of_nat (v_phases vd)); [ring|]. rewrite Bc. ring. }
  transitivity (Z.of_nat q * (sumZ (e_in c) * a)); [ring|]. rewrite EQ. ring.
Qed.

Lemma find_last (P : nat -> bool) n : (forall m, (m < n)%nat -> P m = false) \/
  exists m, (m < n)%nat /\ P m = true /\ forall k, (m < k < n)%nat -> P k = false.
Proof.
  induction n as [|n IH]; [left; lia|]. destruct (P n) eqn:E; [right; exists n; split; [lia|split; [assumption|lia]]|].
  destruct IH as [IH|(m & L & T & F)]; [left|right].
  - intros m Hm. destruct (Nat.eq_dec m n) as [->|]; [assumption|apply IH; lia].
  - exists m. split; [lia|]. split; [assumption|]. intros k Hk. destruct (Nat.eq_dec k n) as [->|]; [assumption|apply F; lia].
Qed.

(** A channel whose consumer runs late enough behind its producer. *)
Lemma late_channel s c B L : In c (edges g) ->
  (forall m, exec_duration (match nth_error (vertices g) (e_src c) with Some v => v | None => mkVertex 0 0 0 [] [] 0 end) m <= L)%Q ->
  (0 <= L)%Q ->
  (forall m, s (e_src c) m <= omega * (inject_Z (Z.of_nat m) / inject_Z (N (e_src c))) + B)%Q ->
  (forall m, omega * (inject_Z (Z.of_nat m) / inject_Z (N (e_dst c))) + B + omega + L <= s (e_dst c) m)%Q ->
  channel_valid g s c.
Proof.
  intros Hc HL L0 HP HC t nc. destruct (proj1 (proj2 WF) c Hc) as (vs & vd & Es & Ed & L1 & L2 & L3 & L4 & NN & S1 & S2 & P0).
  pose proof (nth_error_In _ _ Es) as Is. pose proof (nth_error_In _ _ Ed) as Id. rewrite Es in HL.
  assert (Lp : (e_src c < length (vertices g))%nat) by (apply nth_error_Some; congruence).
  assert (Lc : (e_dst c < length (vertices g))%nat) by (apply nth_error_Some; congruence).
  assert (C0 : forall m, 0 <= cons_rate c m).
  { intros m. apply NN. pose proof (KPeriodicProofs.cyclic_in 0 (e_out_init c) (e_out c) m) as I. rewrite L2 in I.
    specialize (I (proj1 (proj1 WF vd Id))). unfold cons_rate. rewrite !in_app_iff in *. tauto. }
  destruct (find_last (fun m => Qle_bool (start_of s (e_dst c) m) t) nc) as [No|(m & Lm & Tm & Af)].
  - exists 0%nat. unfold moved_by at 2. cbn [sumf].
    pose proof (moved_prefix_le (start_of s (e_dst c)) (cons_rate c) nc 0 t C0) as M. cbn [sumf] in M.
    assert (moved_by (start_of s (e_dst c)) (cons_rate c) nc t <= 0); [|lia]. apply M. intros k Hk Q. apply Qle_bool_iff in Q. rewrite No in Q by lia. discriminate.
  - pose proof (NP _ Lp) as Np. pose proof (NP _ Lc) as Nc. set (nj := Z.to_nat (N (e_dst c))) in *. set (ni := Z.to_nat (N (e_src c))) in *.
    set (q := (m / nj)%nat). exists (S q * ni)%nat.
    pose proof (Nat.div_mod m nj ltac:(lia)) as Dm. pose proof (Nat.mod_upper_bound m nj ltac:(lia)) as Ub. fold q in Dm.
    assert (A : moved_by (start_of s (e_dst c)) (cons_rate c) nc t <= sumf (cons_rate c) (S q * nj)).
    { eapply Z.le_trans; [apply (moved_prefix_le _ _ nc (S m))|apply sumf_mono; [exact C0|nia]]; [exact C0|].
      intros k Hk Q. apply Qle_bool_iff in Q. rewrite Af in Q by lia. discriminate. }
    unfold nj in A. rewrite <- iteration_sum in A by assumption. fold ni in A.
    rewrite (ScheduleCore.moved_all (end_of s g (e_src c))); [lia|].
    intros k Hk. apply Qle_bool_iff in Tm. unfold end_of, start_of in *. rewrite Es. specialize (HP k). specialize (HC m). specialize (HL k).
    pose proof (N_q _ Lp) as Nq. pose proof (N_q _ Lc) as Nq'.
    assert (Y1 : (inject_Z (Z.of_nat k) / inject_Z (N (e_src c)) <= inject_Z (Z.of_nat (S q)))%Q).
    { apply Qle_shift_div_r; [assumption|]. rewrite <- inject_Z_mult, <- Zle_Qle. nia. }
    assert (Y2 : (inject_Z (Z.of_nat q) <= inject_Z (Z.of_nat m) / inject_Z (N (e_dst c)))%Q).
    { apply Qle_shift_div_l; [assumption|]. rewrite <- inject_Z_mult, <- Zle_Qle. nia. }
    rewrite Nat2Z.inj_succ in Y1. unfold Z.succ in Y1. rewrite inject_Z_plus in Y1. change (inject_Z 1) with 1%Q in Y1. nra.
Qed.

Lemma compose : exists s, schedule_valid g s /\ exists B, forall i, (i < length (vertices g))%nat -> near s omega i B.
Proof.
  destruct (gather X (le_n _)) as (s & B & B0 & C & S & P). destruct (longest g) as (L & L0 & HL).
  set (H := (B + B + omega + L)%Q). exists (fun i m => inject_Z (Z.of_nat (cls i)) * H + 1 * s i m)%Q. split; [split|].
  - intros c Hc. destruct (proj1 (proj2 WF) c Hc) as (vs & vd & Es & Ed & R).
    assert (Lp : (e_src c < length (vertices g))%nat) by (apply nth_error_Some; congruence).
    assert (Lc : (e_dst c < length (vertices g))%nat) by (apply nth_error_Some; congruence).
    pose proof (TO c Hc) as T. destruct (Nat.eq_dec (cls (e_src c)) (cls (e_dst c))) as [E|D].
    + apply (channel_ext g (fun i m => inject_Z (Z.of_nat (cls (e_src c))) * H + 1 * s i m)%Q); [reflexivity|rewrite E; reflexivity|].
      apply stretch_channel; [assumption|assumption|assumption|lra|]. apply C; auto.
    + apply (late_channel _ c (B + inject_Z (Z.of_nat (cls (e_src c))) * H)%Q L Hc); [|exact L0| |].
      * intros m. rewrite Es. eapply HL; [eapply nth_error_In; exact Es|]. apply (SimTerm.duration_in g N WF NI NP). eapply nth_error_In; exact Es.
      * intros m. pose proof (P _ (CX _ Lp) Lp m). lra.
      * intros m. pose proof (P _ (CX _ Lc) Lc m).
        assert (inject_Z (Z.of_nat (cls (e_src c))) + 1 <= inject_Z (Z.of_nat (cls (e_dst c))))%Q.
        { change 1%Q with (inject_Z 1). rewrite <- inject_Z_plus, <- Zle_Qle. lia. }
        assert (0 <= H)%Q by (unfold H; lra). assert ((inject_Z (Z.of_nat (cls (e_src c))) + 1) * H <= inject_Z (Z.of_nat (cls (e_dst c))) * H)%Q by nra.
        unfold H in *. lra.
  - intros i v E. assert (Li : (i < length (vertices g))%nat) by (apply nth_error_Some; congruence).
    intros m. pose proof (S i v (CX i Li) E m). unfold start_of in *. lra.
  - exists (B + inject_Z (Z.of_nat X) * H)%Q. intros i Li m. pose proof (P i (CX i Li) Li m). pose proof (nat_q (cls i)).
    assert (inject_Z (Z.of_nat (cls i)) <= inject_Z (Z.of_nat X))%Q by (rewrite <- Zle_Qle; pose proof (CX i Li); lia).
    assert (0 <= H)%Q by (unfold H; lra). nra.
Qed.
End Compose.
