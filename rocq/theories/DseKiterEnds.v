(** Large channels are never critical, so the exploration with K-Iter ends whatever the target. *)
From Coq Require Import QArith Qround Qreduction Lqa Permutation Sorted.
From Verif Require Import Base Graph ScheduleSpec ScheduleCore KPeriodic KPeriodicChannel KPeriodicSelfloop KPeriodicGraph KPeriodicEnd KPeriodicProps EventGraph EventGraphSpec EventGraphProofs
  KIter KIterSpec KIterProofs KIterLoop KIterFinal KIterProps PeriodicProofs SimSpec HowardKIter
  Storage StorageSpec StorageProofs Dse DseSpec DseProofs DseGraphProofs DseKiterSpec RoomEnough DseEndsProofs DseKiterProofs RandomGenSpec RandomGenMarking RandomGenLoop.
Open Scope Z_scope.

Definition longest_of (g : graph) (D : Q) : Prop := (0 < D)%Q /\ forall v d, In v (vertices g) -> In d (v_durations v) -> (d <= D)%Q.
Lemma list_longest : forall l : list Q, exists D, (0 < D)%Q /\ forall d, In d l -> (d <= D)%Q.
Proof.
  induction l as [|x l (D & P & M)]; [exists 1%Q; split; [reflexivity|intros d []]|].
  destruct (Qlt_le_dec D x) as [L|L].
  - exists x. split; [lra|]. intros d [<-|Hd]; [lra|]. specialize (M d Hd). lra.
  - exists D. split; [exact P|]. intros d [<-|Hd]; [exact L|]. exact (M d Hd).
Qed.
Lemma some_longest g : exists D, longest_of g D.
Proof.
  destruct (list_longest (flat_map v_durations (vertices g))) as (D & P & M). exists D. split; [exact P|]. intros v d Iv Id. apply M. apply in_flat_map. exists v. auto.
Qed.
Lemma duration_longest g v j D : graph_wf g -> no_init g -> longest_of g D -> In v (vertices g) -> (exec_duration v j <= D)%Q.
Proof.
  intros WF NI [_ PD] I. pose proof (proj1 WF v I) as (HP & L1 & L2 & _). pose proof (NI v I) as Z0. apply (PD v _ I).
  unfold exec_duration, cyclic. rewrite L2, Z0. cbn [Nat.ltb Nat.leb]. apply nth_In. apply Nat.mod_upper_bound. lia.
Qed.
Lemma constraint_longest var g N K cs0 cs D c : graph_wf g -> no_init g -> no_overlap g -> longest_of g D ->
  (forall i, (i < length (vertices g))%nat -> 0 < N i) -> (forall i, (i < length (vertices g))%nat -> 0 < K i) ->
  generate_event_graph var g N K = Ok cs0 -> (forall x, In x cs <-> In x cs0) -> In c cs -> (c_d c <= D)%Q.
Proof.
  intros WF NI NO PD HN HK GEN MEM I. apply MEM in I. apply (generate_event_graph_in var g N K WF cs0 GEN) in I.
  destruct I as [(i & v & r & Hv & Hr & Hx)|(e & vs & vd & r & He & V1 & V2 & Hr & Hx)].
  - destruct (K_nat g K HK i v Hv) as [Hk Hkp].
    destruct (generate_selfloop_spec v (N i) (Z.to_nat (K i)) (vertex_ok g WF i v Hv) Hkp (HN i (vertex_lt g _ _ Hv))) as (r' & Hr' & Hin).
    rewrite <- Hk, Hr in Hr'. injection Hr' as <-. apply Hin in Hx. pose proof (nth_error_In _ _ Hv) as Iv. pose proof (NO v Iv) as R.
    destruct (Z.leb_spec (v_reentrancy v) 0); [lia|].
    assert (Q : forall j, (1 * exec_duration v j <= D)%Q) by (intros j; pose proof (duration_longest g v j D WF NI PD Iv); lra).
    destruct Hx as [([|j] & Hj & ->)|(_ & ->)]; cbn [c_d charged]; apply Q.
  - destruct (edge_shape g WF e He) as (vs' & vd' & V1' & V2' & Hs & Hd & Hsh).
    rewrite V1 in V1'. rewrite V2 in V2'. injection V1' as <-. injection V2' as <-.
    destruct (K_nat g K HK _ _ V1) as [Hk1 Hkp1]. destruct (K_nat g K HK _ _ V2) as [Hk2 Hkp2].
    destruct (generate_channel_spec var e vs vd _ _ (N (e_src e)) Hs Hd Hsh Hkp1 Hkp2) as (? & ? & r' & ? & ? & ? & ? & Hr' & Hin).
    { apply HN, (vertex_lt g _ _ V1). }
    rewrite <- Hk1, <- Hk2, Hr in Hr'. injection Hr' as <-. apply Hin in Hx.
    destruct Hx as (i & j & a & Hi & Hj & _ & _ & ->). cbn [c_d]. apply (duration_longest g); auto. apply (nth_error_In _ _ V1).
Qed.

(** A critical channel holds few tokens: its circuit weighs no more than what the tasks around it
    take at the throughput. *)
Lemma critical_bounded solve arrange var g N fuel r K cs th D : (forall l, Permutation (arrange l) l) -> ready g N -> (iteration_bound g N <= fuel)%nat ->
  kiter solve arrange fuel var g N = Ok (r, K, cs) -> exact_answer cs (solve cs) -> (0 <= th)%Q -> (kr_throughput r <= th)%Q -> longest_of g D ->
  forall c, In c (kr_critical r) -> In c (edges g) /\
    e_preload c <= (1 + sumf N (length (vertices g)) + Qceiling (th * (D * inject_Z (sumf N (length (vertices g)))))) * carried N c.
Proof.
  intros Ha R Hf Hk X Th0 T LD. pose proof R as [WF B NI NO C ID NE PD]. destruct (kiter_spec var g N WF C NI ID solve arrange Ha fuel Hf) as (K' & cs' & cs1 & Hk' & HK & Hg & Hcs & _).
  rewrite Hk in Hk'. injection Hk' as -> -> ->. destruct X as (Cc & Dp & Eq & Min). cbn [solve_graph kr_throughput] in T.
  pose proof (HN_pos g N C) as HNp. pose proof (kdiv_pos g N K' HK) as HKp.
  assert (CD : forall x, In x cs' -> (0 < c_d x)%Q) by (intros x Ix; apply (constraint_durations var g N K' cs1 cs' WF NI NO PD HNp HKp Hg Hcs x Ix)).
  assert (CU : forall x, In x cs' -> (c_d x <= D)%Q) by (intros x Ix; apply (constraint_longest var g N K' cs1 cs' D x WF NI NO LD HNp HKp Hg Hcs Ix)).
  assert (Kd : forall x, In x cs' -> _) by (exact (weight_kind var g N K' cs1 cs' R HK Hg Hcs)).
  assert (Lo : forall x, In x cs' -> (-(1) <= c_w x)%Q) by (intros x Ix; destruct (Kd x Ix) as [[[P|[P _]] _]|(c & gc & _ & _ & _ & _ & _ & P)]; [| |exact P]; clear - P; lra).
  set (SC := solve_critical g ID solve arrange Ha cs').
  intros c Ic. apply SC in Ic. destruct Ic as (Ic & x & Ix & Ex). split; [exact Ic|].
  destruct (simple_through cs' (fst (solve cs')) Min _ x Cc Ix Eq) as (l & Cl & Ixl & ND & El).
  destruct Cl as (Nl & Il & Pl). destruct (Kd x (Il x Ixl)) as [[_ Z0]|(c' & gc & Ic' & Ec' & Fg & Gb & Wx & _)].
  { exfalso. pose proof (proj2 ID c Ic). lia. }
  assert (c' = c) by (apply (edge_id_inj g ID); congruence). subst c'.
  assert (Ln : Z.of_nat (length l) <= sumf N (length (vertices g))).
  { etransitivity; [|apply (event_count g N K' R HK)]. apply inj_le. rewrite <- (map_length c_source l). apply NoDup_incl_length; [exact ND|].
    intros e He. apply in_map_iff in He. destruct He as (y & <- & Iy). apply (generated_closed var g N K' WF HNp HKp cs1 Hg y). apply Hcs, Il, Iy. }
  pose proof (sum_low l x (fun y Hy => Lo y (Il y Hy)) Ixl) as SL.
  assert (Dl : (0 <= sumQ c_d l <= D * inject_Z (Z.of_nat (length l)))%Q).
  { clear - Il CD CU. induction l as [|y l IH]; [change (0 <= 0 <= D * 0)%Q; lra|]. rewrite sumQ_one. pose proof (CD y (Il y (or_introl eq_refl))). pose proof (CU y (Il y (or_introl eq_refl))). pose proof (IH (fun z Hz => Il z (or_intror Hz))).
    cbn [length]. rewrite Nat2Z.inj_succ. unfold Z.succ. rewrite inject_Z_plus. change (inject_Z 1) with 1%Q. lra. }
  set (M := carried N c) in *. set (E := sumf N (length (vertices g))) in *. set (n := Z.of_nat (length l)) in *.
  assert (D0 : (0 < D)%Q) by apply LD.
  assert (W2 : (sumQ c_w l <= th * (D * inject_Z E))%Q).
  { rewrite Zle_Qle in Ln. assert (A1 : (sumQ c_d l <= D * inject_Z E)%Q) by (clear - Dl Ln D0; nra). clear - A1 T Th0 Dl El. nra. }
  pose proof (Qle_ceiling (th * (D * inject_Z E))) as CE. set (q := Qceiling (th * (D * inject_Z E))) in *.
  assert (MQ : (0 < inject_Z M)%Q) by (change 0%Q with (inject_Z 0); rewrite <- Zlt_Qlt; lia).
  assert (W3 : (c_w x <= inject_Z (n - 1 + q))%Q) by (rewrite inject_Z_plus; clear - SL W2 CE; lra).
  assert (A : (inject_Z (e_preload c - gc - M) <= inject_Z (n - 1 + q) * inject_Z M)%Q) by (clear - W3 Wx MQ; nra).
  rewrite <- inject_Z_mult, <- Zle_Qle in A. assert ((n - 1 + q) * M <= (E - 1 + q) * M) by nia. lia.
Qed.

Lemma list_above {A} (f : A -> Z) : forall l, exists B, forall x, In x l -> f x <= B.
Proof.
  induction l as [|y l (B & H)]; [exists 0; intros x []|]. exists (Z.max (f y) B). intros x [<-|Hx]; [lia|]. specialize (H x Hx). lia.
Qed.

Lemma kiter_ends solve arrange fuel var g N step init thr critical target r0 K0 cs0 : (forall l, Permutation (arrange l) l) ->
  explorable g N step init -> vertices g <> [] -> positive_durations g -> (iteration_bound g N <= fuel)%nat -> kiter_evaluates solve arrange fuel var g N step init thr critical ->
  kiter solve arrange fuel var g N = Ok (r0, K0, cs0) -> exact_answer cs0 (solve cs0) -> (0 < target)%Q ->
  exists F, forall rounds, (F <= rounds)%nat -> exists r, exploration rounds thr critical (Z.of_nat (length (edges g))) step target (all_ids g) init = Ok r.
Proof.
  intros AR [WF BA NI NO WC IDS CL FD ST] NE PD FU EV Hk He T0.
  assert (ID : edge_ids_ok g).
  { split; [|intros c Hc; apply IDS, Hc]. apply sorted_nodup in CL. unfold all_ids, with_feedback in CL. cbn [edges] in CL. rewrite map_app in CL. exact (nodup_left _ _ CL). }
  destruct (kiter_optimal solve arrange var g N fuel r0 K0 cs0 AR WF BA NI NO WC ID FU Hk He) as [A B].
  assert (TH : exists th, (0 < th)%Q /\ forall s omega, schedule_valid g s -> non_zeno g s -> keeps_pace g N s omega -> (/ th <= omega)%Q).
  { destruct (Qlt_le_dec 0 (kr_throughput r0)) as [P|P].
    - exists (kr_throughput r0). split; [exact P|]. exact (proj2 (A P)).
    - exists 1%Q. split; [reflexivity|]. intros s omega V Z P2. destruct (B P s omega V Z P2). }
  destruct TH as (th & Tp & OPT). destruct (some_longest g) as (D & LD).
  set (E := sumf N (length (vertices g))). set (q := 1 + E + Qceiling (th * (D * inject_Z E))).
  destruct (list_above (fun c => e_preload c + q * carried N (feedback 0 c)) (edges g)) as (Bd & HB).
  apply (exploration_ends (all_ids g) CL (Z.of_nat (length (edges g))) step init thr critical target (proj1 FD) (step_pos g step IDS ST)
    (kiter_sound g N step init WF BA NI NO WC IDS CL FD ST solve arrange fuel var thr critical AR FU EV) Bd); [|exact T0].
  intros d e G Hin L.
  destruct (answered g N step init IDS FD solve arrange fuel var thr critical EV d G) as (r & K & cs & Hk' & He' & Et & Ec).
  rewrite Ec in Hin. apply in_map_iff in Hin. destruct Hin as (c & <- & Hc).
  assert (RD : ready (load g d) N) by (constructor; eauto using load_wf, load_balanced, load_ids_ok).
  assert (TT : (kr_throughput r <= th)%Q).
  { rewrite <- Et. exact (kiter_none_faster g N step init WF BA NI NO WC IDS CL FD ST solve arrange fuel var thr critical AR FU EV th Tp OPT d G). }
  destruct (critical_bounded solve arrange var (load g d) N fuel r K cs th D AR RD FU Hk' He' ltac:(lra) TT LD c Hc) as [Ic Bc].
  cbn [load vertices] in Bc. fold E q in Bc. apply load_in in Ic. destruct Ic as [Ic|(k & c' & En & ->)]; [pose proof (IDS c Ic); lia|].
  specialize (HB c' (nth_error_In _ _ En)). cbn beta in HB. cbn [loaded set_preload e_preload e_id feedback] in *.
  change (carried N (loaded d (feedback_id g k) c')) with (carried N (feedback 0 c')) in Bc. unfold feedback_id in *. lia.
Qed.

Lemma kiter_total solve arrange fuel var g N step init : (forall l, Permutation (arrange l) l) -> exact_solver solve ->
  explorable g N step init -> vertices g <> [] -> positive_durations g -> (iteration_bound g N <= fuel)%nat ->
  exists r K cs, kiter solve arrange fuel var g N = Ok (r, K, cs) /\ exact_answer cs (solve cs).
Proof.
  intros AR XS [WF BA NI NO WC IDS CL FD ST] NE PD FU.
  assert (ID : edge_ids_ok g).
  { split; [|intros c Hc; apply IDS, Hc]. apply sorted_nodup in CL. unfold all_ids, with_feedback in CL. cbn [edges] in CL. rewrite map_app in CL. exact (nodup_left _ _ CL). }
  destruct (kiter_spec var g N WF WC NI ID solve arrange AR fuel FU) as (K' & cs' & cs1 & Hk & _). do 3 eexists. split; [exact Hk|].
  refine (exact_on_kiter solve arrange var g N fuel _ K' cs' AR XS _ FU Hk). constructor; assumption.
Qed.
