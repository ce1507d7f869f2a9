(** K-Iter on graphs with reentrant tasks. *)
From Coq Require Import QArith Qround Lqa Permutation.
From Verif Require Import Base Graph ScheduleSpec ScheduleCore KPeriodic KPeriodicMixed KPeriodicSpec KPeriodicGraph KPeriodicEnd KPeriodicProps EventGraph EventGraphSpec EventGraphProofs
  KIter KIterSpec KIterProofs KIterLoop KIterFinal KIterProps ReentrantSpec.
Open Scope Z_scope.

Lemma reentrant_achieved solve arrange var g N fuel r K cs : (forall l, Permutation (arrange l) l) ->
  graph_wf g -> balanced g N -> no_init g -> whole_cycles g N -> edge_ids_ok g -> (iteration_bound g N <= fuel)%nat ->
  kiter solve arrange fuel var g N = Ok (r, K, cs) -> exact_answer cs (solve cs) ->
  (forall i v, nth_error (vertices g) i = Some v -> 0 < v_reentrancy v \/ (v_phases v = 1%nat /\ v_init_phases v = 0%nat /\ K i = 1)) ->
  (0 < kr_throughput r)%Q -> exists s, periodic_schedule g N K (/ kr_throughput r) s /\ reentrant_valid g s /\ keeps_pace g N s (/ kr_throughput r).
Proof.
  intros Harr Hwf Hbal Hni Hcyc Hids Hf Hk Hex Hmix Hth.
  destruct (kiter_spec var g N Hwf Hcyc Hni Hids solve arrange Harr fuel Hf) as (K' & cs' & cs1 & Hk' & HK & Hg & Hcs & Hsat).
  rewrite Hk in Hk'. injection Hk' as -> -> ->. unfold solve_graph in *. cbn [kr_throughput kr_critical] in *.
  destruct Hex as (Hcirc & Hd & Hratio & Hmin). pose proof (HN_pos g N Hcyc) as HN. pose proof (kdiv_pos g N K' HK) as HKp. set (th := fst (solve cs')) in *.
  assert (Hom : (0 <= / th)%Q) by (apply Qinv_le_0_compat; lra).
  assert (Hfit : circuits_fit cs1 (/ th)).
  { intros l' Hl'. assert (Hl : circuit cs' l').
    { destruct Hl' as (H1 & H2 & H3). split; [exact H1|]. split; [|exact H3]. intros x Hx. apply Hcs, H2, Hx. }
    specialize (Hmin l' Hl). set (D := sumQ c_d l') in *. set (W := sumQ c_w l') in *.
    assert (E : (D == / th * (th * D))%Q) by (field; lra). rewrite E.
    assert (0 < / th)%Q by (apply Qinv_lt_0_compat; exact Hth). set (q := (/ th)%Q) in *. clearbody q. nra. }
  destruct (proj2 (satisfiable_iff_fit _ _ _ (generated_closed var g N K' Hwf HN HKp cs1 Hg)) Hfit) as (S & HS).
  exists (kperiodic_schedule g N K' (/ th) S). assert (P : periodic_schedule g N K' (/ th) (kperiodic_schedule g N K' (/ th) S)) by (apply kperiodic_schedule_periodic; auto).
  split; [exact P|]. split.
  - exact (mixed_sound var g N K' Hwf Hbal HN HKp (/ th) S cs1 Hg (no_init_ok g Hwf Hni) Hom Hmix HS).
  - apply (periodic_keeps_pace g N K' (/ th) _ HN HKp); [|exact P]. intros v Hin. destruct Hwf as (Hvs & _). apply (Hvs v Hin).
Qed.

(** ** A counterexample *)
(** Task 1 hands two tokens to task 2, which returns them one by one; one token on each channel.  Every
    execution lasts one time unit.  Task 1 is serialised, task 2 is reentrant. *)
Definition loop_graph := mkGraph [mkVertex 1 1 0 [1%Q] [] 1; mkVertex 2 1 0 [1%Q] [] 0]
  [mkEdge 1 0 1 [2] [1] [] [] 1; mkEdge 2 1 0 [1] [2] [] [] 1].
Definition loop_N (i : nat) : Z := match i with O => 1 | _ => 2 end.

Lemma moved_const a n t r : moved_by a (fun _ => r) n t = r * moved_by a (fun _ => 1) n t.
Proof. unfold moved_by. induction n as [|n IH]; cbn [sumf]; [lia|]. rewrite IH. destruct (Qle_bool (a n) t); lia. Qed.
Lemma moved_ext a b r r' t t' : (forall m, Qle_bool (a m) t = Qle_bool (b m) t') -> (forall m, r m = r' m) -> forall n, moved_by a r n t = moved_by b r' n t'.
Proof. intros H R n. unfold moved_by. induction n as [|n IH]; cbn [sumf]; [reflexivity|]. rewrite IH, H, R. reflexivity. Qed.
Lemma moved_limit a m t : (forall n, (m <= n)%nat -> (t < a n)%Q) -> forall n, moved_by a (fun _ => 1) n t <= Z.of_nat m.
Proof.
  intros H. induction n as [|n IH]; unfold moved_by in *; cbn [sumf]; [lia|].
  destruct (Nat.le_gt_cases m n) as [L|L].
  - assert (Qle_bool (a n) t = false) as ->. { apply not_true_is_false. rewrite Qle_bool_iff. specialize (H n L). lra. } lia.
  - clear IH. assert (G : forall k, sumf (fun m0 => if Qle_bool (a m0) t then 1 else 0) k <= Z.of_nat k).
    { induction k as [|k IHk]; cbn [sumf]; [lia|]. destruct (Qle_bool (a k) t); lia. }
    specialize (G n). destruct (Qle_bool (a n) t); lia.
Qed.
Lemma moved_all a n t : (forall m, (m < n)%nat -> (a m <= t)%Q) -> moved_by a (fun _ => 1) n t = Z.of_nat n.
Proof.
  induction n as [|n IH]; intros H; unfold moved_by in *; cbn [sumf]; [reflexivity|]. rewrite IH by (intros m L; apply H; lia).
  assert (Qle_bool (a n) t = true) as -> by (apply Qle_bool_iff, H; lia). lia.
Qed.
Lemma moved_mono a n t t' : (t <= t')%Q -> moved_by a (fun _ => 1) n t <= moved_by a (fun _ => 1) n t'.
Proof.
  intros L. unfold moved_by. induction n as [|n IH]; cbn [sumf]; [lia|]. destruct (Qle_bool (a n) t) eqn:E.
  - apply Qle_bool_iff in E. assert (Qle_bool (a n) t' = true) as -> by (apply Qle_bool_iff; lra). lia.
  - destruct (Qle_bool (a n) t'); lia.
Qed.
Lemma loop_rate r m : cyclic 0 [] [r] m = r.
Proof. unfold cyclic. cbn [length Nat.ltb Nat.leb]. rewrite Nat.mod_1_r. reflexivity. Qed.
Lemma loop_end s i m : (i < 2)%nat -> (end_of s loop_graph i m == s i m + 1)%Q.
Proof.
  intros L. unfold end_of. destruct i as [|[|i]]; [| |lia]; cbn [loop_graph vertices nth_error]; unfold exec_duration; cbn [v_durations v_init_durations]; unfold cyclic; cbn [length Nat.ltb Nat.leb];
    rewrite Nat.mod_1_r; reflexivity.
Qed.
Notation started s i := (moved_by (s i) (fun _ => 1)).

Section Loop.
Variables (s : schedule).
Hypothesis V : forall c, In c (edges loop_graph) -> channel_valid loop_graph s c.
Lemma loop_cons t nc : exists np, started s 1%nat nc t <= 1 + 2 * started s 0%nat np (t - 1)%Q.
Proof.
  destruct (V (mkEdge 1 0 1 [2] [1] [] [] 1) (or_introl eq_refl) t nc) as (np & H). exists np. cbn [e_preload e_src e_dst] in H.
  rewrite (moved_ext (start_of s 1) (s 1%nat) _ (fun _ => 1) t t) in H; [|reflexivity|intros m; apply loop_rate].
  rewrite (moved_ext (end_of s loop_graph 0) (s 0%nat) _ (fun _ => 2) t (t - 1)%Q) in H; [rewrite (moved_const _ _ _ 2) in H; exact H| |intros m; apply loop_rate].
  intros m. apply eq_true_iff_eq. rewrite !Qle_bool_iff, loop_end by lia. split; lra.
Qed.
Lemma loop_prod t nc : exists np, 2 * started s 0%nat nc t <= 1 + started s 1%nat np (t - 1)%Q.
Proof.
  destruct (V (mkEdge 2 1 0 [1] [2] [] [] 1) (or_intror (or_introl eq_refl)) t nc) as (np & H). exists np. cbn [e_preload e_src e_dst] in H.
  rewrite (moved_ext (start_of s 0) (s 0%nat) _ (fun _ => 2) t t) in H; [|reflexivity|intros m; apply loop_rate]. rewrite (moved_const _ _ _ 2) in H.
  rewrite (moved_ext (end_of s loop_graph 1) (s 1%nat) _ (fun _ => 1) t (t - 1)%Q) in H; [exact H| |intros m; apply loop_rate].
  intros m. apply eq_true_iff_eq. rewrite !Qle_bool_iff, loop_end by lia. split; lra.
Qed.
Lemma loop_growth t0 M : (forall n, started s 0%nat n t0 <= M) -> forall j n, started s 0%nat n (t0 + inject_Z (2 * Z.of_nat j))%Q <= M + Z.of_nat j.
Proof.
  intros H0. induction j as [|j IH]; intros n.
  - rewrite (moved_ext (s 0%nat) (s 0%nat) _ (fun _ => 1) _ t0); [specialize (H0 n); lia| |reflexivity]. intros m. apply eq_true_iff_eq. rewrite !Qle_bool_iff. change (inject_Z (2 * Z.of_nat 0)) with 0%Q. split; lra.
  - set (t := (t0 + inject_Z (2 * Z.of_nat (S j)))%Q). destruct (loop_prod t n) as (np & A). destruct (loop_cons (t - 1)%Q np) as (np' & B). specialize (IH np').
    rewrite (moved_ext (s 0%nat) (s 0%nat) _ (fun _ => 1) (t - 1 - 1)%Q (t0 + inject_Z (2 * Z.of_nat j))%Q) in B; [lia| |reflexivity].
    intros m. apply eq_true_iff_eq. rewrite !Qle_bool_iff. unfold t. rewrite Nat2Z.inj_succ. replace (2 * Z.succ (Z.of_nat j)) with (2 * Z.of_nat j + 2) by lia. rewrite inject_Z_plus. change (inject_Z 2) with 2%Q. split; lra.
Qed.
Lemma loop_slow omega : finitely_started loop_graph s -> keeps_pace loop_graph loop_N s omega -> (2 <= omega)%Q.
Proof.
  intros FS (B & HB). destruct (Qlt_le_dec omega 2) as [L|L]; [exfalso|exact L].
  destruct (FS 0%nat B) as (M & HM); [cbn; lia|]. pose proof (moved_limit (s 0%nat) M B HM) as H0. pose proof (loop_growth B (Z.of_nat M) H0) as G.
  set (om := if Qlt_le_dec omega 1 then 1%Q else omega). assert (Om : (omega <= om)%Q /\ (1 <= om)%Q /\ (om < 2)%Q) by (unfold om; destruct (Qlt_le_dec omega 1); lra). destruct Om as (O1 & O2 & O3).
  set (m := Z.to_nat (Qceiling ((inject_Z (Z.of_nat M) + 1) / (1 - om / 2)))).
  set (q := Qceiling (om * inject_Z (Z.of_nat m) / 2)). assert (Q0 : 0 <= q).
  { unfold q. rewrite <- (Qceiling_Z 0). apply Qceiling_resp_le. change (inject_Z 0) with 0%Q. apply Qle_shift_div_l; [reflexivity|]. assert (0 <= inject_Z (Z.of_nat m))%Q by (change 0%Q with (inject_Z 0); rewrite <- Zle_Qle; lia). nra. }
  specialize (G (Z.to_nat q) (S m)). rewrite Z2Nat.id in G by exact Q0.
  rewrite moved_all in G.
  - assert (G' : Z.of_nat m <= Z.of_nat M - 1 + q) by lia. clear G. rewrite Zle_Qle, inject_Z_plus in G'. unfold Z.sub in G'. rewrite inject_Z_plus in G'. change (inject_Z (- (1))) with (- (1))%Q in G'.
    assert (C : (inject_Z q <= om * inject_Z (Z.of_nat m) / 2 + 1)%Q) by (unfold q; pose proof (Qceiling_lt (om * inject_Z (Z.of_nat m) / 2)) as X; unfold Z.sub in X; rewrite inject_Z_plus in X; change (inject_Z (- (1))) with (- (1))%Q in X; lra).
    assert (Mn : (inject_Z (Z.of_nat M) + 1 <= inject_Z (Z.of_nat m) * (1 - om / 2))%Q).
    { assert (P0 : (0 < 1 - om / 2)%Q). { assert (om / 2 < 1)%Q by (apply Qlt_shift_div_r; lra). lra. }
      pose proof (Qle_ceiling ((inject_Z (Z.of_nat M) + 1) / (1 - om / 2))) as X. assert (MM : (0 <= inject_Z (Z.of_nat M))%Q) by (change 0%Q with (inject_Z 0); rewrite <- Zle_Qle; lia).
      assert (Y : (inject_Z (Qceiling ((inject_Z (Z.of_nat M) + 1) / (1 - om / 2))) <= inject_Z (Z.of_nat m))%Q) by (rewrite <- Zle_Qle; unfold m; lia).
      apply (Qle_trans _ ((inject_Z (Z.of_nat M) + 1) / (1 - om / 2) * (1 - om / 2))%Q); [apply Qle_lteq; right; field; lra|].
      apply Qmult_le_compat_r; lra. }
    set (x := inject_Z (Z.of_nat m)) in *. set (y := inject_Z (Z.of_nat M)) in *. clearbody x y. assert (E : (om * x / 2 == x - x * (1 - om / 2))%Q) by field. rewrite E in C. lra.
  - intros k Hk. specialize (HB 0%nat k ltac:(cbn; lia)). cbn [loop_N] in HB.
    assert (K0 : (0 <= inject_Z (Z.of_nat k))%Q) by (change 0%Q with (inject_Z 0); rewrite <- Zle_Qle; lia).
    assert (Km : (inject_Z (Z.of_nat k) <= inject_Z (Z.of_nat m))%Q) by (rewrite <- Zle_Qle; lia).
    assert (E : (inject_Z (Z.of_nat k) / inject_Z 1 == inject_Z (Z.of_nat k))%Q) by (change (inject_Z 1) with 1%Q; field). rewrite E in HB.
    assert (C : (om * inject_Z (Z.of_nat m) / 2 <= inject_Z q)%Q) by apply Qle_ceiling.
    rewrite inject_Z_mult. change (inject_Z 2) with 2%Q. set (z := inject_Z q) in *. clearbody z. set (x := inject_Z (Z.of_nat m)) in *. set (y := inject_Z (Z.of_nat k)) in *. clearbody x y.
    assert (C' : (om * x <= 2 * z)%Q). { assert (E2 : (om * x == 2 * (om * x / 2))%Q) by field. rewrite E2. lra. }
    assert (omega * y <= om * x)%Q by nra. lra.
Qed.
End Loop.

Lemma steady_finite (a : nat -> Q) (b t : Q) : (0 < b)%Q -> (forall m, (a m + b <= a (S m))%Q) -> exists m, forall n, (m <= n)%nat -> (t < a n)%Q.
Proof.
  intros Hb H. assert (G : forall n, (a 0%nat + inject_Z (Z.of_nat n) * b <= a n)%Q).
  { induction n as [|n IH]; [change (inject_Z (Z.of_nat 0)) with 0%Q; lra|]. rewrite Nat2Z.inj_succ. unfold Z.succ. rewrite inject_Z_plus. change (inject_Z 1) with 1%Q. specialize (H n). lra. }
  exists (Z.to_nat (Qceiling ((t - a 0%nat) / b) + 1)). intros n Hn. specialize (G n). assert (X : (inject_Z (Qceiling ((t - a 0%nat) / b) + 1) <= inject_Z (Z.of_nat n))%Q) by (rewrite <- Zle_Qle; lia).
  rewrite inject_Z_plus in X. change (inject_Z 1) with 1%Q in X. pose proof (Qle_ceiling ((t - a 0%nat) / b)) as Y. set (c := inject_Z (Qceiling ((t - a 0%nat) / b))) in *. clearbody c. set (x := inject_Z (Z.of_nat n)) in *. clearbody x.
  assert (Z : ((t - a 0%nat) / b * b <= c * b)%Q) by (apply Qmult_le_compat_r; lra). assert (E : ((t - a 0%nat) / b * b == t - a 0%nat)%Q) by (field; lra). rewrite E in Z. nra.
Qed.
