(** Proofs about the periodic schedulings. *)
From Coq Require Import QArith Lqa Permutation.
From Verif Require Import Base Graph KPeriodic ScheduleSpec KPeriodicSpec KPeriodicProofs KPeriodicGraph EventGraph EventGraphSpec EventGraphProofs
  KPeriodicEnd KPeriodicProps KIter KIterSpec KIterProofs KIterOpt KIterLoop KIterProps SPeriodicProofs Periodic PeriodicSpec.
Open Scope Z_scope.

Section G.
Variables (g : graph) (N : nat -> Z).
Hypothesis Hwf : graph_wf g.
Hypothesis Hbal : balanced g N.
Hypothesis Hni : no_init g.
Hypothesis Hno : no_overlap g.
Hypothesis Hcyc : whole_cycles g N.

Lemma fit_of_answer cs a : exact_answer cs a -> (0 < fst a)%Q -> circuits_fit cs (/ fst a).
Proof.
  intros (_ & _ & _ & Low) P l C. specialize (Low l C). apply Qmult_le_l with (fst a); [assumption|].
  rewrite Qmult_assoc, Qmult_inv_r, Qmult_1_l by lra. assumption.
Qed.
Lemma answer_of_fit cs a omega : exact_answer cs a -> (0 <= omega)%Q -> circuits_fit cs omega -> (0 < fst a)%Q /\ (/ fst a <= omega)%Q.
Proof.
  intros (C & D & At & _) Om F. specialize (F _ C). rewrite <- At in F. set (v := fst a) in *. set (d := sumQ c_d (snd a)) in *.
  assert (F' : (1 * d <= (omega * v) * d)%Q) by (rewrite <- Qmult_assoc; lra). apply Qmult_le_r in F'; [|assumption].
  assert (Vp : (0 < v)%Q).
  { destruct (Qlt_le_dec 0 v) as [|Neg]; [assumption|]. exfalso. assert (omega * v <= 0)%Q; [|lra].
    setoid_replace (omega * v)%Q with (- (omega * (- v)))%Q by ring. assert (0 <= omega * (- v))%Q by (apply Qmult_le_0_compat; lra). lra. }
  split; [assumption|]. apply Qmult_le_r with v; [assumption|]. rewrite (Qmult_comm (/ v)), Qmult_inv_r by lra. assumption.
Qed.

Lemma periodic_best K cs a : positive_on g K -> generate_event_graph StronglyOptimized g N K = Ok cs -> exact_answer cs a ->
  best_periodic_throughput g N K (fst a).
Proof.
  intros HK Hg Ex. pose proof (HN_pos g N Hcyc) as HN. split.
  - intros P. assert (Om : (0 <= / fst a)%Q) by (apply Qinv_le_0_compat; lra).
    destruct (proj2 (periodic_exists_iff StronglyOptimized g N K (/ fst a) cs Hwf Hbal Hni Hno HN HK Om Hg) (fit_of_answer cs a Ex P)) as (s & Hp & Hv).
    exists s. auto.
  - intros s omega Hv Om Hp. apply (answer_of_fit cs a omega Ex Om).
    apply (periodic_exists_iff StronglyOptimized g N K omega cs Hwf Hbal Hni Hno HN HK Om Hg). exists s. auto.
Qed.

(** Any pace is kept by an N-periodic schedule. *)
Lemma any_pace_fits cs s omega : vertices g <> [] -> generate_event_graph StronglyOptimized g N N = Ok cs ->
  schedule_valid g s -> non_zeno g s -> keeps_pace g N s omega -> (0 <= omega)%Q -> circuits_fit cs omega.
Proof.
  intros NE Hg Hv Hz Hp Om. pose proof (HN_pos g N Hcyc) as HN. set (K0 := cycles g N).
  assert (HK : forall i v, nth_error (vertices g) i = Some v -> K0 i * Z.of_nat (v_phases v) * 1 = N i /\ 0 < K0 i).
  { intros i v E. unfold K0, cycles. rewrite E. destruct (Hcyc i v E) as (Np & (q & Q)). pose proof (vertex_ok g Hwf i v E) as (Ph & _).
    rewrite Q. rewrite Z.div_mul by lia. split; [lia|]. nia. }
  assert (K0p : positive_on g K0).
  { intros i L. destruct (nth_error (vertices g) i) as [v|] eqn:E; [apply (HK i v E)|apply nth_error_None in E; lia]. }
  destruct (generate_event_graph_ok StronglyOptimized g N K0 Hwf HN K0p) as (cs0 & Hg0).
  apply (refine_K StronglyOptimized g N K0 N omega cs0 cs Hwf Hbal Hni Hno HN K0p HN); auto.
  - intros i L. destruct (nth_error (vertices g) i) as [v|] eqn:E; [|apply nth_error_None in E; lia]. destruct (HK i v E) as [X _].
    exists (Z.of_nat (v_phases v)). lia.
  - apply (circuit_bound StronglyOptimized g N K0 1 Hwf Hbal Hni Hno HN K0p ltac:(lia)) with (s := s); auto. intros i v E. apply (HK i v E).
Qed.

Lemma periodic_non_zeno K omega s : positive_on g K -> (0 < omega)%Q -> periodic_schedule g N K omega s -> non_zeno g s.
Proof.
  intros HK Om Hp i t L. pose proof (HN_pos g N Hcyc i L) as HNi. destruct (nth_error (vertices g) i) as [v|] eqn:E; [|apply nth_error_None in E; lia].
  pose proof (vertex_ok g Hwf i v E) as (Ph & _). specialize (HK i L).
  set (L' := (Z.to_nat (K i) * v_phases v)%nat) in *. set (T := task_period omega (K i) (Z.of_nat (v_phases v)) (N i)).
  assert (Tp : (0 < T)%Q).
  { unfold T, task_period. apply Qlt_shift_div_l; [apply pos_inject; lia|]. rewrite Qmult_0_l.
    setoid_replace 0%Q with (omega * 0)%Q by ring. apply Qmult_lt_l; [assumption|]. apply pos_inject. nia. }
  pose proof (periodic_multiple (s i) L' T (fun m => Hp i v m E)) as PM.
  set (x := ((t - s i 0%nat) / T)%Q). exists (0 + Z.to_nat (Z.max 0 (Qround.Qfloor x + 1)) * L')%nat. rewrite PM. rewrite Z2Nat.id by lia.
  assert (X : (x < inject_Z (Z.max 0 (Qround.Qfloor x + 1)))%Q).
  { eapply Qlt_le_trans; [apply Qround.Qlt_floor|]. rewrite <- Zle_Qle. lia. }
  apply Qmult_lt_r with (z := T) in X; [|assumption]. assert (x * T == t - s i 0%nat)%Q by (unfold x; field; lra). lra.
Qed.

Lemma pace_pos s omega : vertices g <> [] -> non_zeno g s -> keeps_pace g N s omega -> (0 < omega)%Q.
Proof.
  intros NE Hz (B & HB). destruct (Qlt_le_dec 0 omega) as [|Ho]; [assumption|]. exfalso.
  assert (Hi : (0 < length (vertices g))%nat) by (destruct (vertices g); [congruence|cbn; lia]).
  destruct (Hz 0%nat B Hi) as (m & Hm). specialize (HB 0%nat m Hi).
  assert (0 <= inject_Z (Z.of_nat m) / inject_Z (N 0%nat))%Q.
  { apply Qle_shift_div_l; [apply pos_inject, (HN_pos g N Hcyc 0%nat Hi)|].
    rewrite Qmult_0_l. change 0%Q with (inject_Z 0). rewrite <- Zle_Qle. lia. }
  set (q := (_ / _)%Q) in *. clearbody q. nra.
Qed.

Lemma nperiodic_best cs a : vertices g <> [] -> generate_event_graph StronglyOptimized g N N = Ok cs -> exact_answer cs a ->
  best_throughput g N (fst a).
Proof.
  intros NE Hg Ex. pose proof (HN_pos g N Hcyc) as HN. split.
  - intros P. destruct (periodic_best N cs a HN Hg Ex) as [H _]. destruct (H P) as (s & Hv & Hp). exists s.
    assert (Om : (0 < / fst a)%Q) by (apply Qinv_lt_0_compat; assumption).
    split; [assumption|]. split; [apply (periodic_non_zeno N (/ fst a)); assumption|].
    apply (periodic_keeps_pace g N N (/ fst a) s HN HN); [|assumption]. intros v I. apply Hwf, I.
  - intros s omega Hv Hz Hp. pose proof (pace_pos s omega NE Hz Hp) as Om. apply (answer_of_fit cs a omega Ex); [lra|].
    apply (any_pace_fits cs s omega NE Hg Hv Hz Hp). lra.
Qed.

Lemma best_unique th th' : (0 < th)%Q \/ (0 < th')%Q -> best_throughput g N th -> best_throughput g N th' -> (th == th')%Q.
Proof.
  assert (X : forall a b, (0 < a)%Q -> best_throughput g N a -> best_throughput g N b -> (0 < b)%Q /\ (/ b <= / a)%Q).
  { intros a b Pa [Ea _] [_ Ob]. destruct (Ea Pa) as (s & Hv & Hz & Hp). apply (Ob s (/ a)%Q Hv Hz Hp). }
  assert (Y : forall a b, (0 < a)%Q -> (0 < b)%Q -> (/ b <= / a)%Q -> (a <= b)%Q).
  { intros a b Pa Pb Le. apply Qmult_le_l with (z := a) in Le; [|assumption]. apply Qmult_le_l with (z := b) in Le; [|assumption].
    assert (b * (a * / b) == a)%Q by (field; lra). assert (b * (a * / a) == b)%Q by (field; lra). lra. }
  intros D B B'. assert (P : (0 < th)%Q /\ (0 < th')%Q) by (destruct D as [D|D]; split; auto; eapply X; eauto).
  destruct P as [P P']. destruct (X th th' P B B') as [_ L1]. destruct (X th' th P' B' B) as [_ L2].
  apply Qle_antisym; apply Y; assumption.
Qed.

Lemma kiter_best solve arrange fuel r K cs : (forall l, Permutation (arrange l) l) -> vertices g <> [] -> edge_ids_ok g ->
  (iteration_bound g N <= fuel)%nat -> kiter solve arrange fuel StronglyOptimized g N = Ok (r, K, cs) -> exact_answer cs (solve cs) ->
  best_throughput g N (kr_throughput r) /\ positive_on g K.
Proof.
  intros Pm NE EI Fu H X. destruct (kiter_optimal solve arrange StronglyOptimized g N fuel r K cs Pm Hwf Hbal Hni Hno Hcyc EI Fu H X) as [P1 P2].
  destruct (kiter_spec StronglyOptimized g N Hwf Hcyc Hni EI solve arrange Pm fuel Fu) as (K' & cs' & cs1 & Hk' & HK & _).
  rewrite H in Hk'. assert (K' = K) as -> by congruence. pose proof (kdiv_pos g N K HK) as HKp. split; [|assumption]. split.
  - intros P. destruct (P1 P) as [(s & Hp & Hv & Hk) _]. exists s. split; [assumption|]. split; [|assumption].
    apply (periodic_non_zeno K (/ kr_throughput r)); auto. apply Qinv_lt_0_compat. assumption.
  - intros s omega Hv Hz Hp. destruct (Qlt_le_dec 0 (kr_throughput r)) as [L|L].
    + split; [assumption|]. apply (proj2 (P1 L) s omega Hv Hz Hp).
    + destruct (P2 L s omega Hv Hz Hp).
Qed.
End G.
