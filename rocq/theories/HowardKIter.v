(** Howard's policy iteration on the event graphs K-Iter builds. *)
From Coq Require Import QArith Qabs Lqa Permutation.
From Verif Require Import Base Graph ScheduleSpec ScheduleCore KPeriodic KPeriodicChannel KPeriodicSelfloop KPeriodicGraph KPeriodicEnd KPeriodicProps
  EventGraph EventGraphSpec EventGraphProofs KIter KIterSpec KIterProofs KIterLoop KIterProps SimSpec Howard HowardProofs HowardTotal HowardFinal.
Open Scope Z_scope.

Lemma duration_pos g v j : graph_wf g -> no_init g -> positive_durations g -> In v (vertices g) -> (0 < exec_duration v j)%Q.
Proof.
  intros WF NI PD I. pose proof (proj1 WF v I) as (HP & L1 & L2 & _). pose proof (NI v I) as Z0. apply (PD v _ I).
  unfold exec_duration, cyclic. rewrite L2, Z0. cbn [Nat.ltb Nat.leb]. apply nth_In. apply Nat.mod_upper_bound. lia.
Qed.

Section E.
Variables (var : variant) (g : graph) (N K : nat -> Z) (cs0 cs : list constraint).
Hypothesis WF : graph_wf g.
Hypothesis NI : no_init g.
Hypothesis NO : no_overlap g.
Hypothesis PD : positive_durations g.
Hypothesis HN : forall i, (i < length (vertices g))%nat -> 0 < N i.
Hypothesis HK : forall i, (i < length (vertices g))%nat -> 0 < K i.
Hypothesis GEN : generate_event_graph var g N K = Ok cs0.
Hypothesis MEM : forall x, In x cs <-> In x cs0.

Lemma constraint_durations c : In c cs -> (0 < c_d c)%Q.
Proof.
  intros I. apply MEM in I. apply (generate_event_graph_in var g N K WF cs0 GEN) in I.
  destruct I as [(i & v & r & Hv & Hr & Hx)|(e & vs & vd & r & He & V1 & V2 & Hr & Hx)].
  - destruct (K_nat g K HK i v Hv) as [Hk Hkp].
    destruct (generate_selfloop_spec v (N i) (Z.to_nat (K i)) (vertex_ok g WF i v Hv) Hkp (HN i (vertex_lt g _ _ Hv))) as (r' & Hr' & Hin).
    rewrite <- Hk, Hr in Hr'. injection Hr' as <-. apply Hin in Hx. pose proof (nth_error_In _ _ Hv) as Iv. pose proof (NO v Iv) as R.
    destruct (Z.leb_spec (v_reentrancy v) 0); [lia|].
    assert (Q : forall j, (0 < 1 * exec_duration v j)%Q) by (intros j; pose proof (duration_pos g v j WF NI PD Iv); lra).
    destruct Hx as [([|j] & Hj & ->)|(_ & ->)]; cbn [c_d charged]; apply Q.
  - destruct (edge_shape g WF e He) as (vs' & vd' & V1' & V2' & Hs & Hd & Hsh).
    rewrite V1 in V1'. rewrite V2 in V2'. injection V1' as <-. injection V2' as <-.
    destruct (K_nat g K HK _ _ V1) as [Hk1 Hkp1]. destruct (K_nat g K HK _ _ V2) as [Hk2 Hkp2].
    destruct (generate_channel_spec var e vs vd _ _ (N (e_src e)) Hs Hd Hsh Hkp1 Hkp2) as (? & ? & r' & ? & ? & ? & ? & Hr' & Hin).
    { apply HN, (vertex_lt g _ _ V1). }
    rewrite <- Hk1, <- Hk2, Hr in Hr'. injection Hr' as <-. apply Hin in Hx.
    destruct Hx as (i & j & a & Hi & Hj & _ & _ & ->). cbn [c_d]. apply (duration_pos g); auto. apply (nth_error_In _ _ V1).
Qed.

Lemma path_chain (f : nat -> constraint) (e : nat -> event) n : (forall j, (j < n)%nat -> c_source (f j) = e j /\ c_target (f j) = e (S j)) ->
  path (e 0%nat) (map f (seq 0 n)) (e n).
Proof.
  intros H. assert (G : forall k a, (a + k = n)%nat -> path (e a) (map f (seq a k)) (e n)).
  { induction k as [|k IH]; intros a Ha; cbn [seq map path]; [f_equal; lia|]. destruct (H a ltac:(lia)) as [H1 H2]. split; [congruence|]. rewrite H2. apply IH. lia. }
  apply G. lia.
Qed.

(** Every task has a circuit through all its events, whose only weight is on the closing arc. *)
Lemma task_circuit i v : nth_error (vertices g) i = Some v -> exists chain x,
  circuit cs (chain ++ [x]) /\ (sumQ c_w (chain ++ [x]) == c_w x)%Q /\ (0 < c_w x)%Q /\ In x cs /\ ev_task (c_source x) = v_id v /\
  length chain = (Z.to_nat (K i) * v_phases v - 1)%nat.
Proof.
  intros Hv. destruct (K_nat g K HK i v Hv) as [Hk Hkp]. pose proof (nth_error_In _ _ Hv) as Iv. pose proof (NO v Iv) as R. pose proof (NI v Iv) as I0.
  pose proof (vertex_ok g WF i v Hv) as (HP & _). pose proof (HN i (vertex_lt g _ _ Hv)) as Ni.
  destruct (generate_selfloop_spec v (N i) (Z.to_nat (K i)) (vertex_ok g WF i v Hv) Hkp Ni) as (r & Hr & Hin).
  rewrite <- Hk in Hr. rewrite I0 in Hin. cbn [Nat.add] in Hin. set (L := (Z.to_nat (K i) * v_phases v)%nat) in *. assert (HL : (0 < L)%nat) by (unfold L; nia).
  assert (J : forall x, In x r -> In x cs).
  { intros x Hx. apply MEM. apply (generate_event_graph_in var g N K WF cs0 GEN). left. exists i, v, r. auto. }
  set (tf := if v_reentrancy v <=? 0 then 0%Q else 1%Q) in *.
  set (f := fun j => mkConstraint (event_at v j) (event_at v (S j)) 0 (tf * charged v j)%Q 0).
  set (x := mkConstraint (event_at v (L - 1)) (event_at v 0) (inject_Z (Z.of_nat (v_phases v) * Z.of_nat (Z.to_nat (K i))) / inject_Z (N i)) (tf * exec_duration v (L - 1)) 0).
  exists (map f (seq 0 (L - 1))), x.
  assert (Ix : In x r) by (apply Hin; right; split; [lia|reflexivity]).
  split; [|split; [|split; [|split; [|split]]]].
  - split; [destruct (map f (seq 0 (L - 1))); discriminate|]. split.
    + intros y Hy. apply J. apply in_app_iff in Hy. destruct Hy as [Hy|[<-|[]]]; [|assumption].
      apply in_map_iff in Hy. destruct Hy as (j & <- & Hj). apply in_seq in Hj. apply Hin. left. exists j. split; [lia|reflexivity].
    + exists (event_at v 0). pose proof (path_chain f (event_at v) (L - 1)) as P.
      assert (G : forall l a b c, path a l b -> path b [x] c -> path a (l ++ [x]) c).
      { induction l as [|y l IH]; intros a b c; cbn [app path]; [intros ->; auto|]. intros [E Q] Q'. split; [assumption|]. eapply IH; [exact Q|exact Q']. }
      apply (G _ _ (event_at v (L - 1))); [apply P; intros; split; reflexivity|]. cbn. auto.
  - rewrite sumQ_app. assert (Z0 : forall l, (sumQ c_w (map f l) == 0)%Q) by (induction l as [|a l IH]; [reflexivity|cbn [map]; rewrite sumQ_cons, IH; cbn; ring]).
    rewrite Z0. rewrite sumQ_cons, sumQ_nil. ring.
  - cbn [c_w x]. apply Qlt_shift_div_l; [change 0%Q with (inject_Z 0); rewrite <- Zlt_Qlt; assumption|]. rewrite Qmult_0_l. change 0%Q with (inject_Z 0). rewrite <- Zlt_Qlt. nia.
  - auto.
  - reflexivity.
  - rewrite map_length, seq_length. reflexivity.
Qed.

Definition two_events : Prop := (1 < length (vertices g))%nat \/ exists v, In v (vertices g) /\ (1 < v_phases v)%nat.

(** With at least two events the first bound is not attained. *)
Lemma below_bound evs : closed evs cs -> two_events -> exists l, circuit cs l /\ (sumQ c_w l < mcr_bound Minimum 0 evs cs * sumQ c_d l)%Q.
Proof.
  intros CL T. set (z := shortest 0 evs cs). assert (Z0 : (0 < z)%Q) by (apply shortest_pos; apply Qle_refl).
  assert (Zl : forall c, In c cs -> (z <= c_d c)%Q) by (intros c I; apply shortest_le; [apply Qle_refl|assumption|assumption|apply constraint_durations; assumption]).
  set (s := total_weight evs cs).
  assert (B : (mcr_bound Minimum 0 evs cs * z == s)%Q) by (rewrite bound_eq; fold z s; unfold multiplier; field; lra).
  assert (SI : forall l, NoDup l -> incl l cs -> (sumQ (fun c => Qabs (c_w c)) l <= s)%Q).
  { intros l ND I. apply sum_incl; [intros; apply Qabs_nonneg|assumption|]. intros c Ic. apply arcs_In; auto. }
  set (b := mcr_bound Minimum 0 evs cs) in *.
  assert (Bn : forall d, (0 <= s)%Q -> (z <= d)%Q -> (s <= b * d)%Q).
  { intros d S0 D. assert (0 <= b)%Q. { apply Qmult_le_r with z; [assumption|]. rewrite B. lra. }
    rewrite <- B. rewrite !(Qmult_comm b). apply Qmult_le_compat_r; assumption. }
  destruct T as [T|(v & Iv & T)].
  - destruct (nth_error (vertices g) 0) as [v0|] eqn:E0; [|apply nth_error_None in E0; lia].
    destruct (nth_error (vertices g) 1) as [v1|] eqn:E1; [|apply nth_error_None in E1; lia].
    destruct (task_circuit 0 v0 E0) as (l0 & x0 & C0 & W0 & P0 & I0 & T0 & _).
    destruct (task_circuit 1 v1 E1) as (l1 & x1 & C1 & W1 & P1 & I1 & T1 & _).
    exists (l0 ++ [x0]). split; [assumption|].
    assert (NE : x0 <> x1).
    { intros <-. rewrite T0 in T1. assert (Y : 0%nat = 1%nat); [|discriminate]. apply (NoDup_nth_error (map v_id (vertices g))); [apply WF|rewrite map_length; lia|].
      rewrite !nth_error_map, E0, E1. cbn. congruence. }
    assert (X : (sumQ (fun c => Qabs (c_w c)) [x0; x1] <= s)%Q).
    { apply SI; [repeat constructor; cbn; intuition congruence|]. intros y [<-|[<-|[]]]; assumption. }
    rewrite !sumQ_cons, sumQ_nil in X. rewrite !Qabs_pos in X by lra.
    assert (Dl : (z <= sumQ c_d (l0 ++ [x0]))%Q) by (apply sum_ge; [apply C0|lra|]; intros c Ic; apply Zl, C0, Ic).
    specialize (Bn _ ltac:(lra) Dl). lra.
  - apply In_nth_error in Iv. destruct Iv as (i & Ei). destruct (task_circuit i v Ei) as (l0 & x0 & C0 & W0 & P0 & I0 & _ & Len).
    exists (l0 ++ [x0]). split; [assumption|].
    assert (X : (sumQ (fun c => Qabs (c_w c)) [x0] <= s)%Q).
    { apply SI; [repeat constructor; cbn; intuition congruence|]. intros y [<-|[]]; assumption. }
    rewrite !sumQ_cons, sumQ_nil in X. rewrite !Qabs_pos in X by lra.
    destruct (K_nat g K HK i v Ei) as [Hk Hkp]. destruct l0 as [|y l0]; [cbn in Len; nia|].
    assert (D1 : (z <= sumQ c_d (l0 ++ [x0]))%Q).
    { apply sum_ge; [destruct l0; discriminate|lra|]. intros c Ic. apply Zl. apply C0. right. exact Ic. }
    assert (D0 : (z <= c_d y)%Q) by (apply Zl, C0; left; reflexivity).
    change ((y :: l0) ++ [x0]) with (y :: (l0 ++ [x0])) in *. rewrite (sumQ_cons c_d).
    specialize (Bn _ ltac:(lra) D1). assert (b * c_d y == b * c_d y)%Q by reflexivity.
    assert (0 < b)%Q. { apply Qmult_lt_r with z; [assumption|]. rewrite B. lra. }
    assert (0 < c_d y * b)%Q by (apply Qmult_lt_0_compat; lra). lra.
Qed.

(** The settled answer of the algorithm is the exact answer K-Iter needs. *)
Lemma howard_exact evs q : closed evs cs -> two_events -> min_cycle_ratio 0 None evs cs = Ok q -> r_settled q = true ->
  exists v, r_value q = Some v /\ exact_answer cs (v, r_cycle q).
Proof.
  intros CL T H ST. destruct (settled_exact _ _ _ _ CL constraint_durations H ST) as (v & V & Low & At & Cyc & Emp).
  exists v. split; [assumption|]. destruct (below_bound evs CL T) as (l & Cl & Lt).
  assert (NE : r_cycle q <> []).
  { intros E. specialize (Emp E). specialize (Low l Cl). unfold multiplier in Low. rewrite Emp in Low. lra. }
  destruct (At (ex_intro _ l Cl)) as (l' & Cl' & R & Eq). specialize (Eq NE). subst l'.
  split; [assumption|]. split; [|split; [assumption|]].
  - cbn [snd]. apply sum_positive; [apply Cl'|]. intros c Ic. apply constraint_durations, Cl', Ic.
  - cbn [fst]. intros l' C'. specialize (Low l' C'). unfold multiplier in Low. lra.
Qed.
End E.

Lemma kiter_members solve arrange var g N fuel r K cs : (forall l, Permutation (arrange l) l) ->
  graph_wf g -> no_init g -> whole_cycles g N -> edge_ids_ok g -> (iteration_bound g N <= fuel)%nat ->
  kiter solve arrange fuel var g N = Ok (r, K, cs) ->
  (forall i, (i < length (vertices g))%nat -> 0 < K i) /\ exists cs1, generate_event_graph var g N K = Ok cs1 /\ forall x, In x cs <-> In x cs1.
Proof.
  intros Harr Hwf Hni Hcyc Hids Hf Hk. destruct (kiter_spec var g N Hwf Hcyc Hni Hids solve arrange Harr fuel Hf) as (K' & cs' & cs1 & Hk' & HK & Hg & Hcs & Hsat).
  rewrite Hk in Hk'. injection Hk' as -> -> ->. split; [apply kdiv_pos with N; assumption|]. exists cs1. auto.
Qed.

Lemma kiter_howard arrange solve var g N fuel r K cs evs q : (forall l, Permutation (arrange l) l) ->
  graph_wf g -> balanced g N -> no_init g -> no_overlap g -> whole_cycles g N -> edge_ids_ok g -> positive_durations g -> two_events g ->
  (iteration_bound g N <= fuel)%nat -> kiter solve arrange fuel var g N = Ok (r, K, cs) ->
  Permutation evs (event_list g K) -> min_cycle_ratio 0 None evs cs = Ok q -> r_settled q = true -> r_value q = Some (fst (solve cs)) -> r_cycle q = snd (solve cs) ->
  exact_answer cs (solve cs).
Proof.
  intros Ha WF Hb NI NO Hc Hid PD T Hf Hk Pe Hq St Hv Hcy.
  destruct (kiter_members _ _ _ _ _ _ _ _ _ Ha WF NI Hc Hid Hf Hk) as (HK & cs1 & Hg & Mem).
  pose proof (HN_pos g N Hc) as HN.
  assert (CL : closed evs cs).
  { intros c I. apply Mem in I. destruct (generated_closed var g N K WF HN HK cs1 Hg c I) as [A B]. split; eapply Permutation_in; try (apply Permutation_sym; exact Pe); assumption. }
  destruct (howard_exact var g N K cs1 cs WF NI NO PD HN HK Hg Mem evs q CL T Hq St) as (v & V & Ex).
  rewrite Hv in V. injection V as <-. rewrite Hcy in Ex. destruct (solve cs). exact Ex.
Qed.
