(** The whole transformation: what it returns, and that it returns. *)
From Coq Require Import QArith Lqa ZifyBool ZifyNat.
From Verif Require Import Base Graph EventGraph ScheduleSpec ScheduleCore KPeriodicProofs KPeriodicEnd KIterSpec Merge MergeSeq MergeCore MergeProofs MergeTotal MergeSpec.
Open Scope Z_scope.

Lemma firstn_skipn_cut {A} (l : list A) a b : skipn a (firstn (a + b) l) = firstn b (skipn a l).
Proof. revert l. induction a as [|a IH]; intros [|x l]; cbn; try reflexivity; [destruct b; reflexivity|apply IH]. Qed.

Lemma cntl_le k l : (cntl k l <= length l)%nat.
Proof. unfold cntl. induction l as [|e l IH]; cbn; [lia|]. destruct (_ =? k)%nat; cbn; lia. Qed.
Lemma cut_facts l0 init0 : (init0 < length l0)%nat ->
  let init := reduce_init l0 init0 in let l := firstn (init + (length l0 - init0)) l0 in
  (init <= init0)%nat /\ length l = (init + (length l0 - init0))%nat /\ (init < length l)%nat /\ forall k, per_count l init k = cntl k (skipn init0 l0).
Proof.
  intros L init l. destruct (reduce_init_spec l0 init0 ltac:(lia)) as [A B]. fold init in A, B. assert (E : length l = (init + (length l0 - init0))%nat) by (unfold l; rewrite firstn_length; lia).
  split; [assumption|]. split; [assumption|]. split; [lia|]. intros k. unfold per_count, l. rewrite firstn_skipn_cut. apply cntl_map, B.
Qed.

Lemma id_pos_inj g i j v w : graph_wf g -> nth_error (vertices g) i = Some v -> nth_error (vertices g) j = Some w -> v_id v = v_id w -> i = j.
Proof.
  intros (_ & _ & ND) V W E. apply (proj1 (NoDup_nth_error (map v_id (vertices g))) ND); [rewrite map_length; apply nth_error_Some; congruence|]. rewrite !nth_error_map, V, W. cbn. congruence.
Qed.

Lemma shapes g N ts x c : graph_wf g -> good_info g N ts x -> In c (edges g) ->
  (e_dst c = mi_pos x -> length (e_out c) = mi_phases x) /\ (e_src c = mi_pos x -> length (e_in c) = mi_phases x).
Proof.
  intros WF (v & t & V & _ & _ & _ & _ & _ & Ph & _) I. destruct WF as (_ & EW & _). destruct (EW c I) as (vs & vd & Vs & Vd & Li & Lo & _).
  split; intros E; [rewrite E in Vd; assert (vd = v) as -> by congruence|rewrite E in Vs; assert (vs = v) as -> by congruence]; lia.
Qed.

Section I.
Variables (g : graph) (N : nat -> Z) (ts : list task_schedule) (nodes : list Z).
Hypothesis WF : graph_wf g.
Lemma merged_iff infos : (forall x, In x infos -> good_info g N ts x) -> (forall i, In i (map mi_id infos) <-> In i nodes) ->
  forall i, (exists k x, nth_error infos k = Some x /\ mi_pos x = i) <-> to_merge g nodes i.
Proof.
  intros Good Ids i. split.
  - intros (k & x & Hx & <-). pose proof (nth_error_In _ _ Hx) as I. destruct (Good x I) as (v & t & V & _ & E & _). exists v. split; [assumption|]. rewrite E. apply Ids, in_map, I.
  - intros (v & V & I). apply Ids in I. apply in_map_iff in I. destruct I as (x & E & I). destruct (Good x I) as (w & t & W & _ & E' & _).
    apply In_nth_error in I. destruct I as (k & Hx). exists k, x. split; [assumption|]. apply (id_pos_inj g _ _ w v WF W V). congruence.
Qed.
Lemma whole_gcd infos : (forall x, In x infos -> good_info g N ts x) -> (forall i, In i (map mi_id infos) <-> In i nodes) -> infos <> [] ->
  whole_patterns g N nodes -> forall k x, nth_error infos k = Some x -> (Z.of_nat (mi_phases x) * gcd_ni infos | mi_ni x).
Proof.
  intros Good Ids NE WP k x Hx. pose proof (nth_error_In _ _ Hx) as I. destruct (Good x I) as (v & t & V & _ & E & _ & Ni & Pos & Ph & _). rewrite Ph, Ni.
  apply (WP (gcd_ni infos)); [|assumption|rewrite E; apply Ids, in_map, I]. intros i Mi. apply (merged_iff infos Good Ids) in Mi. destruct Mi as (k' & y & Hy & Ey).
  assert (NP : forall k x, nth_error infos k = Some x -> 0 < mi_ni x). { intros k2 z Hz. destruct (Good z (nth_error_In _ _ Hz)) as (_ & _ & _ & _ & _ & _ & _ & Pz & _). exact Pz. }
  destruct (gcd_ni_spec infos NP NE) as (_ & D & _). specialize (D y (nth_error_In _ _ Hy)). destruct (Good y (nth_error_In _ _ Hy)) as (_ & _ & _ & _ & _ & _ & Ny & _). rewrite <- Ey, <- Ny. exact D.
Qed.

Lemma merge_inv fuel mid g1 : merge fuel mid nodes ts g N = Ok g1 -> whole_patterns g N nodes ->
  exists infos l init ins outs f,
    (forall x, In x infos -> good_info g N ts x) /\ NoDup (map mi_id infos) /\ (forall i, In i (map mi_id infos) <-> In i nodes) /\
    run_ok infos l /\ (init < length l)%nat /\
    task_edges g infos (input_edge g infos l init) e_dst infos 0 = Ok ins /\ task_edges g infos (output_edge g infos l init) e_src infos 0 = Ok outs /\
    0 < gcd_ni infos /\ 0 < f /\ (forall k x, nth_error infos k = Some x -> gcd_ni infos * Z.of_nat (per_count l init k) = f * mi_ni x) /\
    (forall k x, nth_error infos k = Some x -> exists u, (per_count l init k = u * mi_phases x)%nat) /\
    g1 = g' g infos l init mid ins outs.
Proof.
  intros H WP. unfold merge in H. destruct (collect_infos g N ts nodes []) as [infos| | |] eqn:Ec; try discriminate. cbn [bind] in H.
  destruct (execute fuel infos (fun _ => O) []) as [l0| | |] eqn:Ee; try discriminate. cbn [bind] in H.
  destruct (find_init infos (gcd_ni infos) l0 (length l0 - 1)) as [init0| | |] eqn:Ef; try discriminate. cbn [bind] in H.
  set (init := reduce_init l0 init0) in *. set (l := firstn (init + (length l0 - init0)) l0) in *.
  destruct (task_edges g infos (input_edge g infos l init) e_dst infos 0) as [ins| | |] eqn:Ei; try discriminate. cbn [bind] in H.
  destruct (task_edges g infos (output_edge g infos l init) e_src infos 0) as [outs| | |] eqn:Eo; try discriminate. cbn [bind] in H.
  apply collect_infos_good in Ec; [|intros x []|constructor]. destruct Ec as (Good & ND & Ids).
  assert (Ids' : forall i, In i (map mi_id infos) <-> In i nodes) by (intros i; rewrite Ids; cbn; tauto).
  assert (NE : infos <> []) by (intros ->; destruct fuel; discriminate Ee).
  assert (NP : forall k x, nth_error infos k = Some x -> 0 < mi_ni x). { intros k2 z Hz. destruct (Good z (nth_error_In _ _ Hz)) as (_ & _ & _ & _ & _ & _ & _ & Pz & _). exact Pz. }
  destruct (gcd_ni_spec infos NP NE) as (Gp & Gd & _). apply execute_spec in Ee; [|exact (run_ok_nil infos)|reflexivity]. destruct Ee as (R0 & _ & NE0).
  assert (0 < length l0)%nat by (destruct l0; [congruence|cbn; lia]). apply find_init_spec in Ef. destruct Ef as [Li Sk]. apply suffix_ok_spec in Sk. destruct Sk as (f & _ & _ & [Sk|Sk]); [congruence|].
  destruct (cut_facts l0 init0 ltac:(lia)) as (A & B & C & D). fold init l in A, B, C, D.
  assert (W : forall k x, nth_error infos k = Some x -> Z.of_nat (per_count l init k) = mi_ni x / gcd_ni infos * f /\ 0 < Z.of_nat (per_count l init k)).
  { intros k x Hx. destruct (Sk k x Hx) as [S1 S2]. cbn [Nat.add] in S1, S2. rewrite occurrences_cntl in S1, S2. rewrite D. split; [assumption|lia]. }
  exists infos, l, init, ins, outs, f. split; [assumption|]. split; [assumption|]. split; [assumption|]. split; [apply run_ok_firstn, R0|]. split; [assumption|]. split; [assumption|]. split; [assumption|].
  split; [assumption|]. assert (Fp : 0 < f).
  { assert (E0 : exists x, nth_error infos 0 = Some x) by (destruct infos as [|x ?]; [congruence|exists x; reflexivity]). destruct E0 as (x & Hx). destruct (W _ _ Hx) as [W1 W2].
    specialize (NP _ _ Hx). destruct (Gd x (nth_error_In _ _ Hx)) as (q & Q). rewrite Q, Z.div_mul in W1 by lia. assert (0 < q) by nia. nia. }
  split; [assumption|]. split; [|split].
  - intros k x Hx. destruct (W _ _ Hx) as [W1 _]. destruct (Gd x (nth_error_In _ _ Hx)) as (q & Q). rewrite W1, Q, Z.div_mul by lia. ring.
  - intros k x Hx. destruct (W _ _ Hx) as [W1 W2]. destruct (whole_gcd infos Good Ids' NE WP k x Hx) as (q & Q). rewrite Q, Z.mul_assoc, Z.div_mul in W1 by lia.
    exists (Z.to_nat (q * f)). specialize (NP _ _ Hx). assert (0 <= q) by nia. nia.
  - apply (f_equal (fun x => match x with Ok y => y | _ => g end)) in H. symmetry. exact H.
Qed.

(** ** Success *)
Hypothesis Ne : nodes <> [].
Hypothesis Nd : NoDup nodes.
Hypothesis Known : forall id, In id nodes -> exists i v t, nth_error (vertices g) i = Some v /\ v_id v = id /\ nth_error ts i = Some t /\
  v_init_phases v = 0%nat /\ 0 < N i /\ (0 < length (ts_starts t))%nat.

Lemma find_pos_known i v : nth_error (vertices g) i = Some v -> find_pos g (v_id v) = Some i.
Proof.
  intros V. unfold find_pos. destruct (find _ _) as [j|] eqn:E.
  - apply find_some in E. destruct E as [_ E]. destruct (nth_error (vertices g) j) as [w|] eqn:W; [|discriminate]. f_equal. apply (id_pos_inj g j i w v WF W V). lia.
  - exfalso. assert (X := find_none _ _ E i). cbv beta in X. rewrite V, Z.eqb_refl in X. assert (true = false); [|discriminate]. apply X, in_seq.
    assert (i < length (vertices g))%nat by (apply nth_error_Some; congruence). lia.
Qed.
Lemma collect_infos_ok : forall ns acc, (forall id, In id ns -> In id nodes) -> NoDup ns -> (forall id, In id ns -> ~ In id (map mi_id acc)) -> exists infos, collect_infos g N ts ns acc = Ok infos.
Proof.
  induction ns as [|id ns IH]; intros acc Sub Ndn Fr; cbn; [eauto|]. destruct (Known id (Sub id (or_introl eq_refl))) as (i & v & t & V & <- & T & I0 & Np & Lp).
  assert (E : exists x, info_of g N ts (v_id v) = Ok x /\ mi_id x = v_id v).
  { unfold info_of. rewrite (find_pos_known i v V), V, T, I0. assert (En : (0 <? N i) = true) by lia. rewrite En. cbn [negb Nat.eqb]. destruct WF as (VW & _). destruct (VW v (nth_error_In _ _ V)) as (A & B & _).
    rewrite B, Nat.eqb_refl. destruct (0 <? v_phases v)%nat eqn:E1; [|lia]. destruct (0 <? length (ts_starts t))%nat eqn:E2; [|lia]. cbn. eexists. split; reflexivity. }
  destruct E as (x & E & Ix). rewrite E. cbn [bind]. destruct (existsb _ acc) eqn:X.
  - exfalso. apply existsb_exists in X. destruct X as (y & I & Ey). apply (Fr (v_id v)); [left; reflexivity|]. apply in_map_iff. exists y. split; [lia|assumption].
  - inversion Ndn as [|? ? H1 H2]; subst. apply IH; [intros; apply Sub; right; assumption|assumption|]. intros id I J. apply in_map_iff in J. destruct J as (y & Ey & J). apply insert_info_in in J.
    destruct J as [->|J]; [apply H1; congruence|]. apply (Fr id (or_intror I)). apply in_map_iff. eauto.
Qed.

Variable omega : Q.
Hypothesis Om : (0 < omega)%Q.
Hypothesis Valid : schedule_valid g (denoted ts).
Hypothesis Dpos : forall i v d, nth_error (vertices g) i = Some v -> In (v_id v) nodes -> In d (v_durations v) -> (0 < d)%Q.
Hypothesis Rep : repeats g N omega (denoted ts).
Hypothesis WP : whole_patterns g N nodes.

Lemma merge_total mid : exists F, forall fuel, (F <= fuel)%nat -> exists g1, merge fuel mid nodes ts g N = Ok g1.
Proof.
  destruct (collect_infos_ok nodes [] (fun _ H => H) Nd (fun _ _ F => F)) as (infos & Ec).
  pose proof Ec as Ec'. apply collect_infos_good in Ec'; [|intros x []|constructor]. destruct Ec' as (Good & ND & Ids).
  assert (Ids' : forall i, In i (map mi_id infos) <-> In i nodes) by (intros i; rewrite Ids; cbn; tauto).
  assert (NE : infos <> []) by (intros ->; destruct nodes as [|a ?]; [congruence|]; destruct (Ids' a) as [_ X]; destruct (X (or_introl eq_refl))).
  assert (NP : forall k x, nth_error infos k = Some x -> 0 < mi_ni x). { intros k2 z Hz. destruct (Good z (nth_error_In _ _ Hz)) as (_ & _ & _ & _ & _ & _ & _ & Pz & _). exact Pz. }
  assert (PP : forall k x, nth_error infos k = Some x -> (0 < mi_phases x)%nat). { intros k2 z Hz. destruct (Good z (nth_error_In _ _ Hz)) as (v & t & _ & _ & _ & _ & _ & _ & E & _ & _ & Pz & _). lia. }
  assert (St : forall k x c, nth_error infos k = Some x -> (st infos k c == denoted ts (mi_pos x) c)%Q) by (intros k x c Hx; unfold st; rewrite Hx; apply (next_time_denoted g N), Good, (nth_error_In _ _ Hx)).
  assert (Strict : forall k c, (k < length infos)%nat -> (st infos k c < st infos k (S c))%Q).
  { intros k c L. destruct (nth_error infos k) as [x|] eqn:Hx; [|apply nth_error_None in Hx; lia]. rewrite !(St k x _ Hx). destruct (Good x (nth_error_In _ _ Hx)) as (v & t & V & _ & Iv & I0 & _ & _ & _).
    destruct Valid as [_ Se]. specialize (Se _ v V c). unfold start_of in Se. assert (0 < exec_duration v c)%Q; [|lra].
    destruct WF as (VW & _). destruct (VW v (nth_error_In _ _ V)) as (P0 & L0 & Lid & _). rewrite I0 in Lid. unfold exec_duration. destruct (v_init_durations v); [|discriminate].
    apply (Dpos _ v _ V); [rewrite Iv; apply Ids', in_map, (nth_error_In _ _ Hx)|]. apply (cyclic_in 0%Q [] (v_durations v) c). lia. }
  assert (Rp : forall k c, (k < length infos)%nat -> (st infos k (c + ni infos k) == st infos k c + omega)%Q).
  { intros k c L. destruct (nth_error infos k) as [x|] eqn:Hx; [|apply nth_error_None in Hx; lia]. rewrite !(St k x _ Hx). destruct (Good x (nth_error_In _ _ Hx)) as (v & t & V & _ & _ & _ & Nx & _).
    unfold ni. rewrite Hx, Nx. apply Rep. apply nth_error_Some. congruence. }
  destruct (execute_ends infos omega Om Strict Rp NP PP NE) as (F & HF). exists F. intros fuel Hf. destruct (HF fuel Hf) as (l0 & Ee).
  unfold merge. rewrite Ec. cbn [bind]. rewrite Ee. cbn [bind]. pose proof Ee as Ee'. apply execute_spec in Ee'; [|exact (run_ok_nil infos)|reflexivity]. destruct Ee' as (R0 & Fin & NE0).
  assert (T0 : ties_ok infos l0) by (apply (execute_ties infos _ _ _ _ Ee); [intros [|m] k c H; discriminate|reflexivity]).
  destruct (period_suffix infos omega Strict Rp NP PP l0 R0 T0 Fin NE) as (m & Lm & Hm). destruct (gcd_ni_spec infos NP NE) as (Gp & Gd & _).
  destruct (find_init_ok infos (gcd_ni infos) l0 (length l0 - 1) m ltac:(lia)) as (init0 & Ef).
  { apply (suffix_ok_period infos (gcd_ni infos) (skipn m l0) Gp infos 0 0 (or_introl eq_refl)). intros j x Hx. split; [apply (Hm j x Hx)|]. split; [apply (NP j x Hx)|apply Gd, (nth_error_In _ _ Hx)]. }
  rewrite Ef. cbn [bind]. apply find_init_spec in Ef. destruct Ef as [Li Sk]. apply suffix_ok_spec in Sk. destruct Sk as (f & _ & _ & [Sk|Sk]); [congruence|].
  destruct (cut_facts l0 init0 ltac:(lia)) as (A & B & C & D). set (init := reduce_init l0 init0) in *. set (l := firstn (init + (length l0 - init0)) l0) in *.
  assert (Len : forall k x, nth_error infos k = Some x -> (mi_phases x <= length l)%nat).
  { intros k x Hx. destruct (Sk k x Hx) as [S1 S2]. cbn [Nat.add] in S1, S2. rewrite occurrences_cntl in S1, S2.
    destruct (whole_gcd infos Good Ids' NE WP k x Hx) as (q & Q). rewrite Q, Z.mul_assoc, Z.div_mul in S1 by lia. pose proof (PP k x Hx). pose proof (NP k x Hx).
    assert (cntl k (skipn init0 l0) <= length l)%nat. { rewrite B. pose proof (cntl_le k (skipn init0 l0)) as X. rewrite skipn_length in X. lia. }
    assert (Y : Z.of_nat (cntl k (skipn init0 l0)) = q * f * Z.of_nat (mi_phases x)) by lia. assert (0 < q * f) by nia. nia. }
  assert (Rates : forall k x rates, nth_error infos k = Some x -> length rates = mi_phases x -> exists r, merged_rates l k rates = Ok r).
  { intros k x rates Hx Lr. unfold merged_rates, produce_sequence. pose proof (Len k x Hx). pose proof (PP k x Hx). destruct (length rates <=? length l)%nat eqn:E; [|lia].
    destruct (length rates =? 0)%nat eqn:E2; [lia|]. cbn. eauto. }
  destruct (task_edges_ok g infos (input_edge g infos l init) e_dst infos 0) as (ins & Ei).
  { intros j x c Hx Ic E. cbn [Nat.add]. pose proof (proj1 (shapes g N ts x c WF (Good x (nth_error_In _ _ Hx)) Ic) E) as Lo. unfold input_edge. destruct (Rates j x _ Hx Lo) as (r & ->). cbn. eauto. }
  rewrite Ei. cbn [bind]. destruct (task_edges_ok g infos (output_edge g infos l init) e_src infos 0) as (outs & Eo).
  { intros j x c Hx Ic E. cbn [Nat.add]. pose proof (proj2 (shapes g N ts x c WF (Good x (nth_error_In _ _ Hx)) Ic) E) as Lo. unfold output_edge. destruct (Rates j x _ Hx Lo) as (r & ->). cbn. eauto. }
  rewrite Eo. cbn [bind]. eauto.
Qed.
End I.

(** ** What a schedule of the merged graph says of the original one *)
Section U.
Variables (g : graph) (N : nat -> Z) (ts : list task_schedule) (nodes : list Z) (fuel : nat) (mid : Z) (g1 : graph).
Hypothesis WF : graph_wf g.
Hypothesis Bal : balanced g N.
Hypothesis Valid : schedule_valid g (denoted ts).
Hypothesis Dpos : forall i v d, nth_error (vertices g) i = Some v -> In (v_id v) nodes -> In d (v_durations v) -> (0 < d)%Q.
Hypothesis WP : whole_patterns g N nodes.
Hypothesis Hm : merge fuel mid nodes ts g N = Ok g1.

Lemma merge_facts : exists f N1 (un : schedule -> schedule), 0 < f /\ balanced g1 N1 /\
  (~ In mid (map v_id (vertices g)) -> graph_wf g1) /\ (forall j, (j < length (vertices g1))%nat -> (forall i, (i < length (vertices g))%nat -> 0 < N i) -> 0 < N1 j) /\
  (forall i v, nth_error (vertices g) i = Some v -> ~ to_merge g nodes i -> exists j, nth_error (vertices g1) j = Some v /\ N1 j = f * N i /\ forall s c, un s i c = s j c) /\
  (forall s', schedule_valid g1 s' -> schedule_valid g (un s') /\ same_executions g nodes g1 mid (un s') s') /\
  (forall s' omega, (0 <= omega)%Q -> (forall i, (i < length (vertices g))%nat -> 0 < N i) -> keeps_pace g1 N1 s' omega -> keeps_pace g N (un s') (omega / inject_Z f)) /\
  (forall s', schedule_valid g1 s' -> (forall j m, (j < length (vertices g1))%nat -> (s' j m <= s' j (S m))%Q) -> non_zeno g1 s' -> non_zeno g (un s')).
Proof.
  destruct (merge_inv g N ts nodes WF fuel mid g1 Hm WP) as (infos & l & init & ins & outs & f & Good & ND & Ids & R & Lt & Ins & Outs & Gc & Fp & Wper & Wdiv & ->).
  assert (Dp : forall x d, In x infos -> In d (mi_durations x) -> (0 < d)%Q).
  { intros x d I J. destruct (Good x I) as (v & t & V & _ & E & _ & _ & _ & _ & Du & _). rewrite Du in J. apply (Dpos _ v d V); [rewrite E; apply Ids, in_map, I|assumption]. }
  assert (Mi : forall i, is_merged infos i = true <-> to_merge g nodes i) by (intros i; rewrite merged_rank; apply (merged_iff g N ts nodes WF infos Good Ids)).
  assert (Nm : forall i, ~ to_merge g nodes i -> is_merged infos i = false) by (intros i H; destruct (is_merged infos i) eqn:E; [apply Mi in E; contradiction|reflexivity]).
  assert (NMid : nth_error (vertices (g' g infos l init mid ins outs)) (length (kept g infos)) = Some (middle infos l init mid)).
  { cbn [g' vertices]. rewrite nth_error_app2, Nat.sub_diag by apply Nat.le_refl. reflexivity. }
  exists f, (N' g N infos l init (gcd_ni infos) f), (unmerge g infos l init).
  split; [assumption|]. split; [apply (merged_balanced g N ts infos l init mid ins outs); assumption|]. split; [apply (merged_wf g N ts infos l init mid ins outs WF Good R Lt Ins Outs (gcd_ni infos) f); assumption|]. split; [|split; [|split; [|split]]].
  - intros j L Np. unfold N'. destruct (j <? _)%nat eqn:E; [|nia]. apply Z.mul_pos_pos; [assumption|]. apply Np. unfold old_pos.
    set (xs := filter _ (seq 0 (length (vertices g)))). assert (Lj : (j < length xs)%nat).
    { unfold xs. unfold kept in E. rewrite (kept_length (fun j => negb (is_merged infos j))) in E. lia. }
    pose proof (nth_In xs 0%nat Lj) as I. unfold xs in I at 2. apply filter_In in I. destruct I as [I _]. apply in_seq in I. lia.
  - intros i v V H. exists (new_pos infos i). split; [apply new_vertex; [assumption|apply Nm, H]|]. split.
    + apply N'_kept; [apply nth_error_Some; congruence|apply Nm, H].
    + intros s c. unfold unmerge. rewrite (rank_none infos i (Nm i H)). reflexivity.
  - intros s' V'. split; [apply (unmerge_valid g N ts infos l init mid ins outs WF Good ND R Lt Ins Outs (gcd_ni infos) f); assumption|]. split.
    + set (M := length (kept g infos)). set (w := middle infos l init mid).
      exists M, w, (fun m => (match nth_error infos (tk l init m) with Some x => mi_pos x | None => 0%nat end, cnt l init (tk l init m) m)).
      split; [exact NMid|]. split; [reflexivity|].
      assert (Pp : forall k x, nth_error infos k = Some x -> (0 < per_count l init k)%nat) by apply (per_pos g N ts infos l init Good Lt (gcd_ni infos) f Gc Fp Wper Wdiv).
      split; [|split].
      * intros m. destruct (tk_known l init Lt infos m R) as (x & Hx). rewrite Hx. cbn [fst snd]. pose proof (Pp _ _ Hx) as Pk. destruct (Good x (nth_error_In _ _ Hx)) as (v & t & V & _).
        split; [apply Mi, merged_rank; eauto|]. split.
        -- unfold unmerge. rewrite (rank_of g N ts infos l init Good ND Lt _ _ Wper Wdiv _ x Hx). rewrite (pos_cnt l init Lt m Pk). reflexivity.
        -- exists v. split; [assumption|]. unfold w. rewrite <- (middle_duration g N ts infos l init mid WF Good R Lt _ _ Gc Fp Wper Wdiv _ x v _ Hx V). rewrite (pos_cnt l init Lt m Pk). reflexivity.
      * intros i c H. apply Mi, merged_rank in H. destruct H as (k & x & Hx & <-). pose proof (Pp _ _ Hx) as Pk. exists (pos l init k c).
        destruct (pos_spec l init Lt k c Pk) as [E1 E2]. rewrite E1, Hx, E2. reflexivity.
      * intros m m' E. destruct (tk_known l init Lt infos m R) as (x & Hx). destruct (tk_known l init Lt infos m' R) as (x' & Hx'). rewrite Hx, Hx' in E.
        assert (E1 : mi_pos x = mi_pos x') by congruence. assert (E2 : cnt l init (tk l init m) m = cnt l init (tk l init m') m') by congruence.
        assert (Ek : tk l init m = tk l init m').
        { apply (proj1 (NoDup_nth_error (map mi_id infos)) ND); [rewrite map_length; apply nth_error_Some; congruence|]. rewrite !nth_error_map, Hx, Hx'. cbn. f_equal.
          apply (good_pos_inj g N ts); [apply Good, (nth_error_In _ _ Hx)|apply Good, (nth_error_In _ _ Hx')|assumption]. }
        rewrite <- (pos_cnt l init Lt m (Pp _ _ Hx)), E2, Ek. apply (pos_cnt l init Lt m' (Pp _ _ Hx')).
    + intros i v V H. exists (new_pos infos i). split; [apply new_vertex; [assumption|apply Nm, H]|]. intros c. unfold unmerge. rewrite (rank_none infos i (Nm i H)). reflexivity.
  - intros s' omega Om Np KP. apply (unmerge_pace g N ts infos l init mid ins outs Good ND Lt (gcd_ni infos) f Gc Fp Wper Wdiv Dp s' omega Om Np KP).
  - intros s' V' Mono NZ i t L. destruct (nth_error (vertices g) i) as [v|] eqn:V; [|apply nth_error_None in V; lia]. unfold unmerge. destruct (rank infos i) as [k|] eqn:E.
    + apply rank_some in E. destruct E as (x & Hx & Ex). assert (LM : (length (kept g infos) < length (vertices (g' g infos l init mid ins outs)))%nat) by (apply nth_error_Some; rewrite NMid; discriminate).
      destruct (NZ _ t LM) as (m & Hm'). exists m. eapply Qlt_le_trans; [exact Hm'|]. apply (mono_le (s' (length (kept g infos)))); [intros j; apply Mono, LM|].
      assert (Pk : (0 < per_count l init k)%nat) by apply (per_pos g N ts infos l init Good Lt (gcd_ni infos) f Gc Fp Wper Wdiv k x Hx).
      clear - Lt Pk. induction m as [|m IH]; [lia|]. pose proof (pos_mono l init Lt k m (S m) Pk ltac:(lia)). lia.
    + assert (Fm : is_merged infos i = false). { destruct (is_merged infos i) eqn:Y; [|reflexivity]. apply merged_rank in Y. destruct Y as (k & x & Hx & Ex).
        rewrite <- Ex, (rank_of g N ts infos l init Good ND Lt _ _ Wper Wdiv k x Hx) in E. discriminate. }
      apply NZ. apply nth_error_Some. rewrite (new_vertex g infos l init mid ins outs i v V Fm). discriminate.
Qed.
End U.
