(** The schedule the tasks were merged from, seen as a schedule of the merged graph. *)
From Coq Require Import QArith Lqa ZifyBool ZifyNat.
From Verif Require Import Base Graph EventGraph ScheduleSpec ScheduleCore KPeriodicProofs KPeriodicEnd KIterSpec Merge MergeSeq MergeCore MergeProofs MergeTotal MergeSpec MergeEnd.
Open Scope Z_scope.

Lemma kept_old (p : nat -> bool) : forall (vs : list vertex) a j v,
  nth_error (map snd (filter (fun iv : nat * vertex => p (fst iv)) (combine (seq a (length vs)) vs))) j = Some v ->
  exists i, (i < length vs)%nat /\ nth_error vs i = Some v /\ p (a + i)%nat = true /\ nth_error (filter p (seq a (length vs))) j = Some (a + i)%nat.
Proof.
  induction vs as [|w vs IH]; intros a j v H; cbn [length seq combine filter map] in H; [destruct j; discriminate|]. cbn [fst] in H. destruct (p a) eqn:Pa.
  - destruct j as [|j]; cbn [map nth_error snd] in H.
    + injection H as ->. exists 0%nat. cbn [length seq filter nth_error]. rewrite Pa, Nat.add_0_r. cbn. repeat split; auto; lia.
    + destruct (IH (S a) j v H) as (i & L & V & Pi & Nf). exists (S i). cbn [length nth_error seq filter]. rewrite Pa. cbn [nth_error]. rewrite <- Nat.add_succ_comm. repeat split; auto; lia.
  - destruct (IH (S a) j v H) as (i & L & V & Pi & Nf). exists (S i). cbn [length nth_error seq filter]. rewrite Pa. rewrite <- Nat.add_succ_comm. repeat split; auto; lia.
Qed.

Lemma find_init_max infos G l : forall b m i, (m <= b)%nat -> suffix_ok infos G (skipn m l) 0 0 = true -> find_init infos G l b = Ok i -> (m <= i)%nat.
Proof.
  induction b as [|b IH]; intros m i L H E; cbn [find_init] in E; [lia|]. destruct (suffix_ok infos G (skipn (S b) l) 0 0) eqn:X; [injection E as <-; lia|].
  destruct (Nat.eq_dec m (S b)) as [->|]; [congruence|]. apply (IH m i); [lia|assumption|assumption].
Qed.
Lemma cntl_skipn k (l : list exec) a b : (a <= b)%nat -> (cntl k (skipn b l) <= cntl k (skipn a l))%nat.
Proof.
  revert a b. induction l as [|e l IH]; intros [|a] [|b] H; cbn [skipn]; try lia.
  - specialize (IH 0%nat b ltac:(lia)). cbn [skipn] in IH. unfold cntl in *. cbn [filter]. destruct (fst e =? k)%nat; cbn [length]; lia.
  - apply IH. lia.
Qed.

Lemma nth_error_firstn_lt {A} (l : list A) n m : (m < n)%nat -> nth_error (firstn n l) m = nth_error l m.
Proof. revert n m. induction l as [|a l IH]; intros [|n] [|m] H; cbn; try lia; try reflexivity. apply IH. lia. Qed.

Section B.
Variables (g : graph) (N : nat -> Z) (ts : list task_schedule) (nodes : list Z) (fuel : nat) (mid : Z) (g1 : graph) (omega : Q).
Hypothesis WF : graph_wf g.
Hypothesis Valid : schedule_valid g (denoted ts).
Hypothesis Rep : repeats g N omega (denoted ts).
Hypothesis Dpos : forall i v d, nth_error (vertices g) i = Some v -> In (v_id v) nodes -> In d (v_durations v) -> (0 < d)%Q.
Hypothesis WP : whole_patterns g N nodes.
Hypothesis Co : forall d, (forall i, to_merge g nodes i -> (d | N i)) -> (d | 1).
Hypothesis Apart : forall i j vi vj c d, nth_error (vertices g) i = Some vi -> nth_error (vertices g) j = Some vj -> In (v_id vi) nodes -> In (v_id vj) nodes ->
  (i, c) <> (j, d) -> (denoted ts i c + exec_duration vi c <= denoted ts j d)%Q \/ (denoted ts j d + exec_duration vj d <= denoted ts i c)%Q.
Hypothesis Hm : merge fuel mid nodes ts g N = Ok g1.

Lemma merge_back : exists s', schedule_valid g1 s' /\ same_executions g nodes g1 mid (denoted ts) s'.
Proof.
  pose proof Hm as H. unfold merge in H. destruct (collect_infos g N ts nodes []) as [infos| | |] eqn:Ec; try discriminate. cbn [bind] in H.
  destruct (execute fuel infos (fun _ => O) []) as [l0| | |] eqn:Ee; try discriminate. cbn [bind] in H.
  destruct (find_init infos (gcd_ni infos) l0 (length l0 - 1)) as [init0| | |] eqn:Ef; try discriminate. cbn [bind] in H.
  set (init := reduce_init l0 init0) in *. set (l := firstn (init + (length l0 - init0)) l0) in *.
  destruct (task_edges g infos (input_edge g infos l init) e_dst infos 0) as [ins| | |] eqn:Ins; try discriminate. cbn [bind] in H.
  destruct (task_edges g infos (output_edge g infos l init) e_src infos 0) as [outs| | |] eqn:Outs; try discriminate. cbn [bind] in H.
  apply (f_equal (fun x => match x with Ok y => y | _ => g end)) in H. symmetry in H. change (g1 = g' g infos l init mid ins outs) in H. subst g1.
  apply collect_infos_good in Ec; [|intros x []|constructor]. destruct Ec as (Good & ND & Ids0).
  assert (Ids : forall i, In i (map mi_id infos) <-> In i nodes) by (intros i; rewrite Ids0; cbn; tauto). clear Ids0.
  assert (NE : infos <> []) by (intros ->; destruct fuel; discriminate Ee).
  assert (NP : forall k x, nth_error infos k = Some x -> 0 < mi_ni x). { intros k2 z Hz. destruct (Good z (nth_error_In _ _ Hz)) as (_ & _ & _ & _ & _ & _ & _ & Pz & _). exact Pz. }
  assert (PP : forall k x, nth_error infos k = Some x -> (0 < mi_phases x)%nat). { intros k2 z Hz. destruct (Good z (nth_error_In _ _ Hz)) as (v & t & _ & _ & _ & _ & _ & _ & E & _ & _ & Pz & _). lia. }
  assert (Mi : forall i, is_merged infos i = true <-> to_merge g nodes i) by (intros i; rewrite merged_rank; apply (merged_iff g N ts nodes WF infos Good Ids)).
  assert (Nm : forall i, ~ to_merge g nodes i -> is_merged infos i = false) by (intros i Hi; destruct (is_merged infos i) eqn:E; [apply Mi in E; contradiction|reflexivity]).
  assert (St : forall k x c, nth_error infos k = Some x -> (st infos k c == denoted ts (mi_pos x) c)%Q) by (intros k x c Hx; unfold st; rewrite Hx; apply (next_time_denoted g N), Good, (nth_error_In _ _ Hx)).
  assert (Strict : forall k c, (k < length infos)%nat -> (st infos k c < st infos k (S c))%Q).
  { intros k c L. destruct (nth_error infos k) as [x|] eqn:Hx; [|apply nth_error_None in Hx; lia]. rewrite !(St k x _ Hx). destruct (Good x (nth_error_In _ _ Hx)) as (v & t & V & _ & Iv & I0 & _ & _ & _).
    destruct Valid as [_ Se]. specialize (Se _ v V c). unfold start_of in Se. assert (0 < exec_duration v c)%Q; [|lra].
    destruct WF as (VW & _). destruct (VW v (nth_error_In _ _ V)) as (P0 & L0 & Lid & _). rewrite I0 in Lid. unfold exec_duration. destruct (v_init_durations v); [|discriminate].
    apply (Dpos _ v _ V); [rewrite Iv; apply Ids, in_map, (nth_error_In _ _ Hx)|]. apply (cyclic_in 0%Q [] (v_durations v) c). lia. }
  assert (Rp : forall k c, (k < length infos)%nat -> (st infos k (c + ni infos k) == st infos k c + omega)%Q).
  { intros k c L. destruct (nth_error infos k) as [x|] eqn:Hx; [|apply nth_error_None in Hx; lia]. rewrite !(St k x _ Hx). destruct (Good x (nth_error_In _ _ Hx)) as (v & t & V & _ & _ & _ & Nx & _).
    unfold ni. rewrite Hx, Nx. apply Rep. apply nth_error_Some. congruence. }
  pose proof Ee as Ee'. apply execute_spec in Ee'; [|exact (run_ok_nil infos)|reflexivity]. destruct Ee' as (R0 & Fin & NE0).
  assert (T0 : ties_ok infos l0) by (apply (execute_ties infos _ _ _ _ Ee); [intros [|m] k c H; discriminate|reflexivity]).
  destruct (period_suffix infos omega Strict Rp NP PP l0 R0 T0 Fin NE) as (mp & Lmp & Hmp). destruct (gcd_ni_spec infos NP NE) as (Gp & Gd & _).
  assert (G1 : gcd_ni infos = 1).
  { assert (D : (gcd_ni infos | 1)); [|apply Z.divide_1_r_nonneg in D; lia]. apply Co. intros i Hi. apply (merged_iff g N ts nodes WF infos Good Ids) in Hi. destruct Hi as (k & y & Hy & Ey).
    specialize (Gd y (nth_error_In _ _ Hy)). destruct (Good y (nth_error_In _ _ Hy)) as (_ & _ & _ & _ & _ & _ & Ny & _). rewrite <- Ey, <- Ny. exact Gd. }
  assert (Ge : (mp <= init0)%nat).
  { apply (find_init_max infos (gcd_ni infos) l0 (length l0 - 1) mp init0 ltac:(lia)); [|assumption].
    apply (suffix_ok_period infos (gcd_ni infos) (skipn mp l0) Gp infos 0 0 (or_introl eq_refl)). intros j x Hx. split; [apply (Hmp j x Hx)|]. split; [apply (NP j x Hx)|apply Gd, (nth_error_In _ _ Hx)]. }
  apply find_init_spec in Ef. destruct Ef as [Li Sk]. apply suffix_ok_spec in Sk. destruct Sk as (f & _ & _ & [Sk|Sk]); [congruence|].
  destruct (cut_facts l0 init0 ltac:(lia)) as (A & B & Lt & D). fold init l in A, B, Lt, D.
  assert (Per : forall k x, nth_error infos k = Some x -> per_count l init k = ni infos k).
  { intros k x Hx. destruct (Sk k x Hx) as [S1 S2]. cbn [Nat.add] in S1, S2. rewrite occurrences_cntl in S1, S2. rewrite D. specialize (Hmp k x Hx). rewrite occurrences_cntl in Hmp.
    pose proof (cntl_skipn k l0 mp init0 Ge). rewrite G1, Z.div_1_r in S1. pose proof (NP k x Hx). unfold ni. rewrite Hx. assert (1 <= f) by nia. nia. }
  assert (Pp : forall k x, nth_error infos k = Some x -> (0 < per_count l init k)%nat). { intros k x Hx. rewrite (Per k x Hx). unfold ni. rewrite Hx. pose proof (NP k x Hx). lia. }
  assert (Wdiv : forall k x, nth_error infos k = Some x -> exists u, (per_count l init k = u * mi_phases x)%nat).
  { intros k x Hx. destruct (whole_gcd g N ts nodes WF infos Good Ids NE WP k x Hx) as (q & Q). rewrite G1, Z.mul_1_r in Q. rewrite (Per k x Hx). unfold ni. rewrite Hx. pose proof (NP k x Hx). pose proof (PP k x Hx).
    exists (Z.to_nat q). assert (0 <= q) by nia. nia. }
  assert (R : run_ok infos l) by apply run_ok_firstn, R0.
  (* the whole infinite sequence follows the order of the schedule *)
  assert (Tl : forall m, (tk l init m < length infos)%nat) by (intros m; destruct (tk_known l init Lt infos m R) as (x & Hx); apply nth_error_Some; congruence).
  assert (Per' : forall k, (k < length infos)%nat -> per_count l init k = ni infos k) by (intros k L; destruct (nth_error infos k) as [x|] eqn:Hx; [apply (Per k x Hx)|apply nth_error_None in Hx; lia]).
  assert (Sc : forall m k', (k' < length infos)%nat -> (st infos (tk l init m) (cnt l init (tk l init m) m) <= st infos k' (cnt l init k' m))%Q /\
     ((tk l init m < k')%nat -> (st infos (tk l init m) (cnt l init (tk l init m) m) < st infos k' (cnt l init k' m))%Q)).
  { induction m as [m IH] using lt_wf_ind. intros k' L'. destruct (Nat.lt_ge_cases m (length l)) as [L|L].
    - set (a := tk l init m). assert (Em : nth_error l0 m = Some (a, cnt l init a m)).
      { assert (E : nth_error l m = Some (a, it l init m)).
        { rewrite (nth_error_nth' l (0, 0)%nat L). unfold a, it, tk. rewrite (fold_small l init Lt m L). destruct (nth m l (0, 0)%nat); reflexivity. }
        rewrite (it_small l init Lt infos m R L) in E. fold a in E. rewrite <- E. unfold l. rewrite nth_error_firstn_lt by lia. reflexivity. }
      assert (E : forall q, cnt l init q m = cntl q (firstn m l0)). { intros q. rewrite (cnt_prefix l init Lt) by lia. unfold l. rewrite firstn_firstn. f_equal. f_equal. lia. }
      destruct (nth_error infos k') as [x'|] eqn:Hx'; [|apply nth_error_None in Hx'; lia]. destruct (R0 m _ _ Em) as (_ & x & Hx & Le). specialize (Le k' x' Hx'). specialize (T0 m _ _ Em k' x' Hx').
      rewrite <- E in Le, T0. unfold st in *. rewrite Hx in *. rewrite Hx' in *. auto.
    - destruct (split_pos l init Lt m L) as (m1 & -> & H1 & H2). specialize (IH m1 H2 k' L'). assert (Et : tk l init (m1 + (length l - init)) = tk l init m1) by (unfold tk; rewrite (fold_period l init Lt) by assumption; reflexivity). rewrite Et.
      rewrite !(cnt_period l init Lt) by assumption. rewrite (Per' _ (Tl m1)), (Per' _ L'). pose proof (Rp (tk l init m1) (cnt l init (tk l init m1) m1) (Tl m1)). pose proof (Rp k' (cnt l init k' m1) L').
      destruct IH as [I1 I2]. split; [lra|]. intros G. specialize (I2 G). lra. }
  assert (Dn : forall m, downset infos (fun k => cnt l init k m)).
  { induction m as [|m IH]; [intros j k _ _ P; cbn in P; lia|]. assert (X := downset_step infos omega Strict Rp NP PP _ _ IH (Tl m) (Sc m)).
    assert (E : forall k, cnt l init k (S m) = bump (fun k => cnt l init k m) (tk l init m) k) by (intros k; cbn [cnt]; unfold bump; rewrite Nat.eqb_sym; reflexivity).
    intros j k Lj Lk P. rewrite !E in *. apply X; assumption. }
  clearbody l. clearbody init. set (M := length (kept g infos)).
  set (s' := fun (j m : nat) => if (j <? M)%nat then denoted ts (old_pos g infos j) m else
     match nth_error infos (tk l init m) with Some x => denoted ts (mi_pos x) (cnt l init (tk l init m) m) | None => 0%Q end).
  assert (SM : forall m x, nth_error infos (tk l init m) = Some x -> s' M m = denoted ts (mi_pos x) (cnt l init (tk l init m) m)).
  { intros m x Hx. unfold s'. rewrite Nat.ltb_irrefl, Hx. reflexivity. }
  assert (SMp : forall k x c, nth_error infos k = Some x -> s' M (pos l init k c) = denoted ts (mi_pos x) c).
  { intros k x c Hx. destruct (pos_spec l init Lt k c (Pp k x Hx)) as [E1 E2]. rewrite (SM _ x) by (rewrite E1; assumption). rewrite E1, E2. reflexivity. }
  assert (NewM : forall i, (i < length (vertices g))%nat -> is_merged infos i = false -> (new_pos infos i < M)%nat /\ old_pos g infos (new_pos infos i) = i).
  { intros i L Fm. pose proof (filter_seq_nth (fun i => negb (is_merged infos i)) (length (vertices g)) 0 i L) as E. cbn [Nat.add] in E. rewrite Fm in E. specialize (E eq_refl).
    fold (new_pos infos i) in E. split; [|unfold old_pos; apply (nth_error_nth _ _ 0%nat E)]. unfold M, kept. rewrite (kept_length (fun j => negb (is_merged infos j))). apply nth_error_Some. congruence. }
  assert (SK : forall i c, (i < length (vertices g))%nat -> is_merged infos i = false -> s' (new_pos infos i) c = denoted ts i c).
  { intros i c L Fm. destruct (NewM i L Fm) as [N1 N2]. unfold s'. destruct (_ <? M)%nat eqn:E; [|lia]. rewrite N2. reflexivity. }
  set (w := middle infos l init mid).
  assert (NMid : nth_error (vertices (g' g infos l init mid ins outs)) M = Some w) by (cbn [g' vertices]; unfold M; rewrite nth_error_app2, Nat.sub_diag by apply Nat.le_refl; reflexivity).
  assert (Dur : forall k x v c, nth_error infos k = Some x -> nth_error (vertices g) (mi_pos x) = Some v -> exec_duration w (pos l init k c) = exec_duration v c).
  { intros k x v c Hx V. assert (Wp : forall k x, nth_error infos k = Some x -> gcd_ni infos * Z.of_nat (per_count l init k) = 1 * mi_ni x).
    { intros k0 x0 H0. rewrite G1, (Per k0 x0 H0). unfold ni. rewrite H0. pose proof (NP k0 x0 H0). lia. }
    apply (middle_duration g N ts infos l init mid WF Good R Lt _ 1 Gp ltac:(lia) Wp Wdiv k x v c Hx V). }
  assert (DurM : forall m x v, nth_error infos (tk l init m) = Some x -> nth_error (vertices g) (mi_pos x) = Some v -> exec_duration w m = exec_duration v (cnt l init (tk l init m) m)).
  { intros m x v Hx V. rewrite <- (Dur _ x v _ Hx V). rewrite (pos_cnt l init Lt m (Pp _ _ Hx)). reflexivity. }
  assert (EndK : forall i c, (i < length (vertices g))%nat -> is_merged infos i = false -> end_of s' (g' g infos l init mid ins outs) (new_pos infos i) c = end_of (denoted ts) g i c).
  { intros i c L Fm. destruct (nth_error (vertices g) i) as [v|] eqn:V; [|apply nth_error_None in V; lia]. unfold end_of. rewrite (new_vertex g infos l init mid ins outs i v V Fm), V, (SK i c L Fm). reflexivity. }
  assert (EndM : forall k x c, nth_error infos k = Some x -> end_of s' (g' g infos l init mid ins outs) M (pos l init k c) = end_of (denoted ts) g (mi_pos x) c).
  { intros k x c Hx. destruct (Good x (nth_error_In _ _ Hx)) as (v & t & V & _). unfold end_of. rewrite NMid, V, (SMp k x c Hx), (Dur k x v c Hx V). reflexivity. }
  exists s'. split; [split|].
  - (* channels *)
    destruct Valid as [VC _]. destruct WF as (VW & EW & _). intros c' I. cbn [g' edges] in I. apply in_app_or in I. destruct I as [I|I]; [|apply in_app_or in I; destruct I as [I|I]].
    + unfold untouched in I. apply in_map_iff in I. destruct I as (c & <- & I). apply filter_In in I. destruct I as [I K]. apply andb_prop in K. destruct K as [K1 K2]. apply negb_true_iff in K1, K2.
      destruct (EW c I) as (vs & vd & Vs & Vd & _). assert (Ls : (e_src c < length (vertices g))%nat) by (apply nth_error_Some; congruence). assert (Ld : (e_dst c < length (vertices g))%nat) by (apply nth_error_Some; congruence).
      unfold channel_valid. cbn [e_src e_dst e_preload]. refine (never_negative_ext _ _ _ _ _ _ _ _ _ _ _ _ _ (VC c I)); try (intros m; reflexivity).
      * intros m. rewrite (EndK _ m Ls K1). reflexivity.
      * intros m. unfold start_of. rewrite (SK _ m Ld K2). reflexivity.
    + destruct (task_edges_spec _ _ _ _ _ _ _ Ins) as [_ O2]. destruct (O2 c' I) as (k & x & c & Hx & Ic & E & X & F). cbn [Nat.add] in F. unfold input_edge in F.
      destruct (merged_rates l k (e_out c)) as [r| | |] eqn:Er; try discriminate. cbn in F. injection F as <-. pose proof (src_kept infos k x c Hx E X) as Ks.
      destruct (EW c Ic) as (vs & vd & Vs & Vd & _ & _ & _ & Loi & _). assert (Ls : (e_src c < length (vertices g))%nat) by (apply nth_error_Some; congruence).
      pose proof (proj1 (shapes g N ts x c WF (Good x (nth_error_In _ _ Hx)) Ic) E) as Lo. pose proof (PP k x Hx) as Px.
      assert (Oi : e_out_init c = []). { destruct (Good x (nth_error_In _ _ Hx)) as (v & t & V & _ & _ & I0 & _). rewrite E in Vd. assert (vd = v) as -> by congruence. rewrite I0 in Loi. destruct (e_out_init c); [reflexivity|discriminate]. }
      intros t nc. cbn [e_src e_dst e_preload]. destruct (VC c Ic t (cnt l init k nc)) as (np & Hnp). exists np. unfold prod_rate, cons_rate in *. cbn [e_in e_out e_in_init e_out_init]. rewrite Oi in Hnp.
      rewrite (moved_by_ext (end_of s' _ (new_pos infos (e_src c))) (end_of (denoted ts) g (e_src c))) by (intros m; rewrite (EndK _ m Ls Ks); reflexivity).
      etransitivity; [|exact Hnp]. apply Z.eq_le_incl. fold M.
      transitivity (moved_by (start_of s' M) (fun m => if (tk l init m =? k)%nat then cyclic 0 [] (e_out c) (cnt l init k m) else 0) nc t).
      { unfold moved_by. apply sumf_ext. intros m _. rewrite (rate_at infos l init R Lt k (e_out c) r m Er); [reflexivity|lia|rewrite Lo; apply (Wdiv k x Hx)]. }
      rewrite (moved_reindex l init Lt) by apply (Pp k x Hx). apply moved_by_ext. intros j. unfold start_of. rewrite (SMp k x j Hx), E. reflexivity.
    + destruct (task_edges_spec _ _ _ _ _ _ _ Outs) as [_ O2]. destruct (O2 c' I) as (k & x & c & Hx & Ic & E & X & F). cbn [Nat.add] in F. unfold output_edge in F.
      destruct (merged_rates l k (e_in c)) as [r| | |] eqn:Er; try discriminate. cbn in F. injection F as <-. pose proof (dst_kept infos k x c Hx E X) as Ks.
      destruct (EW c Ic) as (vs & vd & Vs & Vd & _ & _ & Lii & _). assert (Ld : (e_dst c < length (vertices g))%nat) by (apply nth_error_Some; congruence).
      pose proof (proj2 (shapes g N ts x c WF (Good x (nth_error_In _ _ Hx)) Ic) E) as Lo. pose proof (PP k x Hx) as Px.
      assert (Oi : e_in_init c = []). { destruct (Good x (nth_error_In _ _ Hx)) as (v & t & V & _ & _ & I0 & _). rewrite E in Vs. assert (vs = v) as -> by congruence. rewrite I0 in Lii. destruct (e_in_init c); [reflexivity|discriminate]. }
      intros t nc. cbn [e_src e_dst e_preload]. destruct (VC c Ic t nc) as (np & Hnp). exists (pos l init k np). unfold prod_rate, cons_rate in *. cbn [e_in e_out e_in_init e_out_init]. rewrite Oi in Hnp.
      rewrite (moved_by_ext (start_of s' (new_pos infos (e_dst c))) (start_of (denoted ts) (e_dst c))) by (intros m; unfold start_of; rewrite (SK _ m Ld Ks); reflexivity).
      etransitivity; [exact Hnp|]. apply Z.add_le_mono_l, Z.eq_le_incl. symmetry. fold M.
      transitivity (moved_by (end_of s' (g' g infos l init mid ins outs) M) (fun m => if (tk l init m =? k)%nat then cyclic 0 [] (e_in c) (cnt l init k m) else 0) (pos l init k np) t).
      { unfold moved_by. apply sumf_ext. intros m _. rewrite (rate_at infos l init R Lt k (e_in c) r m Er); [reflexivity|lia|rewrite Lo; apply (Wdiv k x Hx)]. }
      rewrite (moved_reindex l init Lt) by apply (Pp k x Hx). rewrite (proj2 (pos_spec l init Lt k np (Pp k x Hx))). apply moved_by_ext. intros j. rewrite (EndM k x j Hx), E. reflexivity.
  - (* one execution at a time *)
    intros j v V m. unfold start_of. cbn [g' vertices] in V. destruct (Nat.lt_ge_cases j M) as [L|L].
    + rewrite nth_error_app1 in V by exact L. destruct (kept_old (fun i => negb (is_merged infos i)) (vertices g) 0 j v V) as (i & Hi & Vi & Pi & Nf). cbn [Nat.add] in *.
      unfold s'. destruct (j <? M)%nat eqn:E; [|lia]. unfold old_pos. rewrite (nth_error_nth _ _ 0%nat Nf). destruct Valid as [_ Se]. apply (Se i v Vi m).
    + rewrite nth_error_app2 in V by exact L. fold M in V. destruct (j - M)%nat as [|q] eqn:Eq; cbn in V; [|destruct q; discriminate]. injection V as <-. assert (j = M) as -> by lia. fold w.
      destruct (tk_known l init Lt infos m R) as (x & Hx). destruct (tk_known l init Lt infos (S m) R) as (y & Hy). destruct (Good x (nth_error_In _ _ Hx)) as (vx & tx & Vx & _ & Ix & _). destruct (Good y (nth_error_In _ _ Hy)) as (vy & ty & Vy & _ & Iy & _).
      rewrite (SM m x Hx), (SM (S m) y Hy), (DurM m x vx Hx Vx).
      assert (In (v_id vx) nodes) by (rewrite Ix; apply Ids, in_map, (nth_error_In _ _ Hx)). assert (In (v_id vy) nodes) by (rewrite Iy; apply Ids, in_map, (nth_error_In _ _ Hy)).
      set (a := tk l init m) in *. set (b := tk l init (S m)) in *. assert (La : (a < length infos)%nat) by (apply nth_error_Some; congruence). assert (Lb : (b < length infos)%nat) by (apply nth_error_Some; congruence).
      assert (Ca : cnt l init a (S m) = S (cnt l init a m)) by (cbn [cnt]; fold a; rewrite Nat.eqb_refl; reflexivity).
      assert (X := Dn (S m) a b La Lb ltac:(lia)). cbv beta in X. rewrite Ca in X. replace (S (cnt l init a m) - 1)%nat with (cnt l init a m) in X by lia.
      assert (Le : (denoted ts (mi_pos x) (cnt l init a m) <= denoted ts (mi_pos y) (cnt l init b (S m)))%Q).
      { rewrite <- (St a x _ Hx), <- (St b y _ Hy). destruct X as [X|[X _]]; lra. }
      assert (Ne : (mi_pos x, cnt l init a m) <> (mi_pos y, cnt l init b (S m))).
      { intros E. assert (E1 : mi_pos x = mi_pos y) by congruence. assert (E2 : cnt l init a m = cnt l init b (S m)) by congruence.
        assert (Ek : a = b). { apply (proj1 (NoDup_nth_error (map mi_id infos)) ND); [rewrite map_length; assumption|]. rewrite !nth_error_map, Hx, Hy. cbn. f_equal.
          apply (good_pos_inj g N ts); [apply Good, (nth_error_In _ _ Hx)|apply Good, (nth_error_In _ _ Hy)|assumption]. }
        rewrite <- Ek in E2. lia. }
      destruct (Apart _ _ vx vy _ _ Vx Vy H H0 Ne) as [G|G]; [exact G|].
      assert (0 < exec_duration vy (cnt l init b (S m)))%Q; [|lra]. destruct WF as (VW & _). destruct (VW vy (nth_error_In _ _ Vy)) as (P0 & L0 & Lid & _).
      destruct (Good y (nth_error_In _ _ Hy)) as (v2 & t2 & V2 & _ & _ & I0 & _). assert (v2 = vy) as -> by congruence. rewrite I0 in Lid. unfold exec_duration. destruct (v_init_durations vy); [|discriminate].
      apply (Dpos _ vy _ Vy); [assumption|]. apply (cyclic_in 0%Q [] (v_durations vy)). lia.
  - split.
    + exists M, w, (fun m => (match nth_error infos (tk l init m) with Some x => mi_pos x | None => 0%nat end, cnt l init (tk l init m) m)).
      split; [exact NMid|]. split; [reflexivity|]. split; [|split].
      * intros m. destruct (tk_known l init Lt infos m R) as (x & Hx). rewrite Hx. cbn [fst snd]. destruct (Good x (nth_error_In _ _ Hx)) as (v & t & V & _).
        split; [apply Mi, merged_rank; eauto|]. split; [rewrite (SM m x Hx); reflexivity|]. exists v. split; [assumption|]. rewrite (DurM m x v Hx V). reflexivity.
      * intros i c Hi. apply Mi, merged_rank in Hi. destruct Hi as (k & x & Hx & <-). pose proof (Pp _ _ Hx) as Pk. exists (pos l init k c).
        destruct (pos_spec l init Lt k c Pk) as [E1 E2]. rewrite E1, Hx, E2. reflexivity.
      * intros m m' E. destruct (tk_known l init Lt infos m R) as (x & Hx). destruct (tk_known l init Lt infos m' R) as (x' & Hx'). rewrite Hx, Hx' in E.
        assert (E1 : mi_pos x = mi_pos x') by congruence. assert (E2 : cnt l init (tk l init m) m = cnt l init (tk l init m') m') by congruence.
        assert (Ek : tk l init m = tk l init m').
        { apply (proj1 (NoDup_nth_error (map mi_id infos)) ND); [rewrite map_length; apply nth_error_Some; congruence|]. rewrite !nth_error_map, Hx, Hx'. cbn. f_equal.
          apply (good_pos_inj g N ts); [apply Good, (nth_error_In _ _ Hx)|apply Good, (nth_error_In _ _ Hx')|assumption]. }
        rewrite <- (pos_cnt l init Lt m (Pp _ _ Hx)), E2, Ek. apply (pos_cnt l init Lt m' (Pp _ _ Hx')).
    + intros i v V Hi. exists (new_pos infos i). split; [apply new_vertex; [assumption|apply Nm, Hi]|]. intros c. symmetry. apply SK; [apply nth_error_Some; congruence|apply Nm, Hi].
Qed.
End B.
