(** From arbitrary periodic schedules to event start times and back; the schedule
    returned by period2scheduling. *)
From Coq Require Import QArith Qfield Znumtheory Lqa.
From Verif Require Import Base Graph Commons CommonsProofs KPeriodic ScheduleSpec ScheduleCore KPeriodicSpec
  KPeriodicProofs KPeriodicChannel KPeriodicSelfloop KPeriodicGraph EventGraph EventGraphSpec EventGraphProofs.
Open Scope Z_scope.

(** * Schedules equal up to rational equality *)
Lemma moved_by_ext at1 at2 r n t : (forall m, (at1 m == at2 m)%Q) -> moved_by at1 r n t = moved_by at2 r n t.
Proof.
  intros E. unfold moved_by. apply sumf_ext. intros m _.
  assert (Qle_bool (at1 m) t = Qle_bool (at2 m) t) as ->; [|reflexivity].
  destruct (Qle_bool (at1 m) t) eqn:E1, (Qle_bool (at2 m) t) eqn:E2; try reflexivity; exfalso.
  - apply Qle_bool_iff in E1. rewrite E in E1. apply Qle_bool_iff in E1. congruence.
  - apply Qle_bool_iff in E2. rewrite <- E in E2. apply Qle_bool_iff in E2. congruence.
Qed.

Definition same_schedule (g : graph) (s s' : schedule) : Prop :=
  forall i m, (i < length (vertices g))%nat -> (s i m == s' i m)%Q.

Lemma schedule_valid_ext g s s' : graph_wf g -> same_schedule g s s' -> schedule_valid g s -> schedule_valid g s'.
Proof.
  intros (_ & He & _) E [Hc Hv]. split.
  - intros c Hin t nc. destruct (He c Hin) as (vs & vd & V1 & V2 & _).
    destruct (Hc c Hin t nc) as (np & H). exists np.
    rewrite <- (moved_by_ext (start_of s (e_dst c)) (start_of s' (e_dst c))).
    2: { intros m. apply E. apply nth_error_Some. congruence. }
    rewrite <- (moved_by_ext (end_of s g (e_src c)) (end_of s' g (e_src c))); [exact H|].
    intros m. unfold end_of. rewrite V1.
    rewrite (E (e_src c) m); [reflexivity|]. apply nth_error_Some. congruence.
  - intros i v Hi m. assert (Hl : (i < length (vertices g))%nat) by (apply nth_error_Some; congruence).
    unfold start_of. rewrite <- (E i m Hl), <- (E i (S m) Hl). apply (Hv i v Hi m).
Qed.

(** * Reading event start times off a schedule *)
Fixpoint index_of (l : list vertex) (id : Z) : nat :=
  match l with [] => O | v :: l' => if v_id v =? id then O else S (index_of l' id) end.
Lemma index_of_nth l : NoDup (map v_id l) -> forall i v, nth_error l i = Some v -> index_of l (v_id v) = i.
Proof.
  induction l as [|x l IH]; intros Hn i v Hi; [destruct i; discriminate|].
  cbn in *. inversion Hn; subst. destruct i; cbn in Hi.
  - injection Hi as ->. rewrite Z.eqb_refl. reflexivity.
  - destruct (Z.eqb_spec (v_id x) (v_id v)) as [E|_].
    + exfalso. apply H1. rewrite E. apply in_map. eapply nth_error_In; eauto.
    + f_equal. apply IH; auto.
Qed.

(** Execution <task, phase p, occurrence k> of a task with P phases and no initial
    phase is execution number (k-1)*P + p-1. *)
Definition starts_of (g : graph) (s : schedule) : event -> Q := fun e =>
  let i := index_of (vertices g) (ev_task e) in
  match nth_error (vertices g) i with
  | Some v => s i (Z.to_nat ((ev_occ e - 1) * Z.of_nat (v_phases v) + ev_phase e - 1))
  | None => 0%Q
  end.

(** The schedule repeats after K cycles of each task, shifted by the task's period. *)
Definition periodic_schedule (g : graph) (N K : nat -> Z) (omega : Q) (s : schedule) : Prop :=
  forall i v m, nth_error (vertices g) i = Some v ->
    (s i (m + Z.to_nat (K i) * v_phases v)%nat ==
     s i m + task_period omega (K i) (Z.of_nat (v_phases v)) (N i))%Q.

Lemma periodic_multiple (f : nat -> Q) L T : (forall m, (f (m + L)%nat == f m + T)%Q) ->
  forall n m, (f (m + n * L)%nat == f m + inject_Z (Z.of_nat n) * T)%Q.
Proof.
  intros H. induction n; intros m.
  - cbn [Nat.mul]. rewrite Nat.add_0_r. change (inject_Z (Z.of_nat 0)) with 0%Q. lra.
  - replace (m + S n * L)%nat with ((m + n * L) + L)%nat by lia. rewrite H, IHn.
    rewrite Nat2Z.inj_succ. unfold Z.succ. rewrite inject_Z_plus. change (inject_Z 1) with 1%Q. lra.
Qed.

Lemma starts_of_periodic g N K omega s : graph_wf g -> no_init g ->
  (forall i, (i < length (vertices g))%nat -> 0 < K i) -> periodic_schedule g N K omega s ->
  same_schedule g s (kperiodic_schedule g N K omega (starts_of g s)).
Proof.
  intros (Hv & _ & Hnd) Hni HK Hper i m Hi.
  unfold kperiodic_schedule. destruct (nth_error (vertices g) i) as [v|] eqn:E; [|apply nth_error_None in E; lia].
  pose proof (nth_error_In _ _ E) as Hin. unfold kperiodic_start. rewrite (Hni v Hin). cbn [Nat.ltb Nat.leb].
  rewrite Nat.sub_0_r. unfold starts_of. cbn [ev_task ev_phase ev_occ].
  rewrite (index_of_nth _ Hnd i v E), E.
  destruct (Hv v Hin) as (HP & _). set (P := v_phases v) in *. specialize (HK i Hi).
  set (k := Z.to_nat (K i)) in *. assert (Hk : (0 < k)%nat) by lia.
  replace (Z.to_nat ((Z.of_nat ((m / P) mod k) + 1 - 1) * Z.of_nat P + (Z.of_nat (m mod P) + 1) - 1))
    with (m mod (k * P))%nat.
  2: { rewrite (Nat.mul_comm k P). rewrite Nat.mod_mul_r by lia.
       assert (0 <= Z.of_nat ((m / P) mod k) * Z.of_nat P) by (apply Z.mul_nonneg_nonneg; lia).
       rewrite <- (Nat2Z.id (m mod P + P * ((m / P) mod k))). f_equal. rewrite Nat2Z.inj_add, Nat2Z.inj_mul. ring. }
  rewrite (Nat.div_mod m (k * P)) at 1 by nia.
  replace (k * P * (m / (k * P)) + m mod (k * P))%nat with (m mod (k * P) + (m / (k * P)) * (k * P))%nat by ring.
  apply (periodic_multiple (s i)). intros n. unfold k, P. apply (Hper i v n E).
Qed.

Lemma kperiodic_schedule_periodic g N K omega St : graph_wf g -> no_init g ->
  (forall i, (i < length (vertices g))%nat -> 0 < K i) ->
  periodic_schedule g N K omega (kperiodic_schedule g N K omega St).
Proof.
  intros (Hv & _) Hni HK i v m E. unfold kperiodic_schedule. rewrite E.
  pose proof (nth_error_In _ _ E) as Hin. unfold kperiodic_start. rewrite (Hni v Hin). cbn [Nat.ltb Nat.leb].
  rewrite !Nat.sub_0_r. destruct (Hv v Hin) as (HP & _).
  assert (Hi : (i < length (vertices g))%nat) by (apply nth_error_Some; congruence). specialize (HK i Hi).
  set (P := v_phases v) in *. set (k := Z.to_nat (K i)) in *. assert (Hk : (0 < k)%nat) by lia.
  replace ((m + k * P) / P)%nat with (m / P + k)%nat by (rewrite Nat.div_add by lia; lia).
  replace ((m + k * P) mod P)%nat with (m mod P)%nat by (rewrite Nat.mod_add by lia; lia).
  replace ((m / P + k) mod k)%nat with ((m / P) mod k)%nat.
  2: { replace (m / P + k)%nat with (m / P + 1 * k)%nat by lia. rewrite Nat.mod_add by lia. reflexivity. }
  replace ((m + k * P) / (k * P))%nat with (m / (k * P) + 1)%nat.
  2: { replace (m + k * P)%nat with (m + 1 * (k * P))%nat by lia. rewrite Nat.div_add by nia. reflexivity. }
  rewrite Nat2Z.inj_add, inject_Z_plus. change (inject_Z (Z.of_nat 1)) with 1%Q. lra.
Qed.

(** A K-periodic schedule is also K'-periodic for every multiple K' of K. *)
Lemma periodic_schedule_multiple g N K K' omega s :
  (forall i, (i < length (vertices g))%nat -> 0 < K i /\ 0 < K' i /\ (K i | K' i)) ->
  periodic_schedule g N K omega s -> periodic_schedule g N K' omega s.
Proof.
  intros HK Hper i v m E.
  assert (Hi : (i < length (vertices g))%nat) by (apply nth_error_Some; congruence).
  destruct (HK i Hi) as (H1 & H2 & n & Hn).
  assert (Hnp : 0 < n) by nia.
  replace (Z.to_nat (K' i) * v_phases v)%nat with (Z.to_nat n * (Z.to_nat (K i) * v_phases v))%nat.
  2: { rewrite Hn, Z2Nat.inj_mul by lia. ring. }
  rewrite (periodic_multiple (s i) _ _ (fun m => Hper i v m E)). rewrite Z2Nat.id by lia.
  unfold task_period. rewrite Hn. rewrite !inject_Z_mult. unfold Qdiv. ring.
Qed.

(** * Variants *)
Lemma generate_channel_variant var c src dst Ni ki kj : 0 < sumZ (e_in c) -> 0 < ki ->
  generate_channel var c src dst Ni ki kj = generate_channel NotOptimized c src dst Ni ki kj.
Proof.
  intros HW Hk. unfold generate_channel. destruct (fine_gcd c); cbn [bind]; try reflexivity.
  destruct (floor_to (e_preload c) a); cbn [bind]; try reflexivity.
  apply outer_loop_variant. cbn [ce_gcdz]. unfold edge_in_total.
  pose proof (Z.gcd_nonneg (sumZ (e_in c) * ki) (edge_out_total c * kj)).
  destruct (Z.eq_dec (Z.gcd (sumZ (e_in c) * ki) (edge_out_total c * kj)) 0) as [E|]; [|lia].
  apply Z.gcd_eq_0_l in E. nia.
Qed.

Lemma generate_event_graph_variant var g N K : graph_wf g ->
  (forall i, (i < length (vertices g))%nat -> 0 < K i) ->
  generate_event_graph var g N K = generate_event_graph NotOptimized g N K.
Proof.
  intros (_ & He & _) HK. unfold generate_event_graph.
  destruct (collect (map _ (indexed (vertices g)))); cbn [bind]; try reflexivity.
  f_equal. f_equal. apply map_ext_in. intros c Hc. destruct (He c Hc) as (vs & vd & V1 & V2 & _ & _ & _ & _ & _ & HW & _).
  unfold lookup_vertex. rewrite V1, V2. cbn [bind]. apply generate_channel_variant; auto.
  apply HK. apply nth_error_Some. congruence.
Qed.

(** * The constraints join existing events *)
Lemma zrange_in a b x : In x (zrange a b) <-> a <= x <= b.
Proof.
  unfold zrange. rewrite in_map_iff. split.
  - intros (i & <- & Hi). apply in_seq in Hi. lia.
  - intros H. exists (Z.to_nat (x - a)). split; [lia|]. apply in_seq. lia.
Qed.

Lemma vertex_events_in v k e : In e (vertex_events v k) <->
  ev_task e = v_id v /\
  ((ev_occ e = 1 /\ 1 - Z.of_nat (v_init_phases v) <= ev_phase e <= 0) \/
   (1 <= ev_occ e <= k /\ 1 <= ev_phase e <= Z.of_nat (v_phases v))).
Proof.
  unfold vertex_events. rewrite in_app_iff, in_map_iff, in_flat_map. split.
  - intros [(i & <- & Hi)|(j & Hj & H)].
    + apply zrange_in in Hi. cbn [ev_task ev_phase ev_occ]. lia.
    + apply in_map_iff in H as (i & <- & Hi). apply zrange_in in Hi, Hj. cbn [ev_task ev_phase ev_occ]. lia.
  - destruct e as [t p o]. cbn [ev_task ev_phase ev_occ]. intros (-> & [(-> & Hp)|(Ho & Hp)]).
    + left. exists (1 - p). split; [f_equal; lia|apply zrange_in; lia].
    + right. exists o. split; [apply zrange_in; lia|]. apply in_map_iff. exists p. split; [reflexivity|apply zrange_in; lia].
Qed.

Lemma event_list_in g K e : In e (event_list g K) <->
  exists i v, nth_error (vertices g) i = Some v /\ In e (vertex_events v (K i)).
Proof.
  unfold event_list. rewrite in_flat_map. split.
  - intros ([i v] & H1 & H2). apply indexed_in in H1. exists i, v. auto.
  - intros (i & v & H1 & H2). exists (i, v). split; [apply indexed_in; auto|auto].
Qed.

Lemma event_at_in v j (K : nat) : (0 < v_phases v)%nat -> (0 < K)%nat ->
  (j < v_init_phases v + K * v_phases v)%nat -> In (event_at v j) (vertex_events v (Z.of_nat K)).
Proof.
  intros HP HK Hj. apply vertex_events_in. unfold event_at, pos_at.
  destruct (Nat.ltb_spec j (v_init_phases v)); cbn [fst snd ev_task ev_phase ev_occ].
  - split; [reflexivity|]. left. lia.
  - split; [reflexivity|]. right.
    pose proof (Nat.mod_upper_bound (j - v_init_phases v) (v_phases v) ltac:(lia)) as H1.
    assert (H2 : ((j - v_init_phases v) / v_phases v < K)%nat) by (apply Nat.div_lt_upper_bound; [lia|rewrite Nat.mul_comm; lia]).
    set (q := (_ / _)%nat) in *. set (r := (_ mod _)%nat) in *. clearbody q r. lia.
Qed.

Lemma event_at_periodic v (k p : Z) : (0 < v_phases v)%nat -> v_init_phases v = 0%nat ->
  1 <= k -> 1 <= p <= Z.of_nat (v_phases v) ->
  event_at v (Z.to_nat ((k - 1) * Z.of_nat (v_phases v) + p - 1)) = mkEvent (v_id v) p k.
Proof.
  intros HP H0 Hk Hp. unfold event_at, pos_at. rewrite H0. cbn [Nat.ltb Nat.leb]. rewrite Nat.sub_0_r.
  replace (Z.to_nat ((k - 1) * Z.of_nat (v_phases v) + p - 1)) with (Z.to_nat (p - 1) + Z.to_nat (k - 1) * v_phases v)%nat.
  2: { rewrite <- (Nat2Z.id (v_phases v)) at 1. rewrite <- Z2Nat.inj_mul by lia. rewrite <- Z2Nat.inj_add by nia. f_equal. lia. }
  rewrite Nat.div_add, Nat.mod_add, Nat.div_small, Nat.mod_small by lia. cbn [fst snd]. f_equal; lia.
Qed.

Section G.
Variables (var : variant) (g : graph) (N K : nat -> Z).
Hypothesis Hwf : graph_wf g.
Hypothesis HN : forall i, (i < length (vertices g))%nat -> 0 < N i.
Hypothesis HK : forall i, (i < length (vertices g))%nat -> 0 < K i.

Lemma generated_closed cs : generate_event_graph var g N K = Ok cs -> closed (event_list g K) cs.
Proof.
  intros Hgen c Hc. apply (generate_event_graph_in var g N K Hwf cs Hgen) in Hc.
  destruct Hc as [(i & v & r & Hv & Hr & Hx)|(e & vs & vd & r & He & V1 & V2 & Hr & Hx)].
  - destruct (K_nat g K HK i v Hv) as [Hk Hkp].
    destruct (generate_selfloop_spec v (N i) (Z.to_nat (K i)) (vertex_ok g Hwf i v Hv) Hkp
       (HN i (vertex_lt g _ _ Hv))) as (r' & Hr' & Hin).
    rewrite <- Hk, Hr in Hr'. injection Hr' as <-. apply Hin in Hx.
    pose proof (vertex_ok g Hwf i v Hv) as (HP & _).
    assert (HI : forall j, (j < v_init_phases v + Z.to_nat (K i) * v_phases v)%nat -> In (event_at v j) (event_list g K)).
    { intros j Hj. apply event_list_in. exists i, v. split; auto. rewrite Hk. apply event_at_in; auto. }
    destruct Hx as [(j & Hj & ->)|(_ & ->)]; cbn; split; apply HI; nia.
  - destruct (edge_shape g Hwf e He) as (vs' & vd' & V1' & V2' & Hs & Hd & Hsh).
    rewrite V1 in V1'. rewrite V2 in V2'. injection V1' as <-. injection V2' as <-.
    destruct (K_nat g K HK _ _ V1) as [Hk1 Hkp1]. destruct (K_nat g K HK _ _ V2) as [Hk2 Hkp2].
    destruct (generate_channel_spec var e vs vd _ _ (N (e_src e)) Hs Hd Hsh Hkp1 Hkp2) as (? & ? & r' & ? & ? & ? & ? & Hr' & Hin).
    { apply HN, (vertex_lt g _ _ V1). }
    rewrite <- Hk1, <- Hk2, Hr in Hr'. injection Hr' as <-. apply Hin in Hx.
    destruct Hx as (i & j & a & Hi & Hj & _ & _ & ->). cbn. split; apply event_list_in.
    + exists (e_src e), vs. split; auto. rewrite Hk1. apply event_at_in; auto. apply Hs.
    + exists (e_dst e), vd. split; auto. rewrite Hk2. apply event_at_in; auto. apply Hd.
Qed.
End G.

(** * The returned schedule *)
(** Schedule denoted by the lists of start times and the periods. *)
Definition denoted (ts : list task_schedule) : schedule := fun i m =>
  match nth_error ts i with
  | Some t => let L := length (ts_starts t) in
     (nth (m mod L) (ts_starts t) 0 + inject_Z (Z.of_nat (m / L)) * ts_period t)%Q
  | None => 0%Q
  end.

Lemma indexed_nth {A} (l : list A) i : nth_error (indexed l) i = option_map (fun x => (i, x)) (nth_error l i).
Proof.
  unfold indexed. assert (H : forall (l : list A) a i, nth_error (combine (seq a (length l)) l) i =
    option_map (fun x => ((a + i)%nat, x)) (nth_error l i)).
  { clear. induction l; intros b [|i]; cbn; try reflexivity. rewrite Nat.add_0_r. reflexivity.
    rewrite IHl. destruct (nth_error l i); cbn; [|reflexivity]. do 2 f_equal. lia. }
  apply (H l 0%nat).
Qed.
Lemma indexed_length {A} (l : list A) : length (indexed l) = length l.
Proof. unfold indexed. rewrite combine_length, seq_length. lia. Qed.

Section P2S.
Variables (g : graph) (N K : nat -> Z) (th : Q).
Hypothesis Hwf : graph_wf g.
Hypothesis Hbal : balanced g N.
Hypothesis HN : forall i, (i < length (vertices g))%nat -> 0 < N i.
Hypothesis HK : forall i, (i < length (vertices g))%nat -> 0 < K i.
Hypothesis Hni : no_init g.
Hypothesis Hth : (0 < th)%Q.

Lemma inv_pos : (0 < / th)%Q. Proof. apply Qinv_lt_0_compat. exact Hth. Qed.

Lemma period2scheduling_ok : exists cs ts, generate_event_graph StronglyOptimized g N K = Ok cs /\
  period2scheduling g N K th = Ok ts /\ length ts = length (vertices g) /\
  (forall i v t, nth_error (vertices g) i = Some v -> nth_error ts i = Some t ->
     length (ts_starts t) = (Z.to_nat (K i) * v_phases v)%nat /\
     (ts_period t == task_period (/ th) (K i) (Z.of_nat (v_phases v)) (N i))%Q) /\
  same_schedule g (kperiodic_schedule g N K (/ th) (fst (compute_starting_time (event_list g K) cs (Some (/ th)%Q))))
                  (denoted ts).
Proof.
  destruct (generate_event_graph_ok StronglyOptimized g N K Hwf HN HK) as (cs & Hcs).
  exists cs. unfold period2scheduling. rewrite Hcs. cbn [bind].
  pose proof inv_pos as Hip.
  destruct (Qle_bool (/ th) 0) eqn:E. { apply Qle_bool_iff in E. lra. }
  set (St := fst _). eexists. split; [reflexivity|]. split; [reflexivity|].
  split; [unfold retrieve_starts; rewrite map_length, indexed_length; reflexivity|].
  assert (Hnth : forall i v, nth_error (vertices g) i = Some v ->
     nth_error (retrieve_starts g N K (/ th) St) i = Some (retrieve_task N K (/ th) St i v)).
  { intros i v Hv. unfold retrieve_starts. rewrite nth_error_map, indexed_nth, Hv. reflexivity. }
  assert (Hlen : forall i v, nth_error (vertices g) i = Some v ->
     length (positions (K i) 0 (Z.of_nat (v_phases v))) = (Z.to_nat (K i) * v_phases v)%nat).
  { intros i v Hv. destruct (K_nat g K HK i v Hv) as [Hk Hkp]. rewrite Hk at 1.
    apply (positions_length (Z.to_nat (K i)) 0 (v_phases v) Hkp). }
  assert (Hper : forall i v, nth_error (vertices g) i = Some v ->
    (inject_Z (K i) * inject_Z (Z.of_nat (v_phases v)) * / th / inject_Z (N i) ==
     task_period (/ th) (K i) (Z.of_nat (v_phases v)) (N i))%Q).
  { intros i v Hv. unfold task_period. rewrite inject_Z_mult. unfold Qdiv. ring. }
  split.
  - intros i v t Hv Ht. rewrite (Hnth i v Hv) in Ht. injection Ht as <-. unfold retrieve_task. cbn [ts_starts ts_period].
    rewrite map_length, (Hlen i v Hv). split; [reflexivity|]. apply Hper; exact Hv.
  - intros i m Hi. unfold denoted, kperiodic_schedule.
    destruct (nth_error (vertices g) i) as [v|] eqn:Hv; [|apply nth_error_None in Hv; lia].
    rewrite (Hnth i v Hv). unfold retrieve_task. cbn [ts_starts ts_period]. rewrite map_length, (Hlen i v Hv). rewrite (Hper i v Hv).
    destruct (K_nat g K HK i v Hv) as [Hk Hkp]. pose proof (vertex_ok g Hwf i v Hv) as (HP & _).
    unfold kperiodic_start. rewrite (Hni v (nth_error_In _ _ Hv)). cbn [Nat.ltb Nat.leb]. rewrite Nat.sub_0_r.
    assert (Hm : (m mod (Z.to_nat (K i) * v_phases v) < Z.to_nat (K i) * v_phases v)%nat) by (apply Nat.mod_upper_bound; nia).
    apply Qplus_comp; [|reflexivity].
    set (r := (m mod (Z.to_nat (K i) * v_phases v))%nat) in *.
    pose proof (positions_nth (Z.to_nat (K i)) 0 (v_phases v) r Hkp HP Hm) as Hp. rewrite <- Hk in Hp.
    change (Z.of_nat 0) with 0 in Hp.
    rewrite (nth_error_nth _ r 0%Q (x := St (event_at v r))); [|rewrite nth_error_map, Hp; cbn; unfold event_at; rewrite (Hni v (nth_error_In _ _ Hv)); reflexivity].
    unfold event_at, pos_at. rewrite (Hni v (nth_error_In _ _ Hv)). cbn [Nat.ltb Nat.leb fst snd]. rewrite Nat.sub_0_r.
    assert (Hr : (m mod v_phases v = r mod v_phases v /\ (m / v_phases v) mod Z.to_nat (K i) = r / v_phases v)%nat).
    { unfold r. rewrite (Nat.mul_comm (Z.to_nat (K i))). rewrite Nat.mod_mul_r by lia.
      rewrite (Nat.mul_comm (v_phases v)), Nat.mod_add, Nat.mod_mod, Nat.div_add by lia. split; [reflexivity|].
      rewrite (Nat.div_small (m mod v_phases v)); [lia|apply Nat.mod_upper_bound; lia]. }
    destruct Hr as [-> ->]. reflexivity.
Qed.
End P2S.
