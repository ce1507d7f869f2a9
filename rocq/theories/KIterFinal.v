(** A saturated critical circuit bounds the average period of every schedule. *)
From Coq Require Import QArith Qfield Znumtheory Lqa.
From Verif Require Import Base Graph Commons CommonsProofs FractionProofs KPeriodic ScheduleSpec ScheduleCore KPeriodicSpec
  KPeriodicProofs KPeriodicChannel KPeriodicSelfloop KPeriodicGraph EventGraph EventGraphSpec EventGraphProofs
  KPeriodicEnd KPeriodicProps KIter KIterSpec KIterProofs KIterLoop KIterOpt.
Open Scope Z_scope.

(** * Walking around a circuit *)
Lemma path_invariant (P : event -> Prop) : forall l u v, path u l v -> P u ->
  (forall x, In x l -> P (c_source x) -> P (c_target x)) -> P v /\ forall x, In x l -> P (c_source x).
Proof.
  induction l as [|x l IH]; intros u v Hp Hu Hc; cbn [path] in Hp.
  - subst. split; [exact Hu|intros x []].
  - destruct Hp as [<- Hp]. destruct (IH _ _ Hp) as [H1 H2].
    + apply Hc; [left; reflexivity|exact Hu].
    + intros y Hy. apply Hc. right; exact Hy.
    + split; [exact H1|]. intros y [<-|Hy]; auto.
Qed.
Lemma circuit_invariant (P : event -> Prop) l u x0 : path u l u -> In x0 l -> P (c_source x0) ->
  (forall x, In x l -> P (c_source x) -> P (c_target x)) -> forall x, In x l -> P (c_source x).
Proof.
  intros Hp Hx0 HP Hc. apply in_split in Hx0 as (l1 & l2 & ->). apply path_app in Hp as (m & P1 & P2).
  cbn [path] in P2. destruct P2 as [<- P2].
  destruct (path_invariant P l2 (c_target x0) u P2) as [Hu _].
  - apply Hc; [apply in_or_app; right; left; reflexivity|exact HP].
  - intros y Hy. apply Hc. apply in_or_app. right; right; exact Hy.
  - assert (Pw : path u (l1 ++ x0 :: l2) u) by (apply path_app; exists (c_source x0); cbn [path]; auto).
    exact (proj2 (path_invariant P _ u u Pw Hu Hc)).
Qed.
Lemma circuit_next l u x : path u l u -> In x l -> exists y, In y l /\ c_source y = c_target x.
Proof.
  intros Hp Hx. apply in_split in Hx as (l1 & l2 & ->). apply path_app in Hp as (m & P1 & P2).
  cbn [path] in P2. destruct P2 as [<- P2]. destruct l2 as [|y l2]; cbn [path] in P2.
  - destruct l1 as [|y l1]; cbn [path] in P1.
    + exists x. split; [left; reflexivity|]. congruence.
    + exists y. split; [left; reflexivity|]. destruct P1 as [-> _]. congruence.
  - exists y. split; [apply in_or_app; right; right; left; reflexivity|]. tauto.
Qed.

(** * Restriction of a graph to some tasks and channels: the other tasks take no time *)
Definition silent (v : vertex) : vertex :=
  mkVertex (v_id v) (v_phases v) (v_init_phases v) (repeat 0%Q (v_phases v)) (v_init_durations v) (v_reentrancy v).
Definition restrict (g : graph) (mem : nat -> bool) (cc : list edge) : graph :=
  mkGraph (map (fun iv => if mem (fst iv) then snd iv else silent (snd iv)) (indexed (vertices g))) cc.

Lemma restrict_nth g mem cc i : nth_error (vertices (restrict g mem cc)) i =
  option_map (fun v => if mem i then v else silent v) (nth_error (vertices g) i).
Proof.
  cbn [restrict vertices]. rewrite nth_error_map, indexed_nth. destruct (nth_error (vertices g) i); reflexivity.
Qed.
Lemma restrict_length g mem cc : length (vertices (restrict g mem cc)) = length (vertices g).
Proof. cbn [restrict vertices]. rewrite map_length. apply indexed_length. Qed.
Lemma restrict_in g mem cc v : In v (vertices (restrict g mem cc)) -> exists w, In w (vertices g) /\ (v = w \/ v = silent w).
Proof.
  intros H. apply In_nth_error in H as (i & Hi). rewrite restrict_nth in Hi.
  destruct (nth_error (vertices g) i) as [w|] eqn:E; [|discriminate]. cbn in Hi. injection Hi as <-.
  exists w. split; [eapply nth_error_In; exact E|]. destruct (mem i); auto.
Qed.

Lemma in_repeat {A} (a x : A) n : In x (repeat a n) -> x = a.
Proof. apply repeat_spec. Qed.

(** A schedule that respects the channels [cc] and the serialisation of every task. *)
Definition valid_along (g : graph) (cc : list edge) (s : schedule) : Prop :=
  (forall c, In c cc -> channel_valid g s c) /\ (forall i v, nth_error (vertices g) i = Some v -> task_serialised s i v).

Section R.
Variables (var : variant) (g : graph) (N : nat -> Z) (mem : nat -> bool) (cc : list edge) (G : Z) (K : nat -> Z).
Hypothesis Hwf : graph_wf g.
Hypothesis Hbal : balanced g N.
Hypothesis Hni : no_init g.
Hypothesis Hno : no_overlap g.
Hypothesis Hcyc : whole_cycles g N.
Hypothesis Hcc : incl cc (edges g).
Hypothesis Hmem : forall c, In c cc -> mem (e_src c) = true /\ mem (e_dst c) = true.
Hypothesis HG : 0 < G.
Hypothesis HGd : forall i v, nth_error (vertices g) i = Some v -> mem i = true -> (G | cycles g N i).
Hypothesis HGK : forall i v, nth_error (vertices g) i = Some v -> mem i = true -> (cycles g N i / G | K i).
Hypothesis HK : kdiv g N K.

Let h := restrict g mem cc.
Let Nh (i : nat) : Z := if mem i then N i else
  match nth_error (vertices g) i with Some v => Z.of_nat (v_phases v) * G | None => 1 end.
Let K0 (i : nat) : Z := if mem i then cycles g N i / G else 1.

Lemma h_nth i w : nth_error (vertices h) i = Some w -> exists v, nth_error (vertices g) i = Some v /\
  w = (if mem i then v else silent v) /\ v_phases w = v_phases v /\ v_id w = v_id v.
Proof.
  unfold h. rewrite restrict_nth. destruct (nth_error (vertices g) i) as [v|]; [|discriminate].
  intros [= <-]. exists v. split; [reflexivity|]. split; [reflexivity|]. destruct (mem i); auto.
Qed.
Lemma h_nth_mem i v : nth_error (vertices g) i = Some v -> mem i = true -> nth_error (vertices h) i = Some v.
Proof. intros E Hm. unfold h. rewrite restrict_nth, E. cbn [option_map]. rewrite Hm. reflexivity. Qed.

Lemma h_wf : graph_wf h.
Proof.
  destruct Hwf as (Hv & He & Hn). split; [|split].
  - intros v Hin. apply restrict_in in Hin as (w & Hw & [->| ->]); [apply Hv; exact Hw|].
    destruct (Hv w Hw) as (HP & Hd & Hi & Hnn). split; [exact HP|]. split; [apply repeat_length|]. split; [exact Hi|].
    intros x Hx. cbn [silent v_durations v_init_durations] in Hx. apply in_app_or in Hx as [Hx|Hx].
    + apply in_repeat in Hx. subst. apply Qle_refl.
    + apply Hnn. apply in_or_app. auto.
  - intros c Hc. cbn [h restrict edges] in Hc. destruct (Hmem c Hc) as [M1 M2].
    destruct (He c (Hcc c Hc)) as (vs & vd & E1 & E2 & Hrest). exists vs, vd.
    split; [apply h_nth_mem; auto|]. split; [apply h_nth_mem; auto|]. exact Hrest.
  - assert (Em : map v_id (vertices h) = map v_id (vertices g)); [|rewrite Em; exact Hn].
    cbn [h restrict vertices]. rewrite map_map. unfold indexed.
    assert (Gn : forall l a, map (fun iv => v_id (if mem (fst iv) then snd iv else silent (snd iv))) (combine (seq a (length l)) l) = map v_id l).
    { induction l as [|x l IH]; intros a; [reflexivity|]. cbn [length seq combine map fst snd]. rewrite IH.
      destruct (mem a); reflexivity. }
    apply Gn.
Qed.
Lemma h_bal : balanced h Nh.
Proof.
  intros c Hc. cbn [h restrict edges] in Hc. destruct (Hmem c Hc) as [M1 M2]. unfold Nh. rewrite M1, M2.
  apply Hbal. apply Hcc. exact Hc.
Qed.
Lemma h_ni : no_init h.
Proof. intros v Hin. apply restrict_in in Hin as (w & Hw & [->| ->]); exact (Hni w Hw). Qed.
Lemma h_no : no_overlap h.
Proof. intros v Hin. apply restrict_in in Hin as (w & Hw & [->| ->]); exact (Hno w Hw). Qed.
Lemma h_vertex i : (i < length (vertices h))%nat -> exists v, nth_error (vertices g) i = Some v.
Proof.
  intros Hi. unfold h in Hi. rewrite restrict_length in Hi.
  destruct (nth_error (vertices g) i) as [v|] eqn:E; [eauto|]. apply nth_error_None in E. lia.
Qed.
Lemma Nh_pos : positive_on h Nh.
Proof.
  intros i Hi. destruct (h_vertex i Hi) as (v & E). unfold Nh. destruct (mem i); [apply (Hcyc i v E)|].
  rewrite E. destruct (vertex_ok g Hwf i v E) as (HP & _). nia.
Qed.
Lemma K0_pos : positive_on h K0.
Proof.
  intros i Hi. destruct (h_vertex i Hi) as (v & E). unfold K0. destruct (mem i) eqn:M; [|lia].
  destruct (cycles_spec g N Hwf Hcyc i v E) as (_ & Hq & _).
  destruct (div_divides (cycles g N i) G HG Hq (HGd i v E M)). lia.
Qed.
Lemma h_K_pos : positive_on h K.
Proof. intros i Hi. destruct (h_vertex i Hi) as (v & E). apply (HK i v E). Qed.
Lemma K0_G i w : nth_error (vertices h) i = Some w -> K0 i * Z.of_nat (v_phases w) * G = Nh i.
Proof.
  intros E. destruct (h_nth i w E) as (v & E' & _ & -> & _). unfold K0, Nh. destruct (mem i) eqn:M.
  - destruct (cycles_spec g N Hwf Hcyc i v E') as (_ & Hq & Hn).
    destruct (div_divides (cycles g N i) G HG Hq (HGd i v E' M)) as [_ Hd].
    set (q := cycles g N i / G) in *. clearbody q. rewrite Hn, Hd. ring.
  - rewrite E'. ring.
Qed.
Lemma K0_divides i : (i < length (vertices h))%nat -> (K0 i | K i).
Proof.
  intros Hi. destruct (h_vertex i Hi) as (v & E). unfold K0. destruct (mem i) eqn:M; [apply (HGK i v E M)|apply Z.divide_1_l].
Qed.

Variables (s : schedule) (omega : Q).
Hypothesis Hval : valid_along g cc s.
Hypothesis Hom : (0 < omega)%Q.
Hypothesis Hpace : keeps_pace g N s omega.
Hypothesis Hnz : non_zeno g s.

Let sh : schedule := fun i m => if mem i then s i m else (omega * (inject_Z (Z.of_nat m) / inject_Z (Nh i)))%Q.

Lemma Nh_posq i : (i < length (vertices h))%nat -> (0 < inject_Z (Nh i))%Q.
Proof. intros Hi. change 0%Q with (inject_Z 0). rewrite <- Zlt_Qlt. apply Nh_pos. exact Hi. Qed.

Lemma silent_duration v m : (0 < v_phases v)%nat -> length (v_init_durations v) = 0%nat -> exec_duration (silent v) m = 0%Q.
Proof.
  intros HP Hi. unfold exec_duration, cyclic. cbn [silent v_init_durations v_durations]. rewrite Hi. cbn [Nat.ltb Nat.leb].
  destruct (in_dec Nat.eq_dec 0%nat []) as [[]|_].
  apply (in_repeat 0%Q _ (v_phases v)). apply nth_In. rewrite repeat_length. apply Nat.mod_upper_bound. lia.
Qed.

Lemma sh_valid : schedule_valid h sh.
Proof.
  destruct Hval as [Hch Hser]. split.
  - intros c Hc. cbn [h restrict edges] in Hc. destruct (Hmem c Hc) as [M1 M2].
    pose proof (Hch c Hc) as Hv. destruct (edge_shape g Hwf c (Hcc c Hc)) as (vs & vd & E1 & E2 & _).
    unfold channel_valid in *. eapply never_negative_ext; [| |exact Hv].
    + intros m. unfold end_of. rewrite E1, (h_nth_mem _ _ E1 M1). unfold sh. rewrite M1. reflexivity.
    + intros m. unfold start_of, sh. rewrite M2. reflexivity.
  - intros i w E. destruct (h_nth i w E) as (v & E' & -> & _ & _). unfold task_serialised, start_of, sh, serialised.
    destruct (mem i) eqn:M; [exact (Hser i v E')|]. intros m.
    destruct (vertex_ok g Hwf i v E') as (HP & _ & Hi & _). rewrite (Hni v) in Hi by (eapply nth_error_In; exact E').
    rewrite silent_duration by assumption.
    assert (Hl : (i < length (vertices h))%nat) by (apply nth_error_Some; congruence).
    pose proof (Nh_posq i Hl) as HNq.
    rewrite Nat2Z.inj_succ. unfold Z.succ. rewrite inject_Z_plus. change (inject_Z 1) with 1%Q.
    set (q := inject_Z (Z.of_nat m)). set (n := inject_Z (Nh i)) in *. clearbody q n.
    assert (E0 : (omega * ((q + 1) / n) == omega * (q / n) + omega * / n)%Q) by (field; lra). rewrite E0.
    assert (0 < / n)%Q by (apply Qinv_lt_0_compat; exact HNq). nra.
Qed.

Lemma sh_pace : keeps_pace h Nh sh omega.
Proof.
  destruct Hpace as (B & HB). exists (if Qlt_le_dec B 0 then 0%Q else B). intros i m Hi.
  assert (Hi' : (i < length (vertices g))%nat) by (unfold h in Hi; rewrite restrict_length in Hi; exact Hi).
  specialize (HB i m Hi'). unfold sh. destruct (mem i) eqn:M.
  - assert (Nh i = N i) as -> by (unfold Nh; rewrite M; reflexivity). destruct (Qlt_le_dec B 0); lra.
  - destruct (Qlt_le_dec B 0); lra.
Qed.

Lemma sh_non_zeno : non_zeno h sh.
Proof.
  intros i t Hi.
  assert (Hi' : (i < length (vertices g))%nat) by (unfold h in Hi; rewrite restrict_length in Hi; exact Hi).
  unfold sh. destruct (mem i) eqn:M; [apply Hnz; exact Hi'|].
  pose proof (Nh_posq i Hi) as HNq. set (n := inject_Z (Nh i)) in *.
  destruct (Qlt_le_dec t 0) as [Ht|Ht].
  - exists 0%nat. change (inject_Z (Z.of_nat 0)) with 0%Q. assert (E : (omega * (0 / n) == 0)%Q) by (field; lra). rewrite E. exact Ht.
  - assert (Hne : ~ forall r : nat, (inject_Z (Z.of_nat r) * (omega / n) <= t)%Q).
    { intros H. apply archimedes in H. assert (0 < omega / n)%Q; [|lra]. apply Qlt_shift_div_l; lra. }
    assert (H0 : (0 < omega / n)%Q) by (apply Qlt_shift_div_l; lra).
    exists (Z.to_nat (Qround.Qceiling (t / (omega / n)) + 1)).
    assert (Hc : (t / (omega / n) <= inject_Z (Qround.Qceiling (t / (omega / n))))%Q) by apply Qround.Qle_ceiling.
    assert (Hz : 0 <= Qround.Qceiling (t / (omega / n))).
    { rewrite Zle_Qle. change (inject_Z 0) with 0%Q. assert (0 <= t / (omega / n))%Q by (apply Qle_shift_div_l; lra). lra. }
    rewrite Z2Nat.id by lia. rewrite inject_Z_plus. change (inject_Z 1) with 1%Q.
    assert (E1 : (t == t / (omega / n) * (omega / n))%Q) by (field; split; lra).
    set (z := inject_Z (Qround.Qceiling (t / (omega / n)))) in *. clearbody z.
    assert (E2 : (omega * ((z + 1) / n) == (z + 1) * (omega / n))%Q) by (field; lra). rewrite E2.
    set (y := (omega / n)%Q) in *. set (q := (t / y)%Q) in *. clearbody q y. nra.
Qed.

Lemma restricted_fit cs : generate_event_graph var h Nh K = Ok cs -> circuits_fit cs omega.
Proof.
  intros Hg. destruct (generate_event_graph_ok var h Nh K0 h_wf Nh_pos K0_pos) as (cs0 & Hg0).
  apply (refine_K var h Nh K0 K omega cs0 cs h_wf h_bal h_ni h_no Nh_pos K0_pos h_K_pos K0_divides); auto.
  - apply Qlt_le_weak. exact Hom.
  - apply (circuit_bound var h Nh K0 G h_wf h_bal h_ni h_no Nh_pos K0_pos HG K0_G sh sh_valid cs0 Hg0 omega sh_pace sh_non_zeno).
Qed.

(** A circuit of the original event graph through members and channels of [cc] only. *)
Lemma restricted_circuit cs l : generate_event_graph var g N K = Ok cs -> circuit cs l ->
  (forall x, In x l -> forall i v, nth_error (vertices g) i = Some v -> ev_task (c_source x) = v_id v -> mem i = true) ->
  (forall x c, In x l -> In c (edges g) -> c_channel x = e_id c -> In c cc) ->
  (sumQ c_d l <= omega * sumQ c_w l)%Q.
Proof.
  intros Hg (Hne & Hincl & u & Hp) Hm Hc.
  destruct (generate_event_graph_ok var h Nh K h_wf Nh_pos h_K_pos) as (csh & Hgh).
  apply (restricted_fit csh Hgh l). split; [exact Hne|]. split; [|exists u; exact Hp].
  intros x Hx. pose proof (Hincl x Hx) as Hx'. apply (generate_event_graph_in var g N K Hwf cs Hg) in Hx'.
  apply (generate_event_graph_in var h Nh K h_wf csh Hgh).
  pose proof (HN_pos g N Hcyc) as HNp. pose proof (kdiv_pos g N K HK) as HKp.
  destruct Hx' as [(i & v & r & E & Hr & Hin)|(c & vs & vd & r & He & E1 & E2 & Hr & Hin)].
  - left. pose proof (vertex_lt g i v E) as Hlt.
    destruct (selfloop_ends v (N i) (K i) r x (vertex_ok g Hwf i v E) (HNp i Hlt) (HKp i Hlt) Hr Hin) as [Hs _].
    pose proof (Hm x Hx i v E Hs) as M. exists i, v, r. split; [apply h_nth_mem; auto|]. unfold Nh. rewrite M. auto.
  - right. destruct (edge_shape g Hwf c He) as (vs' & vd' & E1' & E2' & Hs & Hd & Hsh).
    rewrite E1 in E1'. rewrite E2 in E2'. injection E1' as <-. injection E2' as <-.
    destruct (channel_ends var c vs vd (N (e_src c)) (K (e_src c)) (K (e_dst c)) r x Hs Hd Hsh
      (HNp _ (vertex_lt g _ _ E1)) (HKp _ (vertex_lt g _ _ E1)) (HKp _ (vertex_lt g _ _ E2)) Hr Hin) as (_ & _ & Hch).
    pose proof (Hc x c Hx He Hch) as Hccc. destruct (Hmem c Hccc) as [M1 M2].
    exists c, vs, vd, r. split; [exact Hccc|]. split; [apply h_nth_mem; auto|]. split; [apply h_nth_mem; auto|].
    unfold Nh. rewrite M1. auto.
Qed.
End R.

(** * The critical circuit at the end of K-Iter *)
Section Crit.
Variables (var : variant) (g : graph) (N K : nat -> Z).
Hypothesis Hwf : graph_wf g.
Hypothesis Hbal : balanced g N.
Hypothesis Hni : no_init g.
Hypothesis Hno : no_overlap g.
Hypothesis Hcyc : whole_cycles g N.
Hypothesis Hids : edge_ids_ok g.
Hypothesis HK : kdiv g N K.
Variables (cs l : list constraint) (cc : list edge).
Hypothesis Hgen : generate_event_graph var g N K = Ok cs.
Hypothesis Hcirc : circuit cs l.
Hypothesis Hcc : forall c, In c cc <-> In c (edges g) /\ exists x, In x l /\ c_channel x = e_id c.
Hypothesis Hsat : saturated g N K cc.
Variables (s : schedule) (omega : Q).
Hypothesis Hval : valid_along g cc s.
Hypothesis Hpace : keeps_pace g N s omega.
Hypothesis Hnz : non_zeno g s.

Lemma selfloop_channel v n k r x : vertex_wf v -> 0 < n -> 0 < k -> generate_selfloop v n k = Ok r -> In x r -> c_channel x = 0.
Proof.
  intros Hv Hn Hk Hg Hx. destruct (generate_selfloop_spec v n (Z.to_nat k) Hv ltac:(lia) Hn) as (r' & Hr & Hin).
  rewrite Z2Nat.id in Hr by lia. rewrite Hg in Hr. injection Hr as <-. cbv zeta in Hin.
  apply Hin in Hx. destruct Hx as [(j & _ & ->)|(_ & ->)]; reflexivity.
Qed.

(** Each constraint of the circuit: a self-loop, or one of a channel of [cc]. *)
Lemma circuit_kind x : In x l ->
  (exists i v, nth_error (vertices g) i = Some v /\ ev_task (c_source x) = v_id v /\ ev_task (c_target x) = v_id v /\ c_channel x = 0) \/
  (exists c vs vd, In c cc /\ nth_error (vertices g) (e_src c) = Some vs /\ nth_error (vertices g) (e_dst c) = Some vd /\
     ev_task (c_source x) = v_id vs /\ ev_task (c_target x) = v_id vd /\ c_channel x = e_id c).
Proof.
  intros Hx. destruct Hcirc as (_ & Hincl & _). pose proof (Hincl x Hx) as Hx'.
  apply (generate_event_graph_in var g N K Hwf cs Hgen) in Hx'.
  pose proof (HN_pos g N Hcyc) as HNp. pose proof (kdiv_pos g N K HK) as HKp.
  destruct Hx' as [(i & v & r & E & Hr & Hin)|(c & vs & vd & r & He & E1 & E2 & Hr & Hin)].
  - left. pose proof (vertex_lt g i v E) as Hlt. pose proof (vertex_ok g Hwf i v E) as Hv.
    destruct (selfloop_ends v (N i) (K i) r x Hv (HNp i Hlt) (HKp i Hlt) Hr Hin) as [Hs Ht].
    exists i, v. split; [exact E|]. split; [exact Hs|]. split; [exact Ht|].
    exact (selfloop_channel v (N i) (K i) r x Hv (HNp i Hlt) (HKp i Hlt) Hr Hin).
  - right. destruct (edge_shape g Hwf c He) as (vs' & vd' & E1' & E2' & Hs & Hd & Hsh).
    rewrite E1 in E1'. rewrite E2 in E2'. injection E1' as <-. injection E2' as <-.
    destruct (channel_ends var c vs vd (N (e_src c)) (K (e_src c)) (K (e_dst c)) r x Hs Hd Hsh
      (HNp _ (vertex_lt g _ _ E1)) (HKp _ (vertex_lt g _ _ E1)) (HKp _ (vertex_lt g _ _ E2)) Hr Hin) as (A & B & Hch).
    exists c, vs, vd. split; [apply Hcc; split; [exact He|exists x; auto]|]. auto 6.
Qed.

Definition member (i : nat) : bool :=
  match nth_error (vertices g) i with
  | Some v => existsb (fun x => ev_task (c_source x) =? v_id v) l
  | None => false
  end.
Lemma member_spec i v : nth_error (vertices g) i = Some v ->
  (member i = true <-> exists x, In x l /\ ev_task (c_source x) = v_id v).
Proof.
  intros E. unfold member. rewrite E, existsb_exists. split; intros (x & H1 & H2); exists x; (split; [exact H1|]); apply Z.eqb_eq; exact H2.
Qed.

Lemma circuit_task_const i v : nth_error (vertices g) i = Some v ->
  (forall x, In x l -> ev_task (c_source x) = v_id v -> ev_task (c_target x) = v_id v) ->
  member i = true -> forall x, In x l -> ev_task (c_source x) = v_id v.
Proof.
  intros E Hstay Hm. apply (member_spec i v E) in Hm as (x0 & Hx0 & Ht0). destruct Hcirc as (_ & _ & u & Hp).
  apply (circuit_invariant (fun e => ev_task e = v_id v) l u x0 Hp Hx0 Ht0 Hstay).
Qed.

Lemma circuit_nonempty : exists x0, In x0 l.
Proof using Hcirc. clear -Hcirc. destruct Hcirc as (Hne & _). destruct l as [|x0 l0]; [congruence|]. exists x0. left; reflexivity. Qed.

Lemma members_saturated : exists G, 0 < G /\ forall i v, nth_error (vertices g) i = Some v -> member i = true ->
  (G | cycles g N i) /\ (cycles g N i / G | K i).
Proof.
  assert (Hd : (forall c, ~ In c cc) \/ exists c0, In c0 cc).
  { clear. destruct cc as [|c0 cc0]; [left; intros c []|right; exists c0; left; reflexivity]. }
  destruct Hd as [Hnil|(c0 & Hc0)].
  - (* only self-loops: one task *)
    destruct circuit_nonempty as (x0 & Hx0).
    destruct (circuit_kind x0 Hx0) as [(i & v & E & Hs & Ht & _)|(c & ? & ? & Hf & _)]; [|destruct (Hnil c Hf)].
    destruct (cycles_spec g N Hwf Hcyc i v E) as (_ & Hq & _).
    exists (cycles g N i). split; [exact Hq|]. intros j w Ej Hm.
    assert (Hall : forall x, In x l -> ev_task (c_source x) = v_id v).
    { apply (circuit_task_const i v E).
      - intros x Hx Hsx. destruct (circuit_kind x Hx) as [(k & z & Ek & Hsk & Htk & _)|(c & ? & ? & Hf & _)]; [|destruct (Hnil c Hf)]. congruence.
      - apply (member_spec i v E). exists x0. auto. }
    apply (member_spec j w Ej) in Hm as (x & Hx & Hxs). rewrite (Hall x Hx) in Hxs.
    destruct (vertex_id_inj g Hwf i j v w E Ej Hxs) as [<- _].
    rewrite Z.div_same by lia. split; [apply Z.divide_refl|apply Z.divide_1_l].
  - pose proof (is_cycle_gcd_list g N cc) as HGcd. set (G := gcd_list g N cc 0) in *.
    exists G. split; [apply (is_cycle_gcd_pos g N Hwf Hcyc cc G c0 Hc0); [apply Hcc; exact Hc0|exact HGcd]|].
    intros i v E Hm.
    assert (Hon : on_circuit cc i).
    { destruct (in_dec Nat.eq_dec i (map e_src cc)) as [I|I].
      { apply in_map_iff in I as (c & Ec & Ic). exists c. auto. }
      exfalso. assert (Hall : forall x, In x l -> ev_task (c_source x) = v_id v).
      { apply (circuit_task_const i v E); [|exact Hm]. intros x Hx Hsx.
        destruct (circuit_kind x Hx) as [(k & z & Ek & Hsk & Htk & _)|(c & vs & vd & Hc & E1 & E2 & Hs1 & Ht1 & _)]; [congruence|].
        exfalso. apply I. rewrite Hs1 in Hsx. destruct (vertex_id_inj g Hwf _ _ _ _ E1 E Hsx) as [<- _]. apply in_map, Hc. }
      destruct (proj1 (Hcc c0) Hc0) as (He0 & x & Hx & Hch).
      destruct (circuit_kind x Hx) as [(k & z & Ek & Hsk & Htk & H0)|(c & vs & vd & Hc & E1 & E2 & Hs1 & Ht1 & Hch')].
      - destruct Hids as [_ Hpos]. specialize (Hpos c0 He0). lia.
      - rewrite (Hall x Hx) in Hs1. destruct (vertex_id_inj g Hwf _ _ _ _ E E1 Hs1) as [Ei _].
        apply I. rewrite Ei. apply in_map, Hc. }
    split; [apply HGcd, Hon|apply (Hsat G HGcd i Hon)].
Qed.

Lemma pace_positive : (0 < omega)%Q.
Proof.
  destruct circuit_nonempty as (x0 & Hx0).
  assert (Hex : exists i, (i < length (vertices g))%nat).
  { destruct (circuit_kind x0 Hx0) as [(i & v & E & _)|(c & v & _ & _ & E & _)]; eexists; eapply vertex_lt; exact E. }
  destruct Hex as (i & Hi). destruct (Qlt_le_dec 0 omega) as [|Ho]; [assumption|]. exfalso.
  destruct Hpace as (B & HB). destruct (Hnz i B Hi) as (m & Hm). specialize (HB i m Hi).
  assert (0 <= inject_Z (Z.of_nat m) / inject_Z (N i))%Q.
  { apply Qle_shift_div_l.
    - change 0%Q with (inject_Z 0). rewrite <- Zlt_Qlt. apply (HN_pos g N Hcyc i Hi).
    - rewrite Qmult_0_l. change 0%Q with (inject_Z 0). rewrite <- Zle_Qle. lia. }
  set (q := (_ / _)%Q) in *. clearbody q. nra.
Qed.

Theorem critical_circuit_bound : (sumQ c_d l <= omega * sumQ c_w l)%Q.
Proof.
  destruct members_saturated as (G & HG & HM).
  apply (restricted_circuit var g N member cc G K Hwf Hbal Hni Hno Hcyc) with (s := s) (cs := cs); auto.
  - intros c Hc. apply Hcc. exact Hc.
  - intros c Hc. destruct (proj1 (Hcc c) Hc) as (He & x & Hx & Hch).
    destruct (circuit_kind x Hx) as [(k & z & Ek & Hsk & Htk & H0)|(c' & vs & vd & Hc' & E1 & E2 & Hs1 & Ht1 & Hch')].
    + destruct Hids as [_ Hpos]. specialize (Hpos c He). lia.
    + assert (c' = c) by (apply (edge_id_inj g Hids); [apply Hcc; exact Hc'|exact He|congruence]). subst c'.
      split; [apply (member_spec _ vs E1); exists x; auto|]. apply (member_spec _ vd E2).
      destruct Hcirc as (_ & _ & u & Hp). destruct (circuit_next l u x Hp Hx) as (y & Hy & Ey). exists y. rewrite Ey. auto.
  - intros i v E Hm. apply (HM i v E Hm).
  - intros i v E Hm. apply (HM i v E Hm).
  - exact pace_positive.
  - intros x Hx i v E Ht. apply (member_spec i v E). exists x. auto.
  - intros x c Hx He Hch. apply Hcc. split; [exact He|]. exists x. auto.
Qed.
End Crit.
