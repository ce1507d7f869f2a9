(** What the lines of the trace say. *)
From Coq Require Import QArith Qround.
From Verif Require Import Base Graph KPeriodic ScheduleSpec SimScc SymbExec SymbExecSpec SymbExecProofs SymbExecTrace SymbExecFiring SymbExecFinal.
Open Scope Z_scope.

Lemma send_routes : forall fuel e src dst deps data previous t t', 0 < packet_size t -> 0 <= data ->
  send fuel e src dst deps data previous t = Ok t' ->
  packet_size t' = packet_size t /\ map route (printed t') = map route (printed t) ++ repeat (src, dst, 0%Q) (Z.to_nat (data / packet_size t)).
Proof.
  induction fuel as [|fuel IH]; intros e src dst deps data previous t t' Hs Hd E; cbn [send] in E; destruct (Z.eqb_spec data 0) as [D|D]; try discriminate.
  1,2: injection E as <-; rewrite D, Z.div_0_l by lia; cbn; rewrite app_nil_r; auto.
  destruct (print_line _ _) as [t1| | |] eqn:Pr; try discriminate. cbn [bind] in E. apply print_line_ok in Pr.
  cbn [l_src l_dst last_packet last_compute packets packet_size printed] in Pr. destruct Pr as (_ & _ & E1).
  assert (T1 : packet_size t1 = packet_size t) by (rewrite E1; reflexivity).
  destruct (send_divides _ _ _ _ _ _ _ _ _ E) as [(q & Q) _]. rewrite T1 in Q.
  assert (G : 0 <= data - packet_size t).
  { destruct (Z.le_gt_cases 0 (data - packet_size t)) as [L|L]; [exact L|exfalso]. assert (q = -1 \/ q < -1) by (clear - Q L Hs Hd D; nia). clear - Q H D Hs Hd L. nia. }
  destruct (IH _ _ _ _ _ _ t1 t' ltac:(lia) G E) as [A B]. split; [congruence|]. rewrite B, T1, E1. cbn [printed]. rewrite map_app. cbn [map].
  change (route (mkLine src dst 0 (packets t) (deps ++ [previous]))) with (src, dst, 0%Q). rewrite <- app_assoc. f_equal.
  assert (Dq : data / packet_size t = (data - packet_size t) / packet_size t + 1).
  { replace data with ((data - packet_size t) + 1 * packet_size t) at 1 by lia. rewrite Z.div_add by lia. lia. }
  rewrite Dq. rewrite Z2Nat.inj_add by (try apply Z.div_pos; lia). rewrite Nat.add_comm. reflexivity.
Qed.

Lemma send_all_routes fuel g v deps compute size i : 0 < size -> nth_error (vertices g) i = Some v -> forall es t t',
  (forall c, In c es -> 0 <= edge_in_total c) -> packet_size t = size ->
  send_all fuel g v deps compute es t = Ok t' -> packet_size t' = size /\
  map route (printed t') = map route (printed t) ++ flat_map (fun c => repeat (task_id g i, task_id g (e_dst c), 0%Q) (Z.to_nat (sumZ (e_in c) / size))) es.
Proof.
  intros Hs Hv. induction es as [|c es IH]; intros t t' Pos Sz E; cbn [send_all] in E.
  - injection E as <-. cbn. rewrite app_nil_r. auto.
  - destruct (id_of g (e_dst c)) as [dst| | |] eqn:Id; try discriminate. cbn [bind] in E. rewrite Sz in E.
    replace (size =? 0) with false in E by (symmetry; apply Z.eqb_neq; lia).
    destruct (send _ _ _ _ _ _ _ _) as [t1| | |] eqn:Sd; try discriminate. cbn [bind] in E.
    apply send_routes in Sd; [|exact Hs|apply Pos; left; reflexivity]. cbn [packet_size printed] in Sd. destruct Sd as [A B].
    destruct (IH t1 t' (fun x H => Pos x (or_intror H)) A E) as [C D]. split; [exact C|]. rewrite D, B. cbn [flat_map]. rewrite <- app_assoc. do 2 f_equal.
    unfold task_id. rewrite Hv. unfold id_of in Id. destruct (nth_error (vertices g) (e_dst c)); [injection Id as ->; reflexivity|discriminate].
Qed.

Lemma whole_duration v d : length (v_durations v) = 1%nat -> (forall x, In x (v_durations v) -> (0 <= x)%Q) -> total_duration v = Ok d ->
  d = inject_Z (Qfloor (nth 0 (v_durations v) 0%Q)).
Proof.
  unfold total_duration. destruct (v_durations v) as [|x [|y l]]; try discriminate. intros _ P. specialize (P x (or_introl eq_refl)).
  cbn [length Nat.ltb Nat.leb cassert bind accumulate_durations nth]. destruct (_ && _); [|discriminate]. cbn [bind]. intros E. injection E as <-.
  unfold Qle in P. destruct x as [p q]. cbn [Qnum Qden inject_Z Qplus Qfloor] in *. rewrite Z.mul_1_r in *.
  rewrite Z.quot_div_nonneg by lia. reflexivity.
Qed.

Lemma outputs_flat {A} g i (f : edge -> list A) : flat_map f (outputs g i) = flat_map (fun c => if (e_src c =? i)%nat then f c else []) (edges g).
Proof. unfold outputs. induction (edges g) as [|c es IH]; [reflexivity|]. cbn. destruct (e_src c =? i)%nat; cbn; rewrite IH; reflexivity. Qed.

Definition said (g : graph) (size : Z) (w : list nat) (t : trace) : Prop :=
  packet_size t = size /\ map route (printed t) = flat_map (announced g size) w.
Lemma said_step fuel g size w i v t t' : 0 < size -> (forall c, In c (edges g) -> 0 <= edge_in_total c) -> nth_error (vertices g) i = Some v ->
  length (v_durations v) = 1%nat -> (forall x, In x (v_durations v) -> (0 <= x)%Q) ->
  said g size w t -> print_firing fuel g i v t = Ok t' -> said g size (w ++ [i]) t'.
Proof.
  intros Hs Pos Hv Ld Pd [S1 S2] E. unfold print_firing in E. destruct (total_duration v) as [d| | |] eqn:Td; try discriminate. cbn [bind] in E.
  destruct (print_line _ _) as [t1| | |] eqn:Pr; try discriminate. cbn [bind] in E. apply print_line_ok in Pr.
  cbn [l_src l_dst last_packet last_compute packets packet_size printed] in Pr. destruct Pr as (_ & _ & E1).
  apply (send_all_routes _ _ _ _ _ size i) in E; auto.
  - cbn [printed] in E. destruct E as [A B]. split; [exact A|]. rewrite B, E1. cbn [printed]. rewrite map_app, S2, flat_map_app, <- app_assoc. f_equal. cbn [map flat_map app].
    rewrite app_nil_r. unfold announced. rewrite <- outputs_flat. unfold task_id at 3 4. rewrite Hv. cbn [app]. f_equal. unfold route. cbn [l_src l_dst l_duration].
    rewrite (whole_duration v d Ld Pd Td). reflexivity.
  - intros c Hc. apply Pos. apply filter_In in Hc. tauto.
  - rewrite E1. cbn. exact S1.
Qed.

(** ** Packets follow the execution that produces them *)
Section Follow.
Variable g : graph.
Hypothesis ids : NoDup (map v_id (vertices g)).
Hypothesis chans : distinct_channels g.
Hypothesis noloop : no_self_loops g.
Definition follows (t : trace) : Prop := forall b lb, nth_error (printed t) b = Some lb -> l_src lb <> l_dst lb ->
  exists a la, nth_error (printed t) a = Some la /\ execution_of la (l_src lb) /\ precedes (printed t) a b /\
    forall c lc, (a < c <= b)%nat -> nth_error (printed t) c = Some lc -> l_src lc = l_src lb /\ l_dst lc <> l_src lb.
Lemma follows_step fuel i v t t' : nth_error (vertices g) i = Some v -> tinv t -> follows t -> print_firing fuel g i v t = Ok t' -> tinv t' /\ follows t'.
Proof.
  intros Hv I F E. destruct (firing fuel g i v t t' chans I E) as (S1 & d & Td & I1 & [A1 A2 A3 A4 (new & A5) A6] & _). split; [exact A1|].
  pose proof (t_count _ I) as Ct.
  assert (L1 : length (printed (started g i v d t)) = S (length (printed t))) by (cbn; rewrite app_length; cbn; lia).
  assert (P' : printed t' = printed t ++ exec_line g i v d t :: new) by (rewrite A5; cbn; rewrite <- app_assoc; reflexivity).
  assert (LATE : forall k l, nth_error (printed t') k = Some l -> (length (printed t) < k)%nat -> l_src l = v_id v /\ l_dst l <> v_id v).
  { intros k l Hk Lk. destruct (A6 k l Hk ltac:(lia)) as (c & Hc & Es & Ed & _). split; [exact Es|]. intros Ex. apply (target_id g ids noloop i v c Hv Hc). rewrite Ed, Ex. reflexivity. }
  assert (AT : nth_error (printed t') (length (printed t)) = Some (exec_line g i v d t)) by (rewrite P', nth_error_app2, Nat.sub_diag by lia; reflexivity).
  intros b lb Hb Df. destruct (Nat.lt_trichotomy b (length (printed t))) as [L|[->|L]].
  - rewrite P', nth_error_app1 in Hb by exact L. destruct (F b lb Hb Df) as (a & la & Ha & Ex & Pr & Bt). exists a, la.
    assert (La : (a < length (printed t))%nat) by (apply nth_error_Some; congruence).
    split; [rewrite P', nth_error_app1 by exact La; exact Ha|]. split; [exact Ex|]. split; [rewrite P'; apply precedes_app; exact Pr|].
    intros c lc Hc Hl. rewrite P', nth_error_app1 in Hl by lia. exact (Bt c lc Hc Hl).
  - rewrite AT in Hb. injection Hb as <-. cbn in Df. congruence.
  - destruct (LATE b lb Hb L) as [Es Ed]. exists (length (printed t)), (exec_line g i v d t). split; [exact AT|]. split; [split; cbn; congruence|]. split.
    + destruct (A6 b lb Hb ltac:(lia)) as (c & _ & _ & _ & [K|K] & _); [lia|]. replace (length (printed t)) with (Z.to_nat (packets t)) by lia. exact K.
    + intros c lc Hc Hl. rewrite Es. apply (LATE c lc Hl). lia.
Qed.
End Follow.
