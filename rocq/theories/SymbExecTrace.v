(** Proofs about the printed trace. *)
From Coq Require Import QArith.
From Verif Require Import Base Graph KPeriodic ScheduleSpec SimScc SymbExec SymbExecSpec SymbExecProofs.
Open Scope Z_scope.

Lemma nth_error_app_l {A} (l l' : list A) k x : nth_error l k = Some x -> nth_error (l ++ l') k = Some x.
Proof. intros H. rewrite nth_error_app1; [exact H|]. apply nth_error_Some. congruence. Qed.
Lemma depends_app ls ls' a b : depends ls a b -> depends (ls ++ ls') a b.
Proof. intros (l & H & I). exists l. split; [apply nth_error_app_l; exact H|exact I]. Qed.
Lemma precedes_app ls ls' a b : precedes ls a b -> precedes (ls ++ ls') a b.
Proof. induction 1; [apply precedes_one|eapply precedes_more]; eauto using depends_app. Qed.
Lemma precedes_trans ls a b c : precedes ls a b -> precedes ls b c -> precedes ls a c.
Proof. intros H1 H2. induction H2 as [b c D|b c d H IH D]; [exact (precedes_more ls a b c H1 D)|exact (precedes_more ls a c d (IH H1) D)]. Qed.

(** Numbers in use. *)
Definition used (t : trace) (d : Z) : Prop := 0 <= d < packets t.
Record tinv (t : trace) : Prop := {
  t_count : packets t = Z.of_nat (length (printed t));
  t_numbered : numbered (printed t);
  t_past : depends_on_past (printed t);
  t_packet : forall e p, last_packet t e = Some p -> used t p;
  t_compute : forall e p, last_compute t e = Some p -> used t p }.

(** The state with the next line printed. *)
Definition after (t : trace) (lp lc : Z -> option Z) (l : line) : trace := mkTrace lp lc (packets t + 1) (packet_size t) (printed t ++ [l]).

Lemma print_line_ok l t t' : print_line l t = Ok t' -> 0 < l_src l /\ 0 < l_dst l /\
  t' = mkTrace (last_packet t) (last_compute t) (packets t) (packet_size t) (printed t ++ [l]).
Proof.
  unfold print_line, cassert. destruct (0 <? l_src l) eqn:A; [|discriminate]. destruct (0 <? l_dst l) eqn:B; [|discriminate].
  cbn [bind]. intros E. apply Z.ltb_lt in A, B. injection E as <-. auto.
Qed.
Lemma print_line_total l t : 0 < l_src l -> 0 < l_dst l -> exists t', print_line l t = Ok t'.
Proof. intros A B. apply Z.ltb_lt in A, B. unfold print_line, cassert. rewrite A, B. cbn. eauto. Qed.

Lemma after_inv t lp lc l : tinv t -> l_packet l = packets t -> (forall d, In d (l_deps l) -> used t d) ->
  (forall e p, lp e = Some p -> 0 <= p <= packets t) -> (forall e p, lc e = Some p -> 0 <= p <= packets t) -> tinv (after t lp lc l).
Proof.
  intros I En Hd Hp Hc. pose proof (t_count _ I) as C. constructor; cbn [after packets printed last_packet last_compute].
  - rewrite app_length. cbn [length]. lia.
  - intros k x E. destruct (Nat.lt_ge_cases k (length (printed t))) as [L|L].
    + rewrite nth_error_app1 in E by exact L. apply (t_numbered _ I); exact E.
    + rewrite nth_error_app2 in E by exact L. destruct (k - length (printed t))%nat as [|m] eqn:K; [|destruct m; discriminate].
      injection E as <-. lia.
  - intros k x d E D. destruct (Nat.lt_ge_cases k (length (printed t))) as [L|L].
    + rewrite nth_error_app1 in E by exact L. apply (t_past _ I k x d); assumption.
    + rewrite nth_error_app2 in E by exact L. destruct (k - length (printed t))%nat as [|m] eqn:K; [|destruct m; discriminate].
      injection E as <-. specialize (Hd d D). unfold used in Hd. lia.
  - intros e p E. specialize (Hp e p E). unfold used. cbn. lia.
  - intros e p E. specialize (Hc e p E). unfold used. cbn. lia.
Qed.

(** ** One channel *)
Record sent (e src dst : Z) (deps : list Z) (data previous : Z) (t t' : trace) : Prop := {
  s_inv : tinv t';
  s_compute : last_compute t' = last_compute t;
  s_size : packet_size t' = packet_size t;
  s_other : forall j, j <> e -> last_packet t' j = last_packet t j;
  s_none : data = 0 -> t' = t;
  s_last : data <> 0 -> last_packet t' e = Some (packets t' - 1) /\ packets t < packets t';
  s_new : exists new, printed t' = printed t ++ new /\
     (forall l, In l new -> l_src l = src /\ l_dst l = dst /\ 0 < src /\ 0 < dst) /\
     (forall k, (length (printed t) <= k < length (printed t'))%nat ->
        (Z.to_nat previous = k \/ precedes (printed t') (Z.to_nat previous) k) /\
        (k = length (printed t') - 1 \/ precedes (printed t') k (length (printed t') - 1))%nat);
  s_many : 0 < packet_size t -> 0 <= data -> (packet_size t | data) -> packets t' = packets t + data / packet_size t }.

Lemma send_spec : forall fuel e src dst deps data previous t t', tinv t -> (forall d, In d deps -> used t d) -> used t previous ->
  send fuel e src dst deps data previous t = Ok t' -> sent e src dst deps data previous t t'.
Proof.
  assert (Z0 : forall e src dst deps data previous t, tinv t -> data = 0 -> sent e src dst deps data previous t t).
  { intros e src dst deps data previous t I ->. constructor; auto; [congruence| |].
    - exists []. rewrite app_nil_r. split; [reflexivity|]. split; [intros l []|]. intros k Hk. lia.
    - intros Hs _ _. rewrite Z.div_0_l by lia. lia. }
  induction fuel as [|fuel IH]; intros e src dst deps data previous t t' I Hd Hp E; cbn [send] in E; destruct (Z.eqb_spec data 0) as [D|D].
  1,3: injection E as <-; apply Z0; assumption.
  1: discriminate.
  destruct (print_line _ _) as [t1| | |] eqn:Pr; try discriminate. cbn [bind] in E. apply print_line_ok in Pr.
  cbn [l_src l_dst last_packet last_compute packets packet_size printed] in Pr. destruct Pr as (S1 & S2 & E1).
  set (l := mkLine src dst 0 (packets t) (deps ++ [previous])) in *.
  change t1 with t1 in E1. assert (E1' : t1 = after t (omap_put (last_packet t) e (packets t)) (last_compute t) l) by exact E1. clear E1. rename E1' into E1.
  pose proof (t_count _ I) as C.
  assert (I1 : tinv t1).
  { rewrite E1. apply after_inv; auto.
    - intros d Hin. cbn [l l_deps] in Hin. apply in_app_iff in Hin. destruct Hin as [Hin|[<-|[]]]; [apply Hd; exact Hin|exact Hp].
    - intros j p. unfold omap_put. destruct (j =? e); [intros X; injection X as <-; lia|]. intros X. pose proof (t_packet _ I _ _ X). unfold used in *. lia.
    - intros j p X. pose proof (t_compute _ I _ _ X). unfold used in *. lia. }
  assert (Hd1 : forall d, In d deps -> used t1 d) by (intros d Hin; specialize (Hd d Hin); rewrite E1; unfold used in *; cbn; lia).
  assert (Hp1 : used t1 (packets t)) by (rewrite E1; unfold used; cbn; lia).
  assert (T1s : packet_size t1 = packet_size t) by (rewrite E1; reflexivity).
  pose proof (IH e src dst deps (data - packet_size t) (packets t) t1 t' I1 Hd1 Hp1 E) as Sn. clear IH E.
  destruct Sn as [J1 J2 J3 J4 J5 J6 (new & N1 & N2 & N3) J8].
  assert (P1 : printed t1 = printed t ++ [l]) by (rewrite E1; reflexivity).
  assert (K1 : packets t1 = packets t + 1) by (rewrite E1; reflexivity).
  assert (L1 : length (printed t1) = S (length (printed t))) by (rewrite P1, app_length; cbn; lia).
  assert (L2 : length (printed t') = (S (length (printed t)) + length new)%nat) by (rewrite N1, app_length, L1; reflexivity).
  constructor.
  - exact J1.
  - rewrite J2, E1. reflexivity.
  - rewrite J3. exact T1s.
  - intros j Hj. rewrite (J4 j Hj), E1. cbn. unfold omap_put. destruct (Z.eqb_spec j e); [contradiction|reflexivity].
  - intros; contradiction.
  - intros _. destruct (Z.eq_dec (data - packet_size t) 0) as [Y|Y].
    + rewrite (J5 Y). split; [|lia]. rewrite E1. cbn. unfold omap_put. rewrite Z.eqb_refl. f_equal. lia.
    + destruct (J6 Y) as [A B]. split; [exact A|lia].
  - exists (l :: new). split; [rewrite N1, P1, <- app_assoc; reflexivity|]. split; [intros x [<-|Hx]; [cbn; auto|auto]|].
    intros k Hk.
    assert (FIRST : precedes (printed t') (Z.to_nat previous) (length (printed t))).
    { apply precedes_one. exists l. split.
      - rewrite N1. apply nth_error_app_l. rewrite P1, nth_error_app2, Nat.sub_diag by lia. reflexivity.
      - cbn [l l_deps]. apply in_or_app. right. left. unfold used in Hp. lia. }
    assert (AT : Z.to_nat (packets t) = length (printed t)) by lia.
    destruct (Nat.eq_dec k (length (printed t))) as [->|Nk].
    + split; [right; exact FIRST|]. destruct new as [|n0 new'] eqn:En; [left; cbn in L2; lia|]. right.
      rewrite <- AT. destruct (N3 (length (printed t') - 1)%nat) as [[A|A] _]; [rewrite L1, L2; cbn [length]; lia| |exact A].
      exfalso. cbn [length] in L2. lia.
    + destruct (N3 k) as [A B]; [lia|]. split; [|exact B]. right. rewrite AT in A. destruct A as [A|A]; [lia|]. eapply precedes_trans; eauto.
  - intros Hs Hn (q & Hq). rewrite T1s, K1 in J8.
    assert (0 < q) by (clear - D Hq Hs Hn; nia).
    assert (0 <= data - packet_size t) by (clear - H Hq Hs; nia).
    rewrite J8; [|exact Hs|assumption|exists (q - 1); lia].
    replace data with ((data - packet_size t) + 1 * packet_size t) at 2 by lia. rewrite Z.div_add by lia. lia.
Qed.

(** ** All the channels of a task *)
Record sent_all (g : graph) (v : vertex) (es : list edge) (compute : Z) (t t' : trace) : Prop := {
  a_inv : tinv t';
  a_compute : last_compute t' = last_compute t;
  a_other : forall j, ~ In j (map e_id es) -> last_packet t' j = last_packet t j;
  a_some : forall j p, last_packet t' j = Some p -> (exists p', last_packet t j = Some p') \/ In j (map e_id es);
  a_new : exists new, printed t' = printed t ++ new;
  a_lines : forall k l, nth_error (printed t') k = Some l -> (length (printed t) <= k)%nat ->
     exists c, In c es /\ l_src l = v_id v /\ id_of g (e_dst c) = Ok (l_dst l) /\
       (k = Z.to_nat compute \/ precedes (printed t') (Z.to_nat compute) k) /\
       exists p, last_packet t' (e_id c) = Some p /\ (k = Z.to_nat p \/ precedes (printed t') k (Z.to_nat p)) }.

Lemma send_all_spec fuel g v deps compute : forall es t t', NoDup (map e_id es) -> tinv t -> (forall d, In d deps -> used t d) -> used t compute ->
  send_all fuel g v deps compute es t = Ok t' -> sent_all g v es compute t t'.
Proof.
  induction es as [|c es IH]; intros t t' ND I Hd Hc E; cbn [send_all] in E.
  - injection E as <-. constructor; auto; [intros j p H; left; eauto|exists []; rewrite app_nil_r; reflexivity|].
    intros k l H1 H2. exfalso. assert (k < length (printed t))%nat by (apply nth_error_Some; congruence). lia.
  - destruct (id_of g (e_dst c)) as [dst| | |] eqn:Id; try discriminate. cbn [bind] in E.
    set (t0 := mkTrace (last_packet t) (last_compute t) (packets t) (if packet_size t =? 0 then edge_in_total c else packet_size t) (printed t)) in *.
    destruct (send _ _ _ _ _ _ _ t0) as [t1| | |] eqn:Sd; try discriminate. cbn [bind] in E.
    assert (I0 : tinv t0) by (destruct I; constructor; assumption).
    pose proof (send_spec _ _ _ _ _ _ _ _ _ I0 Hd Hc Sd) as [J1 J2 J3 J4 J5 J6 (new & N1 & N2 & N3) J8].
    cbn [map] in ND. inversion ND as [|? ? Hni ND']; subst.
    assert (GE : packets t <= packets t1).
    { destruct (Z.eq_dec (edge_in_total c) 0) as [Z0|Z0]; [rewrite (J5 Z0); cbn; lia|]. destruct (J6 Z0) as [_ L]. cbn in L. lia. }
    assert (U : forall d, used t d -> used t1 d) by (intros d [A B]; split; lia).
    pose proof (IH t1 t' ND' J1 (fun d H => U d (Hd d H)) (U _ Hc) E) as [A1 A2 A3 A4 (new2 & A5) A6].
    cbn [printed t0] in N1.
    constructor.
    + exact A1.
    + rewrite A2, J2. reflexivity.
    + intros j Hj. cbn [map In] in Hj. rewrite A3 by tauto. rewrite J4 by (intros ->; tauto). reflexivity.
    + intros j p Hj. cbn [map In]. destruct (A4 j p Hj) as [(p' & H')|H']; [|tauto]. destruct (Z.eq_dec j (e_id c)) as [->|N]; [tauto|].
      rewrite (J4 j N) in H'. left. exists p'. exact H'.
    + exists (new ++ new2). rewrite A5, N1, app_assoc. reflexivity.
    + intros k l Hk Lk. destruct (Nat.lt_ge_cases k (length (printed t1))) as [K|K].
      * exists c. split; [left; reflexivity|].
        assert (El : nth_error (printed t1) k = Some l) by (rewrite A5, nth_error_app1 in Hk by exact K; exact Hk).
        assert (In l new) as Hin by (rewrite N1, nth_error_app2 in El by exact Lk; eapply nth_error_In; eauto).
        destruct (N2 l Hin) as (S1 & S2 & _). split; [exact S1|]. split; [rewrite S2; exact Id|].
        destruct (N3 k) as [B1 B2]; [cbn [printed t0]; lia|].
        split; [rewrite A5; destruct B1 as [B1|B1]; [left; auto|right; apply precedes_app; exact B1]|].
        assert (Z0 : edge_in_total c <> 0).
        { intros Z0. rewrite (J5 Z0) in K. cbn [printed t0] in K. lia. }
        destruct (J6 Z0) as [B3 _]. exists (packets t1 - 1). rewrite A3 by exact Hni. split; [exact B3|].
        pose proof (t_count _ J1) as C1. replace (Z.to_nat (packets t1 - 1)) with (length (printed t1) - 1)%nat by lia.
        rewrite A5. destruct B2 as [B2|B2]; [left; exact B2|right; apply precedes_app; exact B2].
      * destruct (A6 k l Hk K) as (c' & Hc' & R). exists c'. split; [right; exact Hc'|exact R].
Qed.

(** How many lines, for a packet size that divides all rates. *)
Definition size_ok (g : graph) (size : Z) (t : trace) : Prop :=
  packet_size t = size \/ packet_size t = 0 /\ forall c, In c (edges g) -> edge_in_total c = size.

Lemma send_all_count fuel g v deps compute size : 0 < size -> forall es t t', incl es (edges g) ->
  (forall c, In c es -> 0 < edge_in_total c /\ (size | edge_in_total c)) ->
  NoDup (map e_id es) -> tinv t -> (forall d, In d deps -> used t d) -> used t compute -> size_ok g size t ->
  send_all fuel g v deps compute es t = Ok t' ->
  size_ok g size t' /\ packets t' = packets t + sumZ (map (fun c => edge_in_total c / size) es).
Proof.
  intros Hs. induction es as [|c es IH]; intros t t' Hi Hr ND I Hd Hc Sz E; cbn [send_all] in E.
  - injection E as <-. cbn. split; [exact Sz|lia].
  - destruct (id_of g (e_dst c)) as [dst| | |] eqn:Id; try discriminate. cbn [bind] in E.
    set (t0 := mkTrace (last_packet t) (last_compute t) (packets t) (if packet_size t =? 0 then edge_in_total c else packet_size t) (printed t)) in *.
    destruct (send _ _ _ _ _ _ _ t0) as [t1| | |] eqn:Sd; try discriminate. cbn [bind] in E.
    assert (I0 : tinv t0) by (destruct I; constructor; assumption).
    pose proof (send_spec _ _ _ _ _ _ _ _ _ I0 Hd Hc Sd) as [J1 J2 J3 J4 J5 J6 _ J8].
    cbn [map] in ND. inversion ND as [|? ? Hni ND']; subst.
    destruct (Hr c (or_introl eq_refl)) as [R1 R2].
    assert (E0 : packet_size t0 = size).
    { cbn. destruct (Z.eqb_spec (packet_size t) 0) as [Y|Y]; destruct Sz as [Sz|[Sz Al]]; try lia. apply Al. apply Hi. left. reflexivity. }
    assert (GE : packets t <= packets t1) by (destruct (J6 ltac:(lia)) as [_ L]; cbn in L; lia).
    assert (U : forall d, used t d -> used t1 d) by (intros d [A B]; split; lia).
    destruct (IH t1 t') as [B1 B2]; auto.
    + intros x Hx. apply Hi. right. exact Hx.
    + intros x Hx. apply Hr. right. exact Hx.
    + left. rewrite J3. exact E0.
    + split; [exact B1|]. rewrite B2, J8 by (rewrite ?E0; lia || assumption). rewrite E0. cbn [packets t0 map sumZ fold_right]. unfold sumZ. lia.
Qed.

Lemma send_total : forall fuel e src dst deps data previous t, 0 < src -> 0 < dst -> 0 < packet_size t -> 0 <= data -> (packet_size t | data) ->
  data <= Z.of_nat fuel -> exists t', send fuel e src dst deps data previous t = Ok t'.
Proof.
  induction fuel as [|fuel IH]; intros e src dst deps data previous t S1 S2 Hs Hd (q & Hq) Hf; cbn [send].
  - replace (data =? 0) with true by (symmetry; apply Z.eqb_eq; lia). eauto.
  - destruct (Z.eqb_spec data 0) as [|N]; [eauto|].
    destruct (print_line_total (mkLine src dst 0 (packets t) (deps ++ [previous])) (mkTrace (omap_put (last_packet t) e (packets t)) (last_compute t) (packets t + 1) (packet_size t) (printed t)) S1 S2) as (t1 & E1).
    rewrite E1. cbn [bind]. apply print_line_ok in E1. destruct E1 as (_ & _ & E1).
    assert (packet_size t1 = packet_size t) by (rewrite E1; reflexivity).
    assert (0 < q) by (clear - N Hq Hs Hd; nia).
    apply IH; rewrite ?H; auto; [clear - H0 Hq Hs; nia|exists (q - 1); lia|lia].
Qed.

Lemma send_all_total fuel g v deps compute size : 0 < size -> 0 < v_id v -> forall es t, incl es (edges g) ->
  (forall c, In c es -> 0 < edge_in_total c <= Z.of_nat fuel /\ (size | edge_in_total c) /\ exists d, id_of g (e_dst c) = Ok d /\ 0 < d) ->
  NoDup (map e_id es) -> tinv t -> (forall d, In d deps -> used t d) -> used t compute -> size_ok g size t ->
  exists t', send_all fuel g v deps compute es t = Ok t'.
Proof.
  intros Hs Hv. induction es as [|c es IH]; intros t Hi Hr ND I Hd Hc Sz; cbn [send_all]; [eauto|].
  destruct (Hr c (or_introl eq_refl)) as (R1 & R2 & d & Ed & Pd). rewrite Ed. cbn [bind].
  set (t0 := mkTrace (last_packet t) (last_compute t) (packets t) (if packet_size t =? 0 then edge_in_total c else packet_size t) (printed t)) in *.
  assert (I0 : tinv t0) by (destruct I; constructor; assumption).
  assert (E0 : packet_size t0 = size).
  { cbn. destruct (Z.eqb_spec (packet_size t) 0) as [Y|Y]; destruct Sz as [Sz|[Sz Al]]; try lia. apply Al. apply Hi. left. reflexivity. }
  destruct (send_total fuel (e_id c) (v_id v) d deps (edge_in_total c) compute t0) as (t1 & E1); rewrite ?E0; auto; try lia.
  rewrite E1. cbn [bind].
  pose proof (send_spec _ _ _ _ _ _ _ _ _ I0 Hd Hc E1) as [J1 J2 J3 J4 J5 J6 _ J8].
  cbn [map] in ND. inversion ND as [|? ? Hni ND']; subst.
  assert (GE : packets t <= packets t1) by (destruct (J6 ltac:(lia)) as [_ L]; cbn in L; lia).
  assert (U : forall d, used t d -> used t1 d) by (intros x [A B]; split; lia).
  apply IH; auto.
  - intros x Hx. apply Hi. right. exact Hx.
  - intros x Hx. apply Hr. right. exact Hx.
  - left. exact J3.
Qed.
