(** Theorems on the TDMA schedule of packets (C150 to C153). *)
From Coq Require Import ZifyBool ZifyNat.
From Verif Require Import Base Noc Tdma TdmaSpec TdmaProofs.
Open Scope Z_scope.

Lemma packet_vget : forall packets i p, is_packet packets i p <-> vget packets i = Ok p.
Proof. intros packets i p. unfold is_packet. rewrite vget_ok. reflexivity. Qed.

Section Use.
Variables (rows cols total : Z) (packets : list packet) (lines : list (Z * Z * Z)) (table : list Z).
Hypothesis U : usable rows cols total packets lines.
Hypothesis F : fill_table rows cols lines (no_slots rows cols) = Ok table.
Lemma use_table : forall s d, 0 <= s < rows * cols -> 0 <= d < rows * cols ->
  vget table (table_index rows cols s d) = Ok (match pair_slot lines s d with Some v => v | None => -1 end).
Proof.
  intros s d Hs Hd. destruct (fill_lookup _ _ _ _ _ (u_lines _ _ _ _ _ U) F) as [_ H].
  apply (H s d None Hs Hd). apply no_slots_lookup; assumption.
Qed.
Lemma use_length : length table = Z.to_nat (rows * cols * (rows * cols)).
Proof.
  destruct (fill_lookup _ _ _ _ _ (u_lines _ _ _ _ _ U) F) as [H _]. rewrite H. apply repeat_length.
Qed.
Lemma use_routers : forall i p, vget packets i = Ok p -> 0 <= pk_src p < rows * cols /\ 0 <= pk_dest p < rows * cols.
Proof. intros i p H. apply packet_vget in H. apply (u_routers _ _ _ _ _ U i p H). Qed.
Lemma use_dur : forall i p, vget packets i = Ok p -> 0 <= pk_duration p.
Proof. intros i p H. apply packet_vget in H. apply (u_durations _ _ _ _ _ U i p H). Qed.
Lemma use_deps : forall i p d, vget packets i = Ok p -> In d (pk_deps p) -> exists q, vget packets d = Ok q.
Proof.
  intros i p d H Hd. apply packet_vget in H. destruct (u_deps _ _ _ _ _ U i p d H Hd) as (q & Hq). exists q. apply packet_vget, Hq.
Qed.
Lemma use_slots : forall i p, vget packets i = Ok p -> pk_src p <> pk_dest p ->
  exists v, vget table (table_index rows cols (pk_src p) (pk_dest p)) = Ok v /\ 0 <= v < total.
Proof.
  intros i p H Hn. destruct (use_routers i p H) as [R1 R2]. apply packet_vget in H.
  destruct (u_slots _ _ _ _ _ U i p H Hn) as (v & E & Hv). exists v. split; [|exact Hv]. rewrite use_table by assumption. rewrite E. reflexivity.
Qed.
End Use.

Section Final.
Variables (rows cols total : Z) (packets : list packet) (lines : list (Z * Z * Z)) (k : Z) (fuel : nat) (s : tdma).
Hypothesis U : usable rows cols total packets lines.
Hypothesis Hk : k = 1 \/ (k = 0 /\ numbered packets).
Hypothesis R : tdma_schedule fuel rows cols total packets lines = Ok s.
Lemma final_inv : exists table, fill_table rows cols lines (no_slots rows cols) = Ok table /\ inv rows cols total packets table k s /\ t_queue s = [] /\ t_errors s = 0.
Proof.
  unfold tdma_schedule in R. destruct (fill_table rows cols lines (no_slots rows cols)) as [table| | |] eqn:F; try discriminate.
  cbn [bind] in R. exists table. split; [reflexivity|].
  assert (Hk' : k = 1 \/ (k = 0 /\ forall i p d, vget packets i = Ok p -> In d (pk_deps p) -> d < i)).
  { destruct Hk as [H|[H N]]; [left; exact H | right]. split; [exact H|]. intros i p d Hp. apply (N i p d). apply packet_vget, Hp. }
  apply (run_inv rows cols total packets table k (u_rows _ _ _ _ _ U) (u_cols _ _ _ _ _ U) (u_total _ _ _ _ _ U)
    (use_routers _ _ _ _ _ U) (use_dur _ _ _ _ _ U) (use_deps _ _ _ _ _ U) (use_slots _ _ _ _ _ _ U F) (use_length _ _ _ _ _ _ U F) Hk' fuel _ _ (start_inv rows cols total packets table k (use_length _ _ _ _ _ _ U F)) R).
Qed.
Lemma final_sent : forall table, inv rows cols total packets table k s -> t_queue s = [] -> forall i p pr, times packets (t_profile s) i p pr -> vget packets i = Ok p /\ sent s i pr.
Proof.
  intros table I Q i p pr [Hp Hn]. apply packet_vget in Hp. split; [exact Hp|]. destruct (i_all _ _ _ _ _ _ _ I i p Hp) as [(c & b & H)|(pr' & A & B & C)].
  - rewrite Q in H. destruct H.
  - assert (E : vget (t_profile s) i = Ok pr) by (apply vget_ok; apply vget_in_range in Hp; split; [lia | exact Hn]).
    assert (pr' = pr) as -> by congruence. split; [exact A | split; assumption].
Qed.
Lemma sent_times : forall i q pr, vget packets i = Ok q -> sent s i pr -> times packets (t_profile s) i q pr.
Proof. intros i q pr Hq (A & _). apply vget_ok in A as [_ A]. split; [apply packet_vget, Hq | exact A]. Qed.
End Final.

Theorem C150_order : forall fuel rows cols total packets lines s, usable rows cols total packets lines ->
  tdma_schedule fuel rows cols total packets lines = Ok s ->
  in_order packets (t_profile s) /\ in_slot rows cols total packets lines (t_profile s).
Proof.
  intros fuel rows cols total packets lines s U R.
  destruct (final_inv _ _ _ _ _ 1 _ _ U (or_introl eq_refl) R) as (table & F & I & Q & _). split; intros i p pr Ht;
    destruct (final_sent _ _ _ _ _ _ table I Q i p pr Ht) as [Hp Hs];
    destruct (i_sent _ _ _ _ _ _ _ I i p pr Hp Hs) as ((A1 & A2 & _) & B & C & D & E).
  - split; [exact A1|]. split; [|split; assumption]. intros d q prd Hd Hq.
    destruct (final_sent _ _ _ _ _ _ table I Q d q prd Hq) as [_ (_ & Hs2 & _)]. destruct (A2 d Hd) as (v & Ev & Hv). rewrite Ev in Hs2. injection Hs2 as <-. lia.
  - split; [exact D|]. intro Hn. destruct (E Hn) as (E1 & _ & E3 & _). split; [|exact E3].
    destruct (use_routers _ _ _ _ _ U i p Hp) as [R1 R2]. rewrite (use_table _ _ _ _ _ _ U F) in E1 by assumption.
    destruct (u_slots _ _ _ _ _ U i p (proj2 (packet_vget _ _ _) Hp) Hn) as (v & Ev & _). rewrite Ev in E1 |- *. congruence.
Qed.
Print Assumptions C150_order.

Theorem C150_exclusive : forall fuel rows cols total packets lines s, usable rows cols total packets lines ->
  tdma_schedule fuel rows cols total packets lines = Ok s ->
  exclusive packets (t_profile s) /\ no_slot_lost total packets lines (t_profile s).
Proof.
  intros fuel rows cols total packets lines s U R.
  destruct (final_inv _ _ _ _ _ 1 _ _ U (or_introl eq_refl) R) as (table & F & I & Q & _). split.
  - intros i j p q pri prj Hi Hj. destruct (final_sent _ _ _ _ _ _ table I Q i p pri Hi) as [Hp Hsi]. destruct (final_sent _ _ _ _ _ _ table I Q j q prj Hj) as [Hq Hsj].
    apply (i_unique _ _ _ _ _ _ _ I i j p q pri prj Hp Hq Hsi Hsj).
  - intros i p pr c Ht Hn Hc Es. destruct (final_sent _ _ _ _ _ _ table I Q i p pr Ht) as [Hp Hs].
    destruct (i_sent _ _ _ _ _ _ _ I i p pr Hp Hs) as (_ & _ & _ & _ & E). destruct (E Hn) as (_ & T & _).
    destruct (use_routers _ _ _ _ _ U i p Hp) as [R1 R2].
    destruct (T c Hc) as (j & q & prj & J1 & J2 & J3 & J4 & J5).
    { rewrite (use_table _ _ _ _ _ _ U F) by assumption. rewrite Es. reflexivity. }
    exists j, q, prj. split; [apply (sent_times _ _ j q prj J1 J4)|]. split; [|auto]. intros ->. destruct Hs as (S1 & _). destruct J4 as (S2 & _).
    rewrite S1 in S2. injection S2 as <-. lia.
Qed.
Print Assumptions C150_exclusive.

Lemma prompt_of : forall k fuel rows cols total packets lines s, usable rows cols total packets lines -> k = 1 \/ (k = 0 /\ numbered packets) ->
  tdma_schedule fuel rows cols total packets lines = Ok s -> prompt k packets (t_profile s).
Proof.
  intros k fuel rows cols total packets lines s U Hk R. destruct (final_inv _ _ _ _ _ k _ _ U Hk R) as (table & F & I & Q & _).
  intros i p pr Ht. destruct (final_sent _ _ _ _ _ _ table I Q i p pr Ht) as [Hp Hs].
  destruct (i_sent _ _ _ _ _ _ _ I i p pr Hp Hs) as ((_ & _ & L) & _). destruct L as [L|(d & Hd & [(c & b & H & _)|(v & Ev & Hv0 & Hv)])]; [left; exact L| |].
  - rewrite Q in H. destruct H.
  - right. destruct (use_deps _ _ _ _ _ U i p d Hp Hd) as (q & Hq). destruct (i_all _ _ _ _ _ _ _ I d q Hq) as [(c & b & H)|(prd & S)]; [rewrite Q in H; destruct H|].
    exists d, q, prd. split; [exact Hd|]. split; [apply (sent_times _ _ d q prd Hq S)|]. destruct S as (_ & S & _). rewrite Ev in S. injection S as ->. lia.
Qed.
Theorem C151_prompt : forall fuel rows cols total packets lines s, usable rows cols total packets lines ->
  tdma_schedule fuel rows cols total packets lines = Ok s ->
  prompt 1 packets (t_profile s) /\ (numbered packets -> prompt 0 packets (t_profile s)) /\ t_errors s = 0.
Proof.
  intros fuel rows cols total packets lines s U R. split; [|split].
  - apply (prompt_of 1 _ _ _ _ _ _ _ U (or_introl eq_refl) R).
  - intro N. apply (prompt_of 0 _ _ _ _ _ _ _ U (or_intror (conj eq_refl N)) R).
  - destruct (final_inv _ _ _ _ _ 1 _ _ U (or_introl eq_refl) R) as (table & _ & _ & _ & E). exact E.
Qed.
Print Assumptions C151_prompt.

Theorem C152_ends : forall rows cols total packets lines, usable rows cols total packets lines -> acyclic packets ->
  exists fuel s, tdma_schedule fuel rows cols total packets lines = Ok s /\ length (t_profile s) = length packets.
Proof.
  intros rows cols total packets lines U (rank & HR). destruct (fill_defined rows cols lines (no_slots rows cols) (u_lines _ _ _ _ _ U)) as (table & F); [apply repeat_length|].
  destruct (loop_ends rows cols total packets table 1 (u_rows _ _ _ _ _ U) (u_cols _ _ _ _ _ U) (u_total _ _ _ _ _ U)
    (use_routers _ _ _ _ _ U) (use_dur _ _ _ _ _ U) (use_deps _ _ _ _ _ U) (use_slots _ _ _ _ _ _ U F) (use_length _ _ _ _ _ _ U F) (or_introl eq_refl) rank) with (n := S (length (t_queue (tdma_start rows cols packets)))) (s := tdma_start rows cols packets) as (fuel & s & E).
  - intros i p d Hp. apply HR, packet_vget, Hp.
  - apply start_inv, (use_length _ _ _ _ _ _ U F).
  - lia.
  - assert (R : tdma_schedule fuel rows cols total packets lines = Ok s) by (unfold tdma_schedule; rewrite F; exact E).
    exists fuel, s. split; [exact R|]. destruct (final_inv _ _ _ _ _ 1 _ _ U (or_introl eq_refl) R) as (table' & _ & I & _). apply (i_len_prof _ _ _ _ _ _ _ I).
Qed.
Print Assumptions C152_ends.

(** * Runs that never end *)
Lemma handle_other : forall rows cols total packets table c i b q done lock prof err s' ,
  handle rows cols total packets table (c, i, b) (mkTdma q done lock prof err) = Ok s' ->
  (forall e, In e q -> In e (t_queue s')) /\ (forall j, j <> i -> vget (t_done s') j = vget done j).
Proof.
  intros rows cols total packets table c i b q done lock prof err s' H. unfold handle in H. cbn [t_queue t_done t_lock t_profile t_errors] in H.
  destruct (vget packets i) as [p| | |]; try discriminate. cbn [bind] in H.
  destruct (deps_done (pk_deps p) done c) as [ready| | |]; try discriminate. cbn [bind] in H.
  destruct ready; cbn [negb] in H.
  2:{ injection H as <-. split; [intros e He; apply push_in; right; exact He | reflexivity]. }
  destruct (vget prof i) as [pr| | |]; try discriminate. cbn [bind] in H.
  destruct b; cbn [negb] in H.
  2:{ destruct (vset prof i _) as [x| | |]; try discriminate. injection H as <-. split; [intros e He; apply push_in; right; exact He | reflexivity]. }
  destruct (cmod c total) as [cur| | |]; try discriminate. cbn [bind] in H.
  destruct (pk_src p =? pk_dest p).
  { destruct (vset done i c) as [d'| | |] eqn:Ed; try discriminate. cbn [bind] in H. destruct (vset prof i _) as [x| | |]; try discriminate. injection H as <-.
    apply vset_ok in Ed as (_ & _ & G). split; [auto|]. intros j Hj. cbn. rewrite G. destruct (Z.eqb_spec i j); congruence. }
  destruct (vget table _) as [mine| | |]; try discriminate. cbn [bind] in H. destruct (cur =? mine).
  - destruct (vget lock _) as [L| | |]; try discriminate. cbn [bind] in H. destruct (c =? L).
    + destruct (vset prof i _) as [x| | |]; try discriminate. injection H as <-. split; [intros e He; apply push_in; right; exact He | reflexivity].
    + destruct (vset lock _ c) as [l'| | |]; try discriminate. cbn [bind] in H. destruct (get_distance _ _ rows cols) as [dist| | |]; try discriminate. cbn [bind] in H.
      destruct (vset done i _) as [d'| | |] eqn:Ed; try discriminate. cbn [bind] in H. destruct (vset prof i _) as [x| | |]; try discriminate. injection H as <-.
      apply vset_ok in Ed as (_ & _ & G). split; [auto|]. intros j Hj. cbn. rewrite G. destruct (Z.eqb_spec i j); congruence.
  - destruct (pr_slot pr =? -1); (destruct (vset prof i _) as [x| | |]; try discriminate; injection H as <-; split; [intros e He; apply push_in; right; exact He | reflexivity]).
Qed.

(** A packet whose pair has no slot of the cycle stays in the heap. *)
Lemma unslotted_step : forall rows cols total packets table i p v, 0 < total -> vget packets i = Ok p -> 0 <= pk_duration p -> pk_src p <> pk_dest p ->
  vget table (table_index rows cols (pk_src p) (pk_dest p)) = Ok v -> ~ 0 <= v < total ->
  forall e q done lock prof err s', (exists c b, In (c, i, b) (e :: q) /\ (0 <= c \/ v < - total)) ->
  handle rows cols total packets table e (mkTdma q done lock prof err) = Ok s' ->
  exists c b, In (c, i, b) (t_queue s') /\ (0 <= c \/ v < - total).
Proof.
  intros rows cols total packets table i p v Ht Hp Hd Hn Hv Hr [[c0 i0] b0] q done lock prof err s' (c & b & [E|Hin] & Hc) H.
  2:{ exists c, b. split; [|exact Hc]. apply handle_other in H as [H _]. apply H, Hin. }
  injection E as -> -> ->. unfold handle in H. cbn [t_queue t_done t_lock t_profile t_errors] in H. rewrite Hp in H. cbn [bind] in H.
  destruct (deps_done (pk_deps p) done c) as [ready| | |]; try discriminate. cbn [bind] in H.
  destruct ready; cbn [negb] in H.
  2:{ injection H as <-. exists (c + 1), b. split; [apply push_in; left; reflexivity | lia]. }
  destruct (vget prof i) as [pr| | |]; try discriminate. cbn [bind] in H.
  destruct b; cbn [negb] in H.
  2:{ destruct (vset prof i _) as [x| | |]; try discriminate. injection H as <-. eexists _, true. split; [apply push_in; left; reflexivity | lia]. }
  unfold cmod in H. destruct (Z.eqb_spec total 0); [lia|]. cbn [bind] in H. destruct (Z.eqb_spec (pk_src p) (pk_dest p)); [contradiction|].
  rewrite Hv in H. cbn [bind] in H. destruct (Z.eqb_spec (Z.rem c total) v) as [Er|_].
  { exfalso. destruct Hc as [Hc|Hc]; [pose proof (Z.rem_bound_pos c total Hc Ht); lia|]. pose proof (Z.rem_bound_abs c total ltac:(lia)). lia. }
  destruct (pr_slot pr =? -1).
  - destruct (vset prof i _) as [x| | |]; try discriminate. injection H as <-. eexists _, true. split; [apply push_in; left; reflexivity|].
    destruct Hc as [Hc|Hc]; [|right; exact Hc]. destruct (Z_lt_le_dec v (- total)); [right; assumption | left]. unfold event_cycle.
    pose proof (Z.rem_bound_pos c total Hc Ht). pose proof (Z.rem_le c total Hc Ht). destruct (Z.geb_spec v (Z.rem c total)); lia.
  - destruct (vset prof i _) as [x| | |]; try discriminate. injection H as <-. exists (c + 1), true. split; [apply push_in; left; reflexivity | lia].
Qed.
Theorem C152_unslotted : forall fuel rows cols total packets lines s i p,
  (forall s d v, In (s, d, v) lines -> 0 <= s < rows * cols /\ 0 <= d < rows * cols) -> 0 < total ->
  is_packet packets i p -> 0 <= pk_src p < rows * cols -> 0 <= pk_dest p < rows * cols -> 0 <= pk_duration p -> pk_src p <> pk_dest p ->
  (forall v, pair_slot lines (pk_src p) (pk_dest p) = Some v -> ~ 0 <= v < total) ->
  tdma_schedule fuel rows cols total packets lines <> Ok s.
Proof.
  intros fuel rows cols total packets lines s i p HL Ht Hp Hs Hd Hdu Hn Hv R. apply packet_vget in Hp.
  unfold tdma_schedule in R. destruct (fill_table rows cols lines (no_slots rows cols)) as [table| | |] eqn:F; try discriminate. cbn [bind] in R.
  destruct (fill_lookup _ _ _ _ _ HL F) as [_ Ev]. specialize (Ev (pk_src p) (pk_dest p) None Hs Hd (no_slots_lookup _ _ _ _ Hs Hd)). fold (pair_slot lines (pk_src p) (pk_dest p)) in Ev.
  set (v := match pair_slot lines (pk_src p) (pk_dest p) with Some v => v | None => -1 end) in *.
  assert (Hr : ~ 0 <= v < total) by (unfold v; destruct (pair_slot lines (pk_src p) (pk_dest p)); [apply Hv; reflexivity | lia]).
  assert (G : exists c b, In (c, i, b) (t_queue (tdma_start rows cols packets)) /\ (0 <= c \/ v < - total)).
  { exists 0, false. split; [|lia]. cbn. apply start_queue. apply vget_in_range in Hp. auto. }
  revert R G. generalize (tdma_start rows cols packets). induction fuel as [|f IH]; intros [q done lock prof err] R G; destruct q as [|e q]; cbn [run t_queue] in R; try discriminate.
  - destruct G as (c & b & [] & _).
  - destruct G as (c & b & [] & _).
  - cbn [t_done t_lock t_profile t_errors] in R. destruct (handle rows cols total packets table e (mkTdma q done lock prof err)) as [s1| | |] eqn:E; try discriminate.
    cbn [bind] in R. apply (IH s1 R). apply (unslotted_step rows cols total packets table i p v Ht Hp Hdu Hn Ev Hr e q done lock prof err s1 G E).
Qed.
Print Assumptions C152_unslotted.

Lemma deps_wait : forall deps done c d, In d deps -> vget done d = Ok (-1) -> deps_done deps done c <> Ok true.
Proof.
  intros deps done c d. induction deps as [|x l IH]; intros Hin0 H; [destruct Hin0|]; destruct Hin0 as [<-|Hin]; cbn [deps_done].
  - rewrite H. cbn. discriminate.
  - destruct (vget done x) as [v| | |]; try discriminate. cbn [bind]. destruct (v =? -1); [discriminate|]. destruct (v >? c); [discriminate|]. apply IH; assumption.
Qed.
Theorem C152_deadlock : forall fuel rows cols total packets lines s (S : Z -> Prop) i, deadlocked packets S -> S i ->
  tdma_schedule fuel rows cols total packets lines <> Ok s.
Proof.
  intros fuel rows cols total packets lines s W i HW Hi R.
  unfold tdma_schedule in R. destruct (fill_table rows cols lines (no_slots rows cols)) as [table| | |]; try discriminate. cbn [bind] in R.
  assert (G : forall j, W j -> vget (t_done (tdma_start rows cols packets)) j = Ok (-1) /\ exists c b, In (c, j, b) (t_queue (tdma_start rows cols packets))).
  { intros j Hj. destruct (HW j Hj) as (p & Hp & _). apply packet_vget, vget_in_range in Hp. split; [apply vget_repeat, Hp|]. exists 0, false. apply start_queue. auto. }
  revert R G. generalize (tdma_start rows cols packets). induction fuel as [|f IH]; intros [q done lock prof err] R G; destruct q as [|e q]; cbn [run t_queue] in R; try discriminate.
  - destruct (G i Hi) as (_ & c & b & []).
  - destruct (G i Hi) as (_ & c & b & []).
  - cbn [t_done t_lock t_profile t_errors] in R. destruct (handle rows cols total packets table e (mkTdma q done lock prof err)) as [s1| | |] eqn:E; try discriminate.
    cbn [bind] in R. apply (IH s1 R). intros j Hj. destruct (G j Hj) as (D & c & b & Hin). cbn [t_done t_queue] in *. destruct e as [[c0 i0] b0].
    destruct (handle_other _ _ _ _ _ _ _ _ _ _ _ _ _ _ E) as [Q1 Q2]. destruct (Z.eq_dec j i0) as [->|Hne].
    + destruct (HW i0 Hj) as (p & Hp & d & Hd & Wd). apply packet_vget in Hp. destruct (G d Wd) as [Dd _].
      unfold handle in E. cbn [t_queue t_done t_lock t_profile t_errors] in E. rewrite Hp in E. cbn [bind] in E.
      destruct (deps_done (pk_deps p) done c0) as [ready| | |] eqn:Er; try discriminate. cbn [bind] in E.
      destruct ready; [destruct (deps_wait _ _ _ _ Hd Dd Er)|]. cbn [negb] in E. injection E as <-. cbn [t_done t_queue]. split; [exact D|].
      exists (c0 + 1), b0. apply push_in. left. reflexivity.
    + rewrite (Q2 j Hne). split; [exact D|]. destruct Hin as [Eq|Hin]; [injection Eq; congruence|]. exists c, b. apply Q1, Hin.
Qed.
Print Assumptions C152_deadlock.

(** * The report *)
Lemma report_app : forall h l1 l2 id r, tdma_report h (l1 ++ l2) id r = do r' <- tdma_report h l1 id r; tdma_report h l2 (id + Z.of_nat (length l1)) r'.
Proof.
  intros h l1. induction l1 as [|pr l1 IH]; intros l2 id r.
  - cbn [app tdma_report bind length]. rewrite Z.add_0_r. reflexivity.
  - cbn [app tdma_report length]. destruct (cmod id h) as [a| | |]; try reflexivity. cbn [bind]. destruct (cmod (id + 1) h) as [b| | |]; try reflexivity. cbn [bind].
    rewrite IH. replace (id + 1 + Z.of_nat (length l1)) with (id + Z.of_nat (S (length l1))) by lia. reflexivity.
Qed.
Lemma data_old : forall l x j, (j < length l)%nat -> data_of (l ++ [x]) j = data_of l j.
Proof. intros l x j H. unfold data_of. rewrite nth_error_app1 by exact H. reflexivity. Qed.
Lemma data_new : forall l x, data_of (l ++ [x]) (length l) = pr_data x.
Proof. intros l x. unfold data_of. rewrite nth_error_app2 by lia. rewrite Nat.sub_diag. reflexivity. Qed.
Lemma sum_old : forall h l x m, (0 < h)%nat -> (m * h <= length l)%nat -> sum_exec h (l ++ [x]) m = sum_exec h l m.
Proof.
  intros h l x m Hh H. unfold sum_exec. f_equal. apply map_ext_in. intros k Hk. apply in_seq in Hk.
  assert (k * h + h <= m * h)%nat by nia. rewrite !data_old by nia. reflexivity.
Qed.
Lemma sum_next : forall h l m, sum_exec h l (S m) = sum_exec h l m + (data_of l (m * h + (h - 1)) - data_of l (m * h)).
Proof.
  intros h l m. unfold sum_exec. rewrite seq_S, map_app. cbn [map]. rewrite Nat.add_0_l.
  generalize (data_of l (m * h + (h - 1)) - data_of l (m * h)). intro z. induction (map _ (seq 0 m)) as [|y ys IH]; cbn [app fold_right]; [lia|].
  rewrite IH. lia.
Qed.
Definition reported (h : nat) (l : list profile) (r : report) : Prop :=
  r_iterations r = iterations h l /\ r_exec r = sum_exec h l (length l / h) /\
  r_throughput r = last_arrival h l /\ r_end r = last_arrival h l /\
  (length l mod h <> 0 -> r_start r = data_of l (length l / h * h))%nat.
Lemma reported_all : forall h l, (0 < h)%nat -> exists r, tdma_report (Z.of_nat h) l 0 (mkReport 0 0 0 0 0) = Ok r /\ reported h l r.
Proof.
  intros h l Hh. induction l as [|x l (r & E & R1 & R2 & R3 & R4 & R5)] using rev_ind.
  - exists (mkReport 0 0 0 0 0). split; [reflexivity|]. unfold reported, iterations, last_arrival. cbn [length r_iterations r_exec r_throughput r_end r_start].
    rewrite Nat.div_0_l, Nat.mod_0_l by lia. split; [|repeat split; intros; reflexivity || lia].
    rewrite Nat.div_small by lia. reflexivity.
  - rewrite report_app, E. cbn [bind tdma_report]. unfold cmod. destruct (Z.eqb_spec (Z.of_nat h) 0) as [?|_]; [lia|]. cbn [bind]. rewrite Z.add_0_l.
    rewrite !Z.rem_mod_nonneg by lia. set (n := length l) in *.
    pose proof (Nat.div_mod n h ltac:(lia)) as D. pose proof (Nat.mod_upper_bound n h ltac:(lia)) as B. set (m := (n / h)%nat) in *. set (a := (n mod h)%nat) in *.
    assert (Za : Z.of_nat n mod Z.of_nat h = Z.of_nat a) by (unfold a; rewrite Nat2Z.inj_mod; reflexivity). rewrite Za.
    assert (Zb : (Z.of_nat n + 1) mod Z.of_nat h = if (S a =? h)%nat then 0 else Z.of_nat (S a)).
    { destruct (Nat.eqb_spec (S a) h).
      - symmetry. apply (Z.mod_unique _ _ (Z.of_nat m + 1)); [lia | nia].
      - symmetry. apply (Z.mod_unique _ _ (Z.of_nat m)); [lia | nia]. }
    rewrite Zb.
    assert (Ln : length (l ++ [x]) = S n) by (rewrite app_length; cbn; unfold n; lia).
    assert (Dn : ((S n) / h = if S a =? h then S m else m)%nat).
    { destruct (Nat.eqb_spec (S a) h); symmetry; [apply (Nat.div_unique _ _ _ 0); [lia|nia] | apply (Nat.div_unique _ _ _ (S a)); [lia|nia]]. }
    assert (It : iterations h (l ++ [x]) = Z.of_nat (S m)).
    { unfold iterations. rewrite Ln. f_equal. symmetry. apply (Nat.div_unique _ _ _ a); [lia|nia]. }
    assert (Io : iterations h l = Z.of_nat (if (a =? 0)%nat then m else S m)).
    { unfold iterations. fold n. f_equal. destruct (Nat.eqb_spec a 0); symmetry; [apply (Nat.div_unique _ _ _ (h - 1)); [lia|nia] | apply (Nat.div_unique _ _ _ (a - 1)); [lia|nia]]. }
    assert (St : forall y, y = (if Z.of_nat a =? 0 then pr_data x else r_start r) -> y = data_of (l ++ [x]) (m * h)).
    { intros y ->. destruct (Z.eqb_spec (Z.of_nat a) 0).
      - replace (m * h)%nat with n by nia. symmetry. apply data_new.
      - rewrite (R5 ltac:(lia)). rewrite data_old by nia. reflexivity. }
    destruct (Nat.eqb_spec (S a) h) as [Eh|Nh].
    + rewrite Z.eqb_refl. eexists. split; [reflexivity|]. unfold reported. cbn [r_iterations r_exec r_throughput r_end r_start]. rewrite Ln, Dn, It.
      assert (Last : data_of (l ++ [x]) (m * h + (h - 1)) = pr_data x).
      { replace (m * h + (h - 1))%nat with n by nia. apply data_new. }
      assert (LA : last_arrival h (l ++ [x]) = pr_data x) by (unfold last_arrival; rewrite Ln, Dn; exact Last). rewrite LA.
      split; [|split; [|split; [|split]]].
      * destruct (Z.eqb_spec (Z.of_nat a) 0); destruct (Nat.eqb_spec a 0); cbn [r_iterations]; lia.
      * rewrite sum_next, Last, sum_old by nia. rewrite <- (St _ eq_refl). destruct (Z.of_nat a =? 0); cbn [r_exec r_start]; rewrite R2; reflexivity.
      * destruct (Z.of_nat a =? 0); cbn [r_throughput r_end]; lia.
      * reflexivity.
      * intro Q. exfalso. apply Q. symmetry. apply (Nat.mod_unique _ _ (S m)); [lia|nia].
    + destruct (Z.eqb_spec (Z.of_nat (S a)) 0); [lia|]. eexists. split; [reflexivity|]. unfold reported. rewrite Ln, Dn, It.
      assert (LA : last_arrival h (l ++ [x]) = last_arrival h l).
      { unfold last_arrival. rewrite Ln, Dn. fold n. fold m. destruct m as [|m']; [reflexivity|]. apply data_old. fold n. nia. }
      rewrite LA. split; [|split; [|split; [|split]]].
      * destruct (Z.eqb_spec (Z.of_nat a) 0); destruct (Nat.eqb_spec a 0); cbn [r_iterations]; lia.
      * rewrite sum_old by (fold n; nia). destruct (Z.of_nat a =? 0); cbn [r_exec]; exact R2.
      * destruct (Z.of_nat a =? 0); cbn [r_throughput]; exact R3.
      * destruct (Z.of_nat a =? 0); cbn [r_end]; exact R4.
      * intros _. rewrite <- (St _ eq_refl). destruct (Z.of_nat a =? 0); reflexivity.
Qed.
Theorem C153_report : forall hyperperiod l, (0 < hyperperiod)%nat ->
  exists r, tdma_report (Z.of_nat hyperperiod) l 0 (mkReport 0 0 0 0 0) = Ok r /\
    r_throughput r = last_arrival hyperperiod l /\
    r_exec r = sum_exec hyperperiod l (length l / hyperperiod) /\
    r_iterations r = iterations hyperperiod l.
Proof.
  intros h l Hh. destruct (reported_all h l Hh) as (r & E & R1 & R2 & R3 & _). exists r. auto.
Qed.
Print Assumptions C153_report.
Theorem C153_zero_refuted : forall pr l r, tdma_report 0 (pr :: l) 0 r = Undefined.
Proof. reflexivity. Qed.
Print Assumptions C153_zero_refuted.

(** * Concrete cases *)
(** A 2 x 2 mesh, three slots: two packets of the pair (0, 3), one that depends on both, local, and
    one that depends on it. *)
Definition ex_packets : list packet := [mkPacket 0 3 2 []; mkPacket 0 3 2 []; mkPacket 3 3 1 [0; 1]; mkPacket 3 1 0 [2]].
Definition ex_lines : list (Z * Z * Z) := [(0, 3, 1); (3, 1, 2); (1, 0, 0)].
Example ex_usable : usable 2 2 3 ex_packets ex_lines.
Proof.
  assert (A : forall i p, is_packet ex_packets i p -> In (i, p) [(0, mkPacket 0 3 2 []); (1, mkPacket 0 3 2 []); (2, mkPacket 3 3 1 [0; 1]); (3, mkPacket 3 1 0 [2])]).
  { intros i p [H0 H]. assert (Z.to_nat i < 4)%nat by (change 4%nat with (length ex_packets); apply nth_error_Some; congruence).
    assert (i = 0 \/ i = 1 \/ i = 2 \/ i = 3) as [->|[->|[->| ->]]] by lia; injection H as <-; cbn; auto. }
  constructor; try lia.
  - intros s d v [E|[E|[E|[]]]]; injection E as <- <- <-; lia.
  - intros i p H. apply A in H as [E|[E|[E|[E|[]]]]]; injection E as <- <-; cbn; lia.
  - intros i p H. apply A in H as [E|[E|[E|[E|[]]]]]; injection E as <- <-; cbn; lia.
  - intros i p d H Hd. apply A in H as [E|[E|[E|[E|[]]]]]; injection E as <- <-; cbn in Hd; [destruct Hd|destruct Hd| |].
    + destruct Hd as [<-|[<-|[]]]; eexists; (split; [lia | reflexivity]).
    + destruct Hd as [<-|[]]; eexists; (split; [lia | reflexivity]).
  - intros i p H Hn. apply A in H as [E|[E|[E|[E|[]]]]]; injection E as <- <-; cbn in Hn; try congruence; eexists; (split; [reflexivity | lia]).
Qed.
Example ex_numbered : numbered ex_packets /\ acyclic ex_packets.
Proof.
  assert (N : numbered ex_packets).
  { intros i p d [H0 H] Hd. assert (Z.to_nat i < 4)%nat by (change 4%nat with (length ex_packets); apply nth_error_Some; congruence).
    assert (i = 0 \/ i = 1 \/ i = 2 \/ i = 3) as [->|[->|[->| ->]]] by lia; injection H as <-; cbn in Hd; intuition lia. }
  split; [exact N|]. exists Z.to_nat. intros i p d Hp Hd. pose proof (N i p d Hp Hd) as L. destruct Hp as [H0 Hp].
  assert (0 <= d). { destruct (u_deps _ _ _ _ _ ex_usable i p d (conj H0 Hp) Hd) as (q & Hq & _). exact Hq. } lia.
Qed.
(** Both packets are computed at cycle 2 and slot 1 comes at cycles 4 and 7. *)
Example ex_run : exists s, tdma_schedule 100 2 2 3 ex_packets ex_lines = Ok s /\
  t_profile s = [mkProfile 0 2 4 7; mkProfile 0 2 7 10; mkProfile 10 11 11 11; mkProfile 11 11 11 13] /\
  tdma_report 2 (t_profile s) 0 (mkReport 0 0 0 0 0) = Ok (mkReport 2 11 13 5 13).
Proof. eexists. split; [vm_compute; reflexivity|]. split; vm_compute; reflexivity. Qed.
(** A local packet that depends on one of larger identifier starts one cycle late. *)
Example ex_late : exists s, tdma_schedule 100 1 1 1 [mkPacket 0 0 0 [1]; mkPacket 0 0 0 []] [] = Ok s /\
  t_profile s = [mkProfile 1 1 1 1; mkProfile 0 0 0 0].
Proof. eexists. split; vm_compute; reflexivity. Qed.
Example ex_unslotted : pair_slot ex_lines 3 0 = None /\ tdma_schedule 1000 2 2 3 [mkPacket 3 0 1 []] ex_lines = Timeout.
Proof. split; vm_compute; reflexivity. Qed.
Example ex_deadlock : deadlocked [mkPacket 0 0 0 [1]; mkPacket 0 0 0 [0]] (fun i => i = 0 \/ i = 1).
Proof.
  intros i [->| ->]; eexists; (split; [split; [lia | reflexivity]|]); cbn; [exists 1|exists 0]; auto.
Qed.
