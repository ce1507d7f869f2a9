(** The self-loop constraints of a task and serialisation of its executions. *)
From Coq Require Import QArith Qfield Znumtheory Lqa.
From Verif Require Import Base Graph Commons CommonsProofs FractionProofs KPeriodic ScheduleSpec ScheduleCore KPeriodicSpec KPeriodicProofs KPeriodicChannel.
Open Scope Z_scope.

Lemma idx_succ i0 L m : (0 < L)%nat ->
  (S (idx i0 L m) < i0 + L /\ idx i0 L (S m) = S (idx i0 L m) /\ iter i0 L (S m) = iter i0 L m)%nat \/
  (S (idx i0 L m) = i0 + L /\ idx i0 L (S m) = i0 /\ iter i0 L (S m) = S (iter i0 L m))%nat.
Proof.
  intros HL. unfold idx, iter.
  destruct (Nat.ltb_spec m i0) as [Hm|Hm]; destruct (Nat.ltb_spec (S m) i0) as [Hs|Hs]; try lia.
  - left. replace (S m - i0)%nat with 0%nat by lia. rewrite Nat.mod_0_l, Nat.div_0_l by lia. lia.
  - replace (S m - i0)%nat with (S (m - i0)) by lia. set (r := (m - i0)%nat).
    pose proof (Nat.mod_upper_bound r L ltac:(lia)) as Hb.
    pose proof (Nat.div_mod r L ltac:(lia)) as Hd.
    destruct (Nat.eq_dec (S (r mod L)) L) as [E|NE].
    + right. assert (E2 : S r = (0 + (S (r / L)) * L)%nat) by lia.
      rewrite E2. rewrite Nat.div_add, Nat.mod_add, Nat.mod_0_l, Nat.div_0_l by lia. lia.
    + left. assert (E2 : S r = (S (r mod L) + (r / L) * L)%nat) by lia.
      rewrite E2. rewrite Nat.div_add, Nat.mod_add by lia.
      rewrite (Nat.mod_small (S (r mod L))), (Nat.div_small (S (r mod L))) by lia. lia.
Qed.

Lemma selfloop_chain_spec t tf : forall rest dd prev lti,
  (forall j k p, nth_error rest j = Some (k, p) -> vertex_duration t p = Ok (dd j)) ->
  exists cs, selfloop_chain t tf prev lti rest = Ok cs /\
    forall x, In x cs <->
      exists j a b, nth_error (prev :: rest) j = Some a /\ nth_error (prev :: rest) (S j) = Some b /\
        x = mkConstraint (mkEvent (v_id t) (snd a) (fst a)) (mkEvent (v_id t) (snd b) (fst b)) 0
              (match j with O => lti | S j' => (tf * dd j')%Q end) 0.
Proof.
  induction rest as [|[k p] rest IH]; intros dd prev lti Hd.
  - exists []. split; [reflexivity|]. intros x. split; [intros []|].
    intros (j & a & b & _ & H & _). cbn in H. destruct j; discriminate H.
  - cbn [selfloop_chain]. rewrite (Hd 0%nat k p eq_refl). cbn [bind].
    destruct (IH (fun j => dd (S j)) (k, p) (tf * dd 0%nat)%Q) as (cs & -> & Hcs).
    { intros j k' p' H. apply (Hd (S j) k' p' H). }
    cbn [bind]. eexists; split; [reflexivity|]. intros x. cbn [In]. rewrite Hcs. split.
    + intros [<-|(j & a & b & Ha & Hb & ->)].
      * exists 0%nat, prev, (k, p). repeat split.
      * exists (S j), a, b. cbn [nth_error] in *. split; [exact Ha|]. split; [exact Hb|].
        destruct j; reflexivity.
    + intros (j & a & b & Ha & Hb & ->). destruct j as [|j].
      * cbn in Ha, Hb. injection Ha as <-. injection Hb as <-. left. reflexivity.
      * right. exists j, a, b. cbn [nth_error] in *. split; [exact Ha|]. split; [exact Hb|].
        destruct j; reflexivity.
Qed.

Section Task.
Variables (t : vertex) (N : Z) (K : nat).
Hypothesis Ht : vertex_wf t.
Hypothesis HK : (0 < K)%nat.
Hypothesis HN : 0 < N.

Let i0 := v_init_phases t.
Let P := v_phases t.
Let L := (K * P)%nat.

(** Duration the code charges on the constraint leaving the [j]-th event. *)
Definition charged (j : nat) : Q :=
  match j with O => exec_duration t i0 | S _ => exec_duration t j end.

Lemma duration_one : vertex_duration t 1 = Ok (exec_duration t i0).
Proof.
  apply (duration_access t i0 1 1 Ht). unfold pos_at. fold i0. rewrite Nat.ltb_irrefl, Nat.sub_diag.
  rewrite Nat.div_0_l, Nat.mod_0_l by (destruct Ht; lia). reflexivity.
Qed.

Lemma last_pos : pos_at i0 P (i0 + L - 1) = (Z.of_nat K, Z.of_nat P).
Proof.
  assert (HP : (0 < P)%nat) by apply Ht. unfold pos_at.
  destruct (Nat.ltb_spec (i0 + L - 1) i0); [unfold L in *; nia|].
  replace (i0 + L - 1 - i0)%nat with ((P - 1) + (K - 1) * P)%nat by (unfold L; nia).
  rewrite Nat.div_add, Nat.mod_add by lia. rewrite Nat.div_small, Nat.mod_small by lia. f_equal; lia.
Qed.

Lemma duration_last : vertex_duration t (Z.of_nat P) = Ok (exec_duration t (i0 + L - 1)).
Proof. apply (duration_access t _ (Z.of_nat K) (Z.of_nat P) Ht). symmetry. apply last_pos. Qed.

Lemma first_pos : pos_at i0 P i0 = (1, 1).
Proof.
  unfold pos_at. rewrite Nat.ltb_irrefl, Nat.sub_diag.
  rewrite Nat.div_0_l, Nat.mod_0_l by (destruct Ht; unfold P; lia). reflexivity.
Qed.

Lemma generate_selfloop_spec :
  exists cs, generate_selfloop t N (Z.of_nat K) = Ok cs /\
   let tf := if v_reentrancy t <=? 0 then 0%Q else 1%Q in
   forall x, In x cs <->
     (exists j, (S j < i0 + L)%nat /\
        x = mkConstraint (event_at t j) (event_at t (S j)) 0 (tf * charged j)%Q 0) \/
     (0 < v_reentrancy t /\
        x = mkConstraint (event_at t (i0 + L - 1)) (event_at t i0)
              (inject_Z (Z.of_nat P * Z.of_nat K) / inject_Z N)%Q (tf * exec_duration t (i0 + L - 1))%Q 0).
Proof.
  assert (HP : (0 < P)%nat) by apply Ht.
  assert (HL : (0 < L)%nat) by (unfold L; nia).
  unfold generate_selfloop. rewrite duration_one. cbn [bind]. fold i0 P.
  set (tf := if v_reentrancy t <=? 0 then 0%Q else 1%Q).
  set (pos := positions (Z.of_nat K) (Z.of_nat i0) (Z.of_nat P)).
  assert (Hlen : length pos = (i0 + L)%nat) by (apply positions_length; exact HK).
  assert (Hnth : forall j, (j < i0 + L)%nat -> nth_error pos j = Some (pos_at i0 P j)).
  { intros j Hj. apply positions_nth; assumption. }
  assert (Hchain : exists ch, match pos with [] => Ok [] | first :: rest =>
             selfloop_chain t tf first (tf * exec_duration t i0)%Q rest end = Ok ch /\
     forall x, In x ch <-> exists j, (S j < i0 + L)%nat /\
        x = mkConstraint (event_at t j) (event_at t (S j)) 0 (tf * charged j)%Q 0).
  { destruct pos as [|first rest] eqn:E; [cbn in Hlen; lia|]. cbn [length] in Hlen.
    destruct (selfloop_chain_spec t tf rest (fun j => exec_duration t (S j)) first (tf * exec_duration t i0)%Q)
      as (ch & -> & Hch).
    { intros j k p H. assert (Hj : (S j < i0 + L)%nat).
      { rewrite <- Hlen. apply -> Nat.succ_lt_mono. apply nth_error_Some. congruence. }
      apply (duration_access t (S j) k p Ht). specialize (Hnth (S j) Hj). cbn [nth_error] in Hnth.
      rewrite H in Hnth. injection Hnth as ->. reflexivity. }
    exists ch. split; [reflexivity|]. intros x. rewrite Hch. split.
    - intros (j & a & b & Ha & Hb & ->). exists j.
      assert (Hj : (S j < i0 + L)%nat).
      { rewrite <- Hlen. apply (nth_error_Some (first :: rest)). congruence. }
      split; [exact Hj|]. rewrite Hnth in Ha by lia. rewrite Hnth in Hb by lia.
      injection Ha as <-. injection Hb as <-. unfold event_at. fold i0 P. destruct j; reflexivity.
    - intros (j & Hj & ->). exists j, (pos_at i0 P j), (pos_at i0 P (S j)).
      rewrite !Hnth by lia. split; [reflexivity|]. split; [reflexivity|].
      unfold event_at. fold i0 P. destruct j; reflexivity. }
  destruct Hchain as (ch & -> & Hch). cbn [bind].
  destruct (Z.ltb_spec 0 (v_reentrancy t)) as [Hr|Hr].
  - rewrite duration_last. cbn [bind]. rewrite qdiv_ok by lia. cbn [bind].
    eexists; split; [reflexivity|]. cbv zeta. intros x. rewrite in_app_iff, Hch. cbn [In].
    assert (E1 : event_at t (i0 + L - 1) = mkEvent (v_id t) (Z.of_nat P) (Z.of_nat K)).
    { unfold event_at. fold i0 P. rewrite last_pos. reflexivity. }
    assert (E2 : event_at t i0 = mkEvent (v_id t) 1 1).
    { unfold event_at. fold i0 P. rewrite first_pos. reflexivity. }
    rewrite E1, E2. split.
    + intros [H|[<-|[]]]; [left; exact H|right; split; [exact Hr|reflexivity]].
    + intros [H|[_ ->]]; [left; exact H | right; left; reflexivity].
  - eexists; split; [reflexivity|]. cbv zeta. intros x. rewrite Hch. split; [left; assumption|].
    intros [H|[H _]]; [exact H|lia].
Qed.

Section Sched.
Variables (omega : Q) (St : event -> Q).
Let T := task_period omega (Z.of_nat K) (Z.of_nat P) N.
Let start := kperiodic_start St t K T.

Lemma start_idx m : (start m == St (event_at t (idx i0 L m)) + inject_Z (Z.of_nat (iter i0 L m)) * T)%Q.
Proof. apply kstart_idx; [exact HK | apply Ht]. Qed.

Lemma serial_step m :
  (start m + exec_duration t m <= start (S m))%Q <->
  (if (S (idx i0 L m) =? i0 + L)%nat
   then St (event_at t (idx i0 L m)) + exec_duration t (idx i0 L m) - T <= St (event_at t i0)
   else St (event_at t (idx i0 L m)) + exec_duration t (idx i0 L m) <= St (event_at t (S (idx i0 L m))))%Q.
Proof.
  assert (HL : (0 < L)%nat) by (destruct Ht as [HP _]; unfold L, P; nia).
  rewrite !start_idx. rewrite (exec_duration_idx t K m Ht HK) at 1. fold i0 P L.
  destruct (idx_succ i0 L m HL) as [(H1 & -> & ->)|(H1 & -> & ->)].
  - destruct (Nat.eqb_spec (S (idx i0 L m)) (i0 + L)); [lia|].
    split; intros; lra.
  - destruct (Nat.eqb_spec (S (idx i0 L m)) (i0 + L)); [|lia].
    rewrite Nat2Z.inj_succ. unfold Z.succ. rewrite inject_Z_plus.
    change (inject_Z 1) with 1%Q. split; intros; lra.
Qed.

Lemma wrap_weight : (omega * (inject_Z (Z.of_nat P * Z.of_nat K) / inject_Z N) == T)%Q.
Proof.
  unfold T, task_period. rewrite (Z.mul_comm (Z.of_nat P)). field.
  intros E. unfold Qeq in E. cbn in E. lia.
Qed.

(** Self-loop constraints serialise the executions (with initial phases, provided the
    first initial phase is not longer than phase 1: the code charges the latter). *)
Lemma selfloop_serialises cs : 0 < v_reentrancy t ->
  (exec_duration t 0 <= exec_duration t i0)%Q ->
  generate_selfloop t N (Z.of_nat K) = Ok cs ->
  (forall x, In x cs -> satisfies omega St x) -> serialised start (exec_duration t).
Proof.
  intros Hr Hd0 Hgen Hsat m.
  destruct generate_selfloop_spec as (cs' & Hgen' & Hin). rewrite Hgen in Hgen'. injection Hgen' as <-.
  destruct (Z.leb_spec (v_reentrancy t) 0); [lia|]. cbv zeta in Hin.
  assert (HL : (0 < L)%nat) by (destruct Ht as [HP _]; unfold L, P; nia).
  apply serial_step. pose proof (idx_lt i0 L m HL) as Hi. set (j := idx i0 L m) in *.
  destruct (Nat.eqb_spec (S j) (i0 + L)) as [E|NE].
  - pose proof (Hsat _ (proj2 (Hin _) (or_intror (conj Hr eq_refl)))) as HS.
    unfold satisfies in HS. cbn [c_source c_target c_w c_d] in HS. rewrite wrap_weight in HS.
    replace (i0 + L - 1)%nat with j in HS by lia. rewrite Qmult_1_l in HS. exact HS.
  - assert (Hj : (S j < i0 + L)%nat) by lia.
    pose proof (Hsat _ (proj2 (Hin _) (or_introl (ex_intro _ j (conj Hj eq_refl))))) as HS.
    unfold satisfies in HS. cbn [c_source c_target c_w c_d] in HS.
    eapply Qle_trans; [|exact HS]. rewrite Qmult_0_r, Qmult_1_l. unfold Qminus.
    change (- 0)%Q with 0%Q. rewrite Qplus_0_r. apply Qplus_le_compat; [apply Qle_refl|].
    unfold charged. destruct j; [exact Hd0 | apply Qle_refl].
Qed.

(** Conversely (no initial phases). *)
Lemma serialised_selfloop cs : 0 < v_reentrancy t -> i0 = 0%nat ->
  generate_selfloop t N (Z.of_nat K) = Ok cs ->
  serialised start (exec_duration t) -> forall x, In x cs -> satisfies omega St x.
Proof.
  intros Hr Hi0 Hgen Hser x Hx.
  destruct generate_selfloop_spec as (cs' & Hgen' & Hin). rewrite Hgen in Hgen'. injection Hgen' as <-.
  destruct (Z.leb_spec (v_reentrancy t) 0); [lia|]. cbv zeta in Hin.
  assert (HL : (0 < L)%nat) by (destruct Ht as [HP _]; unfold L, P; nia).
  assert (Hidx : forall j, (j < L)%nat -> idx i0 L j = j).
  { intros j Hj. unfold idx. rewrite Hi0. cbn [Nat.ltb Nat.leb]. rewrite Nat.sub_0_r, Nat.mod_small by lia. reflexivity. }
  apply Hin in Hx. unfold satisfies. destruct Hx as [(j & Hj & ->)|(_ & ->)]; cbn [c_source c_target c_w c_d].
  - pose proof (proj1 (serial_step j) (Hser j)) as HS. rewrite Hidx in HS by lia.
    destruct (Nat.eqb_spec (S j) (i0 + L)); [lia|].
    eapply Qle_trans; [|exact HS]. apply Qle_lteq. right. rewrite Qmult_0_r, Qmult_1_l.
    assert (charged j = exec_duration t j) as -> by (unfold charged; destruct j; [rewrite Hi0|]; reflexivity).
    ring.
  - pose proof (proj1 (serial_step (L - 1)) (Hser (L - 1)%nat)) as HS. rewrite Hidx in HS by lia.
    destruct (Nat.eqb_spec (S (L - 1)) (i0 + L)); [|lia].
    rewrite wrap_weight, Qmult_1_l. rewrite Hi0 in *. cbn [Nat.add]. exact HS.
Qed.
End Sched.
End Task.
