(** Firings of the execution with TDMA slots: order, durations and tokens (C156). *)
From Coq Require Import QArith ZifyBool ZifyNat Lqa.
From Verif Require Import Base Graph RepVec Sim SimSpec SimTime So4 So4Spec So4Props.
Open Scope Z_scope.

Lemma forall2_imp {A B} (P R : A -> B -> Prop) l l' : (forall x y, P x y -> R x y) -> Forall2 P l l' -> Forall2 R l l'.
Proof. intros I F. induction F; constructor; auto. Qed.

Section Firings.
Variables (g : graph) (slots : Z) (rules : nat -> rule) (w : nat) (rep : Z).

Lemma sends_fold : forall i p now new log k,
  sends (fold_left (fun l x => Sent i p x now :: l) new log) k = sends log k ++ map (fun _ => (p, now)) (filter (fun x : message => (fst (snd x) =? k)%nat) new).
Proof.
  intros i p now new. induction new as [|x new IH]; intros log k; cbn [fold_left filter map]; [rewrite app_nil_r; reflexivity|].
  rewrite IH. cbn [sends]. destruct (fst (snd x) =? k)%nat; [|reflexivity]. rewrite <- app_assoc. reflexivity.
Qed.
Lemma takes_fold : forall i p now new log j, takes (fold_left (fun l x => Sent i p x now :: l) new log) j = takes log j.
Proof. intros i p now new. induction new as [|x new IH]; intros log j; cbn [fold_left]; [reflexivity|]. rewrite IH. reflexivity. Qed.
Lemma messages_one : forall i v p now l a new, messages slots rules i v p now (combine (seq a (length l)) l) = Ok new ->
  forall k, map (fun _ => (p, now)) (filter (fun x : message => (fst (snd x) =? k)%nat) new) =
    if (a <=? k)%nat then match nth_error l (k - a) with Some c => if (e_src c =? i)%nat then [(p, now)] else [] | None => [] end else [].
Proof.
  intros i v p now l. induction l as [|c l IH]; intros a new H k; cbn [length seq combine messages] in H.
  - injection H as <-. cbn. destruct (a <=? k)%nat; [|reflexivity]. destruct (k - a)%nat; reflexivity.
  - destruct (Nat.eqb_spec (e_src c) i) as [Hi|Hi].
    + destruct (arrival slots (rules a) now) as [t| | |]; try discriminate. cbn [bind] in H.
      destruct (messages slots rules i v p now _) as [r| | |] eqn:Em; try discriminate. cbn [bind] in H. injection H as <-.
      cbn [filter fst snd]. specialize (IH _ _ Em k). destruct (Nat.eqb_spec a k) as [->|Hk].
      * cbn [map]. rewrite IH, Nat.leb_refl, Nat.sub_diag. cbn [nth_error]. rewrite Hi, Nat.eqb_refl. destruct (Nat.leb_spec (S k) k); [lia | reflexivity].
      * rewrite IH. destruct (Nat.leb_spec a k).
        -- destruct (Nat.leb_spec (S a) k); [|lia]. replace (k - a)%nat with (S (k - S a)) by lia. reflexivity.
        -- destruct (Nat.leb_spec (S a) k); [lia | reflexivity].
    + specialize (IH _ _ H k). rewrite IH. destruct (Nat.leb_spec a k) as [L|L].
      * destruct (Nat.eq_dec a k) as [->|Hk].
        -- rewrite Nat.sub_diag. cbn [nth_error]. destruct (Nat.eqb_spec (e_src c) i); [contradiction|]. destruct (Nat.leb_spec (S k) k); [lia | reflexivity].
        -- destruct (Nat.leb_spec (S a) k); [|lia]. replace (k - a)%nat with (S (k - S a)) by lia. reflexivity.
      * destruct (Nat.leb_spec (S a) k); [lia | reflexivity].
Qed.
Lemma sends_deliver : forall now buffer tokens log b t l, deliver now buffer tokens log = (b, t, l) ->
  (forall k, sends l k = sends log k) /\ (forall i, takes l i = takes log i).
Proof.
  intros now buffer. induction buffer as [|[t0 [k0 n0]] buffer IH]; intros tokens log b t l H; cbn [deliver] in H.
  - injection H as <- <- <-. auto.
  - destruct (Qle_bool t0 now); [|injection H as <- <- <-; auto]. destruct (IH _ _ _ _ _ H) as [A B]. split; intro; [rewrite A | rewrite B]; reflexivity.
Qed.

Definition ended (v : vertex) (f s : Z * Q) : Prop := fst s = phase_of v (fst f) /\ (snd s == snd f + lasts v (fst f))%Q.
Definition going (v : vertex) (now : Q) (f q : Z * Q) : Prop := fst q = phase_of v (fst f) /\ (snd f + lasts v (fst f) == now + snd q)%Q /\ (snd f <= now)%Q.
Definition swap (q : Q * Z) : Z * Q := (snd q, fst q).
Definition task_ok (m : so4) (i : nat) (v : vertex) : Prop :=
  map fst (takes (o_log m) i) = map Z.of_nat (seq 0 (length (takes (o_log m) i))) /\
  a_execs (o_actors m i) = Z.of_nat (length (takes (o_log m) i)) /\
  (s_queue (o_state m) i = [] /\ a_busy (o_actors m i) = false \/ exists t p, s_queue (o_state m) i = [(t, p)] /\ a_busy (o_actors m i) = true /\ (0 <= t)%Q) /\
  exists done pending, takes (o_log m) i = done ++ pending /\
    Forall2 (going v (o_now m)) pending (map swap (s_queue (o_state m) i)) /\
    forall k c, nth_error (edges g) k = Some c -> e_src c = i -> Forall2 (ended v) done (sends (o_log m) k).
Definition timed (m : so4) : Prop := forall i v, nth_error (vertices g) i = Some v -> task_ok m i v.

Lemma timed_same : forall m m', timed m -> o_actors m' = o_actors m -> s_queue (o_state m') = s_queue (o_state m) -> o_now m' = o_now m ->
  (forall k, sends (o_log m') k = sends (o_log m) k) -> (forall i, takes (o_log m') i = takes (o_log m) i) -> timed m'.
Proof.
  intros m m' T E1 E2 E3 E4 E5 i v Hv. destruct (T i v Hv) as (A & B & C & done & pending & D & E & F). unfold task_ok. rewrite E1, E2, E3, E5.
  split; [exact A|]. split; [exact B|]. split; [exact C|]. exists done, pending. split; [exact D|]. split; [exact E|]. intros k c. rewrite E4. apply F.
Qed.

Hypotheses (HD : durations_fit g) (HI : forall i, (i < length (vertices g))%nat -> has_input g i).

Lemma vertex_lasts : forall v n, In v (vertices g) -> 0 <= n -> vertex_duration v (phase_of v n) = Ok (lasts v n) /\ (0 <= lasts v n < long_max)%Q.
Proof.
  intros v n Hv Hn. destruct (HD v Hv) as (P & L & B). unfold vertex_duration, phase_of, lasts.
  pose proof (Z.mod_pos_bound n (Z.of_nat (v_phases v)) ltac:(lia)) as M. set (x := n mod Z.of_nat (v_phases v)) in *.
  destruct (Z.leb_spec (x + 1) 0); [lia|]. unfold cmod. rewrite L. destruct (Z.eqb_spec (Z.of_nat (v_phases v)) 0); [lia|]. cbn [bind].
  replace (x + 1 - 1) with x by lia. rewrite Z.rem_small by lia. unfold at_index. destruct (Z.ltb_spec x 0); [lia|].
  destruct (nth_error (v_durations v) (Z.to_nat x)) as [d|] eqn:E.
  - rewrite (nth_error_nth _ _ _ E). split; [reflexivity|]. apply B, (nth_error_In _ _ E).
  - apply nth_error_None in E. lia.
Qed.
Lemma ready_idle : forall i v a s, (i < length (vertices g))%nat -> ready g i v a s = true -> a_busy a = false.
Proof.
  intros i v a s Hi H. destruct (HI i Hi) as (c & Hc & Hd). destruct (In_nth_error _ _ Hc) as (k & Hk).
  unfold ready in H. apply andb_true_iff in H. destruct H as [H _]. rewrite forallb_forall in H.
  specialize (H (k, c) ltac:(eapply numbered_nth; try exact Hk; try exact slots; try exact rules; assumption)). cbn [fst snd] in H. rewrite Hd, Nat.eqb_refl in H. cbn [negb orb] in H.
  destruct (a_busy a); [|reflexivity]. rewrite orb_true_r in H. discriminate.
Qed.
Lemma timed_tick : forall m m', timed m -> so4_tick g slots rules w rep m = Ok (So4Running m') -> timed m'.
Proof.
  intros m m' T H. unfold so4_tick in H. destruct (o_pc m) as [i|i|] eqn:Epc.
  - destruct (nth_error (vertices g) i) as [v|] eqn:Ev.
    + destruct (ready_to_end i (o_state m)) eqn:Er; [|injection H as <-; apply (timed_same m); auto].
      cbv zeta in H. destruct (s_queue _ i) as [|[q0 p] queue] eqn:Eq; try discriminate.
      destruct (messages slots rules i v p (o_now m) (numbered g)) as [new| | |] eqn:Em; try discriminate. cbn [bind] in H. injection H as <-.
      assert (Eq' : s_queue (o_state m) i = (q0, p) :: queue) by (destruct (_ && _); exact Eq). clear Eq.
      intros j u Hu. specialize (T j u Hu). unfold task_ok in *. cbn [o_log o_actors o_now o_state s_queue]. rewrite takes_fold. unfold upd.
      destruct (T) as (A & B & C & done & pending & D & E & F).
      assert (SK : forall k c, nth_error (edges g) k = Some c ->
        sends (fold_left (fun l x => Sent i p x (o_now m) :: l) new (o_log m)) k = sends (o_log m) k ++ if (e_src c =? i)%nat then [(p, o_now m)] else []).
      { intros k c Hc. rewrite sends_fold, (messages_one _ _ _ _ _ _ _ Em k). cbn [Nat.leb]. rewrite Nat.sub_0_r, Hc. reflexivity. }
      destruct (Nat.eqb_spec j i) as [->|Hj].
      * assert (u = v) as -> by congruence. cbn [a_execs a_busy]. rewrite Eq' in C, E. destruct C as [[C _]|(t & p' & C1 & C2 & C3)]; [discriminate|].
        injection C1 as -> -> ->. cbn [map] in E. inversion E as [|f q l1 l2 G1 G2 G3 G4]; subst. inversion G2; subst.
        split; [exact A|]. split; [exact B|]. split; [left; auto|]. exists (done ++ [f]), []. split; [rewrite app_nil_r; exact D|]. split; [constructor|].
        intros k c Hc Hs. rewrite (SK k c Hc), Hs, Nat.eqb_refl. apply Forall2_app; [apply (F k c Hc Hs)|]. constructor; [|constructor].
        destruct G1 as (G1 & G1' & _). split; [exact G1|]. cbn [snd swap fst] in *. unfold ready_to_end in Er. rewrite Eq' in Er. apply Qeq_bool_iff in Er. rewrite G1', Er. ring.
      * assert (QE : s_queue (if ((i =? w)%nat && ((if (i =? w)%nat then o_count m + 1 else o_count m) =? rep))%bool then mkState (s_queue (o_state m)) (s_phase (o_state m)) (s_tokens (o_state m)) (s_space (o_state m)) 0 (s_bounded (o_state m)) else o_state m) j = s_queue (o_state m) j) by (destruct (_ && _); reflexivity).
        rewrite QE. split; [exact A|]. split; [exact B|]. split; [exact C|]. exists done, pending. split; [exact D|]. split; [exact E|].
        intros k c Hc Hs. rewrite (SK k c Hc). destruct (Nat.eqb_spec (e_src c) i); [congruence|]. rewrite app_nil_r. apply (F k c Hc Hs).
    + destruct (deliver (o_now m) (o_buffer m) (s_tokens (o_state m)) (o_log m)) as [[b t] l] eqn:Ed. injection H as <-.
      destruct (sends_deliver _ _ _ _ _ _ _ Ed) as [A B]. apply (timed_same m); auto.
  - destruct (nth_error (vertices g) i) as [v|] eqn:Ev; [|injection H as <-; apply (timed_same m); auto].
    destruct (ready g i v (o_actors m i) (o_state m)) eqn:Er; [|injection H as <-; apply (timed_same m); auto].
    destruct (exec_start g i v (o_actors m i) (o_state m)) as [r| | |] eqn:Es; try discriminate. cbn [bind] in H. cbv zeta in H.
    assert (exists left, m' = mkSo4 (PStart (S i)) (upd (o_actors m) i (fst r)) (update_state g (upd (o_actors m) i (fst r)) (snd r)) (o_count m) (o_visited m) (o_now m) (o_buffer m) (o_end m) left (Took i (a_execs (o_actors m i)) (o_now m) :: o_log m)) as (left & ->).
    { destruct (o_end m) as [[n t]|]; [destruct (filter _ (o_left m))|]; try discriminate; injection H as <-; eauto. }
    assert (Hi : (i < length (vertices g))%nat) by (apply nth_error_Some; congruence). pose proof (ready_idle _ _ _ _ Hi Er) as Idle.
    destruct (T i v Ev) as (_ & B0 & _). pose proof (HD v (nth_error_In _ _ Ev)) as (P & _ & _).
    unfold exec_start in Es. destruct (vertex_lasts v (a_execs (o_actors m i)) (nth_error_In _ _ Ev) ltac:(lia)) as [VL [VB _]].
    assert (PH : actor_phase v (o_actors m i) = phase_of v (a_execs (o_actors m i))).
    { unfold actor_phase, phase_of. rewrite Z.rem_mod_nonneg by lia. reflexivity. }
    rewrite PH, VL in Es. cbn [bind] in Es. injection Es as <-.
    intros j u Hu. specialize (T j u Hu). unfold task_ok in *. cbn [o_log o_actors o_now o_state s_queue update_state snd fst takes sends]. unfold upd. rewrite (Nat.eqb_sym i j).
    destruct T as (A & B & C & done & pending & D & E & F). destruct (Nat.eqb_spec j i) as [->|Hj].
    * assert (u = v) as -> by congruence. cbn [a_execs a_busy]. destruct C as [[C _]|(t & p' & _ & C2 & _)]; [|congruence]. rewrite C in *. cbn [map app] in *. inversion E; subst. rewrite app_nil_r in D.
      rewrite map_app, app_length, seq_app, map_app, A. cbn [length map fst seq]. split; [rewrite B; reflexivity|]. split; [rewrite B; lia|].
      split; [right; exists (Qred (lasts v (a_execs (o_actors m i)))), (phase_of v (a_execs (o_actors m i))); split; [reflexivity|]; split; [reflexivity|]; rewrite Qred_correct; exact VB|].
      exists done, [(a_execs (o_actors m i), o_now m)]. split; [rewrite D; reflexivity|]. split; [|exact F]. constructor; [|constructor]. unfold going, swap. cbn [fst snd].
      split; [reflexivity|]. split; [rewrite Qred_correct; reflexivity | apply Qle_refl].
    * split; [exact A|]. split; [exact B|]. split; [exact C|]. exists done, pending. auto.
  - destruct (Qeq_bool (fst (advance_mod g (o_state m))) long_max); try discriminate.
    assert (Em' := f_equal (fun o => match o with Ok (So4Running x) => x | _ => m end) H). cbv beta iota in Em'. subst m'. clear H.
    destruct (next_end_spec g (o_state m)) as (_ & NE & NX).
    assert (POS : (0 <= next_end g (o_state m))%Q).
    { destruct NX as [->|(i & Hi & Hf)]; [vm_compute; discriminate|]. destruct (nth_error (vertices g) i) as [v|] eqn:Ev; [|apply nth_error_None in Ev; lia].
      destruct (T i v Ev) as (_ & _ & C & _). unfold front in Hf. destruct C as [[C _]|(t & p & C & _ & C3)]; rewrite C in Hf; [discriminate|]. injection Hf as <-. exact C3. }
    intros i v Hv. specialize (T i v Hv). unfold task_ok in *. cbn [o_log o_actors o_now o_state]. destruct T as (A & B & C & done & pending & D & E & F).
    split; [exact A|]. split; [exact B|]. pose proof (Qred_correct (o_now m + fst (advance_mod g (o_state m)))) as Q0.
    set (now' := Qred (o_now m + fst (advance_mod g (o_state m)))) in *. clearbody now'. unfold advance_mod in *.
    assert (Hi : (i < length (vertices g))%nat) by (apply nth_error_Some; congruence).
    destruct (Qeq_bool (next_end g (o_state m)) 0) eqn:E0.
    + cbn [fst snd] in *. split; [exact C|]. exists done, pending. split; [exact D|]. split; [|exact F].
      eapply forall2_imp; [|exact E]. intros f q (X1 & X2 & X3). split; [exact X1|]. split; lra.
    + destruct (Qeq_bool (next_end g (o_state m)) long_max) eqn:E1; cbn [fst snd s_queue] in *.
      * split; [exact C|]. exists done, pending. split; [exact D|]. split; [|exact F].
        destruct C as [[C _]|(t & p & C & _ & C3)]; rewrite C in *; cbn [map] in *; [inversion E; subst; constructor|].
        exfalso. apply Qeq_bool_iff in E1. pose proof (NE i t Hi ltac:(unfold front; rewrite C; reflexivity)) as L. rewrite E1 in L.
        inversion E as [|f q l1 l2 (G1 & G2 & G3) _ G4 G5]; subst. cbn [swap fst snd] in *.
        assert (N : 0 <= fst f). { assert (In (fst f) (map fst (takes (o_log m) i))) by (apply in_map; rewrite D; apply in_or_app; right; left; reflexivity). rewrite A in H. apply in_map_iff in H. destruct H as (x & <- & _). lia. }
        destruct (vertex_lasts v (fst f) (nth_error_In _ _ Hv) N) as [_ [_ VB]]. lra.
      * destruct C as [[C C']|(t & p & C & C2 & C3)]; rewrite C in *; cbn [map] in *.
        -- split; [left; auto|]. exists done, pending. split; [exact D|]. split; [inversion E; subst; constructor | exact F].
        -- pose proof (NE i t Hi ltac:(unfold front; rewrite C; reflexivity)) as L. split.
           ++ right. exists (Qred (t - next_end g (o_state m))), p. split; [reflexivity|]. split; [exact C2|]. rewrite Qred_correct. lra.
           ++ exists done, pending. split; [exact D|]. split; [|exact F]. inversion E as [|f q l1 l2 (G1 & G2 & G3) G6 G4 G5]; subst. inversion G6; subst.
              constructor; [|constructor]. unfold going, swap in *. cbn [fst snd] in *. pose proof (Qred_correct (t - next_end g (o_state m))) as Q1.
              split; [exact G1|]. split; lra.
Qed.
End Firings.
