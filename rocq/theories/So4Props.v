(** Theorems on the execution with TDMA slots (C154, C155). *)
From Coq Require Import QArith Qround ZifyBool ZifyNat Lqa.
From Verif Require Import Base Graph RepVec Sim SimSpec So4 So4Spec.
Open Scope Z_scope.

(** * Arrival times *)
Lemma arrival_ok : forall slots r now t, 0 < slots -> arrival slots r now = Ok t ->
  (ru_virtual r = true -> t = now) /\
  (ru_virtual r = false -> (0 <= now)%Q -> 0 <= ru_slot r < slots ->
     exists wait, 0 <= wait < slots /\ (trunc now + wait) mod slots = ru_slot r /\ (t == now + inject_Z wait + inject_Z (ru_hops r))%Q).
Proof.
  intros slots r now t Hs H. unfold arrival, cmod in H. destruct (Z.eqb_spec slots 0); [lia|]. cbn [bind] in H.
  assert (Et := f_equal (fun o => match o with Ok a => a | _ => now end) H). cbv beta iota in Et. clear H. subst t.
  destruct (ru_virtual r); split; intro Hv; try discriminate; [reflexivity|]. intros Hn Hr.
  assert (Ht : 0 <= trunc now).
  { unfold trunc. destruct now as [a b]. unfold Qle in Hn. cbn in *. apply Z.quot_pos; lia. }
  rewrite Z.rem_mod_nonneg by lia. pose proof (Z.mod_pos_bound (trunc now) slots Hs) as B. pose proof (Z.div_mod (trunc now) slots ltac:(lia)) as D.
  set (m := trunc now mod slots) in *. set (q := trunc now / slots) in *. destruct (Z.leb_spec m (ru_slot r)).
  - exists (ru_slot r - m). split; [lia|]. split; [symmetry; apply (Z.mod_unique _ _ q); [lia|]; lia|]. cbv zeta. etransitivity; [apply Qred_correct | reflexivity].
  - exists (slots - (m - ru_slot r)). split; [lia|]. split; [symmetry; apply (Z.mod_unique _ _ (q + 1)); [lia|]; lia|].
    cbv zeta. etransitivity; [apply Qred_correct|]. unfold Z.sub. rewrite !inject_Z_plus, !inject_Z_opp, !inject_Z_plus, !inject_Z_opp. ring.
Qed.

Section Loop.
Variables (g : graph) (slots : Z) (rules : nat -> rule) (w : nat) (rep : Z).

Lemma messages_ok : forall i v p now l new, 0 < slots -> nth_error (vertices g) i = Some v ->
  (forall k c, In (k, c) l -> nth_error (edges g) k = Some c) ->
  messages slots rules i v p now l = Ok new -> forall x, In x new -> message_ok g slots rules i p x now.
Proof.
  intros i v p now l new Hs Hv. revert new. induction l as [|[k c] l IH]; intros new Hl H x Hx; cbn [messages] in H.
  - injection H as <-. destruct Hx.
  - destruct (Nat.eqb_spec (e_src c) i) as [Hi|]; [|apply (IH new); auto; intros; apply Hl; right; assumption].
    destruct (arrival slots (rules k) now) as [t| | |] eqn:Ea; try discriminate. cbn [bind] in H.
    destruct (messages slots rules i v p now l) as [r| | |] eqn:Em; try discriminate. cbn [bind] in H. injection H as <-.
    destruct Hx as [<-|Hx]; [|apply (IH r); auto; intros; apply Hl; right; assumption].
    exists c, v. cbn [fst snd]. split; [apply Hl; left; reflexivity|]. split; [exact Hi|]. split; [exact Hv|].
    destruct (arrival_ok _ _ _ _ Hs Ea) as [A1 A2]. split; [|split; [exact A1 | exact A2]].
    intro Hp. unfold exec_rate. destruct (Z.leb_spec 1 p); [|lia]. destruct (Z.leb_spec p (Z.of_nat (v_phases v))); [|lia]. cbn [andb].
    destruct (Nat.eqb_spec (e_src c) i); [reflexivity | contradiction].
Qed.
Lemma numbered_in : forall k c, In (k, c) (numbered g) -> nth_error (edges g) k = Some c.
Proof.
  intros k c. unfold numbered. assert (G : forall (l : list edge) a, In (k, c) (combine (seq a (length l)) l) -> (a <= k)%nat /\ nth_error l (k - a) = Some c).
  { induction l as [|x l IH]; intros a H; cbn in H; [destruct H|]. destruct H as [E|H].
    - injection E as <- <-. rewrite Nat.sub_diag. auto.
    - destruct (IH _ H) as [L E]. split; [lia|]. replace (k - a)%nat with (S (k - S a)) by lia. exact E. }
  intro H. destruct (G _ _ H) as [_ E]. rewrite Nat.sub_0_r in E. exact E.
Qed.
Lemma numbered_nth : forall k c, nth_error (edges g) k = Some c -> In (k, c) (numbered g).
Proof.
  intros k c. unfold numbered. assert (G : forall (l : list edge) a j, nth_error l j = Some c -> In ((a + j)%nat, c) (combine (seq a (length l)) l)).
  { induction l as [|x l IH]; intros a [|j] H; cbn in H; try discriminate; cbn.
    - injection H as ->. left. f_equal. lia.
    - right. replace (a + S j)%nat with (S a + j)%nat by lia. apply IH, H. }
  intro H. apply (G _ 0%nat _ H).
Qed.

(** * Delivery *)
Lemma deliver_ok : forall now buffer tokens log b t l, deliver now buffer tokens log = (b, t, l) ->
  received_list l ++ b = received_list log ++ buffer /\ sent_list l = sent_list log /\
  (forall x at_, In (Received x at_) l -> In (Received x at_) log \/ (Qle_bool (fst x) now = true /\ at_ = now)) /\
  (forall i p x at_, In (Sent i p x at_) l -> In (Sent i p x at_) log) /\
  (forall k, t k - tokens_received l k = tokens k - tokens_received log k) /\
  (forall c, tokens_taken l c = tokens_taken log c) /\
  (forall x b', b = x :: b' -> Qle_bool (fst x) now = false).
Proof.
  intros now buffer. induction buffer as [|[t0 [k0 n0]] buffer IH]; intros tokens log b t l H; cbn [deliver] in H.
  - injection H as <- <- <-. repeat split; auto; intros; discriminate.
  - destruct (Qle_bool t0 now) eqn:E.
    + destruct (IH _ _ _ _ _ H) as (A1 & A2 & A3 & A4 & A5 & A6 & A7). split; [|split; [|split; [|split; [|split; [|split]]]]].
      * rewrite A1. cbn [received_list]. rewrite <- app_assoc. reflexivity.
      * exact A2.
      * intros x at_ Hx. destruct (A3 x at_ Hx) as [[Eq|Hin]|Hn]; [|left; exact Hin|right; exact Hn]. injection Eq as <- <-. right. auto.
      * intros i p x at_ Hx. destruct (A4 i p x at_ Hx) as [Eq|Hin]; [discriminate | exact Hin].
      * intro k. specialize (A5 k). cbn [tokens_received] in A5. unfold upd in A5. rewrite (Nat.eqb_sym k0 k) in A5. destruct (Nat.eqb_spec k k0); subst; lia.
      * exact A6.
      * exact A7.
    + injection H as <- <- <-. split; [reflexivity|]. split; [reflexivity|]. split; [auto|]. split; [auto|]. split; [reflexivity|]. split; [reflexivity|].
      intros x b' Eq. injection Eq as <- <-. exact E.
Qed.
Lemma sent_fold : forall i p now new log,
  let l := fold_left (fun l x => Sent i p x now :: l) new log in
  sent_list l = sent_list log ++ new /\ received_list l = received_list log /\
  (forall x at_, In (Received x at_) l <-> In (Received x at_) log) /\
  (forall j p' x at_, In (Sent j p' x at_) l -> In (Sent j p' x at_) log \/ (j = i /\ p' = p /\ at_ = now /\ In x new)) /\
  (forall k, tokens_received l k = tokens_received log k) /\ (forall c, tokens_taken l c = tokens_taken log c).
Proof.
  intros i p now new. induction new as [|x new IH]; intros log; cbn [fold_left].
  - cbn. rewrite app_nil_r. repeat split; auto.
  - destruct (IH (Sent i p x now :: log)) as (A1 & A2 & A3 & A4 & A5 & A6). cbn zeta in *. split; [|split; [|split; [|split; [|split]]]].
    + rewrite A1. cbn [sent_list]. rewrite <- app_assoc. reflexivity.
    + rewrite A2. reflexivity.
    + intros y at_. rewrite A3. split; [intros [Eq|H]; [discriminate | exact H] | intro H; right; exact H].
    + intros j p' y at_ H. destruct (A4 j p' y at_ H) as [[Eq|Hin]|(B1 & B2 & B3 & B4)]; [|left; exact Hin|].
      * injection Eq as <- <- <- <-. right. repeat split; auto. left. reflexivity.
      * right. repeat split; auto. right. exact B4.
    + intro k. rewrite A5. reflexivity.
    + intro c. rewrite A6. reflexivity.
Qed.

Definition kept (m : so4) : Prop :=
  sent_list (o_log m) = received_list (o_log m) ++ o_buffer m /\
  (forall x at_, In (Received x at_) (o_log m) -> (fst x <= at_)%Q) /\
  (forall i p x at_, In (Sent i p x at_) (o_log m) -> message_ok g slots rules i p x at_) /\
  (o_pc m = PStart 0 -> forall x b, o_buffer m = x :: b -> ~ (fst x <= o_now m)%Q).
Lemma kept_tick : forall m m', 0 < slots -> kept m -> so4_tick g slots rules w rep m = Ok (So4Running m') -> kept m'.
Proof.
  intros m m' Hs (K1 & K2 & K3 & K4) H. unfold so4_tick in H. destruct (o_pc m) as [i|i|] eqn:Epc.
  - destruct (nth_error (vertices g) i) as [v|] eqn:Ev.
    + destruct (ready_to_end i (o_state m)) eqn:Er.
      * cbv zeta in H. destruct (s_queue _ i) as [|[q0 p] queue]; try discriminate.
        destruct (messages slots rules i v p (o_now m) (numbered g)) as [new| | |] eqn:Em; try discriminate. cbn [bind] in H. injection H as <-.
        destruct (sent_fold i p (o_now m) new (o_log m)) as (A1 & A2 & A3 & A4 & _). cbn zeta in *. unfold kept. cbn [o_log o_buffer o_pc].
        split; [rewrite A1, A2, K1, app_assoc; reflexivity|]. split; [intros x at_ Hx; apply K2, A3, Hx|]. split; [|discriminate].
        intros j p' x at_ Hx. destruct (A4 j p' x at_ Hx) as [Hin|(-> & -> & -> & Hin)]; [apply K3, Hin|].
        apply (messages_ok i v p (o_now m) (numbered g) new Hs Ev numbered_in Em x Hin).
      * injection H as <-. unfold kept. cbn. split; [exact K1|]. split; [exact K2|]. split; [exact K3 | discriminate].
    + destruct (deliver (o_now m) (o_buffer m) (s_tokens (o_state m)) (o_log m)) as [[b t] l] eqn:Ed. injection H as <-.
      destruct (deliver_ok _ _ _ _ _ _ _ Ed) as (A1 & A2 & A3 & A4 & _ & _ & A7). unfold kept. cbn [o_log o_buffer o_pc o_now].
      split; [rewrite A1, A2; exact K1|]. split; [|split].
      * intros x at_ Hx. destruct (A3 x at_ Hx) as [Hin|[Hle ->]]; [apply K2, Hin | apply Qle_bool_iff, Hle].
      * intros j p x at_ Hx. apply K3, A4, Hx.
      * intros _ x b' Eb Hle. apply Qle_bool_iff in Hle. rewrite (A7 x b' Eb) in Hle. discriminate.
  - destruct (nth_error (vertices g) i) as [v|] eqn:Ev.
    + destruct (ready g i v (o_actors m i) (o_state m)).
      * destruct (exec_start g i v (o_actors m i) (o_state m)) as [r| | |]; try discriminate. cbn [bind] in H. cbv zeta in H.
        assert (exists left acts st, m' = mkSo4 (PStart (S i)) acts st (o_count m) (o_visited m) (o_now m) (o_buffer m) (o_end m) left (Took i (a_execs (o_actors m i)) (o_now m) :: o_log m)) as (left & acts & st & ->).
        { destruct (o_end m) as [[n t]|]; [destruct (filter _ (o_left m))|]; try discriminate; injection H as <-; eauto. }
        unfold kept. cbn [o_log o_buffer o_pc sent_list received_list]. split; [exact K1|]. split; [intros x at_ [E|Hx]; [discriminate | apply K2, Hx]|].
        split; [intros j p x at_ [E|Hx]; [discriminate | apply K3, Hx] | discriminate].
      * injection H as <-. unfold kept. cbn. split; [exact K1|]. split; [exact K2|]. split; [exact K3 | discriminate].
    + injection H as <-. unfold kept. cbn. split; [exact K1|]. split; [exact K2|]. split; [exact K3 | discriminate].
  - destruct (Qeq_bool (fst (advance_mod g (o_state m))) long_max); try discriminate. injection H as <-. unfold kept. cbn. split; [exact K1|]. split; [exact K2|]. split; [exact K3 | discriminate].
Qed.

(** * Tokens *)
Definition counted (m : so4) : Prop :=
  s_bounded (o_state m) = false /\ (forall i, 0 <= a_execs (o_actors m i)) /\
  forall k c, nth_error (edges g) k = Some c ->
    s_tokens (o_state m) k = e_preload c + tokens_received (o_log m) k - tokens_taken (o_log m) c.
Lemma rate_nth : forall i v a k c, even_self_loops g -> rates_fit g -> nth_error (vertices g) i = Some v -> nth_error (edges g) k = Some c -> e_dst c = i -> 0 <= a_execs a ->
  current_rate v i a c = nth (Z.to_nat (a_execs a mod Z.of_nat (length (e_out c)))) (e_out c) 0.
Proof.
  intros i v a k c HE HR Hv Hc Hd Ha. destruct (HR c (nth_error_In _ _ Hc)) as [_ (v' & Hv' & L & P)]. rewrite Hd in Hv'. assert (v' = v) as -> by congruence.
  unfold current_rate, phase_count. rewrite Hd, Nat.eqb_refl. rewrite Z.rem_mod_nonneg by lia.
  pose proof (Z.mod_pos_bound (a_execs a) (Z.of_nat (length (e_out c))) ltac:(lia)). unfold exec_rate.
  destruct (Z.leb_spec 1 (a_execs a mod Z.of_nat (length (e_out c)) + 1)); [|lia].
  destruct (Z.leb_spec (a_execs a mod Z.of_nat (length (e_out c)) + 1) (Z.of_nat (v_phases v))); [|lia]. cbn [andb].
  replace (a_execs a mod Z.of_nat (length (e_out c)) + 1 - 1) with (a_execs a mod Z.of_nat (length (e_out c))) by lia.
  destruct (Nat.eqb_spec (e_src c) i); [|reflexivity]. rewrite (HE c (nth_error_In _ _ Hc)) by congruence. reflexivity.
Qed.
Lemma counted_tick : forall m m', even_self_loops g -> rates_fit g -> counted m -> so4_tick g slots rules w rep m = Ok (So4Running m') -> counted m'.
Proof.
  intros m m' HE HR (C1 & C2 & C3) H. unfold so4_tick in H. destruct (o_pc m) as [i|i|] eqn:Epc.
  - destruct (nth_error (vertices g) i) as [v|] eqn:Ev.
    + destruct (ready_to_end i (o_state m)) eqn:Er.
      * cbv zeta in H. destruct (s_queue _ i) as [|[q0 p] queue] eqn:Eq; try discriminate.
        destruct (messages slots rules i v p (o_now m) (numbered g)) as [new| | |] eqn:Em; try discriminate. cbn [bind] in H. injection H as <-.
        destruct (sent_fold i p (o_now m) new (o_log m)) as (_ & _ & _ & _ & A5 & A6). cbn zeta in *. unfold counted. cbn [o_log o_state o_actors s_bounded s_tokens].
        split; [destruct (_ && _); exact C1|]. split.
        { intro j. unfold upd. destruct (Nat.eqb_spec j i); cbn; apply C2. }
        intros k c Hc. rewrite A5, A6, <- (C3 k c Hc). destruct (_ && _); reflexivity.
      * injection H as <-. split; [exact C1 | split; [exact C2 | exact C3]].
    + destruct (deliver (o_now m) (o_buffer m) (s_tokens (o_state m)) (o_log m)) as [[b t] l] eqn:Ed. injection H as <-.
      destruct (deliver_ok _ _ _ _ _ _ _ Ed) as (_ & _ & _ & _ & A5 & A6 & _). split; [exact C1|]. split; [exact C2|]. cbn [o_log o_state s_tokens update_state].
      intros k c Hc. specialize (A5 k). rewrite A6. specialize (C3 k c Hc). lia.
  - destruct (nth_error (vertices g) i) as [v|] eqn:Ev.
    + destruct (ready g i v (o_actors m i) (o_state m)).
      * destruct (exec_start g i v (o_actors m i) (o_state m)) as [r| | |] eqn:Es; try discriminate. cbn [bind] in H. cbv zeta in H.
        assert (exists left, m' = mkSo4 (PStart (S i)) (upd (o_actors m) i (fst r)) (update_state g (upd (o_actors m) i (fst r)) (snd r)) (o_count m) (o_visited m) (o_now m) (o_buffer m) (o_end m) left (Took i (a_execs (o_actors m i)) (o_now m) :: o_log m)) as (left & ->).
        { destruct (o_end m) as [[n t]|]; [destruct (filter _ (o_left m))|]; try discriminate; injection H as <-; eauto. }
        unfold exec_start in Es. destruct (vertex_duration v (actor_phase v (o_actors m i))) as [d| | |]; try discriminate. cbn [bind] in Es. injection Es as <-.
        unfold counted. cbn [o_log o_state o_actors update_state snd fst s_tokens s_bounded]. split; [exact C1|]. split.
        { intro j. unfold upd. destruct (Nat.eqb_spec j i); cbn; [|apply C2]. specialize (C2 i). lia. }
        intros k c Hc. cbn [tokens_received tokens_taken]. unfold on_inputs. rewrite Hc, (Nat.eqb_sym i). specialize (C3 k c Hc).
        destruct (Nat.eqb_spec (e_dst c) i) as [Hd|]; [|lia]. rewrite (rate_nth i v _ k c HE HR Ev Hc Hd (C2 i)). lia.
      * injection H as <-. split; [exact C1 | split; [exact C2 | exact C3]].
    + injection H as <-. split; [exact C1 | split; [exact C2 | exact C3]].
  - destruct (Qeq_bool (fst (advance_mod g (o_state m))) long_max); try discriminate. injection H as <-. unfold counted. cbn [o_log o_state o_actors].
    unfold advance_mod. destruct (Qeq_bool (next_end g (o_state m)) 0); [split; [exact C1 | split; [exact C2 | exact C3]]|].
    destruct (Qeq_bool (next_end g (o_state m)) long_max); (split; [exact C1 | split; [exact C2 | exact C3]]).
Qed.

(** * Deadlock *)
Lemma advance_mod_max : forall s, Qeq_bool (fst (advance_mod g s)) long_max = false.
Proof.
  intro s. unfold advance_mod. destruct (Qeq_bool (next_end g s) 0); [reflexivity|]. destruct (Qeq_bool (next_end g s) long_max) eqn:E; [reflexivity | exact E].
Qed.
Lemma tick_not_deadlock : forall m, so4_tick g slots rules w rep m <> Ok So4Deadlock.
Proof.
  intros m H. unfold so4_tick in H. destruct (o_pc m) as [i|i|].
  - destruct (nth_error (vertices g) i) as [v|].
    + destruct (ready_to_end i (o_state m)); [|discriminate]. cbv zeta in H. destruct (s_queue _ i) as [|[q0 p] queue]; try discriminate.
      destruct (messages slots rules i v p (o_now m) (numbered g)); discriminate.
    + destruct (deliver (o_now m) (o_buffer m) (s_tokens (o_state m)) (o_log m)) as [[b t] l]. discriminate.
  - destruct (nth_error (vertices g) i) as [v|]; [|discriminate]. destruct (ready g i v (o_actors m i) (o_state m)); [|discriminate].
    destruct (exec_start g i v (o_actors m i) (o_state m)) as [r| | |]; try discriminate. cbn [bind] in H. cbv zeta in H.
    destruct (o_end m) as [[n t]|]; [destruct (filter _ (o_left m))|]; discriminate.
  - rewrite advance_mod_max in H. discriminate.
Qed.

(** Nothing is executed, nothing is on its way and no task can start. *)
Definition stuck (m : so4) : Prop :=
  o_buffer m = [] /\ (forall i, s_queue (o_state m) i = []) /\
  forall i v s, nth_error (vertices g) i = Some v -> s_tokens s = s_tokens (o_state m) -> s_bounded s = s_bounded (o_state m) -> ready g i v (o_actors m i) s = false.
Lemma stuck_tick : forall m, stuck m -> exists m', so4_tick g slots rules w rep m = Ok (So4Running m') /\ stuck m'.
Proof.
  intros m (S1 & S2 & S3). unfold so4_tick. destruct (o_pc m) as [i|i|].
  - destruct (nth_error (vertices g) i) as [v|].
    + unfold ready_to_end. rewrite S2. eexists. split; [reflexivity|]. split; [exact S1 | split; [exact S2 | exact S3]].
    + rewrite S1. cbn [deliver]. eexists. split; [reflexivity|]. split; [reflexivity|]. split; [exact S2 | exact S3].
  - destruct (nth_error (vertices g) i) as [v|] eqn:Ev.
    + rewrite (S3 i v (o_state m) Ev eq_refl eq_refl). eexists. split; [reflexivity|]. split; [exact S1 | split; [exact S2 | exact S3]].
    + eexists. split; [reflexivity|]. split; [exact S1 | split; [exact S2 | exact S3]].
  - rewrite advance_mod_max. eexists. split; [reflexivity|]. split; [exact S1|]. cbn [o_state o_actors]. unfold advance_mod.
    destruct (Qeq_bool (next_end g (o_state m)) 0); [split; [exact S2 | exact S3]|].
    destruct (Qeq_bool (next_end g (o_state m)) long_max); cbn [fst snd s_queue s_tokens s_bounded]; (split; [|exact S3]); [exact S2|].
    intro i. rewrite S2. reflexivity.
Qed.
Lemma stuck_runs : forall fuel m, stuck m -> so4_run g slots rules w rep fuel m = Timeout.
Proof.
  induction fuel as [|f IH]; intros m H; [reflexivity|]. cbn [so4_run]. destruct (stuck_tick m H) as (m' & -> & H'). cbn [bind]. apply IH, H'.
Qed.
End Loop.

Theorem C154_messages : forall g slots rules w rep m, 0 < slots -> so4_reach g slots rules w rep m ->
  sent_list (o_log m) = received_list (o_log m) ++ o_buffer m /\
  (forall x at_, In (Received x at_) (o_log m) -> (fst x <= at_)%Q) /\
  (forall i p x at_, In (Sent i p x at_) (o_log m) -> message_ok g slots rules i p x at_) /\
  (o_pc m = PStart 0 -> forall x b, o_buffer m = x :: b -> ~ (fst x <= o_now m)%Q).
Proof.
  intros g slots rules w rep m Hs R. change (kept g slots rules m). induction R as [|m m' R IH T].
  - split; [reflexivity|]. split; [intros x at_ []|]. split; [intros i p x at_ []|]. discriminate.
  - apply (kept_tick g slots rules w rep m m' Hs IH T).
Qed.
Print Assumptions C154_messages.

Theorem C154_tokens : forall g slots rules w rep m, even_self_loops g -> rates_fit g -> so4_reach g slots rules w rep m ->
  forall k c, nth_error (edges g) k = Some c ->
    s_tokens (o_state m) k = e_preload c + tokens_received (o_log m) k - tokens_taken (o_log m) c.
Proof.
  intros g slots rules w rep m HE HR R. assert (K : counted g m); [|apply K]. induction R as [|m m' R IH T].
  - split; [reflexivity|]. split; [intro i; cbn; lia|]. intros k c Hc. cbn. rewrite Hc. lia.
  - apply (counted_tick g slots rules w rep m m' HE HR IH T).
Qed.
Print Assumptions C154_tokens.

Theorem C155_no_deadlock_reported : forall fuel ticks g slots rules, so4_throughput fuel ticks g slots rules <> Ok So4Deadlock.
Proof.
  intros fuel ticks g slots rules H. unfold so4_throughput in H. destruct (prepare fuel g None) as [[[w rep] m0]| | |]; try discriminate. cbn [bind fst snd] in H.
  revert H. generalize (so4_start g). induction ticks as [|n IH]; intros m H; [discriminate|]. cbn [so4_run] in H.
  destruct (so4_tick g slots rules w rep m) as [a| | |] eqn:E; try discriminate. cbn [bind] in H. destruct a as [m'| |].
  - apply (IH m' H).
  - discriminate.
  - apply (tick_not_deadlock g slots rules w rep m E).
Qed.
Print Assumptions C155_no_deadlock_reported.

Theorem C155_dead_refuted : forall fuel ticks g slots rules a, dead_at_start g -> rates_fit g -> even_self_loops g ->
  so4_throughput fuel ticks g slots rules <> Ok a.
Proof.
  intros fuel ticks g slots rules a HD HR HE H. unfold so4_throughput in H. destruct (prepare fuel g None) as [[[w rep] m0]| | |]; try discriminate. cbn [bind fst snd] in H.
  rewrite stuck_runs in H; [discriminate|]. split; [reflexivity|]. split; [reflexivity|]. intros i v s Hv Ht _.
  destruct (HD i v Hv) as (k & c & Hc & Hd & Hp).
  assert (RN : forall a, 0 <= a_execs a -> current_rate v i a c = nth (Z.to_nat (a_execs a mod Z.of_nat (length (e_out c)))) (e_out c) 0).
  { intros a0 Ha. eapply rate_nth; eassumption. }
  unfold ready. apply andb_false_iff. left. apply not_true_iff_false. intro F. rewrite forallb_forall in F.
  specialize (F _ ltac:(eapply numbered_nth; try exact Hc; try exact slots; try exact rules; assumption)). cbn [fst snd] in F. rewrite Hd, Nat.eqb_refl in F. cbn [negb orb] in F.
  rewrite Ht in F. cbn [o_state so4_start new_state s_tokens] in F. rewrite Hc in F. rewrite (RN (o_actors (so4_start g) i) ltac:(cbn; lia)) in F.
  cbn [a_execs o_actors so4_start] in F. rewrite Z.mod_0_l in F.
  2:{ destruct (HR c (nth_error_In _ _ Hc)) as [_ (v' & _ & L & P)]. lia. }
  change (Z.to_nat 0) with O in F. destruct (Z.ltb_spec (e_preload c) (nth 0 (e_out c) 0)); [discriminate | lia].
Qed.
Print Assumptions C155_dead_refuted.

(** * Concrete cases *)
(** A ring of two tasks; the first also sends to the second on a second channel with another slot. *)
Definition ring : graph := mkGraph [mkVertex 1 1 0 [1]%Q [] 1; mkVertex 2 1 0 [1]%Q [] 1]
  [mkEdge 1 0 1 [1] [1] [] [] 0; mkEdge 2 0 1 [1] [1] [] [] 0; mkEdge 3 1 0 [1] [1] [] [] 1].
Definition ring_rules (k : nat) : rule := match k with 0%nat => mkRule false 3 1 | 1%nat => mkRule false 1 1 | _ => mkRule true 0 0 end.
Example ring_fits : rates_fit ring /\ even_self_loops ring.
Proof.
  split.
  - intros c [<-|[<-|[<-|[]]]]; cbn; split; eexists; (split; [reflexivity | split; [reflexivity | cbn; auto with arith]]).
  - intros c [<-|[<-|[<-|[]]]]; cbn; discriminate.
Qed.
Example ring_runs : so4_throughput 30 400 ring 4 ring_rules = Ok (So4Periodic 1 6).
Proof. vm_compute. reflexivity. Qed.
Fixpoint after (n : nat) (m : so4) : outcome so4 :=
  match n with
  | O => Ok m
  | S n' => do a <- so4_tick ring 4 ring_rules 0 1 m; match a with So4Running m' => after n' m' | _ => Undefined end
  end.
Lemma after_reach : forall n m m', so4_reach ring 4 ring_rules 0 1 m -> after n m = Ok m' -> so4_reach ring 4 ring_rules 0 1 m'.
Proof.
  induction n as [|n IH]; intros m m' R H; cbn [after] in H; [injection H as <-; exact R|].
  destruct (so4_tick ring 4 ring_rules 0 1 m) as [a| | |] eqn:E; try discriminate. cbn [bind] in H. destruct a as [m1| |]; try discriminate.
  apply (IH m1 m'); [|exact H]. eapply reach_tick; eassumption.
Qed.
Definition seen (r : outcome so4) : option (pc * Q * list message) := match r with Ok m => Some (o_pc m, o_now m, o_buffer m) | _ => None end.
(** A message that is due stays behind one that is not: at instant 2, once the messages that are due
    have been delivered, one that was due at 2 is still there. *)
Theorem C155_late_refuted : exists m, so4_reach ring 4 ring_rules 0 1 m /\ o_pc m = PStart 0 /\
  exists x, In x (o_buffer m) /\ (fst x <= o_now m)%Q.
Proof.
  assert (E : exists n, seen (after n (so4_start ring)) = Some (PStart 0, 2%Q, [(4%Q, (0%nat, 1)); (2%Q, (1%nat, 1))])) by (exists 18%nat; vm_compute; reflexivity).
  destruct E as (n & E). destruct (after n (so4_start ring)) as [m| | |] eqn:A; try discriminate. cbn in E. injection E as E1 E2 E3.
  exists m. split; [apply (after_reach n (so4_start ring) m); [apply reach_start | exact A]|]. split; [exact E1|].
  exists (2%Q, (1%nat, 1)). rewrite E2, E3. split; [right; left; reflexivity | apply Qle_refl].
Qed.
Print Assumptions C155_late_refuted.
Definition dead_loop : graph := mkGraph [mkVertex 1 1 0 [1]%Q [] 1] [mkEdge 1 0 0 [2] [2] [] [] 1].
Example dead_loop_meets : dead_at_start dead_loop /\ rates_fit dead_loop /\ even_self_loops dead_loop.
Proof.
  split; [|split].
  - intros [|[|i]] v H; cbn in H; try discriminate. exists 0%nat. eexists. split; [reflexivity|]. split; [reflexivity|]. cbn. lia.
  - intros c [<-|[]]; cbn; split; eexists; (split; [reflexivity | split; [reflexivity | cbn; auto with arith]]).
  - intros c [<-|[]]; cbn; intros; auto.
Qed.
