(** Theorems on the firings of the execution with TDMA slots (C156). *)
From Coq Require Import QArith ZifyBool ZifyNat Lqa.
From Verif Require Import Base Graph RepVec Sim SimSpec SimTime So4 So4Spec So4Props So4Firings.
Open Scope Z_scope.

Lemma timed_reach : forall g slots rules w rep m, durations_fit g -> (forall i, (i < length (vertices g))%nat -> has_input g i) ->
  so4_reach g slots rules w rep m -> timed g m.
Proof.
  intros g slots rules w rep m HD HI R. induction R as [|m m' R IH T].
  - intros i v Hv. split; [reflexivity|]. split; [reflexivity|]. split; [left; split; reflexivity|]. exists [], []. split; [reflexivity|]. split; constructor.
  - apply (timed_tick g slots rules w rep HD HI m m' IH T).
Qed.

(** Firings are numbered in order and do not overlap; each one but a last one that goes on has sent
    one message on each output channel, at its start plus the duration of its phase. *)
Theorem C156_firings : forall g slots rules w rep m, durations_fit g -> (forall i, (i < length (vertices g))%nat -> has_input g i) ->
  so4_reach g slots rules w rep m -> forall i v, nth_error (vertices g) i = Some v ->
  map fst (takes (o_log m) i) = map Z.of_nat (seq 0 (length (takes (o_log m) i))) /\
  exists done pending, takes (o_log m) i = done ++ pending /\ (length pending <= 1)%nat /\
    (forall f, In f pending -> (snd f <= o_now m <= snd f + lasts v (fst f))%Q) /\
    forall k c, nth_error (edges g) k = Some c -> e_src c = i ->
      Forall2 (fun f s => fst s = phase_of v (fst f) /\ (snd s == snd f + lasts v (fst f))%Q) done (sends (o_log m) k).
Proof.
  intros g slots rules w rep m HD HI R i v Hv. destruct (timed_reach g slots rules w rep m HD HI R i v Hv) as (A & _ & C & done & pending & D & E & F).
  split; [exact A|]. exists done, pending. split; [exact D|].
  destruct C as [[C _]|(t & p & C & _ & C3)]; rewrite C in E; cbn [map] in E.
  - inversion E; subst. split; [auto|]. split; [intros f []|]. exact F.
  - inversion E as [|f q l1 l2 G1 G2 G3 G4]; subst. inversion G2; subst. split; [auto|]. split; [|exact F].
    intros x [<-|[]]. destruct G1 as (_ & G & G'). cbn [swap fst snd] in G. split; lra.
Qed.
Print Assumptions C156_firings.

(** * Tokens are not negative *)
Lemma rate_nonneg : forall g v i c p, nonnegative g -> In c (edges g) -> 0 <= exec_rate v i c p.
Proof.
  intros g v i c p HN Hc. destruct (HN c Hc) as (_ & A & B). unfold exec_rate. destruct ((1 <=? p) && (p <=? Z.of_nat (v_phases v)))%bool; [|lia].
  assert (X : forall l, (forall x, In x l -> 0 <= x) -> 0 <= nth (Z.to_nat (p - 1)) l 0).
  { intros l Hl. destruct (nth_in_or_default (Z.to_nat (p - 1)) l 0) as [Hin | ->]; [apply Hl, Hin | lia]. }
  destruct (e_src c =? i)%nat; apply X; assumption.
Qed.
Lemma messages_nonneg : forall g slots rules i v p now l new, nonnegative g -> (forall k c, In (k, c) l -> In c (edges g)) ->
  messages slots rules i v p now l = Ok new -> forall x, In x new -> 0 <= snd (snd x).
Proof.
  intros g slots rules i v p now l new HN. revert new. induction l as [|[k c] l IH]; intros new Hl H x Hx; cbn [messages] in H.
  - injection H as <-. destruct Hx.
  - destruct (e_src c =? i)%nat; [|apply (IH new); auto; intros; eapply Hl; right; eassumption].
    destruct (arrival slots (rules k) now) as [t| | |]; try discriminate. cbn [bind] in H.
    destruct (messages slots rules i v p now l) as [r| | |] eqn:Em; try discriminate. cbn [bind] in H. injection H as <-.
    destruct Hx as [<-|Hx]; [|apply (IH r); auto; intros; eapply Hl; right; eassumption].
    cbn. eapply rate_nonneg; [eassumption|]. eapply Hl. left. reflexivity.
Qed.
Lemma deliver_nonneg : forall now buffer tokens log b t l, deliver now buffer tokens log = (b, t, l) ->
  (forall x, In x buffer -> 0 <= snd (snd x)) -> (forall k, tokens k <= t k) /\ (forall x, In x b -> 0 <= snd (snd x)).
Proof.
  intros now buffer. induction buffer as [|[t0 [k0 n0]] buffer IH]; intros tokens log b t l H HB; cbn [deliver] in H.
  - injection H as <- <- <-. split; [intro; lia | exact HB].
  - destruct (Qle_bool t0 now); [|injection H as <- <- <-; split; [intro; lia | exact HB]].
    destruct (IH _ _ _ _ _ H) as [A B]; [intros; apply HB; right; assumption|]. split; [|exact B].
    intro k. specialize (A k). unfold upd in A. specialize (HB _ (or_introl eq_refl)). cbn in HB. destruct (Nat.eqb_spec k k0); subst; lia.
Qed.
Definition sound_tokens (g : graph) (m : so4) : Prop :=
  (forall k, In k (seq 0 (length (edges g))) -> 0 <= s_tokens (o_state m) k) /\ (forall x, In x (o_buffer m) -> 0 <= snd (snd x)).
Lemma sound_tick : forall g slots rules w rep m m', nonnegative g -> sound_tokens g m -> so4_tick g slots rules w rep m = Ok (So4Running m') -> sound_tokens g m'.
Proof.
  intros g slots rules w rep m m' HN (S1 & S2) H. unfold so4_tick in H. destruct (o_pc m) as [i|i|] eqn:Epc.
  - destruct (nth_error (vertices g) i) as [v|] eqn:Ev.
    + destruct (ready_to_end i (o_state m)) eqn:Er; [|injection H as <-; split; assumption].
      cbv zeta in H. destruct (s_queue _ i) as [|[q0 p] queue] eqn:Eq; try discriminate.
      destruct (messages slots rules i v p (o_now m) (numbered g)) as [new| | |] eqn:Em; try discriminate. cbn [bind] in H. injection H as <-.
      unfold sound_tokens. cbn [o_state o_buffer s_tokens]. split; [destruct (_ && _); exact S1|]. intros x Hx. apply in_app_or in Hx. destruct Hx as [Hx|Hx]; [apply S2, Hx|].
      eapply (messages_nonneg g); [exact HN | | exact Em | exact Hx]. intros k c Hk. apply in_combine_r in Hk. exact Hk.
    + destruct (deliver (o_now m) (o_buffer m) (s_tokens (o_state m)) (o_log m)) as [[b t] l] eqn:Ed. injection H as <-.
      destruct (deliver_nonneg _ _ _ _ _ _ _ Ed S2) as [A B]. split; [|exact B]. intros k Hk. cbn. specialize (S1 k Hk). specialize (A k). lia.
  - destruct (nth_error (vertices g) i) as [v|] eqn:Ev; [|injection H as <-; split; assumption].
    destruct (ready g i v (o_actors m i) (o_state m)) eqn:Er; [|injection H as <-; split; assumption].
    destruct (exec_start g i v (o_actors m i) (o_state m)) as [r| | |] eqn:Es; try discriminate. cbn [bind] in H. cbv zeta in H.
    assert (exists left, m' = mkSo4 (PStart (S i)) (upd (o_actors m) i (fst r)) (update_state g (upd (o_actors m) i (fst r)) (snd r)) (o_count m) (o_visited m) (o_now m) (o_buffer m) (o_end m) left (Took i (a_execs (o_actors m i)) (o_now m) :: o_log m)) as (left & ->).
    { destruct (o_end m) as [[n t]|]; [destruct (filter _ (o_left m))|]; try discriminate; injection H as <-; eauto. }
    unfold exec_start in Es. destruct (vertex_duration v (actor_phase v (o_actors m i))) as [d| | |]; try discriminate. cbn [bind] in Es. injection Es as <-.
    split; [|exact S2]. cbn [o_state update_state s_tokens snd]. intros k Hk. specialize (S1 k Hk). unfold on_inputs.
    destruct (nth_error (edges g) k) as [c|] eqn:Ec; [|exact S1]. destruct (Nat.eqb_spec (e_dst c) i) as [Hd|]; [|exact S1].
    unfold ready in Er. apply andb_true_iff in Er. destruct Er as [Er _]. rewrite forallb_forall in Er.
    specialize (Er (k, c) ltac:(eapply numbered_nth; try exact Ec; try exact slots; try exact rules; assumption)). cbn [fst snd] in Er. rewrite Hd, Nat.eqb_refl in Er. cbn [negb orb] in Er.
    destruct (Z.ltb_spec (s_tokens (o_state m) k) (current_rate v i (o_actors m i) c)); [discriminate | lia].
  - destruct (Qeq_bool (fst (advance_mod g (o_state m))) long_max); try discriminate. injection H as <-. split; [|exact S2]. cbn [o_state].
    unfold advance_mod. destruct (Qeq_bool (next_end g (o_state m)) 0); [exact S1|]. destruct (Qeq_bool (next_end g (o_state m)) long_max); exact S1.
Qed.
Theorem C156_nonnegative : forall g slots rules w rep m, nonnegative g -> so4_reach g slots rules w rep m ->
  forall k, (k < length (edges g))%nat -> 0 <= s_tokens (o_state m) k.
Proof.
  intros g slots rules w rep m HN R k Hk. assert (S : sound_tokens g m); [|apply S, in_seq; lia]. clear k Hk. induction R as [|m m' R IH T].
  - split; [|intros x []]. intros k Hk. cbn. apply in_seq in Hk. destruct (nth_error (edges g) k) as [c|] eqn:Ec; [|lia]. exact (proj1 (HN c (nth_error_In _ _ Ec))).
  - apply (sound_tick g slots rules w rep m m' HN IH T).
Qed.
Print Assumptions C156_nonnegative.

(** * No task that could fire is left waiting *)
Definition idle_ready (g : graph) (m : so4) (j : nat) : Prop :=
  exists v, nth_error (vertices g) j = Some v /\ ready g j v (o_actors m j) (o_state m) = true.
Definition tried (g : graph) (m : so4) : Prop :=
  match o_pc m with
  | PEnd _ => True
  | PStart i => forall j, (j < i)%nat -> ~ idle_ready g m j
  | PAdvance => forall j, ~ idle_ready g m j
  end.
Lemma tried_tick : forall g slots rules w rep m m', (forall i, (i < length (vertices g))%nat -> has_input g i) -> s_bounded (o_state m) = false ->
  tried g m -> so4_tick g slots rules w rep m = Ok (So4Running m') -> tried g m'.
Proof.
  intros g slots rules w rep m m' HI HB HT H. unfold so4_tick in H. unfold tried in *. destruct (o_pc m) as [i|i|] eqn:Epc.
  - destruct (nth_error (vertices g) i) as [v|] eqn:Ev.
    + destruct (ready_to_end i (o_state m)) eqn:Er; [|injection H as <-; exact I].
      cbv zeta in H. destruct (s_queue _ i) as [|[q0 p] queue] eqn:Eq; try discriminate.
      destruct (messages slots rules i v p (o_now m) (numbered g)) as [new| | |] eqn:Em; try discriminate. cbn [bind] in H. injection H as <-. exact I.
    + destruct (deliver (o_now m) (o_buffer m) (s_tokens (o_state m)) (o_log m)) as [[b t] l] eqn:Ed. injection H as <-. cbn [o_pc]. intros j Hj. lia.
  - destruct (nth_error (vertices g) i) as [v|] eqn:Ev.
    + destruct (ready g i v (o_actors m i) (o_state m)) eqn:Er.
      * destruct (exec_start g i v (o_actors m i) (o_state m)) as [r| | |] eqn:Es; try discriminate. cbn [bind] in H. cbv zeta in H.
        assert (exists left, m' = mkSo4 (PStart (S i)) (upd (o_actors m) i (fst r)) (update_state g (upd (o_actors m) i (fst r)) (snd r)) (o_count m) (o_visited m) (o_now m) (o_buffer m) (o_end m) left (Took i (a_execs (o_actors m i)) (o_now m) :: o_log m)) as (left & ->).
        { destruct (o_end m) as [[n t]|]; [destruct (filter _ (o_left m))|]; try discriminate; injection H as <-; eauto. }
        cbn [o_pc]. intros j Hj (u & Hu & R). cbn [o_actors o_state] in R.
        unfold exec_start in Es. destruct (vertex_duration v (actor_phase v (o_actors m i))) as [d| | |]; try discriminate. cbn [bind] in Es. injection Es as <-. cbn [fst snd] in R.
        destruct (Nat.eq_dec j i) as [->|Hne].
        -- assert (Hi : (i < length (vertices g))%nat) by (apply nth_error_Some; congruence).
           assert (X : a_busy (upd (o_actors m) i (mkActor (a_execs (o_actors m i) + 1) true) i) = false) by (eapply ready_idle; eassumption). unfold upd in X. rewrite Nat.eqb_refl in X. discriminate.
        -- apply (HT j ltac:(lia)). exists u. split; [exact Hu|]. rewrite <- R. unfold ready. cbn [update_state s_tokens s_space s_bounded]. rewrite HB. cbn [negb orb]. f_equal.
           unfold upd. destruct (Nat.eqb_spec j i); [contradiction|].
           assert (L : forall l : list (nat * edge), (forall k c, In (k, c) l -> nth_error (edges g) k = Some c) ->
             forallb (fun kc => negb (e_dst (snd kc) =? j)%nat || negb ((s_tokens (o_state m) (fst kc) <? current_rate u j (o_actors m j) (snd kc)) || a_busy (o_actors m j))) l =
             forallb (fun kc => negb (e_dst (snd kc) =? j)%nat || negb ((on_inputs g i (fun c t => t - current_rate v i (o_actors m i) c) (s_tokens (o_state m)) (fst kc) <? current_rate u j (o_actors m j) (snd kc)) || a_busy (o_actors m j))) l).
           { induction l as [|[k c] l IHl]; intro Hl; [reflexivity|]. cbn [forallb fst snd]. rewrite IHl by (intros; apply Hl; right; assumption). f_equal.
             unfold on_inputs. rewrite (Hl k c (or_introl eq_refl)). destruct (Nat.eqb_spec (e_dst c) j); [|reflexivity]. destruct (Nat.eqb_spec (e_dst c) i); [congruence | reflexivity]. }
           apply L. intros k c. eapply numbered_in; try exact slots; try exact rules.
      * injection H as <-. cbn [o_pc]. intros j Hj (u & Hu & R). cbn [o_actors o_state] in R. destruct (Nat.eq_dec j i) as [->|Hne].
        -- congruence.
        -- apply (HT j ltac:(lia)). exists u. auto.
    + injection H as <-. cbn [o_pc]. intros j (u & Hu & R). apply nth_error_None in Ev. assert (j < length (vertices g))%nat by (apply nth_error_Some; congruence).
      apply (HT j ltac:(lia)). exists u. auto.
  - destruct (Qeq_bool (fst (advance_mod g (o_state m))) long_max); try discriminate. injection H as <-. exact I.
Qed.
(** When time advances, every task is executing a firing or lacks tokens on some channel. *)
Theorem C156_eager : forall g slots rules w rep m, durations_fit g -> (forall i, (i < length (vertices g))%nat -> has_input g i) -> even_self_loops g -> rates_fit g ->
  so4_reach g slots rules w rep m -> o_pc m = PAdvance -> forall j, (j < length (vertices g))%nat -> s_queue (o_state m) j <> [] \/ lacks g m j.
Proof.
  intros g slots rules w rep m HD HI HE HR R Hpc j Hj.
  assert (K : counted g m /\ tried g m).
  { clear Hpc. induction R as [|m m' R IH T].
    - split; [|exact I]. split; [reflexivity|]. split; [intro i; cbn; lia|]. intros k c Hc. cbn. rewrite Hc. lia.
    - destruct IH as [IH1 IH2]. split; [apply (counted_tick g slots rules w rep m m' HE HR IH1 T)|]. apply (tried_tick g slots rules w rep m m' HI (proj1 IH1) IH2 T). }
  destruct K as [(KB & KN & _) KT]. unfold tried in KT. rewrite Hpc in KT. specialize (KT j).
  destruct (nth_error (vertices g) j) as [v|] eqn:Ev; [|apply nth_error_None in Ev; lia].
  destruct (timed_reach g slots rules w rep m HD HI R j v Ev) as (_ & B & C & _). destruct C as [[C C']|(t & p & C & _)]; [|left; rewrite C; discriminate].
  right. assert (NR : ready g j v (o_actors m j) (o_state m) = false) by (apply not_true_iff_false; intro X; apply KT; exists v; auto).
  unfold ready in NR. rewrite KB in NR. cbn [negb orb] in NR. rewrite andb_true_r in NR.
  assert (X : forall l : list (nat * edge), (forall k c, In (k, c) l -> nth_error (edges g) k = Some c) ->
    forallb (fun kc => negb (e_dst (snd kc) =? j)%nat || negb ((s_tokens (o_state m) (fst kc) <? current_rate v j (o_actors m j) (snd kc)) || a_busy (o_actors m j))) l = false ->
    exists k c, nth_error (edges g) k = Some c /\ e_dst c = j /\ s_tokens (o_state m) k < current_rate v j (o_actors m j) c).
  { induction l as [|[k c] l IHl]; intros Hl Hf; [discriminate|]. cbn [forallb fst snd] in Hf. apply andb_false_iff in Hf. destruct Hf as [Hf|Hf].
    - exists k, c. split; [apply Hl; left; reflexivity|]. rewrite C', orb_false_r in Hf. destruct (Nat.eqb_spec (e_dst c) j); [|discriminate]. cbn [negb orb] in Hf.
      split; [assumption|]. destruct (Z.ltb_spec (s_tokens (o_state m) k) (current_rate v j (o_actors m j) c)); [assumption | discriminate].
    - apply IHl; [|exact Hf]. intros; apply Hl; right; assumption. }
  destruct (X (numbered g) ltac:(intros k c; eapply numbered_in; try exact slots; try exact rules) NR) as (k & c & Hc & Hd & Hlt).
  exists k, c. split; [exact Hc|]. split; [exact Hd|]. rewrite <- B.
  assert (RN : current_rate v j (o_actors m j) c = nth (Z.to_nat (a_execs (o_actors m j) mod Z.of_nat (length (e_out c)))) (e_out c) 0) by (eapply rate_nth; try eassumption; apply KN).
  rewrite <- RN. exact Hlt.
Qed.
Print Assumptions C156_eager.

(** * A concrete case *)
Example ring_meets : durations_fit ring /\ (forall i, (i < length (vertices ring))%nat -> has_input ring i) /\ nonnegative ring.
Proof.
  split; [|split].
  - intros v [<-|[<-|[]]]; (split; [auto with arith | split; [reflexivity|]]); intros d [<-|[]]; split; vm_compute; congruence.
  - intros [|[|i]] Hi; [exists (mkEdge 3 1 0 [1] [1] [] [] 1) | exists (mkEdge 1 0 1 [1] [1] [] [] 0) | cbn in Hi; lia]; split; cbn; auto.
  - intros c [<-|[<-|[<-|[]]]]; (split; [cbn; lia | split; intros x [<-|[]]; lia]).
Qed.
