(** What the throughput returned by the execution with TDMA slots is (C158). *)
From Coq Require Import QArith ZifyBool ZifyNat Lqa.
From Verif Require Import Base Graph RepVec Sim SimSpec So4 So4Spec So4Props So4Firings So4RateSpec.
Open Scope Z_scope.

Definition sum_times (l : list state) : Q := fold_right (fun s acc => (s_time s + acc)%Q) 0%Q l.
Lemma total_sum : forall l, (total_time l == sum_times l)%Q.
Proof.
  assert (G : forall l a, (fold_left (fun acc s => Qred (acc + s_time s)) l a == a + sum_times l)%Q).
  { induction l as [|s l IH]; intro a; cbn [fold_left sum_times fold_right]; [lra|]. rewrite IH. rewrite Qred_correct. unfold sum_times. lra. }
  intro l. unfold total_time. rewrite G. lra.
Qed.
Lemma repeated_suffix : forall g visited s, exists pre, visited = pre ++ from_repeated g visited s.
Proof.
  intros g visited s. induction visited as [|x r [pre IH]]; cbn [from_repeated]; [exists []; reflexivity|].
  destruct (state_eq g x s); [exists []; reflexivity|]. exists (x :: pre). cbn. rewrite <- IH. reflexivity.
Qed.
Lemma done_at_app : forall rep l l' j, (0 < rep)%nat -> (j * rep <= length l)%nat -> done_at rep (l ++ l') j = done_at rep l j.
Proof.
  intros rep l l' j Hr H. unfold done_at. destruct (Nat.eqb_spec j 0); [reflexivity|]. rewrite app_nth1; [reflexivity | nia].
Qed.
Lemma measured_app : forall rep l l' n t, (0 < rep)%nat -> measured rep l n t -> measured rep (l ++ l') n t.
Proof.
  intros rep l l' n t Hr (Hn & j & H1 & H2 & H3). split; [exact Hn|]. exists j. split; [exact H1|]. rewrite app_length. split; [lia|].
  rewrite !done_at_app by (auto; nia). exact H3.
Qed.

Section Rate.
Variables (g : graph) (slots : Z) (rules : nat -> rule) (w : nat) (rep : nat) (k : nat) (c : edge).
Hypotheses (Hrep : (0 < rep)%nat) (Hk : nth_error (edges g) k = Some c) (Hw : e_src c = w).
Notation fired m := (sends (o_log m) k).

(** The visited states are those at the end of the iterations; their times are those the iterations took. *)
Definition paced (m : so4) : Prop :=
  match o_end m with
  | Some (n, t) => measured rep (fired m) n t
  | None =>
    0 <= o_count m < Z.of_nat rep /\
    Z.of_nat (length (fired m)) = Z.of_nat (length (o_visited m) * rep) + o_count m /\
    (o_now m == done_at rep (fired m) (length (o_visited m)) + s_time (o_state m))%Q /\
    forall j s, nth_error (o_visited m) j = Some s -> (s_time s == done_at rep (fired m) (S j) - done_at rep (fired m) j)%Q
  end.

Lemma sum_suffix : forall l at_ a, (forall j s, nth_error l j = Some s -> (s_time s == at_ (S (a + j)) - at_ (a + j)%nat)%Q) ->
  (sum_times l == at_ (a + length l)%nat - at_ a)%Q.
Proof.
  induction l as [|s l IH]; intros at_ a H; cbn [sum_times fold_right length].
  - rewrite Nat.add_0_r. lra.
  - pose proof (H 0%nat s eq_refl) as H0. rewrite Nat.add_0_r in H0. specialize (IH at_ (S a)). unfold sum_times in IH. rewrite IH.
    + replace (S a + length l)%nat with (a + S (length l))%nat by lia. rewrite H0. lra.
    + intros j s' Hs. specialize (H (S j) s' Hs). replace (a + S j)%nat with (S a + j)%nat in H by lia. exact H.
Qed.
Lemma paced_same : forall m m', paced m -> o_end m' = o_end m -> o_count m' = o_count m -> o_visited m' = o_visited m -> o_now m' = o_now m ->
  s_time (o_state m') = s_time (o_state m) -> fired m' = fired m -> paced m'.
Proof. intros m m' P E1 E2 E3 E4 E5 E6. unfold paced in *. rewrite E1, E2, E3, E4, E5, E6. exact P. Qed.
Lemma paced_tick : forall m m', paced m -> so4_tick g slots rules w (Z.of_nat rep) m = Ok (So4Running m') -> paced m'.
Proof.
  intros m m' P H. unfold so4_tick in H. destruct (o_pc m) as [i|i|] eqn:Epc.
  - destruct (nth_error (vertices g) i) as [v|] eqn:Ev.
    + destruct (ready_to_end i (o_state m)) eqn:Er; [|injection H as <-; apply (paced_same m); auto].
      cbv zeta in H. destruct (s_queue _ i) as [|[q0 p] queue] eqn:Eq; try discriminate. clear Eq.
      destruct (messages slots rules i v p (o_now m) (numbered g)) as [new| | |] eqn:Em; try discriminate. cbn [bind] in H. injection H as <-.
      assert (SK : sends (fold_left (fun l x => Sent i p x (o_now m) :: l) new (o_log m)) k = fired m ++ if (w =? i)%nat then [(p, o_now m)] else []).
      { rewrite sends_fold. rewrite (messages_one slots rules _ _ _ _ _ _ _ Em k). cbn [Nat.leb]. rewrite Nat.sub_0_r, Hk, Hw. reflexivity. }
      unfold paced in *. cbn [o_end o_log o_count o_visited o_now o_state s_time]. rewrite SK.
      destruct (o_end m) as [[n t]|] eqn:Ee.
      * rewrite andb_false_r. apply measured_app; assumption.
      * rewrite andb_true_r. destruct P as (P1 & P2 & P3 & P4). rewrite (Nat.eqb_sym w i). destruct (Nat.eqb_spec i w) as [->|Hi]; cbn [andb].
        -- destruct (Z.eqb_spec (o_count m + 1) (Z.of_nat rep)) as [Hfull|Hnot].
           ++ destruct (repeated_suffix g (o_visited m) (o_state m)) as [pre Hpre]. destruct (from_repeated g (o_visited m) (o_state m)) as [|s0 rest] eqn:Ef.
              ** split; [lia|]. rewrite !app_length. cbn [length]. split; [lia|].
                 assert (D : done_at rep (fired m ++ [(p, o_now m)]) (length (o_visited m) + 1) = o_now m).
                 { unfold done_at. destruct (Nat.eqb_spec (length (o_visited m) + 1) 0); [lia|].
                   replace ((length (o_visited m) + 1) * rep - 1)%nat with (length (fired m)) by nia. rewrite app_nth2, Nat.sub_diag by lia. reflexivity. }
                 split; [rewrite D; cbn [s_time]; ring|].
                 intros j s Hs. destruct (Nat.lt_ge_cases j (length (o_visited m))) as [L|L].
                 --- rewrite nth_error_app1 in Hs by exact L. rewrite !done_at_app by (auto; nia). apply P4, Hs.
                 --- rewrite nth_error_app2 in Hs by exact L. destruct (j - length (o_visited m))%nat as [|[|x]] eqn:Ej; cbn in Hs; try discriminate. injection Hs as <-.
                     replace j with (length (o_visited m)) by lia. replace (S (length (o_visited m))) with (length (o_visited m) + 1)%nat by lia. rewrite D.
                     rewrite done_at_app by (auto; lia). rewrite P3. ring.
              ** apply measured_app; [exact Hrep|]. split; [cbn; lia|]. exists (length (o_visited m)). rewrite Hpre at 1. rewrite app_length. split; [lia|]. split; [lia|].
                 rewrite total_sum. rewrite (sum_suffix (s0 :: rest) (done_at rep (fired m)) (length pre)).
                 --- rewrite Hpre, app_length. replace (length pre + length (s0 :: rest) - length (s0 :: rest))%nat with (length pre) by lia. reflexivity.
                 --- intros j s Hs. apply P4. rewrite Hpre, nth_error_app2 by lia. replace (length pre + j - length pre)%nat with j by lia. exact Hs.
           ++ split; [lia|]. rewrite app_length. cbn [length]. split; [lia|]. rewrite !done_at_app by (auto; lia). split; [exact P3|].
              intros j s Hs. assert (j < length (o_visited m))%nat by (apply nth_error_Some; congruence). rewrite !done_at_app by (auto; nia). apply P4, Hs.
        -- rewrite app_nil_r. split; [exact P1|]. split; [exact P2|]. split; [exact P3 | exact P4].
    + destruct (deliver (o_now m) (o_buffer m) (s_tokens (o_state m)) (o_log m)) as [[b t] l] eqn:Ed. injection H as <-.
      destruct (sends_deliver _ _ _ _ _ _ _ Ed) as [A _]. apply (paced_same m); auto.
  - destruct (nth_error (vertices g) i) as [v|] eqn:Ev; [|injection H as <-; apply (paced_same m); auto].
    destruct (ready g i v (o_actors m i) (o_state m)) eqn:Er; [|injection H as <-; apply (paced_same m); auto].
    destruct (exec_start g i v (o_actors m i) (o_state m)) as [r| | |] eqn:Es; try discriminate. cbn [bind] in H. cbv zeta in H.
    assert (exists left, m' = mkSo4 (PStart (S i)) (upd (o_actors m) i (fst r)) (update_state g (upd (o_actors m) i (fst r)) (snd r)) (o_count m) (o_visited m) (o_now m) (o_buffer m) (o_end m) left (Took i (a_execs (o_actors m i)) (o_now m) :: o_log m)) as (left & ->).
    { destruct (o_end m) as [[n t]|]; [destruct (filter _ (o_left m))|]; try discriminate; injection H as <-; eauto. }
    unfold exec_start in Es. destruct (vertex_duration v (actor_phase v (o_actors m i))) as [d| | |]; try discriminate. cbn [bind] in Es. injection Es as <-.
    apply (paced_same m); auto.
  - destruct (Qeq_bool (fst (advance_mod g (o_state m))) long_max); try discriminate.
    assert (Em' := f_equal (fun o => match o with Ok (So4Running x) => x | _ => m end) H). cbv beta iota in Em'. subst m'. clear H.
    unfold paced in *. cbn [o_end o_log o_count o_visited o_now o_state]. destruct (o_end m) as [[n t]|]; [exact P|]. destruct P as (P1 & P2 & P3 & P4).
    split; [exact P1|]. split; [exact P2|]. split; [|exact P4].
    pose proof (Qred_correct (o_now m + fst (advance_mod g (o_state m)))) as Q0. rewrite Q0, P3. clear Q0. unfold advance_mod.
    destruct (Qeq_bool (next_end g (o_state m)) 0); [unfold fst, snd; lra|].
    destruct (Qeq_bool (next_end g (o_state m)) long_max).
    + pose proof (Qred_correct (s_time (o_state m) + 1)) as Q1. unfold fst, snd, s_time at 2. lra.
    + pose proof (Qred_correct (s_time (o_state m) + next_end g (o_state m))) as Q1. unfold fst, snd, s_time at 2. lra.
Qed.
Lemma paced_end : forall m n t, paced m -> so4_tick g slots rules w (Z.of_nat rep) m = Ok (So4Periodic n t) -> measured rep (fired m) n t.
Proof.
  intros m n t P H. unfold so4_tick in H. destruct (o_pc m) as [i|i|] eqn:Epc.
  - destruct (nth_error (vertices g) i) as [v|].
    + destruct (ready_to_end i (o_state m)); [|discriminate]. cbv zeta in H. destruct (s_queue _ i) as [|[q0 p] queue]; try discriminate.
      destruct (messages slots rules i v p (o_now m) (numbered g)); discriminate.
    + destruct (deliver (o_now m) (o_buffer m) (s_tokens (o_state m)) (o_log m)) as [[b t'] l]. discriminate.
  - destruct (nth_error (vertices g) i) as [v|]; [|discriminate]. destruct (ready g i v (o_actors m i) (o_state m)); [|discriminate].
    destruct (exec_start g i v (o_actors m i) (o_state m)) as [r| | |]; try discriminate. cbn [bind] in H. cbv zeta in H. unfold paced in P.
    destruct (o_end m) as [[n' t']|]; [|discriminate]. destruct (filter _ (o_left m)); [|discriminate].
    assert (X := f_equal (fun o => match o with Ok (So4Periodic a b) => (a, b) | _ => (n', t') end) H). cbv beta iota in X. injection X as -> ->. exact P.
  - destruct (Qeq_bool (fst (advance_mod g (o_state m))) long_max); discriminate.
Qed.
End Rate.
