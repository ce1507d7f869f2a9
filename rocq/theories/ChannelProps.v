(** Properties of the search parameters of a channel: C47, C56. *)
From Verif Require Import Base Graph Storage ScheduleSpec ChannelSpec ChannelProofs.
Open Scope Z_scope.

(** ** C47 *)
(** The step is the greatest common divisor of all periodic rates of the channel. *)
Theorem C47_step_is_gcd : forall c g, min_step c = Ok g ->
  0 <= g /\ (forall r, In r (e_in c ++ e_out c) -> (g | r)) /\ (forall h, (forall r, In r (e_in c ++ e_out c) -> (h | r)) -> (h | g)).
Proof. exact min_step_gcd. Qed.
Print Assumptions C47_step_is_gcd.
Theorem C47_defined : forall c, e_in c <> [] -> exists g, min_step c = Ok g.
Proof. intros c N. unfold min_step. destruct (e_in c); [congruence|]. eauto. Qed.
Print Assumptions C47_defined.
(** Without initial phases the number of tokens moves only in multiples of the step ... *)
Theorem C47_multiples_partial : forall c g cap n s, periodic_channel c -> e_in c <> [] -> e_out c <> [] -> min_step c = Ok g ->
  firings c cap n (start c) s -> (g | tokens s - e_preload c).
Proof. exact (fun c g cap n s P N1 N2 E F => firings_multiple c g cap (rates_multiple c g P N1 N2 (proj1 (proj2 (min_step_gcd c g E)))) n (start c) s F). Qed.
Print Assumptions C47_multiples_partial.
(** ... so that capacities between two steps allow exactly the same executions. *)
Theorem C47_nothing_between_steps_partial : forall c g cap cap' n s, periodic_channel c -> e_in c <> [] -> e_out c <> [] -> min_step c = Ok g -> 0 < g ->
  (cap - e_preload c) / g = (cap' - e_preload c) / g -> (firings c cap n (start c) s <-> firings c cap' n (start c) s).
Proof.
  intros c g cap cap' n s P N1 N2 E G Q. pose proof (rates_multiple c g P N1 N2 (proj1 (proj2 (min_step_gcd c g E)))) as D.
  split; apply (firings_same_step c g); auto.
Qed.
Print Assumptions C47_nothing_between_steps_partial.
(** With initial phases the claim fails: their rates are not part of the step. *)
Theorem C47_initial_phases_refuted : exists c g cap n s, e_in c <> [] /\ e_out c <> [] /\ min_step c = Ok g /\ firings c cap n (start c) s /\ ~ (g | tokens s - e_preload c).
Proof.
  exists (mkEdge 1 0 1 [2] [4] [1] [] 0), 2, 4, 1%nat, (mkContent 1 1 0). split; [discriminate|]. split; [discriminate|]. split; [reflexivity|]. split.
  - econstructor; [constructor|]. left. split; [cbn; lia|reflexivity].
  - intros [k H]. cbn [tokens e_preload] in H. lia.
Qed.
Print Assumptions C47_initial_phases_refuted.
Definition ex_c : edge := mkEdge 1 0 1 [6; 4] [10] [] [] 3.
Example C47_hyp : periodic_channel ex_c /\ min_step ex_c = Ok 2 /\ firings ex_c 13 3 (start ex_c) (mkContent 3 2 1).
Proof.
  split; [split; reflexivity|]. split; [reflexivity|]. econstructor; [econstructor; [econstructor; [constructor|]|]|].
  - left. split; [cbn; lia|reflexivity].
  - left. split; [cbn; lia|reflexivity].
  - right. split; [cbn; lia|reflexivity].
Qed.

(** ** C56 *)
(** On a channel with one rate on each side, the size computed is the least capacity with which
    the two tasks can go on firing: with it a firing is always possible, with less room (holding
    the initial tokens) every execution stops. *)
Theorem C56_least_size_partial : forall c p q t size, sdf_channel c p q -> 0 <= e_preload c -> p + q <= int_max -> e_preload c < int_max ->
  min_channel c = Ok (t, size) ->
  t = e_preload c /\ e_preload c <= size /\
  (forall n s, firings c size n (start c) s -> exists s', fires c size s s') /\
  (forall cap, e_preload c <= cap < size -> forall n s, (Z.to_nat (p + q) <= n)%nat -> ~ firings c cap n (start c) s).
Proof.
  intros c p q t size S T L1 L2 E. pose proof S as (_ & _ & _ & P & Q). assert (G : 0 < Z.gcd p q) by (pose proof (Z.gcd_nonneg p q); pose proof (Z.gcd_eq_0_l p q); lia).
  pose proof (Z.mod_pos_bound (e_preload c) (Z.gcd p q) G) as MB.
  destruct (min_channel_sdf c p q S T L1) as [E'|[[H|H] _]]; [lia| |lia|lia]. rewrite E in E'. injection E' as -> ->. split; [reflexivity|]. split; [lia|]. split.
  - apply (sdf_live c p q); [exact S|lia].
  - intros cap C. apply (sdf_dead c p q); [exact S|lia|lia].
Qed.
Print Assumptions C56_least_size_partial.
(** With several phases the size is not the least: only the first gcd(phases) pairs of rates are
    looked at.  Rates 6 against 5,1 get size 10 and run forever with 6. *)
Theorem C56_phases_refuted : exists c size cap, periodic_channel c /\ min_channel c = Ok (e_preload c, size) /\ e_preload c <= cap < size /\
  forall n, exists s, firings c cap n (start c) s.
Proof.
  set (c := mkEdge 1 0 1 [6] [5; 1] [] [] 0). exists c, 10, 6. split; [split; reflexivity|]. split; [reflexivity|]. split; [cbn; lia|].
  assert (P : forall m, prod_rate c m = 6). { intros m. unfold prod_rate, cyclic. cbn [c e_in e_in_init length]. replace (m <? 0)%nat with false by (destruct m; reflexivity). rewrite Nat.mod_1_r. reflexivity. }
  assert (Q : forall m, cons_rate c m = if Nat.even m then 5 else 1).
  { intros m. unfold cons_rate, cyclic. cbn [c e_out e_out_init length]. replace (m <? 0)%nat with false by (destruct m; reflexivity). rewrite Nat.sub_0_r.
    pose proof (Nat.mod_upper_bound m 2 ltac:(lia)) as B. pose proof (Nat.div_mod m 2 ltac:(lia)) as DM. rewrite DM at 2. rewrite Nat.add_comm, Nat.even_add_mul_2. destruct (m mod 2)%nat as [|[|k]]; [reflexivity|reflexivity|lia]. }
  intros n. enough (exists s, firings c 6 n (start c) s /\ ((tokens s = 0 \/ tokens s = 6) /\ Nat.even (consumed s) = true \/ tokens s = 1 /\ Nat.even (consumed s) = false)) by (destruct H as (s & F & _); eauto).
  induction n as [|n (s & F & I)]; [exists (start c); split; [constructor|left; split; [left|]; reflexivity]|]. destruct I as [[[I|I] Ev]|[I Ev]].
  - eexists. split; [econstructor; [exact F|left; split; [rewrite P, I; lia|reflexivity]]|]. cbn [tokens consumed]. rewrite P, I. left. auto.
  - eexists. split; [econstructor; [exact F|right; split; [rewrite Q, Ev, I; lia|reflexivity]]|]. cbn [tokens consumed]. rewrite Q, Ev, I. right. split; [reflexivity|]. rewrite Nat.even_succ, <- Nat.negb_even, Ev. reflexivity.
  - eexists. split; [econstructor; [exact F|right; split; [rewrite Q, Ev, I; lia|reflexivity]]|]. cbn [tokens consumed]. rewrite Q, Ev, I. left. split; [left; reflexivity|]. rewrite Nat.even_succ, <- Nat.negb_even, Ev. reflexivity.
Qed.
Print Assumptions C56_phases_refuted.
Example C56_hyp : let c := mkEdge 1 0 1 [6] [4] [] [] 3 in sdf_channel c 6 4 /\ min_channel c = Ok (3, 9).
Proof. split; [|reflexivity]. repeat split; cbn; lia. Qed.
