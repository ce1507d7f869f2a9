(** Theorems on the throughput returned by the execution with TDMA slots (C158). *)
From Coq Require Import QArith ZifyBool ZifyNat Lqa.
From Verif Require Import Base Graph RepVec Sim SimSpec So4 So4Spec So4Props So4Firings So4RateSpec So4Rate.
Open Scope Z_scope.

(** The answer is [n] iterations of task [w], one after the other, and the time they took. *)
Theorem C158_measured : forall g slots rules w rep k c ticks n t, (0 < rep)%nat -> nth_error (edges g) k = Some c -> e_src c = w ->
  so4_run g slots rules w (Z.of_nat rep) ticks (so4_start g) = Ok (So4Periodic n t) ->
  exists m, so4_reach g slots rules w (Z.of_nat rep) m /\ measured rep (sends (o_log m) k) n t.
Proof.
  intros g slots rules w rep k c ticks n t Hr Hk Hw.
  assert (G : forall ticks m, so4_reach g slots rules w (Z.of_nat rep) m -> paced rep k m -> so4_run g slots rules w (Z.of_nat rep) ticks m = Ok (So4Periodic n t) ->
    exists m', so4_reach g slots rules w (Z.of_nat rep) m' /\ measured rep (sends (o_log m') k) n t).
  { induction ticks0 as [|f IH]; intros m R P H; [discriminate|]. cbn [so4_run] in H.
    destruct (so4_tick g slots rules w (Z.of_nat rep) m) as [a| | |] eqn:E; try discriminate. cbn [bind] in H. destruct a as [m'|n' t'|].
    - apply (IH m'); [eapply reach_tick; eassumption | eapply (paced_tick g slots rules w rep k c); eassumption | exact H].
    - assert (X := f_equal (fun o => match o with Ok (So4Periodic a b) => (a, b) | _ => (n', t') end) H). cbv beta iota in X. injection X as -> ->.
      exists m. split; [exact R|]. eapply paced_end; eassumption.
    - discriminate. }
  intro H. apply (G ticks (so4_start g)); [apply reach_start | | exact H]. unfold paced. cbn.
  split; [lia|]. split; [reflexivity|]. split; [reflexivity|]. intros [|j] s Hs; discriminate.
Qed.
Print Assumptions C158_measured.

(** * The rate is not the one of the graph *)
(** A ring of two tasks with three tokens in rounds of four slots. *)
Definition loop : graph := mkGraph [mkVertex 1 1 0 [2]%Q [] 1; mkVertex 2 1 0 [1]%Q [] 1]
  [mkEdge 1 0 1 [1] [1] [] [] 1; mkEdge 2 1 0 [1] [1] [] [] 2].
Definition loop_rules (k : nat) : rule := match k with O => mkRule false 0 2 | _ => mkRule false 1 1 end.
Theorem C158_rate_refuted :
  so4_throughput 30 400 loop 4 loop_rules = Ok (So4Periodic 1 2) /\
  forall start, slot_schedule loop 4 loop_rules start -> forall n, 8 * Z.of_nat n <= start 0%nat (3 * n)%nat.
Proof.
  split; [vm_compute; reflexivity|]. intros start [S0 S1]. induction n as [|n IH]; [apply S0|].
  destruct (S1 0%nat _ _ 2 eq_refl eq_refl eq_refl (3 * n)%nat) as (l1 & A1 & A2 & A3). cbn in A1, A2, A3. specialize (A2 eq_refl).
  destruct (S1 1%nat _ _ 1 eq_refl eq_refl eq_refl (3 * n + 1)%nat) as (l2 & B1 & B2 & B3). cbn in B1, B2, B3. specialize (B2 eq_refl).
  replace (3 * S n)%nat with (3 * n + 1 + 2)%nat by lia.
  change (n + (n + (n + 0)))%nat with (3 * n)%nat in *. change (Pos.to_nat 1) with 1%nat in *. change (Pos.to_nat 2) with 2%nat in *. 
  assert (l1 + 5 <= l2); [|lia].
  pose proof (Z.div_mod l1 4 ltac:(lia)). pose proof (Z.div_mod l2 4 ltac:(lia)). lia.
Qed.
Print Assumptions C158_rate_refuted.
(** Such schedules exist: a firing of each task every 8 instants. *)
Example loop_schedule : slot_schedule loop 4 loop_rules (fun i n => match i with O => 8 * Z.of_nat n + 2 | _ => 8 * Z.of_nat n end).
Proof.
  split; [intros [|i] n; lia|]. intros [|[|k]] c v d Hk Hv Hd n; cbn in Hk; try discriminate.
  - injection Hk as <-. cbn in Hv. injection Hv as <-. cbn in Hd. injection Hd as Hd. exists (8 * Z.of_nat n + 4). cbn [e_src e_dst e_preload loop_rules ru_virtual ru_slot ru_hops]. split; [lia|]. split; [intros _|lia].
    symmetry. apply (Z.mod_unique _ _ (2 * Z.of_nat n + 1)); lia.
  - injection Hk as <-. cbn in Hv. injection Hv as <-. cbn in Hd. injection Hd as Hd. exists (8 * Z.of_nat n + 1). cbn [e_src e_dst e_preload loop_rules ru_virtual ru_slot ru_hops]. split; [lia|]. split; [intros _|lia].
    symmetry. apply (Z.mod_unique _ _ (2 * Z.of_nat n)); lia.
  - destruct k; discriminate.
Qed.
