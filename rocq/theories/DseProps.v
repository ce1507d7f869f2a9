(** Properties of the exploration: C48, C59, C60. *)
From Coq Require Import QArith Sorted.
From Verif Require Import Base Graph Storage StorageSpec StorageProofs StorageSets Dse DseSpec DseProofs ScheduleSpec ChannelSpec DseGraphProofs.
Open Scope Z_scope.

(** ** C48 *)
(** Without initial phases, the schedules of the graph whose feedback channels hold the
    distribution are exactly the schedules of the original graph that keep every channel within
    the capacity the distribution gives it. *)
Theorem C48_feedback_is_capacity_partial : forall g d g' s,
  (forall c, In c (edges g) -> periodic_channel c /\ e_id c <= Z.of_nat (length (edges g))) ->
  (forall i c, nth_error (edges g) i = Some c -> In (Z.of_nat (length (edges g)) + 1 + Z.of_nat i) (get_edges d) /\
     get_tokens d (Z.of_nat (length (edges g)) + 1 + Z.of_nat i) = Ok (e_preload c)) ->
  load_distribution (Z.of_nat (length (edges g))) d (with_feedback g) = Ok g' ->
  (schedule_valid g' s <-> schedule_valid g s /\
     forall i c, nth_error (edges g) i = Some c ->
       within_capacity (quantity d (Z.of_nat (length (edges g)) + 1 + Z.of_nat i)) (e_preload c)
         (start_of s (e_src c)) (prod_rate c) (end_of s g (e_dst c)) (cons_rate c)).
Proof. exact feedback_schedules. Qed.
Print Assumptions C48_feedback_is_capacity_partial.
(** Such a distribution can always be loaded. *)
Theorem C48_loads : forall g d,
  (forall c, In c (edges g) -> e_id c <= Z.of_nat (length (edges g))) ->
  (forall i c, nth_error (edges g) i = Some c -> In (Z.of_nat (length (edges g)) + 1 + Z.of_nat i) (get_edges d) /\
     get_tokens d (Z.of_nat (length (edges g)) + 1 + Z.of_nat i) = Ok (e_preload c)) ->
  exists g', load_distribution (Z.of_nat (length (edges g))) d (with_feedback g) = Ok g'.
Proof. intros g d H1 H2. eexists. apply with_feedback_load; assumption. Qed.
Print Assumptions C48_loads.

(** With initial phases the claim fails: the feedback channel does not have them.  Task 1 first
    writes 5 tokens, then 1 each time, task 2 reads the same: the bounded graph of capacity 1
    accepts a schedule that holds 5 tokens at time 0. *)
Definition ex_init : graph := mkGraph
  [mkVertex 1 1 1 [1%Q] [1%Q] 1; mkVertex 2 1 1 [1%Q] [1%Q] 1] [mkEdge 1 0 1 [1] [1] [5] [5] 0].
Definition ex_room (q : Z) : sd := sd_make 2 0%Q [(1, (0, 0)); (2, (0, q))] q.
Definition ex_schedule : schedule := fun i m => inject_Z (2 * Z.of_nat m + Z.of_nat i).
Lemma sumf_le f h : (forall m, f m <= h m) -> forall n, sumf f n <= sumf h n.
Proof. intros L. induction n as [|n IH]; cbn [sumf]; [lia|]. specialize (L n). lia. Qed.
Lemma sumf_shift f n : sumf f (S n) = f 0%nat + sumf (fun m => f (S m)) n.
Proof. induction n as [|n IH]; [cbn; lia|]. change (sumf f (S (S n))) with (sumf f (S n) + f (S n)). rewrite IH. cbn [sumf]. lia. Qed.
Lemma cyclic_one {A} (x y : A) d m : cyclic d [x] [y] m = match m with O => x | _ => y end.
Proof. unfold cyclic. destruct m as [|m]; [reflexivity|]. cbn [length]. replace (S m <? 1)%nat with false by (symmetry; apply Nat.ltb_ge; lia). rewrite Nat.mod_1_r. reflexivity. Qed.
Lemma cyclic_const {A} (y : A) d m : cyclic d [] [y] m = y.
Proof. unfold cyclic. cbn [length]. replace (m <? 0)%nat with false by (symmetry; apply Nat.ltb_ge; lia). rewrite Nat.mod_1_r. reflexivity. Qed.
Lemma ex_end i m : (i < 2)%nat -> (end_of ex_schedule ex_init i m == inject_Z (2 * Z.of_nat m + Z.of_nat i + 1))%Q.
Proof.
  intros L. unfold end_of. assert (E : exists v, nth_error (vertices ex_init) i = Some v /\ exec_duration v m = 1%Q).
  { destruct i as [|[|i]]; [| |lia]; eexists; (split; [reflexivity|]); unfold exec_duration; cbn [v_durations v_init_durations]; rewrite cyclic_one; destruct m; reflexivity. }
  destruct E as (v & -> & ->). unfold ex_schedule. rewrite (inject_Z_plus _ 1). reflexivity.
Qed.
Theorem C48_initial_phases_refuted : exists g d g' s c, edges g = [c] /\ graph_wf g /\
  get_edges d = [1; 2] /\ get_tokens d 2 = Ok (e_preload c) /\ load_distribution 1 d (with_feedback g) = Ok g' /\
  schedule_valid g' s /\
  ~ within_capacity (quantity d 2) (e_preload c) (start_of s (e_src c)) (prod_rate c) (end_of s g (e_dst c)) (cons_rate c).
Proof.
  exists ex_init, (ex_room 1), (mkGraph (vertices ex_init) [mkEdge 1 0 1 [1] [1] [5] [5] 0; mkEdge 2 1 0 [1] [1] [] [] 1]), ex_schedule, (mkEdge 1 0 1 [1] [1] [5] [5] 0).
  split; [reflexivity|]. split.
  { split; [|split].
    - intros v [<-|[<-|[]]]; (split; [cbn; lia|]); (split; [reflexivity|]); (split; [reflexivity|]); intros x [<-|[<-|[]]]; discriminate.
    - intros c [<-|[]]. exists (mkVertex 1 1 1 [1%Q] [1%Q] 1), (mkVertex 2 1 1 [1%Q] [1%Q] 1). repeat (split; [reflexivity|]). split; [|cbn; lia].
      intros x [<-|[<-|[<-|[<-|[]]]]]; lia.
    - cbn. repeat constructor; cbn; intuition discriminate. }
  split; [reflexivity|]. split; [reflexivity|]. split; [reflexivity|]. split.
  - split.
    + intros c [<-|[<-|[]]]; intros t nc; exists nc.
      * cbn [e_preload e_src e_dst]. unfold moved_by. apply Z.le_trans with (0 + sumf (fun m => if Qle_bool (end_of ex_schedule ex_init 0 m) t then prod_rate (mkEdge 1 0 1 [1] [1] [5] [5] 0) m else 0) nc); [|apply Z.le_refl].
        rewrite Z.add_0_l. apply sumf_le. intros m. change (prod_rate _ m) with (cons_rate (mkEdge 1 0 1 [1] [1] [5] [5] 0) m).
        enough (E : Qle_bool (start_of ex_schedule 1 m) t = Qle_bool (end_of ex_schedule ex_init 0 m) t) by (rewrite E; lia).
        apply eq_true_iff_eq. rewrite !Qle_bool_iff, (ex_end 0 m) by lia. unfold start_of, ex_schedule. replace (2 * Z.of_nat m + Z.of_nat 0 + 1) with (2 * Z.of_nat m + Z.of_nat 1) by lia. reflexivity.
      * cbn [e_preload e_src e_dst]. unfold moved_by, prod_rate, cons_rate. cbn [e_in e_out e_in_init e_out_init].
        destruct nc as [|nc]; [cbn; lia|]. rewrite sumf_shift, cyclic_const.
        assert (A : sumf (fun m => if Qle_bool (start_of ex_schedule 0 (S m)) t then cyclic 0 [] [1] (S m) else 0) nc <=
                    sumf (fun m => if Qle_bool (end_of ex_schedule (mkGraph (vertices ex_init) [mkEdge 1 0 1 [1] [1] [5] [5] 0; mkEdge 2 1 0 [1] [1] [] [] 1]) 1 m) t then cyclic 0 [] [1] m else 0) nc).
        { apply sumf_le. intros m. rewrite !cyclic_const. change (end_of ex_schedule _ 1 m) with (end_of ex_schedule ex_init 1 m).
          enough (E : Qle_bool (start_of ex_schedule 0 (S m)) t = Qle_bool (end_of ex_schedule ex_init 1 m) t) by (rewrite E; lia).
          apply eq_true_iff_eq. rewrite !Qle_bool_iff, (ex_end 1 m) by lia. unfold start_of, ex_schedule. replace (2 * Z.of_nat (S m) + Z.of_nat 0) with (2 * Z.of_nat m + Z.of_nat 1 + 1) by lia. reflexivity. }
        cbn [sumf]. destruct (Qle_bool _ t); destruct (Qle_bool _ t); rewrite ?cyclic_const; lia.
    + intros i v E m. cbn [vertices ex_init] in E. unfold start_of, ex_schedule.
      assert (D : exec_duration v m = 1%Q). { destruct i as [|[|[|i]]]; cbn [nth_error] in E; try discriminate; injection E as <-; unfold exec_duration; cbn [v_durations v_init_durations]; rewrite cyclic_one; destruct m; reflexivity. }
      rewrite D, <- (inject_Z_plus _ 1), <- Zle_Qle. lia.
  - intros H. destruct (H 0%Q 1%nat) as [nc Hn]. revert Hn. change (quantity (ex_room 1) 2) with 1. cbn [e_preload e_src e_dst].
    unfold moved_by at 1. cbn [sumf]. unfold prod_rate, cons_rate. cbn [e_in e_out e_in_init e_out_init]. rewrite cyclic_one.
    replace (moved_by _ _ nc 0) with 0; [cbn; lia|]. symmetry. unfold moved_by. induction nc as [|nc IH]; [reflexivity|]. cbn [sumf]. rewrite IH.
    replace (Qle_bool (end_of ex_schedule ex_init 1 nc) 0) with false; [reflexivity|]. symmetry. apply not_true_is_false. rewrite Qle_bool_iff, (ex_end 1 nc) by lia. change 0%Q with (inject_Z 0). rewrite <- Zle_Qle. lia.
Qed.
Print Assumptions C48_initial_phases_refuted.
(** The hypotheses of the capacity theorem on a graph with two channels. *)
Example C48_hyp : let g := mkGraph [mkVertex 1 1 0 [1%Q] [] 1; mkVertex 2 2 0 [1%Q; 2%Q] [] 1]
    [mkEdge 1 0 1 [4] [2; 1] [] [] 0; mkEdge 2 1 0 [2; 1] [4] [] [] 4] in
  let d := sd_make 4 0%Q [(1, (0, 0)); (2, (4, 0)); (3, (0, 6)); (4, (4, 7))] 13 in
  (forall c, In c (edges g) -> periodic_channel c /\ e_id c <= Z.of_nat (length (edges g))) /\
  (forall i c, nth_error (edges g) i = Some c -> In (Z.of_nat (length (edges g)) + 1 + Z.of_nat i) (get_edges d) /\
     get_tokens d (Z.of_nat (length (edges g)) + 1 + Z.of_nat i) = Ok (e_preload c)) /\
  exists g', load_distribution (Z.of_nat (length (edges g))) d (with_feedback g) = Ok g' /\ map e_preload (edges g') = [0; 4; 6; 3].
Proof.
  intros g d. split; [|split].
  - intros c [<-|[<-|[]]]; (split; [split; reflexivity|cbn; lia]).
  - intros [|[|[|i]]] c E; cbn in E; try discriminate; injection E as <-; (split; [cbn; auto|reflexivity]).
  - eexists. split; reflexivity.
Qed.

(** ** C59 *)
(** When the exploration answers, with an evaluation that is monotone along critical feedback
    channels and a positive target: every answer was evaluated (or is the all-zero distribution
    of throughput zero), larger answers have strictly more throughput, and every distribution of
    the grid is matched by an answer at most as large whose throughput is at least as good, or
    reaches the target. *)
Theorem C59_pareto_frontier : forall K count step init thr critical target fuel r,
  channel_list K -> valid K init -> (forall e, In e K -> count < e -> 0 < step e) -> sound_evaluation K count step init thr critical ->
  (0 < target)%Q -> (forall e, In e K -> 0 <= quantity init e) ->
  exploration fuel thr critical count step target K init = Ok r ->
  pareto r /\
  (forall x, In x (flat r) -> (on_grid K count step init x /\ (sd_thr x == clamp (thr x))%Q) \/ ((forall e, In e K -> quantity x e = 0) /\ (sd_thr x == 0)%Q)) /\
  (forall b, on_grid K count step init b -> exists x, In x (flat r) /\ sd_size x <= sd_size b /\ ((thr b <= sd_thr x)%Q \/ (target <= sd_thr x)%Q)).
Proof. exact (fun K count step init thr critical target fuel r HK Vi Hs Hev T Hp E => proj2 (exploration_ok K HK count step init thr critical target Vi Hs Hev fuel r T Hp E)). Qed.
Print Assumptions C59_pareto_frontier.

(** ** C60 *)
(** If some distribution of the grid reaches the target, and none exceeds it, the exploration ends. *)
Theorem C60_terminates_partial : forall K count step init thr critical target b,
  channel_list K -> valid K init -> (forall e, In e K -> count < e -> 0 < step e) -> sound_evaluation K count step init thr critical ->
  on_grid K count step init b -> (thr b == target)%Q -> (0 < target)%Q -> (forall a, on_grid K count step init a -> (thr a <= target)%Q) -> (forall e, In e K -> 0 <= quantity init e) ->
  exists N, forall fuel, (N <= fuel)%nat -> exists r, exploration fuel thr critical count step target K init = Ok r.
Proof. exact (fun K count step init thr critical target b HK Vi Hs Hev => exploration_terminates K HK count step init thr critical target Vi Hs Hev b). Qed.
Print Assumptions C60_terminates_partial.
(** Whatever the target, the exploration ends if the channels with much room are never critical. *)
Theorem C60_ends_for_any_target : forall K count step init thr critical target B,
  channel_list K -> valid K init -> (forall e, In e K -> count < e -> 0 < step e) -> sound_evaluation K count step init thr critical -> (0 < target)%Q ->
  (forall d e, on_grid K count step init d -> In e (critical d) -> count < e -> quantity d e <= B) ->
  exists N, forall fuel, (N <= fuel)%nat -> exists r, exploration fuel thr critical count step target K init = Ok r.
Proof. exact (fun K count step init thr critical target B HK Vi Hs Hev T0 HB => exploration_ends K HK count step init thr critical target Vi Hs Hev B HB T0). Qed.
Print Assumptions C60_ends_for_any_target.
(** A zero target stops the search before the first evaluation, and the empty result is then
    dereferenced. *)
Theorem C60_zero_target_refuted : forall K count step init thr critical fuel, valid K init -> 0 < sd_size init ->
  exploration fuel thr critical count step 0%Q K init = Undefined.
Proof.
  intros K count step init thr critical fuel V S. unfold exploration, add_sd. cbn [find_bucket sds_empty ss_map put_bucket bind]. 
  assert (C : search_complete (mkSDS [(sd_size init, [init])] (raise_pmax init (ss_pmax sds_empty))) 0 sds_empty = true).
  { unfold search_complete, has_size. cbn [ss_pmax sds_empty snd fst ss_map find_bucket]. replace (0 =? sd_size init) with false by (symmetry; apply Z.eqb_neq; lia). reflexivity. }
  destruct fuel; cbn [explore]; rewrite C; reflexivity.
Qed.
Print Assumptions C60_zero_target_refuted.

(** An evaluation that meets the hypotheses: one channel bounded through edge 2, whose
    throughput grows with its room up to 3. *)
Definition ex_init_room : sd := ex_room 1.
Definition ex_thr (d : sd) : Q := inject_Z (Z.min 3 (quantity d 2)).
Example C59_hyp : channel_list [1; 2] /\ valid [1; 2] ex_init_room /\ sound_evaluation [1; 2] 1 (fun _ => 1) ex_init_room ex_thr (fun _ => [1; 2]) /\
  (exists b, on_grid [1; 2] 1 (fun _ => 1) ex_init_room b /\ (ex_thr b == 3)%Q) /\
  exists r, exploration 10 ex_thr (fun _ => [1; 2]) 1 (fun _ => 1) 3%Q [1; 2] ex_init_room = Ok r /\ map (fun x => (sd_size x, sd_thr x)) (flat r) = [(1, 1%Q); (2, 2%Q); (3, 3%Q)].
Proof.
  assert (V : forall q, valid [1; 2] (ex_room q)) by (intros q; constructor; cbn; try reflexivity; lia).
  split; [repeat constructor; lia|]. split; [apply V|]. split; [|split].
  - constructor.
    + intros a b _ _ E. unfold ex_thr. rewrite (E 2) by (cbn; auto). reflexivity.
    + auto.
    + intros a b _ _ _ _ L. exists 2. split; [cbn; auto|]. split; [lia|]. unfold ex_thr in L. rewrite <- Zlt_Qlt in L. lia.
  - exists (ex_room 3). split; [|reflexivity]. split; [apply V|]. split; [intros e [<-|[<-|[]]]; reflexivity|]. intros e [<-|[<-|[]]].
    + split; [lia|reflexivity].
    + split; [|lia]. intros _. exists 2. split; [lia|reflexivity].
  - eexists. split; [vm_compute; reflexivity|reflexivity].
Qed.

(** The search stops at equality with the target only.  With a target between two of the
    throughputs there are, and a channel that remains critical whatever its room, it never ends -
    although distributions that reach the target were found at once. *)
Theorem C60_skipped_target_refuted : exists K count step init thr critical target b,
  channel_list K /\ valid K init /\ (forall e, In e K -> count < e -> 0 < step e) /\ sound_evaluation K count step init thr critical /\
  (0 < target)%Q /\ on_grid K count step init b /\ (target <= thr b)%Q /\
  forall fuel, exploration fuel thr critical count step target K init = Timeout.
Proof.
  destruct C59_hyp as (HK & VI & SE & (b & Gb & Tb) & _).
  exists [1; 2], 1, (fun _ => 1), ex_init_room, ex_thr, (fun _ => [1; 2]), (5 # 2)%Q, b.
  split; [exact HK|]. split; [exact VI|]. split; [intros; lia|]. split; [exact SE|]. split; [reflexivity|]. split; [exact Gb|]. split; [rewrite Tb; discriminate|].
  apply exploration_forever; auto; try (intros; lia); try reflexivity.
  - intros d _ E. unfold ex_thr in E. set (m := Z.min 3 (quantity d 2)) in E. unfold Qeq in E. cbn in E. lia.
  - intros d _. exists 2. split; [cbn; auto|lia].
Qed.
Print Assumptions C60_skipped_target_refuted.
