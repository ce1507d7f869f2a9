(** C106: the base monotonic optimisation of the throughput / storage exploration. *)
From Coq Require Import QArith Lia Sorted.
From Verif Require Import Base Graph Storage StorageSpec StorageProofs StorageSets Dse MonoOpt MonoOptSpec MonoOptProofs MonoOptSearch MonoOptMain MonoOptBounded MonoOptTotal.
Open Scope Z_scope.

Lemma feedback_in K e : In e K -> (feedback K e <-> In e (buffer_edges true K)).
Proof. intros He. unfold buffer_edges, feedback. rewrite filter_In. unfold is_buffer. cbn [negb orb]. rewrite Z.gtb_ltb, Z.ltb_lt. tauto. Qed.
Lemma feedback_off K d : feedback_storage K d -> storage_on (buffer_edges true K) K d.
Proof. intros [V U F] e He N. apply U; [exact He|]. intros H. apply N, feedback_in; assumption. Qed.
Lemma feedback_on K d : feedback_storage K d -> starts_from (buffer_edges true K) d.
Proof. intros [V U F] e He. assert (Ke := buffers_in K true e He). apply F; [exact Ke|]. apply feedback_in; assumption. Qed.

(** Without feedback channels: no distribution above the initial one that reaches the target
    is lost.  Either it is at least as large as the one found by the search, or one of the
    distributions answered is below it. *)
Theorem C106_lossless : forall K init thr critical target fuel R,
  channel_list K -> valid K init -> (forall e, In e K -> 1 <= quantity init e < int_max) ->
  monotone K thr -> critical_decide K thr critical -> (forall d, incl (critical d) K) -> (0 < target)%Q ->
  base_optimisation fuel thr critical false target K init = Ok R ->
  exists best, valid K best /\ (target <= thr best)%Q /\ (forall r, In r (flat R) -> valid K r /\ sd_size r < sd_size best) /\
  forall v, valid K v -> below K init v -> (target <= thr v)%Q -> sd_size best <= sd_size v \/ exists r, In r (flat R) /\ below K r v.
Proof.
  intros K init thr critical target fuel R HK Vi Qi Mon Cd Cr Pos E.
  assert (Q0 : forall e, In e K -> 0 <= quantity init e < int_max) by (intros e He; specialize (Qi e He); lia). assert (Q1 : forall e, In e K -> 1 <= quantity init e) by (intros e He; apply Qi, He).
  refine (lossless K HK init Vi Q0 thr critical false target Cr Pos (mon_ext K thr Mon) Mon Cd Q1 fuel R E).
Qed.
Print Assumptions C106_lossless.

(** With feedback channels: the answer is the initial distribution alone, so that the
    exploration that follows is the one without the option: nothing is pruned. *)
Theorem C106_prunes_nothing : forall K init thr critical target fuel k s best,
  channel_list K -> feedback_storage K init -> (exists e, In e K /\ ~ feedback K e) -> sd_size init < int_max ->
  reads_quantities K thr -> (forall d, incl (critical d) K) -> (0 < target)%Q -> (thr init < target)%Q ->
  base_search fuel thr critical true target K init = Ok (k, s) -> get_next s = Ok best -> sd_size best <= int_max ->
  base_optimisation fuel thr critical true target K init = add_sd init sds_empty /\
  forall count step, optimised_exploration fuel thr critical true count step target K init = exploration fuel thr critical count step target K init.
Proof.
  intros K init thr critical target fuel k s best HK FS (e0 & K0 & N0) Small Ext Cr Pos Low E Eb Sb. rewrite (feedback_in K e0 K0) in N0.
  destruct (add_sd_ok K init sds_empty (fs_valid _ _ FS) (wf_empty K)) as (R0 & E0 & _).
  pose proof (bounded_answer K HK init (fs_valid _ _ FS) thr critical true target Cr Pos Ext e0 K0 N0 (feedback_off K init FS) (feedback_on K init FS) Small fuel k s best R0 E Eb Sb E0) as A.
  destruct (Qle_bool target (thr init)) eqn:T; [apply Qle_bool_iff in T; destruct (Qlt_not_le _ _ Low T)|]. split; [rewrite A, E0; reflexivity|]. intros count step. unfold optimised_exploration, exploration. rewrite A, E0. reflexivity.
Qed.
Print Assumptions C106_prunes_nothing.

(** When the initial distribution reaches the target the answer is empty, and the exploration
    that follows never gives an answer: it reads the first element of an empty map. *)
Theorem C106_reached_refuted : forall K init thr critical target,
  channel_list K -> feedback_storage K init -> (exists e, In e K /\ ~ feedback K e) -> sd_size init < int_max ->
  reads_quantities K thr -> (forall d, incl (critical d) K) -> (0 < target)%Q -> (target <= thr init)%Q ->
  (forall fuel k s, base_search fuel thr critical true target K init = Ok (k, s) -> base_optimisation fuel thr critical true target K init = Ok sds_empty) /\
  (forall fuel count step r, optimised_exploration fuel thr critical true count step target K init <> Ok r) /\
  (monotone K thr -> exists F, forall fuel count step, (F <= fuel)%nat -> optimised_exploration fuel thr critical true count step target K init = Undefined).
Proof.
  intros K init thr critical target HK FS (e0 & K0 & N0) Small Ext Cr Pos High. rewrite (feedback_in K e0 K0) in N0. assert (Vi := fs_valid _ _ FS). destruct (add_sd_ok K init sds_empty Vi (wf_empty K)) as (R0 & E0 & _).
  assert (A : forall fuel k s, base_search fuel thr critical true target K init = Ok (k, s) -> base_optimisation fuel thr critical true target K init = Ok sds_empty).
  { intros fuel k s E. destruct (bounded_best K HK init Vi thr critical true target Cr Pos Ext e0 K0 N0 (feedback_off K init FS) (feedback_on K init FS) Small fuel k s E) as (best & Eb).
    pose proof (bounded_small K HK init Vi thr critical true target Cr Pos Ext e0 K0 N0 (feedback_off K init FS) (feedback_on K init FS) Small fuel k s best E Eb High) as Sb.
    rewrite (bounded_answer K HK init Vi thr critical true target Cr Pos Ext e0 K0 N0 (feedback_off K init FS) (feedback_on K init FS) Small fuel k s best R0 E Eb Sb E0). rewrite (proj2 (Qle_bool_iff _ _) High). reflexivity. }
  assert (X : forall fuel k s count step, base_search fuel thr critical true target K init = Ok (k, s) -> optimised_exploration fuel thr critical true count step target K init = Undefined).
  { intros fuel k s count step E. unfold optimised_exploration. rewrite (A fuel k s E). cbn [bind].
    replace (explore fuel thr critical count step target sds_empty sds_empty) with (@Ok sds sds_empty); [reflexivity|].
    assert (C : search_complete sds_empty target sds_empty = true) by (unfold search_complete; cbn; apply orb_true_r). destruct fuel; cbn [explore]; rewrite C; reflexivity. }
  split; [exact A|]. split.
  - intros fuel count step r E. unfold optimised_exploration, base_optimisation in E. destruct (base_search fuel thr critical true target K init) as [[k s]| | |] eqn:Es; cbn [bind] in E; try discriminate. pose proof (X fuel k s count step Es) as U. unfold optimised_exploration, base_optimisation in U. rewrite Es in U. cbn [bind] in U. rewrite U in E. discriminate.
  - intros Mon. destruct (search_total K HK init Vi thr critical true target Cr Pos Mon e0 K0 N0 (feedback_off K init FS) (feedback_on K init FS) Small 0) as (F & HF); [|exists F; intros fuel count step L; destruct (HF fuel L) as ([k s] & E); exact (X fuel k s count step E)].
    intros d Vd _ Ld L. exfalso. apply (Qlt_not_le _ _ L). apply Qle_trans with (thr init); [exact High|apply Mon; auto].
Qed.
Print Assumptions C106_reached_refuted.

(** The search ends. *)
Theorem C106_ends : forall K init thr critical target N,
  channel_list K -> feedback_storage K init -> (exists e, In e K /\ ~ feedback K e) -> sd_size init < int_max ->
  monotone K thr -> (forall d, incl (critical d) K) -> (0 < target)%Q -> can_progress K thr critical target init N ->
  exists F, forall fuel, (F <= fuel)%nat -> exists k s best, base_search fuel thr critical true target K init = Ok (k, s) /\ get_next s = Ok best.
Proof.
  intros K init thr critical target N HK FS (e0 & K0 & N0) Small Mon Cr Pos Pr. rewrite (feedback_in K e0 K0) in N0. assert (Vi := fs_valid _ _ FS).
  destruct (search_total K HK init Vi thr critical true target Cr Pos Mon e0 K0 N0 (feedback_off K init FS) (feedback_on K init FS) Small N) as (F & HF).
  - intros d Vd Od Ld L. destruct (Pr d Vd Ld) as (e & He & Ke & Fe & Le); [intros e He Ne; apply Od; [exact He|]; intros I; apply Ne, feedback_in; assumption|exact L|]. exists e. split; [exact He|]. split; [apply feedback_in; assumption|exact Le].
  - exists F. intros fuel L. destruct (HF fuel L) as ([k s] & E). destruct (bounded_best K HK init Vi thr critical true target Cr Pos (mon_ext K thr Mon) e0 K0 N0 (feedback_off K init FS) (feedback_on K init FS) Small fuel k s E) as (best & Eb). exists k, s, best. auto.
Qed.
Print Assumptions C106_ends.

(** ** Examples *)
Definition ex_thr (d : sd) : Q := (Z.min (quantity d 3) (2 * quantity d 4) # 20)%Q.
Lemma ex_monotone K : In 3 K -> In 4 K -> monotone K ex_thr.
Proof. intros A4 B4 a b _ _ L. pose proof (L 3 A4). pose proof (L 4 B4). unfold ex_thr, Qle. cbn [Qnum Qden]. lia. Qed.
Lemma ex_reads K : In 3 K -> In 4 K -> reads_quantities K ex_thr.
Proof. intros A B4 a b _ _ S. unfold ex_thr. rewrite (S 3 A), (S 4 B4). reflexivity. Qed.
(** Two channels, no feedback channels. *)
Definition two (a b : Z) : sd := mkSD 2 0 [(3, (0, a)); (4, (0, b))] (a + b).
Definition two_critical (d : sd) : list Z := if quantity d 3 <=? 2 * quantity d 4 then [3] else [4].
Lemma two_valid a b : valid [3; 4] (two a b).
Proof. constructor; [reflexivity|reflexivity|]. unfold two, quantity. cbn. lia. Qed.
Lemma two_list : channel_list [3; 4]. Proof. repeat (constructor; [|repeat (constructor; try lia)]); constructor. Qed.
Lemma two_decide : critical_decide [3; 4] ex_thr two_critical.
Proof.
  intros a b _ _ _ H. unfold two_critical in H. unfold ex_thr, Qle. cbn [Qnum Qden]. destruct (Z.leb_spec (quantity a 3) (2 * quantity a 4)); [pose proof (H 3 (or_introl eq_refl) (or_introl eq_refl))|pose proof (H 4 (or_introl eq_refl) (or_intror (or_introl eq_refl)))]; lia.
Qed.
Lemma two_incl d : incl (two_critical d) [3; 4]. Proof. unfold two_critical. intros e He. destruct (_ <=? _), He as [<-|[]]; cbn; auto. Qed.
Example C106_lossless_not_vacuous : exists R, base_optimisation 90 ex_thr two_critical false (7 # 20) [3; 4] (two 3 2) = Ok R /\ map (fun d => (quantity d 3, quantity d 4)) (flat R) = [(6, 3)].
Proof. eexists. split; vm_compute; reflexivity. Qed.
Example C106_two_hypotheses : channel_list [3; 4] /\ valid [3; 4] (two 3 2) /\ monotone [3; 4] ex_thr /\ critical_decide [3; 4] ex_thr two_critical /\ (forall d, incl (two_critical d) [3; 4]).
Proof. exact (conj two_list (conj (two_valid 3 2) (conj (ex_monotone [3; 4] (or_introl eq_refl) (or_intror (or_introl eq_refl))) (conj two_decide two_incl)))). Qed.
(** But the distribution the search found is not part of the answer: when it is the smallest,
    it is lost, and the exploration gives no answer although there is one. *)
Theorem C106_optimum_refuted : exists init, valid [3; 4] init /\ (forall e, In e [3; 4] -> 1 <= quantity init e < int_max) /\ (ex_thr init < 4 # 20)%Q /\
  optimised_exploration 90 ex_thr two_critical false 2 (fun _ => 1) (4 # 20) [3; 4] init = Undefined /\
  exists R, exploration 90 ex_thr two_critical 2 (fun _ => 1) (4 # 20) [3; 4] init = Ok R /\ map (fun d => (quantity d 3, quantity d 4, sd_thr d)) (flat R) = [(3, 2, (3 # 20)%Q); (4, 2, (4 # 20)%Q)].
Proof.
  exists (two 3 2). split; [apply two_valid|]. split; [intros e [<-|[<-|[]]]; vm_compute; split; congruence|]. split; [reflexivity|]. split; [vm_compute; reflexivity|]. eexists. split; vm_compute; reflexivity.
Qed.
Print Assumptions C106_optimum_refuted.
(** Two channels and their feedback channels. *)
Definition four (a b : Z) : sd := mkSD 4 0 [(1, (0, 0)); (2, (0, 0)); (3, (0, a)); (4, (0, b))] (a + b).
Definition four_critical (d : sd) : list Z := if quantity d 3 <=? 2 * quantity d 4 then [1; 3] else [2; 4].
Lemma four_list : channel_list [1; 2; 3; 4]. Proof. repeat (constructor; [|repeat (constructor; try lia)]); constructor. Qed.
Lemma four_storage a b : 1 <= a < int_max -> 1 <= b < int_max -> feedback_storage [1; 2; 3; 4] (four a b).
Proof.
  intros A Bb. constructor; [constructor; [reflexivity|reflexivity|]; unfold four, quantity; cbn; lia| |]; intros e He; unfold feedback; cbn [length]; change (Z.of_nat 4 / 2) with 2; cbn [In] in He; intros F; repeat (destruct He as [<-|He]); try contradiction; try lia; unfold quantity; cbn; lia.
Qed.
Lemma four_incl d : incl (four_critical d) [1; 2; 3; 4]. Proof. unfold four_critical. intros e He. destruct (_ <=? _), He as [<-|[<-|[]]]; cbn; auto. Qed.
Example C106_prunes_not_vacuous : feedback_storage [1; 2; 3; 4] (four 3 2) /\ (ex_thr (four 3 2) < 7 # 20)%Q /\ exists k s best, base_search 30 ex_thr four_critical true (7 # 20) [1; 2; 3; 4] (four 3 2) = Ok (k, s) /\ get_next s = Ok best /\ sd_size best = 13.
Proof. split; [apply four_storage; unfold int_max; lia|]. split; [reflexivity|]. eexists. eexists. eexists. split; [vm_compute; reflexivity|]. split; [vm_compute; reflexivity|reflexivity]. Qed.
Example C106_reached_not_vacuous : (3 # 20 <= ex_thr (four 3 2))%Q /\ optimised_exploration 30 ex_thr four_critical true 2 (fun _ => 1) (3 # 20) [1; 2; 3; 4] (four 3 2) = Undefined /\
  exists R, exploration 30 ex_thr four_critical 2 (fun _ => 1) (3 # 20) [1; 2; 3; 4] (four 3 2) = Ok R /\ flat R <> [].
Proof. split; [discriminate|]. split; [vm_compute; reflexivity|]. eexists. split; [vm_compute; reflexivity|discriminate]. Qed.
Example C106_ends_not_vacuous : can_progress [1; 2; 3; 4] ex_thr four_critical (7 # 20) (four 3 2) 7.
Proof.
  intros d _ _ _ L. unfold ex_thr, Qlt in L. cbn [Qnum Qden] in L. unfold four_critical, feedback. cbn [length]. change (Z.of_nat 4 / 2) with 2.
  destruct (Z.leb_spec (quantity d 3) (2 * quantity d 4)); [exists 3|exists 4]; (split; [cbn; auto|]); (split; [cbn; auto|]); split; lia.
Qed.
