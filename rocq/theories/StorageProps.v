(** Properties of storage distributions and of their sets: C40-C46, C57, C58. *)
From Coq Require Import QArith Sorted.
From Verif Require Import Base Graph Storage StorageSpec StorageProofs StorageSets.
Open Scope Z_scope.

Definition ex_d (a b c : Z) : sd := sd_make 3 0%Q [(1, (0, a)); (4, (1, b)); (6, (0, c))] (a + b + c).
Definition ex_K : list Z := [1; 4; 6].
Lemma ex_channels : channel_list ex_K.
Proof. repeat constructor; lia. Qed.
Lemma ex_valid a b c : valid ex_K (ex_d a b c).
Proof. constructor; cbn; try reflexivity. lia. Qed.

(** ** C40 *)
(** Whatever the calls, each channel is listed once and the size is the sum of the quantities. *)
Theorem C40_size_is_sum : forall cs d, channel_list (get_edges d) -> sd_size d = sumZ (map (quantity d) (get_edges d)) ->
  channel_list (get_edges (sd_run cs d)) /\ sd_size (sd_run cs d) = sumZ (map (quantity (sd_run cs d)) (get_edges (sd_run cs d))).
Proof. exact (fun cs d S E => conj (sd_run_channels cs d S) (sd_run_size cs d S E)). Qed.
Print Assumptions C40_size_is_sum.
(** Reading a channel gives the last value set, and the initial value if none was. *)
Theorem C40_last_value : forall cs d e, channel_list (get_edges d) ->
  match last_quantity e cs with
  | Some q => get_quantity (sd_run cs d) e = Ok q
  | None => forall q, get_quantity d e = Ok q -> get_quantity (sd_run cs d) e = Ok q
  end.
Proof. exact (fun cs d e S => sd_run_last e cs d None S I). Qed.
Print Assumptions C40_last_value.
Example C40_hyp : let d := sd_run [SetQuantity 4 7; SetTokens 9 2; SetQuantity 2 5; SetQuantity 4 3] (ex_d 1 2 3) in
  channel_list (get_edges (ex_d 1 2 3)) /\ get_edges d = [1; 2; 4; 6; 9] /\ sd_size d = 12 /\ get_quantity d 4 = Ok 3.
Proof. split; [exact ex_channels|]. vm_compute. auto. Qed.

(** ** C41 *)
(** After any history of additions and removals: distributions sit under their own size in a
    non-empty list, sizes are listed once, no distribution is stored twice, and a distribution
    is stored exactly when it was added and not removed since. *)
Theorem C41_history : forall K cs, channel_list K -> (forall c, In c cs -> valid K (arg c)) -> exists s, set_run cs sds_empty = Ok s /\
  StronglySorted Z.lt (map fst (ss_map s)) /\
  (forall k l, In (k, l) (ss_map s) -> l <> [] /\ forall d, In d l -> sd_size d = k) /\
  (forall x y, at_two (flat s) x y -> ~ same K x y) /\
  (forall x, valid K x -> ((exists y, In y (flat s) /\ same K x y) <-> present K x (rev cs))).
Proof.
  intros K cs HK V. destruct (set_run_ok K cs sds_empty [] V (wf_empty K)) as (s & E & W & P). { intros x _. split; [intros (y & [] & _)|intros []]. }
  exists s. split; [exact E|]. split; [apply (wf_sorted K s W)|]. split; [|split].
  - intros k l H. destruct (wf_bucket K s W k l H) as [N B]. split; [exact N|]. intros d Hd. apply B, Hd.
  - intros x y. apply (uniq_two K); exact W.
  - intros x Vx. rewrite app_nil_r in P. apply P, Vx.
Qed.
Print Assumptions C41_history.
(** The next distribution handed out has the least size; asking an empty set is undefined. *)
Theorem C41_next : forall K cs s, channel_list K -> (forall c, In c cs -> valid K (arg c)) -> set_run cs sds_empty = Ok s ->
  (flat s = [] -> get_next s = Undefined) /\
  (flat s <> [] -> exists d, get_next s = Ok d /\ In d (flat s) /\ forall x, In x (flat s) -> sd_size d <= sd_size x).
Proof.
  intros K cs s HK V E. destruct (set_run_ok K cs sds_empty [] V (wf_empty K)) as (s' & E' & W & _). { intros x _. split; [intros (y & [] & _)|intros []]. }
  rewrite E in E'. injection E' as <-. apply (get_next_ok K s W).
Qed.
Print Assumptions C41_next.
(** The membership query and the count agree with the history. *)
Theorem C41_membership : forall K cs s d, channel_list K -> (forall c, In c cs -> valid K (arg c)) -> set_run cs sds_empty = Ok s -> valid K d ->
  exists b, has_sd d s = Ok b /\ (b = true <-> present K d (rev cs)).
Proof.
  intros K cs s d HK V E Vd. destruct (set_run_ok K cs sds_empty [] V (wf_empty K)) as (s' & E' & W & P). { intros x _. split; [intros (y & [] & _)|intros []]. }
  rewrite E in E'. injection E' as <-. destruct (has_sd_ok K d s Vd W) as (b & Eb & B). exists b. split; [exact Eb|]. rewrite B. rewrite app_nil_r in P. apply P, Vd.
Qed.
Print Assumptions C41_membership.
Example C41_hyp : exists s, set_run [Add (ex_d 1 2 3); Add (ex_d 3 2 1); Add (ex_d 0 0 1); Add (ex_d 1 2 3); Remove (ex_d 3 2 1)] sds_empty = Ok s /\
  map fst (ss_map s) = [1; 6] /\ set_count s = 2 /\ get_next s = Ok (ex_d 0 0 1) /\ has_sd (ex_d 3 2 1) s = Ok false.
Proof. eexists. split; [vm_compute; reflexivity|]. vm_compute. auto. Qed.

(** ** C42 *)
Theorem C42_infeasible_frontier : forall K ps, channel_list K -> (forall p, In p ps -> valid K p) -> exists s, unsat_run ps sds_empty = Ok s /\
  (forall x y, at_two (flat s) x y -> ~ below K x y) /\
  (forall d, valid K d -> exists b, unsat_contains d s = Ok b /\ (b = true <-> exists p, In p ps /\ below K d p)).
Proof.
  intros K ps HK V. destruct (unsat_run_ok K ps sds_empty V (wf_empty K)) as (s & E & W & A & C). { intros x y []. }
  exists s. split; [exact E|]. split.
  - intros x y T B. apply (uniq_two K s x y W T). destruct T as (i & j & _ & Ei & Ej). apply A; [eapply nth_error_In; eauto..|exact B].
  - intros d Vd. destruct (unsat_contains_ok K d s Vd W) as (b & Eb & B). exists b. split; [exact Eb|]. rewrite B, C. split; [|auto]. intros [(x & [] & _)|H]. exact H.
Qed.
Print Assumptions C42_infeasible_frontier.
Example C42_hyp : exists s, unsat_run [ex_d 1 2 3; ex_d 1 1 1; ex_d 5 0 0; ex_d 1 3 3; ex_d 0 4 0] sds_empty = Ok s /\ set_count s = 3 /\
  unsat_contains (ex_d 1 3 2) s = Ok true /\ unsat_contains (ex_d 2 3 0) s = Ok false.
Proof. eexists. split; [vm_compute; reflexivity|]. vm_compute. auto. Qed.

(** ** C43 *)
(** The query answers the upward closure exactly. *)
Theorem C43_feasible_query_partial : forall K ps, channel_list K -> (forall p, In p ps -> valid K p) -> exists s, sat_run ps sds_empty = Ok s /\
  (forall x, In x (flat s) -> In x ps) /\ (forall x y, at_two (flat s) x y -> ~ same K x y) /\
  (forall d, valid K d -> exists b, sat_contains d s = Ok b /\ (b = true <-> exists p, In p ps /\ below K p d)).
Proof.
  intros K ps HK V. destruct (sat_run_ok K ps sds_empty V (wf_empty K)) as (s & E & W & C & I). exists s. split; [exact E|]. split; [|split].
  - intros x Hx. apply I in Hx as [[]|H]. exact H.
  - intros x y. apply (uniq_two K); exact W.
  - intros d Vd. destruct (sat_contains_ok K d s Vd W) as (b & Eb & B). exists b. split; [exact Eb|]. rewrite B, C. split; [|auto]. intros [(x & [] & _)|H]. exact H.
Qed.
Print Assumptions C43_feasible_query_partial.
(** The stored points need not be minimal: a smaller point does not evict a larger one. *)
Theorem C43_minimality_refuted : exists K ps s x y, channel_list K /\ (forall p, In p ps -> valid K p) /\ sat_run ps sds_empty = Ok s /\
  at_two (flat s) x y /\ below K x y.
Proof.
  exists ex_K, [ex_d 2 2 2; ex_d 1 1 1], (mkSDS [(3, [ex_d 1 1 1]); (6, [ex_d 2 2 2])] (0, 0%Q)), (ex_d 1 1 1), (ex_d 2 2 2).
  split; [exact ex_channels|]. split; [intros p [<-|[<-|[]]]; apply ex_valid|]. split; [vm_compute; reflexivity|]. split; [exists 0%nat, 1%nat; cbn; auto|].
  intros e He. cbn in He. destruct He as [<-|[<-|[<-|[]]]]; cbn; lia.
Qed.
Print Assumptions C43_minimality_refuted.
Example C43_hyp : exists s, sat_run [ex_d 2 2 2; ex_d 3 2 2; ex_d 0 5 5] sds_empty = Ok s /\ set_count s = 2 /\ sat_contains (ex_d 1 5 5) s = Ok true /\ sat_contains (ex_d 5 5 1) s = Ok false.
Proof. eexists. split; [vm_compute; reflexivity|]. vm_compute. auto. Qed.

(** ** C44 *)
(** Starting from one knee [k0], after any sequence of infeasible points: the distributions
    strictly above some knee are exactly those strictly above [k0] and below no point added. *)
Theorem C44_knees : forall K k0 ps knees0, channel_list K -> valid K k0 -> (forall p, In p ps -> valid K p) -> add_sd k0 sds_empty = Ok knees0 ->
  exists unsat knees, knee_run ps sds_empty knees0 = Ok (unsat, knees) /\
    (forall v, (exists k, In k (flat knees) /\ strictly_above K v k) <-> strictly_above K v k0 /\ forall p, In p ps -> ~ below K v p) /\
    (forall v, (exists x, In x (flat unsat) /\ below K v x) <-> exists p, In p ps /\ below K v p).
Proof.
  intros K k0 ps knees0 HK Vk V E0. destruct (add_sd_mem K k0 sds_empty Vk (wf_empty K)) as (s0 & E0' & W0 & I0 & M0). rewrite E0 in E0'. injection E0' as <-.
  destruct (knee_run_ok K HK ps sds_empty knees0 V (wf_empty K)) as (u & k & E & _ & _ & _ & C & R); auto. { intros x y []. } { intros v _ (x & [] & _). }
  exists u, k. split; [exact E|]. split.
  - intros v. unfold reaches in R. rewrite R. split.
    + intros [(x & Hx & A) N]. split; [|exact N]. apply I0 in Hx as [[]| ->]. exact A.
    + intros [A N]. split; [|exact N]. destruct (proj2 (M0 k0) (or_intror (same_refl K k0))) as (y & Hy & S). exists y. split; [exact Hy|]. intros e He. rewrite <- (S e He). apply A, He.
  - intros v. unfold covers in C. rewrite C. split; [|auto]. intros [(x & [] & _)|H]. exact H.
Qed.
Print Assumptions C44_knees.
(** A cut adds one point: the distribution with the non-critical buffers raised to the largest
    integer; nothing is added when no edge is critical or every buffer is. *)
Theorem C44_cut : forall K buffers critical d unsat knees, channel_list K -> incl buffers K -> valid K d ->
  exists d', valid K d' /\
    (forall e, quantity d' e = if existsb (Z.eqb e) buffers && negb (existsb (Z.eqb e) critical) then int_max else quantity d e) /\
    add_cut buffers critical d unsat knees =
      (if existsb (fun e => negb (existsb (Z.eqb e) critical)) buffers && negb (match critical with [] => true | _ => false end)
       then add_point d' unsat knees else Ok (unsat, knees)).
Proof.
  intros K buffers critical d u k HK I V. destruct (raise_ok K HK critical buffers d I V) as [V' Q]. exists (raise_non_critical critical buffers d). split; [exact V'|]. split; [exact Q|].
  unfold add_cut. destruct critical as [|c cs]; [rewrite andb_false_r; reflexivity|]. rewrite andb_true_r. reflexivity.
Qed.
Print Assumptions C44_cut.
Example C44_hyp : exists k0 r, add_sd (ex_d 0 0 0) sds_empty = Ok k0 /\ knee_run [ex_d 1 2 3; ex_d 2 1 1; ex_d 4 4 0] sds_empty k0 = Ok r /\ set_count (snd r) = 5 /\ set_count (fst r) = 3.
Proof. eexists _, _. split; [vm_compute; reflexivity|]. split; [vm_compute; reflexivity|]. vm_compute. auto. Qed.

(** ** C45 *)
Theorem C45_minimum : forall K a b, channel_list K -> valid K a -> valid K b ->
  exists m, make_minimal a b = Ok m /\ valid K m /\ below K m a /\ below K m b /\ (forall c, below K c a -> below K c b -> below K c m) /\
    sd_size m = sumZ (map (fun e => Z.min (quantity a e) (quantity b e)) K).
Proof.
  intros K a b HK Va Vb. destruct (make_minimal_ok K HK a b Va Vb) as (m & E & V & Q). exists m. split; [exact E|]. split; [exact V|]. split; [|split; [|split]].
  - intros e He. rewrite Q by exact He. lia.
  - intros e He. rewrite Q by exact He. lia.
  - intros c Ha Hb e He. rewrite Q by exact He. specialize (Ha e He). specialize (Hb e He). lia.
  - rewrite (valid_size _ _ V). f_equal. apply map_ext_in. intros e He. apply Q, He.
Qed.
Print Assumptions C45_minimum.
Example C45_hyp : exists m, make_minimal (ex_d 5 1 3) (ex_d 2 2 2) = Ok m /\ map (quantity m) ex_K = [2; 1; 2] /\ sd_size m = 5.
Proof. eexists. split; [vm_compute; reflexivity|]. vm_compute. auto. Qed.

(** ** C46 *)
(** Both cone queries on a set built by additions and removals. *)
Theorem C46_fore_cone : forall K cs s d, channel_list K -> (forall c, In c cs -> valid K (arg c)) -> set_run cs sds_empty = Ok s -> valid K d ->
  exists b, is_in_fore_cone d s = Ok b /\ (b = true <-> exists x, In x (flat s) /\ ~ same K d x /\ below K x d).
Proof.
  intros K cs s d HK V E Vd. destruct (set_run_ok K cs sds_empty [] V (wf_empty K)) as (s' & E' & W & _). { intros x _. split; [intros (y & [] & _)|intros []]. }
  rewrite E in E'. injection E' as <-. apply (is_in_fore_cone_ok K d s Vd W).
Qed.
Print Assumptions C46_fore_cone.
(** When the first stored distribution differs from [d], the back-cone query is exact; a
    channel on which [d] is within the lower bound [lb] counts as below. *)
Theorem C46_back_cone_partial : forall K cs s d lb, channel_list K -> (forall c, In c cs -> valid K (arg c)) -> set_run cs sds_empty = Ok s -> valid K d ->
  (forall x rest, flat s = x :: rest -> ~ same K d x) ->
  exists b, is_in_back_cone d lb s = Ok b /\
    (b = true <-> exists x, In x (flat s) /\ ~ same K d x /\ forall e, In e K -> quantity d e <= quantity x e \/ quantity d e <= bound_of lb e).
Proof.
  intros K cs s d lb HK V E Vd N. destruct (set_run_ok K cs sds_empty [] V (wf_empty K)) as (s' & E' & W & _). { intros x _. split; [intros (y & [] & _)|intros []]. }
  rewrite E in E'. injection E' as <-. pose proof (is_in_back_cone_ok K d lb s Vd W) as Q. destruct (flat s) as [|x l].
  - exists false. split; [exact Q|]. split; [discriminate|]. intros (x & [] & _).
  - destruct Q as [_ Q]. apply Q. apply (N x l eq_refl).
Qed.
Print Assumptions C46_back_cone_partial.
(** When the first stored distribution equals [d], the query reads an uninitialised variable. *)
Theorem C46_back_cone_refuted : forall K cs s d lb x rest, channel_list K -> (forall c, In c cs -> valid K (arg c)) -> set_run cs sds_empty = Ok s -> valid K d ->
  flat s = x :: rest -> same K d x -> is_in_back_cone d lb s = Undefined.
Proof.
  intros K cs s d lb x rest HK V E Vd F S. destruct (set_run_ok K cs sds_empty [] V (wf_empty K)) as (s' & E' & W & _). { intros y _. split; [intros (z & [] & _)|intros []]. }
  rewrite E in E'. injection E' as <-. pose proof (is_in_back_cone_ok K d lb s Vd W) as Q. rewrite F in Q. apply Q, S.
Qed.
Print Assumptions C46_back_cone_refuted.
Example C46_hyp : exists s, set_run [Add (ex_d 1 2 3); Add (ex_d 4 4 4)] sds_empty = Ok s /\ is_in_back_cone (ex_d 4 4 4) [] s = Ok false /\ is_in_back_cone (ex_d 2 4 4) [] s = Ok true /\
  is_in_back_cone (ex_d 1 2 3) [] s = Undefined /\ is_in_fore_cone (ex_d 4 4 4) s = Ok true.
Proof. eexists. split; [vm_compute; reflexivity|]. vm_compute. auto. Qed.

(** ** C57 *)
Theorem C57_feasible_set : forall K ps, channel_list K -> (forall p, In p ps -> valid K p) -> exists s, feasible_run ps sds_empty = Ok s /\
  (forall x y, at_two (flat s) x y -> ~ below K x y) /\
  (forall v, (exists x, In x (flat s) /\ below K x v) <-> exists p, In p ps /\ below K p v).
Proof.
  intros K ps HK V. destruct (feasible_run_ok K ps sds_empty V (wf_empty K)) as (s & E & W & A & C). { intros x y []. }
  exists s. split; [exact E|]. split.
  - intros x y T B. apply (uniq_two K s x y W T). destruct T as (i & j & _ & Ei & Ej). apply A; [eapply nth_error_In; eauto..|exact B].
  - intros v. unfold reached in C. rewrite C. split; [|auto]. intros [(x & [] & _)|H]. exact H.
Qed.
Print Assumptions C57_feasible_set.
Example C57_hyp : exists s, feasible_run [ex_d 2 2 2; ex_d 3 3 3; ex_d 1 1 1; ex_d 0 5 5; ex_d 0 5 6] sds_empty = Ok s /\ flat s = [ex_d 1 1 1; ex_d 0 5 5].
Proof. eexists. split; vm_compute; reflexivity. Qed.

(** ** C58 *)
(** With two stored distributions or more, updateInfeasibleSet always reads an uninitialised
    variable: its own back-cone test compares the first stored distribution with itself. *)
Theorem C58_infeasible_set_refuted : forall K cs s d lb, channel_list K -> (forall c, In c cs -> valid K (arg c)) -> set_run cs sds_empty = Ok s -> valid K d ->
  2 <= set_count s -> update_infeasible_set d lb s = Undefined.
Proof.
  intros K cs s d lb HK V E Vd L. destruct (set_run_ok K cs sds_empty [] V (wf_empty K)) as (s' & E' & W & _). { intros x _. split; [intros (y & [] & _)|intros []]. }
  rewrite E in E'. injection E' as <-. apply (update_infeasible_undefined K d lb s Vd W). unfold set_count in L. lia.
Qed.
Print Assumptions C58_infeasible_set_refuted.
Example C58_hyp : exists s, set_run [Add (ex_d 1 2 3); Add (ex_d 4 0 0)] sds_empty = Ok s /\ set_count s = 2 /\ update_infeasible_set (ex_d 7 7 7) [] s = Undefined.
Proof. eexists. split; [vm_compute; reflexivity|]. vm_compute. auto. Qed.
