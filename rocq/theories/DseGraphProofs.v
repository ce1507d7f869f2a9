(** Lemmas on the graph whose feedback channels hold a distribution. *)
From Coq Require Import QArith.
From Verif Require Import Base Graph Storage StorageSpec StorageProofs Dse DseSpec ScheduleSpec ChannelSpec.
Open Scope Z_scope.

Lemma load_low count d cs : (forall c, In c cs -> e_id c <= count) -> load_edges count d cs = Ok cs.
Proof.
  induction cs as [|c cs IH]; intros H; [reflexivity|]. cbn [load_edges]. replace (e_id c >? count) with false by (symmetry; rewrite Z.gtb_ltb; apply Z.ltb_ge, H; left; reflexivity).
  cbn [bind]. rewrite IH by (intros; apply H; right; assumption). reflexivity.
Qed.
Lemma load_app count d a b ra rb : load_edges count d a = Ok ra -> load_edges count d b = Ok rb -> load_edges count d (a ++ b) = Ok (ra ++ rb).
Proof.
  revert ra. induction a as [|c a IH]; intros ra Ha Hb; cbn [load_edges app] in *; [injection Ha as <-; exact Hb|].
  destruct (if e_id c >? count then _ else _) as [c'| | |]; cbn [bind] in *; try discriminate. destruct (load_edges count d a) as [r| | |]; cbn [bind] in *; try discriminate.
  injection Ha as <-. rewrite (IH r eq_refl Hb). reflexivity.
Qed.
(** The feedback channel of the [i]-th channel, holding quantity [q] with [t] initial tokens. *)
Definition loaded (d : sd) (id : Z) (c : edge) : edge := set_preload (quantity d id - e_preload c) (feedback id c).
Fixpoint loadeds (d : sd) (id : Z) (cs : list edge) : list edge :=
  match cs with [] => [] | c :: cs' => loaded d id c :: loadeds d (id + 1) cs' end.
Lemma load_feedbacks count d cs : forall id, count < id ->
  (forall i c, nth_error cs i = Some c -> In (id + Z.of_nat i) (get_edges d) /\ get_tokens d (id + Z.of_nat i) = Ok (e_preload c)) ->
  load_edges count d (feedbacks id cs) = Ok (loadeds d id cs).
Proof.
  induction cs as [|c cs IH]; intros id L H; [reflexivity|]. cbn [feedbacks load_edges loadeds].
  replace (e_id (feedback id c) >? count) with true by (symmetry; rewrite Z.gtb_ltb; apply Z.ltb_lt; exact L).
  destruct (H 0%nat c eq_refl) as [H1 H2]. replace (id + Z.of_nat 0) with id in H1, H2 by lia. change (e_id (feedback id c)) with id. rewrite (get_quantity_in d id H1), H2. cbn [bind].
  rewrite IH; [reflexivity|lia|]. intros i c' E. replace (id + 1 + Z.of_nat i) with (id + Z.of_nat (S i)) by lia. apply (H (S i) c' E).
Qed.
Lemma loadeds_in d cs x : forall id, In x (loadeds d id cs) <-> exists i c, nth_error cs i = Some c /\ x = loaded d (id + Z.of_nat i) c.
Proof.
  induction cs as [|c cs IH]; intros id; cbn [loadeds]; split.
  - intros [].
  - intros (i & c & E & _). destruct i; discriminate.
  - intros [<-|H].
    + exists 0%nat, c. split; [reflexivity|]. replace (id + Z.of_nat 0) with id by lia. reflexivity.
    + apply IH in H. destruct H as (i & c' & E & ->). exists (S i), c'. split; [exact E|]. f_equal. lia.
  - intros (i & c' & E & ->). destruct i as [|i]; cbn [nth_error] in E.
    + injection E as ->. left. f_equal. lia.
    + right. apply IH. exists i, c'. split; [exact E|]. f_equal. lia.
Qed.
Lemma with_feedback_load g d :
  (forall c, In c (edges g) -> e_id c <= Z.of_nat (length (edges g))) ->
  (forall i c, nth_error (edges g) i = Some c -> In (Z.of_nat (length (edges g)) + 1 + Z.of_nat i) (get_edges d) /\ get_tokens d (Z.of_nat (length (edges g)) + 1 + Z.of_nat i) = Ok (e_preload c)) ->
  load_distribution (Z.of_nat (length (edges g))) d (with_feedback g) = Ok (mkGraph (vertices g) (edges g ++ loadeds d (Z.of_nat (length (edges g)) + 1) (edges g))).
Proof.
  intros H1 H2. unfold load_distribution, with_feedback. cbn [edges vertices]. erewrite load_app; [reflexivity|apply load_low, H1|apply load_feedbacks; [lia|exact H2]].
Qed.

Lemma loaded_valid g s d id c : periodic_channel c ->
  (channel_valid g s (loaded d id c) <->
   within_capacity (quantity d id) (e_preload c) (start_of s (e_src c)) (prod_rate c) (end_of s g (e_dst c)) (cons_rate c)).
Proof.
  intros [P1 P2]. unfold channel_valid, never_negative, within_capacity, prod_rate, cons_rate. cbn [loaded set_preload feedback e_preload e_src e_dst e_in e_out e_in_init e_out_init]. rewrite P1, P2. split.
  - intros H t np. destruct (H t np) as [nc Hn]. exists nc. lia.
  - intros H t nc. destruct (H t nc) as [np Hn]. exists np. lia.
Qed.
Lemma channel_valid_vertices g g' s c : vertices g = vertices g' -> channel_valid g s c -> channel_valid g' s c.
Proof. intros E H. unfold channel_valid, end_of in *. rewrite <- E. exact H. Qed.

Lemma feedback_schedules g d g' s :
  (forall c, In c (edges g) -> periodic_channel c /\ e_id c <= Z.of_nat (length (edges g))) ->
  (forall i c, nth_error (edges g) i = Some c -> In (Z.of_nat (length (edges g)) + 1 + Z.of_nat i) (get_edges d) /\ get_tokens d (Z.of_nat (length (edges g)) + 1 + Z.of_nat i) = Ok (e_preload c)) ->
  load_distribution (Z.of_nat (length (edges g))) d (with_feedback g) = Ok g' ->
  (schedule_valid g' s <-> schedule_valid g s /\
     forall i c, nth_error (edges g) i = Some c ->
       within_capacity (quantity d (Z.of_nat (length (edges g)) + 1 + Z.of_nat i)) (e_preload c)
         (start_of s (e_src c)) (prod_rate c) (end_of s g (e_dst c)) (cons_rate c)).
Proof.
  intros H1 H2 E. rewrite with_feedback_load in E; [|intros c Hc; apply H1, Hc|exact H2]. injection E as <-. unfold schedule_valid. cbn [vertices edges]. split.
  - intros [Hc Ht]. split; [split; [|exact Ht]|].
    + intros c Hin. apply (channel_valid_vertices _ g s c) in Hc; [exact Hc|reflexivity|apply in_or_app; auto].
    + intros i c Hi. destruct (H1 c (nth_error_In _ _ Hi)) as [P _]. apply loaded_valid; [exact P|].
      eapply channel_valid_vertices; [|apply Hc]; [reflexivity|]. apply in_or_app. right. apply loadeds_in. eauto.
  - intros [[Hc Ht] Hcap]. split; [|exact Ht]. intros c Hin. apply in_app_or in Hin. destruct Hin as [Hin|Hin].
    + apply (channel_valid_vertices g); [reflexivity|]. apply Hc, Hin.
    + apply loadeds_in in Hin. destruct Hin as (i & c' & Hi & ->). destruct (H1 c' (nth_error_In _ _ Hi)) as [P _].
      apply (channel_valid_vertices g); [reflexivity|]. apply loaded_valid; [exact P|]. apply Hcap, Hi.
Qed.
