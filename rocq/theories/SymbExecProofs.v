(** Proofs about the symbolic execution loop. *)
From Coq Require Import QArith.
From Verif Require Import Base Graph KPeriodic ScheduleSpec SymbExec SymbExecSpec.
Open Scope Z_scope.

Lemma times_snoc i w j : times i (w ++ [j]) = (times i w + if (j =? i)%nat then 1 else 0)%nat.
Proof.
  unfold times. rewrite count_occ_app. cbn [count_occ]. destruct (Nat.eq_dec j i) as [->|N].
  - rewrite Nat.eqb_refl. lia.
  - apply Nat.eqb_neq in N. rewrite N. lia.
Qed.

(** ** Whole cycles *)
Definition tok (c : edge) (w : list nat) : Z :=
  e_preload c + edge_in_total c * Z.of_nat (times (e_src c) w) - edge_out_total c * Z.of_nat (times (e_dst c) w).
Definition ready (g : graph) (w : list nat) (i : nat) : Prop :=
  forall c, In c (edges g) -> e_dst c = i -> edge_out_total c <= tok c w.
Inductive plays (g : graph) : list nat -> Prop :=
| plays_nil : plays g []
| plays_snoc : forall w i, plays g w -> (i < length (vertices g))%nat -> ready g w i -> plays g (w ++ [i]).

Lemma tok_snoc c w i : tok c (w ++ [i]) =
  tok c w + (if (e_src c =? i)%nat then edge_in_total c else 0) - (if (e_dst c =? i)%nat then edge_out_total c else 0).
Proof.
  unfold tok. rewrite !times_snoc, !(Nat.eqb_sym i).
  destruct (e_src c =? i)%nat, (e_dst c =? i)%nat; nia.
Qed.

(** ** Updates of the stores *)
Lemma put_same s k x : put s k x k = x.
Proof. unfold put. rewrite Z.eqb_refl. reflexivity. Qed.
Lemma put_other s k x j : j <> k -> put s k x j = s j.
Proof. unfold put. intros H. destruct (Z.eqb_spec j k); [contradiction|reflexivity]. Qed.

Lemma fold_put_notin (f : edge -> Z) : forall l b k, ~ In k (map e_id l) ->
  fold_left (fun b c => put b (e_id c) (b (e_id c) + f c)) l b k = b k.
Proof.
  induction l as [|a l IH]; intros b k H; cbn [fold_left map] in *; [reflexivity|].
  rewrite IH by (intro; apply H; right; assumption). apply put_other. intros ->. apply H. left. reflexivity.
Qed.
Lemma fold_put_in (f : edge -> Z) : forall l b c, NoDup (map e_id l) -> In c l ->
  fold_left (fun b c => put b (e_id c) (b (e_id c) + f c)) l b (e_id c) = b (e_id c) + f c.
Proof.
  induction l as [|a l IH]; intros b c ND Hin; [destruct Hin|]. cbn [fold_left map] in *.
  inversion ND as [|? ? Hni ND']; subst. destruct Hin as [-> |Hin].
  - rewrite fold_put_notin by assumption. apply put_same.
  - rewrite IH by assumption. rewrite put_other; [reflexivity|].
    intros E. apply Hni. rewrite <- E. apply in_map. exact Hin.
Qed.
Lemma fold_put_neq (f : edge -> Z) : forall l b c (ed : list edge), NoDup (map e_id ed) -> incl l ed -> In c ed -> ~ In c l ->
  fold_left (fun b c => put b (e_id c) (b (e_id c) + f c)) l b (e_id c) = b (e_id c).
Proof.
  intros l b c ed ND Hi Hc Hn. apply fold_put_notin. intros H. apply in_map_iff in H. destruct H as (c' & E & Hin).
  apply Hn. assert (c' = c) as <-; [|assumption].
  clear - ND E Hi Hc Hin. specialize (Hi _ Hin). clear Hin. revert ND Hi Hc. induction ed as [|a ed IH]; intros ND H1 H2; [destruct H1|].
  cbn in ND. inversion ND as [|? ? Hni ND']; subst. destruct H1 as [-> |H1], H2 as [-> |H2]; auto.
  - exfalso. apply Hni. rewrite E. apply in_map. exact H2.
  - exfalso. apply Hni. rewrite <- E. apply in_map. exact H1.
Qed.
Lemma NoDup_map_filter {A B} (f : A -> B) p : forall l, NoDup (map f l) -> NoDup (map f (filter p l)).
Proof.
  induction l as [|a l IH]; intros ND; [constructor|]. cbn in *. inversion ND as [|? ? Hni ND']; subst.
  destruct (p a); [|auto]. cbn. constructor; [|auto]. intros H. apply Hni. apply in_map_iff in H. destruct H as (x & E & Hx).
  apply filter_In in Hx. rewrite <- E. apply in_map. tauto.
Qed.

Lemma fire_content g st i v c : distinct_channels g -> In c (edges g) ->
  content (fire g st i v) (e_id c) = content st (e_id c)
    + (if (e_src c =? i)%nat then edge_in_total c else 0) - (if (e_dst c =? i)%nat then edge_out_total c else 0).
Proof.
  intros ND Hc. unfold fire. cbn [content].
  set (b1 := fold_left _ (inputs g i) (content st)).
  assert (H1 : b1 (e_id c) = content st (e_id c) - (if (e_dst c =? i)%nat then edge_out_total c else 0)).
  { unfold b1. destruct (e_dst c =? i)%nat eqn:E.
    - rewrite (fold_put_in (fun c => - edge_out_total c)); [lia|apply NoDup_map_filter; exact ND|].
      apply filter_In. auto.
    - rewrite (fold_put_neq (fun c => - edge_out_total c) _ _ _ (edges g)); auto; [lia|intros x Hx; apply filter_In in Hx; tauto|].
      intros H. apply filter_In in H. rewrite E in H. destruct H; discriminate. }
  destruct (e_src c =? i)%nat eqn:E.
  - rewrite (fold_put_in edge_in_total); [lia|apply NoDup_map_filter; exact ND|]. apply filter_In. auto.
  - rewrite (fold_put_neq edge_in_total _ _ _ (edges g)); auto; [lia|intros x Hx; apply filter_In in Hx; tauto|].
    intros H. apply filter_In in H. rewrite E in H. destruct H; discriminate.
Qed.

(** ** The invariant: the state is what the executions [w] leave *)
Fixpoint sum_to (f : nat -> Z) (n : nat) : Z := match n with O => 0 | S m => sum_to f m + f m end.
Lemma sum_to_ext f h : forall n, (forall i, (i < n)%nat -> f i = h i) -> sum_to f n = sum_to h n.
Proof. induction n as [|n IH]; intros H; [reflexivity|]. cbn. rewrite IH, H; auto. Qed.
Lemma sum_to_change f h j d : forall n, (j < n)%nat -> h j = f j + d -> (forall i, i <> j -> h i = f i) -> sum_to h n = sum_to f n + d.
Proof.
  intros n Hj E O. induction n as [|n IH]; [lia|]. cbn. destruct (Nat.eq_dec j n) as [->|N].
  - rewrite (sum_to_ext h f n) by (intros; apply O; lia). lia.
  - rewrite IH by lia. rewrite (O n) by lia. lia.
Qed.
Lemma sum_to_pos f : forall n, (forall i, (i < n)%nat -> 0 <= f i) -> 0 < sum_to f n -> exists i, (i < n)%nat /\ 0 < f i.
Proof.
  induction n as [|n IH]; intros Hn H; cbn in H; [lia|].
  destruct (Z_lt_le_dec 0 (f n)) as [P|P]; [exists n; split; [lia|exact P]|].
  destruct IH as (i & Hi & Pi); [intros; apply Hn; lia|specialize (Hn n ltac:(lia)); lia|]. exists i. split; [lia|exact Pi].
Qed.
Lemma sum_to_nonneg f : forall n, (forall i, (i < n)%nat -> 0 <= f i) -> 0 <= sum_to f n.
Proof. induction n as [|n IH]; intros H; cbn; [lia|]. specialize (IH ltac:(intros; apply H; lia)). specialize (H n ltac:(lia)). lia. Qed.
Lemma sum_to_zero f : forall n, (forall i, (i < n)%nat -> 0 <= f i) -> sum_to f n = 0 -> forall i, (i < n)%nat -> f i = 0.
Proof.
  induction n as [|n IH]; intros H E i Hi; [lia|]. cbn in E. pose proof (sum_to_nonneg f n ltac:(intros; apply H; lia)).
  pose proof (H n ltac:(lia)). destruct (Nat.eq_dec i n) as [->|]; [lia|]. apply IH; [intros; apply H; lia|lia|lia].
Qed.

Record inv (g : graph) (M : nat -> Z) (w : list nat) (st : state) : Prop := {
  inv_plays : plays g w;
  inv_content : forall c, In c (edges g) -> content st (e_id c) = tok c w;
  inv_left : forall i v, nth_error (vertices g) i = Some v -> left st (v_id v) = M i - Z.of_nat (times i w);
  inv_room : forall i, (i < length (vertices g))%nat -> Z.of_nat (times i w) <= M i;
  inv_total : total st = sum_to (fun i => M i - Z.of_nat (times i w)) (length (vertices g)) }.

Lemma id_inj g i j v u : NoDup (map v_id (vertices g)) -> nth_error (vertices g) i = Some v -> nth_error (vertices g) j = Some u ->
  v_id v = v_id u -> i = j.
Proof.
  intros ND Hi Hj E. apply (proj1 (NoDup_nth_error (map v_id (vertices g))) ND).
  - rewrite map_length. apply nth_error_Some. congruence.
  - rewrite !nth_error_map, Hi, Hj. cbn. congruence.
Qed.

Section Core.
Variable g : graph.
Hypothesis ids : NoDup (map v_id (vertices g)).
Hypothesis chans : distinct_channels g.
Variable M : nat -> Z.

Lemma can_execute_ready w st i v : inv g M w st -> nth_error (vertices g) i = Some v ->
  can_execute g st i v = true <-> Z.of_nat (times i w) < M i /\ ready g w i.
Proof.
  intros I Hv. unfold can_execute. rewrite andb_true_iff, Z.ltb_lt, (inv_left _ _ _ _ I i v Hv), forallb_forall.
  split; intros [A B]; split; try lia.
  - intros c Hc E. rewrite <- (inv_content _ _ _ _ I c Hc). apply Z.leb_le. apply B. apply filter_In. split; [exact Hc|]. apply Nat.eqb_eq. exact E.
  - intros c Hc. apply filter_In in Hc. destruct Hc as [Hc E]. apply Nat.eqb_eq in E. apply Z.leb_le.
    rewrite (inv_content _ _ _ _ I c Hc). apply B; assumption.
Qed.

Lemma fire_inv w st i v : inv g M w st -> nth_error (vertices g) i = Some v -> can_execute g st i v = true ->
  inv g M (w ++ [i]) (fire g st i v).
Proof.
  intros I Hv C. apply (can_execute_ready _ _ _ _ I Hv) in C. destruct C as [L R].
  assert (Hi : (i < length (vertices g))%nat) by (apply nth_error_Some; congruence).
  constructor.
  - apply plays_snoc; [apply (inv_plays _ _ _ _ I)|exact Hi|exact R].
  - intros c Hc. rewrite fire_content by assumption. rewrite tok_snoc, (inv_content _ _ _ _ I c Hc). lia.
  - intros j u Hu. unfold fire. cbn [left]. rewrite times_snoc. destruct (Nat.eqb_spec i j) as [<- |N].
    + assert (u = v) as -> by congruence. rewrite put_same, (inv_left _ _ _ _ I i v Hv). lia.
    + rewrite put_other, (inv_left _ _ _ _ I j u Hu); [lia|]. intros E. apply N. symmetry. eapply id_inj; eauto.
  - intros j Hj. rewrite times_snoc. pose proof (inv_room _ _ _ _ I j Hj). destruct (Nat.eqb_spec i j) as [<- |]; lia.
  - unfold fire. cbn [total]. rewrite (inv_total _ _ _ _ I). symmetry.
    rewrite (sum_to_change (fun j => M j - Z.of_nat (times j w)) _ i (-1)); [lia|exact Hi| |].
    + rewrite times_snoc, Nat.eqb_refl. lia.
    + intros j N. rewrite times_snoc. destruct (Nat.eqb_spec i j); [subst; congruence|lia].
Qed.

Lemma fold_put_vertices (f : nat * vertex -> Z) : forall l s k, ~ In k (map (fun iv => v_id (snd iv)) l) ->
  fold_left (fun s iv => put s (v_id (snd iv)) (f iv)) l s k = s k.
Proof.
  clear. induction l as [|a l IH]; intros s k H; cbn [fold_left map In] in *; [reflexivity|].
  rewrite IH by tauto. apply put_other. intros ->. tauto.
Qed.
Lemma fold_put_vertices_in (f : nat * vertex -> Z) : forall l s iv, NoDup (map (fun iv => v_id (snd iv)) l) -> In iv l ->
  fold_left (fun s iv => put s (v_id (snd iv)) (f iv)) l s (v_id (snd iv)) = f iv.
Proof.
  clear. induction l as [|a l IH]; intros s iv ND Hin; [destruct Hin|]. cbn [fold_left map In] in *. inversion ND as [|? ? Hni ND']; subst.
  destruct Hin as [-> |Hin]; [rewrite fold_put_vertices by assumption; apply put_same|apply IH; assumption].
Qed.
Lemma fold_put_set : forall l s c, NoDup (map e_id l) -> In c l ->
  fold_left (fun s c => put s (e_id c) (e_preload c)) l s (e_id c) = e_preload c.
Proof.
  clear. assert (A : forall l s k, ~ In k (map e_id l) -> fold_left (fun s c => put s (e_id c) (e_preload c)) l s k = s k).
  { induction l as [|a l IH]; intros s k H; cbn [fold_left map In] in *; [reflexivity|]. rewrite IH by tauto. apply put_other. intros ->. tauto. }
  induction l as [|a l IH]; intros s c ND Hin; [destruct Hin|]. cbn [fold_left map In] in *. inversion ND as [|? ? Hni ND']; subst.
  destruct Hin as [-> |Hin]; [rewrite A by assumption; apply put_same|apply IH; assumption].
Qed.
End Core.

Lemma indexed_nth {A} (l : list A) i x : In (i, x) (indexed l) <-> nth_error l i = Some x.
Proof.
  unfold indexed. rewrite <- (Nat.sub_0_r i) at 2.
  assert (G : forall l a, In (i, x) (combine (seq a (length l)) l) <-> (a <= i)%nat /\ nth_error l (i - a) = Some x).
  { clear. induction l as [|y l IH]; intros a; cbn [length seq combine In].
    - split; [intros []|]. intros [_ H]. destruct (i - a)%nat; discriminate.
    - rewrite IH. split.
      + intros [E|[H1 H2]]; [injection E as -> ->; rewrite Nat.sub_diag; auto|].
        split; [lia|]. replace (i - a)%nat with (S (i - S a)) by lia. exact H2.
      + intros [H1 H2]. destruct (Nat.eq_dec a i) as [->|N].
        * left. rewrite Nat.sub_diag in H2. cbn in H2. congruence.
        * right. split; [lia|]. replace (i - a)%nat with (S (i - S a)) in H2 by lia. exact H2. }
  rewrite G. intuition lia.
Qed.
Lemma indexed_snd {A B} (f : A -> B) (l : list A) : map (fun iv => f (snd iv)) (indexed l) = map f l.
Proof.
  unfold indexed. generalize 0%nat. induction l as [|x l IH]; intros a; [reflexivity|]. cbn [length seq combine map snd]. rewrite IH. reflexivity.
Qed.
Lemma indexed_total (f : nat -> Z) {A} (l : list A) : fold_left (fun t (iv : nat * A) => t + f (fst iv)) (indexed l) 0 = sum_to f (length l).
Proof.
  unfold indexed. assert (G : forall l t a, fold_left (fun t (iv : nat * A) => t + f (fst iv)) (combine (seq a (length l)) l) t = t + sum_to (fun i => f (a + i)%nat) (length l)).
  { clear. induction l as [|x l IH]; intros t a; cbn [length seq combine fold_left fst]; [cbn; lia|].
    rewrite IH. assert (E : forall n, sum_to (fun i => f (a + i)%nat) (S n) = f a + sum_to (fun i => f (S a + i)%nat) n).
    { induction n as [|n IHn]; [cbn; rewrite Nat.add_0_r; lia|]. cbn [sum_to] in *. rewrite IHn. replace (a + S n)%nat with (S a + n)%nat by lia. lia. }
    rewrite E. lia. }
  rewrite G. apply Z.add_0_l.
Qed.

Lemma initial_inv g N k : NoDup (map v_id (vertices g)) -> distinct_channels g ->
  (forall i, (i < length (vertices g))%nat -> 0 <= N i * k) -> inv g (fun i => N i * k) [] (initial_state g N k).
Proof.
  intros ids chans Hn. constructor.
  - constructor.
  - intros c Hc. unfold initial_state. cbn [content]. rewrite fold_put_set by assumption. unfold tok. cbn. lia.
  - intros i v Hv. unfold initial_state. cbn [left].
    rewrite (fold_put_vertices_in (fun iv => N (fst iv) * k) _ _ (i, v)); [cbn; lia| |apply indexed_nth; exact Hv].
    rewrite (indexed_snd v_id). exact ids.
  - intros i Hi. cbn. apply Hn. exact Hi.
  - unfold initial_state. cbn [total]. rewrite (indexed_total (fun i => N i * k)). apply sum_to_ext. intros i Hi. cbn. lia.
Qed.

(** ** The loop *)
Section Run.
Context {extra : Type}.
Variable g : graph.
Hypothesis ids : NoDup (map v_id (vertices g)).
Hypothesis chans : distinct_channels g.
Variable M : nat -> Z.
Variable on_fire : nat -> vertex -> extra -> outcome extra.
(** What is known of the extra data after the executions [w]. *)
Variable P : list nat -> extra -> Prop.
Hypothesis P_step : forall w i v x x', plays g w -> Z.of_nat (times i w) < M i -> ready g w i -> nth_error (vertices g) i = Some v -> P w x -> on_fire i v x = Ok x' -> P (w ++ [i]) x'.

Lemma visit_inv w i v st x st' x' : inv g M w st -> P w x -> nth_error (vertices g) i = Some v ->
  visit g on_fire i v (st, x) = Ok (st', x') ->
  exists w', inv g M (w ++ w') st' /\ P (w ++ w') x' /\ (can_execute g st i v = true -> w' <> []) /\ (forall j, In j w' -> j = i).
Proof using P_step chans ids.
  intros I Hp Hv E. unfold visit in E. cbn [fst snd] in E. destruct (can_execute g st i v) eqn:C.
  - destruct (on_fire i v x) as [y| | |] eqn:F; try discriminate. cbn [bind] in E. injection E as <- <-.
    exists [i]. destruct (proj1 (can_execute_ready g M w st i v I Hv) C) as [Lt R].
    split; [apply fire_inv; assumption|]. split; [eapply P_step; eauto; apply (inv_plays _ _ _ _ I)|]. split; [discriminate|].
    intros j [<-|[]]. reflexivity.
  - injection E as <- <-. exists []. rewrite app_nil_r. split; [exact I|]. split; [exact Hp|]. split; [discriminate|]. intros j [].
Qed.

Lemma ready_more w w' i : (forall c, In c (edges g) -> 0 <= edge_in_total c) -> ready g w i -> ~ In i w' -> ready g (w ++ w') i.
Proof using.
  clear. intros Hp R N c Hc E. specialize (R c Hc E). unfold tok in *. unfold times in *. rewrite !count_occ_app.
  rewrite (proj1 (count_occ_not_In Nat.eq_dec w' (e_dst c))) by (rewrite E; exact N). specialize (Hp c Hc). nia.
Qed.

Lemma pass_inv : forall vs w st x st' x', (forall i v, In (i, v) vs -> nth_error (vertices g) i = Some v) ->
  inv g M w st -> P w x -> pass g on_fire vs (st, x) = Ok (st', x') ->
  exists w', inv g M (w ++ w') st' /\ P (w ++ w') x' /\
    ((forall c, In c (edges g) -> 0 <= edge_in_total c) ->
     (exists i v, In (i, v) vs /\ Z.of_nat (times i w) < M i /\ ready g w i) -> w' <> []).
Proof using P_step chans ids.
  induction vs as [|(i, v) vs IH]; intros w st x st' x' Hvs I Hp E.
  - injection E as <- <-. exists []. rewrite app_nil_r. split; [exact I|]. split; [exact Hp|]. intros _ (i & v & [] & _).
  - cbn [pass] in E. destruct (visit g on_fire i v (st, x)) as [(st1, x1)| | |] eqn:V; try discriminate. cbn [bind] in E.
    destruct (visit_inv _ _ _ _ _ _ _ I Hp (Hvs _ _ (or_introl eq_refl)) V) as (w1 & I1 & P1 & C1 & O1).
    destruct (IH _ _ _ _ _ (fun j u H => Hvs j u (or_intror H)) I1 P1 E) as (w2 & I2 & P2 & C2).
    exists (w1 ++ w2). rewrite app_assoc. split; [exact I2|]. split; [exact P2|].
    intros Hpos (j & u & Hin & L & R) En. apply app_eq_nil in En. destruct En as [-> ->].
    destruct Hin as [E'|Hin].
    + injection E' as <- <-. apply C1; [|reflexivity]. apply (can_execute_ready g M w st i v I); [apply Hvs; left; reflexivity|]. auto.
    + apply C2; [exact Hpos| |reflexivity]. exists j, u. rewrite app_nil_r. auto.
Qed.

Lemma loop_ends : forall fuel w st x st' x', inv g M w st -> P w x -> loop g on_fire fuel (st, x) = Ok (st', x') ->
  exists w', inv g M (w ++ w') st' /\ P (w ++ w') x' /\ total st' <= 0.
Proof using P_step chans ids.
  assert (Z0 : forall w st x st' x', inv g M w st -> P w x -> (0 <? total st) = false -> Ok (st, x) = Ok (st', x') ->
     exists w', inv g M (w ++ w') st' /\ P (w ++ w') x' /\ total st' <= 0).
  { intros w st x st' x' I Hp T E. injection E as <- <-. exists []. rewrite app_nil_r. apply Z.ltb_ge in T. auto. }
  induction fuel as [|fuel IH]; intros w st x st' x' I Hp E; cbn [loop fst] in E; destruct (0 <? total st) eqn:T; eauto; try discriminate.
  destruct (pass g on_fire (indexed (vertices g)) (st, x)) as [(st1, x1)| | |] eqn:Pa; try discriminate. cbn [bind] in E.
  destruct (pass_inv _ _ _ _ _ _ (fun i v H => proj1 (indexed_nth _ i v) H) I Hp Pa) as (w1 & I1 & P1 & _).
  destruct (IH _ _ _ _ _ I1 P1 E) as (w2 & I2 & P2 & T2). exists (w1 ++ w2). rewrite app_assoc. auto.
Qed.

Hypothesis fires : forall w i v x, plays g w -> Z.of_nat (times i w) < M i -> ready g w i -> nth_error (vertices g) i = Some v -> P w x -> exists x', on_fire i v x = Ok x'.

Lemma pass_ok : forall vs w st x, (forall i v, In (i, v) vs -> nth_error (vertices g) i = Some v) ->
  inv g M w st -> P w x -> exists st' x', pass g on_fire vs (st, x) = Ok (st', x').
Proof using P_step chans ids fires.
  induction vs as [|(i, v) vs IH]; intros w st x Hvs I Hp; [exists st, x; reflexivity|]. cbn [pass].
  assert (Hv := Hvs _ _ (or_introl eq_refl)).
  assert (V : exists st1 x1, visit g on_fire i v (st, x) = Ok (st1, x1)).
  { unfold visit. cbn [fst snd]. destruct (can_execute g st i v) eqn:C; [|eauto].
    destruct (proj1 (can_execute_ready g M w st i v I Hv) C) as [Lt R].
    destruct (fires w i v x (inv_plays _ _ _ _ I) Lt R Hv Hp) as (x' & ->). cbn. eauto. }
  destruct V as (st1 & x1 & V). rewrite V. cbn [bind].
  destruct (visit_inv _ _ _ _ _ _ _ I Hp Hv V) as (w1 & I1 & P1 & _).
  apply (IH (w ++ w1)); auto. intros j u H. apply Hvs. right. exact H.
Qed.

(** The first execution of [W] that [w] has not made yet is possible after [w]. *)
Lemma some_ready : (forall c, In c (edges g) -> 0 <= edge_in_total c) -> forall W w, plays g W -> (exists i, (times i w < times i W)%nat) ->
  exists i, (times i w < times i W)%nat /\ (i < length (vertices g))%nat /\ ready g w i.
Proof using.
  clear. intros Hp W w H. induction H as [|W j H IH Hj R]; intros (i & L).
  - cbn in L. lia.
  - destruct (existsb (fun i => times i w <? times i W)%nat (seq 0 (length (vertices g)))) eqn:X.
    + apply existsb_exists in X. destruct X as (k & Hk & Lk). apply Nat.ltb_lt in Lk. destruct (IH (ex_intro _ k Lk)) as (m & Lm & Hm & Rm).
      exists m. split; [|auto]. rewrite times_snoc. lia.
    + assert (LE : forall k, (k < length (vertices g))%nat -> (times k W <= times k w)%nat).
      { intros k Hk. destruct (Nat.le_gt_cases (times k W) (times k w)) as [|G]; [assumption|exfalso].
        assert (true = false); [|discriminate]. rewrite <- X. symmetry. apply existsb_exists. exists k. split; [apply in_seq; lia|]. apply Nat.ltb_lt. exact G. }
      assert (OUT : forall k, ~ (k < length (vertices g))%nat -> times k W = 0%nat).
      { intros k Hk. clear - H Hk. induction H as [|W j H IH Hj R]; [reflexivity|]. rewrite times_snoc, IH. destruct (Nat.eqb_spec j k); [lia|reflexivity]. }
      assert (LE' : forall k, (times k W <= times k w)%nat).
      { intros k. destruct (Nat.lt_ge_cases k (length (vertices g))) as [|G]; [auto|]. rewrite OUT by lia. lia. }
      rewrite times_snoc in L. destruct (Nat.eqb_spec j i) as [Eji|N]; [subst i|exfalso; specialize (LE' i); lia].
      exists j. rewrite times_snoc, Nat.eqb_refl. split; [exact L|]. split; [exact Hj|].
      intros c Hc E. specialize (R c Hc E). unfold tok in *. rewrite E in *.
      assert (times j w = times j W) as -> by (specialize (LE' j); lia).
      specialize (LE' (e_src c)). specialize (Hp c Hc). nia.
Qed.

Lemma loop_completes W : (forall c, In c (edges g) -> 0 <= edge_in_total c) -> plays g W ->
  (forall i, (i < length (vertices g))%nat -> Z.of_nat (times i W) = M i) ->
  forall fuel w st x, inv g M w st -> P w x -> total st <= Z.of_nat fuel ->
  exists st' x', loop g on_fire fuel (st, x) = Ok (st', x').
Proof using P_step chans ids fires.
  intros Hp HW CW. induction fuel as [|fuel IH]; intros w st x I Px T; cbn [loop fst].
  - replace (0 <? total st) with false by (symmetry; apply Z.ltb_ge; lia). eauto.
  - destruct (0 <? total st) eqn:T0; [|eauto]. apply Z.ltb_lt in T0.
    destruct (pass_ok (indexed (vertices g)) w st x (fun i v H => proj1 (indexed_nth _ i v) H) I Px) as (st1 & x1 & Pa).
    rewrite Pa. cbn [bind].
    destruct (pass_inv _ _ _ _ _ _ (fun i v H => proj1 (indexed_nth _ i v) H) I Px Pa) as (w1 & I1 & P1 & NE).
    assert (NE1 : w1 <> []).
    { apply NE; [exact Hp|]. rewrite (inv_total _ _ _ _ I) in T0.
      destruct (sum_to_pos _ _ (fun i Hi => proj2 (Z.le_0_sub _ _) (inv_room _ _ _ _ I i Hi)) T0) as (i & Hi & Li).
      destruct (some_ready Hp W w HW) as (j & Lj & Hj & Rj); [exists i; specialize (CW i Hi); lia|].
      destruct (nth_error (vertices g) j) as [v|] eqn:Hv; [|apply nth_error_None in Hv; lia].
      exists j, v. split; [apply indexed_nth; exact Hv|]. split; [|exact Rj]. rewrite <- (CW j Hj). lia. }
    apply (IH (w ++ w1)); auto. rewrite (inv_total _ _ _ _ I1). rewrite (inv_total _ _ _ _ I) in T.
    enough (sum_to (fun i => M i - Z.of_nat (times i (w ++ w1))) (length (vertices g)) < sum_to (fun i => M i - Z.of_nat (times i w)) (length (vertices g))) by lia.
    pose proof (inv_plays _ _ _ _ I1) as PL. clear - NE1 PL.
    assert (A : forall l w, (forall j, In j l -> (j < length (vertices g))%nat) -> sum_to (fun i => M i - Z.of_nat (times i (w ++ l))) (length (vertices g)) = sum_to (fun i => M i - Z.of_nat (times i w)) (length (vertices g)) - Z.of_nat (length l)).
    { clear. induction l as [|j l IH]; intros w Hl; [rewrite app_nil_r; cbn; lia|].
      replace (w ++ j :: l) with ((w ++ [j]) ++ l) by (rewrite <- app_assoc; reflexivity). rewrite IH by (intros; apply Hl; right; assumption).
      rewrite (sum_to_change (fun i => M i - Z.of_nat (times i w)) _ j (-1)); [cbn [length]; lia|apply Hl; left; reflexivity| |].
      - rewrite times_snoc, Nat.eqb_refl. lia.
      - intros i N. rewrite times_snoc. destruct (Nat.eqb_spec j i); [congruence|lia]. }
    rewrite A; [destruct w1; [congruence|cbn [length]; lia]|].
    intros j Hj. assert (B : forall u, plays g u -> forall j, In j u -> (j < length (vertices g))%nat).
    { clear. induction 1 as [|u i H IH Hi R]; intros j Hj; [destruct Hj|]. apply in_app_iff in Hj. destruct Hj as [Hj|[<-|[]]]; auto. }
    apply (B _ PL). apply in_or_app. right. exact Hj.
Qed.
End Run.
