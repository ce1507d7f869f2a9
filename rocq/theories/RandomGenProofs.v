(** The graph drawn by the random generator: shape, bounds, consistency. *)
From Coq Require Import QArith Permutation Sorted.
From Verif Require Import Base Graph ScheduleSpec KIterSpec RepVec RepVecSpec RepVecProofs RepVecProps RandomGen RandomGenSpec.
Open Scope Z_scope.

Lemma bind_ok {A B} (x : outcome A) (f : A -> outcome B) y : bind x f = Ok y -> exists a, x = Ok a /\ f a = Ok y.
Proof. destruct x; try discriminate. eauto. Qed.
Lemma cassert_ok b x : cassert b = Ok x -> b = true.
Proof. unfold cassert. destruct b; [reflexivity|discriminate]. Qed.

Section Draws.
Variable rnd : nat -> Z.

Lemma pick_ok lo hi p x : pick rnd lo hi p = Ok x -> lo <= fst x <= hi.
Proof.
  unfold pick. destruct (Z.ltb_spec hi lo); [discriminate|]. intros E. injection E as <-. cbn [fst].
  pose proof (Z.mod_pos_bound (rnd p) (hi - lo + 1)). lia.
Qed.
Lemma pick_total lo hi p : lo <= hi -> exists x, pick rnd lo hi p = Ok x.
Proof. intros H. unfold pick. destruct (Z.ltb_spec hi lo); [lia|]. eauto. Qed.

Lemma picks_ok lo hi : forall n p r, picks rnd n lo hi p = Ok r -> length (fst r) = n /\ forall x, In x (fst r) -> lo <= x <= hi.
Proof.
  induction n as [|n IH]; intros p r; cbn [picks].
  - intros E. injection E as <-. split; [reflexivity|intros x []].
  - intros E. apply bind_ok in E. destruct E as (a & Ea & E). apply bind_ok in E. destruct E as (b & Eb & E). injection E as <-. cbn [fst].
    destruct (IH _ _ Eb) as [L R]. split; [cbn; lia|]. intros x [<-|I]; [exact (pick_ok _ _ _ _ Ea)|auto].
Qed.
Lemma picks_total lo hi : lo <= hi -> forall n p, exists r, picks rnd n lo hi p = Ok r.
Proof.
  intros H. induction n as [|n IH]; intros p; cbn [picks]; [eauto|]. destruct (pick_total lo hi p H) as (a & ->). cbn [bind].
  destruct (IH (snd a)) as (r & ->). cbn [bind]. eauto.
Qed.

(** ** Tasks *)
Lemma new_task_ok cf i p r : new_task rnd cf i p = Ok r -> task_fits cf (fst (fst r)) /\ v_id (fst (fst r)) = i /\ 1 <= snd (fst r) <= cf_max_weight cf.
Proof.
  unfold new_task. intros E. apply bind_ok in E. destruct E as (ni & E1 & E). apply bind_ok in E. destruct E as (np & E2 & E).
  apply bind_ok in E. destruct E as (di & E3 & E). apply bind_ok in E. destruct E as (dp & E4 & E). apply bind_ok in E. destruct E as (w & E5 & E).
  injection E as <-. apply pick_ok in E1. apply pick_ok in E2. apply pick_ok in E5. destruct (picks_ok _ _ _ _ _ E3) as [L3 R3]. destruct (picks_ok _ _ _ _ _ E4) as [L4 R4].
  split; [|split; [reflexivity|exact E5]]. unfold task_fits. cbn [fst snd v_phases v_init_phases v_durations v_init_durations v_reentrancy]. rewrite !map_length, !Z2Nat.id by lia.
  split; [lia|]. split; [lia|]. split; [assumption|]. split; [assumption|]. split; [|reflexivity].
  intros d I. rewrite <- map_app in I. apply in_map_iff in I. destruct I as (n & <- & I). exists n. split; [reflexivity|]. apply in_app_iff in I. destruct I; auto.
Qed.
Lemma new_task_total cf i p : acceptable cf -> exists r, new_task rnd cf i p = Ok r.
Proof.
  intros (_ & _ & A & B & C & D & _). unfold new_task. destruct (pick_total 0 (cf_max_init_phases cf) p D) as (ni & ->). cbn [bind].
  destruct (pick_total 1 (cf_max_phases cf) (snd ni) C) as (np & ->). cbn [bind].
  destruct (picks_total 1 (cf_max_duration cf) A (Z.to_nat (fst ni)) (snd np)) as (di & ->). cbn [bind].
  destruct (picks_total 1 (cf_max_duration cf) A (Z.to_nat (fst np)) (snd di)) as (dp & ->). cbn [bind].
  destruct (pick_total 1 (cf_max_weight cf) (snd dp) B) as (w & ->). cbn [bind]. eauto.
Qed.

Lemma new_tasks_ok cf : forall n i p r, new_tasks rnd cf n i p = Ok r ->
  let vs := fst (fst r) in let ws := snd (fst r) in
  length vs = n /\ length ws = n /\ (forall v, In v vs -> task_fits cf v) /\ (forall w, In w ws -> 1 <= w <= cf_max_weight cf) /\
  forall k v, nth_error vs k = Some v -> v_id v = i + Z.of_nat k.
Proof.
  induction n as [|n IH]; intros i p r; cbn [new_tasks].
  - intros E. injection E as <-. cbn [fst snd]. split; [reflexivity|]. split; [reflexivity|]. split; [intros v []|]. split; [intros w []|]. intros [|k] v; discriminate.
  - intros E. apply bind_ok in E. destruct E as (t & Et & E). apply bind_ok in E. destruct E as (ts & Es & E). injection E as <-. cbn [fst snd].
    destruct (new_task_ok _ _ _ _ Et) as (F & I & W). destruct (IH _ _ _ Es) as (L1 & L2 & R1 & R2 & R3).
    split; [cbn; lia|]. split; [cbn; lia|]. split; [intros v [<-|H]; auto|]. split; [intros w [<-|H]; auto|].
    intros [|k] v; cbn [nth_error]; [intros H; injection H as <-; lia|]. intros H. rewrite (R3 _ _ H). lia.
Qed.
Lemma new_tasks_total cf : acceptable cf -> forall n i p, exists r, new_tasks rnd cf n i p = Ok r.
Proof.
  intros A. induction n as [|n IH]; intros i p; cbn [new_tasks]; [eauto|]. destruct (new_task_total cf i p A) as (t & ->). cbn [bind].
  destruct (IH (i + 1) (snd t)) as (ts & ->). cbn [bind]. eauto.
Qed.

(** ** Rates *)
Lemma insert_perm x l : Permutation (insert_sorted x l) (x :: l).
Proof. induction l as [|y l IH]; cbn [insert_sorted]; [reflexivity|]. destruct (x <=? y); [reflexivity|]. rewrite IH. apply perm_swap. Qed.
Lemma sort_perm l : Permutation (sort l) l.
Proof. induction l as [|x l IH]; cbn; [reflexivity|]. fold (sort l). rewrite insert_perm, IH. reflexivity. Qed.
Lemma insert_strong x l : StronglySorted Z.le l -> StronglySorted Z.le (insert_sorted x l).
Proof.
  induction 1 as [|y l S IH F]; cbn [insert_sorted]; [repeat constructor|]. destruct (Z.leb_spec x y).
  - constructor; [constructor; assumption|]. constructor; [lia|]. eapply Forall_impl; [|exact F]. cbn; lia.
  - constructor; [assumption|]. rewrite Forall_forall in *. intros z I. apply (Permutation_in _ (insert_perm x l)) in I. destruct I as [<-|I]; [lia|auto].
Qed.
Lemma sort_strong l : StronglySorted Z.le (sort l).
Proof. induction l; cbn; [constructor|apply insert_strong; assumption]. Qed.

Lemma differences_length l : forall a, length (differences a l) = length l.
Proof. induction l; intros; cbn; [reflexivity|f_equal; auto]. Qed.
Lemma last_cons (l : list Z) : forall x a, last (x :: l) a = last l x.
Proof. induction l as [|y l IH]; intros x a; [reflexivity|]. change (last (x :: y :: l) a) with (last (y :: l) a). rewrite (IH y a), (IH y x). reflexivity. Qed.
Lemma differences_spec l : forall a, StronglySorted Z.le l -> Forall (Z.le a) l ->
  (forall x, In x (differences a l) -> 0 <= x) /\ sumZ (differences a l) = last l a - a.
Proof.
  induction l as [|x l IH]; intros a S F; cbn [differences].
  - split; [intros y []|]. cbn. lia.
  - inversion S as [|x' l' S' Fx]; subst. inversion F as [|x' l' Ha Fa]; subst. replace (a + (x - a)) with x by lia.
    destruct (IH x S' Fx) as [P Q]. split; [intros y [<-|I]; [lia|auto]|]. cbn [sumZ fold_right]. fold (sumZ (differences x l)). rewrite Q.
    rewrite (last_cons l x a). lia.
Qed.

Lemma last_max l a t : StronglySorted Z.le l -> In t l -> (forall x, In x l -> x <= t) -> last l a = t.
Proof.
  induction 1 as [|x l S IH F]; [intros []|]. intros I M. destruct l as [|y l]; [destruct I as [->|[]]; reflexivity|].
  change (last (x :: y :: l) a) with (last (y :: l) a). apply IH; [|intros z Hz; apply M; right; exact Hz].
  destruct I as [->|I]; [|exact I]. left. rewrite Forall_forall in F. pose proof (F y (or_introl eq_refl)). pose proof (M y (or_intror (or_introl eq_refl))). lia.
Qed.

Lemma rates_ok count cuts t : 0 <= t -> length cuts = (count - 1)%nat -> (forall x, In x cuts -> 0 <= x <= t) ->
  length (rates_of count (cuts ++ [t])) = count /\ (forall x, In x (rates_of count (cuts ++ [t])) -> 0 <= x) /\
  sumZ (rates_of count (cuts ++ [t])) = (if (count =? 0)%nat then 0 else t).
Proof.
  intros Ht L R. unfold rates_of. set (s := sort (cuts ++ [t])). pose proof (sort_perm (cuts ++ [t])) as P. fold s in P.
  pose proof (Permutation_length P) as Ls. rewrite app_length in Ls. cbn in Ls. rewrite differences_length, firstn_length.
  destruct count as [|count]; [cbn; split; [lia|]; split; [intros x []|reflexivity]|].
  rewrite (firstn_all2 s) by lia. split; [lia|].
  assert (B : forall x, In x s -> 0 <= x <= t).
  { intros x I. apply (Permutation_in _ P) in I. apply in_app_iff in I. destruct I as [I|[<-|[]]]; [auto|lia]. }
  destruct (differences_spec s 0 (sort_strong _)) as [Q1 Q2]; [apply Forall_forall; intros x I; apply B, I|].
  split; [exact Q1|]. rewrite Q2. cbn [Nat.eqb]. rewrite (last_max s 0 t); [lia|apply sort_strong| |intros x I; apply B, I].
  apply (Permutation_in _ (Permutation_sym P)). apply in_app_iff. right. left. reflexivity.
Qed.
Lemma sections_ok count t p r : 0 <= t -> sections rnd count t p = Ok r ->
  length (rates_of count (fst r)) = count /\ (forall x, In x (rates_of count (fst r)) -> 0 <= x) /\
  sumZ (rates_of count (fst r)) = (if (count =? 0)%nat then 0 else t).
Proof.
  intros Ht E. unfold sections in E. apply bind_ok in E. destruct E as (l & El & E). injection E as <-. cbn [fst]. destruct (picks_ok _ _ _ _ _ El) as [L R]. apply rates_ok; assumption.
Qed.
Lemma sections_total count t p : 0 <= t -> exists r, sections rnd count t p = Ok r.
Proof. intros Ht. unfold sections. destruct (picks_total 0 t Ht (count - 1) p) as (r & ->). cbn [bind]. eauto. Qed.

(** ** Channels *)
Lemma redraw_ok n src : forall fuel dst p r, redraw rnd fuel n src dst p = Ok r -> 1 <= dst <= n -> fst r <> src /\ 1 <= fst r <= n.
Proof.
  induction fuel as [|fuel IH]; intros dst p r; cbn [redraw]; destruct (Z.eqb_spec src dst) as [E|E]; try discriminate.
  - intros H. injection H as <-. cbn [fst]. auto.
  - intros H _. apply bind_ok in H. destruct H as (d & Ed & H). apply (IH _ _ _ H). exact (pick_ok _ _ _ _ Ed).
  - intros H. injection H as <-. cbn [fst]. auto.
Qed.
Lemma redraw_total n src : 2 <= n -> forall fuel dst p, (exists k, (k < fuel)%nat /\ 1 + rnd (p + k)%nat mod n <> src) -> exists r, redraw rnd fuel n src dst p = Ok r.
Proof.
  intros Hn. induction fuel as [|fuel IH]; intros dst p (k & Hk & Ne); [lia|]. cbn [redraw]. destruct (Z.eqb_spec src dst) as [E|E]; [|eauto].
  unfold pick at 1. destruct (Z.ltb_spec n 1); [lia|]. cbn [bind fst snd]. replace (n - 1 + 1) with n by lia. destruct k as [|k].
  - rewrite Nat.add_0_r in Ne. destruct fuel; cbn [redraw]; destruct (Z.eqb_spec src (1 + rnd p mod n)); try lia; eauto.
  - apply IH. exists k. split; [lia|]. replace (S p + k)%nat with (p + S k)%nat by lia. exact Ne.
Qed.

Definition chan_ok (cf : config) (vs : list vertex) (ws : list Z) (c : edge) : Prop :=
  channel_fits cf c /\ (forall x, In x (e_in c ++ e_out c ++ e_in_init c ++ e_out_init c) -> 0 <= x) /\
  exists src dst, nth_error vs (e_src c) = Some src /\ nth_error vs (e_dst c) = Some dst /\
    length (e_in c) = v_phases src /\ length (e_out c) = v_phases dst /\ length (e_in_init c) = v_init_phases src /\ length (e_out_init c) = v_init_phases dst /\
    sumZ (e_in c) * nth (e_dst c) ws 0 = sumZ (e_out c) * nth (e_src c) ws 0.

(** The quotients by the gcd. *)
Lemma weight_parts w w' m : 1 <= w <= m -> 1 <= w' -> let g := Z.gcd w w' in
  0 < g /\ cdiv w g = Ok (w / g) /\ w = g * (w / g) /\ 1 <= w / g <= m /\ 1 <= m / (w / g) /\ cdiv m (w / g) = Ok (m / (w / g)).
Proof.
  intros Hw Hw' g. assert (G : 0 < g).
  { pose proof (Z.gcd_nonneg w w'). assert (g <> 0) by (intros Z0; apply Z.gcd_eq_0_l in Z0; lia). unfold g in *. lia. }
  assert (E : w = g * (w / g)) by (apply Z_div_exact_full_2; [lia|]; apply Z.mod_divide; [lia|]; apply Z.gcd_divide_l).
  assert (A : 1 <= w / g) by nia. assert (B : w / g <= m) by nia.
  assert (C : 1 <= m / (w / g)) by (apply Z.div_le_lower_bound; lia).
  split; [exact G|]. split; [|split; [exact E|split; [lia|split; [exact C|]]]]; unfold cdiv.
  - destruct (Z.eqb_spec g 0); [lia|]. rewrite Z.quot_div_nonneg by lia. reflexivity.
  - destruct (Z.eqb_spec (w / g) 0); [lia|]. rewrite Z.quot_div_nonneg by lia. reflexivity.
Qed.

Lemma factor_fits a f ma m : 1 <= a -> a * ma <= m -> 1 <= f <= ma -> 1 <= a * f <= m.
Proof. intros A B C. nia. Qed.

Lemma new_channel_ok fuel cf vs ws i p r : length ws = length vs -> (forall v, In v vs -> task_fits cf v) -> (forall w, In w ws -> 1 <= w <= cf_max_weight cf) ->
  1 <= cf_max_weight cf -> new_channel rnd fuel cf vs ws i p = Ok r -> chan_ok cf vs ws (fst r) /\ e_id (fst r) = i.
Proof.
  intros Lw FT FW MW. unfold new_channel. cbv zeta. intros E. apply bind_ok in E. destruct E as (s & Es & E). apply bind_ok in E. destruct E as (d0 & Ed0 & E).
  apply bind_ok in E. destruct E as (u & Eu & E). apply cassert_ok in Eu. apply bind_ok in E. destruct E as (d & Ed & E). apply pick_ok in Es. apply pick_ok in Ed0.
  assert (D : 1 <= fst d <= Z.of_nat (length vs) /\ (cf_no_self_loop cf = true -> fst d <> fst s)).
  { destruct (cf_no_self_loop cf); [|injection Ed as <-; split; [exact Ed0|discriminate]]. destruct (redraw_ok _ _ _ _ _ _ Ed Ed0) as [A B]. split; [exact B|intros _; exact A]. }
  destruct D as [Dr Dn]. set (si := Z.to_nat (fst s - 1)) in *. set (di := Z.to_nat (fst d - 1)) in *.
  destruct (nth_error vs si) as [src|] eqn:Vs; [|discriminate]. destruct (nth_error vs di) as [dst|] eqn:Vd; [|discriminate].
  assert (W1 : 1 <= nth si ws 0 <= cf_max_weight cf) by (apply FW, nth_In; unfold si; lia). assert (W2 : 1 <= nth di ws 0 <= cf_max_weight cf) by (apply FW, nth_In; unfold di; lia).
  destruct (weight_parts _ _ _ W1 (proj1 W2)) as (G & C1 & D1 & B1 & M1 & N1). destruct (weight_parts _ _ _ W2 (proj1 W1)) as (G' & C2 & D2 & B2 & M2 & N2).
  rewrite (Z.gcd_comm (nth di ws 0)) in *. set (g := Z.gcd (nth si ws 0) (nth di ws 0)) in *. rewrite C1, C2 in E. cbn [bind] in E. rewrite N1, N2 in E. cbn [bind] in E.
  set (a := nth si ws 0 / g) in *. set (b := nth di ws 0 / g) in *. set (ma := cf_max_weight cf / a) in *. set (mb := cf_max_weight cf / b) in *.
  apply bind_ok in E. destruct E as (f & Ef & E). apply bind_ok in E. destruct E as (iin & Ei & E). apply bind_ok in E. destruct E as (iout & Eo & E).
  apply bind_ok in E. destruct E as (s1 & S1 & E). apply bind_ok in E. destruct E as (s2 & S2 & E). apply bind_ok in E. destruct E as (s3 & S3 & E). apply bind_ok in E. destruct E as (s4 & S4 & E).
  apply pick_ok in Ef. apply pick_ok in Ei. apply pick_ok in Eo. injection E as <-.
  assert (T1 : 1 <= a * fst f <= cf_max_weight cf). { apply factor_fits with ma; [lia| |lia]. apply Z.mul_div_le. lia. }
  assert (T2 : 1 <= b * fst f <= cf_max_weight cf). { apply factor_fits with mb; [lia| |lia]. apply Z.mul_div_le. lia. }
  destruct (sections_ok _ (a * fst f) _ _ ltac:(lia) S1) as (L1 & R1 & Q1). destruct (sections_ok _ (b * fst f) _ _ ltac:(lia) S2) as (L2 & R2 & Q2).
  destruct (sections_ok _ (fst iin) _ _ ltac:(lia) S3) as (L3 & R3 & Q3). destruct (sections_ok _ (fst iout) _ _ ltac:(lia) S4) as (L4 & R4 & Q4).
  pose proof (FT _ (nth_error_In _ _ Vs)) as (P1 & _). pose proof (FT _ (nth_error_In _ _ Vd)) as (P2 & _).
  destruct (Nat.eqb_spec (v_phases src) 0); [lia|]. destruct (Nat.eqb_spec (v_phases dst) 0); [lia|].
  split; [|reflexivity]. cbn [fst]. unfold chan_ok, channel_fits. cbn [e_in e_out e_in_init e_out_init e_preload e_src e_dst]. rewrite Q1, Q2, Q3, Q4.
  split; [split; [exact T1|split; [exact T2|split; [destruct (v_init_phases src =? 0)%nat; lia|split; [destruct (v_init_phases dst =? 0)%nat; lia|split; [reflexivity|]]]]]|].
  - intros Nl. specialize (Dn Nl). unfold si, di. lia.
  - split; [intros x I; rewrite !in_app_iff in I; intuition auto|]. exists src, dst. repeat (split; [assumption|]).
    rewrite D1, D2. ring.
Qed.

Lemma new_channels_ok fuel cf vs ws : length ws = length vs -> (forall v, In v vs -> task_fits cf v) -> (forall w, In w ws -> 1 <= w <= cf_max_weight cf) -> 1 <= cf_max_weight cf ->
  forall m i p cs, new_channels rnd fuel cf vs ws m i p = Ok cs ->
  length cs = m /\ (forall c, In c cs -> chan_ok cf vs ws c) /\ forall k c, nth_error cs k = Some c -> e_id c = i + Z.of_nat k.
Proof.
  intros Lw FT FW MW. induction m as [|m IH]; intros i p cs; cbn [new_channels].
  - intros E. injection E as <-. split; [reflexivity|]. split; [intros c []|]. intros [|k] c; discriminate.
  - intros E. apply bind_ok in E. destruct E as (c & Ec & E). apply bind_ok in E. destruct E as (l & El & E). injection E as <-.
    destruct (new_channel_ok _ _ _ _ _ _ _ Lw FT FW MW Ec) as [C I]. destruct (IH _ _ _ El) as (L & A & B). split; [cbn; lia|].
    split; [intros x [<-|H]; auto|]. intros [|k] x; cbn [nth_error]; [intros H; injection H as <-; lia|]. intros H. rewrite (B _ _ H). lia.
Qed.

Lemma new_channel_total fuel cf vs ws i p : acceptable cf -> length ws = length vs -> (forall w, In w ws -> 1 <= w <= cf_max_weight cf) -> cf_min_vertices cf <= Z.of_nat (length vs) ->
  (cf_no_self_loop cf = true -> varied rnd fuel) -> exists r, new_channel rnd fuel cf vs ws i p = Ok r.
Proof.
  intros (A1 & _ & _ & MW & _ & _ & SL) Lw FW LV V. unfold new_channel. cbv zeta. set (n := Z.of_nat (length vs)) in *.
  destruct (pick_total 1 n p ltac:(lia)) as (s & Es). rewrite Es. cbn [bind]. destruct (pick_total 1 n (snd s) ltac:(lia)) as (d0 & Ed0). rewrite Ed0. cbn [bind].
  assert (U : cassert (negb (cf_no_self_loop cf) || (1 <? n)) = Ok tt). { unfold cassert. destruct (cf_no_self_loop cf); cbn; [|reflexivity]. specialize (SL eq_refl). destruct (Z.ltb_spec 1 n); [reflexivity|lia]. }
  rewrite U. cbn [bind]. apply pick_ok in Es. apply pick_ok in Ed0.
  assert (D : exists d, (if cf_no_self_loop cf then redraw rnd fuel n (fst s) (fst d0) (snd d0) else Ok d0) = Ok d /\ 1 <= fst d <= n).
  { destruct (cf_no_self_loop cf); [|eauto]. specialize (SL eq_refl). destruct (redraw_total n (fst s) ltac:(lia) fuel (fst d0) (snd d0) (V eq_refl n (fst s) (snd d0) ltac:(lia))) as (d & Ed).
    exists d. split; [exact Ed|]. apply (redraw_ok _ _ _ _ _ _ Ed Ed0). }
  destruct D as (d & -> & Rd). cbn [bind]. set (si := Z.to_nat (fst s - 1)) in *. set (di := Z.to_nat (fst d - 1)) in *.
  destruct (nth_error vs si) as [src|] eqn:Vs; [|apply nth_error_None in Vs; unfold si in *; lia]. destruct (nth_error vs di) as [dst|] eqn:Vd; [|apply nth_error_None in Vd; unfold di in *; lia].
  assert (W1 : 1 <= nth si ws 0 <= cf_max_weight cf) by (apply FW, nth_In; unfold si; lia). assert (W2 : 1 <= nth di ws 0 <= cf_max_weight cf) by (apply FW, nth_In; unfold di; lia).
  destruct (weight_parts _ _ _ W1 (proj1 W2)) as (G & C1 & D1 & B1 & M1 & N1). destruct (weight_parts _ _ _ W2 (proj1 W1)) as (G' & C2 & D2 & B2 & M2 & N2).
  rewrite (Z.gcd_comm (nth di ws 0)) in *. rewrite C1, C2. cbn [bind]. rewrite N1, N2. cbn [bind].
  match goal with |- context [pick rnd 1 (Z.min ?x ?y) ?q] => destruct (pick_total 1 (Z.min x y) q ltac:(lia)) as (f & Ef) end. rewrite Ef. cbn [bind]. apply pick_ok in Ef.
  destruct (pick_total 1 (cf_max_weight cf) (snd f) MW) as (iin & Ei). rewrite Ei. cbn [bind]. destruct (pick_total 1 (cf_max_weight cf) (snd iin) MW) as (iout & Eo). rewrite Eo. cbn [bind].
  apply pick_ok in Ei. apply pick_ok in Eo.
  repeat match goal with |- context [bind (sections rnd ?a ?b ?c)] => destruct (sections_total a b c) as (? & ->); [nia|cbn [bind]] end. eauto.
Qed.
Lemma new_channels_total fuel cf vs ws : acceptable cf -> length ws = length vs -> (forall w, In w ws -> 1 <= w <= cf_max_weight cf) -> cf_min_vertices cf <= Z.of_nat (length vs) ->
  (cf_no_self_loop cf = true -> varied rnd fuel) -> forall m i p, exists cs, new_channels rnd fuel cf vs ws m i p = Ok cs.
Proof.
  intros A Lw FW LV V. induction m as [|m IH]; intros i p; cbn [new_channels]; [eauto|]. destruct (new_channel_total fuel cf vs ws i p A Lw FW LV V) as (c & ->). cbn [bind].
  destruct (IH (i + 1) (snd c)) as (l & ->). cbn [bind]. eauto.
Qed.

(** ** The graph *)
Lemma structure_parts fuel cf g : random_structure rnd fuel cf = Ok g -> exists ws,
  length ws = length (vertices g) /\ (forall w, In w ws -> 1 <= w <= cf_max_weight cf) /\ (forall c, In c (edges g) -> chan_ok cf (vertices g) ws c) /\
  graph_fits cf g /\ 1 <= Z.of_nat (length (vertices g)) /\ 1 <= Z.of_nat (length (edges g)).
Proof.
  unfold random_structure. intros E. do 6 (apply bind_ok in E; let U := fresh "U" in destruct E as (? & U & E); apply cassert_ok in U).
  apply bind_ok in E. destruct E as (nv & Ev & E). apply bind_ok in E. destruct E as (ne & Ee & E). apply pick_ok in Ev. apply pick_ok in Ee.
  destruct (Z.ltb_spec (fst nv) 1); [discriminate|]. destruct (Z.ltb_spec (fst ne) 1); [discriminate|]. cbn [orb] in E.
  apply bind_ok in E. destruct E as (ts & Et & E). apply bind_ok in E. destruct E as (cs & Ec & E). injection E as <-. cbn [vertices edges].
  destruct (new_tasks_ok _ _ _ _ _ Et) as (L1 & L2 & F1 & F2 & I1). cbv zeta in *.
  destruct (new_channels_ok fuel cf (fst (fst ts)) (snd (fst ts)) ltac:(congruence) F1 F2 ltac:(lia) _ _ _ _ Ec) as (L3 & F3 & I3).
  exists (snd (fst ts)). split; [congruence|]. split; [exact F2|]. split; [exact F3|]. rewrite L1, L3. split; [|lia].
  unfold graph_fits. cbn [vertices edges]. rewrite L1, L3. split; [lia|]. split; [lia|]. split; [|split; [|split; [exact F1|intros c I; apply (F3 c I)]]].
  - intros k id Hk. rewrite nth_error_map in Hk. destruct (nth_error (fst (fst ts)) k) eqn:Ek; [|discriminate]. injection Hk as <-. rewrite (I1 _ _ Ek). lia.
  - intros k id Hk. rewrite nth_error_map in Hk. destruct (nth_error cs k) eqn:Ek; [|discriminate]. injection Hk as <-. rewrite (I3 _ _ Ek). lia.
Qed.

Lemma structure_total fuel cf : acceptable cf -> (cf_no_self_loop cf = true -> varied rnd fuel) -> exists g, random_structure rnd fuel cf = Ok g.
Proof.
  intros A V. pose proof A as (A1 & A2 & A3 & A4 & A5 & A6 & A7). unfold random_structure, cassert.
  repeat match goal with |- context [if ?a <=? ?b then _ else _] => destruct (Z.leb_spec a b); [cbn [bind]|lia] end.
  destruct (pick_total (cf_min_vertices cf) (cf_max_vertices cf) 0 ltac:(lia)) as (nv & Ev). rewrite Ev. cbn [bind]. destruct (pick_total (cf_min_edges cf) (cf_max_edges cf) (snd nv) ltac:(lia)) as (ne & Ee). rewrite Ee. cbn [bind].
  apply pick_ok in Ev. apply pick_ok in Ee. destruct (Z.ltb_spec (fst nv) 1); [lia|]. destruct (Z.ltb_spec (fst ne) 1); [lia|]. cbn [orb].
  destruct (new_tasks_total cf A (Z.to_nat (fst nv)) 1 (snd ne)) as (ts & Et). rewrite Et. cbn [bind]. destruct (new_tasks_ok _ _ _ _ _ Et) as (L1 & L2 & F1 & F2 & I1). cbv zeta in *.
  destruct (new_channels_total fuel cf (fst (fst ts)) (snd (fst ts)) A ltac:(congruence) F2 ltac:(lia) V (Z.to_nat (fst ne)) 1 (snd ts)) as (cs & ->). cbn [bind]. eauto.
Qed.
End Draws.

Lemma numbered_nodup ids : numbered ids -> NoDup ids.
Proof.
  intros N. apply NoDup_nth_error. intros i j Hi E. destruct (nth_error ids i) as [a|] eqn:Ea; [|apply nth_error_None in Ea; lia].
  pose proof (N _ _ Ea). symmetry in E. pose proof (N _ _ E). lia.
Qed.
Lemma numbered_pos ids id : numbered ids -> In id ids -> 0 < id.
Proof. intros N I. apply In_nth_error in I. destruct I as (k & E). pose proof (N _ _ E). lia. Qed.

Section Structure.
Variables (rnd : nat -> Z) (fuel : nat) (cf : config) (g : graph).
Hypothesis RS : random_structure rnd fuel cf = Ok g.

Lemma structure_wf : graph_wf g.
Proof.
  destruct (structure_parts _ _ _ _ RS) as (ws & Lw & Fw & Fc & GF & _). destruct GF as (_ & _ & NV & NE & FV & FE). split; [|split].
  - intros v I. destruct (FV v I) as (A & B & C & D & E & _). split; [lia|]. split; [exact C|]. split; [exact D|]. intros x Hx. destruct (E x Hx) as (n & -> & Hn).
    change 0%Q with (inject_Z 0). rewrite <- Zle_Qle. lia.
  - intros c I. destruct (Fc c I) as ((S1 & S2 & _ & _ & P0 & _) & R & src & dst & V1 & V2 & L1 & L2 & L3 & L4 & _). exists src, dst. repeat (split; [assumption|]). lia.
  - apply numbered_nodup, NV.
Qed.
Lemma structure_nonempty : vertices g <> [].
Proof. destruct (structure_parts _ _ _ _ RS) as (ws & _ & _ & _ & _ & H & _). intros E. rewrite E in H. cbn in H. lia. Qed.

(** The product of the weights. *)
Lemma prod_pos ws : (forall w, In w ws -> 1 <= w) -> 0 < fold_right Z.mul 1 ws.
Proof. induction ws as [|w ws IH]; intros H; cbn; [lia|]. pose proof (H w (or_introl eq_refl)). pose proof (IH (fun x Hx => H x (or_intror Hx))). nia. Qed.
Lemma prod_divide ws : forall i, (i < length ws)%nat -> (nth i ws 0 | fold_right Z.mul 1 ws).
Proof. induction ws as [|w ws IH]; intros [|i] H; cbn in *; try lia; [apply Z.divide_factor_l|]. apply Z.divide_mul_r, IH. lia. Qed.

Lemma structure_solution : exists M, solution g M.
Proof.
  destruct (structure_parts _ _ _ _ RS) as (ws & Lw & Fw & Fc & GF & _). destruct GF as (_ & _ & NV & NE & FV & FE). set (L := fold_right Z.mul 1 ws).
  exists (fun i => match nth_error (vertices g) i with Some v => Z.of_nat (v_phases v) * (L / nth i ws 0) | None => 0 end). split.
  - intros i Hi. destruct (nth_error (vertices g) i) as [v|] eqn:E; [|apply nth_error_None in E; lia].
    pose proof (FV v (nth_error_In _ _ E)) as (P & _). assert (W : 1 <= nth i ws 0) by (apply Fw, nth_In; lia).
    destruct (prod_divide ws i ltac:(lia)) as (q & Hq). fold L in Hq. rewrite Hq, Z.div_mul by lia. pose proof (prod_pos ws (fun w Hw => proj1 (Fw w Hw))) as PL. fold L in PL. nia.
  - intros c I. destruct (Fc c I) as (_ & _ & src & dst & V1 & V2 & L1 & L2 & _ & _ & R). rewrite V1, V2, L1, L2.
    assert (W1 : 1 <= nth (e_src c) ws 0) by (apply Fw, nth_In; rewrite Lw; apply nth_error_Some; congruence).
    assert (W2 : 1 <= nth (e_dst c) ws 0) by (apply Fw, nth_In; rewrite Lw; apply nth_error_Some; congruence).
    destruct (prod_divide ws (e_src c)) as (q1 & H1); [rewrite Lw; apply nth_error_Some; congruence|]. destruct (prod_divide ws (e_dst c)) as (q2 & H2); [rewrite Lw; apply nth_error_Some; congruence|].
    fold L in H1, H2. rewrite H1 at 1. rewrite H2 at 1. rewrite !Z.div_mul by lia.
    set (a := sumZ (e_in c)) in *. set (b := sumZ (e_out c)) in *. set (x := nth (e_src c) ws 0) in *. set (y := nth (e_dst c) ws 0) in *.
    assert (Q : a * q1 = b * q2).
    { assert (a * q1 * (x * y) = b * q2 * (x * y)); [|apply Z.mul_reg_r with (x * y); [nia|assumption]]. replace (a * q1 * (x * y)) with ((a * y) * (q1 * x)) by ring. replace (b * q2 * (x * y)) with ((b * x) * (q2 * y)) by ring.
      rewrite R, <- H1, <- H2. reflexivity. }
    replace (a * (Z.of_nat (v_phases src) * q1) * Z.of_nat (v_phases dst)) with (a * q1 * (Z.of_nat (v_phases src) * Z.of_nat (v_phases dst))) by ring. rewrite Q. ring.
Qed.

Lemma structure_consistent : exists N, compute_repetition_vector (length (vertices g)) g = Ok (Some N).
Proof.
  destruct (rv_exact g (length (vertices g)) (graph_wf_rates g structure_wf) structure_nonempty (le_n _)) as [[H _]|[_ H]]; [exact H|]. exfalso. apply H. split; [|exact structure_solution].
  intros c I. destruct (structure_parts _ _ _ _ RS) as (ws & _ & _ & Fc & _). destruct (Fc c I) as ((A & B & _) & _). lia.
Qed.
End Structure.
