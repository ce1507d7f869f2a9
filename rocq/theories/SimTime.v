(** Instants of the self-timed execution. *)
From Coq Require Import QArith Qreduction Lqa.
From Verif Require Import Base Graph ScheduleSpec Sim SimSpec SimProofs.
Open Scope Z_scope.

Lemma starts_length log i : length (starts log i) = started log i.
Proof.
  induction log as [|[j t|j t] l IH]; cbn; [reflexivity| |assumption]. destruct (j =? i)%nat; [|assumption].
  rewrite app_length, IH. cbn. lia.
Qed.
Lemma ends_length log i : length (ends log i) = ended log i.
Proof.
  induction log as [|[j t|j t] l IH]; cbn; [reflexivity|assumption|]. destruct (j =? i)%nat; [|assumption].
  rewrite app_length, IH. cbn. lia.
Qed.
Lemma qmin_spec a b : (qmin a b <= a)%Q /\ (qmin a b <= b)%Q /\ (qmin a b = a \/ qmin a b = b).
Proof.
  unfold qmin. destruct (Qle_bool a b) eqn:E.
  - apply Qle_bool_iff in E. split; [lra|]. split; [assumption|auto].
  - assert (~ (a <= b)%Q) by (rewrite <- Qle_bool_iff; congruence). split; [lra|]. split; [lra|auto].
Qed.
Definition front (s : state) (i : nat) : option Q := match s_queue s i with [] => None | (t, _) :: _ => Some t end.
Lemma next_end_spec g s :
  (next_end g s <= long_max)%Q /\
  (forall i t, (i < length (vertices g))%nat -> front s i = Some t -> (next_end g s <= t)%Q) /\
  (next_end g s = long_max \/ exists i, (i < length (vertices g))%nat /\ front s i = Some (next_end g s)).
Proof.
  unfold next_end. set (f := fun m i => match s_queue s i with [] => m | (t, _) :: _ => qmin m t end).
  assert (H : forall l m0, let m := fold_left f l m0 in (m <= m0)%Q /\ (forall i t, In i l -> front s i = Some t -> (m <= t)%Q) /\
            (m = m0 \/ exists i, In i l /\ front s i = Some m)).
  { induction l as [|i l IH]; intros m0; cbn [fold_left].
    - split; [lra|]. split; [intros ? ? []|auto].
    - destruct (IH (f m0 i)) as (H1 & H2 & H3). cbv zeta in *.
      assert (F : (f m0 i <= m0)%Q /\ (forall t, front s i = Some t -> (f m0 i <= t)%Q) /\ (f m0 i = m0 \/ front s i = Some (f m0 i))).
      { unfold f, front. destruct (s_queue s i) as [|[t p] q].
        - split; [lra|]. split; [discriminate|auto].
        - destruct (qmin_spec m0 t) as (A & B & C). split; [assumption|]. split; [intros u [=<-]; assumption|].
          destruct C as [C|C]; [auto|right; congruence]. }
      destruct F as (F1 & F2 & F3). split; [lra|]. split.
      + intros j t [->|Hj] Fj; [specialize (F2 t Fj); lra|eauto].
      + destruct H3 as [H3|(j & Hj & H3)]; [|right; exists j; split; [right; assumption|assumption]].
        rewrite H3. destruct F3 as [F3|F3]; [auto|]. right. exists i. split; [left; reflexivity|assumption]. }
  destruct (H (seq 0 (length (vertices g))) long_max) as (H1 & H2 & H3). cbv zeta in *. split; [assumption|]. split.
  - intros i t Hi Ft. apply (H2 i t); [apply in_seq; lia|assumption].
  - destruct H3 as [H3|(i & Hi & H3)]; [auto|right]. exists i. split; [apply in_seq in Hi; lia|assumption].
Qed.

Section Time.
Variables (g : graph) (caps : option (nat -> Z)) (w : nat) (rep : Z).
Hypotheses (WF : graph_wf g) (NI : no_init g) (EV : even_self_loops g)
  (GD : all_guarded g (match caps with Some _ => true | None => false end)).

Lemma duration_at i v n : nth_error (vertices g) i = Some v ->
  vertex_duration v (Z.of_nat (n mod v_phases v) + 1) = Ok (exec_duration v n).
Proof.
  intros Ev. pose proof (phases_pos g i v WF Ev) as P.
  pose proof (nth_error_In _ _ Ev) as Hv.
  destruct WF as (A & _). destruct (A v Hv) as (_ & L & LI & _). specialize (NI v Hv).
  unfold vertex_duration, exec_duration, cyclic. rewrite (proj2 (Z.leb_gt _ 0)) by lia.
  rewrite L. replace (Z.of_nat (n mod v_phases v) + 1 - 1) with (Z.of_nat (n mod v_phases v)) by lia.
  pose proof (Nat.mod_upper_bound n (v_phases v) ltac:(lia)) as B.
  unfold cmod. rewrite (proj2 (Z.eqb_neq _ 0)) by lia. cbn [bind]. rewrite Z.rem_small by lia.
  rewrite LI, NI. change (n <? 0)%nat with false. cbv iota. rewrite Nat.sub_0_r.
  unfold at_index. rewrite (proj2 (Z.ltb_ge _ 0)) by lia. rewrite Nat2Z.id.
  rewrite (nth_error_nth' _ 0%Q) by lia. reflexivity.
Qed.
Lemma duration_nonneg i v n : nth_error (vertices g) i = Some v -> (0 <= exec_duration v n)%Q.
Proof.
  intros Ev. pose proof (nth_error_In _ _ Ev) as Hv. destruct WF as (A & _). destruct (A v Hv) as (_ & L & LI & D).
  unfold exec_duration, cyclic. assert (H : forall l k, (forall x, In x l -> (0 <= x)%Q) -> (0 <= nth k l 0)%Q).
  { intros l k Hl. destruct (Nat.lt_ge_cases k (length l)); [apply Hl, nth_In; assumption|rewrite nth_overflow by lia; lra]. }
  destruct (_ <? _)%nat; apply H; intros x Hx; apply D, in_app_iff; auto.
Qed.

(** The state of the firings of one task: [st] and [en] are its start and end instants. *)
Record task_inv (v : vertex) (a : actor) (q : list (Q * Z)) (st en : list Q) (now : Q) : Prop := mkTI {
  ti_queue : a_busy a = false /\ q = [] /\ length st = length en \/
             a_busy a = true /\ exists r p, q = [(r, p)] /\ (0 <= r)%Q /\ Qred r = r /\ length st = S (length en) /\
               (nth (length en) st 0 + exec_duration v (length en) == now + r)%Q /\ p = Z.of_nat (length en mod v_phases v) + 1;
  ti_past : forall t, In t st -> (0 <= t <= now)%Q;
  ti_ends : forall k, (k < length en)%nat -> (nth k en 0 == nth k st 0 + exec_duration v k)%Q /\ (nth k en 0 <= now)%Q;
  ti_serial : forall k, (S k < length st)%nat -> (nth k st 0 + exec_duration v k <= nth (S k) st 0)%Q
}.

(** What the position in the loop tells. *)
Definition pc_inv (m : machine) : Prop :=
  match m_pc m with
  | PEnd i => forall j v, (j < i)%nat -> nth_error (vertices g) j = Some v -> ready_to_end j (m_state m) = false
  | PStart i => forall j v, (j < i)%nat -> nth_error (vertices g) j = Some v -> ready g j v (m_actors m j) (m_state m) = false
  | PAdvance => forall j v, nth_error (vertices g) j = Some v -> ready g j v (m_actors m j) (m_state m) = false
  end.

Record tinv (m : machine) : Prop := mkTInv {
  t_now : (0 <= m_now m)%Q /\ Qred (m_now m) = m_now m;
  t_time : (0 <= s_time (m_state m))%Q /\ Qred (s_time (m_state m)) = s_time (m_state m);
  t_task : forall i v, nth_error (vertices g) i = Some v ->
    task_inv v (m_actors m i) (s_queue (m_state m) i) (starts (m_log m) i) (ends (m_log m) i) (m_now m);
  t_pc : pc_inv m
}.

Lemma tinv_new : tinv (new_machine g caps).
Proof.
  constructor; cbn; try (split; [lra|reflexivity]).
  - intros i v Ev. constructor; cbn; auto; try (intros; lia); try (intros t []; fail).
  - intros j v Hj. lia.
Qed.

Lemma unready_busy i v m : inv g caps m -> nth_error (vertices g) i = Some v -> a_busy (m_actors m i) = true ->
  ready g i v (m_actors m i) (m_state m) = false.
Proof.
  intros Hi Ev B. destruct (ready g i v (m_actors m i) (m_state m)) eqn:R; [exfalso|reflexivity].
  assert (Hlt : (i < length (vertices g))%nat) by (apply nth_error_Some; congruence).
  destruct (GD i Hlt) as [(c & Hc & D)|(Hb & c & Hc & D)]; destruct (In_nth_error _ _ Hc) as [k Ek].
  - destruct (ready_tokens g i v _ _ k c R Ek D). congruence.
  - destruct (ready_space g i v _ _ k c R) as [_ H]; auto; [rewrite (inv_bounded g caps m Hi); exact Hb|congruence].
Qed.

(** A change of another task's firing leaves [ready] alone. *)
Lemma ready_ext i v a s s' : (forall k c, nth_error (edges g) k = Some c -> e_dst c = i -> s_tokens s' k = s_tokens s k) ->
  (forall k c, nth_error (edges g) k = Some c -> e_src c = i -> s_space s' k = s_space s k) -> s_bounded s' = s_bounded s ->
  ready g i v a s' = ready g i v a s.
Proof.
  intros Ht Hs Hb. unfold ready. rewrite Hb. f_equal; [|f_equal].
  - assert (H : forall l, incl l (numbered g) -> forallb (fun kc => negb (e_dst (snd kc) =? i)%nat ||
       negb ((s_tokens s' (fst kc) <? current_rate v i a (snd kc)) || a_busy a)) l = forallb (fun kc => negb (e_dst (snd kc) =? i)%nat ||
       negb ((s_tokens s (fst kc) <? current_rate v i a (snd kc)) || a_busy a)) l).
    { induction l as [|[k c] l IH]; intros Hl; [reflexivity|]. cbn [forallb fst snd]. f_equal.
      - destruct (Nat.eqb_spec (e_dst c) i) as [D|]; [|reflexivity]. rewrite (Ht k c); [reflexivity|apply in_numbered, Hl; left; reflexivity|assumption].
      - apply IH. intros x Hx. apply Hl. right; assumption. }
    apply H, incl_refl.
  - assert (H : forall l, incl l (numbered g) -> forallb (fun kc => negb (e_src (snd kc) =? i)%nat ||
       negb ((s_space s' (fst kc) <? current_rate v i a (snd kc)) || a_busy a)) l = forallb (fun kc => negb (e_src (snd kc) =? i)%nat ||
       negb ((s_space s (fst kc) <? current_rate v i a (snd kc)) || a_busy a)) l).
    { induction l as [|[k c] l IH]; intros Hl; [reflexivity|]. cbn [forallb fst snd]. f_equal.
      - destruct (Nat.eqb_spec (e_src c) i) as [D|]; [|reflexivity]. rewrite (Hs k c); [reflexivity|apply in_numbered, Hl; left; reflexivity|assumption].
      - apply IH. intros x Hx. apply Hl. right; assumption. }
    apply H, incl_refl.
Qed.

Lemma exec_end_fields i v a s a' s' : exec_end g i v a s = Ok (a', s') ->
  exists t p q, s_queue s i = (t, p) :: q /\ a' = mkActor (a_execs a) false /\ s_queue s' = upd (s_queue s) i q /\ s_time s' = s_time s /\
  s_bounded s' = s_bounded s.
Proof.
  unfold exec_end. destruct (s_queue s i) as [|[t p] q]; [discriminate|]. intros [= <- <-]. exists t, p, q. auto.
Qed.
Lemma exec_start_fields i v a s a' s' : exec_start g i v a s = Ok (a', s') ->
  exists d, vertex_duration v (actor_phase v a) = Ok d /\ a' = mkActor (a_execs a + 1) true /\
  s_queue s' = upd (s_queue s) i (s_queue s i ++ [(Qred d, actor_phase v a)]) /\ s_time s' = s_time s /\ s_bounded s' = s_bounded s /\
  (forall k c, nth_error (edges g) k = Some c -> e_dst c <> i -> s_tokens s' k = s_tokens s k) /\
  (forall k c, nth_error (edges g) k = Some c -> e_src c <> i -> s_space s' k = s_space s k).
Proof.
  unfold exec_start. destruct (vertex_duration v _) as [d| | |]; cbn [bind]; try discriminate. intros [= <- <-]. exists d.
  repeat (split; [reflexivity|]). split; intros k c Ek N; cbn.
  - unfold on_inputs. rewrite Ek. destruct (Nat.eqb_spec (e_dst c) i); [congruence|reflexivity].
  - destruct (s_bounded s); [|reflexivity]. unfold on_outputs. rewrite Ek. destruct (Nat.eqb_spec (e_src c) i); [congruence|reflexivity].
Qed.

Lemma tinv_tick m m' : inv g caps m -> tinv m -> tick g w rep m = Ok (Running m') -> tinv m'.
Proof.
  intros Hi [Hn Ht Hk Hp] T. unfold tick in T. unfold pc_inv in Hp. destruct (m_pc m) as [i|i|] eqn:Epc.
  - (* ending *)
    destruct (nth_error (vertices g) i) as [v|] eqn:Ev.
    2:{ injection T as <-. constructor; auto. red. cbn. intros j v Hj. lia. }
    destruct (ready_to_end i (m_state m)) eqn:R.
    2:{ injection T as <-. constructor; auto. red. cbn. intros j u Hj Ej. destruct (Nat.eq_dec j i) as [->|]; [assumption|]. apply (Hp j u); [lia|assumption]. }
    set (full := ((i =? w)%nat && ((if (i =? w)%nat then m_count m + 1 else m_count m) =? rep))) in *.
    destruct (if full then from_repeated g (m_visited m) (m_state m) else []); [|discriminate].
    match type of T with context [exec_end g i v (m_actors m i) ?s1] => set (s1' := s1) in * end.
    destruct (exec_end g i v (m_actors m i) s1') as [[a' s']| | |] eqn:X; cbn [bind] in T; try discriminate.
    injection T as <-. destruct (exec_end_fields i v _ _ _ _ X) as (t & p & q & Eq & -> & Eq' & Et & Eb).
    assert (Es1 : s_queue s1' = s_queue (m_state m)) by (subst s1'; destruct full; reflexivity).
    rewrite Es1 in *. unfold ready_to_end in R. rewrite Eq in R.
    constructor; cbn [m_now m_state m_actors m_log m_pc update_state s_time s_queue].
    + exact Hn.
    + rewrite Et. subst s1'. destruct full; [cbn; split; [lra|reflexivity]|exact Ht].
    + intros j u Ej. cbn [starts ends fst]. rewrite Eq'. unfold upd. destruct (Nat.eqb_spec j i) as [->|N].
      * rewrite Nat.eqb_refl. rewrite Ev in Ej. injection Ej as <-. destruct (Hk i v Ev) as [Q P E Sr].
        destruct Q as [(_ & Qe & _)|(B & r & p' & Qe & R0 & R1 & L & D & Ph)]; [congruence|].
        rewrite Qe in Eq. injection Eq as -> -> <-.
        apply Qeq_bool_eq in R.
        constructor; cbn [a_busy].
        -- left. repeat split. rewrite app_length. cbn. lia.
        -- exact P.
        -- intros k. rewrite app_length. cbn [length]. intros Lk. destruct (Nat.eq_dec k (length (ends (m_log m) i))) as [->|Nk].
           ++ rewrite app_nth2, Nat.sub_diag by lia. cbn [nth]. split; [lra|lra].
           ++ rewrite app_nth1 by lia. apply E. lia.
        -- exact Sr.
      * destruct (Nat.eqb_spec i j); [congruence|]. apply Hk; assumption.
    + red. cbn. intros j u Hj Ej. unfold ready_to_end. cbn. rewrite Eq'. unfold upd. destruct (Nat.eqb_spec j i); [lia|].
      apply (Hp j u Hj Ej).
  - (* starting *)
    destruct (nth_error (vertices g) i) as [v|] eqn:Ev.
    2:{ injection T as <-. constructor; auto. red. cbn. intros j v Ej. apply Hp; [|assumption].
        apply nth_error_None in Ev. assert (j < length (vertices g))%nat by (apply nth_error_Some; congruence). lia. }
    destruct (ready g i v (m_actors m i) (m_state m)) eqn:R.
    2:{ injection T as <-. constructor; auto. red. cbn. intros j u Hj Ej. destruct (Nat.eq_dec j i) as [->|].
        - rewrite Ev in Ej. injection Ej as <-. assumption.
        - apply Hp; [lia|assumption]. }
    destruct (exec_start g i v (m_actors m i) (m_state m)) as [[a' s']| | |] eqn:X; cbn [bind] in T; try discriminate.
    injection T as <-. destruct (exec_start_fields i v _ _ _ _ X) as (d & Ed & -> & Eq' & Et & Eb & Etk & Esp).
    assert (NB : a_busy (m_actors m i) = false).
    { destruct (a_busy (m_actors m i)) eqn:B; [|reflexivity]. rewrite (unready_busy i v m Hi Ev B) in R. discriminate. }
    constructor; cbn [m_now m_state m_actors m_log m_pc update_state s_time s_queue].
    + exact Hn.
    + rewrite Et. exact Ht.
    + intros j u Ej. cbn [starts ends fst]. rewrite Eq'. unfold upd. destruct (Nat.eqb_spec j i) as [->|N].
      * rewrite Nat.eqb_refl. rewrite Ev in Ej. injection Ej as <-. destruct (Hk i v Ev) as [Q P E Sr].
        destruct Q as [(_ & Qe & L)|(B & _)]; [|congruence]. rewrite Qe. cbn [app].
        assert (Ep : actor_phase v (m_actors m i) = Z.of_nat (length (ends (m_log m) i) mod v_phases v) + 1).
        { unfold actor_phase. rewrite (inv_execs g caps m Hi i v Ev), <- starts_length, L.
          f_equal. apply rem_mod. apply (phases_pos g i v WF Ev). }
        rewrite Ep in *. rewrite (duration_at i v _ Ev) in Ed. injection Ed as <-.
        pose proof (duration_nonneg i v (length (ends (m_log m) i)) Ev) as Dn.
        constructor; cbn [a_busy].
        -- right. split; [reflexivity|]. eexists _, _. split; [reflexivity|]. split; [rewrite Qred_correct; assumption|].
           split; [apply Qred_complete, Qred_correct|]. split; [rewrite app_length, L; cbn; lia|]. split; [|reflexivity].
           rewrite app_nth2 by lia. rewrite L, Nat.sub_diag. cbn [nth]. rewrite Qred_correct. reflexivity.
        -- intros t Hin. apply in_app_iff in Hin. destruct Hin as [Hin|[<-|[]]]; [apply P; assumption|]. split; [apply Hn|lra].
        -- intros k Lk. rewrite app_nth1 by lia. apply E. assumption.
        -- intros k. rewrite app_length. cbn [length]. intros Lk. rewrite (app_nth1 (starts _ _)) by lia.
           destruct (Nat.eq_dec (S k) (length (starts (m_log m) i))) as [Ek|Nk].
           ++ rewrite app_nth2 by lia. rewrite Ek, Nat.sub_diag. cbn [nth]. destruct (E k) as [E1 E2]; [lia|]. rewrite <- E1. exact E2.
           ++ rewrite app_nth1 by lia. apply Sr. lia.
      * destruct (Nat.eqb_spec i j); [congruence|]. apply Hk; assumption.
    + red. cbn. intros j u Hj Ej. rewrite upd_other by lia. erewrite ready_ext; [apply (Hp j u Hj Ej)| | |]; cbn; auto.
      * intros k c Ek D. apply (Etk k c Ek). lia.
      * intros k c Ek D. apply (Esp k c Ek). lia.
  - (* advancing *)
    destruct (Qeq_bool (fst (advance_time g (m_state m))) long_max) eqn:Em; [discriminate|].
    match type of T with Ok (Running ?x) = _ => assert (m' = x) as -> by congruence end. clear T.
    pose proof (next_end_spec g (m_state m)) as (N1 & N2 & N3).
    assert (Fst : fst (advance_time g (m_state m)) = next_end g (m_state m)).
    { unfold advance_time. destruct (Qeq_bool (next_end g (m_state m)) 0); [reflexivity|].
      destruct (Qeq_bool (next_end g (m_state m)) long_max); reflexivity. }
    rewrite Fst in *. set (st := next_end g (m_state m)) in *.
    assert (St0 : (0 <= st)%Q).
    { destruct N3 as [N3|(i & Hl & Fi)].
      - rewrite N3. unfold long_max. cbv. discriminate.
      - destruct (nth_error (vertices g) i) as [v|] eqn:Ev; [|apply nth_error_None in Ev; lia].
        destruct (ti_queue _ _ _ _ _ _ (Hk i v Ev)) as [(_ & Qe & _)|(_ & r & p & Qe & R0 & _)]; unfold front in Fi; rewrite Qe in Fi.
        + discriminate.
        + injection Fi as Fi. rewrite <- Fi. assumption. }
    constructor; cbn [m_now m_state m_actors m_log m_pc].
    + split; [rewrite Qred_correct; destruct Hn; lra|apply Qred_complete, Qred_correct].
    + unfold advance_time. fold st. destruct (Qeq_bool st 0); [assumption|]. rewrite Em. cbn [snd s_time].
      split; [rewrite Qred_correct; destruct Ht; lra|apply Qred_complete, Qred_correct].
    + intros i v Ev. destruct (Hk i v Ev) as [Q P E Sr].
      assert (Hlt : (i < length (vertices g))%nat) by (apply nth_error_Some; congruence).
      constructor.
      * unfold advance_time. fold st. destruct Q as [(B & Qe & L)|(B & r & p & Qe & R0 & R1 & L & D & Ph)]; [left|right]; (split; [assumption|]).
        -- split; [|assumption]. destruct (Qeq_bool st 0); [assumption|]. rewrite Em. cbn. rewrite Qe. reflexivity.
        -- assert (Hr : (st <= r)%Q) by (apply (N2 i r Hlt); unfold front; now rewrite Qe).
           destruct (Qeq_bool st 0) eqn:Z0.
           ++ apply Qeq_bool_eq in Z0. cbn [snd]. exists r, p. repeat (split; [assumption|]). split; [|assumption]. rewrite Qred_correct, D. lra.
           ++ rewrite Em. cbn [snd s_queue]. rewrite Qe. cbn [map fst snd]. eexists _, _. split; [reflexivity|].
              split; [rewrite Qred_correct; lra|]. split; [apply Qred_complete, Qred_correct|]. split; [assumption|]. split; [rewrite !Qred_correct, D; lra|assumption].
      * intros t Hin. specialize (P t Hin). rewrite Qred_correct. lra.
      * intros k Lk. destruct (E k Lk) as [E1 E2]. split; [assumption|]. rewrite Qred_correct. lra.
      * assumption.
    + red. cbn. intros j u Hj. lia.
Qed.
Lemma tinv_runs m : runs_to g w rep (new_machine g caps) m -> tinv m.
Proof. induction 1; [apply tinv_new|eapply tinv_tick; eauto]. eapply inv_runs; eauto. Qed.
End Time.
