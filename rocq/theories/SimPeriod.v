(** From a repeated state to the periodic future, and what one period contains. *)
From Coq Require Import QArith Qreduction Lqa.
From Verif Require Import Base Graph ScheduleSpec ScheduleCore KPeriodicProofs RepVec RepVecSpec RepVecProofs RepVecFinal RepVecProps Sim SimSpec SimProofs SimTime SimRecur.
Open Scope Z_scope.

(** * Logs *)
Lemma starts_app l1 l2 i : starts (l1 ++ l2) i = starts l2 i ++ starts l1 i.
Proof.
  induction l1 as [|[j t|j t] l IH]; cbn; [now rewrite app_nil_r| |assumption].
  destruct (j =? i)%nat; [|assumption]. rewrite IH, app_assoc. reflexivity.
Qed.
Lemma started_app l1 l2 i : started (l1 ++ l2) i = (started l1 i + started l2 i)%nat.
Proof. induction l1 as [|[j t|j t] l IH]; cbn; [reflexivity| |assumption]. destruct (j =? i)%nat; lia. Qed.
Lemma ended_app l1 l2 i : ended (l1 ++ l2) i = (ended l1 i + ended l2 i)%nat.
Proof. induction l1 as [|[j t|j t] l IH]; cbn; [reflexivity|assumption|]. destruct (j =? i)%nat; lia. Qed.

Lemma tick_log g w rep m m' : tick g w rep m = Ok (Running m') -> exists l, m_log m' = l ++ m_log m.
Proof.
  intros T. unfold tick in T. destruct (m_pc m) as [i|i|].
  - destruct (nth_error (vertices g) i); [|injection T as <-; now exists []].
    destruct (ready_to_end i (m_state m)); [|injection T as <-; now exists []].
    set (full := ((i =? w)%nat && ((if (i =? w)%nat then m_count m + 1 else m_count m) =? rep))) in *.
    destruct (if full then from_repeated g (m_visited m) (m_state m) else []); [|discriminate].
    destruct (exec_end _ _ _ _ _); cbn [bind] in T; try discriminate. injection T as <-. now exists [Ended i (m_now m)].
  - destruct (nth_error (vertices g) i); [|injection T as <-; now exists []].
    destruct (ready _ _ _ _ _); [|injection T as <-; now exists []].
    destruct (exec_start _ _ _ _ _); cbn [bind] in T; try discriminate. injection T as <-. now exists [Started i (m_now m)].
  - destruct (Qeq_bool _ _); [discriminate|]. 
    match type of T with Ok (Running ?x) = _ => assert (m' = x) as -> by congruence end. now exists [].
Qed.
Lemma runs_log g w rep a b : runs_to g w rep a b -> exists l, m_log b = l ++ m_log a.
Proof.
  induction 1 as [|m m' R IH T]; [now exists []|]. destruct IH as [l E]. destruct (tick_log g w rep m m' T) as [l' E'].
  exists (l' ++ l). rewrite E', E, app_assoc. reflexivity.
Qed.
Lemma runs_count g m0 m : 0 <= m_count m0 -> runs_to g 0 0 m0 m -> 0 <= m_count m.
Proof.
  intros C. induction 1 as [|m m' R IH T]; [assumption|]. unfold tick in T. destruct (m_pc m) as [i|i|].
  - destruct (nth_error (vertices g) i); [|injection T as <-; assumption].
    destruct (ready_to_end i (m_state m)); [|injection T as <-; assumption].
    assert (F : ((i =? 0)%nat && ((if (i =? 0)%nat then m_count m + 1 else m_count m) =? 0)) = false).
    { destruct (i =? 0)%nat; [|reflexivity]. cbn. apply Z.eqb_neq. lia. }
    rewrite F in T. destruct (exec_end _ _ _ _ _); cbn [bind] in T; try discriminate. injection T as <-. cbn. destruct (i =? 0)%nat; lia.
  - destruct (nth_error (vertices g) i); [|injection T as <-; assumption].
    destruct (ready _ _ _ _ _); [|injection T as <-; assumption].
    destruct (exec_start _ _ _ _ _); cbn [bind] in T; try discriminate. injection T as <-. assumption.
  - destruct (Qeq_bool _ _); [discriminate|].
    match type of T with Ok (Running ?x) = _ => assert (m' = x) as -> by congruence end. assumption.
Qed.
(** The loop is deterministic. *)
Lemma runs_linear g w rep m0 a b : runs_to g w rep m0 a -> runs_to g w rep m0 b -> runs_to g w rep a b \/ runs_to g w rep b a.
Proof.
  intros Ra Rb. induction Ra as [|m m' R IH T]; [auto|].
  destruct IH as [Hc|Hc].
  - assert (X : forall c, runs_to g w rep m c -> c = m \/ runs_to g w rep m' c).
    { induction 1 as [|c c' Rc IH Tc]; [auto|]. right. destruct IH as [->|IH].
      - rewrite T in Tc. injection Tc as <-. constructor.
      - econstructor; eauto. }
    destruct (X b Hc) as [->|Hb]; [right; econstructor; [constructor|exact T]|auto].
  - right. econstructor; eauto.
Qed.

Definition shift_ev (T : Q) (e e' : event) : Prop :=
  match e, e' with
  | Started i t, Started j t' | Ended i t, Ended j t' => i = j /\ (t' == t + T)%Q
  | _, _ => False
  end.
Lemma starts_shift T l l' i : Forall2 (shift_ev T) l l' -> Forall2 (fun t t' => t' == t + T)%Q (starts l i) (starts l' i).
Proof.
  induction 1 as [|e e' l l' E F IH]; [constructor|]. destruct e as [j t|j t], e' as [j' t'|j' t']; cbn in E; try contradiction; destruct E as [<- E]; cbn; try assumption.
  destruct (j =? i)%nat; [|assumption]. apply Forall2_app; [assumption|repeat constructor; assumption].
Qed.

Lemma forall2_length {A B} (P : A -> B -> Prop) l l' : Forall2 P l l' -> length l = length l'.
Proof. induction 1; cbn; congruence. Qed.

(** * Two alike points repeat for ever *)
Section Repeat.
Variables (g : graph) (caps : option (nat -> Z)).
Hypotheses (WF : graph_wf g) (NI : no_init g) (EV : even_self_loops g).
Notation free := (runs_to g 0 0).
Notation m0 := (new_machine g caps).

Lemma follow a b m : free m0 a -> free m0 b -> alike g a b -> free a m ->
  exists m' l l', free b m' /\ alike g m m' /\ m_log m = l ++ m_log a /\ m_log m' = l' ++ m_log b /\
    Forall2 (shift_ev (m_now b - m_now a)) l l' /\ (m_now m' == m_now m + (m_now b - m_now a))%Q.
Proof.
  intros Ra Rb Ab. induction 1 as [|m m1 R IH T].
  - exists b, [], []. split; [constructor|]. split; [exact Ab|]. split; [reflexivity|]. split; [reflexivity|]. split; [constructor|lra].
  - destruct IH as (m' & l & l' & R' & A & L & L' & F & N).
    assert (Cm : 0 <= m_count m) by (apply (runs_count g m0); [cbn; lia|exact (runs_trans _ _ _ _ _ _ Ra R)]).
    assert (Cm' : 0 <= m_count m') by (apply (runs_count g m0); [cbn; lia|exact (runs_trans _ _ _ _ _ _ Rb R')]).
    destruct (tick_alike g caps WF NI m m' m1) as (m1' & T' & A' & [Mv Tm] & _); auto.
    { apply (inv_runs g caps 0 0 WF NI EV). exact (runs_trans _ _ _ _ _ _ Ra R). } { apply (inv_runs g caps 0 0 WF NI EV). exact (runs_trans _ _ _ _ _ _ Rb R'). }
    destruct Mv as [[E E']|[(i & E & E')|(i & E & E')]].
    + exists m1', l, l'. split; [econstructor; eauto|]. rewrite E, E'. split; [exact A'|]. repeat (split; [assumption|]). lra.
    + exists m1', (Started i (m_now m) :: l), (Started i (m_now m') :: l'). split; [econstructor; eauto|]. rewrite E, E', L, L'.
      split; [exact A'|]. split; [reflexivity|]. split; [reflexivity|]. split; [constructor; [|assumption]; split; [reflexivity|assumption]|lra].
    + exists m1', (Ended i (m_now m) :: l), (Ended i (m_now m') :: l'). split; [econstructor; eauto|]. rewrite E, E', L, L'.
      split; [exact A'|]. split; [reflexivity|]. split; [reflexivity|]. split; [constructor; [|assumption]; split; [reflexivity|assumption]|lra].
Qed.

Lemma alike_trans a b c : alike g a b -> alike g b c -> alike g a c.
Proof.
  intros (A1 & A2 & A3 & A4 & A5 & A6) (B1 & B2 & B3 & B4 & B5 & B6). split; [congruence|]. repeat split.
  - intros i Hi. rewrite A2, B2; auto.
  - intros i v E. rewrite (A3 i v E), (B3 i v E); reflexivity.
  - intros i Hi. rewrite A4, B4; auto.
  - intros k Hk. rewrite A5, B5; auto.
  - intros k Hk. rewrite A6, B6; auto.
Qed.

Notation fires := (fires_at g caps).

Lemma fires_fun i k t t' : fires i k t -> fires i k t' -> t = t'.
Proof.
  intros (m & R & E) (m' & R' & E'). destruct (runs_linear g 0 0 m0 m m' R R') as [H|H]; destruct (runs_log _ _ _ _ _ H) as [l L].
  - rewrite L, starts_app, nth_error_app1 in E' by (apply nth_error_Some; congruence). congruence.
  - rewrite L, starts_app, nth_error_app1 in E by (apply nth_error_Some; congruence). congruence.
Qed.

Lemma many a b : free m0 a -> free m0 b -> free a b -> alike g a b -> forall j, exists m, free a m /\ alike g a m /\
  forall i, started (m_log m) i = (started (m_log a) i + j * (started (m_log b) i - started (m_log a) i))%nat.
Proof.
  intros Ra Rb Rab Ab. induction j as [|j IH].
  - exists a. split; [constructor|]. split; [unfold alike; auto 10|]. intros; lia.
  - destruct IH as (m & R & A & S0). destruct (follow a b m Ra Rb Ab R) as (m' & l & l' & R' & A' & L & L' & F & N).
    exists m'. split; [exact (runs_trans _ _ _ _ _ _ Rab R')|]. split; [exact (alike_trans _ _ _ A A')|].
    intros i. specialize (S0 i). rewrite L, started_app in S0. rewrite L', started_app.
    pose proof (forall2_length _ _ _ (starts_shift _ _ _ i F)) as E. rewrite !starts_length in E.
    destruct (runs_log _ _ _ _ _ Rab) as [lb Lb]. rewrite Lb, started_app in *. nia.
Qed.

Lemma repeats a b i k : free m0 a -> free m0 b -> free a b -> alike g a b ->
  (started (m_log a) i < started (m_log b) i)%nat -> (started (m_log a) i <= k)%nat ->
  exists t t', fires i k t /\ fires i (k + (started (m_log b) i - started (m_log a) i)) t' /\ (t' == t + (m_now b - m_now a))%Q.
Proof.
  intros Ra Rb Rab Ab Hi Hk.
  destruct (many a b Ra Rb Rab Ab (S k)) as (m & R & A & S0). specialize (S0 i).
  assert (Lk : (k < started (m_log m) i)%nat) by nia.
  destruct (nth_error (starts (m_log m) i) k) as [t|] eqn:Et; [|apply nth_error_None in Et; rewrite starts_length in Et; lia].
  destruct (follow a b m Ra Rb Ab R) as (m' & l & l' & R' & A' & L & L' & F & N).
  pose proof (starts_shift _ _ _ i F) as F2. rewrite L, starts_app, nth_error_app2 in Et by (rewrite starts_length; lia). rewrite starts_length in Et.
  assert (X : exists t', nth_error (starts l' i) (k - started (m_log a) i) = Some t' /\ (t' == t + (m_now b - m_now a))%Q).
  { clear -F2 Et. revert Et. generalize (k - started (m_log a) i)%nat as n. induction F2 as [|x y s s' E F IH]; intros [|n]; cbn; try discriminate.
    - intros [= <-]. exists y. auto.
    - apply IH. }
  destruct X as (t' & Et' & Eq). exists t, t'. split; [|split; [|exact Eq]].
  - exists m. split; [exact (runs_trans _ _ _ _ _ _ Ra R)|]. rewrite L, starts_app, nth_error_app2 by (rewrite starts_length; lia). rewrite starts_length. exact Et.
  - exists m'. split; [exact (runs_trans _ _ _ _ _ _ Rb R')|]. rewrite L', starts_app, nth_error_app2 by (rewrite starts_length; lia). rewrite starts_length.
    replace (k + (started (m_log b) i - started (m_log a) i) - started (m_log b) i)%nat with (k - started (m_log a) i)%nat by lia. exact Et'.
Qed.
End Repeat.

(** * Recorded states *)
Section Visits.
Variables (g : graph) (caps : option (nat -> Z)) (w : nat) (rep : Z).
Hypotheses (WF : graph_wf g) (NI : no_init g) (EV : even_self_loops g)
  (GD : all_guarded g (match caps with Some _ => true | None => false end)) (RP : 0 < rep).
Notation rec := (runs_to g w rep).
Notation m0 := (new_machine g caps).

Fixpoint times (base : Q) (vs : list machine) : Prop :=
  match vs with [] => True | v :: r => (m_now v == base + s_time (m_state v))%Q /\ times (m_now v) r end.
Fixpoint last_now (base : Q) (vs : list machine) : Q := match vs with [] => base | v :: r => last_now (m_now v) r end.
Lemma times_app base p r : times base (p ++ r) <-> times base p /\ times (last_now base p) r.
Proof. revert base. induction p as [|v p IH]; intros base; cbn; [tauto|]. rewrite IH. tauto. Qed.
Lemma last_now_app base p r : last_now base (p ++ r) = last_now (last_now base p) r.
Proof. revert base. induction p as [|v p IH]; intros base; cbn; [reflexivity|apply IH]. Qed.

Record vis (m : machine) (vs : list machine) : Prop := mkVis {
  v_map : map m_state vs = m_visited m;
  v_path : forall v, In v vs -> rec m0 v /\ rec v m;
  v_pcs : forall r v, nth_error vs r = Some v -> m_pc v = PEnd w /\ Z.of_nat (ended (m_log v) w) = (Z.of_nat r + 1) * rep - 1;
  v_count : Z.of_nat (ended (m_log m) w) = Z.of_nat (length vs) * rep + m_count m /\ 0 <= m_count m < rep;
  v_times : times 0 vs /\ (m_now m == last_now 0 vs + s_time (m_state m))%Q
}.

Lemma vis_new : vis m0 [].
Proof. constructor; cbn; auto; try tauto. - intros [|r]; discriminate. - lia. - split; [trivial|lra]. Qed.

Lemma vis_same m m' vs : vis m vs -> m_visited m' = m_visited m -> rec m m' -> ended (m_log m') w = ended (m_log m) w ->
  m_count m' = m_count m -> (m_now m' - s_time (m_state m') == m_now m - s_time (m_state m))%Q -> vis m' vs.
Proof.
  intros [A B C D [E F]] V R L K T. constructor; auto.
  - congruence.
  - intros v Hv. destruct (B v Hv) as [B1 B2]. split; [assumption|exact (runs_trans _ _ _ _ _ _ B2 R)].
  - rewrite L, K. exact D.
  - split; [assumption|]. lra.
Qed.

Lemma vis_tick m m' vs : rec m0 m -> vis m vs -> tick g w rep m = Ok (Running m') -> exists vs', vis m' vs'.
Proof.
  intros R V T. assert (R1 : rec m m') by (econstructor; [constructor|exact T]).
  unfold tick in T. destruct (m_pc m) as [i|i|] eqn:Epc.
  - destruct (nth_error (vertices g) i) as [v|] eqn:Ev; [|injection T as <-; exists vs; eapply vis_same; eauto; cbn; lra].
    destruct (ready_to_end i (m_state m)) eqn:Re; [|injection T as <-; exists vs; eapply vis_same; eauto; cbn; lra].
    destruct (Nat.eqb_spec i w) as [->|Nw].
    + cbn [andb] in T. destruct V as [A B C D [E F]]. destruct (Z.eqb_spec (m_count m + 1) rep) as [Er|Nr].
      * destruct (from_repeated g (m_visited m) (m_state m)) as [|x rest]; [|discriminate].
        match type of T with context [exec_end g w v (m_actors m w) ?s1] => set (s1' := s1) in * end.
        destruct (exec_end g w v (m_actors m w) s1') as [[a' s']| | |] eqn:X; cbn [bind] in T; try discriminate.
        injection T as <-. destruct (exec_end_fields g w v _ _ _ _ X) as (t & p & q & Eq & -> & Eq' & Et & Eb).
        exists (vs ++ [m]). constructor; cbn [m_visited m_log m_count m_now m_state update_state s_time].
        -- rewrite map_app, A. reflexivity.
        -- intros u Hu. apply in_app_iff in Hu. destruct Hu as [Hu|[<-|[]]]; [|split; assumption].
           destruct (B u Hu) as [B1 B2]. split; [assumption|exact (runs_trans _ _ _ _ _ _ B2 R1)].
        -- intros r u Hr. destruct (Nat.lt_ge_cases r (length vs)) as [L|L].
           ++ rewrite nth_error_app1 in Hr by assumption. apply C; assumption.
           ++ rewrite nth_error_app2 in Hr by assumption. destruct (r - length vs)%nat as [|d] eqn:Ed; [|destruct d; discriminate].
              injection Hr as <-. split; [assumption|]. assert (r = length vs) as -> by lia. lia.
        -- cbn [ended]. rewrite Nat.eqb_refl, app_length. cbn [length]. lia.
        -- rewrite times_app, last_now_app. cbn [times last_now]. split; [tauto|]. rewrite Et. subst s1'. cbn. lra.
      * destruct (exec_end g w v (m_actors m w) (m_state m)) as [[a' s']| | |] eqn:X; cbn [bind] in T; try discriminate.
        injection T as <-. destruct (exec_end_fields g w v _ _ _ _ X) as (t & p & q & Eq & -> & Eq' & Et & Eb).
        exists vs. constructor; cbn [m_visited m_log m_count m_now m_state update_state s_time]; auto.
        -- intros u Hu. destruct (B u Hu) as [B1 B2]. split; [assumption|exact (runs_trans _ _ _ _ _ _ B2 R1)].
        -- cbn [ended]. rewrite Nat.eqb_refl. lia.
        -- cbn [snd]. rewrite Et. auto.
    + cbn [andb] in T.
      destruct (exec_end g i v (m_actors m i) (m_state m)) as [[a' s']| | |] eqn:X; cbn [bind] in T; try discriminate.
      injection T as <-. destruct (exec_end_fields g i v _ _ _ _ X) as (t & p & q & Eq & -> & Eq' & Et & Eb).
      exists vs. eapply vis_same; eauto; cbn.
      * destruct (Nat.eqb_spec i w); [congruence|reflexivity].
      * rewrite Et. lra.
  - destruct (nth_error (vertices g) i) as [v|] eqn:Ev; [|injection T as <-; exists vs; eapply vis_same; eauto; cbn; lra].
    destruct (ready g i v (m_actors m i) (m_state m)); [|injection T as <-; exists vs; eapply vis_same; eauto; cbn; lra].
    destruct (exec_start g i v (m_actors m i) (m_state m)) as [[a' s']| | |] eqn:X; cbn [bind] in T; try discriminate.
    injection T as <-. destruct (exec_start_fields g i v _ _ _ _ X) as (d & Ed & -> & Eq' & Et & _).
    exists vs. eapply vis_same; eauto; cbn. rewrite Et. lra.
  - destruct (Qeq_bool (fst (advance_time g (m_state m))) long_max) eqn:Em; [discriminate|].
    match type of T with Ok (Running ?x) = _ => assert (m' = x) as -> by congruence end. clear T.
    exists vs. eapply vis_same; eauto. cbn [m_now m_state]. rewrite Qred_correct. unfold advance_time in *.
    destruct (Qeq_bool (next_end g (m_state m)) 0) eqn:Z0.
    + cbn [fst snd]. apply Qeq_bool_eq in Z0. lra.
    + destruct (Qeq_bool (next_end g (m_state m)) long_max) eqn:Em'; [cbn [fst] in Em; congruence|]. cbn [fst snd s_time]. rewrite Qred_correct. lra.
Qed.
Lemma vis_runs m : rec m0 m -> exists vs, vis m vs.
Proof. induction 1 as [|m m' R [vs IH] T]; [exists []; apply vis_new|eapply vis_tick; eauto]. Qed.

Lemma from_repeated_spec visited s x rest : from_repeated g visited s = x :: rest ->
  exists pre, visited = pre ++ x :: rest /\ state_eq g x s = true.
Proof.
  induction visited as [|y l IH]; cbn; [discriminate|]. destruct (state_eq g y s) eqn:E.
  - intros [= -> ->]. exists []. auto.
  - intros H. destruct (IH H) as (pre & -> & Es). exists (y :: pre). auto.
Qed.
Lemma total_time_acc l acc : (fold_left (fun acc s => Qred (acc + s_time s)) l acc == acc + fold_left (fun acc s => Qred (acc + s_time s)) l 0)%Q.
Proof.
  revert acc. induction l as [|s l IH]; intros acc; cbn [fold_left]; [lra|]. rewrite IH. rewrite (IH (Qred (0 + s_time s))%Q). rewrite !Qred_correct. lra.
Qed.
Lemma total_times base vs : times base vs -> (last_now base vs == base + total_time (map m_state vs))%Q.
Proof.
  revert base. induction vs as [|v vs IH]; intros base H.
  - unfold total_time. cbn. lra.
  - cbn [last_now map]. destruct H as [H1 H2]. rewrite (IH _ H2). unfold total_time. cbn [fold_left]. rewrite (total_time_acc _ (Qred _)). rewrite Qred_correct. lra.
Qed.
Lemma total_cons s l : (total_time (s :: l) == s_time s + total_time l)%Q.
Proof. unfold total_time. cbn [fold_left]. rewrite total_time_acc, Qred_correct. lra. Qed.

Lemma queue_eq_same a b : (forall r p, In (r, p) a -> Qred r = r) -> (forall r p, In (r, p) b -> Qred r = r) -> queue_eq a b = true -> a = b.
Proof.
  revert b. induction a as [|[t p] a IH]; intros [|[t' p'] b] Ha Hb; cbn; try discriminate; [reflexivity|].
  rewrite !andb_true_iff. intros [[H1 H2] H3]. f_equal.
  - apply Qeq_bool_eq in H1. apply Z.eqb_eq in H2. rewrite <- (Ha t p), <- (Hb t' p') by (left; reflexivity). rewrite (Qred_complete _ _ H1). congruence.
  - apply IH; auto; intros r q Hin; [apply (Ha r q)|apply (Hb r q)]; right; assumption.
Qed.

Lemma sumf_next f a b : (b = a \/ b = S a) -> sumf f b = sumf f a + (if (a <? b)%nat then f a else 0).
Proof. intros [->| ->]; [rewrite Nat.ltb_irrefl|rewrite (proj2 (Nat.ltb_lt a (S a))) by lia; cbn]; lia. Qed.

(** Equal states at the same position are the same configuration, whatever the time recorded. *)
Lemma same_config a b : rec m0 a -> rec m0 b -> m_pc a = m_pc b ->
  (forall i, In i (seq 0 (length (vertices g))) -> (s_phase (m_state a) i =? s_phase (m_state b) i) = true) ->
  (forall k, In k (seq 0 (length (edges g))) -> (s_tokens (m_state a) k =? s_tokens (m_state b) k) = true) ->
  (forall i, In i (seq 0 (length (vertices g))) -> queue_eq (s_queue (m_state a) i) (s_queue (m_state b) i) = true) -> alike g a b.
Proof using WF NI EV GD. clear RP.
  intros Ra Rb Pab Hp Ht Hq.
  pose proof (inv_runs g caps w rep WF NI EV a Ra) as Ia. pose proof (inv_runs g caps w rep WF NI EV b Rb) as Ib.
  pose proof (tinv_runs g caps w rep WF NI EV GD a Ra) as Ta. pose proof (tinv_runs g caps w rep WF NI EV GD b Rb) as Tb.
  assert (Q : forall i, (i < length (vertices g))%nat -> s_queue (m_state a) i = s_queue (m_state b) i).
  { intros i Hi. destruct (nth_error (vertices g) i) as [v|] eqn:Ev; [|apply nth_error_None in Ev; lia].
    apply queue_eq_same; [| |apply Hq, in_seq; lia].
    - intros r p Hin. destruct (ti_queue _ _ _ _ _ _ (t_task g a Ta i v Ev)) as [(_ & Qe & _)|(_ & r' & p' & Qe & _ & Rr & _)]; rewrite Qe in Hin; [destruct Hin|].
      destruct Hin as [[= <- <-]|[]]. exact Rr.
    - intros r p Hin. destruct (ti_queue _ _ _ _ _ _ (t_task g b Tb i v Ev)) as [(_ & Qe & _)|(_ & r' & p' & Qe & _ & Rr & _)]; rewrite Qe in Hin; [destruct Hin|].
      destruct Hin as [[= <- <-]|[]]. exact Rr. }
  assert (Tk : forall k, (k < length (edges g))%nat -> s_tokens (m_state a) k = s_tokens (m_state b) k).
  { intros k Hk. apply Z.eqb_eq, Ht, in_seq. lia. }
  assert (Fl : forall i v, nth_error (vertices g) i = Some v ->
     (started (m_log a) i = ended (m_log a) i /\ started (m_log b) i = ended (m_log b) i) \/
     (started (m_log a) i = S (ended (m_log a) i) /\ started (m_log b) i = S (ended (m_log b) i) /\ (ended (m_log a) i mod v_phases v = ended (m_log b) i mod v_phases v)%nat)).
  { intros i v Ev. assert (Hi : (i < length (vertices g))%nat) by (apply nth_error_Some; congruence). specialize (Q i Hi).
    pose proof (ti_queue _ _ _ _ _ _ (t_task g a Ta i v Ev)) as Qa. pose proof (ti_queue _ _ _ _ _ _ (t_task g b Tb i v Ev)) as Qb.
    rewrite !starts_length, !ends_length in *. 
    destruct Qa as [(_ & Qa & La)|(_ & r & p & Qa & _ & _ & La & _ & Pha)], Qb as [(_ & Qb & Lb)|(_ & r' & p' & Qb & _ & _ & Lb & _ & Phb)]; rewrite Qa, Qb in Q; try discriminate; auto.
    right. injection Q as -> ->. split; [assumption|]. split; [assumption|]. apply Nat2Z.inj. lia. }
  split; [congruence|]. split; [|split; [|split; [|split]]]; auto.
  - intros i Hi. destruct (nth_error (vertices g) i) as [v|] eqn:Ev; [|apply nth_error_None in Ev; lia]. specialize (Q i Hi).
    destruct (ti_queue _ _ _ _ _ _ (t_task g a Ta i v Ev)) as [(Ba & Qa & _)|(Ba & r & p & Qa & _)], (ti_queue _ _ _ _ _ _ (t_task g b Tb i v Ev)) as [(Bb & Qb & _)|(Bb & r' & p' & Qb & _)]; congruence.
  - intros i v Ev. assert (Hi : (i < length (vertices g))%nat) by (apply nth_error_Some; congruence).
    assert (E : s_phase (m_state a) i = s_phase (m_state b) i) by (apply Z.eqb_eq, Hp, in_seq; lia).
    rewrite (inv_phase g caps a Ia i v Ev), (inv_phase g caps b Ib i v Ev) in E. lia.
  - intros k Hk. destruct caps as [cap|] eqn:Ecap.
    + destruct (nth_error (edges g) k) as [c|] eqn:Ek; [|apply nth_error_None in Ek; lia].
      rewrite (inv_space g _ a Ia cap k c eq_refl Ek), (inv_space g _ b Ib cap k c eq_refl Ek).
      specialize (Tk k Hk). rewrite (inv_tokens g _ a Ia k c Ek), (inv_tokens g _ b Ib k c Ek) in Tk.
      pose proof (nth_error_In _ _ Ek) as Hc. destruct WF as (WV & B & _). destruct (B c Hc) as (vs & vd & E1 & E2 & L1 & L2 & L3 & L4 & _).
      assert (I1 : e_in_init c = []) by (apply length_zero_iff_nil; rewrite L3; apply NI; eapply nth_error_In; eauto).
      assert (I2 : e_out_init c = []) by (apply length_zero_iff_nil; rewrite L4; apply NI; eapply nth_error_In; eauto).
      assert (P1 := proj1 (WV vs (nth_error_In _ _ E1))). assert (P2 := proj1 (WV vd (nth_error_In _ _ E2))).
      assert (X : sumf (prod_rate c) (started (m_log a) (e_src c)) - sumf (prod_rate c) (ended (m_log a) (e_src c)) =
                  sumf (prod_rate c) (started (m_log b) (e_src c)) - sumf (prod_rate c) (ended (m_log b) (e_src c))).
      { destruct (Fl _ _ E1) as [[-> ->]|(-> & -> & Em)]; [lia|]. cbn [sumf].
        enough (prod_rate c (ended (m_log a) (e_src c)) = prod_rate c (ended (m_log b) (e_src c))) by lia.
        unfold prod_rate. rewrite I1. eapply cyc_rate_mod; eauto. }
      assert (Y : sumf (cons_rate c) (started (m_log a) (e_dst c)) - sumf (cons_rate c) (ended (m_log a) (e_dst c)) =
                  sumf (cons_rate c) (started (m_log b) (e_dst c)) - sumf (cons_rate c) (ended (m_log b) (e_dst c))).
      { destruct (Fl _ _ E2) as [[-> ->]|(-> & -> & Em)]; [lia|]. cbn [sumf].
        enough (cons_rate c (ended (m_log a) (e_dst c)) = cons_rate c (ended (m_log b) (e_dst c))) by lia.
        unfold cons_rate. rewrite I2. eapply cyc_rate_mod; eauto. }
      lia.
    + (* unbounded: the spaces stay at their initial value 0 *)
      assert (Z0 : forall m, rec m0 m -> s_space (m_state m) k = 0).
      { clear -Ecap WF NI EV. intros m R. pose proof (inv_runs g caps w rep WF NI EV) as II.
        induction R as [|m m' R IH T]; [cbn; rewrite Ecap; reflexivity|]. pose proof (inv_bounded g _ m (II m R)) as Hb. rewrite Ecap in Hb.
        unfold tick in T. destruct (m_pc m) as [i|i|].
        - destruct (nth_error (vertices g) i); [|injection T as <-; assumption].
          destruct (ready_to_end i (m_state m)); [|injection T as <-; assumption].
          set (full := ((i =? w)%nat && ((if (i =? w)%nat then m_count m + 1 else m_count m) =? rep))) in *.
          destruct (if full then from_repeated g (m_visited m) (m_state m) else []); [|discriminate].
          match type of T with context [exec_end g i _ (m_actors m i) ?s1] => set (s1' := s1) in * end.
          assert (Es : s_bounded s1' = false /\ s_space s1' k = 0) by (subst s1'; destruct full; auto). destruct Es as [Eb Es].
          unfold exec_end in T. destruct (s_queue s1' i) as [|[t p] q]; [discriminate|]. cbn [bind] in T. injection T as <-. cbn. rewrite Eb. exact Es.
        - destruct (nth_error (vertices g) i); [|injection T as <-; assumption].
          destruct (ready _ _ _ _ _); [|injection T as <-; assumption].
          unfold exec_start in T. destruct (vertex_duration _ _); cbn [bind] in T; try discriminate. injection T as <-. cbn. rewrite Hb. exact IH.
        - destruct (Qeq_bool _ _); [discriminate|].
          match type of T with Ok (Running ?x) = _ => assert (m' = x) as -> by congruence end. cbn [m_state].
          destruct (advance_rest g (m_state m)) as (_ & _ & -> & _). exact IH. }
      rewrite Ecap in Z0. rewrite (Z0 a Ra), (Z0 b Rb). reflexivity.
Qed.

(** Equal states at the recording point are the same configuration. *)
Lemma state_eq_alike a b : rec m0 a -> rec m0 b -> m_pc a = PEnd w -> m_pc b = PEnd w -> state_eq g (m_state a) (m_state b) = true -> alike g a b.
Proof.
  intros Ra Rb Pa Pb. unfold state_eq. rewrite !andb_true_iff, !forallb_forall. intros [[[_ Hp] Ht] Hq].
  apply same_config; auto. congruence.
Qed.

(** The answer: a first and a second visit of the same configuration. *)
Lemma periodic_points m n T : rec m0 m -> tick g w rep m = Ok (Periodic n T) ->
  exists a, rec m0 a /\ rec a m /\ alike g a m /\ (m_now m - m_now a == T)%Q /\ (0 < n)%nat /\
    Z.of_nat (ended (m_log m) w) = Z.of_nat (ended (m_log a) w) + Z.of_nat n * rep /\ (w < length (vertices g))%nat.
Proof.
  intros R Tk. destruct (vis_runs m R) as [vs V]. pose proof (tinv_runs g caps w rep WF NI EV GD m R) as Tm.
  unfold tick in Tk. destruct (m_pc m) as [i|i|] eqn:Epc.
  2:{ destruct (nth_error (vertices g) i); [|discriminate]. destruct (ready _ _ _ _ _); [|discriminate].
      destruct (exec_start _ _ _ _ _); cbn [bind] in Tk; discriminate. }
  2:{ destruct (Qeq_bool _ _); discriminate. }
  destruct (nth_error (vertices g) i) as [v|] eqn:Ev; [|discriminate]. destruct (ready_to_end i (m_state m)); [|discriminate].
  set (full := ((i =? w)%nat && ((if (i =? w)%nat then m_count m + 1 else m_count m) =? rep))) in *.
  destruct full eqn:Ef.
  2:{ destruct (exec_end _ _ _ _ _); cbn [bind] in Tk; discriminate. }
  destruct (from_repeated g (m_visited m) (m_state m)) as [|x rest] eqn:Er.
  { destruct (exec_end _ _ _ _ _); cbn [bind] in Tk; discriminate. }
  assert (En : n = length (x :: rest)) by congruence. assert (ET : T = total_time (x :: rest)) by congruence. clear Tk. subst n T.
  destruct (from_repeated_spec _ _ _ _ Er) as (pre & Ep & Es). destruct V as [A B C D [E F]].
  subst full. apply andb_true_iff in Ef. destruct Ef as [Ew Ec]. rewrite Ew in Ec. apply Z.eqb_eq in Ec. apply Nat.eqb_eq in Ew. subst i.
  rewrite Ep in A. apply map_eq_app in A. destruct A as (vp & vr & -> & Evp & Evr). destruct vr as [|a vr]; [discriminate|]. cbn [map] in Evr. injection Evr as Ea Evr.
  exists a. destruct (B a) as [Ba1 Ba2]; [apply in_app_iff; right; left; reflexivity|].
  destruct (C (length vp) a) as [Pa Ca]; [rewrite nth_error_app2, Nat.sub_diag by lia; reflexivity|].
  split; [assumption|]. split; [assumption|]. split; [apply state_eq_alike; auto; rewrite Ea; assumption|]. split; [|split; [cbn; lia|split]].
  - rewrite times_app, last_now_app in *. destruct E as [_ E]. cbn [times last_now] in *. destruct E as [E1 E2].
    rewrite (total_times _ _ E2), Evr in F. rewrite total_cons, <- Ea. unfold state_eq in Es. rewrite !andb_true_iff in Es. destruct Es as [[[Es _] _] _].
    apply Qeq_bool_eq in Es. rewrite <- Ea in Es. lra.
  - assert (Ln : length (x :: rest) = S (length vr)) by (rewrite <- Evr; cbn; rewrite map_length; reflexivity). rewrite Ln. destruct D as [D _]. rewrite D, Ca, app_length. cbn [length]. lia.
  - apply nth_error_Some. congruence.
Qed.

(** What happens between the two visits is a whole number of iterations. *)
Lemma period_counts a b : rec m0 a -> rec a b -> alike g a b -> (ended (m_log a) w < ended (m_log b) w)%nat -> connected_graph g -> (w < length (vertices g))%nat ->
  let D := fun i => (started (m_log b) i - started (m_log a) i)%nat in
  solution g (fun i => Z.of_nat (D i)) /\ (forall i v, nth_error (vertices g) i = Some v -> (Z.of_nat (v_phases v) | Z.of_nat (D i))) /\
  (forall i, (i < length (vertices g))%nat -> (started (m_log a) i + D i = started (m_log b) i /\ ended (m_log a) i + D i = ended (m_log b) i)%nat).
Proof.
  intros Ra Rab Al Hw CG Lw D. assert (Rb : rec m0 b) by exact (runs_trans _ _ _ _ _ _ Ra Rab).
  pose proof (inv_runs g caps w rep WF NI EV a Ra) as Ia. pose proof (inv_runs g caps w rep WF NI EV b Rb) as Ib.
  pose proof (tinv_runs g caps w rep WF NI EV GD a Ra) as Ta. pose proof (tinv_runs g caps w rep WF NI EV GD b Rb) as Tb.
  destruct Al as (_ & Bu & Ph & Qu & Tk & _). destruct (runs_log _ _ _ _ _ Rab) as [l L].
  assert (DE : forall i, (i < length (vertices g))%nat -> (started (m_log a) i + D i = started (m_log b) i /\ ended (m_log a) i + D i = ended (m_log b) i)%nat).
  { intros i Hi. destruct (nth_error (vertices g) i) as [v|] eqn:Ev; [|apply nth_error_None in Ev; lia]. specialize (Qu i Hi).
    pose proof (ti_queue _ _ _ _ _ _ (t_task g a Ta i v Ev)) as Qa. pose proof (ti_queue _ _ _ _ _ _ (t_task g b Tb i v Ev)) as Qb.
    rewrite !starts_length, !ends_length in *. unfold D.
    assert (started (m_log a) i <= started (m_log b) i)%nat by (rewrite L, started_app; lia).
    destruct Qa as [(_ & Qa & La)|(_ & r & p & Qa & _ & _ & La & _ & Pha)], Qb as [(_ & Qb & Lb)|(_ & r' & p' & Qb & _ & _ & Lb & _ & Phb)]; rewrite Qa, Qb in Qu; try discriminate; lia. }
  assert (DP : forall i v, nth_error (vertices g) i = Some v -> exists j, D i = (j * v_phases v)%nat).
  { intros i v Ev. assert (Hi : (i < length (vertices g))%nat) by (apply nth_error_Some; congruence). destruct (DE i Hi) as [E _]. specialize (Ph i v Ev).
    pose proof (phases_pos g i v WF Ev) as Pp. rewrite <- E in Ph.
    exists (D i / v_phases v)%nat. pose proof (Nat.div_mod (D i) (v_phases v) ltac:(lia)) as DM.
    assert (M0 : (D i mod v_phases v = 0)%nat).
    { pose proof (Nat.div_mod (started (m_log a) i) (v_phases v) ltac:(lia)) as D1.
      pose proof (Nat.div_mod (started (m_log a) i + D i) (v_phases v) ltac:(lia)) as D2. rewrite <- Ph in D2.
      assert (Dd : exists z, Z.of_nat (D i) = z * Z.of_nat (v_phases v)).
      { exists (Z.of_nat ((started (m_log a) i + D i) / v_phases v) - Z.of_nat (started (m_log a) i / v_phases v)). nia. }
      destruct Dd as [z Ez]. apply Nat2Z.inj. rewrite Nat2Z.inj_mod, Ez, Z_mod_mult. reflexivity. }
    lia. }
  assert (BAL : forall c, In c (edges g) -> forall vs vd, nth_error (vertices g) (e_src c) = Some vs -> nth_error (vertices g) (e_dst c) = Some vd ->
     forall js jd, D (e_src c) = (js * v_phases vs)%nat -> D (e_dst c) = (jd * v_phases vd)%nat -> Z.of_nat js * sumZ (e_in c) = Z.of_nat jd * sumZ (e_out c)).
  { intros c Hc vs vd E1 E2 js jd J1 J2. destruct (In_nth_error _ _ Hc) as [k Ek]. assert (Hk : (k < length (edges g))%nat) by (apply nth_error_Some; congruence).
    specialize (Tk k Hk). rewrite (inv_tokens g _ a Ia k c Ek), (inv_tokens g _ b Ib k c Ek) in Tk.
    destruct WF as (WV & B & _). destruct (B c Hc) as (vs' & vd' & E1' & E2' & L1 & L2 & L3 & L4 & _).
    assert (vs' = vs) by congruence. assert (vd' = vd) by congruence. subst vs' vd'.
    assert (I1 : e_in_init c = []) by (apply length_zero_iff_nil; rewrite L3; apply NI; eapply nth_error_In; eauto).
    assert (I2 : e_out_init c = []) by (apply length_zero_iff_nil; rewrite L4; apply NI; eapply nth_error_In; eauto).
    assert (P1 := proj1 (WV vs (nth_error_In _ _ E1))). assert (P2 := proj1 (WV vd (nth_error_In _ _ E2))).
    destruct (DE (e_src c)) as [_ F1]; [apply nth_error_Some; congruence|]. destruct (DE (e_dst c)) as [F2 _]; [apply nth_error_Some; congruence|].
    assert (SUM : forall per init, init = [] -> (0 < length per)%nat -> forall j x, sumf (cyclic 0 init per) (x + j * length per) = sumf (cyclic 0 init per) x + Z.of_nat j * sumZ per).
    { intros per init -> Hp. induction j as [|j IH]; intros x; [rewrite Nat.add_0_r; lia|].
      replace (x + S j * length per)%nat with ((x + j * length per) + length per)%nat by lia.
      rewrite sumf_app, IH, cyclic_period_sum by (cbn; lia). lia. }
    rewrite <- F1, <- F2, J1, J2 in Tk. unfold prod_rate, cons_rate in Tk. rewrite <- L1, <- L2 in Tk.
    rewrite (SUM (e_in c)), (SUM (e_out c)) in Tk by (auto; lia). lia. }
  assert (POS : forall i, linked g w i -> (i < length (vertices g))%nat -> (0 < D i)%nat).
  { assert (STEP : forall c, In c (edges g) -> (0 < D (e_src c) <-> 0 < D (e_dst c))%nat).
    { intros c Hc. pose proof WF as (WV & B & _). destruct (B c Hc) as (vs & vd & E1 & E2 & L1 & L2 & L3 & L4 & _ & S1 & S2 & _).
      destruct (DP _ _ E1) as [js J1]. destruct (DP _ _ E2) as [jd J2]. pose proof (BAL c Hc vs vd E1 E2 js jd J1 J2) as Bc.
      assert (P1 := proj1 (WV vs (nth_error_In _ _ E1))). assert (P2 := proj1 (WV vd (nth_error_In _ _ E2))).
      rewrite J1, J2. split; intros Hj.
      - destruct js as [|js]; [lia|]. destruct jd as [|jd]; [nia|]. nia.
      - destruct jd as [|jd]; [lia|]. destruct js as [|js]; [nia|]. nia. }
    intros i Hl. induction Hl as [x|x c Hc Hl IH|x c Hc Hl IH]; intros Hi.
    - destruct (DE x Lw) as [_ F]. lia.
    - apply STEP; auto. apply IH; auto. pose proof WF as (_ & B & _). destruct (B c Hc) as (vs & vd & E1 & E2 & _). apply nth_error_Some; congruence.
    - apply STEP; auto. apply IH; auto. pose proof WF as (_ & B & _). destruct (B c Hc) as (vs & vd & E1 & E2 & _). apply nth_error_Some; congruence. }
  split; [split|split; [|exact DE]].
  - intros i Hi. pose proof (POS i (CG w i Lw Hi) Hi). lia.
  - intros c Hc. pose proof WF as (WV & B & _). destruct (B c Hc) as (vs & vd & E1 & E2 & L1 & L2 & _).
    destruct (DP _ _ E1) as [js J1]. destruct (DP _ _ E2) as [jd J2]. pose proof (BAL c Hc vs vd E1 E2 js jd J1 J2) as Bc.
    rewrite J1, J2, L1, L2, !Nat2Z.inj_mul.
    transitivity (Z.of_nat js * sumZ (e_in c) * (Z.of_nat (v_phases vs) * Z.of_nat (v_phases vd))); [ring|]. rewrite Bc. ring.
  - intros i v Ev. destruct (DP i v Ev) as [j ->]. exists (Z.of_nat j). lia.
Qed.
End Visits.
