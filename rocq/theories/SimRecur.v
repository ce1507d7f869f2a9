(** A repeated state makes the self-timed execution periodic. *)
From Coq Require Import QArith Qreduction Lqa.
From Verif Require Import Base Graph ScheduleSpec RepVec RepVecSpec RepVecProofs RepVecFinal RepVecProps Sim SimSpec SimProofs SimTime.
Open Scope Z_scope.

(** * The run without recording *)
Definition core_eq (m m' : machine) : Prop :=
  m_pc m = m_pc m' /\ m_actors m = m_actors m' /\ s_queue (m_state m) = s_queue (m_state m') /\
  s_phase (m_state m) = s_phase (m_state m') /\ s_tokens (m_state m) = s_tokens (m_state m') /\
  s_space (m_state m) = s_space (m_state m') /\ s_bounded (m_state m) = s_bounded (m_state m') /\
  m_now m = m_now m' /\ m_log m = m_log m'.
Lemma core_refl m : core_eq m m.
Proof. repeat split. Qed.

Lemma next_end_queue g s s' : s_queue s = s_queue s' -> next_end g s = next_end g s'.
Proof. intros E. unfold next_end. rewrite E. reflexivity. Qed.
Lemma advance_core g s s' : s_queue s = s_queue s' -> fst (advance_time g s) = fst (advance_time g s') /\
  s_queue (snd (advance_time g s)) = s_queue (snd (advance_time g s')).
Proof.
  intros E. unfold advance_time. rewrite (next_end_queue g s s' E).
  destruct (Qeq_bool _ _); [auto|]. destruct (Qeq_bool _ _); [auto|]. cbn [fst snd s_queue]. rewrite E. auto.
Qed.
Lemma advance_rest g s : s_phase (snd (advance_time g s)) = s_phase s /\ s_tokens (snd (advance_time g s)) = s_tokens s /\
  s_space (snd (advance_time g s)) = s_space s /\ s_bounded (snd (advance_time g s)) = s_bounded s.
Proof. unfold advance_time. destruct (Qeq_bool _ _); [auto|]. destruct (Qeq_bool _ _); cbn; auto. Qed.

Lemma ready_core g i v a s s' : s_tokens s = s_tokens s' -> s_space s = s_space s' -> s_bounded s = s_bounded s' ->
  ready g i v a s = ready g i v a s'.
Proof. intros E1 E2 E3. unfold ready. rewrite E1, E2, E3. reflexivity. Qed.

Lemma tick_core g w rep m mf m' : core_eq m mf -> 0 <= m_count mf -> tick g w rep m = Ok (Running m') ->
  exists mf', tick g 0 0 mf = Ok (Running mf') /\ core_eq m' mf' /\ 0 <= m_count mf'.
Proof.
  intros (E1 & E2 & E3 & E4 & E5 & E6 & E7 & E8 & E9) C T. unfold tick in *. rewrite <- E1. destruct (m_pc m) as [i|i|].
  - destruct (nth_error (vertices g) i) as [v|] eqn:Ev.
    2:{ injection T as <-. eexists. split; [reflexivity|]. split; [repeat split; assumption|assumption]. }
    replace (ready_to_end i (m_state mf)) with (ready_to_end i (m_state m)) by (unfold ready_to_end; rewrite E3; reflexivity).
    destruct (ready_to_end i (m_state m)) eqn:R.
    2:{ injection T as <-. eexists. split; [reflexivity|]. split; [repeat split; assumption|assumption]. }
    set (full := ((i =? w)%nat && ((if (i =? w)%nat then m_count m + 1 else m_count m) =? rep))) in *.
    set (cf := if (i =? 0)%nat then m_count mf + 1 else m_count mf) in *.
    assert (Cf : 0 <= cf) by (subst cf; destruct (i =? 0)%nat; lia).
    replace ((i =? 0)%nat && (cf =? 0)) with false.
    2:{ subst cf. destruct (i =? 0)%nat eqn:E0; [|reflexivity]. cbn. symmetry. apply Z.eqb_neq. lia. }
    destruct (if full then from_repeated g (m_visited m) (m_state m) else []); [|discriminate].
    unfold ready_to_end in R. destruct (s_queue (m_state m) i) as [|[t p] q] eqn:Eq; [discriminate|].
    match type of T with context [exec_end g i v (m_actors m i) ?s1] => set (s1' := s1) in * end.
    assert (S1 : s_queue s1' = s_queue (m_state m) /\ s_phase s1' = s_phase (m_state m) /\ s_tokens s1' = s_tokens (m_state m) /\
                 s_space s1' = s_space (m_state m) /\ s_bounded s1' = s_bounded (m_state m)) by (subst s1'; destruct full; repeat split).
    destruct S1 as (A1 & A2 & A3 & A4 & A5).
    unfold exec_end in T |- *. rewrite A1, Eq in T. rewrite <- E3, Eq. cbn [bind fst snd] in T |- *. injection T as <-.
    eexists. split; [reflexivity|]. split; [|exact Cf].
    rewrite A2, A3, A4, A5. repeat split; cbn; rewrite <- ?E2, <- ?E3, <- ?E4, <- ?E5, <- ?E6, <- ?E7, <- ?E8, <- ?E9; reflexivity.
  - destruct (nth_error (vertices g) i) as [v|] eqn:Ev.
    2:{ injection T as <-. eexists. split; [reflexivity|]. split; [repeat split; assumption|assumption]. }
    rewrite <- E2. rewrite <- (ready_core g i v _ _ _ E5 E6 E7).
    destruct (ready g i v (m_actors m i) (m_state m)) eqn:R.
    2:{ injection T as <-. eexists. split; [reflexivity|]. split; [repeat split; cbn; assumption|assumption]. }
    unfold exec_start in T |- *. destruct (vertex_duration v _) as [d| | |]; cbn [bind fst snd] in T |- *; try discriminate. injection T as <-.
    eexists. split; [reflexivity|]. split; [|exact C].
    repeat split; cbn; rewrite <- ?E3, <- ?E4, <- ?E5, <- ?E6, <- ?E7, <- ?E8, <- ?E9; reflexivity.
  - destruct (advance_core g _ _ E3) as [F1 F2]. rewrite <- F1.
    destruct (Qeq_bool (fst (advance_time g (m_state m))) long_max); [discriminate|].
    match type of T with Ok (Running ?x) = _ => assert (m' = x) as -> by congruence end. clear T.
    eexists. split; [reflexivity|]. split; [|exact C].
    destruct (advance_rest g (m_state m)) as (B1 & B2 & B3 & B4). destruct (advance_rest g (m_state mf)) as (B1' & B2' & B3' & B4').
    repeat split; cbn [m_pc m_actors m_state m_now m_log]; try congruence. 
Qed.
Lemma runs_core g w rep m0 m : 0 <= m_count m0 -> runs_to g w rep m0 m ->
  exists mf, runs_to g 0 0 m0 mf /\ core_eq m mf /\ 0 <= m_count mf.
Proof.
  intros C. induction 1 as [|m m' R IH T].
  - exists m0. split; [constructor|]. split; [apply core_refl|exact C].
  - destruct IH as (mf & Rf & Cf & Nf). destruct (tick_core g w rep m mf m' Cf Nf T) as (mf' & Tf & Cf' & Nf').
    exists mf'. split; [econstructor; eauto|auto].
Qed.
Lemma runs_core_from g w rep m0 m m0f : core_eq m0 m0f -> 0 <= m_count m0f -> runs_to g w rep m0 m ->
  exists mf, runs_to g 0 0 m0f mf /\ core_eq m mf /\ 0 <= m_count mf.
Proof.
  intros E C. induction 1 as [|m m' R IH T].
  - exists m0f. split; [constructor|auto].
  - destruct IH as (mf & Rf & Cf & Nf). destruct (tick_core g w rep m mf m' Cf Nf T) as (mf' & Tf & Cf' & Nf').
    exists mf'. split; [econstructor; eauto|auto].
Qed.
Lemma runs_trans g w rep a b c : runs_to g w rep a b -> runs_to g w rep b c -> runs_to g w rep a c.
Proof. intros R. induction 1; [assumption|econstructor; eauto]. Qed.

(** * Machines that behave alike *)
Definition alike (g : graph) (m m' : machine) : Prop :=
  m_pc m = m_pc m' /\
  (forall i, (i < length (vertices g))%nat -> a_busy (m_actors m i) = a_busy (m_actors m' i)) /\
  (forall i v, nth_error (vertices g) i = Some v -> (started (m_log m) i mod v_phases v)%nat = (started (m_log m') i mod v_phases v)%nat) /\
  (forall i, (i < length (vertices g))%nat -> s_queue (m_state m) i = s_queue (m_state m') i) /\
  (forall k, (k < length (edges g))%nat -> s_tokens (m_state m) k = s_tokens (m_state m') k) /\
  (forall k, (k < length (edges g))%nat -> s_space (m_state m) k = s_space (m_state m') k).

(** The two machines do the same thing: same event if any, same time step. *)
Definition same_move (m1 m1' m2 m2' : machine) : Prop :=
  (m_log m1' = m_log m1 /\ m_log m2' = m_log m2 \/
   (exists i, m_log m1' = Started i (m_now m1) :: m_log m1 /\ m_log m2' = Started i (m_now m2) :: m_log m2) \/
   (exists i, m_log m1' = Ended i (m_now m1) :: m_log m1 /\ m_log m2' = Ended i (m_now m2) :: m_log m2)) /\
  (m_now m1' - m_now m1 == m_now m2' - m_now m2)%Q.

Lemma next_end_ext g s s' : (forall i, (i < length (vertices g))%nat -> s_queue s i = s_queue s' i) -> next_end g s = next_end g s'.
Proof.
  intros H. unfold next_end. assert (F : forall l m0, (forall i, In i l -> (i < length (vertices g))%nat) ->
    fold_left (fun m i => match s_queue s i with [] => m | (t, _) :: _ => qmin m t end) l m0 =
    fold_left (fun m i => match s_queue s' i with [] => m | (t, _) :: _ => qmin m t end) l m0).
  { induction l as [|i l IH]; intros m0 Hl; [reflexivity|]. cbn [fold_left]. rewrite (H i) by (apply Hl; left; reflexivity).
    apply IH. intros j Hj. apply Hl. right; assumption. }
  apply F. intros i Hi. apply in_seq in Hi. lia.
Qed.

Section Alike.
Variables (g : graph) (caps : option (nat -> Z)).
Hypotheses (WF : graph_wf g) (NI : no_init g) (EV : even_self_loops g).

Lemma cyc_rate_mod {A} (d : A) (l : list A) P a b : length l = P -> (0 < P)%nat -> (a mod P)%nat = (b mod P)%nat -> cyclic d [] l a = cyclic d [] l b.
Proof.
  intros L P0 E. unfold cyclic. cbn [length]. change (a <? 0)%nat with false. change (b <? 0)%nat with false. cbv iota.
  rewrite !Nat.sub_0_r, L, E. reflexivity.
Qed.
Lemma exec_rate_phase i v c a : nth_error (vertices g) i = Some v -> In c (edges g) -> e_src c = i \/ e_dst c = i ->
  forall n, a_execs a = Z.of_nat n -> current_rate v i a c = exec_rate v i c (Z.of_nat (n mod v_phases v) + 1).
Proof.
  intros Ev Hc D n En. unfold current_rate, phase_count. rewrite En.
  assert (E : (if (e_dst c =? i)%nat then Z.of_nat (length (e_out c)) else Z.of_nat (length (e_in c))) = Z.of_nat (v_phases v)).
  { destruct (Nat.eqb_spec (e_dst c) i) as [E|N]; f_equal.
    - apply (dst_len g i v c WF NI Ev Hc E).
    - destruct D as [D|D]; [|congruence]. apply (src_len g i v c WF NI Ev Hc D). }
  rewrite E, rem_mod by apply (phases_pos g i v WF Ev). reflexivity.
Qed.
Lemma rate_alike m m' i v c : inv g caps m -> inv g caps m' -> alike g m m' -> nth_error (vertices g) i = Some v -> In c (edges g) ->
  e_src c = i \/ e_dst c = i -> current_rate v i (m_actors m i) c = current_rate v i (m_actors m' i) c.
Proof.
  intros Hi Hi' (_ & _ & A & _) Ev Hc D.
  rewrite (exec_rate_phase i v c _ Ev Hc D _ (inv_execs g caps m Hi i v Ev)).
  rewrite (exec_rate_phase i v c _ Ev Hc D _ (inv_execs g caps m' Hi' i v Ev)). rewrite (A i v Ev). reflexivity.
Qed.
Lemma ready_alike m m' i v : inv g caps m -> inv g caps m' -> alike g m m' -> nth_error (vertices g) i = Some v ->
  ready g i v (m_actors m i) (m_state m) = ready g i v (m_actors m' i) (m_state m').
Proof.
  intros Hi Hi' Ha Ev. pose proof Ha as (_ & B & _ & _ & Tk & Sp).
  assert (Hl : (i < length (vertices g))%nat) by (apply nth_error_Some; congruence).
  unfold ready. rewrite (inv_bounded g caps m Hi), (inv_bounded g caps m' Hi'). rewrite (B i Hl).
  assert (X : forall (f h : nat * edge -> bool) l, (forall x, In x l -> f x = h x) -> forallb f l = forallb h l).
  { induction l as [|x l IH]; intros H; [reflexivity|]. cbn. rewrite (H x) by (left; reflexivity). rewrite IH; [reflexivity|].
    intros y Hy. apply H. right; assumption. }
  f_equal; [|f_equal]; apply X; intros [k c] Hk; apply in_numbered in Hk; cbn [fst snd];
    assert (Hkl : (k < length (edges g))%nat) by (apply nth_error_Some; congruence).
  - destruct (Nat.eqb_spec (e_dst c) i) as [D|]; [|reflexivity]. rewrite (Tk k Hkl).
    rewrite (rate_alike m m' i v c) by (eauto using nth_error_In). reflexivity.
  - destruct (Nat.eqb_spec (e_src c) i) as [D|]; [|reflexivity]. rewrite (Sp k Hkl).
    rewrite (rate_alike m m' i v c) by (eauto using nth_error_In). reflexivity.
Qed.
Lemma mod_succ a b P : (0 < P)%nat -> (a mod P = b mod P)%nat -> (S a mod P = S b mod P)%nat.
Proof.
  intros P0 E. replace (S a) with (a + 1)%nat by lia. replace (S b) with (b + 1)%nat by lia.
  rewrite (Nat.add_mod a), (Nat.add_mod b) by lia. rewrite E. reflexivity.
Qed.

Lemma tick_alike m1 m2 m1' : inv g caps m1 -> inv g caps m2 -> alike g m1 m2 -> 0 <= m_count m1 -> 0 <= m_count m2 ->
  tick g 0 0 m1 = Ok (Running m1') ->
  exists m2', tick g 0 0 m2 = Ok (Running m2') /\ alike g m1' m2' /\ same_move m1 m1' m2 m2' /\ 0 <= m_count m1' /\ 0 <= m_count m2'.
Proof.
  intros Hi1 Hi2 Ha C1 C2 T. pose proof Ha as (P & B & A & Qu & Tk & Sp). unfold tick in *. rewrite <- P.
  assert (NE : forall i v, nth_error (vertices g) i = Some v -> (i < length (vertices g))%nat) by (intros i v E; apply nth_error_Some; congruence).
  destruct (m_pc m1) as [i|i|] eqn:Epc.
  - destruct (nth_error (vertices g) i) as [v|] eqn:Ev.
    2:{ injection T as <-. eexists. split; [reflexivity|]. split; [repeat split; auto|]. split; [|auto]. split; [auto|cbn; lra]. }
    assert (Hl := NE i v Ev).
    replace (ready_to_end i (m_state m2)) with (ready_to_end i (m_state m1)) by (unfold ready_to_end; rewrite (Qu i Hl); reflexivity).
    destruct (ready_to_end i (m_state m1)) eqn:R.
    2:{ injection T as <-. eexists. split; [reflexivity|]. split; [repeat split; auto|]. split; [|auto]. split; [auto|cbn; lra]. }
    assert (F : forall m, 0 <= m_count m -> ((i =? 0)%nat && ((if (i =? 0)%nat then m_count m + 1 else m_count m) =? 0)) = false).
    { intros m C. destruct (i =? 0)%nat; [|reflexivity]. cbn. apply Z.eqb_neq. lia. }
    rewrite (F m1 C1) in T. rewrite (F m2 C2).
    unfold exec_end in T |- *. rewrite <- (Qu i Hl). destruct (s_queue (m_state m1) i) as [|[t p] q] eqn:Eq; [discriminate|].
    cbn [bind fst snd] in T |- *. injection T as <-. eexists. split; [reflexivity|].
    split; [|split; [split; [right; right; exists i; split; reflexivity|cbn; lra]|destruct (i =? 0)%nat; cbn; lia]].
    split; [reflexivity|]. cbn [m_actors m_log m_state update_state s_queue s_tokens s_space started]. split; [|split; [|split; [|split]]].
    + intros j Hj. unfold upd. destruct (j =? i)%nat; [reflexivity|auto].
    + exact A.
    + intros j Hj. unfold upd. destruct (j =? i)%nat; [reflexivity|auto].
    + intros k Hk. unfold on_outputs. destruct (nth_error (edges g) k) as [c|]; [|auto]. rewrite (Tk k Hk). reflexivity.
    + intros k Hk. rewrite (inv_bounded g caps m1 Hi1), (inv_bounded g caps m2 Hi2). destruct caps; [|auto].
      unfold on_inputs. destruct (nth_error (edges g) k) as [c|]; [|auto]. rewrite (Sp k Hk). reflexivity.
  - destruct (nth_error (vertices g) i) as [v|] eqn:Ev.
    2:{ injection T as <-. eexists. split; [reflexivity|]. split; [repeat split; auto|]. split; [|auto]. split; [auto|cbn; lra]. }
    assert (Hl := NE i v Ev). rewrite <- (ready_alike m1 m2 i v Hi1 Hi2 Ha Ev).
    destruct (ready g i v (m_actors m1 i) (m_state m1)) eqn:R.
    2:{ injection T as <-. eexists. split; [reflexivity|]. split; [repeat split; auto|]. split; [|auto]. split; [auto|cbn; lra]. }
    unfold exec_start in T |- *.
    assert (Ph : actor_phase v (m_actors m1 i) = actor_phase v (m_actors m2 i)).
    { unfold actor_phase. rewrite (inv_execs g caps m1 Hi1 i v Ev), (inv_execs g caps m2 Hi2 i v Ev).
      rewrite !rem_mod by apply (phases_pos g i v WF Ev). rewrite (A i v Ev). reflexivity. }
    rewrite <- Ph. destruct (vertex_duration v _) as [d| | |]; cbn [bind fst snd] in T |- *; try discriminate. injection T as <-.
    eexists. split; [reflexivity|].
    split; [|split; [split; [right; left; exists i; split; reflexivity|cbn; lra]|auto]].
    split; [reflexivity|]. cbn [m_actors m_log m_state update_state s_queue s_tokens s_space started]. split; [|split; [|split; [|split]]].
    + intros j Hj. unfold upd. destruct (j =? i)%nat; [reflexivity|auto].
    + intros j u Ej. destruct (i =? j)%nat; [|apply A; assumption]. apply mod_succ; [apply (phases_pos g j u WF Ej)|apply A; assumption].
    + intros j Hj. unfold upd. rewrite (Qu i Hl). destruct (j =? i)%nat; [reflexivity|auto].
    + intros k Hk. unfold on_inputs. destruct (nth_error (edges g) k) as [c|] eqn:Ek; [|auto]. rewrite (Tk k Hk).
      destruct (Nat.eqb_spec (e_dst c) i) as [D|]; [|reflexivity]. rewrite (rate_alike m1 m2 i v c) by (eauto using nth_error_In). reflexivity.
    + intros k Hk. rewrite (inv_bounded g caps m1 Hi1), (inv_bounded g caps m2 Hi2). destruct caps eqn:Ecap; [|auto].
      unfold on_outputs. destruct (nth_error (edges g) k) as [c|] eqn:Ek; [|auto]. rewrite (Sp k Hk).
      destruct (Nat.eqb_spec (e_src c) i) as [D|]; [|reflexivity]. rewrite <- Ecap in *. rewrite (rate_alike m1 m2 i v c) by (eauto using nth_error_In). reflexivity.
  - assert (F1 : next_end g (m_state m1) = next_end g (m_state m2)) by (apply next_end_ext; exact Qu).
    assert (Fst : forall s, fst (advance_time g s) = next_end g s).
    { intros s. unfold advance_time. destruct (Qeq_bool (next_end g s) 0); [reflexivity|]. destruct (Qeq_bool (next_end g s) long_max); reflexivity. }
    rewrite !Fst in *. rewrite <- F1. destruct (Qeq_bool (next_end g (m_state m1)) long_max) eqn:Em; [discriminate|].
    match type of T with Ok (Running ?x) = _ => assert (m1' = x) as -> by congruence end. clear T.
    eexists. split; [reflexivity|]. 
    destruct (advance_rest g (m_state m1)) as (B1 & B2 & B3 & B4). destruct (advance_rest g (m_state m2)) as (B1' & B2' & B3' & B4').
    split; [|split; [split; [left; auto|cbn [m_now]; rewrite !Qred_correct; lra]|auto]].
    split; [reflexivity|]. cbn [m_actors m_log m_state]. split; [assumption|]. split; [assumption|]. split; [|split].
    + intros j Hj. unfold advance_time. rewrite <- F1. destruct (Qeq_bool (next_end g (m_state m1)) 0); [auto|]. rewrite Em. cbn [snd s_queue].
      rewrite (Qu j Hj). reflexivity.
    + intros k Hk. rewrite B2, B2'. auto.
    + intros k Hk. rewrite B3, B3'. auto.
Qed.
End Alike.
