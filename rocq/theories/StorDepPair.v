(** The endless execution with the state at the head of each round. *)
From Coq Require Import QArith Qreduction Lqa.
From Verif Require Import Base Graph ScheduleSpec Sim SimSpec SimProofs SimTime SimRecur SimPeriod StorDep StorDepSpec StorDepDead.
Open Scope Z_scope.

Section Pair.
Variables (g : graph) (cap : nat -> Z).
Hypotheses (WF : graph_wf g) (NI : no_init g) (EV : even_self_loops g) (GD : all_guarded g true).
Notation free := (runs_to g 0 0).
Notation m0 := (new_machine g (Some cap)).
Notation V := (length (vertices g)).

(** * Kinds of steps *)
Lemma free_kinds m m' : 0 <= m_count m -> tick g 0 0 m = Ok (Running m') ->
  (exists i v, m_pc m = PEnd i /\ nth_error (vertices g) i = Some v /\ m_pc m' = PEnd i /\
     m_log m' = Ended i (m_now m) :: m_log m /\ m_now m' = m_now m) \/
  (exists i v, m_pc m = PStart i /\ nth_error (vertices g) i = Some v /\ ready g i v (m_actors m i) (m_state m) = true /\
     m_pc m' = PStart i /\ m_log m' = Started i (m_now m) :: m_log m /\ m_now m' = m_now m /\ a_busy (m_actors m' i) = true) \/
  (m_log m' = m_log m /\ m_now m' = m_now m /\ m_actors m' = m_actors m /\
     ((exists i, m_pc m = PEnd i /\ m_pc m' = PEnd (S i)) \/ (exists i, m_pc m = PEnd i /\ m_pc m' = PStart 0) \/
      (exists i, m_pc m = PStart i /\ m_pc m' = PStart (S i)) \/ (exists i, m_pc m = PStart i /\ m_pc m' = PAdvance))) \/
  (m_pc m = PAdvance /\ m_pc m' = PEnd 0 /\ m_log m' = m_log m /\ m_actors m' = m_actors m /\
     s_tokens (m_state m') = s_tokens (m_state m) /\ s_space (m_state m') = s_space (m_state m)).
Proof.
  intros C T. unfold tick in T. destruct (m_pc m) as [i|i|] eqn:Epc.
  - destruct (nth_error (vertices g) i) as [v|] eqn:Ev; [|injection T as <-; right; right; left; cbn; eauto 10].
    destruct (ready_to_end i (m_state m)); [|injection T as <-; right; right; left; cbn; eauto 10].
    assert (F : ((i =? 0)%nat && ((if (i =? 0)%nat then m_count m + 1 else m_count m) =? 0)) = false).
    { destruct (i =? 0)%nat; [|reflexivity]. cbn. apply Z.eqb_neq. lia. }
    rewrite F in T. destruct (exec_end _ _ _ _ _); cbn [bind] in T; try discriminate. injection T as <-. left. exists i, v. cbn. auto.
  - destruct (nth_error (vertices g) i) as [v|] eqn:Ev; [|injection T as <-; right; right; left; cbn; eauto 10].
    destruct (ready g i v (m_actors m i) (m_state m)) eqn:R; [|injection T as <-; right; right; left; cbn; eauto 10].
    destruct (exec_start g i v (m_actors m i) (m_state m)) as [[a' s']| | |] eqn:X; cbn [bind fst snd] in T; try discriminate. injection T as <-.
    right. left. exists i, v. cbn. repeat (split; [auto|]). rewrite upd_same. unfold exec_start in X.
    destruct (vertex_duration _ _); cbn [bind] in X; try discriminate. injection X as <- _. reflexivity.
  - destruct (Qeq_bool _ _); [discriminate|]. match type of T with Ok (Running ?x) = _ => assert (m' = x) as -> by congruence end.
    right. right. right. cbn [m_pc m_log m_actors m_state]. destruct (advance_rest g (m_state m)) as (_ & A & B & _). auto 10.
Qed.
Lemma free_count m : free m0 m -> 0 <= m_count m.
Proof. intros R. apply (runs_count g m0); [cbn; lia|assumption]. Qed.

(** * The head of the round *)
Record pinv (p m : machine) : Prop := mkPinv {
  pi_head : exists q, free m0 q /\ m_pc q = PAdvance /\ tick g 0 0 q = Ok (Running p);
  pi_run : free p m;
  pi_now : m_now m = m_now p;
  pi_log : exists l, m_log m = l ++ m_log p /\ forall i t, In (Ended i t) l -> t = m_now p;
  pi_st : forall i, (i < V)%nat ->
    match m_pc m with
    | PEnd _ => started (m_log m) i = started (m_log p) i
    | PStart j => ((j < i)%nat -> started (m_log m) i = started (m_log p) i) /\
                  (j = i -> a_busy (m_actors m i) = false -> started (m_log m) i = started (m_log p) i)
    | PAdvance => True
    end }.
Definition pstep (x : machine * machine) : option (machine * machine) :=
  match tick g 0 0 (snd x) with
  | Ok (Running m') => Some (match m_pc (snd x) with PAdvance => m' | _ => fst x end, m')
  | _ => None
  end.
Fixpoint pit (n : nat) (x : machine * machine) : option (machine * machine) :=
  match n with O => Some x | S n' => match pstep x with Some y => pit n' y | None => None end end.

Lemma head_free p m : pinv p m -> free m0 p.
Proof. intros [(q & A & _ & B) _ _ _ _]. econstructor; eauto. Qed.
Lemma pinv_free p m : pinv p m -> free m0 m.
Proof. intros H. eapply runs_trans; [eapply head_free; eauto|apply (pi_run _ _ H)]. Qed.
Lemma pinv_new q p : free m0 q -> m_pc q = PAdvance -> tick g 0 0 q = Ok (Running p) -> pinv p p.
Proof.
  intros R A T. split; [eauto|constructor|reflexivity|exists []; split; [reflexivity|intros i t []]|].
  destruct (free_kinds q p (free_count q R) T) as [(i & v & E & _)|[(i & v & E & _)|[(_ & _ & _ & [(i & E & _)|[(i & E & _)|[(i & E & _)|(i & E & _)]]])|(_ & E & _)]]]; try congruence.
  intros i _. rewrite E. reflexivity.
Qed.
Lemma pinv_step p m p' m' : pinv p m -> pstep (p, m) = Some (p', m') -> pinv p' m'.
Proof.
  intros H E. unfold pstep in E. cbn [fst snd] in E. destruct (tick g 0 0 m) as [[m1| |]| | |] eqn:T; try discriminate. injection E as <- <-.
  pose proof (pinv_free p m H) as Fm. destruct H as [Hq Hr Hn Hl Hs].
  assert (Rn : free p m1) by (econstructor; eauto).
  destruct (free_kinds m m1 (free_count m Fm) T) as [(i & v & P & Ev & P' & L & N)|[(i & v & P & Ev & Rd & P' & L & N & B)|[(L & N & A & P)|(P & P' & _)]]].
  - rewrite P in *. split; [assumption|assumption|congruence| |].
    + destruct Hl as (l & El & Hl). exists (Ended i (m_now m) :: l). split; [rewrite L, El; reflexivity|].
      intros j t [[= <- <-]|Hin]; [assumption|eauto].
    + intros j Hj. rewrite P', L. cbn [started]. apply Hs. assumption.
  - rewrite P in *. split; [assumption|assumption|congruence| |].
    + destruct Hl as (l & El & Hl). exists (Started i (m_now m) :: l). split; [rewrite L, El; reflexivity|].
      intros j t [[=]|Hin]. eauto.
    + intros j Hj. rewrite P', L. cbn [started]. destruct (Hs j Hj) as [H1 H2]. split.
      * intros Lt. destruct (Nat.eqb_spec i j) as [->|]; [lia|auto].
      * intros -> B'. congruence.
  - assert (G : pinv p m1).
    { split; [assumption|assumption|congruence| |].
      - rewrite L. assumption.
      - intros j Hj. specialize (Hs j Hj). rewrite L, A.
        destruct P as [(i & P & P')|[(i & P & P')|[(i & P & P')|(i & P & P')]]]; rewrite P in Hs; rewrite P'; auto.
        destruct Hs as [H1 H2]. split; intros; apply H1; lia. }
    destruct P as [(i & P & _)|[(i & P & _)|[(i & P & _)|(i & P & _)]]]; rewrite P; exact G.
  - rewrite P. exact (pinv_new m m1 Fm P T).
Qed.
Lemma pit_add a b x : pit (a + b) x = match pit a x with Some y => pit b y | None => None end.
Proof. revert x. induction a as [|a IH]; intros x; [reflexivity|]. cbn [pit plus]. destruct (pstep x); [apply IH|reflexivity]. Qed.
Lemma pit_pinv n p m p' m' : pinv p m -> pit n (p, m) = Some (p', m') -> pinv p' m'.
Proof.
  revert p m. induction n as [|n IH]; intros p m H; cbn [pit]; [intros [= <- <-]; assumption|].
  destruct (pstep (p, m)) as [[p1 m1]|] eqn:E; [|discriminate]. apply IH. eapply pinv_step; eauto.
Qed.
Lemma pit_runs n p m p' m' : pit n (p, m) = Some (p', m') -> free m m'.
Proof.
  revert p m. induction n as [|n IH]; intros p m; cbn [pit]; [intros [= <- <-]; constructor|].
  destruct (pstep (p, m)) as [[p1 m1]|] eqn:E; [|discriminate]. intros H. apply IH in H. unfold pstep in E. cbn [fst snd] in E.
  destruct (tick g 0 0 m) as [[m2| |]| | |] eqn:T; try discriminate. injection E as _ <-.
  eapply runs_trans; [|exact H]. econstructor; [constructor|exact T].
Qed.
Lemma runs_pit m m' : free m m' -> forall p, exists n p', pit n (p, m) = Some (p', m').
Proof.
  induction 1 as [|m1 m2 R IH T]; intros p; [exists 0%nat, p; reflexivity|]. destruct (IH p) as (n & p1 & E).
  exists (n + 1)%nat. rewrite pit_add, E. cbn [pit]. unfold pstep. cbn [fst snd]. rewrite T. eauto.
Qed.
(** Once time has passed the head of the round does not depend on where one started. *)
Lemma pit_fresh n p q m p' m' : free m0 m -> pit n (p, m) = Some (p', m') -> ~ (m_now m == m_now m')%Q -> pit n (q, m) = Some (p', m') /\ pinv p' m'.
Proof.
  revert p q m. induction n as [|n IH]; intros p q m Fm; cbn [pit]; [intros [= <- <-] H; destruct H; reflexivity|].
  unfold pstep. cbn [fst snd]. destruct (tick g 0 0 m) as [[m1| |]| | |] eqn:T; try discriminate. intros E N.
  assert (F1 : free m0 m1) by (econstructor; eauto).
  destruct (free_kinds m m1 (free_count m Fm) T) as [(i & v & P & _ & _ & _ & En)|[(i & v & P & _ & _ & _ & _ & En & _)|[(_ & En & _ & P)|(P & _)]]].
  - rewrite P in *. eapply IH; eauto. rewrite En. assumption.
  - rewrite P in *. eapply IH; eauto. rewrite En. assumption.
  - destruct P as [(i & P & _)|[(i & P & _)|[(i & P & _)|(i & P & _)]]]; rewrite P in *; eapply IH; eauto; rewrite En; assumption.
  - rewrite P in *. split; [assumption|]. eapply pit_pinv; [|exact E]. exact (pinv_new m m1 Fm P T).
Qed.

(** * Pairs that behave alike *)
Definition alike2 (x y : machine * machine) : Prop := alike g (fst x) (fst y) /\ alike g (snd x) (snd y).
Lemma alike_sym a b : alike g a b -> alike g b a.
Proof.
  intros (A & B & C & D & E & F). split; [auto|]. split; [intros; symmetry; auto|]. split; [intros; symmetry; eauto|].
  split; [intros; symmetry; auto|]. split; intros; symmetry; auto.
Qed.
Lemma alike2_sym x y : alike2 x y -> alike2 y x.
Proof. intros [A B]. split; apply alike_sym; assumption. Qed.
Lemma alike2_trans x y z : alike2 x y -> alike2 y z -> alike2 x z.
Proof. intros [A B] [C D]. split; eapply alike_trans; eauto. Qed.
Lemma pit_alike n x y x' : free m0 (snd x) -> free m0 (snd y) -> alike2 x y -> pit n x = Some x' ->
  exists y', pit n y = Some y' /\ alike2 x' y' /\ (m_now (snd x') - m_now (snd x) == m_now (snd y') - m_now (snd y))%Q.
Proof.
  revert x y. induction n as [|n IH]; intros x y Fx Fy A; cbn [pit]; [intros [= <-]; exists y; split; [reflexivity|split; [assumption|lra]]|].
  destruct (pstep x) as [x1|] eqn:E; [|discriminate]. intros H. unfold pstep in E.
  destruct (tick g 0 0 (snd x)) as [[m1| |]| | |] eqn:T; try discriminate. injection E as <-. destruct A as [Ap Am].
  destruct (tick_alike g (Some cap) WF NI (snd x) (snd y) m1) as (m2 & T2 & A2 & [_ Tm] & _);
    [apply (inv_runs g (Some cap) 0 0 WF NI EV); assumption|apply (inv_runs g (Some cap) 0 0 WF NI EV); assumption|assumption
    |apply free_count; assumption|apply free_count; assumption|assumption|].
  set (y1 := (match m_pc (snd y) with PAdvance => m2 | _ => fst y end, m2)).
  destruct (IH (match m_pc (snd x) with PAdvance => m1 | _ => fst x end, m1) y1) as (y' & E' & A' & N'); auto.
  { exact (runs_step _ _ _ _ _ _ Fx T). } { exact (runs_step _ _ _ _ _ _ Fy T2). }
  { split; cbn [fst snd]; [|assumption]. subst y1. cbn [fst]. destruct Am as (-> & _). destruct (m_pc (snd y)); assumption. }
  exists y'. unfold pstep. rewrite T2. split; [exact E'|]. split; [assumption|]. subst y1. cbn [fst snd] in *. lra.
Qed.
Lemma causal_alike p m p' m' i v : free m0 m -> free m0 m' -> alike2 (p, m) (p', m') -> nth_error (vertices g) i = Some v ->
  causal_deps g i v (m_actors m i) (m_state p) = causal_deps g i v (m_actors m' i) (m_state p').
Proof.
  intros Fm Fm' [Ap Am] Ev. cbn [fst snd] in *.
  pose proof (inv_runs g (Some cap) 0 0 WF NI EV m Fm) as Im. pose proof (inv_runs g (Some cap) 0 0 WF NI EV m' Fm') as Im'.
  assert (X : forall (f h : nat * edge -> bool) l, (forall x, In x l -> f x = h x) -> filter f l = filter h l).
  { clear. induction l as [|x l IH]; intros H; [reflexivity|]. cbn. rewrite (H x) by (left; reflexivity). rewrite IH; [reflexivity|].
    intros y Hy. apply H. right; assumption. }
  unfold causal_deps. f_equal; f_equal; apply X; intros [k c] Hk; apply in_numbered in Hk; cbn [fst snd];
    assert (Hkl : (k < length (edges g))%nat) by (apply nth_error_Some; congruence); destruct Ap as (_ & _ & _ & _ & Tk & Sp).
  - destruct (Nat.eqb_spec (e_dst c) i) as [D|]; [|reflexivity]. rewrite (Tk k Hkl).
    rewrite (rate_alike g (Some cap) WF NI m m' i v c) by (eauto using nth_error_In). reflexivity.
  - destruct (Nat.eqb_spec (e_src c) i) as [D|]; [|reflexivity]. rewrite (Sp k Hkl).
    rewrite (rate_alike g (Some cap) WF NI m m' i v c) by (eauto using nth_error_In). reflexivity.
Qed.

(** What a firing that starts at [m], in the round of [p], waits for is in [d]. *)
Definition start_in (d : depgraph) (p m : machine) : Prop :=
  forall i v, m_pc m = PStart i -> nth_error (vertices g) i = Some v -> ready g i v (m_actors m i) (m_state m) = true ->
    incl (causal_deps g i v (m_actors m i) (m_state p)) d.
Lemma start_in_alike d p m p' m' : free m0 m -> free m0 m' -> alike2 (p, m) (p', m') -> start_in d p m -> start_in d p' m'.
Proof.
  intros Fm Fm' A H i v P Ev R. rewrite <- (causal_alike p m p' m' i v Fm Fm' A Ev). destruct A as [_ Am]. cbn [fst snd] in Am. apply H; auto.
  - destruct Am as (E & _). congruence.
  - rewrite (ready_alike g (Some cap) WF NI m m' i v); auto; apply (inv_runs g (Some cap) 0 0 WF NI EV); assumption.
Qed.

(** * The window that is traced again repeats for ever *)
Section Window.
Variables (fa fb z pb pz : machine) (n1 n2 : nat).
Hypotheses (Fa : free m0 fa) (H1 : pit n1 (fa, fa) = Some (pb, fb)) (A1 : alike g fa fb) (T1 : ~ (m_now fa == m_now fb)%Q)
  (H2 : pit n2 (pb, fb) = Some (pz, z)) (A2 : alike g fb z) (P2 : (0 < n2)%nat).
Lemma Fb : free m0 fb. Proof. eapply runs_trans; [exact Fa|]. eapply pit_runs; eauto. Qed.
Lemma Fz : free m0 z. Proof. eapply runs_trans; [exact Fb|]. eapply pit_runs; eauto. Qed.
Lemma window_alike : alike2 (pb, fb) (pz, z).
Proof.
  pose proof Fb as Fb. pose proof Fz as Fz.
  destruct (pit_alike n1 (fa, fa) (fb, fb) (pb, fb) Fa Fb (conj A1 A1) H1) as ([p1 c1] & E1 & B1 & N1). cbn [fst snd] in N1.
  assert (D1 : ~ (m_now fb == m_now c1)%Q) by (intros E; apply T1; lra).
  destruct (pit_fresh n1 fb pb fb p1 c1 Fb E1 D1) as [E1' _].
  destruct (pit_alike n1 (fb, fb) (z, z) (p1, c1) Fb Fz (conj A2 A2) E1) as ([p2 c2] & E2 & B2 & N2). cbn [fst snd] in N2.
  assert (D2 : ~ (m_now z == m_now c2)%Q) by (intros E; apply D1; lra).
  destruct (pit_fresh n1 z pz z p2 c2 Fz E2 D2) as [E2' _].
  assert (Fc1 : free m0 c1) by (eapply runs_trans; [exact Fb|eapply pit_runs; eauto]).
  destruct (pit_alike n2 (pb, fb) (p1, c1) (pz, z) Fb Fc1 B1 H2) as (y & E3 & B3 & _).
  assert (y = (p2, c2)).
  { assert (X : pit (n1 + n2) (pb, fb) = Some y) by (rewrite pit_add, E1'; assumption).
    rewrite Nat.add_comm, pit_add, H2 in X. congruence. }
  subst y. eapply alike2_trans; [exact B1|]. eapply alike2_trans; [exact B2|]. apply alike2_sym. exact B3.
Qed.
Lemma window_covers d : (forall j p m, (j < n2)%nat -> pit j (pb, fb) = Some (p, m) -> start_in d p m) ->
  forall j p m, pit j (pb, fb) = Some (p, m) -> start_in d p m.
Proof.
  intros H. pose proof Fb as Fb. pose proof Fz as Fz. pose proof window_alike as W.
  intros j. induction j as [j IH] using lt_wf_ind. intros p m E. destruct (Nat.lt_ge_cases j n2) as [L|L]; [eauto|].
  replace j with (n2 + (j - n2))%nat in E by lia. rewrite pit_add, H2 in E.
  destruct (pit_alike (j - n2) (pz, z) (pb, fb) (p, m) Fz Fb (alike2_sym _ _ W) E) as ([p' m'] & E' & A & _).
  apply (start_in_alike d p' m'); [| |apply alike2_sym; assumption|].
  - eapply runs_trans; [exact Fb|eapply pit_runs; eauto].
  - eapply runs_trans; [exact Fz|eapply pit_runs; eauto].
  - apply (IH (j - n2)%nat); [lia|assumption].
Qed.
End Window.

(** * What held a firing back *)
Lemma tight p m i v : pinv p m -> m_pc m = PStart i -> nth_error (vertices g) i = Some v -> ready g i v (m_actors m i) (m_state m) = true ->
  exists x e, (x < V)%nat /\ (e < ended (m_log m) x)%nat /\ nth e (ends (m_log m) x) 0%Q = m_now m /\
    (x = i /\ started (m_log m) i = S e \/
     In (vid g i, vid g x) (causal_deps g i v (m_actors m i) (m_state p)) /\
     lacks g cap (started (m_log m)) (ended (m_log p)) i x /\ e = ended (m_log p) x).
Proof.
  intros H P Ev R. pose proof (head_free p m H) as Fp. pose proof (pinv_free p m H) as Fm.
  destruct H as [(q & Fq & Pq & Tq) Hr Hn (l & El & Hl) Hs].
  destruct (free_kinds q p (free_count q Fq) Tq) as [(j & ? & E & _)|[(j & ? & E & _)|[(_ & _ & _ & [(j & E & _)|[(j & E & _)|[(j & E & _)|(j & E & _)]]])|(_ & Pp & Lp & Ap & Tk & Sp)]]]; try congruence.
  pose proof (inv_runs g (Some cap) 0 0 WF NI EV q Fq) as Iq. pose proof (inv_runs g (Some cap) 0 0 WF NI EV m Fm) as Im.
  pose proof (tinv_runs g (Some cap) 0 0 WF NI EV GD q Fq) as Tiq. pose proof (tinv_runs g (Some cap) 0 0 WF NI EV GD m Fm) as Tim.
  assert (Hi : (i < V)%nat) by (apply nth_error_Some; congruence).
  assert (Bm : a_busy (m_actors m i) = false).
  { destruct (a_busy (m_actors m i)) eqn:B; [|reflexivity]. rewrite (unready_busy g (Some cap) GD i v m Im Ev B) in R. discriminate. }
  assert (Es : started (m_log m) i = started (m_log p) i) by (specialize (Hs i Hi); rewrite P in Hs; apply Hs; auto).
  assert (Ends : forall x, (x < V)%nat -> (ended (m_log p) x < ended (m_log m) x)%nat -> nth (ended (m_log p) x) (ends (m_log m) x) 0%Q = m_now m).
  { intros x Hx L. rewrite Hn. rewrite El in L |- *. rewrite ended_app in L. clear - Hl L.
    assert (Ea : ends (l ++ m_log p) x = ends (m_log p) x ++ ends l x).
    { clear. induction l as [|[j t|j t] l IH]; cbn [app ends]; [rewrite app_nil_r; reflexivity|assumption|].
      destruct (j =? x)%nat; rewrite IH; [rewrite app_assoc; reflexivity|reflexivity]. }
    rewrite Ea, app_nth2; rewrite ends_length; [|lia]. rewrite Nat.sub_diag.
    assert (Hl' : forall t, In t (ends l x) -> t = m_now p).
    { clear L Ea. intros t. induction l as [|[j u|j u] l IH]; cbn [ends]; [intros []| |].
      - apply IH. intros k w Hin. apply (Hl k w). right. assumption.
      - destruct (Nat.eqb_spec j x) as [->|].
        + intros Hin. apply in_app_or in Hin. destruct Hin as [Hin|[<- |[]]].
          * apply IH; [|assumption]. intros k w Hk. apply (Hl k w). right. assumption.
          * apply (Hl x u). left. reflexivity.
        + apply IH. intros k w Hin. apply (Hl k w). right. assumption. }
    apply Hl'. apply nth_In. rewrite ends_length. lia. }
  assert (Nq : ready g i v (m_actors q i) (m_state q) = false).
  { pose proof (t_pc g q Tiq) as X. unfold pc_inv in X. rewrite Pq in X. apply X; assumption. }
  assert (Em : ended (m_log m) i = started (m_log m) i).
  { destruct (ti_queue _ _ _ _ _ _ (t_task g m Tim i v Ev)) as [(_ & _ & Ls)|(B & _)]; [|congruence]. rewrite starts_length, ends_length in Ls. auto. }
  assert (Mono : forall x, (ended (m_log p) x <= ended (m_log m) x)%nat) by (intros x; rewrite El, ended_app; lia).
  assert (Xm : m_actors m i = mkActor (Z.of_nat (started (m_log m) i)) false).
  { rewrite <- (inv_execs g _ m Im i v Ev). destruct (m_actors m i); cbn in *; congruence. }
  destruct (a_busy (m_actors q i)) eqn:Bq.
  - destruct (ti_queue _ _ _ _ _ _ (t_task g q Tiq i v Ev)) as [(B & _)|(_ & r & pp & _ & _ & _ & Ls & _)]; [congruence|].
    rewrite starts_length, ends_length, <- Lp in Ls. exists i, (ended (m_log p) i). split; [assumption|]. split; [lia|]. split; [apply Ends; [assumption|lia]|].
    left. split; [reflexivity|lia].
  - assert (Xq : m_actors q i = mkActor (Z.of_nat (started (m_log p) i)) false).
    { rewrite Lp, <- (inv_execs g _ q Iq i v Ev). destruct (m_actors q i); cbn in *; congruence. }
    destruct (unready_dep g cap q i v Iq Ev Bq Nq) as [(k & c & Ek & D & L)|(k & c & Ek & D & L)]; pose proof (nth_error_In _ _ Ek) as Hc;
      destruct (edge_in_range g k c WF Ek) as [Hsr Hds].
    + assert (Rt : current_rate v i (m_actors q i) c = cons_rate c (started (m_log m) i)).
      { rewrite Xq, <- Es. apply (current_dst g i v c WF NI EV Ev Hc). assumption. }
      assert (Rm : current_rate v i (m_actors m i) c = cons_rate c (started (m_log m) i)).
      { rewrite Xm. apply (current_dst g i v c WF NI EV Ev Hc). assumption. }
      destruct (ready_tokens g i v _ _ k c R Ek D) as [Ge _]. rewrite Rm in Ge. rewrite Rt in L.
      rewrite (inv_tokens g _ q Iq k c Ek), D, <- Lp in L. rewrite (inv_tokens g _ m Im k c Ek), D in Ge. rewrite <- Es in L.
      assert (Lt : (ended (m_log p) (e_src c) < ended (m_log m) (e_src c))%nat).
      { specialize (Mono (e_src c)). destruct (Nat.eq_dec (ended (m_log p) (e_src c)) (ended (m_log m) (e_src c))) as [E|]; [rewrite E in L; lia|lia]. }
      exists (e_src c), (ended (m_log p) (e_src c)). split; [assumption|]. split; [assumption|]. split; [apply Ends; assumption|]. right. split; [|split; [|reflexivity]].
      * unfold causal_deps. apply in_or_app. left. apply in_map_iff. exists (k, c). cbn [fst snd]. split; [rewrite D; reflexivity|].
        apply filter_In. split; [apply in_numbered; assumption|]. cbn [fst snd]. rewrite D, Nat.eqb_refl. cbn [andb]. apply Z.ltb_lt.
        rewrite Tk, (inv_tokens g _ q Iq k c Ek), D, <- Lp, Rm, <- Es. assumption.
      * left. exists k, c. do 3 (split; [auto|]). cbn [sumf]. lia.
    + assert (Rt : current_rate v i (m_actors q i) c = prod_rate c (started (m_log m) i)).
      { rewrite Xq, <- Es. apply (current_src g i v c WF NI Ev Hc). assumption. }
      assert (Rm : current_rate v i (m_actors m i) c = prod_rate c (started (m_log m) i)).
      { rewrite Xm. apply (current_src g i v c WF NI Ev Hc). assumption. }
      destruct (ready_space g i v _ _ k c R) as [Ge _]; [rewrite (inv_bounded g _ m Im); reflexivity|assumption|assumption|]. rewrite Rm in Ge. rewrite Rt in L.
      rewrite (inv_space g _ q Iq cap k c eq_refl Ek), D, <- Lp in L. rewrite (inv_space g _ m Im cap k c eq_refl Ek), D in Ge. rewrite <- Es in L.
      assert (Lt : (ended (m_log p) (e_dst c) < ended (m_log m) (e_dst c))%nat).
      { specialize (Mono (e_dst c)). destruct (Nat.eq_dec (ended (m_log p) (e_dst c)) (ended (m_log m) (e_dst c))) as [E|]; [rewrite E in L; lia|lia]. }
      exists (e_dst c), (ended (m_log p) (e_dst c)). split; [assumption|]. split; [assumption|]. split; [apply Ends; assumption|]. right. split; [|split; [|reflexivity]].
      * unfold causal_deps. apply in_or_app. right. apply in_map_iff. exists (k, c). cbn [fst snd]. split; [rewrite D; reflexivity|].
        apply filter_In. split; [apply in_numbered; assumption|]. cbn [fst snd]. rewrite D, Nat.eqb_refl. cbn [andb]. apply Z.ltb_lt.
        rewrite Sp, (inv_space g _ q Iq cap k c eq_refl Ek), D, <- Lp, Rm, <- Es. assumption.
      * right. exists k, c. do 3 (split; [auto|]). cbn [sumf]. lia.
Qed.

(** * The step at which an execution starts *)
Lemma pit_starts n p m p' m' i k : free m0 m -> pit n (p, m) = Some (p', m') -> (started (m_log m) i <= k < started (m_log m') i)%nat ->
  exists j p1 m1 m2, (j < n)%nat /\ pit j (p, m) = Some (p1, m1) /\ m_pc m1 = PStart i /\ tick g 0 0 m1 = Ok (Running m2) /\ m_log m2 = Started i (m_now m1) :: m_log m1 /\
    started (m_log m1) i = k /\ exists v, nth_error (vertices g) i = Some v /\ ready g i v (m_actors m1 i) (m_state m1) = true.
Proof.
  revert p m. induction n as [|n IH]; intros p m Fm; cbn [pit]; [intros [= <- <-]; lia|].
  destruct (pstep (p, m)) as [[p1 m1]|] eqn:E; [|discriminate]. intros H L. pose proof E as E0. unfold pstep in E. cbn [fst snd] in E.
  destruct (tick g 0 0 m) as [[m2| |]| | |] eqn:T; try discriminate. injection E as _ <-.
  assert (F2 : free m0 m2) by (econstructor; eauto).
  assert (Next : (started (m_log m2) i <= k)%nat -> exists j p1 m1 m2, (j < S n)%nat /\ pit j (p, m) = Some (p1, m1) /\ m_pc m1 = PStart i /\ tick g 0 0 m1 = Ok (Running m2) /\
    m_log m2 = Started i (m_now m1) :: m_log m1 /\ started (m_log m1) i = k /\ exists v, nth_error (vertices g) i = Some v /\ ready g i v (m_actors m1 i) (m_state m1) = true).
  { intros Le. destruct (IH p1 m2 F2 H (conj Le (proj2 L))) as (j & q1 & x1 & x2 & X0 & X1 & X2). exists (S j), q1, x1, x2. split; [lia|]. split; [|assumption]. cbn [pit]. rewrite E0. assumption. }
  destruct (free_kinds m m2 (free_count m Fm) T) as [(i' & v & P & Ev & P' & Lg & N)|[(i' & v & P & Ev & Rd & P' & Lg & N & B)|[(Lg & N & A & P)|(P & P' & Lg & _)]]].
  - apply Next. rewrite Lg. cbn. lia.
  - destruct (Nat.eq_dec i' i) as [->|Ne].
    + destruct (Nat.eq_dec (started (m_log m) i) k) as [Ek|].
      * exists 0%nat, p, m, m2. split; [lia|]. split; [reflexivity|]. repeat (split; [assumption|]). exists v. auto.
      * apply Next. rewrite Lg. cbn. rewrite Nat.eqb_refl. lia.
    + apply Next. rewrite Lg. cbn. destruct (Nat.eqb_spec i' i); [contradiction|lia].
  - apply Next. rewrite Lg. lia.
  - apply Next. rewrite Lg. lia.
Qed.
End Pair.
