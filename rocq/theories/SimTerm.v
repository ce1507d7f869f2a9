(** The simulation ends. *)
From Coq Require Import QArith Qreduction Lqa Qround.
From Verif Require Import Base Graph ScheduleSpec RepVec RepVecSpec RepVecProofs RepVecFinal RepVecProps KIterSpec
  Sim SimSpec SimProofs SimTime SimAsap SimRecur SimPeriod SimOptimal SimFinal.
Open Scope Z_scope.

(** * Every step makes progress *)
Section Progress.
Variables (g : graph) (w : nat) (rep : Z).
Notation V := (length (vertices g)).

Definition pc_ok (m : machine) : Prop := match m_pc m with PEnd i | PStart i => (i <= V)%nat | PAdvance => True end.
Definition position (m : machine) : nat := match m_pc m with PEnd i => i | PStart i => V + 1 + i | PAdvance => 2 * V + 2 end.
Definition waiting (m : machine) : bool :=
  match m_pc m with PEnd i => existsb (fun j => (i <=? j)%nat && ready_to_end j (m_state m)) (seq 0 V) | _ => false end.
Definition potential (m : machine) : nat :=
  2 * (2 * V + 3) * length (m_log m) + position m + (if waiting m then 2 * V + 3 else 0).

Lemma potential_le m : pc_ok m -> (potential m <= 2 * (2 * V + 3) * (length (m_log m) + 1))%nat.
Proof.
  intros H. unfold potential, position, pc_ok in *. destruct (m_pc m) as [i|i|] eqn:E; destruct (waiting m); nia.
Qed.

Lemma advance_ready s : Qeq_bool (fst (advance_time g s)) long_max = false ->
  exists j, (j < V)%nat /\ ready_to_end j (snd (advance_time g s)) = true.
Proof.
  intros H. destruct (next_end_spec g s) as (_ & _ & [N|(i & Hi & Fi)]).
  - unfold advance_time in H. rewrite N in H. discriminate.
  - exists i. split; [exact Hi|]. unfold advance_time in *. unfold front in Fi. destruct (s_queue s i) as [|[t p] q] eqn:Q; [discriminate|]. injection Fi as Fi.
    destruct (Qeq_bool (next_end g s) 0) eqn:Z0.
    + cbn [snd]. unfold ready_to_end. rewrite Q, Fi. exact Z0.
    + destruct (Qeq_bool (next_end g s) long_max) eqn:Em; [cbn [fst] in H; congruence|]. cbn [snd]. unfold ready_to_end. cbn [s_queue]. rewrite Q. cbn [map fst].
      apply Qeq_bool_iff. rewrite Qred_correct, Fi. ring.
Qed.

Lemma tick_potential m m' : pc_ok m -> tick g w rep m = Ok (Running m') -> pc_ok m' /\ (potential m < potential m')%nat.
Proof.
  intros P T. unfold tick in T. unfold pc_ok, potential, position, waiting in *. destruct (m_pc m) as [i|i|].
  - destruct (nth_error (vertices g) i) as [v|] eqn:Ev.
    + assert (Hi : (i < V)%nat) by (apply nth_error_Some; congruence).
      destruct (ready_to_end i (m_state m)) eqn:Re.
      * set (full := ((i =? w)%nat && ((if (i =? w)%nat then m_count m + 1 else m_count m) =? rep))) in *.
        destruct (if full then from_repeated g (m_visited m) (m_state m) else []); [|discriminate].
        destruct (exec_end _ _ _ _ _); cbn [bind] in T; try discriminate. injection T as <-. cbn [m_pc m_log length]. split; [exact P|].
        destruct (existsb _ _), (existsb _ _); nia.
      * injection T as <-. cbn [m_pc m_log m_state]. split; [lia|].
        assert (E : existsb (fun j => (i <=? j)%nat && ready_to_end j (m_state m)) (seq 0 V) = true -> existsb (fun j => (S i <=? j)%nat && ready_to_end j (m_state m)) (seq 0 V) = true).
        { rewrite !existsb_exists. intros (j & Hj & Rj). exists j. split; [exact Hj|]. apply andb_true_iff in Rj. destruct Rj as [R1 R2]. rewrite R2, andb_true_r.
          apply Nat.leb_le in R1. apply Nat.leb_le. destruct (Nat.eq_dec i j) as [->|]; [congruence|lia]. }
        destruct (existsb (fun j => (i <=? j)%nat && _) _); [rewrite (E eq_refl); lia|]. destruct (existsb _ _); lia.
    + apply nth_error_None in Ev. injection T as <-. cbn [m_pc m_log m_state]. split; [lia|].
      assert (E : existsb (fun j => (i <=? j)%nat && ready_to_end j (m_state m)) (seq 0 V) = false).
      { apply not_true_is_false. rewrite existsb_exists. intros (j & Hj & Rj). apply in_seq in Hj. apply andb_true_iff in Rj. destruct Rj as [R1 _]. apply Nat.leb_le in R1. lia. }
      rewrite E. lia.
  - destruct (nth_error (vertices g) i) as [v|] eqn:Ev.
    + assert (Hi : (i < V)%nat) by (apply nth_error_Some; congruence).
      destruct (ready _ _ _ _ _).
      * destruct (exec_start _ _ _ _ _); cbn [bind] in T; try discriminate. injection T as <-. cbn [m_pc m_log length]. split; [exact P|nia].
      * injection T as <-. cbn [m_pc m_log m_state]. lia.
    + injection T as <-. cbn [m_pc m_log m_state]. lia.
  - destruct (Qeq_bool (fst (advance_time g (m_state m))) long_max) eqn:Em; [discriminate|].
    match type of T with Ok (Running ?x) = _ => assert (m' = x) as -> by congruence end. clear T.
    cbn [m_pc m_log m_state]. split; [lia|]. destruct (advance_ready _ Em) as (j & Hj & Rj).
    rewrite (proj2 (existsb_exists _ _)); [lia|]. exists j. split; [apply in_seq; lia|]. rewrite Rj. reflexivity.
Qed.

Lemma pc_ok_runs m m' : pc_ok m -> runs_to g w rep m m' -> pc_ok m'.
Proof. intros P. induction 1 as [|a b R IH T]; [exact P|]. exact (proj1 (tick_potential _ _ IH T)). Qed.

Lemma run_long n : forall m, pc_ok m ->
  (forall m', runs_to g w rep m m' -> exists a, tick g w rep m' = Ok a) ->
  (exists a, run n g w rep m = Ok a) \/ exists m', runs_to g w rep m m' /\ (potential m + n <= potential m')%nat.
Proof.
  induction n as [|n IH]; intros m P TK.
  - right. exists m. split; [constructor|lia].
  - cbn [run]. destruct (TK m (runs_refl _ _ _ _)) as [a Ta]. rewrite Ta. cbn [bind]. destruct a as [m1|k t|]; [|left; eauto|left; eauto].
    destruct (tick_potential m m1 P Ta) as [P1 L]. assert (R1 : runs_to g w rep m m1) by exact (runs_step _ _ _ _ _ _ (runs_refl _ _ _ _) Ta).
    destruct (IH m1 P1) as [E|(m' & R & Q)].
    + intros m' R. apply TK. exact (runs_trans _ _ _ _ _ _ R1 R).
    + left. exact E.
    + right. exists m'. split; [exact (runs_trans _ _ _ _ _ _ R1 R)|lia].
Qed.
End Progress.

(** * No step is undefined *)
Lemma tick_defined g caps w rep m : graph_wf g -> no_init g -> even_self_loops g ->
  all_guarded g (match caps with Some _ => true | None => false end) -> runs_to g w rep (new_machine g caps) m -> exists a, tick g w rep m = Ok a.
Proof.
  intros WF NI EV GD R. pose proof (inv_runs g caps w rep WF NI EV m R) as I. pose proof (tinv_runs g caps w rep WF NI EV GD m R) as Ht.
  unfold tick. destruct (m_pc m) as [i|i|].
  - destruct (nth_error (vertices g) i) as [v|] eqn:Ev; [|eauto]. destruct (ready_to_end i (m_state m)) eqn:Re; [|eauto].
    set (full := ((i =? w)%nat && ((if (i =? w)%nat then m_count m + 1 else m_count m) =? rep))).
    destruct (if full then from_repeated g (m_visited m) (m_state m) else []); [|eauto].
    unfold ready_to_end in Re. unfold exec_end. assert (Q : s_queue (if full then mkState (s_queue (m_state m)) (s_phase (m_state m)) (s_tokens (m_state m)) (s_space (m_state m)) 0 (s_bounded (m_state m)) else m_state m) i = s_queue (m_state m) i) by (destruct full; reflexivity).
    rewrite Q. destruct (s_queue (m_state m) i) as [|[t p] q]; [discriminate|]. cbn [bind]. eauto.
  - destruct (nth_error (vertices g) i) as [v|] eqn:Ev; [|eauto]. destruct (ready _ _ _ _ _); [|eauto].
    unfold exec_start, actor_phase. rewrite (inv_execs g caps m I i v Ev).
    pose proof (phases_pos g i v WF Ev). rewrite Z.rem_mod_nonneg by lia. rewrite <- Nat2Z.inj_mod. rewrite (duration_at g WF NI i v _ Ev). cbn [bind]. eauto.
  - destruct (Qeq_bool _ _); eauto.
Qed.

(** * Totals over cycles *)
Lemma cyclic_band per n : (0 < length per)%nat -> (forall x, In x per -> 0 <= x) ->
  (inject_Z (Z.of_nat n) * inject_Z (sumZ per) / inject_Z (Z.of_nat (length per)) - inject_Z (sumZ per) <= inject_Z (sumf (cyclic 0%Z [] per) n))%Q /\
  (inject_Z (sumf (cyclic 0%Z [] per) n) <= inject_Z (Z.of_nat n) * inject_Z (sumZ per) / inject_Z (Z.of_nat (length per)) + inject_Z (sumZ per))%Q.
Proof.
  intros HP HX. set (P := length per) in *. set (S := sumZ per).
  assert (Nn : forall k, 0 <= cyclic 0%Z [] per k) by (intros k; apply HX; apply (KPeriodicProofs.cyclic_in 0 [] per k HP)).
  pose proof (Nat.div_mod n P ltac:(lia)) as E. pose proof (Nat.mod_upper_bound n P ltac:(lia)) as Ub.
  set (q := (n / P)%nat) in *. set (r := (n mod P)%nat) in *.
  assert (En : sumf (cyclic 0%Z [] per) n = sumf (cyclic 0%Z [] per) r + Z.of_nat q * S).
  { pose proof (KPeriodicProofs.cyclic_sum [] per r q HP ltac:(cbn; lia)) as X. fold P S in X. rewrite <- X. f_equal. lia. }
  assert (S0 : sumf (cyclic 0%Z [] per) P = S).
  { pose proof (KPeriodicProofs.cyclic_sum [] per 0 1 HP ltac:(cbn; lia)) as X. fold P in X. rewrite Nat.add_0_l, Nat.mul_1_l in X. cbn [sumf] in X. fold S in X. lia. }
  assert (R1 : 0 <= sumf (cyclic 0%Z [] per) r <= S).
  { split; [apply sumf_nonneg; exact Nn|]. rewrite <- S0. apply sumf_mono; [exact Nn|lia]. }
  rewrite En. assert (PQ : (0 < inject_Z (Z.of_nat P))%Q) by (change 0%Q with (inject_Z 0); rewrite <- Zlt_Qlt; lia).
  assert (Dn : (inject_Z (Z.of_nat n) * inject_Z S / inject_Z (Z.of_nat P) == inject_Z (Z.of_nat q) * inject_Z S + inject_Z (Z.of_nat r) * inject_Z S / inject_Z (Z.of_nat P))%Q).
  { rewrite E at 1. rewrite Nat2Z.inj_add, Nat2Z.inj_mul, inject_Z_plus, inject_Z_mult. field. lra. }
  assert (Fr : (0 <= inject_Z (Z.of_nat r) * inject_Z S / inject_Z (Z.of_nat P) <= inject_Z S)%Q).
  { assert (Sq : (0 <= inject_Z S)%Q) by (change 0%Q with (inject_Z 0); rewrite <- Zle_Qle; lia).
    assert (R0 : (0 <= inject_Z (Z.of_nat r))%Q) by (change 0%Q with (inject_Z 0); rewrite <- Zle_Qle; lia).
    assert (Rp : (inject_Z (Z.of_nat r) <= inject_Z (Z.of_nat P))%Q) by (rewrite <- Zle_Qle; lia).
    split; [apply Qle_shift_div_l; [exact PQ|nra]|apply Qle_shift_div_r; [exact PQ|nra]]. }
  rewrite inject_Z_plus, inject_Z_mult.
  assert (R2 : (0 <= inject_Z (sumf (cyclic 0%Z [] per) r) <= inject_Z S)%Q) by (change 0%Q with (inject_Z 0); rewrite <- !Zle_Qle; exact R1).
  rewrite Dn. split; lra.
Qed.

(** A bound for each of finitely many families is a bound for all. *)
Lemma uniform {A} (R : A -> Prop) (f : A -> nat -> Q) n : (forall k, (k < n)%nat -> exists B, forall a, R a -> (f a k <= B)%Q) ->
  exists B, (0 <= B)%Q /\ forall k a, (k < n)%nat -> R a -> (f a k <= B)%Q.
Proof.
  induction n as [|n IH]; intros H; [exists 0%Q; split; [lra|lia]|].
  destruct IH as (B & B0 & HB); [intros k Hk; apply H; lia|]. destruct (H n ltac:(lia)) as (B' & HB').
  exists (if Qle_bool B B' then B' else B)%Q. destruct (Qle_bool B B') eqn:E.
  - apply Qle_bool_iff in E. split; [lra|]. intros k a Hk Ra. destruct (Nat.eq_dec k n) as [->|]; [auto|]. specialize (HB k a ltac:(lia) Ra). lra.
  - assert (B' < B)%Q by (apply Qnot_le_lt; intros X; apply Qle_bool_iff in X; congruence). split; [exact B0|].
    intros k a Hk Ra. destruct (Nat.eq_dec k n) as [->|]; [specialize (HB' a Ra); lra|]. apply HB; [lia|exact Ra].
Qed.

(** * Bounds on every reachable state *)
Section Bounds.
Variables (g : graph) (caps : option (nat -> Z)) (w : nat) (rep : Z) (N : nat -> Z).
Hypotheses (WF : graph_wf g) (NI : no_init g) (EV : even_self_loops g)
  (GD : all_guarded g (match caps with Some _ => true | None => false end))
  (NP : forall i, (i < length (vertices g))%nat -> 0 < N i) (BA : balanced g N).
Notation V := (length (vertices g)).
Notation rec := (runs_to g w rep).
Notation m0 := (new_machine g caps).

(** Iterations done by a task. *)
Definition done (m : machine) (i : nat) : Q := (inject_Z (Z.of_nat (started (m_log m) i)) / inject_Z (N i))%Q.
Definition rho (c : edge) : Q := (inject_Z (N (e_src c)) * inject_Z (sumZ (e_in c)) / inject_Z (Z.of_nat (length (e_in c))))%Q.

Lemma NQ i : (i < V)%nat -> (0 < inject_Z (N i))%Q.
Proof. intros Hi. change 0%Q with (inject_Z 0). rewrite <- Zlt_Qlt. auto. Qed.
Lemma chan c : In c (edges g) -> (e_src c < V)%nat /\ (e_dst c < V)%nat /\ (0 < length (e_in c))%nat /\ (0 < length (e_out c))%nat /\
  (forall x, In x (e_in c) -> 0 <= x) /\ (forall x, In x (e_out c) -> 0 <= x) /\ 0 < sumZ (e_in c) /\ 0 < sumZ (e_out c) /\ e_in_init c = [] /\ e_out_init c = [] /\ 0 <= e_preload c.
Proof.
  intros Hc. destruct WF as (A & B & _). destruct (B c Hc) as (vs & vd & E1 & E2 & L1 & L2 & L3 & L4 & X & S1 & S2 & Pr).
  pose proof (nth_error_In _ _ E1) as H1. pose proof (nth_error_In _ _ E2) as H2. destruct (A vs H1) as (P1 & _). destruct (A vd H2) as (P2 & _).
  rewrite (NI vs H1) in L3. rewrite (NI vd H2) in L4. 
  split; [apply nth_error_Some; congruence|]. split; [apply nth_error_Some; congruence|]. split; [lia|]. split; [lia|].
  split; [intros x Hx; apply X; rewrite !in_app_iff; auto|]. split; [intros x Hx; apply X; rewrite !in_app_iff; auto|].
  split; [exact S1|]. split; [exact S2|]. split; [destruct (e_in_init c); [reflexivity|discriminate]|]. split; [destruct (e_out_init c); [reflexivity|discriminate]|exact Pr].
Qed.
Lemma rho_pos c : In c (edges g) -> (0 < rho c)%Q.
Proof.
  intros Hc. destruct (chan c Hc) as (Hs & _ & L1 & _ & _ & _ & S1 & _). unfold rho.
  assert (0 < inject_Z (Z.of_nat (length (e_in c))))%Q by (change 0%Q with (inject_Z 0); rewrite <- Zlt_Qlt; lia).
  assert (0 < inject_Z (sumZ (e_in c)))%Q by (change 0%Q with (inject_Z 0); rewrite <- Zlt_Qlt; lia).
  pose proof (NQ _ Hs). apply Qlt_shift_div_l; [assumption|]. nra.
Qed.
Lemma rho_dst c : In c (edges g) -> (rho c == inject_Z (N (e_dst c)) * inject_Z (sumZ (e_out c)) / inject_Z (Z.of_nat (length (e_out c))))%Q.
Proof.
  intros Hc. destruct (chan c Hc) as (_ & _ & L1 & L2 & _). specialize (BA c Hc). unfold rho.
  assert (0 < inject_Z (Z.of_nat (length (e_in c))))%Q by (change 0%Q with (inject_Z 0); rewrite <- Zlt_Qlt; lia).
  assert (0 < inject_Z (Z.of_nat (length (e_out c))))%Q by (change 0%Q with (inject_Z 0); rewrite <- Zlt_Qlt; lia).
  assert (B2 : (inject_Z (sumZ (e_in c)) * inject_Z (N (e_src c)) * inject_Z (Z.of_nat (length (e_out c))) == inject_Z (sumZ (e_out c)) * inject_Z (N (e_dst c)) * inject_Z (Z.of_nat (length (e_in c))))%Q).
  { rewrite <- !inject_Z_mult, BA. reflexivity. }
  apply (Qmult_inj_r _ _ (inject_Z (Z.of_nat (length (e_in c))) * inject_Z (Z.of_nat (length (e_out c))))%Q); [nra|].
  transitivity (inject_Z (sumZ (e_in c)) * inject_Z (N (e_src c)) * inject_Z (Z.of_nat (length (e_out c))))%Q; [field; lra|]. rewrite B2. field. lra.
Qed.
(** Tokens moved by the started executions, against iterations done. *)
Lemma prod_band c m : In c (edges g) ->
  (done m (e_src c) * rho c - inject_Z (sumZ (e_in c)) <= inject_Z (sumf (prod_rate c) (started (m_log m) (e_src c))))%Q /\
  (inject_Z (sumf (prod_rate c) (started (m_log m) (e_src c))) <= done m (e_src c) * rho c + inject_Z (sumZ (e_in c)))%Q.
Proof.
  intros Hc. destruct (chan c Hc) as (Hs & Hd & L1 & L2 & X1 & X2 & S1 & S2 & I1 & I2 & _). unfold prod_rate. rewrite I1.
  pose proof (cyclic_band (e_in c) (started (m_log m) (e_src c)) L1 X1) as B. pose proof (NQ _ Hs).
  assert (0 < inject_Z (Z.of_nat (length (e_in c))))%Q by (change 0%Q with (inject_Z 0); rewrite <- Zlt_Qlt; lia).
  assert (E : (done m (e_src c) * rho c == inject_Z (Z.of_nat (started (m_log m) (e_src c))) * inject_Z (sumZ (e_in c)) / inject_Z (Z.of_nat (length (e_in c))))%Q)
    by (unfold done, rho; field; lra).
  rewrite E. exact B.
Qed.
Lemma cons_band c m : In c (edges g) ->
  (done m (e_dst c) * rho c - inject_Z (sumZ (e_out c)) <= inject_Z (sumf (cons_rate c) (started (m_log m) (e_dst c))))%Q /\
  (inject_Z (sumf (cons_rate c) (started (m_log m) (e_dst c))) <= done m (e_dst c) * rho c + inject_Z (sumZ (e_out c)))%Q.
Proof.
  intros Hc. destruct (chan c Hc) as (Hs & Hd & L1 & L2 & X1 & X2 & S1 & S2 & I1 & I2 & _). unfold cons_rate. rewrite I2.
  pose proof (cyclic_band (e_out c) (started (m_log m) (e_dst c)) L2 X2) as B. pose proof (NQ _ Hd).
  assert (0 < inject_Z (Z.of_nat (length (e_out c))))%Q by (change 0%Q with (inject_Z 0); rewrite <- Zlt_Qlt; lia).
  assert (E : (done m (e_dst c) * rho c == inject_Z (Z.of_nat (started (m_log m) (e_dst c))) * inject_Z (sumZ (e_out c)) / inject_Z (Z.of_nat (length (e_out c))))%Q)
    by (rewrite (rho_dst c Hc); unfold done; field; lra).
  rewrite E. exact B.
Qed.

Lemma ended_le m i : rec m0 m -> (i < V)%nat -> (ended (m_log m) i <= started (m_log m) i <= S (ended (m_log m) i))%nat.
Proof.
  intros R Hi. destruct (nth_error (vertices g) i) as [v|] eqn:Ev; [|apply nth_error_None in Ev; lia].
  pose proof (ti_queue _ _ _ _ _ _ (t_task g m (tinv_runs g caps w rep WF NI EV GD m R) i v Ev)) as Q. rewrite !starts_length, !ends_length in Q.
  destruct Q as [(_ & _ & E)|(_ & r & p & _ & _ & _ & E & _)]; lia.
Qed.

(** The consumer is never far ahead of the producer. *)
Lemma lead_fwd c : In c (edges g) -> exists A, forall m, rec m0 m -> (done m (e_dst c) <= done m (e_src c) + A)%Q.
Proof.
  intros Hc. destruct (chan c Hc) as (Hs & Hd & _ & _ & X1 & X2 & _). pose proof (rho_pos c Hc) as RP.
  exists ((inject_Z (e_preload c) + inject_Z (sumZ (e_in c)) + inject_Z (sumZ (e_out c))) / rho c)%Q. intros m R.
  destruct (In_nth_error _ _ Hc) as [k Ek]. pose proof (inv_runs g caps w rep WF NI EV m R) as I.
  pose proof (inv_tokens g caps m I k c Ek) as Tk. pose proof (inv_tokens_pos g caps m I k c Ek) as Tp.
  assert (Mo : sumf (prod_rate c) (ended (m_log m) (e_src c)) <= sumf (prod_rate c) (started (m_log m) (e_src c))).
  { apply sumf_mono; [intros n; exact (prod_nonneg g c n WF Hc)|]. apply (ended_le m _ R Hs). }
  assert (L : sumf (cons_rate c) (started (m_log m) (e_dst c)) <= e_preload c + sumf (prod_rate c) (started (m_log m) (e_src c))) by lia.
  rewrite Zle_Qle, inject_Z_plus in L. pose proof (prod_band c m Hc). pose proof (cons_band c m Hc).
  assert (Y : (done m (e_dst c) * rho c <= done m (e_src c) * rho c + (inject_Z (e_preload c) + inject_Z (sumZ (e_in c)) + inject_Z (sumZ (e_out c))))%Q) by lra.
  apply (Qmult_le_r _ _ (rho c) RP).
  setoid_replace ((done m (e_src c) + (inject_Z (e_preload c) + inject_Z (sumZ (e_in c)) + inject_Z (sumZ (e_out c))) / rho c) * rho c)%Q
    with (done m (e_src c) * rho c + (inject_Z (e_preload c) + inject_Z (sumZ (e_in c)) + inject_Z (sumZ (e_out c))))%Q by (field; lra). exact Y.
Qed.
(** With capacities, nor is the producer ahead of the consumer. *)
Lemma lead_bwd c cap : caps = Some cap -> capacities_ok g caps -> In c (edges g) -> exists A, forall m, rec m0 m -> (done m (e_src c) <= done m (e_dst c) + A)%Q.
Proof.
  intros Ec CO Hc. destruct (chan c Hc) as (Hs & Hd & _ & _ & X1 & X2 & _). pose proof (rho_pos c Hc) as RP. destruct (In_nth_error _ _ Hc) as [k Ek].
  exists ((inject_Z (cap k - e_preload c) + inject_Z (sumZ (e_in c)) + inject_Z (sumZ (e_out c))) / rho c)%Q. intros m R.
  pose proof (inv_runs g caps w rep WF NI EV m R) as I.
  pose proof (inv_space g caps m I cap k c Ec Ek) as Tk. assert (Tp := inv_space_pos g caps m I CO ltac:(congruence) k c Ek).
  assert (Mo : sumf (cons_rate c) (ended (m_log m) (e_dst c)) <= sumf (cons_rate c) (started (m_log m) (e_dst c))).
  { apply sumf_mono; [intros n; exact (cons_nonneg g c n WF Hc)|]. apply (ended_le m _ R Hd). }
  assert (L : sumf (prod_rate c) (started (m_log m) (e_src c)) <= (cap k - e_preload c) + sumf (cons_rate c) (started (m_log m) (e_dst c))) by lia.
  rewrite Zle_Qle, inject_Z_plus in L. pose proof (prod_band c m Hc). pose proof (cons_band c m Hc).
  assert (Y : (done m (e_src c) * rho c <= done m (e_dst c) * rho c + (inject_Z (cap k - e_preload c) + inject_Z (sumZ (e_in c)) + inject_Z (sumZ (e_out c))))%Q) by lra.
  apply (Qmult_le_r _ _ (rho c) RP).
  setoid_replace ((done m (e_dst c) + (inject_Z (cap k - e_preload c) + inject_Z (sumZ (e_in c)) + inject_Z (sumZ (e_out c))) / rho c) * rho c)%Q
    with (done m (e_dst c) * rho c + (inject_Z (cap k - e_preload c) + inject_Z (sumZ (e_in c)) + inject_Z (sumZ (e_out c))))%Q by (field; lra). exact Y.
Qed.
Lemma done_nonneg m i : (i < V)%nat -> (0 <= done m i)%Q.
Proof.
  intros Hi. unfold done. pose proof (NQ i Hi). apply Qle_shift_div_l; [assumption|]. rewrite Qmult_0_l. change 0%Q with (inject_Z 0). rewrite <- Zle_Qle. lia.
Qed.

(** ** How time passes *)
Lemma tick_kinds m m' : pc_ok g m -> tick g w rep m = Ok (Running m') ->
  (m_log m' = m_log m /\ m_now m' = m_now m /\ (waiting g m = true -> waiting g m' = true)) \/
  (exists i, (i < V)%nat /\ m_log m' = Ended i (m_now m) :: m_log m /\ m_now m' = m_now m) \/
  (exists i, (i < V)%nat /\ m_log m' = Started i (m_now m) :: m_log m /\ m_now m' = m_now m /\ waiting g m = false) \/
  (m_log m' = m_log m /\ waiting g m = false /\ waiting g m' = true /\
     exists i r p q, (i < V)%nat /\ s_queue (m_state m) i = (r, p) :: q /\ (m_now m' == m_now m + r)%Q).
Proof.
  intros P T. unfold tick in T. unfold pc_ok, waiting in *. destruct (m_pc m) as [i|i|].
  - destruct (nth_error (vertices g) i) as [v|] eqn:Ev.
    + assert (Hi : (i < V)%nat) by (apply nth_error_Some; congruence).
      destruct (ready_to_end i (m_state m)) eqn:Re.
      * set (full := ((i =? w)%nat && ((if (i =? w)%nat then m_count m + 1 else m_count m) =? rep))) in *.
        destruct (if full then from_repeated g (m_visited m) (m_state m) else []); [|discriminate].
        destruct (exec_end _ _ _ _ _); cbn [bind] in T; try discriminate. injection T as <-. right. left. exists i. auto.
      * injection T as <-. left. cbn [m_pc m_log m_now m_state]. split; [reflexivity|]. split; [reflexivity|].
        rewrite !existsb_exists. intros (j & Hj & Rj). exists j. split; [exact Hj|]. apply andb_true_iff in Rj. destruct Rj as [R1 R2]. rewrite R2, andb_true_r.
        apply Nat.leb_le in R1. apply Nat.leb_le. destruct (Nat.eq_dec i j) as [->|]; [congruence|lia].
    + apply nth_error_None in Ev. injection T as <-. left. cbn [m_pc m_log m_now m_state]. split; [reflexivity|]. split; [reflexivity|].
      rewrite existsb_exists. intros (j & Hj & Rj). apply in_seq in Hj. apply andb_true_iff in Rj. destruct Rj as [R1 _]. apply Nat.leb_le in R1. lia.
  - destruct (nth_error (vertices g) i) as [v|] eqn:Ev.
    + assert (Hi : (i < V)%nat) by (apply nth_error_Some; congruence).
      destruct (ready _ _ _ _ _).
      * destruct (exec_start _ _ _ _ _); cbn [bind] in T; try discriminate. injection T as <-. right. right. left. exists i. auto.
      * injection T as <-. left. auto.
    + injection T as <-. left. auto.
  - destruct (Qeq_bool (fst (advance_time g (m_state m))) long_max) eqn:Em; [discriminate|].
    match type of T with Ok (Running ?x) = _ => assert (m' = x) as -> by congruence end. clear T.
    right. right. right. cbn [m_pc m_log m_now m_state]. split; [reflexivity|]. split; [reflexivity|].
    destruct (advance_ready g _ Em) as (j & Hj & Rj). split.
    { apply existsb_exists. exists j. split; [apply in_seq; lia|]. rewrite Rj. reflexivity. }
    assert (Fst : fst (advance_time g (m_state m)) = next_end g (m_state m)).
    { unfold advance_time. destruct (Qeq_bool (next_end g (m_state m)) 0); [reflexivity|].
      destruct (Qeq_bool (next_end g (m_state m)) long_max); reflexivity. }
    rewrite Fst in *. destruct (next_end_spec g (m_state m)) as (_ & _ & [Nx|(i & Hi & Fi)]); [rewrite Nx in Em; discriminate|].
    unfold front in Fi. destruct (s_queue (m_state m) i) as [|[r p] q] eqn:Q; [discriminate|]. injection Fi as Fi. exists i, r, p, q.
    split; [exact Hi|]. split; [exact Q|]. rewrite Qred_correct, Fi. reflexivity.
Qed.

Definition total (m : machine) : Z := sumf (fun i => Z.of_nat (ended (m_log m) i)) V.
Lemma sumf_bump f f' n i : (i < n)%nat -> (forall j, (j < n)%nat -> f' j = f j + (if (j =? i)%nat then 1 else 0)) -> sumf f' n = sumf f n + 1.
Proof.
  assert (A : forall n, (n <= i)%nat -> (forall j, (j < n)%nat -> f' j = f j + (if (j =? i)%nat then 1 else 0)) -> sumf f' n = sumf f n).
  { clear. induction n as [|n IH]; intros L H; [reflexivity|]. cbn [sumf]. rewrite IH, (H n) by (auto with arith || lia). destruct (Nat.eqb_spec n i); lia. }
  induction n as [|n IH]; intros Hi H; [lia|]. cbn [sumf]. rewrite (H n) by lia. destruct (Nat.eqb_spec n i) as [->|].
  - rewrite A by (auto with arith || lia). lia.
  - rewrite IH by (auto with arith || lia). lia.
Qed.
Lemma total_ended m m' i t : (i < V)%nat -> m_log m' = Ended i t :: m_log m -> total m' = total m + 1.
Proof.
  intros Hi E. unfold total. apply (sumf_bump _ _ V i Hi). intros j Hj. rewrite E. cbn [ended]. rewrite (Nat.eqb_sym i j). destruct (j =? i)%nat; lia.
Qed.
Lemma total_started m m' i t : m_log m' = Started i t :: m_log m -> total m' = total m.
Proof. intros E. unfold total. apply sumf_ext. intros j Hj. rewrite E. reflexivity. Qed.

Lemma longest : exists D, (0 <= D)%Q /\ forall v d, In v (vertices g) -> In d (v_durations v) -> (d <= D)%Q.
Proof.
  destruct (uniform (fun _ : unit => True) (fun _ k => nth k (flat_map v_durations (vertices g)) 0%Q) (length (flat_map v_durations (vertices g)))) as (D & D0 & H).
  { intros k _. eexists. intros _ _. apply Qle_refl. }
  exists D. split; [exact D0|]. intros v d Hv Hd. assert (I : In d (flat_map v_durations (vertices g))) by (apply in_flat_map; eauto).
  destruct (In_nth _ _ 0%Q I) as (k & Hk & E). rewrite <- E. apply (H k tt Hk Logic.I).
Qed.
Lemma duration_in v n : In v (vertices g) -> In (exec_duration v n) (v_durations v).
Proof.
  intros Hv. destruct WF as (A & _). destruct (A v Hv) as (P & Ld & Li & _). unfold exec_duration, cyclic. rewrite Li, (NI v Hv).
  change (n <? 0)%nat with false. cbv iota. apply nth_In. rewrite Ld. apply Nat.mod_upper_bound. lia.
Qed.
Lemma remaining m i r p q : rec m0 m -> (i < V)%nat -> s_queue (m_state m) i = (r, p) :: q ->
  q = [] /\ (0 <= r)%Q /\ exists v, nth_error (vertices g) i = Some v /\ (r <= exec_duration v (ended (m_log m) i))%Q /\ p = Z.of_nat (ended (m_log m) i mod v_phases v) + 1.
Proof.
  intros R Hi Q. destruct (nth_error (vertices g) i) as [v|] eqn:Ev; [|apply nth_error_None in Ev; lia].
  pose proof (t_task g m (tinv_runs g caps w rep WF NI EV GD m R) i v Ev) as TI.
  destruct (ti_queue _ _ _ _ _ _ TI) as [(_ & Qe & _)|(_ & r' & p' & Qe & R0 & _ & L & D & Pp)]; rewrite Qe in Q; [discriminate|]. injection Q as <- <- <-.
  split; [reflexivity|]. split; [exact R0|]. exists v. split; [reflexivity|]. rewrite ends_length in *. split; [|exact Pp].
  assert (St : (nth (ended (m_log m) i) (starts (m_log m) i) 0 <= m_now m)%Q) by (apply (ti_past _ _ _ _ _ _ TI), nth_In; lia). lra.
Qed.

Lemma new_pc_ok : pc_ok g m0.
Proof. cbn. lia. Qed.
Lemma elapse D a b : (0 <= D)%Q -> (forall v d, In v (vertices g) -> In d (v_durations v) -> (d <= D)%Q) -> rec m0 a -> rec a b ->
  (m_now b - m_now a <= D * (inject_Z (total b - total a) + (if waiting g b then 1 else 0)))%Q.
Proof.
  intros D0 HD Ra. induction 1 as [|m m' R IH T].
  - rewrite Z.sub_diag. change (inject_Z 0) with 0%Q. destruct (waiting g a); nra.
  - assert (Rm : rec m0 m) by exact (runs_trans _ _ _ _ _ _ Ra R).
    destruct (tick_kinds m m' (pc_ok_runs g w rep _ _ new_pc_ok Rm) T) as [(L & Nw & W)|[(i & Hi & L & Nw)|[(i & Hi & L & Nw & W)|(L & W & W' & i & r & p & q & Hi & Q & Nw)]]].
    + assert (E : total m' = total m) by (unfold total; rewrite L; reflexivity). rewrite E, Nw. destruct (waiting g m); [rewrite (W eq_refl); exact IH|]. destruct (waiting g m'); nra.
    + rewrite (total_ended m m' i _ Hi L), Nw. replace (total m + 1 - total a) with (total m - total a + 1) by lia. rewrite inject_Z_plus. change (inject_Z 1) with 1%Q.
      destruct (waiting g m), (waiting g m'); nra.
    + rewrite (total_started m m' i _ L), Nw. rewrite W in IH. destruct (waiting g m'); nra.
    + assert (E : total m' = total m) by (unfold total; rewrite L; reflexivity). rewrite E, Nw, W'. rewrite W in IH.
      destruct (remaining m i r p q Rm Hi Q) as (_ & _ & v & Ev & Le & _). pose proof (nth_error_In _ _ Ev) as Hv. pose proof (HD v _ Hv (duration_in v (ended (m_log m) i) Hv)). nra.
Qed.

(** ** Every task keeps up *)
Variables (A : Q).
Hypotheses (LD : forall m i j, rec m0 m -> (i < V)%nat -> (j < V)%nat -> (done m i <= done m j + A)%Q)
  (Lw : (w < V)%nat) (Rw : N w = rep).

Lemma counts_mono a b i : rec a b -> (started (m_log a) i <= started (m_log b) i)%nat /\ (ended (m_log a) i <= ended (m_log b) i)%nat.
Proof. intros R. destruct (runs_log g w rep a b R) as [l E]. rewrite E, started_app, ended_app. lia. Qed.
Lemma done_started m i : (i < V)%nat -> (inject_Z (Z.of_nat (started (m_log m) i)) == inject_Z (N i) * done m i)%Q.
Proof. intros Hi. pose proof (NQ i Hi). unfold done. field. lra. Qed.

(** Between two moments at most [rep] firings of the reference task apart, little happens. *)
Lemma close_total a b : rec m0 a -> rec a b -> Z.of_nat (ended (m_log b) w) <= Z.of_nat (ended (m_log a) w) + rep ->
  (inject_Z (total b - total a) <= inject_Z (sumf N V) * (2 * A + 2) + inject_Z (Z.of_nat V))%Q.
Proof.
  intros Ra Rab Cw. assert (Rb : rec m0 b) by exact (runs_trans _ _ _ _ _ _ Ra Rab).
  assert (NW : (0 < inject_Z rep)%Q) by (rewrite <- Rw; apply NQ; exact Lw). assert (R1 : 1 <= rep) by (rewrite <- Rw; specialize (NP w Lw); lia).
  assert (Dw : (done b w <= done a w + 2)%Q).
  { pose proof (ended_le b w Rb Lw). pose proof (ended_le a w Ra Lw). 
    assert (X : Z.of_nat (started (m_log b) w) <= Z.of_nat (started (m_log a) w) + 2 * rep) by lia.
    rewrite Zle_Qle, inject_Z_plus, inject_Z_mult, (done_started b w Lw), (done_started a w Lw), Rw in X. change (inject_Z 2) with 2%Q in X.
    apply (Qmult_le_l _ _ (inject_Z rep) NW). lra. }
  assert (P : forall n, (n <= V)%nat -> (inject_Z (sumf (fun i => Z.of_nat (ended (m_log b) i)) n) - inject_Z (sumf (fun i => Z.of_nat (ended (m_log a) i)) n) <=
             inject_Z (sumf N n) * (2 * A + 2) + inject_Z (Z.of_nat n))%Q).
  { induction n as [|n IH]; intros Hn; [cbn [sumf]; change (inject_Z (Z.of_nat 0)) with 0%Q; change (inject_Z 0) with 0%Q; lra|]. cbn [sumf]. rewrite Nat2Z.inj_succ. unfold Z.succ. rewrite !inject_Z_plus. change (inject_Z 1) with 1%Q.
    assert (Hi : (n < V)%nat) by lia. pose proof (ended_le b n Rb Hi) as Eb. pose proof (ended_le a n Ra Hi) as Ea.
    assert (X : (inject_Z (Z.of_nat (ended (m_log b) n)) - inject_Z (Z.of_nat (ended (m_log a) n)) <= inject_Z (N n) * (2 * A + 2) + 1)%Q).
    { assert (Y1 : (inject_Z (Z.of_nat (ended (m_log b) n)) <= inject_Z (Z.of_nat (started (m_log b) n)))%Q) by (rewrite <- Zle_Qle; lia).
      assert (Y2 : (inject_Z (Z.of_nat (started (m_log a) n)) <= inject_Z (Z.of_nat (ended (m_log a) n)) + 1)%Q) by (change 1%Q with (inject_Z 1); rewrite <- inject_Z_plus, <- Zle_Qle; lia).
      rewrite (done_started b n Hi) in Y1. rewrite (done_started a n Hi) in Y2.
      assert (Z1 : (done b n <= done b w + A)%Q) by (apply LD; auto). assert (Z2 : (done a w <= done a n + A)%Q) by (apply LD; auto). pose proof (NQ n Hi). nra. }
    specialize (IH ltac:(lia)). lra. }
  specialize (P V (le_n _)). unfold total. unfold Z.sub. rewrite inject_Z_plus, inject_Z_opp. lra.
Qed.
Lemma close_time : exists B, forall a b, rec m0 a -> rec a b -> Z.of_nat (ended (m_log b) w) <= Z.of_nat (ended (m_log a) w) + rep -> (m_now b - m_now a <= B)%Q.
Proof.
  destruct longest as (D & D0 & HD). exists (D * (inject_Z (sumf N V) * (2 * A + 2) + inject_Z (Z.of_nat V) + 1))%Q.
  intros a b Ra Rab Cw. pose proof (elapse D a b D0 HD Ra Rab) as E. pose proof (close_total a b Ra Rab Cw) as C.
  assert (F : ((if waiting g b then 1 else 0) <= 1)%Q) by (destruct (waiting g b); lra). nra.
Qed.

(** ** Finitely many states *)
Lemma tokens_bound c k : nth_error (edges g) k = Some c -> exists B, forall m, rec m0 m -> (inject_Z (s_tokens (m_state m) k) <= B)%Q.
Proof.
  intros Ek. pose proof (nth_error_In _ _ Ek) as Hc. destruct (chan c Hc) as (Hs & Hd & _). pose proof (rho_pos c Hc) as RP.
  exists (inject_Z (e_preload c) + inject_Z (sumZ (e_in c)) + inject_Z (sumZ (e_out c)) + A * rho c)%Q. intros m R.
  pose proof (inv_runs g caps w rep WF NI EV m R) as I. rewrite (inv_tokens g caps m I k c Ek).
  assert (Mo : sumf (prod_rate c) (ended (m_log m) (e_src c)) <= sumf (prod_rate c) (started (m_log m) (e_src c))).
  { apply sumf_mono; [intros n; exact (prod_nonneg g c n WF Hc)|]. apply (ended_le m _ R Hs). }
  rewrite Zle_Qle in Mo. unfold Z.sub. rewrite !inject_Z_plus, inject_Z_opp. pose proof (prod_band c m Hc). pose proof (cons_band c m Hc).
  pose proof (LD m _ _ R Hs Hd). nra.
Qed.

Definition whole (D : positive) (q : Q) : Prop := exists z, (q * inject_Z (Zpos D) == inject_Z z)%Q.
Lemma whole_ext D p q : (p == q)%Q -> whole D p -> whole D q.
Proof. intros E [z H]. exists z. rewrite <- E. exact H. Qed.
Lemma whole_plus D p q : whole D p -> whole D q -> whole D (p + q).
Proof. intros [a H1] [b H2]. exists (a + b). rewrite inject_Z_plus. lra. Qed.
Lemma whole_minus D p q : whole D p -> whole D q -> whole D (p - q).
Proof. intros [a H1] [b H2]. exists (a - b). unfold Z.sub. rewrite inject_Z_plus, inject_Z_opp. lra. Qed.
Lemma denominators l : exists D, forall d, In d l -> whole D d.
Proof.
  induction l as [|d l [D IH]]; [exists 1%positive; intros d []|]. exists (Qden d * D)%positive. intros e [<-|He].
  - exists (Qnum d * Zpos D). rewrite Pos2Z.inj_mul, !inject_Z_mult. 
    assert (E : (d * inject_Z (Zpos (Qden d)) == inject_Z (Qnum d))%Q) by (destruct d as [n dd]; unfold Qeq; cbn; lia). rewrite Qmult_assoc, E. reflexivity.
  - destruct (IH e He) as [z H]. exists (z * Zpos (Qden d)). rewrite Pos2Z.inj_mul, !inject_Z_mult. rewrite <- H. ring.
Qed.

Section Coded.
Variable D : positive.
Hypothesis HD : forall v d, In v (vertices g) -> In d (v_durations v) -> whole D d.

Lemma whole_runs m : rec m0 m -> whole D (s_time (m_state m)) /\ forall i r p, (i < V)%nat -> In (r, p) (s_queue (m_state m) i) -> whole D r.
Proof.
  induction 1 as [|m m' R [IT IQ] T].
  - cbn. split; [exists 0; reflexivity|contradiction].
  - pose proof (inv_runs g caps w rep WF NI EV m R) as I. unfold tick in T. destruct (m_pc m) as [i|i|].
    + destruct (nth_error (vertices g) i) as [v|] eqn:Ev; [|injection T as <-; auto].
      destruct (ready_to_end i (m_state m)) eqn:Re; [|injection T as <-; auto].
      set (full := ((i =? w)%nat && ((if (i =? w)%nat then m_count m + 1 else m_count m) =? rep))) in *.
      destruct (if full then from_repeated g (m_visited m) (m_state m) else []); [|discriminate].
      match type of T with context [exec_end g i v (m_actors m i) ?s1] => set (s1' := s1) in * end.
      assert (S1 : whole D (s_time s1') /\ s_queue s1' = s_queue (m_state m)).
      { subst s1'. destruct full; cbn; split; auto. exists 0. reflexivity. }
      destruct (exec_end g i v (m_actors m i) s1') as [[a' s']| | |] eqn:X; cbn [bind] in T; try discriminate. injection T as <-.
      destruct (exec_end_fields g i v _ _ _ _ X) as (t & p & q & Eq & -> & Eq' & Et & Eb). cbn [m_state snd update_state s_time s_queue].
      rewrite Et, Eq'. destruct S1 as [S1 S2]. split; [exact S1|]. intros j r p' Hj. unfold upd. rewrite S2 in *. destruct (Nat.eqb_spec j i) as [->|]; [|apply IQ; exact Hj].
      intros Hin. apply (IQ i r p' Hj). rewrite Eq. right. exact Hin.
    + destruct (nth_error (vertices g) i) as [v|] eqn:Ev; [|injection T as <-; auto].
      destruct (ready _ _ _ _ _); [|injection T as <-; auto].
      destruct (exec_start g i v (m_actors m i) (m_state m)) as [[a' s']| | |] eqn:X; cbn [bind] in T; try discriminate. injection T as <-.
      destruct (exec_start_fields g i v _ _ _ _ X) as (d & Ed & -> & Eq' & Et & _). cbn [m_state snd update_state s_time s_queue]. rewrite Et, Eq'. split; [exact IT|].
      intros j r p Hj. unfold upd. destruct (Nat.eqb_spec j i) as [->|]; [|apply IQ; exact Hj]. intros Hin. apply in_app_iff in Hin. destruct Hin as [Hin|[[= <- _]|[]]]; [exact (IQ i r p Hj Hin)|].
      unfold actor_phase in Ed. rewrite (inv_execs g caps m I i v Ev) in Ed. pose proof (phases_pos g i v WF Ev). rewrite Z.rem_mod_nonneg in Ed by lia. rewrite <- Nat2Z.inj_mod in Ed.
      rewrite (duration_at g WF NI i v _ Ev) in Ed. injection Ed as <-. pose proof (nth_error_In _ _ Ev) as Hv.
      apply (whole_ext D (exec_duration v (started (m_log m) i))); [symmetry; apply Qred_correct|]. exact (HD v _ Hv (duration_in v _ Hv)).
    + destruct (Qeq_bool (fst (advance_time g (m_state m))) long_max) eqn:Em; [discriminate|].
      match type of T with Ok (Running ?x) = _ => assert (m' = x) as -> by congruence end. clear T. cbn [m_state].
      assert (W : Qeq_bool (next_end g (m_state m)) long_max = false -> whole D (next_end g (m_state m))).
      { intros X. destruct (next_end_spec g (m_state m)) as (_ & _ & [Nx|(i & Hi & Fi)]); [rewrite Nx in X; discriminate|].
        unfold front in Fi. destruct (s_queue (m_state m) i) as [|[r p] q] eqn:Q; [discriminate|]. injection Fi as Fi. rewrite <- Fi. apply (IQ i r p Hi). rewrite Q. left. reflexivity. }
      unfold advance_time in *. destruct (Qeq_bool (next_end g (m_state m)) 0); [cbn [snd]; auto|].
      destruct (Qeq_bool (next_end g (m_state m)) long_max) eqn:Em'; [cbn [fst] in Em; congruence|]. specialize (W eq_refl). cbn [snd s_time s_queue]. split.
      * eapply whole_ext; [symmetry; apply Qred_correct|]. apply whole_plus; assumption.
      * intros i r p Hi Hin. apply in_map_iff in Hin. destruct Hin as ([r' p'] & E & Hin). pose proof (f_equal fst E) as E1. cbn [fst] in E1. rewrite <- E1.
        eapply whole_ext; [symmetry; apply Qred_correct|]. apply whole_minus; [exact (IQ i r' p' Hi Hin)|exact W].
Qed.

Definition qcode (q : Q) : Z := Qfloor (q * inject_Z (Zpos D)).
Lemma qcode_inj p q : whole D p -> whole D q -> qcode p = qcode q -> (p == q)%Q.
Proof.
  intros [a Ha] [b Hb] E. unfold qcode in E. rewrite Ha, Hb, !Qfloor_Z in E. subst b. rewrite <- Hb in Ha.
  apply (Qmult_inj_r _ _ (inject_Z (Zpos D))); [|exact Ha]. intros X. unfold Qeq in X. cbn in X. lia.
Qed.
Lemma qcode_range p B : (0 <= p <= B)%Q -> 0 <= qcode p <= qcode B.
Proof.
  intros [H1 H2]. assert (P : (0 < inject_Z (Zpos D))%Q) by reflexivity. unfold qcode. split.
  - change 0 with (Qfloor 0). apply Qfloor_resp_le. nra.
  - apply Qfloor_resp_le. nra.
Qed.
Definition code (s : state) : list Z :=
  qcode (s_time s) :: map (s_phase s) (seq 0 V) ++ map (s_tokens s) (seq 0 (length (edges g))) ++
  map (fun i => match s_queue s i with [] => 0 | (r, _) :: _ => qcode r + 1 end) (seq 0 V) ++
  map (fun i => match s_queue s i with [] => 0 | (_, p) :: _ => p end) (seq 0 V).
Lemma app_split {X} (a a' b b' : list X) : length a = length a' -> a ++ b = a' ++ b' -> a = a' /\ b = b'.
Proof.
  revert a'. induction a as [|x a IH]; intros [|y a']; cbn; try discriminate; [auto|]. intros [= L] [= -> E]. destruct (IH a' L E) as [-> ->]. auto.
Qed.
Lemma code_inj a b : rec m0 a -> rec m0 b -> code (m_state a) = code (m_state b) -> state_eq g (m_state a) (m_state b) = true.
Proof.
  intros Ra Rb E. unfold code in E. injection E as E0 E. destruct (whole_runs a Ra) as [Wa Qa]. destruct (whole_runs b Rb) as [Wb Qb].
  apply app_split in E; [|rewrite !map_length; reflexivity]. destruct E as [E1 E]. apply app_split in E; [|rewrite !map_length; reflexivity]. destruct E as [E2 E].
  apply app_split in E; [|rewrite !map_length; reflexivity]. destruct E as [E3 E4]. pose proof (proj1 map_ext_in_iff E1) as M1. pose proof (proj1 map_ext_in_iff E2) as M2. pose proof (proj1 map_ext_in_iff E3) as M3. pose proof (proj1 map_ext_in_iff E4) as M4. clear E1 E2 E3 E4. rename M1 into E1, M2 into E2, M3 into E3, M4 into E4.
  unfold state_eq. rewrite !andb_true_iff, !forallb_forall. split; [split; [split|]|].
  - apply Qeq_bool_iff. apply qcode_inj; assumption.
  - intros i Hi. apply Z.eqb_eq. auto.
  - intros i Hi. apply Z.eqb_eq. auto.
  - intros i Hi. specialize (E3 i Hi). specialize (E4 i Hi). cbv beta in E3, E4. apply in_seq in Hi. specialize (Qa i). specialize (Qb i).
    destruct (s_queue (m_state a) i) as [|[r p] q] eqn:A1, (s_queue (m_state b) i) as [|[r' p'] q'] eqn:B1; [reflexivity| | |].
    + destruct (remaining b i _ _ _ Rb ltac:(lia) B1) as (_ & R0 & _). pose proof (qcode_range r' r' (conj R0 (Qle_refl _))). lia.
    + destruct (remaining a i _ _ _ Ra ltac:(lia) A1) as (_ & R0 & _). pose proof (qcode_range r r (conj R0 (Qle_refl _))). lia.
    + destruct (remaining a i _ _ _ Ra ltac:(lia) A1) as (-> & _). destruct (remaining b i _ _ _ Rb ltac:(lia) B1) as (-> & _). subst p'. cbn. rewrite Z.eqb_refl, !andb_true_r.
      apply Qeq_bool_iff. apply qcode_inj; [apply (Qa r p); [lia|left; reflexivity]|apply (Qb r' p); [lia|left; reflexivity]|lia].
Qed.

(** The recorded states are pairwise different. *)
Lemma from_repeated_none l s : from_repeated g l s = [] -> forall x, In x l -> state_eq g x s = false.
Proof. induction l as [|y l IH]; cbn; [contradiction|]. destruct (state_eq g y s) eqn:E; [discriminate|]. intros H x [<-|Hx]; auto. Qed.
Lemma visited_distinct m : rec m0 m -> ForallOrdPairs (fun a b => state_eq g a b = false) (m_visited m).
Proof.
  induction 1 as [|m m' R IH T]; [constructor|]. unfold tick in T. destruct (m_pc m) as [i|i|].
  - destruct (nth_error (vertices g) i) as [v|] eqn:Ev; [|injection T as <-; exact IH].
    destruct (ready_to_end i (m_state m)) eqn:Re; [|injection T as <-; exact IH].
    set (full := ((i =? w)%nat && ((if (i =? w)%nat then m_count m + 1 else m_count m) =? rep))) in *.
    destruct (if full then from_repeated g (m_visited m) (m_state m) else []) eqn:F; [|discriminate].
    destruct (exec_end _ _ _ _ _); cbn [bind] in T; try discriminate. injection T as <-. cbn [m_visited]. destruct full; [|exact IH].
    pose proof (from_repeated_none _ _ F) as N0. clear -IH N0. induction (m_visited m) as [|x l IHl]; cbn; [repeat constructor|].
    inversion IH as [|? ? H1 H2]; subst. constructor; [|apply IHl; [exact H2|intros y Hy; apply N0; right; exact Hy]].
    apply Forall_app. split; [exact H1|]. constructor; [|constructor]. apply N0. left. reflexivity.
  - destruct (nth_error (vertices g) i) as [v|] eqn:Ev; [|injection T as <-; exact IH].
    destruct (ready _ _ _ _ _); [|injection T as <-; exact IH].
    destruct (exec_start _ _ _ _ _); cbn [bind] in T; try discriminate. injection T as <-. exact IH.
  - destruct (Qeq_bool _ _); [discriminate|].
    match type of T with Ok (Running ?x) = _ => assert (m' = x) as -> by congruence end. exact IH.
Qed.

(** The recorded times are bounded. *)
Lemma visit_time : 0 < rep -> exists B, forall m vs v, rec m0 m -> vis g caps w rep m vs -> In v vs -> (0 <= s_time (m_state v) <= B)%Q.
Proof.
  intros RP. destruct close_time as [B HB]. exists B. intros m vs v R Vs Hv.
  destruct (v_path _ _ _ _ _ _ Vs v Hv) as [Rv _]. split; [apply (t_time g v (tinv_runs g caps w rep WF NI EV GD v Rv))|].
  destruct (in_split _ _ Hv) as (p & q & E). destruct (v_times _ _ _ _ _ _ Vs) as [Tm _]. rewrite E in Tm. rewrite times_app in Tm. destruct Tm as [_ [Tm _]].
  assert (Ev : nth_error vs (length p) = Some v) by (rewrite E, nth_error_app2, Nat.sub_diag by lia; reflexivity).
  destruct (v_pcs _ _ _ _ _ _ Vs _ _ Ev) as [_ Cv].
  destruct (rev p) as [|u p'] eqn:Rp.
  - assert (p = []) as -> by (rewrite <- (rev_involutive p), Rp; reflexivity). cbn [last_now length] in *.
    specialize (HB m0 v ltac:(constructor) Rv). cbn [m_log new_machine ended m_now] in HB. specialize (HB ltac:(lia)). lra.
  - assert (Ep : p = rev p' ++ [u]) by (rewrite <- (rev_involutive p), Rp; reflexivity).
    rewrite Ep, last_now_app in Tm. cbn [last_now] in Tm.
    assert (Hu : In u vs) by (rewrite E, Ep, !in_app_iff; cbn; auto). destruct (v_path _ _ _ _ _ _ Vs u Hu) as [Ru _].
    assert (Eu : nth_error vs (length (rev p')) = Some u) by (rewrite E, Ep, <- app_assoc, nth_error_app2, Nat.sub_diag by lia; reflexivity).
    destruct (v_pcs _ _ _ _ _ _ Vs _ _ Eu) as [_ Cu].
    assert (Lp : length p = S (length (rev p'))) by (rewrite Ep, app_length; cbn; lia). rewrite Lp in Cv.
    assert (Ruv : rec u v).
    { destruct (runs_linear g w rep m0 u v Ru Rv) as [X|X]; [exact X|exfalso]. destruct (counts_mono v u w X) as [_ X2]. lia. }
    specialize (HB u v Ru Ruv ltac:(lia)). lra.
Qed.

Fixpoint all_lists (n B : nat) : list (list Z) :=
  match n with O => [[]] | S n => flat_map (fun l => map (fun z => Z.of_nat z :: l) (seq 0 (S B))) (all_lists n B) end.
Lemma in_all_lists B l : Forall (fun z => 0 <= z <= Z.of_nat B) l -> In l (all_lists (length l) B).
Proof.
  induction 1 as [|z l H F IH]; [left; reflexivity|]. cbn [length all_lists]. apply in_flat_map. exists l. split; [exact IH|].
  apply in_map_iff. exists (Z.to_nat z). split; [rewrite Z2Nat.id by lia; reflexivity|]. apply in_seq. lia.
Qed.
Lemma code_length s : length (code s) = S (V + (length (edges g) + (V + V))).
Proof. unfold code. cbn [length]. rewrite !app_length, !map_length, !seq_length. reflexivity. Qed.

Lemma code_bound : 0 < rep -> exists B, forall m vs v, rec m0 m -> vis g caps w rep m vs -> In v vs -> Forall (fun z => 0 <= z <= Z.of_nat B) (code (m_state v)).
Proof.
  intros RP. destruct (visit_time RP) as [Bt HBt]. destruct longest as (Dm & D0 & HDm).
  assert (Tk : exists B, (0 <= B)%Q /\ forall k m, (k < length (edges g))%nat -> rec m0 m -> (inject_Z (s_tokens (m_state m) k) <= B)%Q).
  { apply (uniform (fun m => rec m0 m) (fun m k => inject_Z (s_tokens (m_state m) k))). intros k Hk.
    destruct (nth_error (edges g) k) as [c|] eqn:Ek; [|apply nth_error_None in Ek; lia]. exact (tokens_bound c k Ek). }
  assert (Ph : exists B, (0 <= B)%Q /\ forall i (u : unit), (i < V)%nat -> True -> (match nth_error (vertices g) i with Some v => inject_Z (Z.of_nat (v_phases v)) | None => 0%Q end <= B)%Q).
  { apply (uniform (fun _ : unit => True) (fun _ i => match nth_error (vertices g) i with Some v => inject_Z (Z.of_nat (v_phases v)) | None => 0%Q end)).
    intros k _. eexists. intros _ _. apply Qle_refl. }
  destruct Tk as (Bk & Bk0 & HBk). destruct Ph as (Bp & Bp0 & HBp).
  assert (PH : forall i v, nth_error (vertices g) i = Some v -> Z.of_nat (v_phases v) <= Qfloor Bp).
  { intros i v Ev. assert (Hi : (i < V)%nat) by (apply nth_error_Some; congruence). specialize (HBp i tt Hi Logic.I). rewrite Ev in HBp.
    rewrite <- (Qfloor_Z (Z.of_nat (v_phases v))). apply Qfloor_resp_le. exact HBp. }
  assert (F0 : 0 <= Qfloor Bp /\ 0 <= Qfloor Bk /\ 0 <= qcode Dm).
  { split; [change 0 with (Qfloor 0); apply Qfloor_resp_le; exact Bp0|]. split; [change 0 with (Qfloor 0); apply Qfloor_resp_le; exact Bk0|]. apply (qcode_range Dm Dm). split; [exact D0|apply Qle_refl]. }
  exists (Z.to_nat (Z.max 0 (qcode Bt) + qcode Dm + 1 + Qfloor Bp + Qfloor Bk)).
  intros m vs v R Vs Hv. rewrite Z2Nat.id by lia. destruct (v_path _ _ _ _ _ _ Vs v Hv) as [Rv _]. pose proof (inv_runs g caps w rep WF NI EV v Rv) as I.
  assert (ME : forall i, In i (seq 0 V) -> exists u, nth_error (vertices g) i = Some u).
  { intros i Hi. apply in_seq in Hi. destruct (nth_error (vertices g) i) as [u|] eqn:Eu; [eauto|apply nth_error_None in Eu; lia]. }
  assert (MO : forall i u k, nth_error (vertices g) i = Some u -> 0 <= Z.of_nat (k mod v_phases u) + 1 <= Qfloor Bp).
  { intros i u k Eu. pose proof (PH i u Eu). pose proof (phases_pos g i u WF Eu). pose proof (Nat.mod_upper_bound k (v_phases u) ltac:(lia)). lia. }
  unfold code. constructor; [|apply Forall_app; split; [|apply Forall_app; split; [|apply Forall_app; split]]]; try (apply Forall_map, Forall_forall; intros i Hi).
  - pose proof (qcode_range _ _ (HBt m vs v R Vs Hv)). lia.
  - destruct (ME i Hi) as [u Eu]. rewrite (inv_phase g caps v I i u Eu). pose proof (MO i u (started (m_log v) i) Eu). lia.
  - apply in_seq in Hi. destruct (nth_error (edges g) i) as [c|] eqn:Ek; [|apply nth_error_None in Ek; lia]. pose proof (inv_tokens_pos g caps v I i c Ek).
    specialize (HBk i v ltac:(lia) Rv). assert (s_tokens (m_state v) i <= Qfloor Bk) by (rewrite <- (Qfloor_Z (s_tokens (m_state v) i)); apply Qfloor_resp_le; exact HBk). lia.
  - apply in_seq in Hi. destruct (s_queue (m_state v) i) as [|[r p] q] eqn:Q; [lia|]. destruct (remaining v i r p q Rv ltac:(lia) Q) as (_ & R0 & u & Eu & Le & _).
    pose proof (nth_error_In _ _ Eu) as Hu. pose proof (HDm u _ Hu (duration_in u (ended (m_log v) i) Hu)). pose proof (qcode_range r Dm ltac:(split; lra)). lia.
  - apply in_seq in Hi. destruct (s_queue (m_state v) i) as [|[r p] q] eqn:Q; [lia|]. destruct (remaining v i r p q Rv ltac:(lia) Q) as (_ & R0 & u & Eu & Le & Pp).
    pose proof (MO i u (ended (m_log v) i) Eu). lia.
Qed.

Lemma visits_bound : 0 < rep -> exists M, forall m vs, rec m0 m -> vis g caps w rep m vs -> (length vs <= M)%nat.
Proof.
  intros RP. destruct (code_bound RP) as [B HB]. exists (length (all_lists (S (V + (length (edges g) + (V + V)))) B)). intros m vs R Vs.
  rewrite <- (map_length (fun v => code (m_state v)) vs). apply NoDup_incl_length.
  - pose proof (visited_distinct m R) as Di. rewrite <- (v_map _ _ _ _ _ _ Vs) in Di. pose proof (v_path _ _ _ _ _ _ Vs) as Pa. clear HB Vs.
    induction vs as [|v vs IH]; [constructor|]. cbn [map] in *. inversion_clear Di as [|? ? H1 H2]. constructor.
    + intros X. apply in_map_iff in X. destruct X as (u & E & Hu). rewrite Forall_forall in H1. specialize (H1 (m_state u) (in_map _ _ _ Hu)).
      rewrite (code_inj v u) in H1; [discriminate|apply Pa; left; reflexivity|apply Pa; right; exact Hu|symmetry; exact E].
    + apply IH; [exact H2|]. intros u Hu. apply Pa. right. exact Hu.
  - intros l Hl. apply in_map_iff in Hl. destruct Hl as (v & <- & Hv). rewrite <- (code_length (m_state v)). apply in_all_lists. exact (HB m vs v R Vs Hv).
Qed.
End Coded.

Lemma log_length m : rec m0 m -> Z.of_nat (length (m_log m)) = sumf (fun i => Z.of_nat (started (m_log m) i) + Z.of_nat (ended (m_log m) i)) V.
Proof.
  induction 1 as [|m m' R IH T].
  - cbn. clear. induction V as [|n IH]; [reflexivity|]. cbn [sumf]. lia.
  - destruct (tick_kinds m m' (pc_ok_runs g w rep _ _ new_pc_ok R) T) as [(L & _)|[(i & Hi & L & _)|[(i & Hi & L & _)|(L & _)]]]; rewrite L; try exact IH; cbn [length]; rewrite Nat2Z.inj_succ, IH; unfold Z.succ; symmetry; apply (sumf_bump _ _ V i Hi); intros j Hj; cbn [started ended]; rewrite (Nat.eqb_sym i j); destruct (j =? i)%nat; lia.
Qed.

Lemma log_bound : exists L, forall m, rec m0 m -> (length (m_log m) <= L)%nat.
Proof.
  assert (RP : 0 < rep) by (rewrite <- Rw; auto).
  destruct (denominators (flat_map v_durations (vertices g))) as [D HD].
  destruct (visits_bound D) as [M HM]; [intros v d Hv Hd; apply HD, in_flat_map; eauto|exact RP|].
  assert (St : exists B, (0 <= B)%Q /\ forall i m, (i < V)%nat -> rec m0 m -> (inject_Z (Z.of_nat (started (m_log m) i)) <= B)%Q).
  { apply (uniform (fun m => rec m0 m) (fun m i => inject_Z (Z.of_nat (started (m_log m) i)))). intros i Hi.
    exists (inject_Z (N i) * (inject_Z (Z.of_nat M + 2) + A))%Q. intros m R. destruct (vis_runs g caps w rep RP m R) as [vs Vs].
    specialize (HM m vs R Vs). destruct (v_count _ _ _ _ _ _ Vs) as [Cn Cm]. pose proof (ended_le m w R Lw) as El.
    rewrite (done_started m i Hi). pose proof (NQ i Hi) as Ni. apply Qmult_le_l; [exact Ni|].
    assert (Dw : (done m w <= inject_Z (Z.of_nat M + 2))%Q).
    { assert (X : Z.of_nat (started (m_log m) w) <= rep * (Z.of_nat M + 2)) by nia. rewrite Zle_Qle, (done_started m w Lw), Rw, inject_Z_mult in X.
      assert (NW : (0 < inject_Z rep)%Q) by (rewrite <- Rw; apply NQ; exact Lw). apply (Qmult_le_l _ _ (inject_Z rep) NW). exact X. }
    pose proof (LD m i w R Hi Lw). lra. }
  destruct St as (B & B0 & HB). exists (Z.to_nat (2 * Z.of_nat V * Qfloor B)). intros m R.
  assert (E : forall n, (n <= V)%nat -> sumf (fun i => Z.of_nat (started (m_log m) i) + Z.of_nat (ended (m_log m) i)) n <= 2 * Z.of_nat n * Qfloor B).
  { induction n as [|n IH]; intros Hn; [cbn; lia|]. cbn [sumf]. specialize (IH ltac:(lia)). pose proof (ended_le m n R ltac:(lia)). specialize (HB n m ltac:(lia) R).
    assert (Z.of_nat (started (m_log m) n) <= Qfloor B) by (rewrite <- (Qfloor_Z (Z.of_nat (started (m_log m) n))); apply Qfloor_resp_le; exact HB). nia. }
  specialize (E V (le_n _)). rewrite <- (log_length m R) in E. lia.
Qed.

Lemma run_ends : exists ticks a, run ticks g w rep m0 = Ok a.
Proof.
  destruct log_bound as [L HL]. exists (S (2 * (2 * V + 3) * (L + 1))).
  destruct (run_long g w rep (S (2 * (2 * V + 3) * (L + 1))) m0 new_pc_ok) as [X|(m & R & P)]; [|exact X|exfalso].
  - intros m R. exact (tick_defined g caps w rep m WF NI EV GD R).
  - specialize (HL m R). pose proof (potential_le g m (pc_ok_runs g w rep _ _ new_pc_ok R)). nia.
Qed.
End Bounds.

(** * Whole graphs *)
Lemma actors_fine g : graph_wf g -> actors_ok g 0 (vertices g) = Ok tt.
Proof.
  intros WF. assert (H : forall l i, (forall j v, nth_error l j = Some v -> nth_error (vertices g) (i + j) = Some v) -> actors_ok g i l = Ok tt).
  { induction l as [|v l IH]; intros i Hl; [reflexivity|]. cbn [actors_ok]. pose proof (Hl 0%nat v eq_refl) as Ev. rewrite Nat.add_0_r in Ev.
    assert (X : actor_ok g i v = Ok tt).
    { unfold actor_ok. assert (F : forallb (fun c => ((negb (e_dst c =? i)%nat) || (v_phases v <=? length (e_out c))%nat) &&
                                     ((negb (e_src c =? i)%nat) || (v_phases v <=? length (e_in c))%nat)) (edges g) = true).
      { apply forallb_forall. intros c Hc. destruct WF as (_ & B & _). destruct (B c Hc) as (vs & vd & E1 & E2 & L1 & L2 & _).
        apply andb_true_iff. split; apply orb_true_iff.
        - destruct (Nat.eqb_spec (e_dst c) i) as [Ed|]; [right|left; reflexivity]. rewrite Ed in E2. apply Nat.leb_le. rewrite Ev in E2. injection E2 as <-. lia.
        - destruct (Nat.eqb_spec (e_src c) i) as [Es|]; [right|left; reflexivity]. rewrite Es in E1. apply Nat.leb_le. rewrite Ev in E1. injection E1 as <-. lia. }
      rewrite F. cbn [cassert bind]. pose proof (phases_pos g i v WF Ev). destruct (v_phases v); [lia|reflexivity]. }
    rewrite X. cbn [bind]. apply IH. intros j u Eu. rewrite <- (Hl (S j) u Eu). f_equal. lia. }
  apply H. intros j v E. exact E.
Qed.
Lemma min_actor_some N i : (i < length N)%nat -> nth i N 0 < int_max -> exists w rep, min_actor N = Some (w, rep).
Proof.
  intros Hi Hn. unfold min_actor.
  set (f := fun acc n => let '(best, i) := acc in
         (if n <? match best with Some b => snd b | None => int_max end then Some (i, n) else best, S i)).
  assert (K : forall l (b : nat * Z) k, exists b', fst (fold_left f l (Some b, k)) = Some b').
  { induction l as [|x l IH]; intros b k; [cbn; eauto|]. cbn [fold_left]. unfold f at 2. destruct (x <? snd b); apply IH. }
  assert (H : forall l i k, (i < length l)%nat -> nth i l 0 < int_max -> exists b, fst (fold_left f l (None, k)) = Some b).
  { induction l as [|x l IH]; intros j k Hj Hx; [cbn in Hj; lia|]. cbn [fold_left]. unfold f at 2. destruct (Z.ltb_spec x int_max) as [L|L]; [apply K|].
    destruct j as [|j]; [cbn in Hx; lia|]. apply (IH j); [cbn in Hj; lia|exact Hx]. }
  destruct (H N i 0%nat Hi Hn) as [[w rep] E]. exists w, rep. exact E.
Qed.

Lemma component_ends g caps fuel N : graph_wf g -> no_init g -> even_self_loops g ->
  all_guarded g (match caps with Some _ => true | None => false end) -> vertices g <> [] -> (length (vertices g) <= fuel)%nat ->
  compute_repetition_vector fuel g = Ok (Some N) -> (exists i, (i < length (vertices g))%nat /\ nth i N 0 < int_max) ->
  strongly_connected g \/ (caps <> None /\ capacities_ok g caps /\ connected_graph g) ->
  exists ticks a, component_throughput fuel ticks g caps = Ok a.
Proof.
  intros WF NI EV GD NE FU EN (i0 & Hi0 & Sm) Cn.
  destruct (C18_balance g fuel N (graph_wf_rates g WF) NE FU EN) as (LN & NP & BA & _).
  destruct (min_actor_some N i0 ltac:(lia) Sm) as (w & rep & Em). pose proof (min_actor_at N w rep Em) as Ew.
  assert (Lw : (w < length (vertices g))%nat) by (rewrite <- LN; apply nth_error_Some; congruence).
  assert (Rw : as_vector N w = rep) by (unfold as_vector; exact (nth_error_nth _ _ 0 Ew)).
  set (rec := runs_to g w rep). set (m0 := new_machine g caps).
  assert (One : forall i j, (i < length (vertices g))%nat -> (j < length (vertices g))%nat ->
            exists A, forall m, rec m0 m -> (done (as_vector N) m i <= done (as_vector N) m j + A)%Q).
  { intros i j Hi Hj. destruct Cn as [SC|(Cp & CO & CG)].
    - assert (F := SC j i Hj Hi). clear Hi. induction F as [|c Hc F [A IH]]; [exists 0%Q; intros; lra|].
      destruct (lead_fwd g caps w rep (as_vector N) WF NI EV GD NP BA c Hc) as [B HB]. exists (A + B)%Q. intros m R. specialize (IH m R). specialize (HB m R). lra.
    - destruct caps as [cap|] eqn:Ecap; [|congruence]. assert (F := CG j i Hj Hi). clear Hi Hj. induction F as [j|j c Hc F [A IH]|j c Hc F [A IH]]; [exists 0%Q; intros; lra| |].
      + destruct (lead_fwd g (Some cap) w rep (as_vector N) WF NI EV GD NP BA c Hc) as [B HB]. exists (A + B)%Q. intros m R. specialize (IH m R). specialize (HB m R). lra.
      + destruct (lead_bwd g (Some cap) w rep (as_vector N) WF NI EV GD NP BA c cap eq_refl CO Hc) as [B HB]. exists (A + B)%Q. intros m R. specialize (IH m R). specialize (HB m R). lra. }
  assert (All : exists A, (0 <= A)%Q /\ forall i m, (i < length (vertices g))%nat -> rec m0 m -> forall j, (j < length (vertices g))%nat ->
            (done (as_vector N) m i - done (as_vector N) m j <= A)%Q).
  { assert (Row : forall i, (i < length (vertices g))%nat -> exists A, (0 <= A)%Q /\ forall j m, (j < length (vertices g))%nat -> rec m0 m -> (done (as_vector N) m i - done (as_vector N) m j <= A)%Q).
    { intros i Hi. apply (uniform (fun m => rec m0 m) (fun m j => (done (as_vector N) m i - done (as_vector N) m j)%Q)). intros j Hj. destruct (One i j Hi Hj) as [A HA]. exists A. intros m R. specialize (HA m R). lra. }
    clear -Row. set (V := length (vertices g)) in *. assert (G : forall n, (n <= V)%nat -> exists A, (0 <= A)%Q /\ forall i m, (i < n)%nat -> rec m0 m -> forall j, (j < V)%nat -> (done (as_vector N) m i - done (as_vector N) m j <= A)%Q).
    { induction n as [|n IH]; intros Hn; [exists 0%Q; split; [lra|lia]|]. destruct IH as (A & A0 & HA); [lia|]. destruct (Row n ltac:(lia)) as (B & B0 & HB).
      exists (A + B)%Q. split; [lra|]. intros i m Hi R j Hj. destruct (Nat.eq_dec i n) as [->|]; [specialize (HB j m Hj R); lra|]. specialize (HA i m ltac:(lia) R j Hj). lra. }
    exact (G V (le_n _)). }
  destruct All as (A & A0 & HA).
  destruct (run_ends g caps w rep (as_vector N) WF NI EV GD NP BA A) as (ticks & a & E).
  - intros m i j R Hi Hj. specialize (HA i m Hi R j Hj). lra.
  - exact Lw.
  - exact Rw.
  - exists ticks, a. unfold component_throughput, prepare. rewrite EN. cbn [bind]. rewrite (actors_fine g WF). cbn [bind]. rewrite Em. cbn [bind fst snd]. exact E.
Qed.
