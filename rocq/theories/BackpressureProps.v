(** Properties of the back-pressure buffer sizing. *)
From Coq Require Import QArith Qround Lqa Lia.
From Verif Require Import Base Graph KPeriodic ScheduleSpec KPeriodicSpec KPeriodicEnd KIterSpec KIterProofs SPeriodicSpec DseSpec SymbExecSpec
  Sizing SizingSpec Backpressure BackpressureSpec BackpressureProofs.
Open Scope Z_scope.

(** ** C104: the sizes reported are enough. *)

(** Every graph gets an answer: sizes for all channels and their totals, unless the solver fails. *)
Theorem C104_answers g N period solve : graph_wf g -> (forall i, (i < length (vertices g))%nat -> 0 < N i) -> (0 < period)%Q ->
  backpressure g N period solve = Ok None \/
  exists zs, length zs = length (edges g) /\ backpressure g N period solve = Ok (Some (zs, sumZ zs, sumZ zs + 2 * Z.of_nat (length (vertices g)))).
Proof.
  intros WF NP PP. destruct (sizing_answers g N period WF NP PP solve) as (r & E & H). destruct r as [[[zs total] more]|]; [|left; exact E].
  destruct H as (L & -> & -> & _). right. exists zs. split; [exact L|exact E].
Qed.
Print Assumptions C104_answers.

(** A synchronous graph can run at the period within the reported sizes.  Missing: several
    phases per task, and channels with initial tokens that carry more than one token per unit
    of time; both are refuted below. *)
Theorem C104_sizes_work_partial g N period solve zs total more : graph_wf g -> no_init g -> single_phase g -> balanced g N -> whole_cycles g N ->
  (0 < period)%Q -> steps_fit g N period -> sound_solver solve -> (forall c, In c (edges g) -> calm N period c) ->
  backpressure g N period solve = Ok (Some (zs, total, more)) -> runs_evenly g N period (with_room g zs).
Proof.
  intros WF NI SP B CYC PP Fit So Ca E. assert (NP : forall i, (i < length (vertices g))%nat -> 0 < N i) by (intros i Hi; destruct (nth_error (vertices g) i) as [v|] eqn:Ev; [exact (proj1 (CYC i v Ev))|apply nth_error_None in Ev; lia]). destruct (sizing_answers g N period WF NP PP solve) as (r & Er & H). rewrite E in Er. injection Er as <-.
  destruct H as (_ & _ & _ & p & x & Ep & Ex & Sz). exact (sizes_work g N period WF NI SP B NP PP x p zs Ep (So p x Ex) Sz Ca Fit).
Qed.
Print Assumptions C104_sizes_work_partial.

(** What is computed on synchronous graphs.  The starts are those of non-negative values at
    these distances (the initial tokens, rounded to the greatest common divisor of the rates,
    are subtracted from a time); a size is the least multiple of that divisor that covers a
    line of the slope of the channel, the tokens moved per unit of time. *)
Theorem C104_computed g N period solve : graph_wf g -> no_init g -> single_phase g -> balanced g N -> whole_cycles g N -> (0 < period)%Q ->
  exists p, bp_lp g N period = Ok p /\
    (forall x, feasible p x <-> (forall i, (i < length (vertices g))%nat -> (0 <= x (Start i 0))%Q) /\
       (forall c vs d r f, In c (edges g) -> nth_error (vertices g) (e_src c) = Some vs -> v_durations vs = [d] -> e_out c = [r] -> fine_gcd c = Ok f ->
          (d + inject_Z (r - 1) * period / inject_Z (r * N (e_dst c)) - inject_Z (e_preload c / f * f) <= x (Start (e_dst c) 0) - x (Start (e_src c) 0))%Q)) /\
    (forall x, solve p = Some x -> exists zs, backpressure g N period solve = Ok (Some (zs, sumZ zs, sumZ zs + 2 * Z.of_nat (length (vertices g)))) /\ length zs = length (edges g) /\
       forall k c vd d w f, nth_error (edges g) k = Some c -> nth_error (vertices g) (e_dst c) = Some vd -> v_durations vd = [d] -> e_in c = [w] -> fine_gcd c = Ok f ->
         (f | nth k zs 0) /\
         let needed := (inject_Z (w - 1) + inject_Z (w * N (e_src c)) / period * (x (Start (e_dst c) 0) + d - x (Start (e_src c) 0)))%Q in
         (needed <= inject_Z (nth k zs 0%Z) < needed + inject_Z f)%Q) /\
    (solve p = None -> backpressure g N period solve = Ok None).
Proof.
  intros WF NI SP B CYC PP. assert (NP : forall i, (i < length (vertices g))%nat -> 0 < N i) by (intros i Hi; destruct (nth_error (vertices g) i) as [v|] eqn:Ev; [exact (proj1 (CYC i v Ev))|apply nth_error_None in Ev; lia]).
  destruct (sizing_answers g N period WF NP PP solve) as (r & Er & H). assert (Ep : exists p, bp_lp g N period = Ok p) by (destruct r as [[[? ?] ?]|]; [destruct H as (_ & _ & _ & p & x & E & _)|destruct H as (p & E & _)]; exists p; exact E).
  destruct Ep as (p & Ep). exists p. split; [exact Ep|]. split; [|split].
  - intros x. rewrite (points g N period NP p x Ep). apply and_iff_compat_l.
    assert (K : forall c, In c (edges g) -> exists vs ds r f b, nth_error (vertices g) (e_src c) = Some vs /\ v_durations vs = [ds] /\ e_out c = [r] /\ fine_gcd c = Ok f /\ beta_ij g N period c = Ok b /\
        (b == ds + inject_Z (r - 1) * period / inject_Z (r * N (e_dst c)) - inject_Z (e_preload c / f * f))%Q).
    { intros c I. destruct (row_single g N period WF NI SP B NP PP c I) as (vs & vd & ds & dd & w & r' & a & b & f & V1 & V2 & D1 & D2 & Ew & Er' & Ea & Pa & Ef & Pf & Eb & Vb).
      destruct (shape g N WF NI SP B c I) as (vs2 & vd2 & ds2 & dd2 & w2 & r2 & V1' & V2' & _ & _ & _ & _ & P1 & _ & Ew' & Er2 & _ & _ & W & R & _ & Bw). rewrite Ew in Ew'. injection Ew' as <-. rewrite Er' in Er2. injection Er2 as <-. rewrite V1 in V1'. injection V1' as <-.
      assert (Nd : (0 < inject_Z (N (e_dst c)))%Q) by (apply inj_pos, NP, nth_error_Some; congruence).
      destruct (alpha_single g N period WF NP PP c w r' vs I V1 P1 Ew Bw Nd) as (a' & Ea' & _ & _ & _ & Ap). rewrite Ea in Ea'. injection Ea' as <-.
      exists vs, ds, r', f, b. repeat (split; [assumption|]). rewrite Vb. rewrite <- Bw, <- Ap. field. split; lra. }
    split.
    + intros Hx c vs d r' f I V D Er' Ef. destruct (K c I) as (vs' & ds' & r2 & f' & b & V' & D' & R' & F' & Eb & Vb). rewrite V in V'. injection V' as <-. rewrite D in D'. injection D' as <-. rewrite Er' in R'. injection R' as <-. rewrite Ef in F'. injection F' as <-. rewrite <- Vb. exact (Hx c b I Eb).
    + intros Hx c b I Eb. destruct (K c I) as (vs' & ds' & r2 & f' & b' & V' & D' & R' & F' & Eb' & Vb). rewrite Eb in Eb'. injection Eb' as <-. rewrite Vb. exact (Hx c vs' ds' r2 f' I V' D' R' F').
  - intros x Sx. destruct r as [[[zs total] more]|]; [|destruct H as (p' & E' & Sn); rewrite Ep in E'; injection E' as <-; congruence]. destruct H as (L & -> & -> & p' & x' & Ep' & Sx' & Sz). rewrite Ep in Ep'. injection Ep' as <-. rewrite Sx in Sx'. injection Sx' as <-.
    exists zs. split; [exact Er|]. split; [exact L|]. intros k c vd d w f Ek V2 D2 Ew Ef. pose proof (nth_error_In _ _ Ek) as I. cbv zeta.
    destruct (shape g N WF NI SP B c I) as (vs & vd' & ds & dd & w' & r' & V1 & V2' & D1 & _ & _ & _ & P1 & _ & Ew' & Er' & _ & _ & W & R & _ & Bw). rewrite Ew in Ew'. injection Ew' as <-.
    assert (Nd : (0 < inject_Z (N (e_dst c)))%Q) by (apply inj_pos, NP, nth_error_Some; congruence).
    destruct (alpha_single g N period WF NP PP c w r' vs I V1 P1 Ew Bw Nd) as (a & Ea & Pa & _ & _ & Ap).
    destruct (size_single g N period WF NI SP B NP PP x c ds d w r' a I ltac:(congruence) ltac:(intros; congruence) ltac:(intros; congruence) Ew Er' Ea Pa) as (z & f' & Ez & Ef' & Dz & L1 & L2). rewrite Ef in Ef'. injection Ef' as <-. rewrite (Sz k c Ek) in Ez. injection Ez as ->.
    assert (A : (inject_Z (w * N (e_src c)) / period == a)%Q) by (rewrite <- Ap; field; lra). rewrite A. auto.
  - intros Sn. destruct r as [[[zs total] more]|]; [|exact Er]. destruct H as (_ & _ & _ & p' & x' & Ep' & Sx' & _). rewrite Ep in Ep'. injection Ep' as <-. congruence.
Qed.
Print Assumptions C104_computed.

(** A solver that tries one point. *)
Definition accepts (p : lp) (x : var -> Q) : bool :=
  forallb (fun r => Qle_bool (row_low r) (row_value x r)) (rows p) &&
  forallb (fun c => match col_bound c with FixBound v => Qeq_bool (x (col_var c)) v | LowBound v => Qle_bool v (x (col_var c)) | NoBound => true end &&
                    (negb (col_int c) || Qeq_bool (x (col_var c)) (inject_Z (Qfloor (x (col_var c)))))) (columns p).
Definition try_point (x : var -> Q) (p : lp) : option (var -> Q) := if accepts p x then Some x else None.
Lemma try_point_sound x : sound_solver (try_point x).
Proof.
  intros p y E. unfold try_point in E. destruct (accepts p x) eqn:A; [|discriminate]. injection E as <-. unfold accepts in A. apply andb_prop in A. destruct A as [A1 A2]. rewrite forallb_forall in A1, A2. split.
  - intros r I. apply Qle_bool_iff, A1, I.
  - intros c I. specialize (A2 c I). cbn beta in A2. apply andb_prop in A2. destruct A2 as [A2 A3]. split.
    + destruct (col_bound c); [apply Qeq_bool_iff; exact A2|apply Qle_bool_iff; exact A2|exact Coq.Init.Logic.I].
    + intros T. rewrite T in A3. cbn [negb orb] in A3. eexists. apply Qeq_bool_iff. exact A3.
Qed.

(** A case: rates 2 to 3 with a return channel, period 12. *)
Definition task (i : Z) (ds : list Q) : vertex := mkVertex i (length ds) 0 ds [] 1.
Definition bp_case : graph := mkGraph [task 1 [3%Q]; task 2 [2%Q]] [mkEdge 1 0 1 [2] [3] [] [] 1; mkEdge 2 1 0 [3] [2] [] [] 12].
Definition bp_N (i : nat) : Z := match i with 0%nat => 3 | 1%nat => 2 | _ => 0 end.
Definition bp_start (v : var) : Q := match v with Start 1 _ => 6%Q | _ => 0%Q end.
Example C104_case : exists zs total more, graph_wf bp_case /\ no_init bp_case /\ single_phase bp_case /\ balanced bp_case bp_N /\ whole_cycles bp_case bp_N /\ steps_fit bp_case bp_N 12 /\
  (forall c, In c (edges bp_case) -> calm bp_N 12 c) /\ backpressure bp_case bp_N 12 (try_point bp_start) = Ok (Some (zs, total, more)) /\ zs = [5; 1].
Proof.
  eexists. eexists. eexists. split; [|split; [|split; [|split; [|split; [|split; [|split; [|split]]]]]]].
  - split; [|split].
    + intros v [<-|[<-|[]]]; (split; [vm_compute; lia|split; [reflexivity|split; [reflexivity|]]]); intros q [<-|[]]; vm_compute; discriminate.
    + intros e [<-|[<-|[]]]; unfold edge_wf; cbn [e_src e_dst bp_case vertices nth_error]; do 2 eexists; (split; [reflexivity|]); (split; [reflexivity|]); cbn; repeat (split; [reflexivity|]); (split; [|lia]); intros z Hz; repeat (destruct Hz as [<-|Hz]; [discriminate|]); destruct Hz.
    + repeat constructor; cbn; lia.
  - intros v [<-|[<-|[]]]; reflexivity.
  - intros v [<-|[<-|[]]]; reflexivity.
  - intros e [<-|[<-|[]]]; reflexivity.
  - intros i v E. destruct i as [|[|[|]]]; cbn in E; try discriminate; injection E as <-; (split; [reflexivity|]); [exists 3|exists 2]; reflexivity.
  - intros i v d E I. destruct i as [|[|[|]]]; cbn in E; try discriminate; injection E as <-; destruct I as [<-|[]]; vm_compute; discriminate.
  - intros e [<-|[<-|[]]]; right; vm_compute; discriminate.
  - vm_compute. reflexivity.
  - reflexivity.
Qed.

(** ** The program assumes one token per unit of time. *)
(** Four tasks in a row, rates 1 and then 20 with 20 initial tokens on the last channel; the
    starts are the least ones of the program.  The room reported is 0, so that the last two
    tasks take turns, and no evenly spaced schedule has period 1. *)
Definition bp_line : graph := mkGraph [task 1 [1%Q]; task 2 [1%Q]; task 3 [1%Q]; task 4 [1%Q]]
  [mkEdge 1 0 1 [1] [1] [] [] 0; mkEdge 2 1 2 [1] [1] [] [] 0; mkEdge 3 2 3 [20] [20] [] [] 20].
Definition line_start (v : var) : Q := match v with Start 1 _ => 1%Q | Start 2 _ => 2%Q | _ => 0%Q end.
Definition ones (_ : nat) : Z := 1.

Lemma line_wf : graph_wf bp_line.
Proof.
  split; [|split].
  - intros v [<-|[<-|[<-|[<-|[]]]]]; (split; [vm_compute; lia|split; [reflexivity|split; [reflexivity|]]]); intros q [<-|[]]; vm_compute; discriminate.
  - intros e [<-|[<-|[<-|[]]]]; unfold edge_wf; cbn [e_src e_dst bp_line vertices nth_error]; do 2 eexists; (split; [reflexivity|]); (split; [reflexivity|]); cbn; repeat (split; [reflexivity|]); (split; [|lia]); intros z Hz; repeat (destruct Hz as [<-|Hz]; [discriminate|]); destruct Hz.
  - repeat constructor; cbn; lia.
Qed.

Lemma moved_none f w n t : (forall m, (m < n)%nat -> ~ (f m <= t)%Q) -> moved_by f w n t = 0.
Proof.
  intros H. unfold moved_by. induction n as [|n IH]; [reflexivity|]. cbn [sumf]. rewrite IH by (intros m Hm; apply H; lia). destruct (Qle_bool (f n) t) eqn:E; [apply Qle_bool_iff in E; destruct (H n ltac:(lia) E)|reflexivity].
Qed.

Theorem C104_rates_refuted : exists g N period solve zs total more,
  graph_wf g /\ no_init g /\ single_phase g /\ balanced g N /\ whole_cycles g N /\ (0 < period)%Q /\ steps_fit g N period /\ sound_solver solve /\
  (exists p x, bp_lp g N period = Ok p /\ solve p = Some x /\ optimal p x) /\
  backpressure g N period solve = Ok (Some (zs, total, more)) /\ ~ runs_evenly g N period (with_room g zs).
Proof.
  exists bp_line, ones, 1%Q, (try_point line_start). eexists. eexists. eexists. split; [exact line_wf|]. split; [intros v [<-|[<-|[<-|[<-|[]]]]]; reflexivity|]. split; [intros v [<-|[<-|[<-|[<-|[]]]]]; reflexivity|].
  split; [intros e [<-|[<-|[<-|[]]]]; reflexivity|]. split; [intros i v E; pose proof (nth_error_In _ _ E) as I; split; [reflexivity|]; destruct I as [<-|[<-|[<-|[<-|[]]]]]; exists 1; reflexivity|]. split; [reflexivity|].
  split; [intros i v d E I; pose proof (nth_error_In _ _ E) as Iv; destruct Iv as [<-|[<-|[<-|[<-|[]]]]]; destruct I as [<-|[]]; vm_compute; discriminate|]. split; [apply try_point_sound|].
  split; [|split; [vm_compute; reflexivity|]].
  - eexists. exists line_start. split; [vm_compute; reflexivity|]. split; [vm_compute; reflexivity|]. split; [apply (try_point_sound line_start); vm_compute; reflexivity|].
    intros y [Fr Fc]. cbn [rows columns] in Fr, Fc. pose proof (Fr _ (or_introl eq_refl)) as R1. pose proof (Fr _ (or_intror (or_introl eq_refl))) as R2. pose proof (Fc _ (or_introl eq_refl)) as [C0 _]. pose proof (Fc _ (or_intror (or_intror (or_intror (or_introl eq_refl))))) as [C3 _].
    unfold objective, row_value in *. cbn in *. lra.
  - intros (s & Ev & [Va Se] & Fi). pose (c := mkEdge 3 2 3 [20] [20] [] [] 20).
    assert (E1 : (s 3%nat 1%nat == s 3%nat 0%nat + 1)%Q) by (rewrite (Ev 3%nat 1%nat ltac:(cbn; lia)); change (inject_Z (Z.of_nat 1)) with 1%Q; change (inject_Z (ones 3)) with 1%Q; field).
    (* producer waits for the room of the first consumption *)
    assert (A1 : (s 3%nat 0%nat + 1 <= s 2%nat 0%nat)%Q).
    { destruct (Qlt_le_dec (s 2%nat 0%nat) (s 3%nat 0%nat + 1)) as [L|L]; [exfalso|exact L]. destruct (Fi 2%nat c eq_refl (s 2%nat 0%nat) 1%nat) as (nc & H). revert H. unfold with_room. cbn [nth_error edges bp_line nth e_preload]. 
      rewrite (moved_none (end_of s bp_line (e_dst c))).
      - unfold moved_by, start_of, prod_rate. cbn [sumf e_src c]. rewrite (proj2 (Qle_bool_iff _ _) (Qle_refl _)). vm_compute. intros H; apply H; reflexivity.
      - intros m _. unfold end_of, c. cbn [e_dst nth_error vertices bp_line]. unfold exec_duration. cbn [v_init_durations v_durations task]. rewrite cyclic_one. intros H.
        assert (Em : (s 3%nat m == s 3%nat 0%nat + inject_Z (Z.of_nat m))%Q) by (rewrite (Ev 3%nat m ltac:(cbn; lia)); change (inject_Z (ones 3)) with 1%Q; field).
        assert (0 <= inject_Z (Z.of_nat m))%Q by (change 0%Q with (inject_Z 0); rewrite <- Zle_Qle; lia). lra. }
    (* the second consumption waits for the first production *)
    assert (A2 : (s 2%nat 0%nat + 1 <= s 3%nat 1%nat)%Q).
    { destruct (Qlt_le_dec (s 3%nat 1%nat) (s 2%nat 0%nat + 1)) as [L|L]; [exfalso|exact L]. assert (I : In c (edges bp_line)) by (right; right; left; reflexivity). destruct (Va c I (s 3%nat 1%nat) 2%nat) as (np & H). revert H.
      rewrite (moved_none (end_of s bp_line (e_src c))).
      - unfold moved_by, start_of, cons_rate. cbn [sumf e_dst c]. rewrite (proj2 (Qle_bool_iff _ _) (Qle_refl _)). assert (E0 : (s 3%nat 0%nat <= s 3%nat 1%nat)%Q) by lra. rewrite (proj2 (Qle_bool_iff _ _) E0). vm_compute. intros H; apply H; reflexivity.
      - intros m _. unfold end_of, c. cbn [e_src nth_error vertices bp_line]. unfold exec_duration. cbn [v_init_durations v_durations task]. rewrite cyclic_one. intros H.
        assert (Em : (s 2%nat m == s 2%nat 0%nat + inject_Z (Z.of_nat m))%Q) by (rewrite (Ev 2%nat m ltac:(cbn; lia)); change (inject_Z (ones 2)) with 1%Q; field).
        assert (0 <= inject_Z (Z.of_nat m))%Q by (change 0%Q with (inject_Z 0); rewrite <- Zle_Qle; lia). lra. }
    lra.
Qed.
Print Assumptions C104_rates_refuted.

(** ** Several phases. *)
(** Two phases of durations 5 and 1 send one token each to a task of duration 2 that takes
    both; at period 6, the work of the first task, the size reported is 2.  With room for two
    tokens the first task waits for the other one: no schedule repeats in less than 8. *)
Definition bp_phases : graph := mkGraph [task 1 [5%Q; 1%Q]; task 2 [2%Q]] [mkEdge 1 0 1 [1; 1] [2] [] [] 0].
Definition phases_N (i : nat) : Z := match i with 0%nat => 2 | _ => 1 end.
Definition phases_start (v : var) : Q := match v with Start 1 _ => 3%Q | _ => 0%Q end.

Lemma phases_wf : graph_wf bp_phases.
Proof.
  split; [|split].
  - intros v [<-|[<-|[]]]; (split; [vm_compute; lia|split; [reflexivity|split; [reflexivity|]]]); intros q Hq; repeat (destruct Hq as [<-|Hq]; [vm_compute; discriminate|]); destruct Hq.
  - intros e [<-|[]]; unfold edge_wf; cbn [e_src e_dst bp_phases vertices nth_error]; do 2 eexists; (split; [reflexivity|]); (split; [reflexivity|]); cbn; repeat (split; [reflexivity|]); (split; [|lia]); intros z Hz; repeat (destruct Hz as [<-|Hz]; [discriminate|]); destruct Hz.
  - repeat constructor; cbn; lia.
Qed.

(** With executions of a task one after the other, a move of rank [n] happens after those before. *)
Lemma serial_mono (f : nat -> Q) : (forall m, (f m <= f (S m))%Q) -> forall a b, (a <= b)%nat -> (f a <= f b)%Q.
Proof. intros H a b L. induction L as [|b L IH]; [apply Qle_refl|]. eapply Qle_trans; [exact IH|apply H]. Qed.
Lemma moved_few f w n t k : (forall m, (k <= m)%nat -> ~ (f m <= t)%Q) -> (forall m, 0 <= w m) -> moved_by f w n t <= sumf w k.
Proof.
  intros H W. unfold moved_by. assert (G : sumf (fun m => if Qle_bool (f m) t then w m else 0) n <= sumf w (Nat.min n k)).
  { induction n as [|n IH]; [cbn; lia|]. cbn [sumf]. destruct (Nat.le_gt_cases k n) as [L|L].
    - destruct (Qle_bool (f n) t) eqn:E; [apply Qle_bool_iff in E; destruct (H n L E)|]. replace (Nat.min (S n) k) with (Nat.min n k) by lia. lia.
    - replace (Nat.min (S n) k) with (S n) by lia. replace (Nat.min n k) with n in IH by lia. cbn [sumf]. specialize (W n). destruct (Qle_bool (f n) t); lia. }
  assert (M : forall a b, (a <= b)%nat -> sumf w a <= sumf w b) by (intros a b L; induction L as [|b L IH]; [lia|cbn [sumf]; specialize (W b); lia]). specialize (M (Nat.min n k) k ltac:(lia)). lia.
Qed.
Lemma moved_all f w n t : (forall m, (m < n)%nat -> (f m <= t)%Q) -> moved_by f w n t = sumf w n.
Proof. intros H. unfold moved_by. induction n as [|n IH]; [reflexivity|]. cbn [sumf]. rewrite IH by (intros m Hm; apply H; lia). rewrite (proj2 (Qle_bool_iff _ _) (H n ltac:(lia))). reflexivity. Qed.

Lemma phases_slow s : schedule_valid bp_phases s -> fits bp_phases (fun _ => 2) s -> (s 0%nat 0%nat + 8 <= s 0%nat 2%nat)%Q.
Proof.
  intros [Va Se] Fi. pose (c := mkEdge 1 0 1 [1; 1] [2] [] [] 0). assert (I : In c (edges bp_phases)) by (left; reflexivity).
  pose proof (Se 0%nat _ eq_refl 0%nat) as S0. pose proof (Se 0%nat _ eq_refl 1%nat) as S1. change (s 0%nat 0%nat + 5 <= s 0%nat 1%nat)%Q in S0. change (s 0%nat 1%nat + 1 <= s 0%nat 2%nat)%Q in S1.
  assert (D0 : forall m, (0 <= exec_duration (task 1 [5%Q; 1%Q]) m)%Q) by (intros m; unfold exec_duration, cyclic; cbn [task v_init_durations v_durations length Nat.ltb Nat.leb]; destruct (nth_in_or_default ((m - 0) mod 2) [5%Q; 1%Q] 0%Q) as [[<-|[<-|[]]]| ->]; vm_compute; discriminate).
  assert (M0 : forall a b, (a <= b)%nat -> (s 0%nat a <= s 0%nat b)%Q) by (apply serial_mono; intros m; pose proof (Se 0%nat _ eq_refl m) as H; unfold start_of in H; pose proof (D0 m); lra).
  assert (M1 : forall a b, (a <= b)%nat -> (s 1%nat a <= s 1%nat b)%Q).
  { apply serial_mono. intros m. pose proof (Se 1%nat _ eq_refl m) as H. unfold start_of, exec_duration in H. cbn [task v_init_durations v_durations] in H. rewrite cyclic_one in H. lra. }
  (* the consumption waits for the second phase *)
  assert (A1 : (s 0%nat 1%nat + 1 <= s 1%nat 0%nat)%Q).
  { destruct (Qlt_le_dec (s 1%nat 0%nat) (s 0%nat 1%nat + 1)) as [L|L]; [exfalso|exact L]. destruct (Va c I (s 1%nat 0%nat) 1%nat) as (np & H).
    assert (P : moved_by (end_of s bp_phases (e_src c)) (prod_rate c) np (s 1%nat 0%nat) <= sumf (prod_rate c) 1).
    { apply moved_few.
      - intros m Hm H'. unfold end_of in H'. cbn [e_src c nth_error vertices bp_phases] in H'. destruct m as [|[|m]]; [lia|change (s 0%nat 1%nat + 1 <= s 1%nat 0%nat)%Q in H'; lra|]. pose proof (D0 (S (S m))). pose proof (M0 2%nat (S (S m)) ltac:(lia)). lra.
      - intros m. unfold prod_rate, cyclic. cbn [c e_in e_in_init length Nat.ltb Nat.leb]. destruct (nth_in_or_default ((m - 0) mod 2) [1; 1] 0) as [[<-|[<-|[]]]| ->]; lia. }
    change (sumf (prod_rate c) 1) with 1 in P. rewrite (moved_all (start_of s (e_dst c))) in H by (intros m Hm; replace m with 0%nat by lia; apply Qle_refl). change (sumf (cons_rate c) 1) with 2 in H. change (e_preload c) with 0 in H. lia. }
  (* the third execution waits for its room *)
  assert (A2 : (s 1%nat 0%nat + 2 <= s 0%nat 2%nat)%Q).
  { destruct (Qlt_le_dec (s 0%nat 2%nat) (s 1%nat 0%nat + 2)) as [L|L]; [exfalso|exact L]. destruct (Fi 0%nat c eq_refl (s 0%nat 2%nat) 3%nat) as (nc & H).
    assert (P : moved_by (end_of s bp_phases (e_dst c)) (cons_rate c) nc (s 0%nat 2%nat) <= sumf (cons_rate c) 0).
    { apply moved_few.
      - intros m _ H'. unfold end_of in H'. cbn [e_dst c nth_error vertices bp_phases] in H'. unfold exec_duration in H'. cbn [task v_init_durations v_durations] in H'. rewrite cyclic_one in H'. pose proof (M1 0%nat m ltac:(lia)). lra.
      - intros m. unfold cons_rate. cbn [c e_out e_out_init]. rewrite cyclic_one. lia. }
    change (sumf (cons_rate c) 0) with 0 in P. rewrite (moved_all (start_of s (e_src c))) in H by (intros m Hm; apply M0; lia). change (sumf (prod_rate c) 3) with 3 in H. change (e_preload c) with 0 in H. lia. }
  lra.
Qed.

Theorem C104_phases_refuted : exists g N period solve zs total more,
  graph_wf g /\ no_init g /\ balanced g N /\ whole_cycles g N /\ no_reentrancy g /\ (0 < period)%Q /\ work_fits g N period /\ sound_solver solve /\
  (forall c, In c (edges g) -> e_preload c = 0) /\ (exists p x, bp_lp g N period = Ok p /\ solve p = Some x /\ optimal p x) /\
  backpressure g N period solve = Ok (Some (zs, total, more)) /\ ~ runs_within g N period (with_room g zs).
Proof.
  exists bp_phases, phases_N, 6%Q, (try_point phases_start). eexists. eexists. eexists. split; [exact phases_wf|]. split; [intros v [<-|[<-|[]]]; reflexivity|]. split; [intros e [<-|[]]; reflexivity|].
  split; [intros i v E; destruct i as [|[|[|]]]; cbn in E; try discriminate; injection E as <-; (split; [reflexivity|exists 1; reflexivity])|]. split; [intros v [<-|[<-|[]]]; reflexivity|]. split; [reflexivity|].
  split; [intros i v E; destruct i as [|[|[|]]]; cbn in E; try discriminate; injection E as <-; vm_compute; discriminate|]. split; [apply try_point_sound|]. split; [intros e [<-|[]]; reflexivity|].
  split; [|split; [vm_compute; reflexivity|]].
  - eexists. exists phases_start. split; [vm_compute; reflexivity|]. split; [vm_compute; reflexivity|]. split; [apply (try_point_sound phases_start); vm_compute; reflexivity|].
    intros y [Fr Fc]. cbn [rows columns] in Fr, Fc. pose proof (Fr _ (or_introl eq_refl)) as R1. pose proof (Fc _ (or_introl eq_refl)) as [C0 _]. unfold objective, row_value in *. cbn in *. lra.
  - intros (s & Pe & Va & Fi). assert (F2 : fits bp_phases (fun _ => 2) s) by (intros k c E; destruct k as [|[|]]; cbn in E; try discriminate; exact (Fi 0%nat c E)).
    pose proof (phases_slow s Va F2) as H. pose proof (Pe 0%nat _ 0%nat eq_refl) as P. change (s 0%nat 2%nat == s 0%nat 0%nat + task_period 6 1 2 2)%Q in P. assert (T : (task_period 6 1 2 2 == 6)%Q) by reflexivity. lra.
Qed.
Print Assumptions C104_phases_refuted.

(** ** The period is taken as given. *)
(** Sizes are also reported for a period shorter than an execution, at which nothing runs. *)
Definition bp_late : graph := mkGraph [task 1 [5%Q]; task 2 [5%Q]] [mkEdge 1 0 1 [1] [1] [] [] 0].
Definition late_start (v : var) : Q := match v with Start 1 _ => 5%Q | _ => 0%Q end.
Theorem C104_period_refuted : exists g N period solve zs total more,
  graph_wf g /\ no_init g /\ single_phase g /\ balanced g N /\ whole_cycles g N /\ (0 < period)%Q /\ sound_solver solve /\ (forall c, In c (edges g) -> calm N period c) /\
  backpressure g N period solve = Ok (Some (zs, total, more)) /\ forall cap, ~ runs_evenly g N period cap.
Proof.
  exists bp_late, ones, 1%Q, (try_point late_start). eexists. eexists. eexists. split.
  { split; [|split].
    - intros v [<-|[<-|[]]]; (split; [vm_compute; lia|split; [reflexivity|split; [reflexivity|]]]); intros q [<-|[]]; vm_compute; discriminate.
    - intros e [<-|[]]; unfold edge_wf; cbn [e_src e_dst bp_late vertices nth_error]; do 2 eexists; (split; [reflexivity|]); (split; [reflexivity|]); cbn; repeat (split; [reflexivity|]); (split; [|lia]); intros z Hz; repeat (destruct Hz as [<-|Hz]; [discriminate|]); destruct Hz.
    - repeat constructor; cbn; lia. }
  split; [intros v [<-|[<-|[]]]; reflexivity|]. split; [intros v [<-|[<-|[]]]; reflexivity|]. split; [intros e [<-|[]]; reflexivity|].
  split; [intros i v E; pose proof (nth_error_In _ _ E) as I; split; [reflexivity|]; destruct I as [<-|[<-|[]]]; exists 1; reflexivity|]. split; [reflexivity|]. split; [apply try_point_sound|]. split; [intros e [<-|[]]; left; reflexivity|]. split; [vm_compute; reflexivity|].
  intros cap (s & Ev & [_ Se] & _). pose proof (Se 0%nat _ eq_refl 0%nat) as H. change (s 0%nat 0%nat + 5 <= s 0%nat 1%nat)%Q in H. pose proof (Ev 0%nat 1%nat ltac:(cbn; lia)) as E. change (s 0%nat 1%nat == s 0%nat 0%nat + inject_Z 1 * 1 / inject_Z 1)%Q in E. assert (T : (inject_Z 1 * 1 / inject_Z 1 == 1)%Q) by reflexivity. lra.
Qed.
Print Assumptions C104_period_refuted.

(** ** The lines that bound the phases *)
(** Over the phases by which [lam] tokens are moved: the consumption line is the lowest one of
    its slope above all of them, the feedback line the highest one below all of them. *)
Definition tokens_after (rates : list Z) (k : nat) : Z := sumZ (firstn (S k) rates).
Definition phase_at (lam : Z) (rates : list Z) (at_ : list Q) (k : nat) (t : Q) : Prop := (k < length rates)%nat /\ nth_error at_ k = Some t /\ lam <= tokens_after rates k.
Lemma cons_line lam a : forall rates at_ cumul best b, beta_cons_loop lam a cumul rates at_ best = Some b ->
  (forall b0, best = Some b0 -> (b0 <= b)%Q) /\ (forall k t, (k < length rates)%nat -> nth_error at_ k = Some t -> lam <= cumul + tokens_after rates k -> (inject_Z (cumul + tokens_after rates k) <= a * t + b)%Q) /\
  (best = Some b \/ exists k t, (k < length rates)%nat /\ nth_error at_ k = Some t /\ lam <= cumul + tokens_after rates k /\ (inject_Z (cumul + tokens_after rates k) == a * t + b)%Q).
Proof.
  induction rates as [|r rates IH]; intros at_ cumul best b E; cbn [beta_cons_loop] in E; [subst best; split; [intros b0 [= ->]; apply Qle_refl|]; split; [cbn; lia|left; reflexivity]|].
  destruct at_ as [|t at_]; [subst best; split; [intros b0 [= ->]; apply Qle_refl|]; split; [intros [|k] t _ H; discriminate|left; reflexivity]|]. apply IH in E. destruct E as (E1 & E2 & E3).
  assert (T0 : cumul + tokens_after (r :: rates) 0 = cumul + r) by (unfold tokens_after; cbn; lia). assert (TS : forall k, cumul + tokens_after (r :: rates) (S k) = cumul + r + tokens_after rates k) by (intros k; unfold tokens_after; cbn [firstn]; change (sumZ (?x :: ?m)) with (x + sumZ m); lia).
  set (best' := if lam <=? cumul + r then _ else best) in *.
  assert (M : (forall b0, best = Some b0 -> exists b1, best' = Some b1 /\ (b0 <= b1)%Q) /\ (lam <= cumul + r -> exists b1, best' = Some b1 /\ (inject_Z (cumul + r) <= a * t + b1)%Q) /\ (best' = best \/ lam <= cumul + r /\ exists b1, best' = Some b1 /\ (inject_Z (cumul + r) == a * t + b1)%Q)).
  { unfold best'. destruct (Z.leb_spec lam (cumul + r)) as [L|L]; [|split; [intros b0 ->; exists b0; split; [reflexivity|apply Qle_refl]|]; split; [lia|left; reflexivity]].
    destruct best as [b0|]; [destruct (Qle_bool (inject_Z (cumul + r)) (a * t + b0)) eqn:Q|].
    - apply Qle_bool_iff in Q. split; [intros b1 [= <-]; exists b0; split; [reflexivity|apply Qle_refl]|]. split; [intros _; exists b0; auto|left; reflexivity].
    - assert (Q' : (a * t + b0 < inject_Z (cumul + r))%Q) by (apply Qnot_le_lt; intros H; apply Qle_bool_iff in H; congruence). split; [intros b1 [= <-]; eexists; split; [reflexivity|lra]|]. split; [intros _; eexists; split; [reflexivity|lra]|right; split; [exact L|eexists; split; [reflexivity|lra]]].
    - split; [discriminate|]. split; [intros _; eexists; split; [reflexivity|lra]|right; split; [exact L|eexists; split; [reflexivity|lra]]]. }
  destruct M as (M1 & M2 & M3). split; [|split].
  - intros b0 H. destruct (M1 b0 H) as (b1 & H1 & L). pose proof (E1 b1 H1). lra.
  - intros [|k] t' Hk Ht L; cbn [nth_error] in Ht; cbn [length] in Hk; [injection Ht as <-; rewrite T0 in *; destruct (M2 L) as (b1 & H1 & L1); pose proof (E1 b1 H1); lra|]. rewrite TS in *. apply E2; [lia|exact Ht|exact L].
  - destruct E3 as [E3|(k & t' & A & A' & A'' & A3)]; [|right; exists (S k), t'; rewrite TS; cbn [length nth_error]; auto with arith]. destruct M3 as [M3|(L & b1 & H1 & Q)]; [left; congruence|]. right. exists 0%nat, t. rewrite T0. split; [cbn; lia|]. split; [reflexivity|]. split; [exact L|]. assert (b1 = b) by congruence. subst b1. exact Q.
Qed.
Lemma feed_line lam a : forall rates at_ cumul best b, beta_feed_loop lam a cumul rates at_ best = Some b ->
  (forall b0, best = Some b0 -> (b <= b0)%Q) /\ (forall k t, (k < length rates)%nat -> nth_error at_ k = Some t -> lam <= cumul + tokens_after rates k -> (a * t + b <= inject_Z (cumul + sumZ (firstn k rates) + 1))%Q) /\
  (best = Some b \/ exists k t, (k < length rates)%nat /\ nth_error at_ k = Some t /\ lam <= cumul + tokens_after rates k /\ (a * t + b == inject_Z (cumul + sumZ (firstn k rates) + 1))%Q).
Proof.
  induction rates as [|r rates IH]; intros at_ cumul best b E; cbn [beta_feed_loop] in E; [subst best; split; [intros b0 [= ->]; apply Qle_refl|]; split; [cbn; lia|left; reflexivity]|].
  destruct at_ as [|t at_]; [subst best; split; [intros b0 [= ->]; apply Qle_refl|]; split; [intros [|k] t _ H; discriminate|left; reflexivity]|]. apply IH in E. destruct E as (E1 & E2 & E3).
  assert (T0 : cumul + tokens_after (r :: rates) 0 = cumul + r) by (unfold tokens_after; cbn; lia). assert (TS : forall k, cumul + tokens_after (r :: rates) (S k) = cumul + r + tokens_after rates k) by (intros k; unfold tokens_after; cbn [firstn]; change (sumZ (?x :: ?m)) with (x + sumZ m); lia).
  assert (F0 : cumul + sumZ (firstn 0 (r :: rates)) + 1 = cumul + r + 1 - r) by (cbn; lia). assert (FS : forall k, cumul + sumZ (firstn (S k) (r :: rates)) + 1 = cumul + r + sumZ (firstn k rates) + 1) by (intros k; cbn [firstn]; change (sumZ (?x :: ?m)) with (x + sumZ m); lia).
  set (best' := if lam <=? cumul + r then _ else best) in *. set (lev := cumul + r + 1 - r) in *.
  assert (M : (forall b0, best = Some b0 -> exists b1, best' = Some b1 /\ (b1 <= b0)%Q) /\ (lam <= cumul + r -> exists b1, best' = Some b1 /\ (a * t + b1 <= inject_Z lev)%Q) /\ (best' = best \/ lam <= cumul + r /\ exists b1, best' = Some b1 /\ (a * t + b1 == inject_Z lev)%Q)).
  { unfold best'. destruct (Z.leb_spec lam (cumul + r)) as [L|L]; [|split; [intros b0 ->; exists b0; split; [reflexivity|apply Qle_refl]|]; split; [lia|left; reflexivity]].
    destruct best as [b0|]; [destruct (Qle_bool (a * t + b0) (inject_Z lev)) eqn:Q|].
    - apply Qle_bool_iff in Q. split; [intros b1 [= <-]; exists b0; split; [reflexivity|apply Qle_refl]|]. split; [intros _; exists b0; auto|left; reflexivity].
    - assert (Q' : (inject_Z lev < a * t + b0)%Q) by (apply Qnot_le_lt; intros H; apply Qle_bool_iff in H; congruence). split; [intros b1 [= <-]; eexists; split; [reflexivity|lra]|]. split; [intros _; eexists; split; [reflexivity|lra]|right; split; [exact L|eexists; split; [reflexivity|lra]]].
    - split; [discriminate|]. split; [intros _; eexists; split; [reflexivity|lra]|right; split; [exact L|eexists; split; [reflexivity|lra]]]. }
  destruct M as (M1 & M2 & M3). split; [|split].
  - intros b0 H. destruct (M1 b0 H) as (b1 & H1 & L). pose proof (E1 b1 H1). lra.
  - intros [|k] t' Hk Ht L; cbn [nth_error] in Ht; cbn [length] in Hk; [injection Ht as <-; rewrite T0 in L; rewrite F0; destruct (M2 L) as (b1 & H1 & L1); pose proof (E1 b1 H1); lra|]. rewrite TS in L. rewrite FS. apply E2; [lia|exact Ht|exact L].
  - destruct E3 as [E3|(k & t' & A & A' & A'' & A3)]; [|right; exists (S k), t'; rewrite TS, FS; cbn [length nth_error]; auto with arith]. destruct M3 as [M3|(L & b1 & H1 & Q)]; [left; congruence|]. right. exists 0%nat, t. rewrite T0, F0. split; [cbn; lia|]. split; [reflexivity|]. split; [exact L|]. assert (b1 = b) by congruence. subst b1. exact Q.
Qed.
Theorem C104_lines : forall lam a rates at_ b b',
  beta_cons_loop lam a 0 rates at_ None = Some b -> beta_feed_loop lam a 0 rates at_ None = Some b' ->
  (forall k t, phase_at lam rates at_ k t -> (inject_Z (tokens_after rates k) <= a * t + b)%Q /\ (a * t + b' <= inject_Z (sumZ (firstn k rates) + 1))%Q) /\
  (exists k t, phase_at lam rates at_ k t /\ (inject_Z (tokens_after rates k) == a * t + b)%Q) /\
  (exists k t, phase_at lam rates at_ k t /\ (a * t + b' == inject_Z (sumZ (firstn k rates) + 1))%Q).
Proof.
  intros lam a rates at_ b b' E E'. destruct (cons_line lam a rates at_ 0 None b E) as (_ & A1 & [A2|A2]); [discriminate|]. destruct (feed_line lam a rates at_ 0 None b' E') as (_ & B1 & [B2|B2]); [discriminate|].
  split; [|split].
  - intros k t (Hk & Ht & L). split; [exact (A1 k t Hk Ht L)|exact (B1 k t Hk Ht L)].
  - destruct A2 as (k & t & Hk & Ht & L & Q). exists k, t. split; [split; auto|exact Q].
  - destruct B2 as (k & t & Hk & Ht & L & Q). exists k, t. split; [split; auto|exact Q].
Qed.
Print Assumptions C104_lines.
Example C104_lines_not_vacuous : exists b b', beta_cons_loop 2 1 0 [1; 2; 1] [0; 3; 4]%Q None = Some b /\ beta_feed_loop 2 1 0 [1; 2; 1] [0; 3; 4]%Q None = Some b' /\ (b == 0)%Q /\ (b' == -1)%Q.
Proof. eexists. eexists. repeat split. Qed.
