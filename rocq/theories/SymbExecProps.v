(** C97-C100: symbolic execution. *)
From Coq Require Import QArith Permutation.
From Verif Require Import Base Graph KPeriodic ScheduleSpec KIterSpec RepVec RepVecSpec RepVecProofs RepVecProps SimScc SymbExec SymbExecSpec SymbExecProofs SymbExecEnd SymbExecTrace SymbExecFiring SymbExecFinal SymbExecContent.
Open Scope Z_scope.

(** * Glue *)
Lemma durations_fit g : graph_wf g -> single_phase g -> (forall v d, In v (vertices g) -> In d (v_durations v) -> (d <= inject_Z 2147483647)%Q) ->
  forall v, In v (vertices g) -> exists d, total_duration v = Ok d.
Proof.
  intros WF SDF H v Hv. destruct (proj1 WF v Hv) as (_ & L & _ & P). rewrite (SDF v Hv) in L. specialize (H v).
  unfold total_duration. destruct (v_durations v) as [|d [|d' l]] eqn:E; try discriminate. cbn [length Nat.ltb Nat.leb cassert bind accumulate_durations].
  assert (L0 : (0 <= d)%Q) by (apply P; left; reflexivity). assert (L1 : (d <= inject_Z 2147483647)%Q) by (apply H; [exact Hv|left; reflexivity]).
  set (x := (inject_Z 0 + d)%Q). assert (B : 0 <= Z.quot (Qnum x) (Zpos (Qden x)) <= 2147483647).
  { assert (Xd : (x == d)%Q) by (unfold x; ring). assert (X0 : (0 <= x)%Q) by (rewrite Xd; exact L0). assert (X1 : (x <= inject_Z 2147483647)%Q) by (rewrite Xd; exact L1).
    clearbody x.
    unfold Qle in X0, X1. cbn [Qnum Qden inject_Z] in *. rewrite Z.quot_div_nonneg by lia. split; [apply Z.div_pos; lia|]. apply Z.div_le_upper_bound; lia. }
  unfold Sim.int_max. replace (- (2147483647) - 1 <=? _) with true by (symmetry; apply Z.leb_le; lia).
  replace (Z.quot (Qnum x) (Zpos (Qden x)) <=? 2147483647) with true by (symmetry; apply Z.leb_le; lia). cbn [andb bind]. eauto.
Qed.

Definition empty_trace (psize : Z) : trace := mkTrace (fun _ => None) (fun _ => None) 0 psize [].
Lemma empty_inv psize : tinv (empty_trace psize).
Proof. constructor; cbn; try discriminate; [reflexivity|intros [|k] l H; discriminate|intros [|k] l d H; discriminate]. Qed.

Section W.
Variable g : graph.
Variable Nl : list Z.
Hypothesis WF : graph_wf g.
Hypothesis NI : no_init g.
Hypothesis CH : distinct_channels g.
Hypothesis NE : vertices g <> [].
Hypothesis RV : compute_repetition_vector (length (vertices g)) g = Ok (Some Nl).
Let N : nat -> Z := fun i => nth i Nl 0.

Lemma trace_run fuel psize k lines : 0 <= k -> symbolic_execution_with_packets fuel g psize k = Ok lines ->
  single_phase g /\ forall P : list nat -> trace -> Prop,
  (forall w i v x x', plays g w -> Z.of_nat (times i w) < N i * k -> ready g w i -> nth_error (vertices g) i = Some v -> P w x -> print_firing fuel g i v x = Ok x' -> P (w ++ [i]) x') ->
  P [] (empty_trace psize) -> exists w t, P w t /\ printed t = lines /\ forall i, (i < length (vertices g))%nat -> Z.of_nat (times i w) = N i * k.
Proof.
  intros Hk E. unfold symbolic_execution_with_packets in E. rewrite (counts_ok g Nl RV) in E. cbn [bind] in E.
  destruct (forallb _ (vertices g)) eqn:Fa; [|discriminate]. cbn [cassert bind] in E. fold N in E. fold (empty_trace psize) in E.
  destruct (loop g _ fuel _) as [(st, t)| | |] eqn:L; try discriminate. cbn [bind snd] in E.
  split. { intros v Hv. rewrite forallb_forall in Fa. apply Nat.eqb_eq. apply Fa. exact Hv. }
  intros P Step P0. destruct (loop_ends g (proj2 (proj2 WF)) CH (fun i => N i * k) _ P Step fuel [] _ _ _ _ (start g Nl WF CH NE RV k Hk) P0 L) as (w & Iw & Pw & T).
  exists w, t. split; [exact Pw|]. split; [congruence|]. exact (ended g Nl k w st Iw T).
Qed.

Lemma trace_ends fuel psize k size : 0 <= k -> live g N -> single_phase g -> 0 < size ->
  (forall v, In v (vertices g) -> 0 < v_id v) -> (forall v, In v (vertices g) -> exists d, total_duration v = Ok d) ->
  (forall c, In c (edges g) -> (size | edge_in_total c)) -> (forall c, In c (edges g) -> edge_in_total c <= Z.of_nat fuel) ->
  (psize = size \/ psize = 0 /\ forall c, In c (edges g) -> edge_in_total c = size) -> sumZ Nl * k <= Z.of_nat fuel ->
  exists lines, symbolic_execution_with_packets fuel g psize k = Ok lines.
Proof.
  intros Hk Lv SDF Hs Ids Du Dv Fu Ps Fk. unfold symbolic_execution_with_packets. rewrite (counts_ok g Nl RV). cbn [bind].
  replace (forallb (fun v => (v_phases v =? 1)%nat) (vertices g)) with true by (symmetry; apply forallb_forall; intros v Hv; apply Nat.eqb_eq; apply SDF; exact Hv).
  cbn [cassert bind]. fold N. fold (empty_trace psize).
  assert (Pos : forall c, In c (edges g) -> 0 < edge_in_total c) by (intros c Hc; destruct (edge_facts g WF NI c Hc) as (_ & _ & _ & _ & _ & _ & H & _); exact H).
  destruct (sdf_completes g Nl WF NI CH NE RV SDF (print_firing fuel g) (counted g size) k fuel (empty_trace psize)) as (st & t & E); auto.
  - intros w i v x x' _ _ _ _ C E. eapply counted_step; eauto.
  - intros w i v x _ _ _ Hv C. eapply counted_fires; eauto.
    + apply Du. eapply nth_error_In; eauto.
    + intros c Hc. split; [auto|]. destruct (proj1 (proj2 WF) c Hc) as (vs & vd & _ & E2 & _). apply nth_error_Some. congruence.
  - constructor; [apply empty_inv|exact Ps|reflexivity].
  - unfold N. rewrite E. cbn [bind]. eauto.
Qed.

Lemma sum_times (f : nat -> Z) w : (forall i, In i w -> (i < length (vertices g))%nat) ->
  sumZ (map f w) = sum_to (fun i => Z.of_nat (times i w) * f i) (length (vertices g)).
Proof using.
  clear. induction w as [|j w IH]; intros H.
  - rewrite (sum_to_ext _ (fun _ => 0)) by reflexivity. cbn. generalize (length (vertices g)). clear. induction n as [|n IH]; cbn; lia.
  - cbn [map sumZ fold_right]. change (fold_right Z.add 0 (map f w)) with (sumZ (map f w)). rewrite IH by (intros i Hi; apply H; right; exact Hi).
    rewrite (sum_to_change (fun i => Z.of_nat (times i w) * f i) (fun i => Z.of_nat (times i (j :: w)) * f i) j (f j)).
    + lia.
    + apply H. left. reflexivity.
    + unfold times. cbn [count_occ]. destruct (Nat.eq_dec j j); [lia|contradiction].
    + intros i Ni. unfold times. cbn [count_occ]. destruct (Nat.eq_dec j i); [congruence|reflexivity].
Qed.

Lemma plays_range w : plays g w -> forall i, In i w -> (i < length (vertices g))%nat.
Proof using. induction 1 as [|w i H IH Hi R]; intros j Hj; [destruct Hj|]. apply in_app_iff in Hj. destruct Hj as [Hj|[<-|[]]]; auto. Qed.
End W.

(** * C97: SymbolicExecution answers on live graphs only *)

(** Whatever the graph, an answer is "true", and then one iteration can be executed. *)
Theorem C97_answers_only_if_live : forall g N fuel b, graph_wf g -> no_init g -> distinct_channels g -> vertices g <> [] ->
  compute_repetition_vector (length (vertices g)) g = Ok (Some N) ->
  symbolic_execution fuel g = Ok b -> b = true /\ live g (fun i => nth i N 0).
Proof. intros g N fuel b WF NI CH NE RV. apply answer_live; assumption. Qed.
Print Assumptions C97_answers_only_if_live.

(** On synchronous graphs it answers exactly when the graph is live, after at most as many
    passes as one iteration has executions. *)
Theorem C97_synchronous_exact : forall g N fuel, graph_wf g -> no_init g -> distinct_channels g -> vertices g <> [] ->
  compute_repetition_vector (length (vertices g)) g = Ok (Some N) -> single_phase g -> sumZ N <= Z.of_nat fuel ->
  (live g (fun i => nth i N 0) <-> symbolic_execution fuel g = Ok true).
Proof.
  intros g N fuel WF NI CH NE RV SDF Fu. split; [intros L; apply (live_answers g N); assumption|]. intros E. eapply answer_live; eauto.
Qed.
Print Assumptions C97_synchronous_exact.

(** It never reports a deadlock: on a graph that is not live it runs for ever. *)
Theorem C97_deadlock_never_reported : forall g N, graph_wf g -> no_init g -> distinct_channels g -> vertices g <> [] ->
  compute_repetition_vector (length (vertices g)) g = Ok (Some N) -> ~ live g (fun i => nth i N 0) ->
  forall fuel, symbolic_execution fuel g = Timeout.
Proof. intros g N WF NI CH NE RV D fuel. apply (dead_hangs g N); assumption. Qed.
Print Assumptions C97_deadlock_never_reported.

(** Inconsistent graphs are refused: no run starts on a graph whose balance equations have
    no positive solution. *)
Theorem C97_inconsistent_rejected : forall g fuel psize k, rates_wf g -> vertices g <> [] -> ~ (moves_tokens g /\ exists M, solution g M) ->
  symbolic_execution fuel g = Rejected /\ program_order fuel g = Rejected /\ symbolic_execution_with_packets fuel g psize k = Rejected.
Proof.
  intros g fuel psize k WF NE H. assert (E : consistent_counts g = Rejected).
  { unfold consistent_counts. destruct (rv_exact g (length (vertices g)) WF NE (le_n _)) as [[_ S]|[-> _]]; [contradiction|reflexivity]. }
  unfold symbolic_execution, program_order, symbolic_execution_with_packets. rewrite E. auto.
Qed.
Print Assumptions C97_inconsistent_rejected.
(** Two channels that disagree: A makes 1 for B's 1 on one, 2 for B's 1 on the other. *)
Example disagreeing : forall fuel, symbolic_execution fuel (mkGraph [mkVertex 1 1 0 [1%Q] [] 1; mkVertex 2 1 0 [1%Q] [] 1] [mkEdge 1 0 1 [1] [1] [] [] 0; mkEdge 2 0 1 [2] [1] [] [] 0]) = Rejected.
Proof.
  intros fuel. apply C97_inconsistent_rejected; [exact 0|exact 0| |discriminate|].
  - split; [intros v [<-|[<-|[]]]; cbn; lia|]. intros c [<-|[<-|[]]]; do 2 eexists; repeat split; intros x [<-|[<-|[]]]; lia.
  - intros [_ (M & P & B)]. pose proof (B _ (or_introl eq_refl)) as B1. pose proof (B _ (or_intror (or_introl eq_refl))) as B2. unfold balanced in *. cbn [e_in e_out e_src e_dst length sumZ fold_right] in B1, B2. pose proof (P 0%nat ltac:(cbn; lia)). lia.
Qed.

Ltac in_cases := intros; repeat match goal with
  | H : In _ (_ :: _) |- _ => cbn in H
  | H : _ \/ _ |- _ => destruct H
  | H : False |- _ => destruct H
  end; subst.
Ltac wf_graph := split; [|split];
  [ cbn [vertices]; let v := fresh in let H := fresh in intros v H; cbn in H; repeat (destruct H as [<- |H]; [(split; [cbn; lia|split; [reflexivity|split; [reflexivity|]]]); cbn; in_cases; unfold Qle; cbn; lia|]); destruct H
  | cbn [edges]; let c := fresh in let H := fresh in intros c H; cbn in H; repeat (destruct H as [<- |H]; [eexists; eexists; (split; [reflexivity|split; [reflexivity|]]);
      repeat (split; [reflexivity|]); (split; [cbn; in_cases; lia|]); cbn; lia|]); destruct H
  | repeat constructor; cbn; intuition discriminate ].

(** Deciding [playable] on examples. *)
Definition step_b (g : graph) (p : list nat) (i : nat) : bool :=
  (i <? length (vertices g))%nat && forallb (fun c => negb (e_dst c =? i)%nat || (cons_rate c (times i p) <=? tokens c p)) (edges g).
Fixpoint playable_b (g : graph) (p w : list nat) : bool :=
  match w with [] => true | i :: w' => step_b g p i && playable_b g (p ++ [i]) w' end.
Lemma playable_b_ok g : forall w p, playable g p -> playable_b g p w = true -> playable g (p ++ w).
Proof.
  induction w as [|i w IH]; intros p Hp H; [rewrite app_nil_r; exact Hp|]. cbn [playable_b] in H. apply andb_prop in H. destruct H as [H1 H2].
  replace (p ++ i :: w) with ((p ++ [i]) ++ w) by (rewrite <- app_assoc; reflexivity). apply IH; [|exact H2]. apply playable_snoc; [exact Hp|].
  unfold step_b in H1. apply andb_prop in H1. destruct H1 as [A B]. split; [apply Nat.ltb_lt; exact A|]. intros c Hc E. rewrite forallb_forall in B. specialize (B c Hc).
  rewrite (proj2 (Nat.eqb_eq _ _) E) in B. cbn in B. apply Z.leb_le. exact B.
Qed.

(** A and B exchange tokens: A produces 1, B consumes 2 and gives them back. *)
Definition ring : graph :=
  mkGraph [mkVertex 1 1 0 [3%Q] [] 0; mkVertex 2 1 0 [2%Q] [] 0]
          [mkEdge 1 0 1 [1] [2] [] [] 0; mkEdge 2 1 0 [2] [1] [] [] 2].
Lemma ring_wf : graph_wf ring. Proof. wf_graph. Qed.
Lemma ring_no_init : no_init ring. Proof. intros v [<-|[<-|[]]]; reflexivity. Qed.
Lemma ring_channels : distinct_channels ring. Proof. repeat constructor; cbn; intuition discriminate. Qed.
Lemma ring_single : single_phase ring. Proof. intros v [<-|[<-|[]]]; reflexivity. Qed.
Lemma ring_vector : compute_repetition_vector 2 ring = Ok (Some [2; 1]). Proof. vm_compute. reflexivity. Qed.
Lemma ring_live : live ring (fun i => nth i [2; 1] 0).
Proof.
  exists [0; 0; 1]%nat. split; [apply (playable_b_ok ring [0; 0; 1]%nat [] (playable_nil _)); vm_compute; reflexivity|].
  intros [|[|i]] Hi; [reflexivity|reflexivity|cbn in Hi; lia].
Qed.
Example ring_answers : symbolic_execution 3 ring = Ok true.
Proof. apply (C97_synchronous_exact ring [2; 1] 3 ring_wf ring_no_init ring_channels ltac:(discriminate) ring_vector ring_single ltac:(cbn; lia)). exact ring_live. Qed.
Example ring_runs : symbolic_execution 2 ring = Ok true. Proof. vm_compute. reflexivity. Qed.

(** The same ring with a single token is not live. *)
Definition short_ring : graph :=
  mkGraph [mkVertex 1 1 0 [3%Q] [] 0; mkVertex 2 1 0 [2%Q] [] 0]
          [mkEdge 1 0 1 [1] [2] [] [] 0; mkEdge 2 1 0 [2] [1] [] [] 1].
Lemma short_ring_wf : graph_wf short_ring. Proof. wf_graph. Qed.
Lemma plays_nonneg g w c : plays g w -> In c (edges g) -> 0 <= e_preload c -> 0 <= edge_in_total c -> 0 <= tok c w.
Proof.
  intros H Hc P0 P1. induction H as [|w i H IH Hi R]; [unfold tok; cbn; lia|]. rewrite tok_snoc. destruct (Nat.eqb_spec (e_dst c) i) as [E|E].
  - specialize (R c Hc E). destruct (e_src c =? i)%nat; lia.
  - destruct (e_src c =? i)%nat; lia.
Qed.
Lemma short_ring_dead : ~ live short_ring (fun i => nth i [2; 1] 0).
Proof.
  intros (w & P & T). assert (X : (times 0 w <= 1 /\ times 1 w = 0)%nat).
    { clear T. induction P as [|w i P (IH0 & IH1) (Hi & En)]; [split; cbn; lia|]. rewrite !times_snoc. cbn in Hi.
      pose proof (En (mkEdge 1 0 1 [1] [2] [] [] 0) (or_introl eq_refl)) as E1. pose proof (En (mkEdge 2 1 0 [2] [1] [] [] 1) (or_intror (or_introl eq_refl))) as E2.
      destruct i as [|[|i]]; [| |lia].
      - clear E1. specialize (E2 eq_refl). cbn [Nat.eqb]. split; [|lia]. unfold tokens in E2. cbn [e_preload e_src e_dst] in E2. rewrite IH1 in E2. cbn [sumf] in E2.
        destruct (times 0 w) as [|[|n]] eqn:K; [lia| |lia]. vm_compute in E2. congruence.
      - clear E2. specialize (E1 eq_refl). unfold tokens in E1. cbn [e_preload e_src e_dst] in E1. rewrite IH1 in E1. cbn [sumf] in E1.
        destruct (times 0 w) as [|[|n]] eqn:K; [vm_compute in E1; congruence|vm_compute in E1; congruence|lia]. }
    specialize (T 1%nat ltac:(cbn; lia)). cbn in T. lia.
Qed.
Example short_ring_hangs : forall fuel, symbolic_execution fuel short_ring = Timeout.
Proof.
  apply (C97_deadlock_never_reported short_ring [2; 1]).
  - exact short_ring_wf.
  - intros v [<-|[<-|[]]]; reflexivity.
  - repeat constructor; cbn; intuition discriminate.
  - discriminate.
  - vm_compute. reflexivity.
  - exact short_ring_dead.
Qed.

(** Refutation for cyclo-static graphs: the loop counts a phase as a whole cycle, so it runs
    for ever on a live graph.  A writes one token, B reads one in each of its two phases. *)
Definition two_phases : graph :=
  mkGraph [mkVertex 1 1 0 [1%Q] [] 0; mkVertex 2 2 0 [1%Q; 1%Q] [] 0] [mkEdge 1 0 1 [1] [1; 1] [] [] 0].
Theorem C97_cyclostatic_refuted : exists g N, graph_wf g /\ no_init g /\ distinct_channels g /\ vertices g <> [] /\
  compute_repetition_vector (length (vertices g)) g = Ok (Some N) /\ live g (fun i => nth i N 0) /\
  forall fuel, symbolic_execution fuel g = Timeout.
Proof.
  assert (WF : graph_wf two_phases) by wf_graph.
  assert (NI : no_init two_phases) by (intros v [<-|[<-|[]]]; reflexivity).
  assert (CH : distinct_channels two_phases) by (repeat constructor; cbn; intuition discriminate).
  assert (RV : compute_repetition_vector (length (vertices two_phases)) two_phases = Ok (Some [2; 2])) by (vm_compute; reflexivity).
  exists two_phases, [2; 2]. repeat (split; [assumption || discriminate|]). split.
  - exists [0; 1; 0; 1]%nat. split; [apply (playable_b_ok two_phases [0; 1; 0; 1]%nat [] (playable_nil _)); vm_compute; reflexivity|].
    intros [|[|i]] Hi; [reflexivity|reflexivity|cbn in Hi; lia].
  - intros fuel. destruct (answer_or_hang two_phases [2; 2] WF NI CH ltac:(discriminate) RV fuel) as [E|E]; [|exact E]. exfalso.
    unfold symbolic_execution in E. rewrite (counts_ok two_phases [2; 2] RV) in E. cbn [bind] in E.
    destruct (loop two_phases _ fuel _) as [(st, x)| | |] eqn:L; try discriminate.
    destruct (loop_ends two_phases (proj2 (proj2 WF)) CH (fun i => nth i [2; 2] 0 * 1) (fun _ _ x => Ok x) (fun _ _ => True) (fun _ _ _ _ _ _ _ _ _ _ _ => I) fuel [] _ _ _ _ (start two_phases [2; 2] WF CH ltac:(discriminate) RV 1 ltac:(lia)) I L) as (w & Iw & _ & T).
    pose proof (ended two_phases [2; 2] 1 w st Iw T) as C. pose proof (C 0%nat ltac:(cbn; lia)) as C0. pose proof (C 1%nat ltac:(cbn; lia)) as C1.
    pose proof (plays_nonneg two_phases w (mkEdge 1 0 1 [1] [1; 1] [] [] 0) (inv_plays _ _ _ _ Iw) (or_introl eq_refl) ltac:(cbn; lia) ltac:(cbn; lia)) as B.
    unfold tok in B. cbn [e_preload e_src e_dst edge_in_total edge_out_total e_in e_out sumZ fold_right] in B. cbn [nth] in C0, C1. rewrite C0, C1 in B. lia.
Qed.
Print Assumptions C97_cyclostatic_refuted.

(** * C98: the program order *)

(** The returned order contains each task once, and a task whose input channel does not hold
    enough initial tokens comes after the task that feeds it. *)
Theorem C98_program_order : forall g N fuel order, graph_wf g -> no_init g -> distinct_channels g -> vertices g <> [] ->
  compute_repetition_vector (length (vertices g)) g = Ok (Some N) -> program_order fuel g = Ok order ->
  Permutation order (map v_id (vertices g)) /\
  forall c vs vd, In c (edges g) -> nth_error (vertices g) (e_src c) = Some vs -> nth_error (vertices g) (e_dst c) = Some vd ->
    e_preload c < sumZ (e_out c) -> exists before after, order = before ++ v_id vs :: after /\ In (v_id vd) after.
Proof.
  intros g N fuel order WF NI CH NE RV E. unfold program_order in E. rewrite (counts_ok g N RV) in E. cbn [bind] in E.
  destruct (loop g note_first fuel _) as [(st, o)| | |] eqn:L; try discriminate. cbn [bind snd] in E. injection E as <-.
  destruct (loop_ends g (proj2 (proj2 WF)) CH (fun i => nth i N 0 * 1) note_first (ordered g)
     (fun w i v x x' P _ R Hv O E => ordered_step g (proj2 (proj2 WF)) w i v x x' P R Hv O E) fuel [] (initial_state g (fun i => nth i N 0) 1) [] st o (start g N WF CH NE RV 1 ltac:(lia))) with (2 := L) as (w & Iw & (ND & IFF & SUB & PR) & T).
  - split; [constructor|]. split; [intros i v _; split; intros []|]. split; [intros x []|]. intros c vs vd _ _ _ _ [].
  - pose proof (ended g N 1 w st Iw T) as C. destruct (rv_facts g N WF NE RV) as (_ & Pos & _).
    assert (ALL : forall i v, nth_error (vertices g) i = Some v -> In (v_id v) o).
    { intros i v Hv. apply (IFF i v Hv). apply times_in. assert (Hi : (i < length (vertices g))%nat) by (apply nth_error_Some; congruence). specialize (C i Hi). specialize (Pos i Hi). cbv beta in *.
 cbn [app]. lia. }
    split.
    + apply NoDup_Permutation; [exact ND|apply WF|]. intros x. split; [apply SUB|]. intros Hx. apply in_map_iff in Hx. destruct Hx as (v & <- & Hv).
      apply In_nth_error in Hv. destruct Hv as (i & Hv). exact (ALL i v Hv).
    + intros c vs vd Hc Es Ed Lt. apply (PR c vs vd Hc Es Ed Lt). exact (ALL _ _ Ed).
Qed.
Print Assumptions C98_program_order.

(** A live synchronous graph has a program order. *)
Theorem C98_program_order_exists : forall g N fuel, graph_wf g -> no_init g -> distinct_channels g -> vertices g <> [] ->
  compute_repetition_vector (length (vertices g)) g = Ok (Some N) -> single_phase g -> live g (fun i => nth i N 0) -> sumZ N <= Z.of_nat fuel ->
  exists order, program_order fuel g = Ok order.
Proof.
  intros g N fuel WF NI CH NE RV SDF Lv Fu.
  destruct (sdf_completes g N WF NI CH NE RV SDF note_first (fun _ _ => True) 1 fuel []) as (st & o & E); auto; try lia.
  - intros w i v x _ _ _ _ _. eexists. reflexivity.
  - unfold program_order. rewrite (counts_ok g N RV). cbn [bind]. rewrite E. cbn. eauto.
Qed.
Print Assumptions C98_program_order_exists.
Example ring_order : program_order 2 ring = Ok [1; 2]. Proof. vm_compute. reflexivity. Qed.

(** * C99: the trace of packets *)

(** Lines are numbered in order and only depend on earlier lines; executions of one task are
    ordered by their dependencies, so that a replay never overlaps two of them. *)
Theorem C99_trace_is_ordered : forall g N fuel psize k lines, graph_wf g -> no_init g -> distinct_channels g -> vertices g <> [] ->
  compute_repetition_vector (length (vertices g)) g = Ok (Some N) -> no_self_loops g -> 0 <= k ->
  symbolic_execution_with_packets fuel g psize k = Ok lines ->
  numbered lines /\ depends_on_past lines /\
  forall a b la lb t, (a < b)%nat -> nth_error lines a = Some la -> nth_error lines b = Some lb ->
    execution_of la t -> execution_of lb t -> precedes lines a b.
Proof.
  intros g N fuel psize k lines WF NI CH NE RV NL Hk E.
  destruct (trace_run g N WF CH NE RV fuel psize k lines Hk E) as (SDF & R).
  destruct (R (chain g)) as (w & t & [I _ _ O] & <- & _).
  - intros w i v x x' _ _ _ Hv C F. apply (chain_step g (proj2 (proj2 WF)) CH NL fuel w i v x x' Hv C F).
  - constructor; [apply empty_inv| | |]; cbn; intros; destruct k0 + destruct a; discriminate.
  - split; [apply I|]. split; [apply I|]. exact O.
Qed.
Print Assumptions C99_trace_is_ordered.

(** On a live synchronous graph, with a packet size that divides every production, the trace
    is printed: one line per execution and one per packet. *)
Theorem C99_trace_is_complete : forall g N fuel psize k, graph_wf g -> no_init g -> distinct_channels g -> vertices g <> [] ->
  compute_repetition_vector (length (vertices g)) g = Ok (Some N) -> single_phase g -> live g (fun i => nth i N 0) ->
  (forall v, In v (vertices g) -> 0 < v_id v) ->
  (forall v d, In v (vertices g) -> In d (v_durations v) -> (d <= inject_Z 2147483647)%Q) ->
  0 <= k -> 0 < psize -> (forall c, In c (edges g) -> (psize | sumZ (e_in c))) ->
  sumZ N * k <= Z.of_nat fuel -> (forall c, In c (edges g) -> sumZ (e_in c) <= Z.of_nat fuel) ->
  exists lines, symbolic_execution_with_packets fuel g psize k = Ok lines /\
    Z.of_nat (length lines) = sum_to (fun i => nth i N 0 * k * lines_per_execution g psize i) (length (vertices g)).
Proof.
  intros g N fuel psize k WF NI CH NE RV SDF Lv Ids Du Hk Hs Dv Fk Fr.
  destruct (trace_ends g N WF NI CH NE RV fuel psize k psize Hk Lv SDF Hs Ids (durations_fit g WF SDF Du) Dv Fr (or_introl eq_refl) Fk) as (lines & E).
  exists lines. split; [exact E|].
  assert (Pos : forall c, In c (edges g) -> 0 < edge_in_total c /\ (psize | edge_in_total c)) by (intros c Hc; split; [destruct (edge_facts g WF NI c Hc) as (_ & _ & _ & _ & _ & _ & H & _); exact H|apply Dv; exact Hc]).
  destruct (trace_run g N WF CH NE RV fuel psize k lines Hk E) as (_ & R).
  destruct (R (fun w t => counted g psize w t /\ plays g w)) as (w & t & ([_ _ C] & PW) & <- & T).
  - intros w i v x x' P _ Rd Hv (Cw & _) F. split; [eapply counted_step; eauto|]. apply plays_snoc; [exact P|apply nth_error_Some; congruence|exact Rd].
  - split; [|constructor]. constructor; [apply empty_inv|left; reflexivity|reflexivity].
  - rewrite C, (sum_times g _ w (plays_range g w PW)). apply sum_to_ext. intros i Hi. rewrite (T i Hi). reflexivity.
Qed.
Print Assumptions C99_trace_is_complete.

(** What the lines say: there is an order of the executions of all the iterations that the
    tokens allow, and the lines are those its executions announce, in that order. *)
Theorem C99_trace_content : forall g N fuel psize k lines, graph_wf g -> no_init g -> distinct_channels g -> vertices g <> [] ->
  compute_repetition_vector (length (vertices g)) g = Ok (Some N) -> 0 <= k -> 0 < psize ->
  symbolic_execution_with_packets fuel g psize k = Ok lines ->
  exists w, playable g w /\ (forall i, (i < length (vertices g))%nat -> Z.of_nat (times i w) = nth i N 0 * k) /\
    map route lines = flat_map (announced g psize) w.
Proof.
  intros g N fuel psize k lines WF NI CH NE RV Hk Hs E.
  destruct (trace_run g N WF CH NE RV fuel psize k lines Hk E) as (SDF & R).
  assert (Pos : forall c, In c (edges g) -> 0 <= edge_in_total c) by (intros c Hc; destruct (edge_facts g WF NI c Hc) as (_ & _ & _ & _ & _ & _ & H & _); apply Z.lt_le_incl; exact H).
  destruct (R (fun w t => said g psize w t /\ plays g w)) as (w & t & ((_ & Sd) & PW) & <- & T).
  - intros w i v x x' P _ Rd Hv (Sw & _) F. split.
    + assert (Hin : In v (vertices g)) by (eapply nth_error_In; eauto). destruct (proj1 WF v Hin) as (_ & L & _ & Du). rewrite (SDF v Hin) in L.
      eapply said_step; eauto. intros y Hy. apply Du. apply in_or_app. left. exact Hy.
    + apply plays_snoc; [exact P|apply nth_error_Some; congruence|exact Rd].
  - split; [split; reflexivity|constructor].
  - exists w. split; [|split; [exact T|exact Sd]]. pose proof (plays_playable g WF NI w PW) as PL.
    replace (spell g w) with w in PL; [exact PL|]. clear - PW SDF. pose proof (plays_range g w PW) as RG. clear PW. induction w as [|i w IH]; [reflexivity|].
    cbn [spell flat_map]. fold (spell g w). rewrite <- IH by (intros j Hj; apply RG; right; exact Hj). unfold phases.
    destruct (nth_error (vertices g) i) as [v|] eqn:Ev; [rewrite (SDF v (nth_error_In _ _ Ev)); reflexivity|]. apply nth_error_None in Ev. specialize (RG i (or_introl eq_refl)). lia.
Qed.
Print Assumptions C99_trace_content.

(** A packet follows, in the dependencies too, the execution that produces it: the last
    execution printed before it, which is one of its source. *)
Theorem C99_packets_follow_production : forall g N fuel psize k lines, graph_wf g -> no_init g -> distinct_channels g -> vertices g <> [] ->
  compute_repetition_vector (length (vertices g)) g = Ok (Some N) -> no_self_loops g -> 0 <= k ->
  symbolic_execution_with_packets fuel g psize k = Ok lines ->
  forall b lb, nth_error lines b = Some lb -> l_src lb <> l_dst lb ->
  exists a la, nth_error lines a = Some la /\ execution_of la (l_src lb) /\ precedes lines a b /\
    forall c lc, (a < c <= b)%nat -> nth_error lines c = Some lc -> l_src lc = l_src lb /\ l_dst lc <> l_src lb.
Proof.
  intros g N fuel psize k lines WF NI CH NE RV NL Hk E.
  destruct (trace_run g N WF CH NE RV fuel psize k lines Hk E) as (_ & R).
  destruct (R (fun _ t => tinv t /\ follows t)) as (w & t & (_ & F) & <- & _); [| |exact F].
  - intros w i v x x' _ _ _ Hv (I & F) E'. apply (follows_step g (proj2 (proj2 WF)) CH NL fuel i v x x' Hv I F E').
  - split; [apply empty_inv|]. intros [|b] lb H; discriminate.
Qed.
Print Assumptions C99_packets_follow_production.

Example ring_trace : symbolic_execution_with_packets 3 ring 1 1 = Ok
  [mkLine 1 1 3 0 []; mkLine 1 2 0 1 [0]; mkLine 1 1 3 2 [0]; mkLine 1 2 0 3 [2];
   mkLine 2 2 2 4 [3]; mkLine 2 1 0 5 [3; 4]; mkLine 2 1 0 6 [3; 5]].
Proof. vm_compute. reflexivity. Qed.
Example ring_trace_hypotheses : exists lines, symbolic_execution_with_packets 6 ring 1 2 = Ok lines /\ Z.of_nat (length lines) = 14.
Proof.
  apply (C99_trace_is_complete ring [2; 1] 6 1 2 ring_wf ring_no_init ring_channels ltac:(discriminate) ring_vector ring_single ring_live).
  - intros v [<-|[<-|[]]]; reflexivity.
  - intros v d [<-|[<-|[]]] [<-|[]]; unfold Qle; cbn; lia.
  - lia.
  - lia.
  - intros c _. apply Z.divide_1_l.
  - cbn. lia.
  - intros c [<-|[<-|[]]]; cbn; lia.
Qed.

(** Durations are printed without their fraction: a task of 3/2 time units is printed as 1. *)
Theorem C99_duration_refuted : exists g lines l, graph_wf g /\ symbolic_execution_with_packets 1 g 1 1 = Ok lines /\
  In l lines /\ execution_of l 1 /\ vertices g = [mkVertex 1 1 0 [(3 # 2)%Q] [] 0] /\ ~ (l_duration l == 3 # 2)%Q.
Proof.
  exists (mkGraph [mkVertex 1 1 0 [(3 # 2)%Q] [] 0] []), [mkLine 1 1 1 0 []], (mkLine 1 1 1 0 []).
  split; [wf_graph|]. split; [vm_compute; reflexivity|]. split; [left; reflexivity|]. split; [split; reflexivity|]. split; [reflexivity|]. intros H. discriminate H.
Qed.
Print Assumptions C99_duration_refuted.

(** * C100: packets and tokens *)

(** The trace is printed only if the packet size divides every production; without a packet
    size, the first production plays its part. *)
Theorem C100_packet_size : forall g N fuel psize k lines, graph_wf g -> no_init g -> distinct_channels g -> vertices g <> [] ->
  compute_repetition_vector (length (vertices g)) g = Ok (Some N) -> 0 < k -> edges g <> [] ->
  symbolic_execution_with_packets fuel g psize k = Ok lines ->
  exists size, (psize <> 0 -> size = psize) /\ (psize = 0 -> exists c, In c (edges g) /\ size = sumZ (e_in c)) /\
    forall c, In c (edges g) -> (size | sumZ (e_in c)).
Proof.
  intros g N fuel psize k lines WF NI CH NE RV Hk EE E.
  destruct (trace_run g N WF CH NE RV fuel psize k lines ltac:(lia) E) as (_ & R).
  assert (Pos : forall c, In c (edges g) -> 0 < edge_in_total c) by (intros c Hc; destruct (edge_facts g WF NI c Hc) as (_ & _ & _ & _ & _ & _ & H & _); exact H).
  destruct (R (fun w t => sized g psize (fired_by w) t)) as (w & t & (S1 & S2 & S3) & _ & T).
  - intros w i v x x' _ _ _ _ Sz F. eapply sized_step; eauto.
  - split; [intros c _ []|]. split; [reflexivity|]. intros ->. left. split; [reflexivity|]. intros c _ [].
  - assert (FI : forall c, In c (edges g) -> fired_by w c).
    { intros c Hc. apply times_in. destruct (proj1 (proj2 WF) c Hc) as (vs & vd & E1 & _). assert (Hi : (e_src c < length (vertices g))%nat) by (apply nth_error_Some; congruence).
      specialize (T _ Hi). destruct (rv_facts g N WF NE RV) as (_ & P & _). specialize (P _ Hi). nia. }
    exists (packet_size t). split; [exact S2|]. split; [|intros c Hc; apply (S1 c Hc (FI c Hc))].
    intros P0. destruct (S3 P0) as [[_ B]|[_ A]]; [|exact A]. destruct (edges g) as [|c es]; [congruence|]. exfalso. apply (B c (or_introl eq_refl)). apply FI. left. reflexivity.
Qed.
Print Assumptions C100_packet_size.

(** So the default, announced as "unlimited size", never ends when two productions differ and
    neither divides the other. *)
Definition fork : graph :=
  mkGraph [mkVertex 1 1 0 [1%Q] [] 0; mkVertex 2 1 0 [1%Q] [] 0; mkVertex 3 1 0 [1%Q] [] 0]
          [mkEdge 1 0 1 [2] [2] [] [] 0; mkEdge 2 0 2 [3] [3] [] [] 0].
Theorem C100_unlimited_size_refuted : exists g N, graph_wf g /\ no_init g /\ distinct_channels g /\ single_phase g /\
  compute_repetition_vector (length (vertices g)) g = Ok (Some N) /\ live g (fun i => nth i N 0) /\
  forall fuel lines, symbolic_execution_with_packets fuel g 0 1 <> Ok lines.
Proof.
  assert (WF : graph_wf fork) by wf_graph.
  assert (NI : no_init fork) by (intros v [<-|[<-|[<-|[]]]]; reflexivity).
  assert (CH : distinct_channels fork) by (repeat constructor; cbn; intuition discriminate).
  assert (RV : compute_repetition_vector (length (vertices fork)) fork = Ok (Some [1; 1; 1])) by (vm_compute; reflexivity).
  exists fork, [1; 1; 1]. split; [exact WF|]. split; [exact NI|]. split; [exact CH|]. split; [intros v [<-|[<-|[<-|[]]]]; reflexivity|]. split; [exact RV|]. split.
  - exists [0; 1; 2]%nat. split; [apply (playable_b_ok fork [0; 1; 2]%nat [] (playable_nil _)); vm_compute; reflexivity|].
    intros [|[|[|i]]] Hi; [reflexivity|reflexivity|reflexivity|cbn in Hi; lia].
  - intros fuel lines E. destruct (C100_packet_size fork [1; 1; 1] fuel 0 1 lines WF NI CH ltac:(discriminate) RV ltac:(lia) ltac:(discriminate) E) as (s & _ & H & D).
    destruct (H eq_refl) as (c & Hc & ->). pose proof (D _ (or_introl eq_refl)) as D1. pose proof (D _ (or_intror (or_introl eq_refl))) as D2. cbn in Hc, D1, D2.
    destruct Hc as [<-|[<-|[]]]; cbn in D1, D2; [destruct D2 as [q Q]; lia|destruct D1 as [q Q]; lia].
Qed.
Print Assumptions C100_unlimited_size_refuted.

(** When each task executes once, an execution waits for every packet sent to its task
    before it: missing for several executions, see below. *)
Theorem C100_waits_for_packets_partial : forall g N fuel psize lines, graph_wf g -> no_init g -> distinct_channels g -> vertices g <> [] ->
  compute_repetition_vector (length (vertices g)) g = Ok (Some N) -> no_self_loops g -> (forall x, In x N -> x = 1) ->
  symbolic_execution_with_packets fuel g psize 1 = Ok lines ->
  forall a b la lb t, (a < b)%nat -> nth_error lines a = Some la -> nth_error lines b = Some lb ->
    packet_to la t -> execution_of lb t -> precedes lines a b.
Proof.
  intros g N fuel psize lines WF NI CH NE RV NL Ones E.
  destruct (trace_run g N WF CH NE RV fuel psize 1 lines ltac:(lia) E) as (SDF & R).
  destruct (R (once g)) as (w & t & [_ _ O] & <- & _); [| |exact O].
  - intros w i v x x' _ Lt _ Hv C F. apply (once_step g (proj2 (proj2 WF)) CH NL fuel w i v x x' Hv); auto.
    intros Hin. apply times_in in Hin. destruct (rv_facts g N WF NE RV) as (Ln & _). assert (Hi : (i < length N)%nat) by (rewrite Ln; apply nth_error_Some; congruence).
    rewrite (Ones (nth i N 0) (nth_In _ _ Hi)) in Lt. lia.
  - constructor; [constructor; [apply empty_inv| | |]| |]; cbn; intros; destruct k + destruct a; discriminate.
Qed.
Print Assumptions C100_waits_for_packets_partial.
Example fork_trace : symbolic_execution_with_packets 3 fork 1 1 = Ok
  [mkLine 1 1 1 0 []; mkLine 1 2 0 1 [0]; mkLine 1 2 0 2 [1]; mkLine 1 3 0 3 [0]; mkLine 1 3 0 4 [3]; mkLine 1 3 0 5 [4];
   mkLine 2 2 1 6 [2]; mkLine 3 3 1 7 [5]].
Proof. vm_compute. reflexivity. Qed.

(** Refutation in general: a task that needs the tokens of two executions only waits for the
    packet of the second.  In the trace of [ring], line 4 is the only execution of task 2, it
    consumes the two tokens of lines 1 and 3, and nothing orders line 1 before it. *)
Theorem C100_second_packet_only_refuted : exists g lines a b la lb, graph_wf g /\ no_self_loops g /\ single_phase g /\
  symbolic_execution_with_packets 3 g 1 1 = Ok lines /\ (a < b)%nat /\ nth_error lines a = Some la /\ nth_error lines b = Some lb /\
  packet_to la 2 /\ execution_of lb 2 /\ ~ precedes lines a b.
Proof.
  exists ring. eexists. exists 1%nat, 4%nat. eexists. eexists. split; [exact ring_wf|]. split; [intros c [<-|[<-|[]]]; discriminate|]. split; [exact ring_single|].
  split; [exact ring_trace|]. split; [lia|]. split; [reflexivity|]. split; [reflexivity|]. split; [split; cbn; [discriminate|reflexivity]|]. split; [split; reflexivity|].
  set (ls := _ :: _). intros H.
  assert (G : forall a b, precedes ls a b -> a = 1%nat -> b = 4%nat \/ b = 3%nat \/ b = 2%nat \/ b = 0%nat -> False).
  { intros a b P Ea. induction P as [a b (l & Hl & D)|a b c P IH (l & Hl & D)]; intros Hb.
    - subst a. destruct Hb as [-> |[-> |[-> | ->]]]; cbn in Hl; injection Hl as <-; cbn in D; destruct D as [D|[]] || destruct D; discriminate.
    - specialize (IH Ea). apply IH. destruct Hb as [-> |[-> |[-> | ->]]]; cbn in Hl; injection Hl as <-; cbn [l_deps In] in D; [destruct D as [D|[]]|destruct D as [D|[]]|destruct D as [D|[]]|destruct D]; lia. }
  apply (G 1%nat 4%nat H eq_refl). left. reflexivity.
Qed.
Print Assumptions C100_second_packet_only_refuted.
