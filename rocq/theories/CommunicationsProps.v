(** C120, C121, C122: the network communications modelled as tasks. *)
From Coq Require Import QArith Lqa Permutation.
From Verif Require Import Base Graph ScheduleSpec ScheduleCore SymbExecSpec KPeriodic KPeriodicSpec KPeriodicEnd KPeriodicProps EventGraph EventGraphSpec
  KIter KIterSpec KIterProofs KIterLoop KIterFinal KIterProps PeriodicProofs RandomGenLoop
  Communications CommunicationsSpec CommunicationsProofs CommunicationsLive CommunicationsStep CommunicationsAll.
Open Scope Z_scope.

Lemma outcome route virtual st st' : graph_wf (st_graph st) -> no_init (st_graph st) -> edge_ids_ok (st_graph st) -> 0 < st_enum st -> routed route virtual (st_graph st) ->
  model_communications route virtual st = Ok st' -> outcome_of route st st' (map e_id (edges (st_graph st))) /\ map snd (st_links st') = map snd (st_links st) ++ flat_map (crossed route) (edges (st_graph st)).
Proof.
  intros W NI ID EN R H. apply (all_outcome route virtual); auto; [split; [exact W|split; [exact NI|split; [exact ID|exact EN]]]|apply ID|apply incl_refl].
Qed.
Lemma counts_iff route virtual st st' : graph_wf (st_graph st) -> no_init (st_graph st) -> edge_ids_ok (st_graph st) -> 0 < st_enum st -> routed route virtual (st_graph st) ->
  model_communications route virtual st = Ok st' ->
  (forall N, balanced (st_graph st) N -> positive_on (st_graph st) N -> exists N', same_counts (st_graph st) N N' /\ balanced (st_graph st') N' /\ positive_on (st_graph st') N') /\
  (forall N', balanced (st_graph st') N' -> balanced (st_graph st) N').
Proof.
  intros W NI ID EN R H. destruct (outcome route virtual st st' W NI ID EN R H) as [O _]. split; [apply O|apply O].
Qed.
Lemma shape route virtual st st' : graph_wf (st_graph st) -> no_init (st_graph st) -> edge_ids_ok (st_graph st) -> 0 < st_enum st -> routed route virtual (st_graph st) ->
  model_communications route virtual st = Ok st' ->
  graph_wf (st_graph st') /\ no_init (st_graph st') /\ edge_ids_ok (st_graph st') /\
  (exists vs, vertices (st_graph st') = vertices (st_graph st) ++ vs /\ forall v, In v vs -> v_phases v = 1%nat /\ v_reentrancy v = 1 /\ (v_durations v = [1%Q] \/ v_durations v = [0%Q])) /\
  map snd (st_links st') = map snd (st_links st) ++ flat_map (crossed route) (edges (st_graph st)).
Proof.
  intros W NI ID EN R H. destruct (outcome route virtual st st' W NI ID EN R H) as [O L]. destruct (o_good _ _ _ _ O) as (A & B & C & _). split; [exact A|]. split; [exact B|]. split; [exact C|]. split; [|exact L].
  destruct (o_vertices _ _ _ _ O) as (vs & E & Nw). exists vs. split; [exact E|]. intros v Hv. destruct (Nw v Hv) as (P1 & _ & _ & P2 & P3). auto.
Qed.
Lemma succeeds route virtual st : graph_wf (st_graph st) -> no_init (st_graph st) -> edge_ids_ok (st_graph st) -> 0 < st_enum st -> routed route virtual (st_graph st) ->
  single_phase (st_graph st) -> exists st', model_communications route virtual st = Ok st'.
Proof.
  intros W NI ID EN R SP. apply all_succeed; auto; [split; [exact W|split; [exact NI|split; [exact ID|exact EN]]]|apply ID|apply incl_refl|].
  intros c Hc _ _. destruct W as (_ & E & _). destruct (E c Hc) as (a & b & A & B & LI & LO & _). rewrite LI, LO, (SP a (nth_error_In _ _ A)), (SP b (nth_error_In _ _ B)). auto.
Qed.

(** ** C120: the repetition vector of the tasks is kept; the graph stays well formed, with the old tasks
    first and one new task per link crossed; single-phase graphs are always accepted. *)
Theorem C120_counts_kept : forall route virtual st st', graph_wf (st_graph st) -> no_init (st_graph st) -> edge_ids_ok (st_graph st) -> 0 < st_enum st -> routed route virtual (st_graph st) ->
  model_communications route virtual st = Ok st' ->
  (forall N, balanced (st_graph st) N -> positive_on (st_graph st) N -> exists N', same_counts (st_graph st) N N' /\ balanced (st_graph st') N' /\ positive_on (st_graph st') N') /\
  (forall N', balanced (st_graph st') N' -> balanced (st_graph st) N').
Proof. exact counts_iff. Qed.
Print Assumptions C120_counts_kept.
Theorem C120_shape : forall route virtual st st', graph_wf (st_graph st) -> no_init (st_graph st) -> edge_ids_ok (st_graph st) -> 0 < st_enum st -> routed route virtual (st_graph st) ->
  model_communications route virtual st = Ok st' ->
  graph_wf (st_graph st') /\ no_init (st_graph st') /\ edge_ids_ok (st_graph st') /\
  (exists vs, vertices (st_graph st') = vertices (st_graph st) ++ vs /\ forall v, In v vs -> v_phases v = 1%nat /\ v_reentrancy v = 1 /\ (v_durations v = [1%Q] \/ v_durations v = [0%Q])) /\
  map snd (st_links st') = map snd (st_links st) ++ flat_map (crossed route) (edges (st_graph st)).
Proof. exact shape. Qed.
Print Assumptions C120_shape.
Theorem C120_succeeds : forall route virtual st, graph_wf (st_graph st) -> no_init (st_graph st) -> edge_ids_ok (st_graph st) -> 0 < st_enum st -> routed route virtual (st_graph st) ->
  single_phase (st_graph st) -> exists st', model_communications route virtual st = Ok st'.
Proof. exact succeeds. Qed.
Print Assumptions C120_succeeds.

(** ** C121: the schedules of the new graph are schedules of the old one in which every token arrives one
    time unit later per link; so K-Iter never announces more for the new graph. *)
Lemma sound route virtual st st' s : graph_wf (st_graph st) -> no_init (st_graph st) -> edge_ids_ok (st_graph st) -> 0 < st_enum st -> routed route virtual (st_graph st) ->
  model_communications route virtual st = Ok st' -> schedule_valid (st_graph st') s ->
  schedule_valid (st_graph st) s /\ forall c, In c (edges (st_graph st)) -> delayed_valid (st_graph st) s c (inject_Z (Z.of_nat (length (crossed route c)))).
Proof.
  intros W NI ID EN R H V. destruct (outcome route virtual st st' W NI ID EN R H) as [O _]. destruct (o_valid _ _ _ _ O s V) as [A B]. split; [exact A|]. intros c Hc. apply B; [exact Hc|apply in_map, Hc].
Qed.
Theorem C121_schedules_delayed : forall route virtual st st' s, graph_wf (st_graph st) -> no_init (st_graph st) -> edge_ids_ok (st_graph st) -> 0 < st_enum st -> routed route virtual (st_graph st) ->
  model_communications route virtual st = Ok st' -> schedule_valid (st_graph st') s ->
  schedule_valid (st_graph st) s /\ forall c, In c (edges (st_graph st)) -> delayed_valid (st_graph st) s c (inject_Z (Z.of_nat (length (crossed route c)))).
Proof. exact sound. Qed.
Print Assumptions C121_schedules_delayed.

Lemma slower route virtual st st' solve arrange var N N' fuel fuel' r r' K K' cs cs' : (forall l, Permutation (arrange l) l) ->
  graph_wf (st_graph st) -> no_init (st_graph st) -> edge_ids_ok (st_graph st) -> 0 < st_enum st -> routed route virtual (st_graph st) -> no_overlap (st_graph st) ->
  model_communications route virtual st = Ok st' -> same_counts (st_graph st) N N' -> balanced (st_graph st') N' -> whole_cycles (st_graph st') N' ->
  (S (Z.to_nat (sumf (cycles (st_graph st) N) (length (vertices (st_graph st))))) <= fuel)%nat ->
  (S (Z.to_nat (sumf (cycles (st_graph st') N') (length (vertices (st_graph st'))))) <= fuel')%nat ->
  kiter solve arrange fuel var (st_graph st) N = Ok (r, K, cs) -> exact_answer cs (solve cs) ->
  kiter solve arrange fuel' var (st_graph st') N' = Ok (r', K', cs') -> exact_answer cs' (solve cs') ->
  (0 < kr_throughput r')%Q -> (0 < kr_throughput r)%Q /\ (kr_throughput r' <= kr_throughput r)%Q.
Proof.
  intros AR W NI ID EN R NO H S B' WC' F F' Hk He Hk' He' P'.
  destruct (outcome route virtual st st' W NI ID EN R H) as [O _]. destruct (o_good _ _ _ _ O) as (W' & NI' & ID' & _). destruct (o_vertices _ _ _ _ O) as (vs & EV & Nw).
  assert (NO' : no_overlap (st_graph st')). { intros v Hv. rewrite EV in Hv. apply in_app_or in Hv. destruct Hv as [Hv|Hv]; [apply NO, Hv|]. destruct (Nw v Hv) as (_ & _ & _ & -> & _). lia. }
  assert (B : balanced (st_graph st) N). { apply (balanced_ext (st_graph st) N' N W); [intros i Hi; symmetry; apply S, Hi|]. apply O, B'. }
  assert (WC : whole_cycles (st_graph st) N). { intros i v Hv. assert (Li : (i < length (vertices (st_graph st)))%nat) by (apply nth_error_Some; congruence). rewrite <- (S i Li). apply (WC' i v). rewrite EV, nth_error_app1 by exact Li. exact Hv. }
  destruct (kiter_optimal solve arrange var (st_graph st') N' fuel' r' K' cs' AR W' B' NI' NO' WC' ID' F' Hk' He') as [A' _]. destruct (A' P') as [(s & Ps & Vs & Ks) _].
  destruct (kiter_spec var (st_graph st') N' W' WC' NI' ID' solve arrange AR fuel' F') as (K2 & cs2 & cs1 & Hk2 & HK & _). rewrite Hk' in Hk2. injection Hk2 as _ <- _.
  assert (I0 : (0 < / kr_throughput r')%Q) by (apply Qinv_lt_0_compat; exact P').
  pose proof (periodic_non_zeno (st_graph st') N' W' WC' K' (/ kr_throughput r') s (kdiv_pos (st_graph st') N' K' HK) I0 Ps) as NZ'.
  assert (Lg : (length (vertices (st_graph st)) <= length (vertices (st_graph st')))%nat) by (rewrite EV, app_length; lia).
  assert (NZ : non_zeno (st_graph st) s) by (intros i t Hi; apply NZ'; lia).
  assert (Kp : keeps_pace (st_graph st) N s (/ kr_throughput r')). { destruct Ks as [C Ks]. exists C. intros i m Hi. rewrite <- (S i Hi). apply Ks. lia. }
  destruct (o_valid _ _ _ _ O s Vs) as [V _].
  destruct (kiter_optimal solve arrange var (st_graph st) N fuel r K cs AR W B NI NO WC ID F Hk He) as [A D].
  destruct (Qlt_le_dec 0 (kr_throughput r)) as [P|P]; [|exfalso; exact (D P s _ V NZ Kp)]. split; [exact P|].
  destruct (A P) as [_ Op]. specialize (Op s _ V NZ Kp).
  apply (Qmult_le_compat_r _ _ (kr_throughput r * kr_throughput r')) in Op; [|apply Qlt_le_weak, Qmult_lt_0_compat; assumption].
  setoid_replace (/ kr_throughput r * (kr_throughput r * kr_throughput r'))%Q with (kr_throughput r')%Q in Op by (field; lra).
  setoid_replace (/ kr_throughput r' * (kr_throughput r * kr_throughput r'))%Q with (kr_throughput r)%Q in Op by (field; lra). exact Op.
Qed.
Theorem C121_never_faster : forall route virtual st st' solve arrange var N N' fuel fuel' r r' K K' cs cs', (forall l, Permutation (arrange l) l) ->
  graph_wf (st_graph st) -> no_init (st_graph st) -> edge_ids_ok (st_graph st) -> 0 < st_enum st -> routed route virtual (st_graph st) -> no_overlap (st_graph st) ->
  model_communications route virtual st = Ok st' -> same_counts (st_graph st) N N' -> balanced (st_graph st') N' -> whole_cycles (st_graph st') N' ->
  (S (Z.to_nat (sumf (cycles (st_graph st) N) (length (vertices (st_graph st))))) <= fuel)%nat ->
  (S (Z.to_nat (sumf (cycles (st_graph st') N') (length (vertices (st_graph st'))))) <= fuel')%nat ->
  kiter solve arrange fuel var (st_graph st) N = Ok (r, K, cs) -> exact_answer cs (solve cs) ->
  kiter solve arrange fuel' var (st_graph st') N' = Ok (r', K', cs') -> exact_answer cs' (solve cs') ->
  (0 < kr_throughput r')%Q -> (0 < kr_throughput r)%Q /\ (kr_throughput r' <= kr_throughput r)%Q.
Proof. exact slower. Qed.
Print Assumptions C121_never_faster.

(** ** C122: the new graph deadlocks exactly when the old one does. *)
Lemma alive_iff route virtual st st' : graph_wf (st_graph st) -> no_init (st_graph st) -> edge_ids_ok (st_graph st) -> 0 < st_enum st -> routed route virtual (st_graph st) ->
  model_communications route virtual st = Ok st' -> forall N', balanced (st_graph st') N' -> (live (st_graph st) N' <-> live (st_graph st') N').
Proof. intros W NI ID EN R H. destruct (outcome route virtual st st' W NI ID EN R H) as [O _]. apply O. Qed.
Theorem C122_live_iff : forall route virtual st st', graph_wf (st_graph st) -> no_init (st_graph st) -> edge_ids_ok (st_graph st) -> 0 < st_enum st -> routed route virtual (st_graph st) ->
  model_communications route virtual st = Ok st' -> forall N', balanced (st_graph st') N' -> (live (st_graph st) N' <-> live (st_graph st') N').
Proof. exact alive_iff. Qed.
Print Assumptions C122_live_iff.

(** ** Two tasks in a loop, rates 2 and 3, over two links one way and one link back. *)
Definition ring (a b p : Z) : graph := mkGraph [mkVertex 1 1 0 [1%Q] [] 1; mkVertex 2 1 0 [2%Q] [] 1] [mkEdge 1 0 1 [a] [b] [] [] 0; mkEdge 2 1 0 [b] [a] [] [] p].
Lemma ring_ok a b p : 0 < a -> 0 < b -> 0 <= p -> graph_wf (ring a b p) /\ no_init (ring a b p) /\ edge_ids_ok (ring a b p) /\ single_phase (ring a b p) /\ no_overlap (ring a b p).
Proof.
  intros A B P. split; [split; [|split]|split; [|split; [|split]]].
  - intros v [<-|[<-|[]]]; (split; [cbn; lia|split; [reflexivity|split; [reflexivity|]]]); intros x [<-|[]]; vm_compute; discriminate.
  - intros c [<-|[<-|[]]]; eexists; eexists; (split; [reflexivity|]; split; [reflexivity|]; repeat (split; [reflexivity|]); split; [|cbn; lia]; intros x [<-|[<-|[]]]; lia).
  - repeat constructor; cbn; intuition lia.
  - intros v [<-|[<-|[]]]; reflexivity.
  - split; [repeat constructor; cbn; intuition lia|]. intros c [<-|[<-|[]]]; cbn; lia.
  - intros v [<-|[<-|[]]]; reflexivity.
  - intros v [<-|[<-|[]]]; reflexivity.
Qed.
Definition ex_route (id : Z) : list Z := if id =? 1 then [10; 11] else [12].
Definition ex_state := mkState (ring 2 3 6) 3 3 [].
Definition ex_N (i : nat) : Z := match i with O => 3 | S O => 2 | _ => 6 end.
Example C120_hyp : graph_wf (st_graph ex_state) /\ no_init (st_graph ex_state) /\ edge_ids_ok (st_graph ex_state) /\ 0 < st_enum ex_state /\ routed ex_route (fun _ => false) (st_graph ex_state) /\
  single_phase (st_graph ex_state) /\ balanced (st_graph ex_state) ex_N /\ positive_on (st_graph ex_state) ex_N /\
  exists st', model_communications ex_route (fun _ => false) ex_state = Ok st' /\ length (vertices (st_graph st')) = 6%nat /\ balanced (st_graph st') ex_N /\
    st_links st' = [(2%nat, 10); (4%nat, 11); (5%nat, 12)] /\ live (st_graph st') ex_N.
Proof.
  destruct (ring_ok 2 3 6 ltac:(lia) ltac:(lia) ltac:(lia)) as (W & NI & ID & SP & NO).
  split; [exact W|]. split; [exact NI|]. split; [exact ID|]. split; [reflexivity|]. split; [intros c [<-|[<-|[]]] _; left; discriminate|]. split; [exact SP|].
  split; [intros c [<-|[<-|[]]]; reflexivity|]. split; [intros [|[|i]] L; cbn in *; lia|].
  eexists. split; [vm_compute; reflexivity|]. split; [reflexivity|]. split; [intros c Hc; cbn in Hc; repeat destruct Hc as [<-|Hc]; try reflexivity; destruct Hc|]. split; [reflexivity|].
  apply (C122_live_iff ex_route (fun _ => false) ex_state); auto; [reflexivity|intros c [<-|[<-|[]]] _; left; discriminate| |].
  - intros c Hc; cbn in Hc; repeat destruct Hc as [<-|Hc]; try reflexivity; destruct Hc.
  - exists [0; 0; 0; 1; 1]%nat. split; [|intros [|[|i]] L; cbn in *; lia].
    change [0; 0; 0; 1; 1]%nat with (((([] ++ [0]) ++ [0]) ++ [0]) ++ [1] ++ [1])%nat. rewrite (app_assoc _ [1%nat]).
    repeat (apply playable_snoc; [|split; [cbn; lia|intros c [<-|[<-|[]]] D; vm_compute in D; try discriminate; vm_compute; discriminate]]). apply playable_nil.
Qed.

Definition hop_route (id : Z) : list Z := if id =? 1 then [10] else [].
Definition hop_state := mkState (ring 1 1 1) 3 3 [].
Example C121_hyp : exists st' K cs K' cs' e e', model_communications hop_route (fun id => id =? 2) hop_state = Ok st' /\ routed hop_route (fun id => id =? 2) (st_graph hop_state) /\
  balanced (st_graph st') (fun _ => 1) /\ whole_cycles (st_graph st') (fun _ => 1) /\
  kiter try_all (fun l => l) 9 StronglyOptimized (st_graph hop_state) (fun _ => 1) = Ok (mkResult (1 # 3) e, K, cs) /\ exact_answer cs (try_all cs) /\
  kiter try_all (fun l => l) 9 StronglyOptimized (st_graph st') (fun _ => 1) = Ok (mkResult (1 # 4) e', K', cs') /\ exact_answer cs' (try_all cs').
Proof.
  do 7 eexists. split; [vm_compute; reflexivity|]. split; [intros c [<-|[<-|[]]] _; [left; discriminate|right; reflexivity]|].
  split; [intros c Hc; cbn in Hc; repeat destruct Hc as [<-|Hc]; try reflexivity; destruct Hc|].
  split; [intros [|[|[|i]]] v E; cbn in E; [| | |destruct i; discriminate]; injection E as <-; split; try lia; exists 1; reflexivity|].
  split; [vm_compute; reflexivity|]. split.
  - apply try_all_exact; [intros c [<-|[<-|[<-|[<-|[]]]]]; reflexivity|]. match goal with |- exists l, circuit (?x :: _) l => exists [x] end. apply circuit_b_iff. split; [reflexivity|]. intros x [<-|[]]. left. reflexivity.
  - split; [vm_compute; reflexivity|]. apply try_all_exact; [intros c Hc; cbn in Hc; repeat destruct Hc as [<-|Hc]; try reflexivity; destruct Hc|]. match goal with |- exists l, circuit (?x :: _) l => exists [x] end. apply circuit_b_iff. split; [reflexivity|]. intros x [<-|[]]. left. reflexivity.
Qed.

(** ** Finding: a channel between two tasks that has no route and is not marked virtual is rebuilt with the
    production rate 1: a consistent, live graph becomes one without any repetition vector. *)
Theorem C120_no_route_refuted : exists route virtual st st' N, graph_wf (st_graph st) /\ no_init (st_graph st) /\ edge_ids_ok (st_graph st) /\ 0 < st_enum st /\ single_phase (st_graph st) /\
  balanced (st_graph st) N /\ positive_on (st_graph st) N /\ live (st_graph st) N /\ model_communications route virtual st = Ok st' /\
  length (vertices (st_graph st')) = length (vertices (st_graph st)) /\
  forall N', positive_on (st_graph st') N' -> ~ balanced (st_graph st') N'.
Proof.
  destruct (ring_ok 2 1 2 ltac:(lia) ltac:(lia) ltac:(lia)) as (W & NI & ID & SP & _).
  exists (fun id => []), (fun id => id =? 2), (mkState (ring 2 1 2) 3 3 []). eexists. exists (fun i => match i with O => 1 | _ => 2 end).
  split; [exact W|]. split; [exact NI|]. split; [exact ID|]. split; [reflexivity|]. split; [exact SP|].
  split; [intros c [<-|[<-|[]]]; reflexivity|]. split; [intros [|[|i]] L; cbn in *; lia|]. split.
  - exists [0; 1; 1]%nat. split; [|intros [|[|i]] L; cbn in *; lia]. change [0; 1; 1]%nat with ((([] ++ [0]) ++ [1]) ++ [1])%nat.
    repeat (apply playable_snoc; [|split; [cbn; lia|intros c [<-|[<-|[]]] D; vm_compute in D; try discriminate; vm_compute; discriminate]]). apply playable_nil.
  - split; [vm_compute; reflexivity|]. split; [reflexivity|]. intros N' P B. pose proof (P 0%nat ltac:(cbn; lia)) as P0.
    pose proof (B _ (or_introl eq_refl)) as B1. pose proof (B _ (or_intror (or_introl eq_refl))) as B2. cbn -[Z.mul] in B1, B2, P0. lia.
Qed.
Print Assumptions C120_no_route_refuted.
