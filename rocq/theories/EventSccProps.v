(** The splitting of an event graph into strongly connected parts. *)
From Coq Require Import QArith Permutation Sorted.
From Verif Require Import Base Graph KPeriodic EventGraph EventGraphSpec EventGraphProofs EventScc EventSccSpec EventSccTarjan EventSccProofs.
Open Scope nat_scope.

(** Splitting a graph of distinct events returns, under increasing numbers, the strongly connected
    parts of the graph, each as if its events and its constraints had been added in the order of
    the graph; the number set on an event is that of its part, and is the place of an event of
    that part. *)
Theorem C139_parts evs cs : NoDup evs -> EventGraphSpec.closed evs cs ->
  exists labels keys ps,
    strong_connection (build evs cs) = Ok (labels, combine keys (map (fun p => build (fst p) (snd p)) ps)) /\
    length keys = length ps /\ StronglySorted lt keys /\ parts_of evs cs ps /\
    length labels = length evs /\
    (forall i e, nth_error evs i = Some e -> exists k p, nth_error labels i = Some k /\ In (k, p) (combine keys ps) /\ In e (fst p)) /\
    (forall k p, In (k, p) (combine keys ps) -> exists e, nth_error evs k = Some e /\ In e (fst p)).
Proof. intros N C. exact (split_ok evs cs N C). Qed.
Print Assumptions C139_parts.

(** * Circuits *)
Lemma path_app l1 : forall u l2 v, path u (l1 ++ l2) v -> exists m, path u l1 m /\ path m l2 v.
Proof.
  induction l1 as [|c l1 IH]; intros u l2 v P; [exists u; split; [reflexivity|exact P]|]. destruct P as [E P]. destruct (IH _ _ _ P) as (m & P1 & P2). exists m. split; [split; assumption|exact P2].
Qed.
Lemma path_snoc l : forall u c, path u l (c_source c) -> path u (l ++ [c]) (c_target c).
Proof. induction l as [|d l IH]; intros u c P; cbn in *; [auto|]. destruct P as [E P]. auto. Qed.
Lemma circuit_part evs cs ps : EventGraphSpec.closed evs cs -> parts_of evs cs ps -> forall l, circuit cs l -> exists p, In p ps /\ circuit (snd p) l.
Proof.
  intros Cl [P1 P2 P3 P4] l (Ne & I & u & P).
  assert (Hu : In u evs) by (destruct l as [|c l]; [contradiction|]; destruct P as [<- _]; apply Cl, I; left; reflexivity).
  assert (Hp : exists p, In p ps /\ In u (fst p)).
  { apply (Permutation_in _ (Permutation_sym P1)) in Hu. apply in_concat in Hu as (E & HE & Hu). apply in_map_iff in HE as (p & <- & Hp). eauto. }
  destruct Hp as (p & Hp & Hup). exists p. split; [exact Hp|]. split; [exact Ne|]. split; [|exists u; exact P].
  intros c Hc. rewrite (P4 p Hp). apply filter_In. split; [apply I, Hc|]. apply in_split in Hc as (l1 & l2 & ->).
  destruct (path_app _ _ _ _ P) as (m & Q1 & Q2). destruct Q2 as [<- Q2].
  assert (Ic : In c cs) by (apply I, in_app_iff; right; left; reflexivity). destruct (Cl c Ic) as [C1 C2].
  assert (I1 : incl l1 cs) by (intros x Hx; apply I, in_app_iff; left; exact Hx).
  assert (I2 : incl l2 cs) by (intros x Hx; apply I, in_app_iff; right; right; exact Hx).
  unfold within. rewrite andb_true_iff, !in_events. split; apply (P3 p u _ Hp Hup).
  - split; [exact C1|]. split; [exists l1; auto|]. exists (c :: l2). split; [intros x [<-|Hx]; auto|split; [reflexivity|exact Q2]].
  - split; [exact C2|]. split; [|exists l2; auto]. exists (l1 ++ [c]). split; [intros x Hx; apply in_app_iff in Hx as [Hx|[<-|[]]]; auto|apply path_snoc, Q1].
Qed.
Lemma nodup_concat {A} (ls : list (list A)) l : NoDup (concat ls) -> In l ls -> NoDup l.
Proof.
  induction ls as [|a ls IH]; intros N H; [destruct H|]. cbn in N. destruct H as [->|H].
  - clear IH. induction l as [|x l IHl]; [constructor|]. cbn in N. inversion N as [|? ? N1 N2]; subst. constructor; [intros J; apply N1, in_app_iff; auto|auto].
  - apply IH; [|exact H]. clear IH. induction a as [|x a IHa]; [exact N|]. inversion N; auto.
Qed.
Lemma result_parts evs cs labels gs : NoDup evs -> EventGraphSpec.closed evs cs -> strong_connection (build evs cs) = Ok (labels, gs) ->
  exists ps, parts_of evs cs ps /\ forall cs', (exists k h, In (k, h) gs /\ constraints h = cs') <-> exists p, In p ps /\ snd p = cs'.
Proof.
  intros N Cl E. destruct (split_ok evs cs N Cl) as (labels' & keys & ps & E' & L & _ & Pa & _). rewrite E in E'. injection E' as _ ->. exists ps. split; [exact Pa|].
  assert (B : forall p, In p ps -> constraints (build (fst p) (snd p)) = snd p).
  { intros p Hp. apply build_constraints.
    - apply (nodup_concat (map fst ps)); [|apply in_map, Hp]. eapply Permutation_NoDup; [apply Permutation_sym, (p_events _ _ _ Pa)|exact N].
    - intros c Hc. rewrite (p_constraints _ _ _ Pa p Hp) in Hc. apply filter_In in Hc as [_ Hc]. unfold within in Hc. rewrite andb_true_iff, !in_events in Hc. exact Hc. }
  intros cs'. split.
  - intros (k & h & H & <-). apply in_combine_r in H. apply in_map_iff in H as (p & <- & H). exists p. rewrite B; auto.
  - intros (p & H & <-). clear - H L B. revert keys L. induction ps as [|q ps IH]; intros keys L; [destruct H|]. destruct keys as [|k keys]; [discriminate|]. cbn.
    destruct H as [->|H].
    + exists k, (build (fst p) (snd p)). split; [left; reflexivity|]. apply B. left. reflexivity.
    + destruct (IH (fun p Hp => B p (or_intror Hp)) H keys) as (k' & h & H1 & H2); [injection L; auto|]. exists k', h. auto.
Qed.

(** No circuit is lost and none is made: the circuits of the graph are those of the graphs
    returned. *)
Theorem C140_circuits evs cs labels gs : NoDup evs -> EventGraphSpec.closed evs cs -> strong_connection (build evs cs) = Ok (labels, gs) ->
  forall l, circuit cs l <-> exists k h, In (k, h) gs /\ circuit (constraints h) l.
Proof.
  intros N Cl E l. destruct (result_parts _ _ _ _ N Cl E) as (ps & Pa & M). split.
  - intros H. destruct (circuit_part _ _ _ Cl Pa l H) as (p & Hp & Hc). destruct (proj2 (M (snd p)) (ex_intro _ p (conj Hp eq_refl))) as (k & h & Hk & Eh). exists k, h. rewrite Eh. auto.
  - intros (k & h & Hk & Hc). destruct (proj1 (M (constraints h)) (ex_intro _ k (ex_intro _ h (conj Hk eq_refl)))) as (p & Hp & Ep). rewrite <- Ep, (p_constraints _ _ _ Pa p Hp) in Hc.
    destruct Hc as (H1 & H2 & H3). split; [exact H1|]. split; [|exact H3]. intros c Hc. specialize (H2 c Hc). apply filter_In in H2. apply H2.
Qed.
Print Assumptions C140_circuits.

(** So a period is long enough for the graph exactly when it is for every graph returned, and one
    computed as the longest over them is. *)
Theorem C140_period evs cs labels gs : NoDup evs -> EventGraphSpec.closed evs cs -> strong_connection (build evs cs) = Ok (labels, gs) ->
  forall omega, circuits_fit cs omega <-> forall k h, In (k, h) gs -> circuits_fit (constraints h) omega.
Proof.
  intros N Cl E omega. pose proof (C140_circuits _ _ _ _ N Cl E) as M. split.
  - intros F k h H l Hl. apply F, M. exists k, h. auto.
  - intros F l Hl. apply M in Hl as (k & h & H & Hl). exact (F k h H l Hl).
Qed.
Print Assumptions C140_period.

(** Five events: two circuits (one inside the other part's reach) and a lone event. *)
Definition ex_ev (t : Z) : event := mkEvent t 1 1.
Definition ex_c (a b : Z) (i : Z) : constraint := mkConstraint (ex_ev a) (ex_ev b) 1 2 i.
Definition ex_evs : list event := map ex_ev [1; 2; 3; 4; 5]%Z.
Definition ex_cs : list constraint := [ex_c 1 3 1; ex_c 3 4 2; ex_c 4 3 3; ex_c 3 2 4; ex_c 2 1 5; ex_c 4 5 6; ex_c 5 5 7].
Example C139_example : NoDup ex_evs /\ EventGraphSpec.closed ex_evs ex_cs /\
  strong_connection (build ex_evs ex_cs) =
    Ok ([0; 0; 0; 0; 4], [(0, build (map ex_ev [1; 2; 3; 4]%Z) [ex_c 1 3 1; ex_c 3 4 2; ex_c 4 3 3; ex_c 3 2 4; ex_c 2 1 5]); (4, build [ex_ev 5] [ex_c 5 5 7])]).
Proof.
  split; [|split].
  - repeat (apply NoDup_cons; [cbn; intuition discriminate|]). apply NoDup_nil.
  - intros c Hc. cbn in Hc. cbn. repeat (destruct Hc as [<-|Hc]; [cbn; tauto|]). destruct Hc.
  - vm_compute. reflexivity.
Qed.
(** A circuit of the example, found in the first graph returned. *)
Example C140_example : circuit ex_cs [ex_c 1 3 1; ex_c 3 2 4; ex_c 2 1 5] /\ ~ circuit ex_cs [ex_c 1 3 1; ex_c 3 4 2].
Proof.
  split.
  - split; [discriminate|]. split; [intros c H; cbn in *; tauto|]. exists (ex_ev 1). cbn. tauto.
  - intros (_ & _ & u & P). cbn in P. destruct P as (<- & _ & E). discriminate.
Qed.

(** The events must be distinct: when two vertices hold the same event, the two constraints that
    join them in a circuit come back as two loops on the second vertex. *)
Definition ex_twice : egraph :=
  let g := add_event (add_event empty_graph (ex_ev 1)) (ex_ev 1) in
  mkEG (eg_events g) [mkCons 0 1 1 2 1; mkCons 1 0 1 2 2]%Z (eg_map g).
Theorem C139_same_event_refuted : exists g labels h, strong_connection g = Ok (labels, [(0, h)]) /\ map k_src (eg_cons g) = [0; 1] /\ eg_events h = eg_events g /\ map k_src (eg_cons h) = [1; 1].
Proof. exists ex_twice, [0; 0]. eexists. vm_compute. repeat split. Qed.
Print Assumptions C139_same_event_refuted.
