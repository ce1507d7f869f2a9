(** Properties of the component decomposition and of the cycle test: C23, C24. *)
From Coq Require Import QArith Permutation.
From Verif Require Import Base Graph Scc SccSpec SccProofs.
Open Scope Z_scope.

(** ** C23 *)
(** With enough fuel for one nested call per task, the decomposition terminates without
    failure; the components are non-empty, together list every task exactly once, and two
    tasks share a component exactly when each reaches the other. *)
Theorem C23_components : forall g fuel, id_graph g -> (length (vertices g) < fuel)%nat ->
  exists comps, kosaraju fuel g = Ok comps /\
    Permutation (concat comps) (map v_id (vertices g)) /\
    (forall c, In c comps -> c <> [] /\ NoDup c) /\
    (forall c u v, In c comps -> In u c -> (In v c <-> reaches g u v /\ reaches g v u)).
Proof.
  exact (fun g fuel Hg F => match kosaraju_run g Hg fuel F with
    ex_intro _ comps (conj E (conj G (conj P _))) =>
      ex_intro _ comps (conj E (conj P (conj (fun c Hc => conj (proj1 (G c Hc)) (proj1 (proj2 (G c Hc))))
        (fun c u v Hc Hu => proj2 (proj2 (proj2 (G c Hc))) u v Hu)))) end).
Qed.
Print Assumptions C23_components.
(** Components are numbered in topological order: channels lead to the same or a later one. *)
Theorem C23_topological_order : forall g fuel comps, id_graph g -> (length (vertices g) < fuel)%nat -> kosaraju fuel g = Ok comps ->
  forall i j c d u v, nth_error comps i = Some c -> nth_error comps j = Some d -> In u c -> In v d -> reaches g u v -> (i <= j)%nat.
Proof. exact topological. Qed.
Print Assumptions C23_topological_order.

Definition ex_v (id : Z) : vertex := mkVertex id 1 0 [1%Q] [] 1.
Definition ex_e (id : Z) (s d : nat) : edge := mkEdge id s d [1] [1] [] [] 1.
(** 3 -> 7 -> 5 -> 3, 5 -> 9 -> 9, 2 -> 9. *)
Definition ex_scc : graph := mkGraph [ex_v 9; ex_v 3; ex_v 5; ex_v 7; ex_v 2] [ex_e 1 1 3; ex_e 2 3 2; ex_e 3 2 1; ex_e 4 2 0; ex_e 5 0 0; ex_e 6 4 0].
Lemma ex_scc_id_graph : id_graph ex_scc.
Proof.
  split; [cbn; repeat constructor; cbn; intuition lia|]. intros e He. cbn in He. repeat (destruct He as [<-|He]; [cbn; lia|]). destruct He.
Qed.
Example C23_hyp : id_graph ex_scc /\ kosaraju 6 ex_scc = Ok [[3; 5; 7]; [2]; [9]].
Proof. split; [exact ex_scc_id_graph|vm_compute; reflexivity]. Qed.

(** ** C24 *)
(** has_cycles answers whether some cycle visits two different tasks; for graphs without a
    channel from a task to itself, whether there is a cycle at all. *)
Theorem C24_cycles_partial : forall g fuel, id_graph g -> (length (vertices g) < fuel)%nat ->
  exists b, has_cycles fuel g = Ok b /\ (b = true <-> exists u l, cycle g u l /\ exists v, In v l /\ v <> u).
Proof. exact has_cycles_spec. Qed.
Print Assumptions C24_cycles_partial.
Theorem C24_no_self_loop_partial : forall g fuel, id_graph g -> (length (vertices g) < fuel)%nat -> (forall e, In e (edges g) -> e_src e <> e_dst e) ->
  exists b, has_cycles fuel g = Ok b /\ (b = true <-> exists u l, cycle g u l).
Proof. exact has_cycles_no_loop. Qed.
Print Assumptions C24_no_self_loop_partial.
(** The full claim is false: a task with a channel to itself is on a cycle and the answer is no. *)
Theorem C24_self_loop_refuted : exists g u l, id_graph g /\ cycle g u l /\ forall fuel, (length (vertices g) < fuel)%nat -> has_cycles fuel g = Ok false.
Proof.
  exists (mkGraph [ex_v 1; ex_v 2] [ex_e 1 0 1; ex_e 2 1 1]), 2, [2]. split; [|split].
  - split; [cbn; repeat constructor; cbn; intuition lia|]. intros e He. cbn in He. repeat (destruct He as [<-|He]; [cbn; lia|]). destruct He.
  - split; [discriminate|]. split; [|reflexivity]. exists (ex_e 2 1 1), (ex_v 2), (ex_v 2). cbn. intuition.
  - intros fuel F. cbn in F. destruct fuel as [|[|[|fuel]]]; [lia|lia|lia|]. reflexivity.
Qed.
Print Assumptions C24_self_loop_refuted.
Example C24_hyp : has_cycles 6 ex_scc = Ok true /\ has_cycles 4 (mkGraph [ex_v 1; ex_v 2; ex_v 3] [ex_e 1 0 1; ex_e 2 1 2; ex_e 3 0 2]) = Ok false.
Proof. vm_compute. auto. Qed.
(** The companion test answers whether some task limits its own concurrent executions. *)
Theorem C24_self_limit : forall g, has_selfloops g = true <-> exists v, In v (vertices g) /\ 1 <= v_reentrancy v.
Proof. intros g. unfold has_selfloops. rewrite existsb_exists. split; intros (v & H & L); exists v; split; auto; lia. Qed.
Print Assumptions C24_self_limit.
