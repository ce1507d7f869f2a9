(** Enumeration of the elementary cycles (command CycleCount). *)
From Coq Require Import Lia QArith Permutation.
From Verif Require Import Base Graph Scc SccSpec Cycles CyclesSpec CyclesProofs CyclesLoop.
Open Scope Z_scope.

(** C105: on a graph whose tasks are numbered 1, ..., n, the command lists once each elementary cycle
    (parallel channels give distinct cycles) whose smallest task is the smallest task of a cycle of several tasks. *)
Theorem C105_cycles : forall g rounds fuel before, id_graph g -> numbered g -> Z.of_nat (length (vertices g)) < int_max ->
  (length (vertices g) <= rounds)%nat -> (length (vertices g) < fuel)%nat ->
  exists L, find_simple_cycles rounds fuel g before = Ok (before ++ map printed L) /\
    lists_all g (fun s _ => exists p, elementary g s p /\ from_smallest s p /\ several s p) L.
Proof. exact cycles_listed. Qed.
Print Assumptions C105_cycles.

(** C105: without channels from a task to itself, these are all the elementary cycles.
    With them the claim is false, see [C105_self_loops_refuted]. *)
Theorem C105_all_cycles_partial : forall g rounds fuel, id_graph g -> numbered g -> Z.of_nat (length (vertices g)) < int_max ->
  (forall u k, ~ hop g u k u) -> (length (vertices g) <= rounds)%nat -> (length (vertices g) < fuel)%nat ->
  exists L, find_simple_cycles rounds fuel g [] = Ok (map printed L) /\ lists_all g (fun _ _ => True) L.
Proof. exact cycles_all. Qed.
Print Assumptions C105_all_cycles_partial.

Definition task (id : Z) : vertex := mkVertex id 1 0 [1%Q] [] 0.
Definition link (id : Z) (s t : nat) : edge := mkEdge id s t [1] [1] [] [] 1.

(** Three tasks linked both ways, one of the links doubled. *)
Definition three : graph := mkGraph [task 1; task 2; task 3]
  [link 1 0 1; link 2 1 0; link 3 1 2; link 4 2 1; link 5 2 0; link 6 0 2; link 7 0 1].
Example C105_case : id_graph three /\ numbered three /\ (forall u k, ~ hop three u k u) /\
  find_simple_cycles 3 4 three [] =
    Ok [[1; 2; 1]; [1; 2; 3; 1]; [1; 3; 2; 1]; [1; 3; 1]; [1; 2; 1]; [1; 2; 3; 1]; [2; 3; 2]].
Proof.
  repeat split.
  - cbn. repeat constructor; cbn; intuition lia.
  - cbn in H. intuition (subst; cbn; lia).
  - cbn in H. intuition (subst; cbn; lia).
  - cbn. repeat constructor; cbn; intuition lia.
  - cbn in H. intuition (subst; cbn; lia).
  - cbn in H. intuition (subst; cbn; lia).
  - intros u k (e & s & t & He & Hs & Ht & _ & Hu & Hv). cbn in He. intuition (subst e; cbn in Hs, Ht; injection Hs as <-; injection Ht as <-; cbn in Hu, Hv; lia).
Qed.

(** C105, refuted: a channel from a task to itself is a cycle, and is listed or not depending on the rest of the graph:
    here that of task 1 is, that of task 2 is not, though both lie on the same longer cycle. *)
Definition selves : graph := mkGraph [task 1; task 2] [link 1 0 1; link 2 1 0; link 3 0 0; link 4 1 1].
Theorem C105_self_loops_refuted :
  id_graph selves /\ numbered selves /\
  elementary selves 1 [(3, 1)] /\ elementary selves 2 [(4, 2)] /\
  forall rounds fuel, (2 <= rounds)%nat -> (2 < fuel)%nat ->
  exists L, find_simple_cycles rounds fuel selves [] = Ok (map printed L) /\ In [1; 1] (map printed L) /\ ~ In [2; 2] (map printed L).
Proof.
  assert (G : id_graph selves) by (split; [cbn; repeat constructor; cbn; intuition lia|]; intros e He; cbn in He; intuition (subst; cbn; lia)).
  assert (N : numbered selves) by (split; [cbn; repeat constructor; cbn; intuition lia|]; intros v Hv; cbn in Hv; intuition (subst; cbn; lia)).
  assert (E1 : elementary selves 1 [(3, 1)]) by (split; [discriminate|]; split; [split; [exists (link 3 0 0), (task 1), (task 1); cbn; auto 10|reflexivity]|repeat constructor; intros []]).
  split; [exact G|]. split; [exact N|]. split; [exact E1|]. split; [split; [discriminate|]; split; [split; [exists (link 4 1 1), (task 2), (task 2); cbn; auto 10|reflexivity]|repeat constructor; intros []]|].
  intros rounds fuel R F. destruct (cycles_listed selves rounds fuel [] G N ltac:(cbn; unfold int_max; lia) R F) as (L & E & _ & H). exists L. split; [exact E|]. split.
  - apply in_map_iff. exists (1, [(3, 1)]). split; [reflexivity|]. apply H. split; [exact E1|]. split; [intros v [<-|[]]; cbn; lia|]. exists [(1, 2); (2, 1)].
    split; [|split; [intros v [<-|[<-|[]]]; cbn; lia|exists 2; split; [left; reflexivity|lia]]]. split; [discriminate|]. split; [|cbn; repeat constructor; cbn; intuition lia].
    split; [exists (link 1 0 1), (task 1), (task 2)|split; [exists (link 2 1 0), (task 2), (task 1)|reflexivity]]; cbn; auto 10.
  - intros I. apply in_map_iff in I. destruct I as ([s p] & Ep & I). apply H in I. destruct I as (A & _ & (q & (Q1 & Q2 & Q3) & Fs & (v & Iv & Dv))). injection Ep as -> Ep. specialize (Fs v Iv).
    assert (V : v = 1 \/ v = 2); [|lia]. revert Q2 Iv. clear. generalize 2 at 1. induction q as [|[k w] q IH]; intros u R I; [destruct I|]. destruct R as [(e & a & b & He & _ & Hb & _ & _ & Ew) R]. destruct I as [<-|I]; [|exact (IH w R I)].
    cbn [snd]. rewrite <- Ew. destruct (e_dst e) as [|[|n]]; [left; injection Hb as <-; reflexivity|right; injection Hb as <-; reflexivity|destruct n; discriminate].
Qed.
Print Assumptions C105_self_loops_refuted.

(** C105, refuted: on a graph some of whose tasks were removed the search stops at the number of tasks that are left:
    the cycle through 4 and 5 is found, that through 6 and 7 is not. *)
Definition cut : graph := mkGraph [task 4; task 5; task 6; task 7] [link 1 0 1; link 2 1 0; link 3 2 3; link 4 3 2].
Theorem C105_numbering_refuted :
  remove_tasks [1; 2; 3] (mkGraph (map task [1; 2; 3; 4; 5; 6; 7]) [link 1 3 4; link 2 4 3; link 3 5 6; link 4 6 5]) = Ok cut /\
  id_graph cut /\ NoDup (map e_id (edges cut)) /\ elementary cut 4 [(1, 5); (2, 4)] /\ elementary cut 6 [(3, 7); (4, 6)] /\
  find_simple_cycles 5 5 cut [] = Ok [[4; 5; 4]].
Proof.
  split; [vm_compute; reflexivity|]. split; [|split; [|split; [|split]]].
  - split; [cbn; repeat constructor; cbn; intuition lia|]. intros e He. cbn in He. intuition (subst; cbn; lia).
  - cbn. repeat constructor; cbn; intuition lia.
  - split; [discriminate|]. split; [|cbn; repeat constructor; cbn; intuition lia].
    split; [exists (link 1 0 1), (task 4), (task 5)|split; [exists (link 2 1 0), (task 5), (task 4)|reflexivity]]; cbn; auto 10.
  - split; [discriminate|]. split; [|cbn; repeat constructor; cbn; intuition lia].
    split; [exists (link 3 2 3), (task 6), (task 7)|split; [exists (link 4 3 2), (task 7), (task 6)|reflexivity]]; cbn; auto 10.
  - vm_compute. reflexivity.
Qed.
Print Assumptions C105_numbering_refuted.

(** C105: the list is never emptied, so a second run in the same process reports every cycle again. *)
Theorem C105_second_run : forall g rounds fuel, id_graph g -> numbered g -> Z.of_nat (length (vertices g)) < int_max ->
  (length (vertices g) <= rounds)%nat -> (length (vertices g) < fuel)%nat ->
  exists first again, find_simple_cycles rounds fuel g [] = Ok first /\
    find_simple_cycles rounds fuel g first = Ok (first ++ again) /\ Permutation first again.
Proof. exact second_run. Qed.
Print Assumptions C105_second_run.
Example C105_second_run_case : exists first, find_simple_cycles 3 4 three [] = Ok first /\ length first = 7%nat /\
  find_simple_cycles 3 4 three first = Ok (first ++ first).
Proof. eexists. split; [exact (proj2 (proj2 (proj2 C105_case)))|]. split; vm_compute; reflexivity. Qed.
