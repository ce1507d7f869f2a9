(** C134-C135: the order of the tasks and the removal of the cycles, before the placement. *)
From Coq Require Import Relations ZifyBool ZifyNat.
From Verif Require Import Base Noc NocPath NocPathProps Mapper MapperSpec MapperProofs MapperProps TaskOrder TaskOrderSpec TaskOrderProofs.
Open Scope nat_scope.

(** ** C134 *)
(** The order found is that of the first executions of the tasks in some sequence that executes one whole
    iteration, each execution finding its tokens. *)
Theorem C134_first_executions : forall fuel tasks cs N l, sdf_graph tasks cs -> task_order fuel tasks cs N = Ok l ->
  exists s, admissible cs s /\ iteration tasks N s /\ in_first_order l s.
Proof. intros fuel tasks cs N l G H. exact (passes_ran tasks cs N G fuel _ [] l (ran0 tasks cs N G) H). Qed.
Print Assumptions C134_first_executions.

(** So it lists each task once. *)
Theorem C134_each_once : forall fuel tasks cs N l, sdf_graph tasks cs -> task_order fuel tasks cs N = Ok l ->
  NoDup l /\ forall t, In t l <-> In t tasks /\ 0 < N t.
Proof.
  intros fuel tasks cs N l G H. destruct (C134_first_executions fuel tasks cs N l G H) as (s & _ & [I C] & ND & Eq & _). split; [exact ND|].
  intros t. rewrite Eq, (count_occ_In Nat.eq_dec). split.
  - intros X. assert (Ht : In t tasks) by (apply I, (count_occ_In Nat.eq_dec); exact X). rewrite (C t Ht) in X. split; [exact Ht|lia].
  - intros [Ht X]. rewrite (C t Ht). exact X.
Qed.
Print Assumptions C134_each_once.

(** It is found, in at most as many passes as there are executions in one iteration, exactly when an
    iteration can be executed at all; otherwise the search never ends. *)
Theorem C134_ends : forall tasks cs N, sdf_graph tasks cs ->
  ((exists s, admissible cs s /\ iteration tasks N s) <-> exists l, task_order (list_sum (map N tasks)) tasks cs N = Ok l) /\
  (~ (exists s, admissible cs s /\ iteration tasks N s) -> forall fuel, task_order fuel tasks cs N = Timeout).
Proof.
  intros tasks cs N G. split; [split|].
  - intros (s & A & I). exact (passes_end tasks cs N G s A I _ _ [] (ran0 tasks cs N G) (le_n _)).
  - intros (l & H). destruct (C134_first_executions _ tasks cs N l G H) as (s & A & I & _). eauto.
  - intros No fuel. destruct (passes_outcome tasks cs fuel (running0 tasks cs N)) as [H|(l & H)]; [exact H|exfalso]. destruct (C134_first_executions fuel tasks cs N l G H) as (s & A & I & _). eauto.
Qed.
Print Assumptions C134_ends.

(** A graph with two rates and a cycle: task 1 twice, then 2, then 3, and back. *)
Definition ring_tasks := [1; 2; 3].
Definition ring_chans := [mkChan 1 1 2 1 2 0; mkChan 2 2 3 1 1 0; mkChan 3 3 1 2 1 2].
Example ring_graph : sdf_graph ring_tasks ring_chans.
Proof.
  constructor; [repeat constructor; cbn; intuition lia|repeat constructor; cbn; intuition lia| |].
  - intros c Hc. cbn in Hc. intuition subst; cbn; tauto.
  - intros c Hc. cbn in Hc. intuition subst; cbn; lia.
Qed.
Example ring_order : task_order 4 ring_tasks ring_chans (fun t => if t =? 1 then 2 else 1) = Ok [1; 2; 3].
Proof. reflexivity. Qed.
(** The same without tokens never ends. *)
Example ring_stuck : forall fuel, task_order fuel ring_tasks [mkChan 1 1 2 1 2 0; mkChan 2 2 3 1 1 0; mkChan 3 3 1 2 1 0] (fun t => if t =? 1 then 2 else 1) = Timeout.
Proof.
  apply C134_ends.
  - constructor; [repeat constructor; cbn; intuition lia|repeat constructor; cbn; intuition lia| |].
    + intros c Hc. cbn in Hc. intuition subst; cbn; tauto.
    + intros c Hc. cbn in Hc. intuition subst; cbn; lia.
  - intros (s & A & [I C]). destruct s as [|t s]; [specialize (C 1 ltac:(now left)); discriminate|]. pose proof (A [] t s eq_refl) as X.
    destruct (I t (or_introl eq_refl)) as [<-|[<-|[<-|[]]]].
    + specialize (X (mkChan 3 3 1 2 1 0) ltac:(cbn; tauto) eq_refl). cbv in X. now apply X.
    + specialize (X (mkChan 1 1 2 1 2 0) ltac:(cbn; tauto) eq_refl). cbv in X. now apply X.
    + specialize (X (mkChan 2 2 3 1 1 0) ltac:(cbn; tauto) eq_refl). cbv in X. now apply X.
Qed.

(** ** C135 *)
(** With a vector that has an entry for every task: when the marked tasks include the targets of the channels
    on cycles, what is left of the graph has no cycle, contains every task, and every task comes after
    [start]. *)
Theorem C135_no_cycle_partial : forall size fuel tasks cs cyc order start, sdf_graph tasks cs ->
  (forall c, In c cs -> on_long_cycle cs c \/ c_src c = c_dst c -> cyc (c_dst c) = true) ->
  (forall t, In t tasks -> t < size) -> length tasks < fuel -> (forall t, In t order <-> In t tasks) -> ~ In start tasks ->
  exists to, remove_with size fuel tasks cs cyc order start = Ok to /\ acyclic to /\
    (forall a b, In (a, b) to -> a = start \/ exists c, In (c, a) to) /\ (forall t, In t tasks <-> exists a, In (a, t) to).
Proof.
  intros size fuel tasks cs cyc order start G Cy Big Lf Ord Fr. assert (L : forall c, In c cs -> on_long_cycle cs c -> cyc (c_dst c) = true) by auto. assert (S1 : forall c, In c cs -> c_src c = c_dst c -> cyc (c_dst c) = true) by auto.
  destruct (remove_result tasks cs cyc size fuel order start G L S1 Big Lf Ord Fr) as (cs' & E & _). rewrite E. eexists. split; [reflexivity|].
  exact (ready_graph tasks cs cyc size fuel order start G L S1 Big Lf Ord Fr _ E).
Qed.
Print Assumptions C135_no_cycle_partial.

(** Nothing else is added, and a channel whose target is not marked stays. *)
Theorem C135_kept : forall size fuel tasks cs cyc order start to, sdf_graph tasks cs ->
  (forall c, In c cs -> on_long_cycle cs c \/ c_src c = c_dst c -> cyc (c_dst c) = true) ->
  (forall t, In t tasks -> t < size) -> length tasks < fuel -> (forall t, In t order <-> In t tasks) -> ~ In start tasks ->
  remove_with size fuel tasks cs cyc order start = Ok to ->
  (forall a b, In (a, b) to -> a = start /\ (forall x, x <> start -> ~ In (x, b) to) \/ exists c, In c cs /\ c_src c = a /\ c_dst c = b) /\
  (forall c, In c cs -> cyc (c_dst c) = false -> In (c_src c, c_dst c) to).
Proof.
  intros size fuel tasks cs cyc order start to G Cy Big Lf Ord Fr H. assert (L : forall c, In c cs -> on_long_cycle cs c -> cyc (c_dst c) = true) by auto. assert (S1 : forall c, In c cs -> c_src c = c_dst c -> cyc (c_dst c) = true) by auto.
  destruct (remove_result tasks cs cyc size fuel order start G L S1 Big Lf Ord Fr) as (cs' & E & I & Rm & _). rewrite E in H. injection H as <-. split.
  - intros a b Hab. apply in_app_iff in Hab. destruct Hab as [Hab|Hab]; apply in_map_iff in Hab.
    + destruct Hab as (c & Ec & Hc). injection Ec as <- <-. right. exists c. auto.
    + destruct Hab as (t & Et & Ht). injection Et as <- <-. left. split; [reflexivity|]. intros x Nx Hx. apply in_app_iff in Hx. destruct Hx as [Hx|Hx]; apply in_map_iff in Hx.
      * destruct Hx as (c & Ec & Hc). injection Ec as _ Ec. apply filter_In in Ht. destruct Ht as [_ Ni]. unfold no_input in Ni. assert (X : In c (ins cs' t)) by (apply filter_In; split; [exact Hc|now apply Nat.eqb_eq]). destruct (ins cs' t); [destruct X|discriminate].
      * destruct Hx as (c & Ec & Hc). injection Ec as Ec _. congruence.
  - intros c Hc Nc. assert (Dec : forall a b : chan, {a = b} + {a <> b}) by (decide equality; try apply Z.eq_dec; apply Nat.eq_dec). destruct (in_dec Dec c cs') as [X|X].
    + apply in_app_iff. left. apply in_map_iff. eauto.
    + rewrite (Rm c Hc X) in Nc. discriminate.
Qed.
Print Assumptions C135_kept.

(** The placement that follows gives every task a core, if it succeeds. *)
Theorem C135_every_task_placed : forall size fuel fuel' xs ys n pick d tasks cs cyc order start to st, (0 <= xs)%Z -> (0 <= ys)%Z -> make_noc xs ys = Ok n -> sdf_graph tasks cs ->
  (forall c, In c cs -> on_long_cycle cs c \/ c_src c = c_dst c -> cyc (c_dst c) = true) ->
  (forall t, In t tasks -> t < size) -> length tasks < fuel -> (forall t, In t order <-> In t tasks) -> ~ In start tasks ->
  remove_with size fuel tasks cs cyc order start = Ok to -> map_tasks fuel' pick d to start (make_graph n) = Ok st ->
  forall t, p_core st t <> None <-> In t tasks.
Proof.
  intros size fuel fuel' xs ys n pick d tasks cs cyc order start to st Hx Hy En G Cy Big Lf Ord Fr H Hm t.
  destruct (C135_no_cycle_partial size fuel tasks cs cyc order start G Cy Big Lf Ord Fr) as (to' & E & Ac & Src & All). rewrite H in E. injection E as <-.
  rewrite (C131_every_task fuel' xs ys n pick d to start st Hx Hy En Hm Ac Src t). rewrite <- All. split; [tauto|]. intros Ht. split; [intros ->; contradiction|exact Ht].
Qed.
Print Assumptions C135_every_task_placed.

(** The program's vector has as many entries as there are tasks, whose identifiers start at 1: the last task is
    always out of range. *)
Theorem C135_out_of_range_refuted : forall fuel tasks cs cyc order start, sdf_graph tasks cs -> tasks <> [] -> (forall t, In t tasks -> 1 <= t) ->
  length tasks < fuel -> (forall t, In t order <-> In t tasks) -> remove_cycle_edges fuel tasks cs cyc order start = Undefined.
Proof.
  intros fuel tasks cs cyc order start G Ne P Lf Ord. unfold remove_cycle_edges, remove_with. destruct (pigeon tasks (g_tasks _ _ G) Ne P) as (v & Hv & Lv).
  rewrite (too_short tasks cs cyc (length tasks) fuel order G Lf); [reflexivity|intros x; apply Ord|exists v; split; [apply Ord, Hv|exact Lv]].
Qed.
Print Assumptions C135_out_of_range_refuted.

(** A channel from a task to itself stays unless the task is marked, and then the task never gets a core. *)
Theorem C135_self_loop_refuted : forall size fuel fuel' xs ys n pick d tasks cs cyc order start to st c, (0 <= xs)%Z -> (0 <= ys)%Z -> make_noc xs ys = Ok n ->
  sdf_graph tasks cs -> ~ In start tasks -> In c cs -> c_src c = c_dst c -> cyc (c_dst c) = false ->
  remove_with size fuel tasks cs cyc order start = Ok to -> map_tasks fuel' pick d to start (make_graph n) = Ok st -> p_core st (c_src c) = None.
Proof.
  intros size fuel fuel' xs ys n pick d tasks cs cyc order start to st c Hx Hy En G Fr Hc Es B H Hm. pose proof (unmarked_stays tasks cs cyc size fuel order start to c (g_ids _ _ G) H Hc B) as X. rewrite <- Es in X.
  assert (Ns : c_src c <> start) by (intros E; apply Fr; rewrite <- E; apply (g_ends _ _ G c Hc)).
  unfold map_tasks in Hm. apply (waits_for_itself pick d to start (c_src c) X Ns fuel' _ _ _ st) in Hm; [exact Hm| |reflexivity]. intros [E|[]]. congruence.
Qed.
Print Assumptions C135_self_loop_refuted.

(** A channel that is on no cycle may be removed too: here 1 sends to 2 and 3, both send to 4, which is on a
    cycle with 5; the channel from 3 to 4 is lost, although 3 then does not come before 4. *)
Definition fork_chans := [mkChan 1 1 2 1 1 0; mkChan 2 1 3 1 1 0; mkChan 3 2 4 1 1 0; mkChan 4 3 4 1 1 0; mkChan 5 4 5 1 1 0; mkChan 6 5 4 1 1 1].
Definition fork_tasks := [1; 2; 3; 4; 5].
Theorem C135_only_cycles_refuted : exists cyc, sdf_graph fork_tasks fork_chans /\
  (forall c, In c fork_chans -> on_long_cycle fork_chans c \/ c_src c = c_dst c -> cyc (c_dst c) = true) /\
  (forall t, cyc t = true -> reaches fork_chans t 4 /\ reaches fork_chans 4 5 /\ reaches fork_chans 5 4) /\
  task_order 5 fork_tasks fork_chans (fun _ => 1) = Ok fork_tasks /\
  remove_with 6 6 fork_tasks fork_chans cyc fork_tasks 6 = Ok [(1, 2); (1, 3); (2, 4); (4, 5); (6, 1)] /\
  ~ reaches fork_chans 4 3.
Proof.
  assert (St : forall i a b, nth_error (map (fun c => (c_src c, c_dst c)) fork_chans) i = Some (a, b) -> reaches fork_chans a b).
  { intros i a b E. apply nth_error_In, in_map_iff in E. destruct E as (c & Ec & Hc). injection Ec as <- <-. apply t_step. exists c. auto. }
  pose proof (St 0 1 2 eq_refl) as R12. pose proof (St 2 2 4 eq_refl) as R24. pose proof (St 3 3 4 eq_refl) as R34. pose proof (St 4 4 5 eq_refl) as R45. pose proof (St 5 5 4 eq_refl) as R54.
  exists (fun t => existsb (Nat.eqb t) fork_tasks). split; [|split; [|split; [|split; [|split]]]].
  - constructor; [repeat constructor; cbn; intuition lia|repeat constructor; cbn; intuition lia| |].
    + intros c Hc. cbn in Hc. intuition subst; cbn; tauto.
    + intros c Hc. cbn in Hc. intuition subst; cbn; lia.
  - intros c Hc _. cbn in Hc. intuition subst; reflexivity.
  - intros t Ht. apply existsb_exists in Ht. destruct Ht as (x & Hx & E). apply Nat.eqb_eq in E. subst x. split; [|auto].
    destruct Hx as [<-|[<-|[<-|[<-|[<-|[]]]]]]; try assumption; [exact (t_trans _ _ _ _ _ R12 R24)|exact (t_trans _ _ _ _ _ R45 R54)].
  - reflexivity.
  - reflexivity.
  - assert (H : forall a b, reaches fork_chans a b -> a = 4 \/ a = 5 -> b = 4 \/ b = 5).
    { intros a b R. induction R as [a b (c & Hc & <- & <-)|a b c _ IH1 _ IH2]; [|auto]. cbn in Hc. intuition subst; cbn in *; lia. }
    intros R. destruct (H 4 3 R (or_introl eq_refl)); discriminate.
Qed.
Print Assumptions C135_only_cycles_refuted.

(** The ring of C134: the channel back to task 1 is removed. *)
Example ring_removed : remove_with 4 4 ring_tasks ring_chans (fun _ => true) [1; 2; 3] 4 = Ok [(1, 2); (2, 3); (4, 1)].
Proof. reflexivity. Qed.
Example ring_out_of_range : remove_cycle_edges 4 ring_tasks ring_chans (fun _ => true) [1; 2; 3] 4 = Undefined.
Proof. reflexivity. Qed.
(** A chain, which is left as it is, and its placement. *)
Example chain_left : remove_with 4 4 ring_tasks [mkChan 1 1 2 1 2 0; mkChan 2 2 3 1 1 0] (fun _ => false) [1; 2; 3] 4 = Ok [(1, 2); (2, 3); (4, 1)].
Proof. reflexivity. Qed.
Example chain_placed : (do n <- make_noc 2 2; do st <- map_tasks 6 (fun _ => 0) [(1, 2); (2, 3)] [(1, 2); (2, 3); (4, 1)] 4 (make_graph n); Ok (map (p_core st) ring_tasks)) = Ok [Some 0; Some 1; Some 3].
Proof. vm_compute. reflexivity. Qed.
