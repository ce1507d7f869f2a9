(** C136: the search for cycles. C135 again: the whole preparation of the graph. *)
From Coq Require Import Relations Permutation Sorted ZifyBool ZifyNat.
From Verif Require Import Base NocPath Mapper MapperSpec MapperProofs TaskOrder TaskOrderSpec TaskOrderProofs TaskOrderProps CycleFinder CycleFinderSpec CycleFinderDfs CycleFinderProofs.
Open Scope nat_scope.

(** ** C136 *)
(** The search ends, and what it gives for a task are the lengths, in increasing order, of the cycles that can
    be reached from the task, one for each set of tasks that forms a cycle; cycles through a task that is on no
    cycle with another task are left out. *)
Theorem C136_cycles : forall fuel vs d start, (forall a b, In (a, b) d -> In a vs /\ In b vs) -> In start vs -> length vs < fuel ->
  exists lens, cycle_lengths fuel vs d start = Ok lens /\
  forall v, In v vs -> StronglySorted le (lens v) /\
    exists sets, NoDup sets /\ (forall s, In s sets <-> cycle_from d v s) /\ Permutation (lens v) (map (@length nat) sets).
Proof.
  intros fuel vs d start E Hs Lf. destruct (cycle_lengths_run vs d E fuel start Lf Hs) as (cycles & ids & R & _). eexists. split; [exact R|].
  exact (lengths_spec vs d E fuel start _ Lf Hs R).
Qed.
Print Assumptions C136_cycles.

(** A task has a length exactly when a task on a cycle with another task can be reached from it. *)
Lemma chain_suffix d z : forall p l, chain d (p ++ l) z -> l <> [] -> chain d l z.
Proof. induction p as [|x p IH]; intros l C N; [exact C|]. apply IH; [|exact N]. cbn [app] in C. destruct p as [|y p]; cbn [app] in *; [destruct l; [congruence|apply C]|apply C]. Qed.
Lemma simple d u : forall y, leads_to d y u -> y = u \/ exists l, hd_error l = Some y /\ NoDup l /\ ~ In u l /\ chain d l u.
Proof.
  intros y R. apply clos_rt_rt1n in R. induction R as [|y z u H R IH]; [now left|]. destruct (Nat.eq_dec y u) as [->|N]; [now left|right]. destruct IH as [->|(l & Hl & ND & Nu & C)].
  - exists [y]. split; [reflexivity|]. split; [repeat constructor; intros []|]. split; [intros [->|[]]; congruence|exact H].
  - destruct (in_dec Nat.eq_dec y l) as [I|I].
    + apply in_split in I. destruct I as (p & q & ->). exists (y :: q). split; [reflexivity|]. split; [clear - ND; induction p as [|a p IH]; [exact ND|inversion ND; auto]|].
      split; [intros X; apply Nu, in_app_iff; now right|]. apply (chain_suffix d u p); [exact C|discriminate].
    + exists (y :: l). split; [reflexivity|]. split; [now constructor|]. split; [intros [X|X]; [congruence|contradiction]|]. destruct l as [|a l]; [discriminate|]. injection Hl as ->. split; [exact H|exact C].
Qed.
Lemma cycle_exists d u : on_cycle d u -> exists l, elementary d u l.
Proof.
  intros (w & N & R1 & R2). apply clos_rt_rt1n in R1. inversion R1 as [|y z H R E]; [congruence|]. subst. apply clos_rt1n_rt in R.
  destruct (simple d u y (rt_trans _ _ _ _ _ R R2)) as [->|(l & Hl & ND & Nu & C)].
  - exists [u]. split; [repeat constructor; intros []|]. split; [reflexivity|exact H].
  - exists (u :: l). split; [now constructor|]. split; [reflexivity|]. destruct l as [|a l]; [discriminate|]. injection Hl as ->. split; [exact H|exact C].
Qed.
Theorem C136_marks : forall fuel vs d start lens, (forall a b, In (a, b) d -> In a vs /\ In b vs) -> In start vs -> length vs < fuel ->
  cycle_lengths fuel vs d start = Ok lens -> forall v, In v vs -> lens v <> [] <-> exists u, leads_to d v u /\ on_cycle d u.
Proof.
  intros fuel vs d start lens E Hs Lf R v Hv. destruct (lengths_spec vs d E fuel start lens Lf Hs R v Hv) as (_ & sets & _ & Eq & P). split.
  - intros N. destruct sets as [|s sets]; [apply Permutation_sym, Permutation_nil in P; congruence|]. destruct (proj1 (Eq s) (or_introl eq_refl)) as (_ & u & l & H1 & H2 & _). eauto.
  - intros (u & H1 & H2) N. destruct (cycle_exists d u H2) as (l & El). assert (X : In (sorted l) sets).
    { apply Eq. split; [apply strict; [apply sorted_sorted|]; apply (Permutation_NoDup (Permutation_sym (sorted_perm l))), El|]. exists u, l. repeat split; try assumption; try apply El. apply sorted_perm. }
    rewrite N in P. apply Permutation_nil in P. destruct sets; [destruct X|discriminate].
Qed.
Print Assumptions C136_marks.

(** So a task with a channel to itself, in a graph with no longer cycle, is on a cycle that is not found. *)
Theorem C136_self_loop_refuted : forall fuel vs d start lens u, (forall a b, In (a, b) d -> In a vs /\ In b vs) -> In start vs -> length vs < fuel ->
  cycle_lengths fuel vs d start = Ok lens -> In (u, u) d -> (forall x, ~ on_cycle d x) -> elementary d u [u] /\ forall v, In v vs -> lens v = [].
Proof.
  intros fuel vs d start lens u E Hs Lf R Hu No. split; [split; [repeat constructor; intros []|split; [reflexivity|exact Hu]]|].
  intros v Hv. destruct (lens v) as [|x l] eqn:El; [reflexivity|]. assert (X : lens v <> []) by (rewrite El; discriminate). apply (C136_marks fuel vs d start lens E Hs Lf R v Hv) in X. destruct X as (w & _ & X). destruct (No w X).
Qed.
Print Assumptions C136_self_loop_refuted.

(** Two cycles with a task in common, and a source in front of them. *)
Example two_cycles : (do lens <- cycle_lengths 7 [1; 2; 3; 4; 5; 6] [(1, 2); (2, 3); (3, 2); (3, 4); (4, 3); (4, 5); (6, 1)] 6; Ok (map lens [1; 3; 5; 6])) = Ok [[2; 2]; [2; 2]; []; [2; 2]].
Proof. reflexivity. Qed.
(** Two cycles through the same tasks count once. *)
Example same_tasks : (do lens <- cycle_lengths 5 [1; 2; 3; 4] [(1, 2); (2, 3); (3, 1); (1, 3); (3, 2); (2, 1); (4, 1)] 4; Ok (map lens [1; 2; 3; 4])) = Ok [[2; 2; 2; 3]; [2; 2; 2; 3]; [2; 2; 2; 3]; [2; 2; 2; 3]].
Proof. reflexivity. Qed.
Example lone_loop : (do lens <- cycle_lengths 3 [1; 2] [(1, 1); (2, 1)] 2; Ok (map lens [1; 2])) = Ok [[]; []] /\ forall x, ~ on_cycle [(1, 1); (2, 1)] x.
Proof.
  split; [reflexivity|]. assert (H : forall a b, leads_to [(1, 1); (2, 1)] a b -> a = b \/ b = 1).
  { intros a b R. apply clos_rt_rtn1 in R. destruct R as [|y z X _]; [now left|right]. destruct X as [X|[X|[]]]; injection X as <- <-; reflexivity. }
  intros x (w & N & R1 & R2). apply H in R1, R2. lia.
Qed.

(** ** C135: the whole preparation *)
(** On a graph that can execute an iteration of positive length, with no channel from a task to itself: the
    graph that the placement gets has no cycle, contains every task, and every task comes after the added one.
    The vector in removeCycleEdges is taken to have an entry for every task. *)
Lemma with_start_ends tasks d start d' : with_start tasks d start = Ok d' -> (forall a b, In (a, b) d -> In a tasks /\ In b tasks) ->
  incl d d' /\ forall a b, In (a, b) d' -> In a (tasks ++ [start]) /\ In b (tasks ++ [start]).
Proof.
  intros W E. unfold with_start in W. set (l := filter (fun t => match inputs d t with [] => true | _ => false end) tasks) in *.
  assert (H : exists l', incl l' tasks /\ d' = d ++ map (fun t => (start, t)) l').
  { destruct l as [|x l'] eqn:El.
    - destruct tasks as [|t ts]; [discriminate|]. injection W as <-. exists [t]. split; [intros x [<-|[]]; now left|reflexivity].
    - injection W as <-. exists (x :: l'). split; [|reflexivity]. rewrite <- El. intros y Hy. unfold l in Hy. apply filter_In in Hy. apply Hy. }
  destruct H as (l' & I & ->). split; [intros x Hx; apply in_app_iff; now left|]. intros a b H. apply in_app_iff in H. rewrite !in_app_iff. cbn [In]. destruct H as [H|H].
  - destruct (E a b H). auto.
  - apply in_map_iff in H. destruct H as (t & Et & Ht). injection Et as <- <-. split; [auto|left; auto].
Qed.
Lemma with_start_ok tasks d start : tasks <> [] -> exists d', with_start tasks d start = Ok d'.
Proof. intros N. unfold with_start. destruct (filter _ tasks); [destruct tasks; [congruence|eauto]|eauto]. Qed.
Lemma leads_incl d d' a b : incl d d' -> leads_to d a b -> leads_to d' a b.
Proof. intros I R. induction R as [a b H|a|a b c _ IH1 _ IH2]; [apply rt_step, I, H|apply rt_refl|eapply rt_trans; eauto]. Qed.
Lemma reaches_leads cs a b : reaches cs a b -> leads_to (map (fun c => (c_src c, c_dst c)) cs) a b.
Proof. intros R. induction R as [a b (c & Hc & <- & <-)|a b c _ IH1 _ IH2]; [apply rt_step; apply in_map_iff; eauto|eapply rt_trans; eauto]. Qed.
Lemma prepare_parts size fuel tasks cs N start s : sdf_graph tasks cs -> tasks <> [] -> admissible cs s -> iteration tasks N s -> (forall t, In t tasks -> 0 < N t) ->
  S (length tasks) < fuel -> list_sum (map N tasks) <= fuel ->
  exists (lens : nat -> list nat) order, prepare size fuel tasks cs N start = remove_with size fuel tasks cs (fun t => match lens t with [] => false | _ => true end) order start /\
    (forall c, In c cs -> on_long_cycle cs c -> lens (c_dst c) <> []) /\ (forall t, In t order <-> In t tasks).
Proof.
  intros G Ne A I Pos Lf Lp. set (d := map (fun c => (c_src c, c_dst c)) cs). destruct (with_start_ok tasks d start Ne) as (d' & Ed). unfold prepare. fold d. rewrite Ed. cbn [bind].
  destruct (with_start_ends tasks d start d' Ed) as [Inc Ends]. { intros a b H. apply in_map_iff in H. destruct H as (c & Ec & Hc). injection Ec as <- <-. exact (g_ends _ _ G c Hc). }
  assert (Lv : length (tasks ++ [start]) < fuel) by (rewrite app_length; cbn; lia). assert (Hs : In start (tasks ++ [start])) by (apply in_app_iff; right; now left).
  destruct (cycle_lengths_run _ d' Ends fuel start Lv Hs) as (cycles & ids & R & _). rewrite R. cbn [bind].
  destruct (passes_end tasks cs N G s A I fuel _ [] (ran0 tasks cs N G) Lp) as (order & Eo). change (task_order fuel tasks cs N = Ok order) in Eo. rewrite Eo. cbn [bind].
  eexists _, order. split; [reflexivity|]. split.
  - intros c Hc [Nc Rc]. apply (C136_marks fuel _ d' start _ Ends Hs Lv R (c_dst c)); [apply in_app_iff; left; apply (g_ends _ _ G c Hc)|]. exists (c_dst c). split; [apply rt_refl|]. exists (c_src c). split; [exact Nc|].
    split; [apply (leads_incl d d' _ _ Inc), reaches_leads, Rc|]. apply rt_step, Inc. apply in_map_iff. eauto.
  - intros t. rewrite (proj2 (C134_each_once fuel tasks cs N order G Eo) t). split; [tauto|]. intros Ht. auto.
Qed.
Theorem C135_preparation_partial : forall size fuel tasks cs N start s, sdf_graph tasks cs -> tasks <> [] -> (forall c, In c cs -> c_src c <> c_dst c) ->
  admissible cs s -> iteration tasks N s -> (forall t, In t tasks -> 0 < N t) ->
  (forall t, In t tasks -> t < size) -> S (length tasks) < fuel -> list_sum (map N tasks) <= fuel -> ~ In start tasks ->
  exists to, prepare size fuel tasks cs N start = Ok to /\ acyclic to /\
    (forall a b, In (a, b) to -> a = start \/ exists c, In (c, a) to) /\ (forall t, In t tasks <-> exists a, In (a, t) to).
Proof.
  intros size fuel tasks cs N start s G Ne NoL A I Pos Big Lf Lp Fr. destruct (prepare_parts size fuel tasks cs N start s G Ne A I Pos Lf Lp) as (lens & order & -> & Cy & Ord).
  apply C135_no_cycle_partial; auto; [|lia]. intros c Hc [X|X]; [|destruct (NoL c Hc X)]. specialize (Cy c Hc X). destruct (lens (c_dst c)); congruence.
Qed.
Print Assumptions C135_preparation_partial.

(** With the vector of the program, which has as many entries as there are tasks, the preparation reads out of
    range on every such graph. *)
Theorem C135_preparation_refuted : forall fuel tasks cs N start s, sdf_graph tasks cs -> tasks <> [] -> (forall t, In t tasks -> 1 <= t) ->
  admissible cs s -> iteration tasks N s -> (forall t, In t tasks -> 0 < N t) ->
  S (length tasks) < fuel -> list_sum (map N tasks) <= fuel -> prepare (length tasks) fuel tasks cs N start = Undefined.
Proof.
  intros fuel tasks cs N start s G Ne P1 A I Pos Lf Lp. destruct (prepare_parts (length tasks) fuel tasks cs N start s G Ne A I Pos Lf Lp) as (lens & order & -> & _ & Ord).
  apply C135_out_of_range_refuted; auto. lia.
Qed.
Print Assumptions C135_preparation_refuted.

(** The ring of C134, with the start in front. *)
Example ring_prepared : prepare 4 5 ring_tasks ring_chans (fun t => if t =? 1 then 2 else 1) 4 = Ok [(1, 2); (2, 3); (4, 1)].
Proof. reflexivity. Qed.
Example ring_prepared_out : prepare 3 5 ring_tasks ring_chans (fun t => if t =? 1 then 2 else 1) 4 = Undefined.
Proof. reflexivity. Qed.
Example ring_executes : admissible ring_chans [1; 1; 2; 3] /\ iteration ring_tasks (fun t => if t =? 1 then 2 else 1) [1; 1; 2; 3].
Proof.
  split; [|split; [intros x; cbn; tauto|intros t Ht; cbn in Ht; intuition subst; reflexivity]].
  intros b t a E c Hc Ec. destruct b as [|b0 [|b1 [|b2 [|b3 b]]]]; cbn in E; try (destruct b; discriminate E); injection E as; subst; cbn in Hc; (intuition subst); try discriminate; cbv; discriminate.
Qed.
