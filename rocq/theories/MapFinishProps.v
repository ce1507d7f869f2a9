(** C137-C138: the whole mapping, and the task it adds. *)
From Coq Require Import Relations ZifyBool ZifyNat.
From Verif Require Import Base Noc NocSpec NocProofs NocProps NocPath NocPathSpec NocPathMesh NocPathProps Mapper MapperSpec MapperProofs MapperProps
  TaskOrder TaskOrderSpec TaskOrderProofs TaskOrderProps CycleFinder CycleFinderSpec CycleFinderProofs CycleFinderProps MapFinish MapFinishSpec MapFinishProofs.
Open Scope nat_scope.

(** ** C137 *)
Lemma is_core_node xs ys n a : (0 <= xs)%Z -> (0 <= ys)%Z -> make_noc xs ys = Ok n -> (Z.of_nat a < xs * ys)%Z -> core_node n (a + mesh_size (make_graph n)).
Proof.
  intros Hx Hy E Ha. rewrite (mesh_eq xs ys n Hx Hy E). destruct (make_noc_inv xs ys n Hx Hy E) as [-> _]. assert (Px : (0 < xs)%Z) by nia.
  pose proof (Z.div_mod (Z.of_nat a) xs ltac:(lia)) as D. pose proof (Z.mod_pos_bound (Z.of_nat a) xs Px) as B.
  assert (Dy : (0 <= Z.of_nat a / xs < ys)%Z) by (split; [apply Z.div_pos; lia|apply Z.div_lt_upper_bound; lia]).
  exists (mkNode (core_at xs ys (Z.of_nat a mod xs) (Z.of_nat a / xs)) true (2 * (Z.of_nat a mod xs)) (2 * (Z.of_nat a / xs))). split; [|split; [|reflexivity]].
  - apply pure_nodes. exists (Z.of_nat a mod xs)%Z, (Z.of_nat a / xs)%Z. split; [split; assumption|]. now right.
  - cbn [n_id]. unfold core_at. assert (0 <= xs * ys)%Z by nia. lia.
Qed.
Section Placed.
Variables (fuel : nat) (xs ys : Z) (n : noc) (pick : list nat -> nat) (tasks : list nat) (cs : list chan) (to : list (nat * nat)) (start : nat) (st : placing).
Hypotheses (Hx : (0 <= xs)%Z) (Hy : (0 <= ys)%Z) (E : make_noc xs ys = Ok n) (G : sdf_graph tasks cs).
Hypothesis NoL : forall c, In c cs -> c_src c <> c_dst c.
Hypothesis Small : forall t, In t tasks -> (Z.of_nat t < 2 * xs * ys)%Z.
Let d := map (fun c => (c_src c, c_dst c)) cs.
Hypothesis Hm : map_tasks fuel pick d to start (make_graph n) = Ok st.

Lemma chan_in c : In c cs -> In (c_src c, c_dst c) d.
Proof. intros H. unfold d. apply in_map_iff. eauto. Qed.
Lemma small_d s t : In (s, t) d -> t < g_v (make_graph n).
Proof using Hx Hy E G Small. clear NoL Hm st to start pick fuel. intros H. unfold d in H. apply in_map_iff in H. destruct H as (c & Ec & Hc). injection Ec as <- <-. pose proof (Small _ (proj2 (g_ends _ _ G c Hc))). rewrite (g_v_eq xs ys n Hx Hy E). lia. Qed.
Lemma all_routed c r : In c cs -> get (p_routes st) (map_index (g_v (make_graph n)) (c_src c) (c_dst c)) = Some r ->
  c_src c <> c_dst c /\ exists a b, p_core st (c_src c) = Some a /\ p_core st (c_dst c) = Some b /\ leads (make_graph n) r a b.
Proof using Hx Hy E G NoL Small Hm.
  intros Hc Gr. split; [exact (NoL c Hc)|]. destruct (C132_only_channels fuel xs ys n pick d to start st Hx Hy E Hm _ r Gr) as (s & t & Hd & Ek & Cs & Ct).
  apply map_index_inj in Ek; [|exact (small_d _ _ (chan_in c Hc))|exact (small_d _ _ Hd)]. destruct Ek as [<- <-].
  destruct (p_core st (c_src c)) as [a|] eqn:Ca; [|congruence]. destruct (p_core st (c_dst c)) as [b|] eqn:Cb; [|congruence]. exists a, b. split; [reflexivity|]. split; [reflexivity|].
  destruct (C132_routes fuel xs ys n pick d to start st Hx Hy E Hm small_d (c_src c) (c_dst c) a b (chan_in c Hc) (NoL c Hc) Ca Cb) as (r' & Gr' & L). rewrite Gr in Gr'. injection Gr' as <-. exact L.
Qed.
Lemma written_ok : exists w, write_all n (make_graph n) cs (p_routes st) = Ok w /\
  (forall t x, fst w t = Some x <-> exists c a, In c cs /\ get (p_routes st) (map_index (g_v (make_graph n)) (c_src c) (c_dst c)) <> None /\ (c_src c = t \/ c_dst c = t) /\ p_core st t = Some a /\ x = a + mesh_size (make_graph n)) /\
  (forall c, In c cs -> snd w (c_id c) = get (p_routes st) (map_index (g_v (make_graph n)) (c_src c) (c_dst c))).
Proof using Hx Hy E G NoL Small Hm.
  apply (write_all_ok xs ys n Hx Hy E (p_core st) cs (p_routes st) (g_ids _ _ G)); [|exact all_routed]. exact (proj2 (C131_one_task_per_core fuel xs ys n pick d to start st Hx Hy E Hm)).
Qed.
End Placed.

(** When the placement has given every task a core, and every task has a channel, what is written into the
    graph is right; no check fails. *)
Theorem C137_written : forall fuel xs ys n pick tasks cs to start st old, (0 <= xs)%Z -> (0 <= ys)%Z -> make_noc xs ys = Ok n -> sdf_graph tasks cs ->
  (forall c, In c cs -> c_src c <> c_dst c) -> (forall t, In t tasks -> (Z.of_nat t < 2 * xs * ys)%Z) ->
  map_tasks fuel pick (map (fun c => (c_src c, c_dst c)) cs) to start (make_graph n) = Ok st -> (forall t, In t tasks -> p_core st t <> None) ->
  (forall t, In t tasks -> exists c, In c cs /\ (c_src c = t \/ c_dst c = t)) ->
  exists m routes, finish n tasks cs (p_routes st) old = Ok (m, routes) /\ mapped n tasks cs m routes.
Proof.
  intros fuel xs ys n pick tasks cs to start st old Hx Hy E G NoL Small Hm All Has. destruct (written_ok fuel xs ys n pick tasks cs to start st Hx Hy E G NoL Small Hm) as (w & Ew & W1 & W2).
  destruct (C131_one_task_per_core fuel xs ys n pick _ to start st Hx Hy E Hm) as [Rg One].
  assert (Rt : forall c, In c cs -> exists a b r, p_core st (c_src c) = Some a /\ p_core st (c_dst c) = Some b /\ get (p_routes st) (map_index (g_v (make_graph n)) (c_src c) (c_dst c)) = Some r /\ leads (make_graph n) r a b).
  { intros c Hc. destruct (g_ends _ _ G c Hc) as [Hs Ht]. destruct (p_core st (c_src c)) as [a|] eqn:Ca; [|destruct (All _ Hs Ca)]. destruct (p_core st (c_dst c)) as [b|] eqn:Cb; [|destruct (All _ Ht Cb)].
    destruct (C132_routes fuel xs ys n pick _ to start st Hx Hy E Hm) with (s := c_src c) (t := c_dst c) (a := a) (b := b) as (r & Gr & L); auto; [exact (small_d xs ys n tasks cs Hx Hy E G Small)|exact (chan_in cs c Hc)|]. exists a, b, r. auto. }
  assert (M : forall t, In t tasks -> exists a, p_core st t = Some a /\ fst w t = Some (a + mesh_size (make_graph n))).
  { intros t Ht. destruct (p_core st t) as [a|] eqn:Ca; [|destruct (All t Ht Ca)]. exists a. split; [reflexivity|]. apply W1. destruct (Has t Ht) as (c & Hc & Ec). exists c, a. split; [exact Hc|]. split; [|auto].
    destruct (Rt c Hc) as (a' & b' & r & _ & _ & Gr & _). congruence. }
  unfold finish. rewrite Ew. cbn [bind]. set (m := fun t => match fst w t with Some x => Some x | None => old t end).
  assert (Mm : forall t, In t tasks -> exists a, p_core st t = Some a /\ m t = Some (a + mesh_size (make_graph n))). { intros t Ht. destruct (M t Ht) as (a & Ca & Ma). exists a. split; [exact Ca|]. unfold m. now rewrite Ma. }
  change (exists m0 routes, (do _ <- cassert (forallb (fun t => match m t with Some _ => true | None => false end) tasks); Ok (m, snd w)) = Ok (m0, routes) /\ mapped n tasks cs m0 routes).
  assert (Fb : forallb (fun t => match m t with Some _ => true | None => false end) tasks = true). { apply forallb_forall. intros t Ht. destruct (Mm t Ht) as (a & _ & ->). reflexivity. }
  rewrite Fb.
  cbn [cassert bind]. exists m, (snd w). split; [reflexivity|]. constructor.
  - intros t Ht. destruct (Mm t Ht) as (a & Ca & ->). eexists. split; [reflexivity|]. apply (is_core_node xs ys n a Hx Hy E). exact (Rg t a Ca).
  - intros t t' x Ht Ht' X X'. destruct (Mm t Ht) as (a & Ca & Ma). destruct (Mm t' Ht') as (a' & Ca' & Ma'). rewrite Ma in X. rewrite Ma' in X'. assert (a = a') by (injection X; injection X'; lia). subst. exact (One _ _ _ Ca Ca').
  - intros c Hc. destruct (g_ends _ _ G c Hc) as [Hs Ht]. destruct (Rt c Hc) as (a & b & r & Ca & Cb & Gr & L). destruct (Mm _ Hs) as (a' & Ca' & Ma). destruct (Mm _ Ht) as (b' & Cb' & Mb). rewrite Ca in Ca'. rewrite Cb in Cb'. injection Ca' as <-. injection Cb' as <-.
    exists (a + mesh_size (make_graph n)), (b + mesh_size (make_graph n)), r. split; [exact Ma|]. split; [exact Mb|]. split; [now rewrite (W2 c Hc)|exact L].
Qed.
Print Assumptions C137_written.

(** A task without a channel makes the mapping fail, wherever the placement has put it. *)
Theorem C137_alone_refuted : forall fuel xs ys n pick tasks cs to start st t, (0 <= xs)%Z -> (0 <= ys)%Z -> make_noc xs ys = Ok n -> sdf_graph tasks cs ->
  (forall c, In c cs -> c_src c <> c_dst c) -> (forall t, In t tasks -> (Z.of_nat t < 2 * xs * ys)%Z) ->
  map_tasks fuel pick (map (fun c => (c_src c, c_dst c)) cs) to start (make_graph n) = Ok st ->
  In t tasks -> (forall c, In c cs -> c_src c <> t /\ c_dst c <> t) -> finish n tasks cs (p_routes st) (fun _ => None) = Rejected.
Proof.
  intros fuel xs ys n pick tasks cs to start st t Hx Hy E G NoL Small Hm Ht No. destruct (written_ok fuel xs ys n pick tasks cs to start st Hx Hy E G NoL Small Hm) as (w & Ew & W1 & _).
  unfold finish. rewrite Ew. cbn [bind]. replace (forallb _ tasks) with false; [reflexivity|]. symmetry. apply Bool.not_true_iff_false. intros F. rewrite forallb_forall in F. specialize (F t Ht). destruct (fst w t) as [x|] eqn:Ft; [|discriminate].
  apply W1 in Ft. destruct Ft as (c & a & Hc & _ & X & _). destruct (No c Hc). intuition.
Qed.
Print Assumptions C137_alone_refuted.

(** The whole, with a vector in removeCycleEdges that has an entry for every task: on every graph without a
    channel from a task to itself that can execute an iteration, the mapping either runs into the missing
    paths of the placement (C133) or gives every task a core and every channel a route. *)
Theorem C137_whole_partial : forall size fuel xs ys n pick tasks cs N start old s, (0 <= xs)%Z -> (0 <= ys)%Z -> make_noc xs ys = Ok n -> sdf_graph tasks cs -> tasks <> [] ->
  (forall c, In c cs -> c_src c <> c_dst c) -> (forall t, In t tasks -> exists c, In c cs /\ (c_src c = t \/ c_dst c = t)) ->
  admissible cs s -> iteration tasks N s -> (forall t, In t tasks -> 0 < N t) ->
  (forall t, In t tasks -> (Z.of_nat t < 2 * xs * ys)%Z) -> (forall t, In t tasks -> t < size) -> ~ In start tasks ->
  S (length tasks) < fuel -> list_sum (map N tasks) <= fuel ->
  map_and_route size fuel (Z.to_nat (xs * ys) + 2) pick n tasks cs N start old = Undefined \/
  exists m routes, map_and_route size fuel (Z.to_nat (xs * ys) + 2) pick n tasks cs N start old = Ok (m, routes) /\ mapped n tasks cs m routes.
Proof.
  intros size fuel xs ys n pick tasks cs N start old s Hx Hy E G Ne NoL Has A I Pos Small Big Fr Lf Lp.
  destruct (C135_preparation_partial size fuel tasks cs N start s G Ne NoL A I Pos Big Lf Lp Fr) as (to & Eto & Ac & Src & All). unfold map_and_route. rewrite Eto. cbn [bind].
  destruct (C131_ends xs ys n pick (map (fun c => (c_src c, c_dst c)) cs) to start Hx Hy E) as [H|(st & H)]; rewrite H; [now left|right]. cbn [bind].
  apply (C137_written (Z.to_nat (xs * ys) + 2) xs ys n pick tasks cs to start st old Hx Hy E G NoL Small H); [|exact Has].
  intros t Ht. apply (C131_every_task _ xs ys n pick _ to start st Hx Hy E H Ac Src). split; [intros ->; contradiction|]. apply All, Ht.
Qed.
Print Assumptions C137_whole_partial.

(** With the vector of the program every such graph is out of range. *)
Theorem C137_out_of_range_refuted : forall fuel fuel' pick n tasks cs N start old s, sdf_graph tasks cs -> tasks <> [] -> (forall t, In t tasks -> 1 <= t) ->
  admissible cs s -> iteration tasks N s -> (forall t, In t tasks -> 0 < N t) ->
  S (length tasks) < fuel -> list_sum (map N tasks) <= fuel -> map_and_route (length tasks) fuel fuel' pick n tasks cs N start old = Undefined.
Proof.
  intros fuel fuel' pick n tasks cs N start old s G Ne P1 A I Pos Lf Lp. unfold map_and_route. rewrite (C135_preparation_refuted fuel tasks cs N start s G Ne P1 A I Pos Lf Lp). reflexivity.
Qed.
Print Assumptions C137_out_of_range_refuted.

(** The network made by default has a core for every task, and no smaller square of side two or more has. *)
Theorem C137_room : forall count meshsize, (meshsize <= 0)%Z ->
  let r := mesh_row count meshsize in (2 <= r /\ count <= r * r /\ (2 < r -> (r - 1) * (r - 1) < count))%Z.
Proof.
  intros count meshsize M r. unfold r, mesh_row. replace (0 <? meshsize)%Z with false by lia. destruct (Z.le_gt_cases count 0) as [C|C].
  - rewrite Z.sqrt_up_eqn0 by lia. cbn. lia.
  - pose proof (Z.sqrt_up_spec count C) as S. rewrite <- Z.sub_1_r in S. destruct (Z.sqrt_up count <=? 2)%Z eqn:B; [|lia]. apply Z.leb_le in B. pose proof (Z.sqrt_up_nonneg count). nia.
Qed.
Print Assumptions C137_room.
(** A size that is asked for is taken as it is, even when it is too small. *)
Example room_asked : mesh_row 10 2 = 2%Z.
Proof. reflexivity. Qed.
Example room_ten : mesh_row 10 0 = 4%Z.
Proof. reflexivity. Qed.

(** A chain of three tasks on a network of 2 x 2. *)
Definition chain_chans := [mkChan 1 1 2 1 1 0; mkChan 2 2 3 1 1 0].
Example chain_mapped : (do n <- make_noc 2 2; do w <- map_and_route 4 5 6 (fun _ => 0) n ring_tasks chain_chans (fun _ => 1) 4 (fun _ => None); Ok (map (fst w) ring_tasks, map (snd w) [1; 2])) =
  Ok ([Some 4; Some 5; Some 7], [Some [40; 9; 21]; Some [49; 19; 39]]).
Proof. vm_compute. reflexivity. Qed.

(** ** C138 *)
(** Task [t] has no channel to it, or no task is without one and [t] is the first task. *)
Definition entry (tasks : list nat) (d : list (nat * nat)) (t : nat) : Prop :=
  In t tasks /\ (~ (exists a, In (a, t) d) \/ (forall x, In x tasks -> exists a, In (a, x) d) /\ hd_error tasks = Some t).
Lemma no_inputs d t : inputs d t = [] <-> ~ exists a, In (a, t) d.
Proof.
  split.
  - intros Ei (a & H). apply in_inputs in H. rewrite Ei in H. exact H.
  - intros N. destruct (inputs d t) as [|a l] eqn:Ei; [reflexivity|]. destruct N. exists a. apply in_inputs. rewrite Ei. now left.
Qed.
Lemma start_channels tasks d start d' : with_start tasks d start = Ok d' -> forall a b, In (a, b) d' <-> In (a, b) d \/ a = start /\ entry tasks d b.
Proof.
  intros W a b. unfold with_start in W. set (f := fun t => match inputs d t with [] => true | _ => false end) in *.
  assert (F : forall t, In t (filter f tasks) <-> In t tasks /\ ~ exists a, In (a, t) d).
  { intros t. rewrite filter_In. unfold f. rewrite <- no_inputs. destruct (inputs d t); intuition congruence. }
  destruct (filter f tasks) as [|x l] eqn:El.
  - assert (No : forall t, In t tasks -> exists a, In (a, t) d). { intros t Ht. destruct (inputs d t) as [|y q] eqn:Ei; [destruct (proj2 (F t)); split; [exact Ht|now apply no_inputs]|]. exists y. apply in_inputs. rewrite Ei. now left. }
    destruct tasks as [|top ts] eqn:Et; [discriminate|]. injection W as <-. rewrite in_app_iff. cbn [In]. split.
    + intros [H|[H|[]]]; [now left|]. injection H as <- <-. right. split; [reflexivity|]. split; [now left|]. right. auto.
    + intros [H|[-> [Hb [N|[_ Eb]]]]]; [auto|destruct (N (No b Hb))|]. injection Eb as ->. auto.
  - injection W as <-. assert (X : In x tasks /\ ~ exists a, In (a, x) d) by (apply F; now left). change (In (a, b) (d ++ map (fun t => (start, t)) (x :: l)) <-> In (a, b) d \/ a = start /\ entry tasks d b). rewrite in_app_iff, in_map_iff. split.
    + intros [H|(t & Et & Ht)]; [now left|]. injection Et as <- <-. right. split; [reflexivity|]. apply F in Ht. split; [apply Ht|left; apply Ht].
    + intros [H|[-> [Hb [N|[All _]]]]]; [auto| |destruct X as [X1 X2]; destruct (X2 (All x X1))]. right. exists b. split; [reflexivity|]. apply F. auto.
Qed.
(** Exactly the tasks that come after an entry come after the added task. *)
Theorem C138_reached : forall tasks d start d', (forall a b, In (a, b) d -> In a tasks /\ In b tasks) -> ~ In start tasks -> with_start tasks d start = Ok d' ->
  forall t, In t tasks -> leads_to d' start t <-> exists s, entry tasks d s /\ leads_to d s t.
Proof.
  intros tasks d start d' Ends Fr W t Ht. pose proof (start_channels tasks d start d' W) as Sc. split.
  - intros R. apply clos_rt_rt1n in R. inversion R as [|s z H R' Ez]; [subst; contradiction|]. subst. apply Sc in H. destruct H as [H|[_ He]]; [destruct (Ends _ _ H); contradiction|]. exists s. split; [exact He|].
    assert (Go : forall a b, clos_refl_trans_1n nat (follows d') a b -> In a tasks -> leads_to d a b).
    { clear - Ends Fr Sc. intros a b R. induction R as [|a c b H R IH]; intros Ha; [apply rt_refl|]. apply Sc in H. destruct H as [H|[-> _]]; [|contradiction]. eapply rt_trans; [apply rt_step, H|]. apply IH. apply (Ends _ _ H). }
    apply Go; [exact R'|apply He].
  - intros (s & He & R). eapply rt_trans; [apply rt_step, Sc; right; split; [reflexivity|exact He]|]. apply (leads_incl d d'); [|exact R]. intros (a, b) H. apply Sc. now left.
Qed.
Print Assumptions C138_reached.

(** Without cycles, that is every task. *)
Theorem C138_acyclic : forall tasks d start d', (forall a b, In (a, b) d -> In a tasks /\ In b tasks) -> ~ In start tasks -> acyclic d -> with_start tasks d start = Ok d' ->
  forall t, In t tasks -> leads_to d' start t.
Proof.
  intros tasks d start d' Ends Fr (rank & Rk) W t Ht. apply (C138_reached tasks d start d' Ends Fr W t Ht).
  assert (H : forall k t, rank t < k -> In t tasks -> exists s, entry tasks d s /\ leads_to d s t).
  { induction k as [|k IH]; intros x Hk Hx; [lia|]. destruct (inputs d x) as [|a l] eqn:Ei.
    - exists x. split; [split; [exact Hx|left; now apply no_inputs]|apply rt_refl].
    - assert (Ha : In (a, x) d) by (apply in_inputs; rewrite Ei; now left). destruct (IH a) as (s & He & R); [specialize (Rk _ _ Ha); lia|apply (Ends _ _ Ha)|]. exists s. split; [exact He|]. eapply rt_trans; [exact R|apply rt_step, Ha]. }
  exact (H (S (rank t)) t (Nat.lt_succ_diag_r _) Ht).
Qed.
Print Assumptions C138_acyclic.

(** In general it is not: a task without input channels next to a cycle, or two cycles. *)
Theorem C138_every_task_refuted :
  (exists d', with_start [1; 2; 3] [(2, 3); (3, 2)] 4 = Ok d' /\ ~ leads_to d' 4 2) /\
  (exists d', with_start [1; 2; 3; 4] [(1, 2); (2, 1); (3, 4); (4, 3)] 5 = Ok d' /\ ~ leads_to d' 5 3).
Proof.
  assert (H : forall (P : nat -> Prop) d a b, (forall x y, In (x, y) d -> P x -> P y) -> leads_to d a b -> P a -> P b).
  { intros P d a b C R. induction R as [x y X|x|x y z _ IH1 _ IH2]; [exact (C x y X)|auto|auto]. }
  split; (eexists; split; [reflexivity|]); intros R.
  - apply (H (fun x => x = 4 \/ x = 1)) in R; [lia| |auto]. intros x y X. cbn in X. intuition congruence.
  - apply (H (fun x => x = 5 \/ x = 1 \/ x = 2)) in R; [lia| |auto]. intros x y X. cbn in X. intuition congruence.
Qed.
Print Assumptions C138_every_task_refuted.
(** Non-trivial cases: a source, and a cycle with nothing before it. *)
Example start_source : with_start [1; 2; 3] [(1, 2); (2, 3); (3, 2)] 4 = Ok [(1, 2); (2, 3); (3, 2); (4, 1)].
Proof. reflexivity. Qed.
Example start_cycle : with_start [1; 2] [(1, 2); (2, 1)] 4 = Ok [(1, 2); (2, 1); (4, 1)].
Proof. reflexivity. Qed.
(** Without any task the first one is not set. *)
Example start_none : with_start [] [] 1 = Undefined.
Proof. reflexivity. Qed.
