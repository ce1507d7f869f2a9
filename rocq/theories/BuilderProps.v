(** Properties of the mutable graph object: C10 to C17. *)
From Coq Require Import QArith Ascii String.
From Verif Require Import Base Graph ScheduleSpec KIterSpec Builder BuilderSpec BuilderProofs BuilderIds BuilderPhases BuilderFinal.
Open Scope Z_scope.

(** Running a list of calls, for the examples. *)
Fixpoint run (cs : list call) (s : state) : option state :=
  match cs with
  | [] => Some s
  | c :: cs' => match exec c s with Done _ s' => run cs' s' | _ => None end
  end.
Lemma run_history (P : state -> call -> Prop) r cs : forall s s', (forall s c, In c cs -> P s c) -> history_of P r s -> run cs s = Some s' -> history_of P r s'.
Proof.
  induction cs as [|c cs IH]; cbn; intros s s' HP Hs E; [congruence|]. destruct (exec c s) as [[] s1|s1|] eqn:E1; try discriminate.
  apply (IH s1 s'); auto. eapply ho_accepted; eauto.
Qed.
(** A calls that add, name, connect, rename and remove. *)
Definition ex_calls : list call :=
  [AddVertex; AddVertexName "b"; AddVertexIdName 10 "c"; AddEdge 0 1; AddEdgeName 1 2 "bc"; AddEdgeId 2 2 9; AddEdge 2 1;
   SetEdgeIn 0 [1; 2]; SetEdgeOut 0 [3]; SetEdgeIn 1 [1]; SetEdgeOut 1 [4]; SetEdgeIn 2 [5]; SetEdgeOut 2 [5]; SetEdgeIn 3 [7]; SetEdgeOut 3 [1];
   SetDurations 0 [1%Q; 2%Q]; SetDurations 1 [1%Q]; SetDurations 2 [1%Q]; SetPreload 2 5; RemoveVertex 0; AddVertex; SetEdgeId 1 20; SetVertexName 0 "bb"].
Definition ex_state : state := Eval vm_compute in match run ex_calls empty_state with Some s => s | None => empty_state end.
Lemma ex_checked : history_of checked_call false ex_state.
Proof. apply (run_history checked_call false ex_calls empty_state); [|constructor|vm_compute; reflexivity]. intros s c H. cbn in H. repeat (destruct H as [<-|H]; [exact I|]). contradiction. Qed.
Lemma ex_announces : history_of announces_phases false ex_state.
Proof. apply (run_history announces_phases false ex_calls empty_state); [|constructor|vm_compute; reflexivity]. intros s c H. cbn in H. repeat (destruct H as [<-|H]; [exact I|]). contradiction. Qed.
Example ex_state_is : map bv_id (s_vs ex_state) = [2; 10; 11] /\ map bv_name (s_vs ex_state) = ["bb"; "c"; ""]%string /\
  map (fun e => (be_id e, be_src e, be_dst e)) (s_es ex_state) = [(20, 0%nat, 1%nat); (9, 1%nat, 1%nat); (10, 1%nat, 0%nat)].
Proof. vm_compute. auto. Qed.

(** ** C10 *)
(** In a history of accepted calls (all but setVertexIdUnsafe), no two vertices and no two
    edges share an identifier, edge identifiers are positive, and looking an identifier up
    returns its bearer. *)
Theorem C10_ids_unique : forall s, history_of checked_call false s ->
  NoDup (map bv_id (s_vs s)) /\ NoDup (map be_id (s_es s)) /\ (forall e, In e (s_es s) -> 0 < be_id e) /\
  (forall v b, nth_error (s_vs s) v = Some b -> vertex_by_id s (bv_id b) = Some v) /\
  (forall e, In e (s_es s) -> Builder.edge_by_id s (be_id e) = Some (be_handle e)).
Proof. exact ids_unique. Qed.
Print Assumptions C10_ids_unique.

(** With rejected calls in between, distinct elements share no non-zero identifier. *)
Theorem C10_ids_after_rejections : forall s, history_of checked_call true s ->
  (forall i j x y, nth_error (s_vs s) i = Some x -> nth_error (s_vs s) j = Some y -> bv_id x = bv_id y -> bv_id x <> 0 -> i = j) /\
  (forall i j x y, nth_error (s_es s) i = Some x -> nth_error (s_es s) j = Some y -> be_id x = be_id y -> be_id x <> 0 -> i = j).
Proof.
  exact (fun s H => conj
    (fun i j x y Ei Ej E N => uniq_positions nonzero bv_id _ i j x y (checked_vuniq true s H) Ei Ej (proj2 (negb_true_iff _) (proj2 (Z.eqb_neq _ _) N)) E)
    (fun i j x y Ei Ej E N => uniq_positions nonzero be_id _ i j x y (inv_eids s (any_history_inv s (history_of_any _ _ _ H))) Ei Ej (proj2 (negb_true_iff _) (proj2 (Z.eqb_neq _ _) N)) E)).
Qed.
Print Assumptions C10_ids_after_rejections.

(** Rejected additions leave elements numbered 0 behind: where failures throw, the full
    claim (rejections included) is false for edges and for vertices. *)
Fixpoint run_any (cs : list call) (s : state) : option state :=
  match cs with
  | [] => Some s
  | c :: cs' => match exec c s with Done _ s' | Raised s' => run_any cs' s' | Undef => None end
  end.
Lemma run_any_history (P : state -> call -> Prop) cs : forall s s', (forall s c, In c cs -> P s c) -> history_of P true s -> run_any cs s = Some s' -> history_of P true s'.
Proof.
  induction cs as [|c cs IH]; cbn; intros s s' HP Hs E; [congruence|]. destruct (exec c s) as [[] s1|s1|] eqn:E1; try discriminate;
    apply (IH s1 s'); auto; [eapply ho_accepted|eapply ho_rejected]; eauto.
Qed.
Definition rejected_calls : list call := [AddVertex; AddUnsafeVertex 1; AddUnsafeVertex 1; AddEdgeId 0 0 5; AddEdgeId 0 0 5; AddEdgeId 0 0 5].
Theorem C10_rejected_additions_refuted : exists s, history_of checked_call true s /\ ~ NoDup (map bv_id (s_vs s)) /\ ~ NoDup (map be_id (s_es s)).
Proof.
  exists (match run_any rejected_calls empty_state with Some s => s | None => empty_state end). split; [|split].
  - apply (run_any_history checked_call rejected_calls empty_state); [|constructor|vm_compute; reflexivity]. intros s c H. cbn in H. repeat (destruct H as [<-|H]; [exact I|]). contradiction.
  - vm_compute. intros N. inversion N as [|? ? _ N1]; subst. inversion N1 as [|? ? H _]; subst. apply H. left; reflexivity.
  - vm_compute. intros N. inversion N as [|? ? _ N1]; subst. inversion N1 as [|? ? H _]; subst. apply H. left; reflexivity.
Qed.
Print Assumptions C10_rejected_additions_refuted.
Example C10_hyp : history_of checked_call false ex_state /\ length (s_vs ex_state) = 3%nat /\ length (s_es ex_state) = 3%nat.
Proof. split; [exact ex_checked|vm_compute; auto]. Qed.

(** ** C11 *)
Theorem C11_names_unique : forall s, any_history s ->
  (forall v b, nth_error (s_vs s) v = Some b -> bv_name b <> ""%string -> vertex_by_name s (bv_name b) = Some v) /\
  (forall e, In e (s_es s) -> be_name e <> ""%string -> edge_by_name s (be_name e) = Some (be_handle e)) /\
  (forall i j x y, nth_error (s_vs s) i = Some x -> nth_error (s_vs s) j = Some y -> bv_name x = bv_name y -> bv_name x <> ""%string -> i = j) /\
  (forall i j x y, nth_error (s_es s) i = Some x -> nth_error (s_es s) j = Some y -> be_name x = be_name y -> be_name x <> ""%string -> i = j).
Proof.
  exact (fun s H => let Hi := any_history_inv s H in conj (fun v b => vertex_name_lookup s v b (inv_vnames s Hi)) (conj (fun e => edge_name_lookup s e (inv_enames s Hi)) (conj
    (fun i j x y Ei Ej E N => uniq_positions nonempty bv_name _ i j x y (inv_vnames s Hi) Ei Ej (proj2 (negb_true_iff _) (proj2 (String.eqb_neq _ _) N)) E)
    (fun i j x y Ei Ej E N => uniq_positions nonempty be_name _ i j x y (inv_enames s Hi) Ei Ej (proj2 (negb_true_iff _) (proj2 (String.eqb_neq _ _) N)) E)))).
Qed.
Print Assumptions C11_names_unique.

Theorem C11_named_is_found : forall s s' n, any_history s ->
  (forall v, exec (SetVertexName v n) s = Done tt s' -> vertex_by_name s' n = Some v) /\
  (forall h, exec (SetEdgeName h n) s = Done tt s' -> edge_by_name s' n = Some h).
Proof. exact named_is_found. Qed.
Print Assumptions C11_named_is_found.
Example C11_hyp : any_history ex_state /\ vertex_by_name ex_state "bb" = Some 0%nat /\ edge_by_name ex_state "bc" = Some 1%nat.
Proof. split; [exact (history_of_any _ _ _ ex_checked)|vm_compute; auto]. Qed.

(** ** C12 *)
(** addVertex() and addEdge() succeed on any writable graph, whatever the history, with an
    identifier above all those in use; getMaxVertexId and getMaxEdgeId (521-522, the automatic
    numbers) are above every identifier. *)
Theorem C12_fresh_vertex : forall s, any_history s -> s_readonly s = false ->
  exists v s' b, add_vertex_auto s = Done v s' /\ v = length (s_vs s) /\ s_vs s' = s_vs s ++ [b] /\ s_es s' = s_es s /\
    bv_id b = s_auto_v s /\ (forall x, In x (s_vs s) -> bv_id x < bv_id b) /\ bv_id b < s_auto_v s' /\ s_auto_e s' = s_auto_e s.
Proof. exact (fun s H => add_vertex_auto_ok s (any_history_inv s H)). Qed.
Print Assumptions C12_fresh_vertex.
Theorem C12_fresh_edge : forall f t s, any_history s -> s_readonly s = false -> (f < length (s_vs s))%nat -> (t < length (s_vs s))%nat ->
  exists h s' e, add_edge_auto f t s = Done h s' /\ s_es s' = s_es s ++ [e] /\ s_vs s' = s_vs s /\ be_handle e = h /\ be_src e = f /\ be_dst e = t /\
    0 < be_id e /\ (forall x, In x (s_es s) -> be_id x < be_id e) /\ be_id e < s_auto_e s' /\ s_auto_v s' = s_auto_v s.
Proof. exact (fun f t s H => add_edge_auto_ok f t s (any_history_inv s H)). Qed.
Print Assumptions C12_fresh_edge.
Theorem C12_max_ids : forall s, any_history s ->
  (forall b, In b (s_vs s) -> bv_id b < s_auto_v s) /\ (forall e, In e (s_es s) -> 0 <= be_id e < s_auto_e s).
Proof. exact (fun s H => conj (inv_vs s (any_history_inv s H)) (inv_es s (any_history_inv s H))). Qed.
Print Assumptions C12_max_ids.
(** addVertex(id) on a writable graph: refused, with no change at all, when some vertex has an
    identifier that is not below [id]; otherwise the new vertex bears [id]. *)
Theorem C12_chosen_vertex_id : forall s id, s_readonly s = false -> 0 < id ->
  ((exists x, In x (s_vs s) /\ id <= bv_id x) -> add_vertex_id id s = Raised s) /\
  ((forall x, In x (s_vs s) -> bv_id x < id) -> exists s' b, add_vertex_id id s = Done (length (s_vs s)) s' /\ s_vs s' = s_vs s ++ [b] /\ s_es s' = s_es s /\ bv_id b = id).
Proof. exact add_vertex_id_cases. Qed.
Print Assumptions C12_chosen_vertex_id.
Example C12_hyp : any_history ex_state /\ s_readonly ex_state = false /\ s_auto_v ex_state = 12 /\ s_auto_e ex_state = 21.
Proof. split; [exact (history_of_any _ _ _ ex_checked)|vm_compute; auto]. Qed.

(** ** C13 *)
(** removeVertex(v): the vertices are the others in order, and the edges are exactly those not
    incident to [v], with the same data and joining the same vertices. *)
Theorem C13_remove_vertex : forall s v b, any_history s -> s_readonly s = false -> nth_error (s_vs s) v = Some b ->
  exists s' l1 l2, exec (RemoveVertex v) s = Done tt s' /\ s_vs s = l1 ++ b :: l2 /\ length l1 = v /\ s_vs s' = l1 ++ l2 /\
    Forall2 (same_channel s s') (filter (fun e => negb (incident v e)) (s_es s)) (s_es s').
Proof. exact remove_vertex_effect. Qed.
Print Assumptions C13_remove_vertex.
(** Whatever the history, no edge dangles. *)
Theorem C13_no_dangling : forall s e, any_history s -> In e (s_es s) -> (be_src e < length (s_vs s))%nat /\ (be_dst e < length (s_vs s))%nat.
Proof. exact (fun s e H => inv_ends s (any_history_inv s H) e). Qed.
Print Assumptions C13_no_dangling.
Example C13_hyp : any_history ex_state /\ s_readonly ex_state = false /\ map (incident 1) (s_es ex_state) = [true; true; true] /\ map (incident 0) (s_es ex_state) = [true; false; true].
Proof. split; [exact (history_of_any _ _ _ ex_checked)|vm_compute; auto]. Qed.

(** ** C14 *)
(** Whatever the history, the totals of a channel are its rates summed with 32-bit wrap-around,
    so exactly the sums when the rates are not negative and the sum fits in 31 bits. *)
Theorem C14_totals_partial : forall s e, any_history s -> In e (s_es s) ->
  ((forall x, In x (be_in e) -> 0 <= x) -> sumZ (be_in e) < 2 ^ 31 -> be_total_in e = sumZ (be_in e)) /\
  ((forall x, In x (be_out e) -> 0 <= x) -> sumZ (be_out e) < 2 ^ 31 -> be_total_out e = sumZ (be_out e)).
Proof. exact totals_exact. Qed.
Print Assumptions C14_totals_partial.
Theorem C14_totals_wrap : forall s e, any_history s -> In e (s_es s) ->
  be_total_in e = wrap32 (sumZ (be_in e)) /\ be_total_out e = wrap32 (sumZ (be_out e)).
Proof. exact (fun s e H => any_totals s H e). Qed.
Print Assumptions C14_totals_wrap.
(** Beyond that the claim fails: two rates of 2^30 give a negative total, although rates and totals are 64-bit. *)
Theorem C14_large_sum_refuted : exists s e, accepted_history s /\ In e (s_es s) /\ (forall x, In x (be_in e) -> 0 <= x < 2 ^ 31) /\ be_total_in e <> sumZ (be_in e).
Proof.
  set (cs := [AddVertex; AddVertex; AddEdge 0 1; SetEdgeIn 0 [2 ^ 30; 2 ^ 30]]).
  exists (match run cs empty_state with Some s => s | None => empty_state end). eexists. split; [|split; [vm_compute; left; reflexivity|split]].
  - apply (accepted_of (fun _ _ => True)). apply (run_history _ false cs empty_state); [auto|constructor|vm_compute; reflexivity].
  - intros x [<-|[<-|[]]]; split; vm_compute; congruence.
  - vm_compute. discriminate.
Qed.
Print Assumptions C14_large_sum_refuted.
Example C14_hyp : any_history ex_state /\ map be_total_out (s_es ex_state) = [4; 5; 1] /\ map be_out (s_es ex_state) = [[4]; [5]; [1]].
Proof. split; [exact (history_of_any _ _ _ ex_checked)|vm_compute; auto]. Qed.

(** ** C15 *)
(** Accepted calls keep every rate and duration vector as long as the phases of its task, if
    setPhasesQuantity is only used on tasks without rates and durations. *)
Theorem C15_phases_coherent : forall s, history_of announces_phases false s -> coherent s.
Proof. exact coherent_history. Qed.
Print Assumptions C15_phases_coherent.
(** Contradicting rates and durations are refused. *)
Theorem C15_contradiction_refused : forall s h v l d b,
  (forall e s', find_e h (s_es s) = Some e -> nth_error (s_vs s) (be_src e) = Some b -> bv_phases b <> O -> length l <> bv_phases b -> exec (SetEdgeIn h l) s <> Done tt s') /\
  (forall e s', find_e h (s_es s) = Some e -> nth_error (s_vs s) (be_dst e) = Some b -> bv_phases b <> O -> length l <> bv_phases b -> exec (SetEdgeOut h l) s <> Done tt s') /\
  (forall s', nth_error (s_vs s) v = Some b -> length d <> bv_phases b -> exec (SetDurations v d) s <> Done tt s').
Proof. exact contradiction_refused. Qed.
Print Assumptions C15_contradiction_refused.
(** A graph built that way and completely described is well formed for the analyses. *)
Theorem C15_fit_for_analysis : forall s, history_of (fun s c => announces_phases s c /\ checked_call s c) false s -> complete s ->
  graph_wf (view s) /\ edge_ids_ok (view s).
Proof. exact view_well_formed. Qed.
Print Assumptions C15_fit_for_analysis.
(** Without the restriction on setPhasesQuantity the claim fails, and so it does after a
    refused call in builds where failures throw. *)
Theorem C15_phases_call_refuted : exists s, accepted_history s /\ ~ coherent s.
Proof.
  set (cs := [AddVertex; AddVertex; AddEdge 0 1; SetEdgeIn 0 [1; 2]; SetPhases 0 3]).
  let st := eval vm_compute in (match run cs empty_state with Some s => s | None => empty_state end) in exists st. split.
  - apply (accepted_of (fun _ _ => True)). apply (run_history _ false cs empty_state); [auto|constructor|vm_compute; reflexivity].
  - intros [H _]. cbn in H. destruct (H _ (or_introl eq_refl)) as (bs & bd & E1 & _ & [S|S] & _); [discriminate|]. vm_compute in E1. injection E1 as <-. vm_compute in S. discriminate.
Qed.
Print Assumptions C15_phases_call_refuted.
Theorem C15_rejected_rates_refuted : exists s, history_of announces_phases true s /\ ~ coherent s.
Proof.
  set (cs := [AddVertex; AddVertex; AddEdge 0 1; SetEdgeIn 0 [1; 2]; SetEdgeIn 0 [1; 2; 3]]).
  let st := eval vm_compute in (match run_any cs empty_state with Some s => s | None => empty_state end) in exists st. split.
  - apply (run_any_history announces_phases cs empty_state); [|constructor|vm_compute; reflexivity]. intros s c H. cbn in H. repeat (destruct H as [<-|H]; [exact I|]). contradiction.
  - intros [H _]. cbn in H. destruct (H _ (or_introl eq_refl)) as (bs & bd & E1 & _ & [S|S] & _); [discriminate|]. vm_compute in E1. injection E1 as <-. vm_compute in S. discriminate.
Qed.
Print Assumptions C15_rejected_rates_refuted.
Definition ex_complete_calls : list call :=
  [AddVertex; AddVertexName "b"; AddEdge 0 1; AddEdge 1 0; SetEdgeIn 0 [1; 2]; SetEdgeOut 0 [3]; SetEdgeIn 1 [3]; SetEdgeOut 1 [2; 1]; SetPreload 1 3;
   SetDurations 0 [1%Q; 2%Q]; SetDurations 1 [1%Q]; SetReentrancy 0 1; SetReentrancy 1 1].
Definition ex_complete : state := Eval vm_compute in match run ex_complete_calls empty_state with Some s => s | None => empty_state end.
Example C15_hyp : history_of (fun s c => announces_phases s c /\ checked_call s c) false ex_complete /\ complete ex_complete.
Proof.
  split.
  - apply (run_history _ false ex_complete_calls empty_state); [|constructor|vm_compute; reflexivity]. intros s c H. cbn in H. repeat (destruct H as [<-|H]; [split; exact I|]). contradiction.
  - split.
    + intros b Hb. cbn in Hb. destruct Hb as [<-|[<-|[]]]; cbn; (split; [lia|]; split; [discriminate|]; split; [congruence|]);
        intros x Hx; repeat (destruct Hx as [<-|Hx]; [vm_compute; discriminate|]); contradiction.
    + intros e bs bd He E1 E2. cbn in He. destruct He as [<-|[<-|[]]]; cbn in E1, E2; injection E1 as <-; injection E2 as <-; cbn;
        (split; [congruence|]; split; [congruence|]; split; [|lia]); intros x Hx; repeat (destruct Hx as [<-|Hx]; [lia|]); contradiction.
Qed.

(** ** C16 *)
(** On a frozen graph every change is refused and the graph stays as it was. *)
Theorem C16_frozen : forall s c, s_readonly s = true -> mutating c -> exists s', exec c s = Raised s' /\ same_graph s s'.
Proof. exact frozen_refused. Qed.
Print Assumptions C16_frozen.
(** After an accepted change no cached result is marked valid; and whatever the history, a
    writable graph has none. *)
Theorem C16_no_stale_result : forall s c s', any_history s -> mutating c -> exec c s = Done tt s' ->
  s_readonly s' = false /\ s_rep s' = false /\ s_norm s' = false.
Proof. exact no_stale_result. Qed.
Print Assumptions C16_no_stale_result.
Theorem C16_writable_has_no_result : forall s, any_history s -> s_readonly s = false -> s_rep s = false /\ s_norm s = false.
Proof. exact any_flags. Qed.
Print Assumptions C16_writable_has_no_result.
(** Computing the repetition vector freezes the graph, even when it fails. *)
Theorem C16_analysis_freezes : forall s res r s', s_rep s = false -> compute_repetition res s = Done r s' -> s_readonly s' = true /\ s_rep s' = r /\ s_es s' = s_es s.
Proof. exact analysis_freezes. Qed.
Print Assumptions C16_analysis_freezes.
(** The refused addVertex() is not entirely without effect when automatic numbers lag behind;
    they never do in a history, but the number itself moves. *)
Theorem C16_counter_moves_refuted : exists s s', any_history s /\ s_readonly s = true /\ exec AddVertex s = Raised s' /\ s_auto_v s' <> s_auto_v s.
Proof.
  set (cs := [AddVertex; SetReadOnly]).
  exists (match run cs empty_state with Some s => s | None => empty_state end). eexists. split; [|split; [reflexivity|split; [vm_compute; reflexivity|vm_compute; discriminate]]].
  apply (history_of_any (fun _ _ => True) false). apply (run_history _ false cs empty_state); [auto|constructor|vm_compute; reflexivity].
Qed.
Print Assumptions C16_counter_moves_refuted.
Example C16_hyp : any_history ex_complete /\ exists s', exec (ComputeRepetition (Some [2; 1])) ex_complete = Done tt s' /\ s_readonly s' = true /\ s_rep s' = true.
Proof. split; [exact (history_of_any _ _ _ (proj1 C15_hyp))|]. eexists. split; [vm_compute; reflexivity|]. auto. Qed.

(** ** C17 *)
(** getFineGCD returns the gcd of the rates as long as rates and identifiers are not touched
    after the first query; and always on the first query for an identifier. *)
Theorem C17_cached_gcd_partial : forall s h r s', history_of rates_fixed_once_queried false s -> get_fine_gcd h s = Done r s' ->
  exists e, find_e h (s_es s) = Some e /\ is_gcd r (be_in e ++ be_out e).
Proof. exact query_gcd. Qed.
Print Assumptions C17_cached_gcd_partial.
Theorem C17_first_query_partial : forall s h r s' e, find_e h (s_es s) = Some e -> (forall r, ~ In (be_id e, r) (s_gcd s)) -> get_fine_gcd h s = Done r s' ->
  is_gcd r (be_in e ++ be_out e).
Proof. exact first_query. Qed.
Print Assumptions C17_first_query_partial.
(** In general it is stale: after a change of rates, and after an identifier is used again. *)
Theorem C17_stale_refuted : exists s h r s' e, history_of checked_call false s /\ get_fine_gcd h s = Done r s' /\ find_e h (s_es s) = Some e /\ ~ is_gcd r (be_in e ++ be_out e).
Proof.
  set (cs := [AddVertex; AddVertex; AddEdge 0 1; SetEdgeIn 0 [4; 2]; SetEdgeOut 0 [6]; GetFineGCD 0; SetEdgeIn 0 [4; 3]]).
  exists (match run cs empty_state with Some s => s | None => empty_state end), 0%nat. do 3 eexists. split; [|split; [vm_compute; reflexivity|split; [vm_compute; reflexivity|]]].
  - apply (run_history checked_call false cs empty_state); [|constructor|vm_compute; reflexivity]. intros s c H. cbn in H. repeat (destruct H as [<-|H]; [exact I|]). contradiction.
  - intros (_ & H & _). specialize (H 3 (or_intror (or_introl eq_refl))). destruct H as [k Hk]. lia.
Qed.
Print Assumptions C17_stale_refuted.
Theorem C17_reused_identifier_refuted : exists s h r s' e, history_of checked_call false s /\ get_fine_gcd h s = Done r s' /\ find_e h (s_es s) = Some e /\ ~ is_gcd r (be_in e ++ be_out e).
Proof.
  set (cs := [AddVertex; AddVertex; AddEdgeId 0 1 7; SetEdgeIn 0 [2]; SetEdgeOut 0 [2]; GetFineGCD 0; RemoveEdge 0; AddEdgeId 0 1 7; SetEdgeIn 1 [3]; SetEdgeOut 1 [3]]).
  exists (match run cs empty_state with Some s => s | None => empty_state end), 1%nat. do 3 eexists. split; [|split; [vm_compute; reflexivity|split; [vm_compute; reflexivity|]]].
  - apply (run_history checked_call false cs empty_state); [|constructor|vm_compute; reflexivity]. intros s c H. cbn in H. repeat (destruct H as [<-|H]; [exact I|]). contradiction.
  - intros (_ & H & _). specialize (H 3 (or_introl eq_refl)). destruct H as [k Hk]. lia.
Qed.
Print Assumptions C17_reused_identifier_refuted.
Example C17_hyp : history_of rates_fixed_once_queried false ex_complete /\ (exists s', get_fine_gcd 0 ex_complete = Done 1 s') /\
  exists e, find_e 0 (s_es ex_complete) = Some e /\ be_in e ++ be_out e = [1; 2; 3].
Proof.
  split; [|split; eexists; vm_compute; auto].
  assert (H : forall cs s s', s_gcd s = [] -> (forall c, In c cs -> ~ is_query c) -> history_of rates_fixed_once_queried false s -> run cs s = Some s' -> history_of rates_fixed_once_queried false s').
  { induction cs as [|c cs IH]; cbn; intros s s' G Q Hs E; [congruence|]. destruct (exec c s) as [[] s1|s1|] eqn:E1; try discriminate.
    apply (IH s1 s'); auto; [|eapply ho_accepted; eauto; left; exact G].
    pose proof (sc_exec c (Q c (or_introl eq_refl)) s) as K. rewrite E1 in K. rewrite K. exact G. }
  apply (H ex_complete_calls empty_state); [reflexivity| |constructor|vm_compute; reflexivity].
  intros c Hc. cbn in Hc. repeat (destruct Hc as [<-|Hc]; [exact (fun H => H)|]). contradiction.
Qed.
