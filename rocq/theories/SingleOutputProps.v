(** Joining the outputs of a task. *)
From Coq Require Import QArith Ascii String Permutation Relations.
From Verif Require Import Base Graph Builder BuilderSpec BuilderProofs SingleOutput SingleOutputSpec SingleOutputProofs SingleOutputLoop.
Open Scope Z_scope.

Lemma by_name s n t : vertex_by_name s n = Some t -> exists b, nth_error (s_vs s) t = Some b /\ bv_name b = n.
Proof.
  unfold vertex_by_name. intros E. apply find_index_some in E as (l1 & b & l2 & E & <- & F & _). apply String.eqb_eq in F. exists b. split; [|exact F]. rewrite E, nth_error_app2, Nat.sub_diag by lia. reflexivity.
Qed.
Lemma run s n t : any_history s -> vertex_by_name s n = Some t ->
  exists b, nth_error (s_vs s) t = Some b /\ bv_name b = n /\ outcome_of (single_output (Some n)) s (fun _ s' => prog s t s' /\ (length (outputs t s') <= 1)%nat) (refused s t b).
Proof.
  intros A E. pose proof (any_history_inv s A) as I. destruct (by_name s n t E) as (b & Eb & Nb). exists b. split; [exact Eb|]. split; [exact Nb|].
  assert (Ht : (t < length (s_vs s))%nat) by (apply nth_error_Some; congruence). unfold outcome_of, single_output, mbind. cbn [get]. rewrite E.
  apply (loop_run s t Ht b Eb (length (s_es s)) 0 s (prog_start s t Ht I)); [rewrite app_nil_r; reflexivity|auto|]. unfold outputs. pose proof (filter_le (fun e => (be_src e =? t)%nat) (s_es s)). lia.
Qed.

(** The outputs of the named task are joined: it keeps one output, which new tasks copy to the
    tasks it led to, and the rest of the graph is unchanged.  A task with at most one output is
    left alone, and so is the whole graph when no name is given. *)
Theorem C142_joined s n s' : any_history s -> single_output n s = Done tt s' ->
  match n with
  | None => s' = s
  | Some n => exists t, vertex_by_name s n = Some t /\ ((length (outputs t s) <= 1)%nat /\ s' = s \/ (2 <= length (outputs t s))%nat /\ forked s t s')
  end.
Proof.
  intros A E. destruct n as [n|]; [|injection E as <-; reflexivity]. destruct (vertex_by_name s n) as [t|] eqn:Ev; [|unfold single_output, mbind in E; cbn [get] in E; rewrite Ev in E; discriminate].
  exists t. split; [reflexivity|]. destruct (Nat.le_gt_cases (length (outputs t s)) 1) as [L|L].
  - left. split; [exact L|]. unfold single_output, mbind in E. cbn [get] in E. rewrite Ev in E. destruct (length (s_es s)); cbn [dup_loop] in E; unfold mbind in E; cbn [get] in E; rewrite (proj2 (Nat.ltb_ge _ _) L) in E; injection E as <-; reflexivity.
  - right. split; [exact L|]. destruct (run s n t A Ev) as (b & Eb & Nb & R). unfold outcome_of in R. rewrite E in R. destruct R as [P Le]. apply prog_end; auto.
    apply nth_error_Some. congruence.
Qed.
Print Assumptions C142_joined.

(** It never does anything undefined, and fails only for an unknown name, a graph that may not be
    changed, a name already taken, or a task or former target with several phases. *)
Theorem C142_accepted s n : any_history s ->
  single_output (Some n) s <> Undef /\
  forall t, vertex_by_name s n = Some t -> s_readonly s = false -> (forall b k, In b (s_vs s) -> bv_name b <> dup_name n k) ->
    (forall v b, nth_error (s_vs s) v = Some b -> v = t \/ In v (map be_dst (outputs t s)) -> (bv_phases b <= 1)%nat) ->
    exists s', single_output (Some n) s = Done tt s'.
Proof.
  intros A. split.
  - intros U. destruct (vertex_by_name s n) as [t|] eqn:Ev; [|unfold single_output, mbind in U; cbn [get] in U; rewrite Ev in U; discriminate].
    destruct (run s n t A Ev) as (b & Eb & Nb & R). unfold outcome_of in R. rewrite U in R. exact R.
  - intros t Ev Ro Fr Ph. destruct (run s n t A Ev) as (b & Eb & <- & R). unfold outcome_of in R. destruct (single_output _ s) as [[] s'|s'|]; [eauto| |destruct R]. exfalso.
    destruct R as [R|[(k & R)|[R|(e & He & R)]]].
    + congruence.
    + apply R. intros x Hx. apply Fr, Hx.
    + apply R. intros x Hx. apply (Ph t x Hx). auto.
    + apply R. intros x Hx. apply (Ph (be_dst e) x Hx). right. apply in_map, He.
Qed.
Print Assumptions C142_accepted.

(** A task of several phases is refused. *)
Fixpoint calls (cs : list call) (s : state) : option state :=
  match cs with [] => Some s | c :: cs' => match exec c s with Done _ s' => calls cs' s' | _ => None end end.
Lemma calls_history cs : forall s s', any_history s -> calls cs s = Some s' -> any_history s'.
Proof. induction cs as [|c cs IH]; intros s s' A E; cbn in E; [injection E as <-; exact A|]. destruct (exec c s) as [[] s1|s1|] eqn:X; try discriminate. apply (IH s1 s'); [eapply any_accepted; eauto|exact E]. Qed.
(** A task of identifier 1 feeding three others; [ins] are the rates on its side, [outs] those on
    the other side, [p] the tokens present on the first channel. *)
Definition ex_calls (ins outs : list Z) (p : Z) : list call :=
  [AddVertexIdName 1 "a"; AddVertexIdName 2 "b"; AddVertexIdName 3 "c"; AddVertexIdName 4 "d";
   AddEdge 0 1; AddEdge 0 2; AddEdge 0 3; AddEdge 1 0;
   SetEdgeIn 0 ins; SetEdgeOut 0 outs; SetEdgeIn 1 ins; SetEdgeOut 1 outs; SetEdgeIn 2 ins; SetEdgeOut 2 outs; SetEdgeIn 3 [1]; SetEdgeOut 3 ins; SetPreload 0 p].
Theorem C142_phases_refuted : exists s n t s', any_history s /\ vertex_by_name s n = Some t /\ (2 <= length (outputs t s))%nat /\ single_output (Some n) s = Raised s'.
Proof.
  destruct (calls (ex_calls [1; 1] [1] 0) empty_state) as [s|] eqn:E; [|vm_compute in E; discriminate]. pose proof (calls_history _ _ _ any_start E) as A.
  vm_compute in E. injection E as <-. eexists _, "a"%string, 0%nat, _. split; [exact A|]. split; [reflexivity|]. split; [vm_compute; lia|]. vm_compute. reflexivity.
Qed.
Print Assumptions C142_phases_refuted.
Example C142_example : exists s s', calls (ex_calls [1] [1] 0) empty_state = Some s /\ single_output (Some "a"%string) s = Done tt s' /\
  map (fun e => (be_src e, be_dst e)) (s_es s) = [(0, 1); (0, 2); (0, 3); (1, 0)]%nat /\
  map (fun e => (be_src e, be_dst e)) (s_es s') = [(1, 0); (4, 1); (4, 2); (0, 5); (5, 3); (5, 4)]%nat /\
  map bv_name (s_vs s') = ["a"; "b"; "c"; "d"; "a_Dup0"; "a_Dup1"]%string.
Proof. eexists _, _. split; [vm_compute; reflexivity|]. split; [vm_compute; reflexivity|]. repeat split. Qed.

(** How often tasks fire: after the change the new tasks and the former targets fire as often as
    the task. *)
Theorem C143_balance s n t s' : any_history s -> vertex_by_name s n = Some t -> (2 <= length (outputs t s))%nat -> single_output (Some n) s = Done tt s' ->
  forall q, balanced s' q <-> (forall e, In e (s_es s) -> be_src e <> t -> q (be_src e) * be_total_in e = q (be_dst e) * be_total_out e) /\
    (forall e, In e (s_es s) -> be_src e = t -> q (be_dst e) = q t) /\ (forall d, (length (s_vs s) <= d < length (s_vs s'))%nat -> q d = q t).
Proof.
  intros A Ev L E q. pose proof (C142_joined s (Some n) s' A E) as (t' & Ev' & [[Q _]|[_ F]]); [rewrite Ev in Ev'; injection Ev' as <-; lia|]. rewrite Ev in Ev'. injection Ev' as <-.
  assert (Ends : forall e, In e (s_es s') -> (be_dst e < length (s_vs s'))%nat /\ (be_src e < length (s_vs s'))%nat).
  { destruct (run s n t A Ev) as (b & _ & _ & R). unfold outcome_of in R. rewrite E in R. destruct R as [P _]. intros e He. pose proof (inv_ends s' (p_inv s t s' P) e He). tauto. }
  destruct F as [_ Fo _ _ Fr Fp Ft]. set (n0 := length (s_vs s)) in *.
  assert (Ot : forall e, be_src e <> t -> In e (s_es s) <-> In e (s_es s') /\ (be_src e < n0)%nat).
  { intros e Ne. assert (J : In e (filter (fun e => negb ((be_src e =? t)%nat || (n0 <=? be_src e)%nat)) (s_es s')) <-> In e (filter (fun e => negb (be_src e =? t)%nat) (s_es s))) by (rewrite Fo; tauto).
    rewrite !filter_In in J. rewrite (proj2 (Nat.eqb_neq _ _) Ne) in J. cbn in J. rewrite negb_true_iff, Nat.leb_gt in J. tauto. }
  assert (By : forall e, In e (beyond n0 t s') <-> In e (s_es s') /\ (be_src e = t \/ (n0 <= be_src e)%nat)) by (intros e; unfold beyond; rewrite filter_In, orb_true_iff, Nat.eqb_eq, Nat.leb_le; tauto).
  assert (Pl : forall e, In e (beyond n0 t s') -> balanced s' q -> q (be_dst e) = q (be_src e)) by (intros e He B; destruct (Fp e He) as (_ & _ & P1 & P2 & _); apply By in He as [He _]; specialize (B e He); rewrite P1, P2 in B; lia).
  split.
  - intros B. assert (Dup : forall d, (n0 <= d < length (s_vs s'))%nat -> q d = q t).
    { intros d Hd. specialize (Fr d Hd). apply clos_trans_tn1 in Fr. clear Hd. induction Fr as [y (Hy & e & He & S & D)|y z (Hz & e & He & S & D) Fr IH].
      - subst y. rewrite <- S. apply (Pl e); [apply By; auto|exact B].
      - rewrite <- IH, <- S, <- D. apply (Pl e); [|exact B]. apply By. split; [exact He|]. right. rewrite S. destruct Fr as [y (Q & _)|y w (Q & _) _]; exact Q. }
    split; [|split; [|exact Dup]].
    + intros e He Ne. apply B. apply (Ot e Ne), He.
    + intros e He S. assert (J : In (be_dst e) (map be_dst (outputs t s))) by (apply in_map, outputs_in; auto). apply (Permutation_in _ Ft) in J. apply in_map_iff in J as (x & Ex & Jx). apply filter_In in Jx as [Jx _]. rewrite <- Ex, (Pl x Jx B).
      apply By in Jx as [Jx [Sx|Sx]]; [congruence|]. apply Dup. split; [exact Sx|apply (Ends x Jx)].
  - intros (B1 & B2 & B3) e He. destruct (Nat.eq_dec (be_src e) t) as [S|S]; [|destruct (Nat.lt_ge_cases (be_src e) n0) as [Q|Q]; [apply B1; [apply (Ot e S); auto|exact S]|]].
    1: assert (Je : In e (beyond n0 t s')) by (apply By; auto). 2: assert (Je : In e (beyond n0 t s')) by (apply By; auto).
    all: destruct (Fp e Je) as (_ & _ & -> & -> & _); rewrite !Z.mul_1_r.
    all: assert (Qs : q (be_src e) = q t) by (first [rewrite S; reflexivity|apply B3; split; [exact Q|apply (Ends e He)]]); rewrite Qs; symmetry.
    all: destruct (Nat.lt_ge_cases (be_dst e) n0) as [Qd|Qd]; [|apply B3; split; [exact Qd|apply (Ends e He)]].
    all: assert (J : In (be_dst e) (map be_dst (outputs t s))) by (apply (Permutation_in _ (Permutation_sym Ft)), in_map, filter_In; split; [exact Je|apply Nat.ltb_lt, Qd]).
    all: apply in_map_iff in J as (x & Ex & Jx); apply outputs_in in Jx as [Jx Sx]; rewrite <- Ex; apply B2; auto.
Qed.
Print Assumptions C143_balance.
(** So the tasks fire as often as before if as many tokens are put into each output as are taken. *)
Theorem C143_same_rates_partial s n t s' : any_history s -> vertex_by_name s n = Some t -> (2 <= length (outputs t s))%nat -> single_output (Some n) s = Done tt s' ->
  (forall e, In e (s_es s) -> be_src e = t -> be_total_in e = be_total_out e /\ be_total_in e <> 0) ->
  forall q, balanced s' q <-> balanced s q /\ forall d, (length (s_vs s) <= d < length (s_vs s'))%nat -> q d = q t.
Proof.
  intros A Ev L E R q. rewrite (C143_balance s n t s' A Ev L E q). split.
  - intros (B1 & B2 & B3). split; [|exact B3]. intros e He. destruct (Nat.eq_dec (be_src e) t) as [S|S]; [|apply B1; auto]. destruct (R e He S) as [Q _]. rewrite Q, S, (B2 e He S). reflexivity.
  - intros [B B3]. split; [intros e He _; apply B, He|]. split; [|exact B3]. intros e He S. specialize (B e He). destruct (R e He S) as [Q Z]. rewrite <- Q, S in B. apply Z.mul_cancel_r in B; auto.
Qed.
Print Assumptions C143_same_rates_partial.
(** The claim without that hypothesis is false: the rates of the outputs are lost, *)
Theorem C143_rates_refuted : exists s n s' q, any_history s /\ single_output (Some n) s = Done tt s' /\ balanced s q /\ (forall v, q v <> 0) /\
  forall q', balanced s' q' -> forall v, (v < length (s_vs s))%nat -> q' v = 0.
Proof.
  destruct (calls (ex_calls [2] [1] 0) empty_state) as [s|] eqn:E; [|vm_compute in E; discriminate]. pose proof (calls_history _ _ _ any_start E) as A.
  vm_compute in E. injection E as <-. eexists _, "a"%string, _, (fun v => match v with 0%nat => 1 | _ => 2 end). split; [exact A|]. split; [vm_compute; reflexivity|]. split.
  - intros e He. cbn in He. repeat destruct He as [<-|He]; try reflexivity. destruct He.
  - split; [intros [|v]; discriminate|]. intros q' B v Hv. cbn in Hv. cbn in B.
    pose proof (fun e J => B e J) as B'. clear B. unfold balanced in B'. cbn in B'.
    assert (L : forall P : bedge -> Prop, (forall e, P e) -> True) by auto.
    pose proof (B' _ (or_introl eq_refl)) as H1. pose proof (B' _ (or_intror (or_introl eq_refl))) as H2. pose proof (B' _ (or_intror (or_intror (or_introl eq_refl)))) as H3.
    pose proof (B' _ (or_intror (or_intror (or_intror (or_introl eq_refl))))) as H4. pose proof (B' _ (or_intror (or_intror (or_intror (or_intror (or_introl eq_refl)))))) as H5.
    pose proof (B' _ (or_intror (or_intror (or_intror (or_intror (or_intror (or_introl eq_refl))))))) as H6. cbn in H1, H2, H3, H4, H5, H6.
    destruct v as [|[|[|[|v]]]]; lia.
Qed.
Print Assumptions C143_rates_refuted.
(** and so are the tokens present at first: a circuit with a token is left without any. *)
Theorem C143_tokens_refuted : exists s n s' p, any_history s /\ single_output (Some n) s = Done tt s' /\ 0 < p /\
  (exists e e', In e (s_es s) /\ In e' (s_es s) /\ be_dst e = be_src e' /\ be_dst e' = be_src e /\ be_preload e + be_preload e' = p) /\ forall e, In e (s_es s') -> be_preload e = 0.
Proof.
  destruct (calls (ex_calls [1] [1] 1) empty_state) as [s|] eqn:E; [|vm_compute in E; discriminate]. pose proof (calls_history _ _ _ any_start E) as A.
  vm_compute in E. injection E as <-. eexists _, "a"%string, _, 1. split; [exact A|]. split; [vm_compute; reflexivity|]. split; [lia|]. split.
  - do 2 eexists. split; [left; reflexivity|]. split; [right; right; right; left; reflexivity|]. repeat split.
  - intros e He. cbn in He. repeat destruct He as [<-|He]; try reflexivity. destruct He.
Qed.
Print Assumptions C143_tokens_refuted.
