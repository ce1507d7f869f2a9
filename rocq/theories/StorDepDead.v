(** Storage dependencies of a deadlock. *)
From Coq Require Import QArith Qreduction Lqa.
From Verif Require Import Base Graph ScheduleSpec RepVec Sim SimSpec SimProofs SimTime SimAsap SimRecur SimFinal StorDep StorDepSpec StorDepScc StorDepCycle.
Open Scope Z_scope.

(** * The same execution as without the dependencies *)
Lemma run_prev_run fuel g w rep m prev a m' p' : run_prev fuel g w rep m prev = Ok (a, m', p') ->
  run fuel g w rep m = Ok a /\ runs_to g w rep m m' /\ tick g w rep m' = Ok a.
Proof.
  revert m prev. induction fuel as [|f IH]; intros m prev; cbn [run_prev run]; [discriminate|].
  destruct (tick g w rep m) as [x| | |] eqn:T; cbn [bind]; try discriminate. destruct x as [m1|n t|].
  - intros E. destruct (IH _ _ E) as (A & B & C). split; [assumption|]. split; [|assumption].
    eapply runs_trans; [|exact B]. econstructor; [constructor|exact T].
  - intros [= <- <- <-]. repeat split; [constructor|assumption].
  - intros [= <- <- <-]. repeat split; [constructor|assumption].
Qed.
Lemma component_cycles_inv corrected fuel ticks g cap a r : component_cycles corrected fuel ticks g cap = Ok (a, r) ->
  exists w rep m prev, prepare fuel g (Some cap) = Ok (w, rep, new_machine g (Some cap)) /\
    run_prev ticks g w rep (new_machine g (Some cap)) (new_state g (Some cap)) = Ok (a, m, prev) /\
    match a with
    | Running _ => False
    | Deadlock => storage_deps corrected fuel g (deadlock_deps g (m_actors m) (m_state m)) = Ok r
    | Periodic _ _ => exists d, dep_run ticks g w rep (m_state m) (retrace_from m prev) = Ok d /\ storage_deps corrected fuel g d = Ok r
    end.
Proof.
  unfold component_cycles. intros H. destruct (prepare fuel g (Some cap)) as [[[w rep] m0]| | |] eqn:P; cbn [bind fst snd] in H; try discriminate.
  assert (E0 : m0 = new_machine g (Some cap)).
  { unfold prepare in P. destruct (compute_repetition_vector fuel g) as [[N|]| | |]; cbn [bind] in P; try discriminate.
    destruct (actors_ok g 0 (vertices g)); cbn [bind] in P; try discriminate. destruct (min_actor N) as [[w' rep']|]; [|discriminate]. congruence. }
  subst m0. destruct (run_prev ticks g w rep _ _) as [[[a' m] prev]| | |] eqn:R; cbn [bind fst snd] in H; try discriminate.
  exists w, rep, m, prev. split; [reflexivity|]. destruct a' as [m1|n t|].
  - discriminate.
  - destruct (dep_run _ _ _ _ _ _) as [d| | |] eqn:D; cbn [bind] in H; try discriminate.
    destruct (storage_deps corrected fuel g d) as [r'| | |] eqn:S; cbn [bind] in H; try discriminate.
    injection H as <- <-. split; [exact R|]. exists d. auto.
  - destruct (storage_deps corrected fuel g _) as [r'| | |] eqn:S; cbn [bind] in H; try discriminate.
    injection H as <- <-. split; [exact R|reflexivity].
Qed.
Lemma component_cycles_throughput corrected fuel ticks g cap a r : component_cycles corrected fuel ticks g cap = Ok (a, r) ->
  component_throughput fuel ticks g (Some cap) = Ok a.
Proof.
  intros H. destruct (component_cycles_inv _ _ _ _ _ _ _ H) as (w & rep & m & prev & P & R & _).
  unfold component_throughput. rewrite P. cbn [bind fst snd]. apply (run_prev_run _ _ _ _ _ _ _ _ _ R).
Qed.

(** * A firing that lacks tokens waits for the firing that brings them *)
Section Needs.
Variables (g : graph) (caps : option (nat -> Z)) (s : schedule).
Hypotheses (WF : graph_wf g) (NI : no_init g) (PD : positive_durations g) (SV : bounded_valid g caps s).
Lemma end_mono x k l : (x < length (vertices g))%nat -> (k <= l)%nat -> (end_of s g x k <= end_of s g x l)%Q.
Proof.
  intros Hx. destruct (nth_error (vertices g) x) as [v|] eqn:Ev; [|apply nth_error_None in Ev; lia]. unfold end_of. rewrite Ev.
  induction 1 as [|l L IH]; [lra|]. pose proof (sched_step g caps s SV x v l Ev). pose proof (duration_pos g WF NI PD x v (S l) Ev). lra.
Qed.
Lemma needs pre x y prod cons e n : (x < length (vertices g))%nat -> (y < length (vertices g))%nat -> (forall k, 0 <= prod k) ->
  never_negative pre (end_of s g x) prod (start_of s y) cons -> pre + sumf prod e < sumf cons (S n) ->
  (end_of s g x e <= s y n)%Q.
Proof.
  intros Hx Hy Hp Hn Hs. destruct (Qlt_le_dec (s y n) (end_of s g x e)) as [L|L]; [exfalso|assumption].
  destruct (Hn (s y n) (S n)) as [np Hle]. rewrite moved_all in Hle.
  - pose proof (moved_upto (end_of s g x) prod np (s y n) e Hp) as U.
    assert (moved_by (end_of s g x) prod np (s y n) <= sumf prod e); [|lia].
    apply U. intros k Hk. destruct (Nat.lt_ge_cases k e) as [|G]; [assumption|]. pose proof (end_mono x e k Hx G). lra.
  - intros k Hk. unfold start_of. apply (sched_mono g caps WF NI PD s SV y k n Hy). lia.
Qed.
End Needs.

(** * Tasks and their identifiers *)
Lemma vid_in g i : (i < length (vertices g))%nat -> In (vid g i) (ids g).
Proof.
  intros H. unfold vid, ids. destruct (nth_error (vertices g) i) as [v|] eqn:E; [|apply nth_error_None in E; lia].
  apply in_map. eapply nth_error_In; eauto.
Qed.
Lemma vid_inj g i j : graph_wf g -> (i < length (vertices g))%nat -> (j < length (vertices g))%nat -> vid g i = vid g j -> i = j.
Proof.
  intros (_ & _ & ND) Hi Hj. unfold vid.
  destruct (nth_error (vertices g) i) as [v|] eqn:E; [|apply nth_error_None in E; lia].
  destruct (nth_error (vertices g) j) as [v'|] eqn:E'; [|apply nth_error_None in E'; lia]. intros Ev.
  apply (proj1 (NoDup_nth_error _) ND); [rewrite map_length; assumption|].
  rewrite (map_nth_error _ _ _ E), (map_nth_error _ _ _ E'). congruence.
Qed.
Lemma in_ids g u : In u (ids g) -> exists i, (i < length (vertices g))%nat /\ vid g i = u.
Proof.
  unfold ids. intros H. apply in_map_iff in H. destruct H as (v & <- & Hv). apply In_nth_error in Hv. destruct Hv as [i E].
  exists i. split; [apply nth_error_Some; congruence|]. unfold vid. rewrite E. reflexivity.
Qed.
Lemma edge_in_range g k c : graph_wf g -> nth_error (edges g) k = Some c -> (e_src c < length (vertices g))%nat /\ (e_dst c < length (vertices g))%nat.
Proof.
  intros (_ & A & _) E. destruct (A c (nth_error_In _ _ E)) as (vs & vd & Es & Ed & _). split; apply nth_error_Some; congruence.
Qed.

(** * A closed chain *)
Lemma chain_snoc d u l v w : chain d u l v -> In (v, w) d -> chain d u (l ++ [w]) w.
Proof.
  revert u. induction l as [|x l IH]; intros u; cbn [chain app].
  - intros -> H. auto.
  - intros [A B] H. auto.
Qed.
Lemma chain_from d u l v x : chain d u l v -> In x (u :: l) -> exists l', chain d x l' v /\ (length l' <= length l)%nat.
Proof.
  revert u. induction l as [|w l IH]; intros u; cbn [chain].
  - intros -> [<- |[]]. exists []. split; [reflexivity|cbn; lia].
  - intros [A B] [<- |H].
    + exists (w :: l). split; [cbn; auto|lia].
    + destruct (IH w B H) as (l' & C & L). exists l'. split; [assumption|cbn; lia].
Qed.
Lemma closed_chain g d : vertices g <> [] -> (forall u, In u (ids g) -> exists w, In w (ids g) /\ In (u, w) d) ->
  exists u l, l <> [] /\ chain d u l u.
Proof.
  intros NE H. assert (L : forall n, (exists u l, l <> [] /\ chain d u l u) \/
    exists u l v, chain d u l v /\ NoDup (u :: l) /\ incl (u :: l) (ids g) /\ In v (u :: l) /\ length l = n).
  { induction n as [|n [IH|(u & l & v & C & ND & I & Hv & Ln)]]; [|left; assumption|].
    - right. destruct (vertices g) as [|x0 xs] eqn:E; [congruence|]. exists (v_id x0), [], (v_id x0).
      assert (In (v_id x0) (ids g)) by (unfold ids; rewrite E; left; reflexivity).
      repeat split; [constructor; [tauto|constructor]| |left; reflexivity]. intros y [<- |[]]. assumption.
    - destruct (H v (I v Hv)) as (w & Hw & D). destruct (in_dec Z.eq_dec w (u :: l)) as [F|F].
      + left. destruct (chain_from d u l v w C F) as (l' & C' & _). exists w, (l' ++ [w]). split; [destruct l'; discriminate|].
        eapply chain_snoc; eauto.
      + right. exists u, (l ++ [w]), w. split; [eapply chain_snoc; eauto|]. 
        assert (P : Permutation.Permutation (w :: u :: l) (u :: l ++ [w])) by (change (u :: l ++ [w]) with ((u :: l) ++ [w]); apply Permutation.Permutation_cons_append).
        split; [|split; [|split]].
        * eapply Permutation.Permutation_NoDup; [exact P|]. constructor; assumption.
        * intros y Hy. apply (Permutation.Permutation_in y (Permutation.Permutation_sym P)) in Hy. destruct Hy as [<- |Hy]; auto.
        * right. apply in_or_app. right. left. reflexivity.
        * rewrite app_length. cbn. lia. }
  destruct (L (length (ids g))) as [|(u & l & v & _ & ND & I & _ & Ln)]; [assumption|].
  pose proof (NoDup_incl_length ND I) as X. cbn [length] in X. lia.
Qed.

(** Both searches give a whole cycle. *)
Lemma chain_steps d u l v x y : chain d u l v -> In (x, y) (steps u l) -> In (x, y) d /\ waits d u x /\ waits d y v.
Proof.
  revert u. induction l as [|w l IH]; intros u; cbn [chain steps]; [intros _ []|]. intros [A B] [[= <- <-]|H].
  - split; [assumption|]. split; [exists []; reflexivity|exists l; assumption].
  - destruct (IH w B H) as (C & (p & P) & D). split; [assumption|]. split; [|assumption]. exists (w :: p). cbn. auto.
Qed.
Lemma storage_deps_whole corrected fuel g d r : task_deps g d -> graph_wf g -> (length (vertices g) < fuel)%nat ->
  storage_deps corrected fuel g d = Ok r -> (exists u l, l <> [] /\ chain d u l u) -> whole_cycle g d r.
Proof.
  intros TD WF F S (u & l & Ne & C). unfold storage_deps in S. destruct corrected.
  - destruct (storage_deps_scc_run g d TD fuel F) as (r' & S' & Hr).
    + intros c Hc. apply In_nth_error in Hc. destruct Hc as [k E]. destruct (edge_in_range g k c WF E). split; apply vid_in; assumption.
    + assert (r' = r) as -> by congruence. exists u, l. split; [assumption|]. split; [assumption|].
      intros x y k c Hs Ek <- <-. apply Hr. destruct (chain_steps d u l u _ _ C Hs) as (A & (p & P) & (q & Q)).
      exists c. split; [assumption|]. split; [assumption|]. exists (q ++ p). eapply chain_app; eauto.
  - destruct (storage_deps_cycles_run g d TD fuel F) as (r' & S' & _ & Hr). assert (r' = r) as -> by congruence. apply Hr. eauto.
Qed.

(** * The dependencies of a machine that has stopped *)
Definition lacks (g : graph) (cap : nat -> Z) (st en : nat -> nat) (y x : nat) : Prop :=
  (exists k c, nth_error (edges g) k = Some c /\ e_dst c = y /\ e_src c = x /\
     e_preload c + sumf (prod_rate c) (en x) < sumf (cons_rate c) (S (st y))) \/
  (exists k c, nth_error (edges g) k = Some c /\ e_src c = y /\ e_dst c = x /\
     cap k - e_preload c + sumf (cons_rate c) (en x) < sumf (prod_rate c) (S (st y))).
(** What a task lacks, it lacks with less room as well. *)
Lemma lacks_needs g cap cap' s st en y x : graph_wf g -> no_init g -> positive_durations g -> bounded_valid g (Some cap') s ->
  lacks g cap st en y x -> (forall k c, nth_error (edges g) k = Some c -> e_src c = y -> e_dst c = x -> cap' k <= cap k) ->
  (end_of s g x (en x) <= s y (st y))%Q.
Proof.
  intros WF NI PD SV L Le. pose proof SV as ((S1 & _) & S2).
  destruct L as [(k & c & Ek & <- & <- & L)|(k & c & Ek & <- & <- & L)]; destruct (edge_in_range g k c WF Ek) as [Hs Hd].
  - eapply (needs g (Some cap') s WF NI PD SV (e_preload c) (e_src c) (e_dst c) (prod_rate c) (cons_rate c)); auto.
    + intros n. eapply prod_nonneg; eauto using nth_error_In.
    + apply S1. eapply nth_error_In; eauto.
  - eapply (needs g (Some cap') s WF NI PD SV (cap' k - e_preload c) (e_dst c) (e_src c) (cons_rate c) (prod_rate c)); auto.
    + intros n. eapply cons_nonneg; eauto using nth_error_In.
    + specialize (Le k c Ek eq_refl eq_refl). lia.
Qed.

Section Stopped.
Variables (g : graph) (cap : nat -> Z).
Hypotheses (WF : graph_wf g) (NI : no_init g) (EV : even_self_loops g).
Notation V := (length (vertices g)).

Lemma rate_dst m k c : inv g (Some cap) m -> nth_error (edges g) k = Some c ->
  rate_of g (m_actors m) (e_dst c) c = cons_rate c (started (m_log m) (e_dst c)).
Proof.
  intros Hi Ek. destruct (edge_in_range g k c WF Ek) as [_ Hd]. unfold rate_of.
  destruct (nth_error (vertices g) (e_dst c)) as [v|] eqn:Ev; [|apply nth_error_None in Ev; lia].
  destruct (m_actors m (e_dst c)) as [ex b] eqn:Ea. pose proof (inv_execs _ _ _ Hi _ _ Ev) as E. rewrite Ea in E. cbn in E. subst ex.
  apply (current_dst g (e_dst c) v c WF NI EV Ev (nth_error_In _ _ Ek)). reflexivity.
Qed.
Lemma rate_src m k c : inv g (Some cap) m -> nth_error (edges g) k = Some c ->
  rate_of g (m_actors m) (e_src c) c = prod_rate c (started (m_log m) (e_src c)).
Proof.
  intros Hi Ek. destruct (edge_in_range g k c WF Ek) as [Hs _]. unfold rate_of.
  destruct (nth_error (vertices g) (e_src c)) as [v|] eqn:Ev; [|apply nth_error_None in Ev; lia].
  destruct (m_actors m (e_src c)) as [ex b] eqn:Ea. pose proof (inv_execs _ _ _ Hi _ _ Ev) as E. rewrite Ea in E. cbn in E. subst ex.
  apply (current_src g (e_src c) v c WF NI Ev (nth_error_In _ _ Ek)). reflexivity.
Qed.
Lemma in_deadlock_deps m u w : inv g (Some cap) m -> In (u, w) (deadlock_deps g (m_actors m) (m_state m)) ->
  exists y x, (y < V)%nat /\ (x < V)%nat /\ vid g y = u /\ vid g x = w /\ lacks g cap (started (m_log m)) (ended (m_log m)) y x.
Proof.
  intros Hi H. unfold deadlock_deps in H. apply in_flat_map in H. destruct H as ([k c] & Hk & H). apply in_numbered in Hk. cbn [fst snd] in H.
  destruct (edge_in_range g k c WF Hk) as [Hs Hd]. apply in_app_or in H. destruct H as [H|H].
  - rewrite (rate_dst m k c Hi Hk) in H. destruct (Z.ltb_spec (s_tokens (m_state m) k) (cons_rate c (started (m_log m) (e_dst c)))) as [L|L]; [|destruct H].
    destruct H as [[= <- <-]|[]]. exists (e_dst c), (e_src c). do 4 (split; [auto|]). left. exists k, c. do 3 (split; [auto|]).
    rewrite (inv_tokens _ _ _ Hi k c Hk) in L. cbn [sumf]. lia.
  - rewrite (rate_src m k c Hi Hk) in H. destruct (Z.ltb_spec (s_space (m_state m) k) (prod_rate c (started (m_log m) (e_src c)))) as [L|L]; [|destruct H].
    destruct H as [[= <- <-]|[]]. exists (e_src c), (e_dst c). do 4 (split; [auto|]). right. exists k, c. do 3 (split; [auto|]).
    rewrite (inv_space _ _ _ Hi cap k c eq_refl Hk) in L. cbn [sumf]. lia.
Qed.
Lemma forallb_false {X} (f : X -> bool) l : forallb f l = false -> exists x, In x l /\ f x = false.
Proof.
  induction l as [|x l IH]; [discriminate|]. cbn [forallb]. intros H. apply andb_false_iff in H. destruct H as [R|R].
  - exists x. split; [left; reflexivity|exact R].
  - destruct (IH R) as (y & Hy & E). exists y. split; [right; assumption|assumption].
Qed.
Lemma unready_dep m i v : inv g (Some cap) m -> nth_error (vertices g) i = Some v -> a_busy (m_actors m i) = false ->
  ready g i v (m_actors m i) (m_state m) = false ->
  (exists k c, nth_error (edges g) k = Some c /\ e_dst c = i /\ s_tokens (m_state m) k < current_rate v i (m_actors m i) c) \/
  (exists k c, nth_error (edges g) k = Some c /\ e_src c = i /\ s_space (m_state m) k < current_rate v i (m_actors m i) c).
Proof.
  intros Hi Ev B R. unfold ready in R. apply andb_false_iff in R. destruct R as [R|R].
  - left. apply forallb_false in R. destruct R as ([k c] & Hk & E). apply in_numbered in Hk. cbn [fst snd] in E. rewrite B, orb_false_r in E.
    apply orb_false_iff in E. destruct E as [E1 E2]. apply negb_false_iff in E1, E2. apply Nat.eqb_eq in E1. apply Z.ltb_lt in E2. eauto.
  - right. apply orb_false_iff in R. destruct R as [_ R]. apply forallb_false in R. destruct R as ([k c] & Hk & E). apply in_numbered in Hk.
    cbn [fst snd] in E. rewrite B, orb_false_r in E.
    apply orb_false_iff in E. destruct E as [E1 E2]. apply negb_false_iff in E1, E2. apply Nat.eqb_eq in E1. apply Z.ltb_lt in E2. eauto.
Qed.
Lemma unready_deadlock m i v : inv g (Some cap) m -> nth_error (vertices g) i = Some v -> a_busy (m_actors m i) = false ->
  ready g i v (m_actors m i) (m_state m) = false -> exists w, In w (ids g) /\ In (vid g i, w) (deadlock_deps g (m_actors m) (m_state m)).
Proof.
  intros Hi Ev B R. unfold deadlock_deps.
  destruct (unready_dep m i v Hi Ev B R) as [(k & c & Ek & D & L)|(k & c & Ek & D & L)]; destruct (edge_in_range g k c WF Ek) as [Hs Hd].
  - exists (vid g (e_src c)). split; [apply vid_in; assumption|]. apply in_flat_map. exists (k, c). split; [apply in_numbered; assumption|].
    cbn [fst snd]. apply in_or_app. left. unfold rate_of at 1. rewrite D, Ev. rewrite (proj2 (Z.ltb_lt _ _) L). left. reflexivity.
  - exists (vid g (e_dst c)). split; [apply vid_in; assumption|]. apply in_flat_map. exists (k, c). split; [apply in_numbered; assumption|].
    cbn [fst snd]. apply in_or_app. right. unfold rate_of. rewrite D, Ev. rewrite (proj2 (Z.ltb_lt _ _) L). left. reflexivity.
Qed.
End Stopped.

(** When the loop stops no task is executing and none is ready. *)
Lemma stopped_idle g caps w rep m : graph_wf g -> no_init g -> even_self_loops g ->
  all_guarded g (match caps with Some _ => true | None => false end) -> short_durations g ->
  runs_to g w rep (new_machine g caps) m -> tick g w rep m = Ok Deadlock ->
  forall i v, nth_error (vertices g) i = Some v ->
    a_busy (m_actors m i) = false /\ started (m_log m) i = ended (m_log m) i /\ ready g i v (m_actors m i) (m_state m) = false.
Proof.
  intros WF NI EV GD SD R T i v Ev. pose proof (tinv_runs g caps w rep WF NI EV GD m R) as Ht.
  pose proof (t_pc g m Ht) as Hp. unfold pc_inv in Hp.
  unfold tick in T. destruct (m_pc m) as [j|j|] eqn:Epc.
  - destruct (nth_error (vertices g) j) as [v'|]; [|discriminate]. destruct (ready_to_end j (m_state m)); [|discriminate].
    set (full := ((j =? w)%nat && ((if (j =? w)%nat then m_count m + 1 else m_count m) =? rep))) in *.
    destruct (if full then from_repeated g (m_visited m) (m_state m) else []); [|discriminate].
    match type of T with context [exec_end g j v' (m_actors m j) ?s1] => destruct (exec_end g j v' (m_actors m j) s1) end; discriminate.
  - destruct (nth_error (vertices g) j) as [v'|]; [|discriminate]. destruct (ready g j v' _ _); [|discriminate].
    destruct (exec_start _ _ _ _ _); discriminate.
  - destruct (Qeq_bool (fst (advance_time g (m_state m))) long_max) eqn:Em; [|discriminate].
    assert (Fst : fst (advance_time g (m_state m)) = next_end g (m_state m)).
    { unfold advance_time. destruct (Qeq_bool (next_end g (m_state m)) 0); [reflexivity|].
      destruct (Qeq_bool (next_end g (m_state m)) long_max); reflexivity. }
    rewrite Fst in Em. apply Qeq_bool_eq in Em. destruct (next_end_spec g (m_state m)) as (_ & N2 & _).
    assert (Hl : (i < length (vertices g))%nat) by (apply nth_error_Some; congruence).
    pose proof (t_task g m Ht i v Ev) as [Q P _ _].
    destruct Q as [(B & Qe & Ls)|(_ & r' & p & Qe & R0 & _ & Ls & D & _)].
    + split; [assumption|]. split; [rewrite <- starts_length, <- ends_length; congruence|]. apply (Hp i v Ev).
    + exfalso. specialize (N2 i r' Hl). unfold front in N2. rewrite Qe in N2. specialize (N2 eq_refl).
      assert (In (nth (length (ends (m_log m) i)) (starts (m_log m) i) 0%Q) (starts (m_log m) i)) by (apply nth_In; lia).
      specialize (P _ H).
      assert (exec_duration v (length (ends (m_log m) i)) < long_max)%Q; [|lra].
      pose proof (nth_error_In _ _ Ev) as Hv. pose proof (phases_pos g i v WF Ev) as Pp.
      destruct WF as (A & _). destruct (A v Hv) as (_ & L & LI & _).
      unfold exec_duration, cyclic. rewrite LI, (NI v Hv). rewrite (proj2 (Nat.ltb_ge _ 0)) by lia.
      apply (SD v); [assumption|]. apply nth_In. rewrite L. apply Nat.mod_upper_bound. lia.
Qed.

(** A chain of tasks each of which lacks what the next one would bring. *)
Lemma chain_decreases g cap cap' s st d u l v : graph_wf g -> no_init g -> positive_durations g -> bounded_valid g (Some cap') s ->
  (forall a b, In (a, b) d -> exists y x, (y < length (vertices g))%nat /\ (x < length (vertices g))%nat /\ vid g y = a /\ vid g x = b /\ lacks g cap st st y x) ->
  (forall a b k c, In (a, b) (steps u l) -> nth_error (edges g) k = Some c -> vid g (e_src c) = a -> vid g (e_dst c) = b -> cap' k <= cap k) ->
  chain d u l v -> forall i j, (i < length (vertices g))%nat -> (j < length (vertices g))%nat -> vid g i = u -> vid g j = v ->
  (s j (st j) <= s i (st i))%Q /\ (l <> [] -> s j (st j) < s i (st i))%Q.
Proof.
  intros WF NI PD SV HD. revert u. induction l as [|w l IH]; intros u HR C i j Hi Hj Ei Ej; cbn [chain] in C.
  - subst u. assert (i = j) by (apply (vid_inj g); auto; congruence). subst j. split; [lra|congruence].
  - destruct C as [A C]. destruct (HD u w A) as (y & x & Hy & Hx & Ey & Ex & L).
    assert (y = i) by (apply (vid_inj g); auto; congruence). subst y.
    assert (N : (end_of s g x (st x) <= s i (st i))%Q).
    { eapply lacks_needs; eauto. intros k c Ek Es Ed. eapply (HR u w k c); auto; [left; reflexivity| |]; congruence. }
    destruct (nth_error (vertices g) x) as [vx|] eqn:Ev; [|apply nth_error_None in Ev; lia]. unfold end_of in N. rewrite Ev in N.
    pose proof (duration_pos g WF NI PD x vx (st x) Ev) as Dp.
    destruct (IH w) with (i := x) (j := j) as [Le _]; auto.
    { intros a b k c Hs. apply (HR a b k c). right. assumption. }
    split; [lra|]. intros _. lra.
Qed.

Theorem deadlock_stays corrected fuel ticks g cap r cap' : graph_wf g -> no_init g -> even_self_loops g -> all_guarded g true ->
  positive_durations g -> short_durations g -> vertices g <> [] -> (length (vertices g) < fuel)%nat ->
  component_cycles corrected fuel ticks g cap = Ok (Deadlock, r) ->
  (forall k, In k r -> cap' k <= cap k) -> forall s, ~ bounded_valid g (Some cap') s.
Proof.
  intros WF NI EV GD PD SD NE F H Le s SV.
  destruct (component_cycles_inv _ _ _ _ _ _ _ H) as (w & rep & m & prev & P & R & S).
  destruct (run_prev_run _ _ _ _ _ _ _ _ _ R) as (_ & Rm & T).
  pose proof (inv_runs g (Some cap) w rep WF NI EV m Rm) as Hi.
  pose proof (stopped_idle g (Some cap) w rep m WF NI EV GD SD Rm T) as Id.
  set (d := deadlock_deps g (m_actors m) (m_state m)) in *.
  assert (HD : forall a b, In (a, b) d -> exists y x, (y < length (vertices g))%nat /\ (x < length (vertices g))%nat /\ vid g y = a /\ vid g x = b /\
    lacks g cap (started (m_log m)) (started (m_log m)) y x).
  { intros a b Hab. destruct (in_deadlock_deps g cap WF NI EV m a b Hi Hab) as (y & x & Hy & Hx & Ey & Ex & L). exists y, x. do 4 (split; [assumption|]).
    assert (E : started (m_log m) x = ended (m_log m) x).
    { destruct (nth_error (vertices g) x) as [vx|] eqn:Ev; [|apply nth_error_None in Ev; lia]. apply (Id x vx Ev). }
    unfold lacks in *. rewrite E. assumption. }
  assert (TD : task_deps g d).
  { intros a b Hab. destruct (HD a b Hab) as (y & x & Hy & Hx & <- & <- & _). split; apply vid_in; assumption. }
  destruct (storage_deps_whole corrected fuel g d r TD WF F S) as (u & l & Nl & C & Cov).
  { apply (closed_chain g d NE). intros u Hu. apply in_ids in Hu. destruct Hu as (i & Hl & <-).
    destruct (nth_error (vertices g) i) as [v|] eqn:Ev; [|apply nth_error_None in Ev; lia].
    destruct (Id i v Ev) as (B & _ & Rd). eapply unready_deadlock; eauto. }
  destruct l as [|x l]; [congruence|]. assert (Hu : In u (ids g)) by (destruct C as [C _]; apply (TD u x C)).
  apply in_ids in Hu. destruct Hu as (i & Hl & Ei).
  destruct (chain_decreases g cap cap' s (started (m_log m)) d u (x :: l) u WF NI PD SV HD) with (i := i) (j := i) as [_ L]; auto.
  - intros a b k c Hs Ek Ea Eb. apply Le. eapply Cov; eauto.
  - specialize (L Nl). lra.
Qed.
