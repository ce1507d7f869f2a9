(** The K-Iter loop: invariant, termination, stopping condition. *)
From Coq Require Import QArith Znumtheory Lqa Permutation.
From Verif Require Import Base Graph Commons CommonsProofs FractionProofs KPeriodic ScheduleSpec ScheduleCore KPeriodicSpec
  KPeriodicProofs KPeriodicChannel KPeriodicSelfloop KPeriodicGraph EventGraph EventGraphSpec EventGraphProofs
  KPeriodicEnd KPeriodicProps KIter KIterSpec KIterProofs.
Open Scope Z_scope.

Section Loop.
Variables (var : variant) (g : graph) (N : nat -> Z).
Hypothesis Hwf : graph_wf g.
Hypothesis Hcyc : whole_cycles g N.
Hypothesis Hni : no_init g.
Hypothesis Hids : edge_ids_ok g.
Variable solve : list constraint -> Q * list constraint.
Variable arrange : list edge -> list edge.
Hypothesis Harr : forall l, Permutation (arrange l) l.

Lemma insert_edge_in c l x : In x (insert_edge c l) -> x = c \/ In x l.
Proof. unfold insert_edge. destruct (existsb _ _); [auto|]. rewrite in_app_iff. cbn. intuition. Qed.
Lemma insert_edge_incl c l x : In x l -> In x (insert_edge c l).
Proof. unfold insert_edge. destruct (existsb _ _); [auto|]. rewrite in_app_iff. auto. Qed.
Lemma insert_edge_has c l : exists x, In x (insert_edge c l) /\ e_id x = e_id c.
Proof.
  unfold insert_edge. destruct (existsb (same_edge c) l) eqn:E.
  - apply existsb_exists in E as (x & Hx & Hs). apply same_edge_true in Hs. exists x; auto.
  - exists c. rewrite in_app_iff. cbn. auto.
Qed.
Lemma insert_edge_nodup c l : NoDup (map e_id l) -> NoDup (map e_id (insert_edge c l)).
Proof.
  intros H. unfold insert_edge. destruct (existsb (same_edge c) l) eqn:E; [exact H|].
  rewrite map_app. cbn [map]. apply (Permutation_NoDup (l := e_id c :: map e_id l)).
  { apply Permutation_cons_append. }
  constructor; [|exact H]. intros Hin. apply in_map_iff in Hin as (x & Hx & Hin).
  assert (existsb (same_edge c) l = true); [|congruence]. apply existsb_exists. exists x. split; [exact Hin|].
  apply same_edge_true. auto.
Qed.

Lemma edge_by_id_spec id c : edge_by_id g id = Some c <-> In c (edges g) /\ e_id c = id.
Proof.
  unfold edge_by_id. split.
  - intros H. apply find_some in H as [H1 H2]. apply Z.eqb_eq in H2. auto.
  - intros [H1 H2]. destruct (find (fun c => e_id c =? id) (edges g)) as [c'|] eqn:E.
    + apply find_some in E as [H3 H4]. apply Z.eqb_eq in H4. f_equal. apply (edge_id_inj g Hids); auto. congruence.
    + exfalso. pose proof (find_none _ _ E c H1) as Hn. cbn in Hn. apply Z.eqb_neq in Hn. contradiction.
Qed.

(** The critical set holds exactly the channels carrying a constraint of the circuit. *)
Lemma critical_set_spec circ : NoDup (map e_id (critical_set g circ)) /\
  forall c, In c (critical_set g circ) <-> In c (edges g) /\ exists x, In x circ /\ c_channel x = e_id c.
Proof.
  unfold critical_set.
  set (f := fun acc x => match edge_by_id g (c_channel x) with Some c => insert_edge c acc | None => acc end).
  assert (G : forall circ acc, NoDup (map e_id acc) -> incl acc (edges g) ->
     NoDup (map e_id (fold_left f circ acc)) /\
     forall c, In c (fold_left f circ acc) <-> In c acc \/ In c (edges g) /\ exists x, In x circ /\ c_channel x = e_id c).
  { clear circ. induction circ as [|x circ IH]; intros acc Hn Hi; cbn [fold_left].
    - split; [exact Hn|]. intros c. split; [auto|]. intros [H|(_ & x & [] & _)]. exact H.
    - assert (Hn' : NoDup (map e_id (f acc x))).
      { unfold f. destruct (edge_by_id g (c_channel x)); [apply insert_edge_nodup|]; exact Hn. }
      assert (Hi' : incl (f acc x) (edges g)).
      { unfold f. destruct (edge_by_id g (c_channel x)) as [c|] eqn:E; [|exact Hi].
        intros y Hy. apply insert_edge_in in Hy as [->|Hy]; [apply edge_by_id_spec in E; tauto|auto]. }
      destruct (IH _ Hn' Hi') as [H1 H2]. split; [exact H1|]. intros c. rewrite H2. split.
      + intros [H|(H & y & Hy & E)]; [|right; split; [exact H|exists y; cbn; auto]].
        unfold f in H. destruct (edge_by_id g (c_channel x)) as [c'|] eqn:E; [|auto].
        apply insert_edge_in in H as [->|H]; [|auto]. right. apply edge_by_id_spec in E as [E1 E2].
        split; [exact E1|]. exists x. cbn; auto.
      + intros [H|(H & y & [<-|Hy] & E)].
        * left. unfold f. destruct (edge_by_id g (c_channel x)); [apply insert_edge_incl|]; exact H.
        * left. unfold f. assert (Ei : edge_by_id g (c_channel x) = Some c) by (apply edge_by_id_spec; auto).
          rewrite Ei. destruct (insert_edge_has c acc) as (z & Hz & Ez).
          assert (z = c); [|subst; exact Hz]. apply (edge_id_inj g Hids); auto. 
          apply insert_edge_in in Hz as [->|Hz]; auto.
        * right. split; [exact H|]. exists y. auto. }
  destruct (G circ [] (NoDup_nil _) (fun x Hx => match Hx with end)) as [G1 G2]. split; [exact G1|].
  intros c. rewrite G2. cbn. tauto.
Qed.

Lemma solve_critical cs : NoDup (map e_id (kr_critical (solve_graph solve arrange g cs))) /\
  forall c, In c (kr_critical (solve_graph solve arrange g cs)) <->
    In c (edges g) /\ exists x, In x (snd (solve cs)) /\ c_channel x = e_id c.
Proof.
  unfold solve_graph. cbn [kr_critical]. destruct (critical_set_spec (snd (solve cs))) as [H1 H2].
  pose proof (Harr (critical_set g (snd (solve cs)))) as P. split.
  - eapply Permutation_NoDup; [|exact H1]. apply Permutation_map. symmetry. exact P.
  - intros c. rewrite <- H2. split; apply Permutation_in; [exact P|symmetry; exact P].
Qed.

Lemma solve_critical_incl cs : incl (kr_critical (solve_graph solve arrange g cs)) (edges g).
Proof. intros c Hc. apply solve_critical in Hc. tauto. Qed.

(** Distance to the full repetition vector. *)
Definition gap (K : nat -> Z) : Z := sumf (fun i => cycles g N i - K i) (length (vertices g)).

Lemma gap_nonneg K : kdiv g N K -> 0 <= gap K.
Proof.
  intros H. unfold gap. assert (forall n, (n <= length (vertices g))%nat -> 0 <= sumf (fun i => cycles g N i - K i) n).
  { induction n as [|n IH]; intros Hn; cbn [sumf]; [lia|]. specialize (IH ltac:(lia)).
    destruct (nth_error (vertices g) n) as [v|] eqn:E; [|apply nth_error_None in E; lia].
    destruct (H n v E) as [Hp Hd]. destruct (cycles_spec g N Hwf Hcyc n v E) as (_ & Hq & _).
    apply Z.divide_pos_le in Hd; lia. }
  apply H0. lia.
Qed.

Lemma gap_decreases K K' : (forall i, (i < length (vertices g))%nat -> K i <= K' i) ->
  (exists i, (i < length (vertices g))%nat /\ K i < K' i) -> gap K' < gap K.
Proof.
  intros Hle (i & Hi & Hlt). unfold gap.
  assert (forall n, (n <= length (vertices g))%nat ->
     sumf (fun i => cycles g N i - K' i) n <= sumf (fun i => cycles g N i - K i) n /\
     ((i < n)%nat -> sumf (fun i => cycles g N i - K' i) n < sumf (fun i => cycles g N i - K i) n)).
  { induction n as [|n IH]; intros Hn; cbn [sumf]; [lia|]. destruct (IH ltac:(lia)) as [I1 I2].
    pose proof (Hle n ltac:(lia)). split; [lia|]. intros Hin.
    destruct (Nat.eq_dec i n) as [->|Hne]; [lia|]. specialize (I2 ltac:(lia)). lia. }
  destruct (H (length (vertices g)) (le_n _)) as [_ H2]. apply H2, Hi.
Qed.

(** The tasks of the critical circuit have reached their relative repetition count. *)
Definition saturated (K : nat -> Z) (cc : list edge) : Prop :=
  forall G, is_cycle_gcd g N cc G -> forall i, on_circuit cc i -> (cycles g N i / G | K i).

Lemma kiter_loop_spec : forall fuel K cs0 cs, kdiv g N K ->
  generate_event_graph var g N K = Ok cs0 -> (forall x, In x cs <-> In x cs0) ->
  gap K < Z.of_nat fuel ->
  exists K' cs' cs1, kiter_loop solve arrange fuel var g N K cs (solve_graph solve arrange g cs)
      = Ok (solve_graph solve arrange g cs', K', cs') /\
    kdiv g N K' /\ generate_event_graph var g N K' = Ok cs1 /\ (forall x, In x cs' <-> In x cs1) /\
    (forall i, (K i | K' i)) /\
    saturated K' (kr_critical (solve_graph solve arrange g cs')).
Proof.
  induction fuel as [|fuel IH]; intros K cs0 cs HK Hg Hcs Hf.
  { pose proof (gap_nonneg K HK). lia. }
  cbn [kiter_loop]. set (r := solve_graph solve arrange g cs).
  destruct (update_regenerates var g N Hwf Hcyc Hni Hids K (kr_critical r) cs0 cs (solve_critical_incl cs) HK Hg Hcs)
    as (u & Hu & Hspec).
  rewrite Hu. cbn [bind]. destruct u as [[cs' K']|].
  - destruct Hspec as (HK' & U1 & U2 & (i & Hon & Hne) & cs1 & Hg1 & Hcs1).
    assert (Hdiv : forall j, (K j | K' j)).
    { intros j. destruct (in_dec Nat.eq_dec j (map e_src (kr_critical r))) as [I|I].
      - rewrite (U1 j) with (G := gcd_list g N (kr_critical r) 0); [apply Z.divide_lcm_l| |apply is_cycle_gcd_list].
        apply in_map_iff in I as (c & Ec & Ic). exists c. auto.
      - rewrite U2; [apply Z.divide_refl|]. intros (c & Ic & <-). apply I, in_map, Ic. }
    destruct (sameset (kr_critical (solve_graph solve arrange g cs')) (kr_critical r)) eqn:Es.
    + exists K', cs', cs1. split; [reflexivity|]. split; [exact HK'|]. split; [exact Hg1|]. split; [exact Hcs1|].
      split; [exact Hdiv|].
      rewrite sameset_spec in Es; [|apply solve_critical|apply solve_critical].
      assert (Hsame : forall j, on_circuit (kr_critical (solve_graph solve arrange g cs')) j <-> on_circuit (kr_critical r) j).
      { assert (Hin : forall l1 l2, incl l1 (edges g) -> incl l2 (edges g) ->
            (forall id, In id (map e_id l1) -> In id (map e_id l2)) -> forall j, on_circuit l1 j -> on_circuit l2 j).
        { intros l1 l2 I1 I2 H j (c & Hc & Ej). exists c. split; [|exact Ej].
          specialize (H (e_id c) (in_map e_id _ _ Hc)). apply in_map_iff in H as (c' & E' & H').
          rewrite <- (edge_id_inj g Hids c' c (I2 _ H') (I1 _ Hc) E'). exact H'. }
        intros j. split; apply Hin; try apply solve_critical_incl; intros id Hid; apply Es; exact Hid. }
      intros G HG j Hj. rewrite (U1 j) with (G := G).
      * apply Z.divide_lcm_r.
      * apply Hsame, Hj.
      * destruct HG as (G0 & G1 & G2). split; [exact G0|]. split.
        -- intros k Hk. apply G1, Hsame, Hk.
        -- intros d Hd. apply G2. intros k Hk. apply Hd, Hsame, Hk.
    + destruct (IH K' cs1 cs' HK' Hg1 Hcs1) as (K2 & cs2 & cs3 & E2 & A & B & C & D & F).
      { assert (gap K' < gap K); [|lia]. apply gap_decreases.
        - intros j Hj. destruct (nth_error (vertices g) j) as [v|] eqn:Ej; [|apply nth_error_None in Ej; lia].
          apply Z.divide_pos_le; [apply (HK' j v Ej)|apply Hdiv].
        - exists i. destruct Hon as (c & Hc & <-). destruct (edge_ends g Hwf c (solve_critical_incl cs c Hc)) as (vs & _ & E1 & _).
          split; [eapply vertex_lt; exact E1|]. pose proof (Z.divide_pos_le _ _ (proj1 (HK' _ _ E1)) (Hdiv (e_src c))). lia. }
      exists K2, cs2, cs3. split; [exact E2|]. split; [exact A|]. split; [exact B|]. split; [exact C|]. split; [|exact F].
      intros j. eapply Z.divide_trans; [apply Hdiv|apply D].
  - exists K, cs, cs0. split; [reflexivity|]. split; [exact HK|]. split; [exact Hg|]. split; [exact Hcs|].
    split; [intros; apply Z.divide_refl|]. intros G HG j Hj. rewrite <- (Hspec j Hj G HG). apply Z.divide_lcm_r.
Qed.

Lemma one_kdiv : kdiv g N (fun _ => 1).
Proof. intros i v _. split; [lia|apply Z.divide_1_l]. Qed.

(** Iterations allowed by the repetition vector. *)
Definition iteration_bound : nat := S (Z.to_nat (sumf (cycles g N) (length (vertices g)))).

Lemma kiter_spec fuel : (iteration_bound <= fuel)%nat ->
  exists K' cs' cs1, kiter solve arrange fuel var g N = Ok (solve_graph solve arrange g cs', K', cs') /\
    kdiv g N K' /\ generate_event_graph var g N K' = Ok cs1 /\ (forall x, In x cs' <-> In x cs1) /\
    saturated K' (kr_critical (solve_graph solve arrange g cs')).
Proof.
  intros Hf. unfold kiter. pose proof one_kdiv as H1.
  destruct (generate_event_graph_ok var g N (fun _ => 1) Hwf (HN_pos g N Hcyc) (kdiv_pos g N _ H1)) as (cs0 & Hg).
  rewrite Hg. cbn [bind]. destruct (Nat.eqb_spec (length (kr_critical (solve_graph solve arrange g cs0))) 0) as [E|E].
  - exists (fun _ => 1), cs0, cs0. split; [reflexivity|]. split; [exact H1|]. split; [exact Hg|]. split; [reflexivity|].
    intros G HG i (c & Hc & _). destruct (kr_critical _); [destruct Hc|discriminate].
  - destruct (kiter_loop_spec fuel (fun _ => 1) cs0 cs0 H1 Hg (fun _ => iff_refl _)) as (K' & cs' & cs1 & A & B & C & D & _ & F).
    { unfold iteration_bound in Hf.
      assert (gap (fun _ => 1) <= sumf (cycles g N) (length (vertices g))).
      { apply sumf_le. intros m _. lia. }
      lia. }
    exists K', cs', cs1. auto.
Qed.
End Loop.
