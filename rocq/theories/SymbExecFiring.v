(** What one execution adds to the trace, and the invariants of the whole trace. *)
From Coq Require Import QArith.
From Verif Require Import Base Graph KPeriodic ScheduleSpec SimScc SymbExec SymbExecSpec SymbExecProofs SymbExecTrace.
Open Scope Z_scope.

Definition gathered (g : graph) (i : nat) (t : trace) : list Z := flat_map (fun c => of_option (last_packet t (e_id c))) (inputs g i).
Definition exec_line (g : graph) (i : nat) (v : vertex) (d : Q) (t : trace) : line :=
  mkLine (v_id v) (v_id v) d (packets t) (gathered g i t ++ of_option (last_compute t (v_id v))).
Definition started (g : graph) (i : nat) (v : vertex) (d : Q) (t : trace) : trace :=
  after t (last_packet t) (omap_put (last_compute t) (v_id v) (packets t)) (exec_line g i v d t).

Lemma gathered_used g i t d : tinv t -> In d (gathered g i t) -> used t d.
Proof.
  intros I H. unfold gathered in H. apply in_flat_map in H. destruct H as (c & _ & H). destruct (last_packet t (e_id c)) as [p|] eqn:E; [|destruct H].
  destruct H as [<-|[]]. eapply t_packet; eauto.
Qed.
Lemma started_inv g i v d t : tinv t -> tinv (started g i v d t).
Proof.
  intros I. apply after_inv; auto.
  - intros x Hx. cbn [exec_line l_deps] in Hx. apply in_app_iff in Hx. destruct Hx as [Hx|Hx]; [eapply gathered_used; eauto|].
    destruct (last_compute t (v_id v)) as [p|] eqn:E; [|destruct Hx]. destruct Hx as [<-|[]]. eapply t_compute; eauto.
  - intros e p H. pose proof (t_packet _ I _ _ H) as U. unfold used in U. lia.
  - intros e p. unfold omap_put. pose proof (t_count _ I). destruct (e =? v_id v); [intros H'; injection H' as <-; lia|]. intros H'. pose proof (t_compute _ I _ _ H') as U. unfold used in U. lia.
Qed.

Lemma firing fuel g i v t t' : distinct_channels g -> tinv t -> print_firing fuel g i v t = Ok t' ->
  0 < v_id v /\ exists d, total_duration v = Ok d /\ tinv (started g i v d t) /\
  sent_all g v (outputs g i) (packets t) (started g i v d t) t' /\
  send_all fuel g v (gathered g i t) (packets t) (outputs g i) (started g i v d t) = Ok t'.
Proof.
  intros ND I E. unfold print_firing in E. destruct (total_duration v) as [d| | |] eqn:Td; try discriminate. cbn [bind] in E.
  destruct (print_line _ _) as [t1| | |] eqn:Pr; try discriminate. cbn [bind] in E. apply print_line_ok in Pr.
  cbn [l_src l_dst last_packet last_compute packets packet_size printed] in Pr. destruct Pr as (S1 & _ & E1). split; [exact S1|]. exists d. split; [reflexivity|].
  pose proof (started_inv g i v d t I) as I1. split; [exact I1|]. rewrite E1 in E. cbn [last_packet last_compute packets packet_size printed] in E.
  change (send_all fuel g v (gathered g i t) (packets t) (outputs g i) (started g i v d t) = Ok t') in E. split; [|exact E].
  eapply send_all_spec; [|exact I1| | |exact E].
  - apply NoDup_map_filter. exact ND.
  - intros x Hx. pose proof (gathered_used g i t x I Hx) as U. unfold used in *. cbn. lia.
  - pose proof (t_count _ I). unfold used. cbn. lia.
Qed.

(** ** Executions of a task *)
Section Chain.
Variable g : graph.
Hypothesis ids : NoDup (map v_id (vertices g)).
Hypothesis chans : distinct_channels g.
Hypothesis edges_in : forall c, In c (edges g) -> (e_src c < length (vertices g))%nat /\ (e_dst c < length (vertices g))%nat.
Hypothesis noloop : no_self_loops g.

Record chain (w : list nat) (t : trace) : Prop := {
  c_inv : tinv t;
  c_src : forall k l, nth_error (printed t) k = Some l -> exists i v, nth_error (vertices g) i = Some v /\ l_src l = v_id v /\ In i w;
  c_last : forall k l x, nth_error (printed t) k = Some l -> execution_of l x -> exists p, last_compute t x = Some p /\ (k = Z.to_nat p \/ precedes (printed t) k (Z.to_nat p));
  c_order : forall a b la lb x, (a < b)%nat -> nth_error (printed t) a = Some la -> nth_error (printed t) b = Some lb ->
    execution_of la x -> execution_of lb x -> precedes (printed t) a b }.

Lemma target_id i v c : nth_error (vertices g) i = Some v -> In c (outputs g i) -> id_of g (e_dst c) <> Ok (v_id v).
Proof.
  intros Hv Hc. apply filter_In in Hc. destruct Hc as [Hc Es]. apply Nat.eqb_eq in Es. unfold id_of.
  destruct (nth_error (vertices g) (e_dst c)) as [u|] eqn:Eu; [|discriminate]. intros H. assert (v_id u = v_id v) by congruence.
  apply (noloop c Hc). rewrite Es. symmetry. eapply id_inj; eauto.
Qed.

Lemma chain_step fuel w i v t t' : nth_error (vertices g) i = Some v -> chain w t -> print_firing fuel g i v t = Ok t' -> chain (w ++ [i]) t'.
Proof.
  intros Hv C E. pose proof (c_inv _ _ C) as I. destruct (firing fuel g i v t t' chans I E) as (S1 & d & Td & I1 & [A1 A2 A3 A4 (new & A5) A6] & _).
  pose proof (t_count _ I) as Ct.
  assert (L1 : length (printed (started g i v d t)) = S (length (printed t))) by (cbn; rewrite app_length; cbn; lia).
  assert (P' : printed t' = printed t ++ exec_line g i v d t :: new) by (rewrite A5; cbn; rewrite <- app_assoc; reflexivity).
  assert (CASE : forall k l, nth_error (printed t') k = Some l ->
     nth_error (printed t) k = Some l \/ (k = length (printed t) /\ l = exec_line g i v d t) \/
     ((length (printed (started g i v d t)) <= k)%nat /\ l_src l = v_id v /\ l_dst l <> v_id v)).
  { intros k l Hk. destruct (Nat.lt_ge_cases k (length (printed t))) as [L|L].
    - left. rewrite P', nth_error_app1 in Hk by exact L. exact Hk.
    - right. destruct (Nat.eq_dec k (length (printed t))) as [->|N].
      + left. rewrite P', nth_error_app2, Nat.sub_diag in Hk by lia. cbn in Hk. split; [reflexivity|congruence].
      + right. split; [lia|]. destruct (A6 k l Hk ltac:(lia)) as (c & Hc & Es & Ed & _). split; [exact Es|].
        intros Ex. apply (target_id i v c Hv Hc). rewrite Ed, Ex. reflexivity. }
  assert (PREV : forall k l, nth_error (printed t) k = Some l -> execution_of l (v_id v) -> precedes (printed t') k (length (printed t))).
  { intros k l Hk Ex. destruct (c_last _ _ C k l _ Hk Ex) as (p & Hp & R).
    assert (D : depends (printed t') (Z.to_nat p) (length (printed t))).
    { exists (exec_line g i v d t). split; [rewrite P', nth_error_app2, Nat.sub_diag by lia; reflexivity|]. cbn [exec_line l_deps].
      rewrite Hp. apply in_or_app. right. left. pose proof (t_compute _ I _ _ Hp) as U. unfold used in U. lia. }
    destruct R as [-> |R]; [apply precedes_one; exact D|]. eapply precedes_more; [|exact D]. rewrite P'. apply precedes_app. exact R. }
  assert (TN : Z.to_nat (packets t) = length (printed t)) by lia.
  constructor.
  - exact A1.
  - intros k l Hk. destruct (CASE k l Hk) as [H|[(-> & ->)|(Lk & Es & _)]].
    + destruct (c_src _ _ C k l H) as (j & u & B1 & B2 & B3). exists j, u. split; [exact B1|]. split; [exact B2|]. apply in_or_app. left. exact B3.
    + exists i, v. split; [exact Hv|]. split; [reflexivity|]. apply in_or_app. right. left. reflexivity.
    + exists i, v. split; [exact Hv|]. split; [exact Es|]. apply in_or_app. right. left. reflexivity.
  - intros k l x Hk Ex. rewrite A2. cbn [started after last_compute]. unfold omap_put. destruct (Z.eqb_spec x (v_id v)) as [->|Nx].
    + exists (packets t). split; [reflexivity|]. rewrite TN. destruct (CASE k l Hk) as [H|[(-> & ->)|(Lk & Es & Ed)]].
      * right. exact (PREV k l H Ex).
      * left. reflexivity.
      * exfalso. destruct Ex as [_ Ex]. contradiction.
    + destruct (CASE k l Hk) as [H|[(-> & ->)|(Lk & Es & Ed)]].
      * destruct (c_last _ _ C k l x H Ex) as (p & B1 & B2). exists p. split; [exact B1|]. destruct B2 as [B2|B2]; [left; exact B2|right; rewrite P'; apply precedes_app; exact B2].
      * exfalso. destruct Ex as [Ex _]. cbn in Ex. congruence.
      * exfalso. destruct Ex as [Ex _]. congruence.
  - intros a b la lb x Hab Ha Hb Ea Eb. destruct (CASE b lb Hb) as [H|[(-> & ->)|(Lk & Es & Ed)]].
    + assert (Hb' : (b < length (printed t))%nat) by (apply nth_error_Some; congruence).
      destruct (CASE a la Ha) as [H'|[(-> & ->)|(Lk & _)]]; [|lia|lia].
      rewrite P'. apply precedes_app. eapply c_order; eauto.
    + destruct (CASE a la Ha) as [H'|[(-> & ->)|(Lk & _)]]; [|lia|lia]. assert (x = v_id v) as -> by (destruct Eb as [Eb _]; cbn in Eb; congruence).
      eapply PREV; eauto.
    + exfalso. destruct Eb as [E1 E2]. apply Ed. congruence.
Qed.

(** ** Tasks that execute once *)
Record once (w : list nat) (t : trace) : Prop := {
  o_chain : chain w t;
  o_packet : forall k l, nth_error (printed t) k = Some l -> l_src l <> l_dst l -> exists c u, In c (edges g) /\ nth_error (vertices g) (e_dst c) = Some u /\ v_id u = l_dst l /\
     exists j v, nth_error (vertices g) j = Some v /\ e_src c = j /\ l_src l = v_id v /\
     exists p, last_packet t (e_id c) = Some p /\ (k = Z.to_nat p \/ precedes (printed t) k (Z.to_nat p));
  o_wait : forall a b la lb x, (a < b)%nat -> nth_error (printed t) a = Some la -> nth_error (printed t) b = Some lb ->
    packet_to la x -> execution_of lb x -> precedes (printed t) a b }.

Lemma once_step fuel w i v t t' : nth_error (vertices g) i = Some v -> ~ In i w -> once w t -> print_firing fuel g i v t = Ok t' -> once (w ++ [i]) t'.
Proof.
  intros Hv Fresh [C O W] E. pose proof (chain_step fuel w i v t t' Hv C E) as C'.
  pose proof (c_inv _ _ C) as I. destruct (firing fuel g i v t t' chans I E) as (S1 & d & Td & I1 & [A1 A2 A3 A4 (new & A5) A6] & _).
  pose proof (t_count _ I) as Ct.
  assert (L1 : length (printed (started g i v d t)) = S (length (printed t))) by (cbn; rewrite app_length; cbn; lia).
  assert (P' : printed t' = printed t ++ exec_line g i v d t :: new) by (rewrite A5; cbn; rewrite <- app_assoc; reflexivity).
  assert (OLD : forall k l, nth_error (printed t') k = Some l -> (k < length (printed t))%nat -> nth_error (printed t) k = Some l).
  { intros k l Hk L. rewrite P', nth_error_app1 in Hk by exact L. exact Hk. }
  assert (SELF : forall k l, nth_error (printed t') k = Some l -> k = length (printed t) -> l = exec_line g i v d t).
  { intros k l Hk ->. rewrite P', nth_error_app2, Nat.sub_diag in Hk by lia. cbn in Hk. congruence. }
  constructor.
  - exact C'.
  - intros k l Hk Ne. destruct (Nat.lt_ge_cases k (length (printed t))) as [L|L].
    + destruct (O k l (OLD k l Hk L) Ne) as (c & u & B1 & B2 & B3 & j & v' & B4 & B5 & B6 & p & B7 & B8).
      exists c, u. split; [exact B1|]. split; [exact B2|]. split; [exact B3|]. exists j, v'. split; [exact B4|]. split; [exact B5|]. split; [exact B6|].
      exists p. split; [|rewrite P'; destruct B8 as [B8|B8]; [left; exact B8|right; apply precedes_app; exact B8]].
      rewrite A3; [exact B7|]. intros Hin. apply in_map_iff in Hin. destruct Hin as (c' & Ec & Hc'). apply filter_In in Hc'. destruct Hc' as [Hc' Es']. apply Nat.eqb_eq in Es'.
      assert (c' = c) as ->.
      { assert (IN : forall (ed : list edge), NoDup (map e_id ed) -> In c' ed -> In c ed -> c' = c).
        { clear - Ec. induction ed as [|a ed IH]; intros ND H1 H2; [destruct H1|]. cbn in ND. inversion ND as [|? ? Hni ND']; subst.
          destruct H1 as [-> |H1], H2 as [-> |H2]; auto.
          - exfalso. apply Hni. rewrite Ec. apply in_map. exact H2.
          - exfalso. apply Hni. rewrite <- Ec. apply in_map. exact H1. }
        exact (IN (edges g) chans Hc' B1). }
      destruct (c_src _ _ C k l (OLD k l Hk L)) as (j' & v'' & D1 & D2 & D3). apply Fresh.
      assert (j' = j) by (eapply id_inj; eauto; congruence). congruence.
    + destruct (Nat.eq_dec k (length (printed t))) as [K|K]; [exfalso; apply Ne; rewrite (SELF k l Hk K); reflexivity|].
      destruct (A6 k l Hk ltac:(lia)) as (c & Hc & Es & Ed & _ & p & B7 & B8). apply filter_In in Hc. destruct Hc as [Hc Es']. apply Nat.eqb_eq in Es'.
      unfold id_of in Ed. destruct (nth_error (vertices g) (e_dst c)) as [u|] eqn:Eu; [|discriminate].
      exists c, u. split; [exact Hc|]. split; [exact Eu|]. split; [congruence|]. exists i, v. split; [exact Hv|]. split; [exact Es'|]. split; [exact Es|].
      exists p. auto.
  - intros a b la lb x Hab Ha Hb [Pa1 Pa2] Eb. destruct (Nat.lt_ge_cases b (length (printed t))) as [L|L].
    + rewrite P'. apply precedes_app. eapply W; [exact Hab|apply OLD; [exact Ha|lia]|apply OLD; [exact Hb|lia]|split; eassumption|exact Eb].
    + destruct (Nat.eq_dec b (length (printed t))) as [K|K].
      * rewrite (SELF b lb Hb K) in Eb. destruct Eb as [Eb _]. cbn [exec_line l_src] in Eb. subst x.
        assert (La : (a < length (printed t))%nat) by lia.
        destruct (O a la (OLD a la Ha La)) as (c & u & B1 & B2 & B3 & j & v' & B4 & B5 & B6 & p & B7 & B8); [congruence|].
        assert (e_dst c = i) as Ei by (eapply id_inj; eauto; congruence).
        assert (D : depends (printed t') (Z.to_nat p) b).
        { exists (exec_line g i v d t). split; [rewrite K, P', nth_error_app2, Nat.sub_diag by lia; reflexivity|]. cbn [exec_line l_deps]. apply in_or_app. left.
          unfold gathered. apply in_flat_map. exists c. split; [apply filter_In; split; [exact B1|apply Nat.eqb_eq; exact Ei]|]. rewrite B7. left.
          pose proof (t_packet _ I _ _ B7) as U. unfold used in U. lia. }
        destruct B8 as [-> |B8]; [apply precedes_one; exact D|]. eapply precedes_more; [|exact D]. rewrite P'. apply precedes_app. exact B8.
      * exfalso. destruct (A6 b lb Hb ltac:(lia)) as (c & Hc & Es & Ed & _). destruct Eb as [E1 E2]. apply (target_id i v c Hv Hc). rewrite Ed. congruence.
Qed.
End Chain.

(** ** Counting lines *)
Section Count.
Variable g : graph.
Hypothesis chans : distinct_channels g.
Variable size : Z.
Hypothesis size_pos : 0 < size.
Hypothesis rates : forall c, In c (edges g) -> 0 < edge_in_total c /\ (size | edge_in_total c).

Lemma outputs_sum i : sumZ (map (fun c => edge_in_total c / size) (outputs g i)) = sumZ (map (fun c => if (e_src c =? i)%nat then sumZ (e_in c) / size else 0) (edges g)).
Proof using.
  clear. unfold outputs. induction (edges g) as [|c l IH]; [reflexivity|]. cbn [filter map]. destruct (e_src c =? i)%nat; unfold sumZ in *; cbn [map fold_right]; rewrite IH; [reflexivity|lia].
Qed.

Record counted (w : list nat) (t : trace) : Prop := {
  n_inv : tinv t; n_size : size_ok g size t;
  n_count : Z.of_nat (length (printed t)) = sumZ (map (lines_per_execution g size) w) }.

Lemma sumZ_app a b : sumZ (a ++ b) = sumZ a + sumZ b.
Proof using. clear. induction a as [|x a IH]; [reflexivity|]. cbn [app sumZ fold_right] in *. unfold sumZ in *. lia. Qed.

Lemma counted_step fuel w i v t t' : counted w t -> print_firing fuel g i v t = Ok t' -> counted (w ++ [i]) t'.
Proof using chans size_pos rates.
  intros [I Sz Ct] E. destruct (firing fuel g i v t t' chans I E) as (S1 & d & Td & I1 & _ & Sa).
  destruct (send_all_count fuel g v (gathered g i t) (packets t) size size_pos (outputs g i) (started g i v d t) t') as [B1 B2]; auto.
  - intros c Hc. apply filter_In in Hc. tauto.
  - intros c Hc. apply filter_In in Hc. apply rates. tauto.
  - apply NoDup_map_filter. exact chans.
  - intros x Hx. pose proof (gathered_used g i t x I Hx) as U. unfold used in *. cbn. lia.
  - pose proof (t_count _ I). unfold used. cbn. lia.
  - assert (I' : tinv t').
    { pose proof (send_all_spec fuel g v (gathered g i t) (packets t) (outputs g i) (started g i v d t) t') as Q. apply Q; auto.
      - apply NoDup_map_filter. exact chans.
      - intros x Hx. pose proof (gathered_used g i t x I Hx) as U. unfold used in *. cbn. lia.
      - pose proof (t_count _ I). unfold used. cbn. lia. }
    constructor; [exact I'|exact B1|]. rewrite map_app, sumZ_app. cbn [map sumZ fold_right]. rewrite <- Ct.
    pose proof (t_count _ I') as K'. pose proof (t_count _ I) as K. cbn [started after packets] in B2. rewrite outputs_sum in B2. unfold lines_per_execution. lia.
Qed.

Lemma counted_fires fuel w i v t : nth_error (vertices g) i = Some v -> (forall u, In u (vertices g) -> 0 < v_id u) -> (exists d, total_duration v = Ok d) ->
  (forall c, In c (edges g) -> edge_in_total c <= Z.of_nat fuel /\ (e_dst c < length (vertices g))%nat) ->
  counted w t -> exists t', print_firing fuel g i v t = Ok t'.
Proof using chans size_pos rates.
  intros Hv Pos (d & Ed) Fu [I Sz Ct]. unfold print_firing. rewrite Ed. cbn [bind].
  assert (Pv : 0 < v_id v) by (apply Pos; eapply nth_error_In; eauto).
  set (l := mkLine _ _ _ _ _). destruct (print_line_total l (mkTrace (last_packet t) (last_compute t) (packets t + 1) (packet_size t) (printed t)) Pv Pv) as (t1 & E1).
  rewrite E1. cbn [bind]. apply print_line_ok in E1. destruct E1 as (_ & _ & ->). cbn [last_packet last_compute packets packet_size printed].
  change (exists t', send_all fuel g v (gathered g i t) (packets t) (outputs g i) (started g i v d t) = Ok t').
  apply (send_all_total fuel g v (gathered g i t) (packets t) size); auto.
  - intros c Hc. apply filter_In in Hc. tauto.
  - intros c Hc. apply filter_In in Hc. destruct Hc as [Hc _]. destruct (rates c Hc). destruct (Fu c Hc) as [F1 F2]. split; [lia|]. split; [assumption|].
    destruct (nth_error (vertices g) (e_dst c)) as [u|] eqn:Eu; [|apply nth_error_None in Eu; lia]. exists (v_id u). unfold id_of. rewrite Eu. split; [reflexivity|].
    apply Pos. eapply nth_error_In; eauto.
  - apply NoDup_map_filter. exact chans.
  - apply started_inv. exact I.
  - intros x Hx. pose proof (gathered_used g i t x I Hx) as U. unfold used in *. cbn. lia.
  - pose proof (t_count _ I). unfold used. cbn. lia.
Qed.
End Count.
