(** Properties C31, C32, C34, C35 and C55: the K-Iter throughput algorithm. *)
From Coq Require Import QArith Znumtheory Lqa Permutation.
From Verif Require Import Base Graph Commons CommonsProofs KPeriodic ScheduleSpec ScheduleCore KPeriodicSpec
  KPeriodicProofs KPeriodicChannel KPeriodicSelfloop KPeriodicGraph EventGraph EventGraphSpec EventGraphProofs
  KPeriodicEnd KPeriodicProps KIter KIterSpec KIterProofs KIterLoop KIterOpt KIterFinal.
Open Scope Z_scope.

(** * Proofs *)
Lemma on_circuit_dec cc i : on_circuit cc i \/ ~ on_circuit cc i.
Proof.
  destruct (in_dec Nat.eq_dec i (map e_src cc)) as [I|I].
  - left. apply in_map_iff in I as (c & Ec & Ic). exists c. auto.
  - right. intros (c & Ic & <-). apply I, in_map, Ic.
Qed.

Lemma update_vector_full g N K cc : graph_wf g -> whole_cycles g N -> incl cc (edges g) -> divides_iteration g N K ->
  exists K' changed, update_vector g N K cc = Ok (K', changed) /\ divides_iteration g N K' /\
    (forall i, (K i | K' i)) /\ (forall i, ~ on_circuit cc i -> K' i = K i) /\
    (forall G i, is_cycle_gcd g N cc G -> on_circuit cc i -> K' i = Z.lcm (K i) (cycles g N i / G)) /\
    (changed = false <-> forall i, K' i = K i).
Proof.
  intros Hwf Hcyc Hi HK. apply (divides_iteration_kdiv g N Hwf Hcyc) in HK.
  destruct (update_vector_spec g N Hwf Hcyc cc K Hi HK) as (G & K' & ch & E & HG & HK' & U1 & U2 & U3).
  exists K', ch. split; [exact E|]. split; [apply (divides_iteration_kdiv g N Hwf Hcyc); exact HK'|]. split; [|split; [exact U2|split]].
  - intros i. destruct (on_circuit_dec cc i) as [H|H]; [rewrite (U1 i H); apply Z.divide_lcm_l|rewrite (U2 i H); apply Z.divide_refl].
  - intros G' i HG' Hon. rewrite (is_cycle_gcd_unique g N cc cc G' G (fun _ => iff_refl _) HG' HG). apply U1, Hon.
  - rewrite U3. split; [|auto]. intros H i. destruct (on_circuit_dec cc i); auto.
Qed.

Lemma periodic_keeps_pace g N K omega s : positive_on g N -> positive_on g K -> (forall v, In v (vertices g) -> (0 < v_phases v)%nat) ->
  periodic_schedule g N K omega s -> keeps_pace g N s omega.
Proof.
  intros HN HK Hph Hs.
  (* a bound for one task *)
  assert (H1 : forall i v, nth_error (vertices g) i = Some v -> exists B, (0 <= B)%Q /\ forall m,
    (s i m <= B + omega * (inject_Z (Z.of_nat m) / inject_Z (N i)))%Q).
  { intros i v E. pose proof (vertex_lt g i v E) as Hlt. pose proof (HN i Hlt) as HNi. pose proof (HK i Hlt) as HKi.
    set (L := (Z.to_nat (K i) * v_phases v)%nat).
    assert (HL : (0 < L)%nat) by (specialize (Hph v (nth_error_In _ _ E)); unfold L; nia).
    assert (HT : (task_period omega (K i) (Z.of_nat (v_phases v)) (N i) == omega * (inject_Z (Z.of_nat L) / inject_Z (N i)))%Q).
    { unfold task_period. replace (K i * Z.of_nat (v_phases v)) with (Z.of_nat L) by (unfold L; lia).
      field. intros Hz. apply (Qlt_not_eq 0 (inject_Z (N i))); [|symmetry; exact Hz]. change 0%Q with (inject_Z 0). rewrite <- Zlt_Qlt. exact HNi. }
    assert (HNq : (0 < inject_Z (N i))%Q) by (change 0%Q with (inject_Z 0); rewrite <- Zlt_Qlt; exact HNi).
    assert (HB : forall n, exists B, (0 <= B)%Q /\ forall m, (m < n)%nat -> (s i m <= B + omega * (inject_Z (Z.of_nat m) / inject_Z (N i)))%Q).
    { induction n as [|n (B & HB0 & HB)]; [exists 0%Q; split; [lra|lia]|].
      set (x := (s i n - omega * (inject_Z (Z.of_nat n) / inject_Z (N i)))%Q).
      exists (if Qlt_le_dec B x then x else B). split; [destruct (Qlt_le_dec B x); lra|].
      intros m Hm. destruct (Nat.eq_dec m n) as [->|Hne].
      - destruct (Qlt_le_dec B x); subst x; lra.
      - specialize (HB m ltac:(lia)). destruct (Qlt_le_dec B x); lra. }
    destruct (HB L) as (B & HB0 & HBL). exists B. split; [exact HB0|]. intros m.
    assert (Em : m = (m mod L + m / L * L)%nat) by (pose proof (Nat.div_mod m L ltac:(lia)); lia).
    pose proof (Nat.mod_upper_bound m L ltac:(lia)) as Hr. set (r := (m mod L)%nat) in *. set (q := (m / L)%nat) in *. clearbody r q.
    rewrite Em. rewrite (periodic_multiple (s i) L (task_period omega (K i) (Z.of_nat (v_phases v)) (N i)) (fun m => Hs i v m E) q r).
    rewrite HT. specialize (HBL r Hr).
    rewrite Nat2Z.inj_add, Nat2Z.inj_mul, inject_Z_plus, inject_Z_mult.
    set (a := inject_Z (Z.of_nat q)) in *. set (b := inject_Z (Z.of_nat L)) in *. set (c := inject_Z (Z.of_nat r)) in *. set (n := inject_Z (N i)) in *.
    assert (E0 : (omega * ((c + a * b) / n) == omega * (c / n) + a * (omega * (b / n)))%Q) by (field; lra).
    rewrite E0. lra. }
  assert (H2 : forall n, (n <= length (vertices g))%nat -> exists B, (0 <= B)%Q /\ forall i m, (i < n)%nat ->
    (s i m <= B + omega * (inject_Z (Z.of_nat m) / inject_Z (N i)))%Q).
  { induction n as [|n IH]; intros Hn; [exists 0%Q; split; [lra|lia]|].
    destruct (IH ltac:(lia)) as (B & HB0 & HB). destruct (nth_error (vertices g) n) as [v|] eqn:E; [|apply nth_error_None in E; lia].
    destruct (H1 n v E) as (B' & HB0' & HB'). exists (B + B')%Q. split; [lra|]. intros i m Hi.
    destruct (Nat.eq_dec i n) as [->|Hne]; [specialize (HB' m); lra|specialize (HB i m ltac:(lia)); lra]. }
  destruct (H2 (length (vertices g)) (le_n _)) as (B & _ & HB). exists B. intros i m Hi. apply HB, Hi.
Qed.

Lemma kiter_optimal_along solve arrange var g N fuel r K cs : (forall l, Permutation (arrange l) l) ->
  graph_wf g -> balanced g N -> no_init g -> no_overlap g -> whole_cycles g N -> edge_ids_ok g ->
  (iteration_bound g N <= fuel)%nat -> kiter solve arrange fuel var g N = Ok (r, K, cs) -> exact_answer cs (solve cs) ->
  ((0 < kr_throughput r)%Q ->
     (exists s, periodic_schedule g N K (/ kr_throughput r) s /\ schedule_valid g s /\ keeps_pace g N s (/ kr_throughput r)) /\
     (forall s omega, valid_along g (kr_critical r) s -> non_zeno g s -> keeps_pace g N s omega -> (/ kr_throughput r <= omega)%Q)) /\
  ((kr_throughput r <= 0)%Q -> forall s omega, valid_along g (kr_critical r) s -> non_zeno g s -> ~ keeps_pace g N s omega).
Proof.
  intros Harr Hwf Hbal Hni Hno Hcyc Hids Hf Hk Hex.
  destruct (kiter_spec var g N Hwf Hcyc Hni Hids solve arrange Harr fuel Hf) as (K' & cs' & cs1 & Hk' & HK & Hg & Hcs & Hsat).
  rewrite Hk in Hk'. injection Hk' as -> -> ->. unfold solve_graph in *. cbn [kr_throughput kr_critical].
  destruct Hex as (Hcirc & Hd & Hratio & Hmin).
  pose proof (HN_pos g N Hcyc) as HN. pose proof (kdiv_pos g N K' HK) as HKp.
  assert (Hcirc1 : circuit cs1 (snd (solve cs'))).
  { destruct Hcirc as (H1 & H2 & H3). split; [exact H1|]. split; [|exact H3]. intros x Hx. apply Hcs, H2, Hx. }
  assert (Hbound : forall s omega, valid_along g (arrange (critical_set g (snd (solve cs')))) s -> non_zeno g s -> keeps_pace g N s omega ->
    (0 < omega)%Q /\ (sumQ c_d (snd (solve cs')) <= omega * sumQ c_w (snd (solve cs')))%Q).
  { intros s omega Hv Hnz Hp.
    destruct (solve_critical g Hids solve arrange Harr cs') as [_ Hcc].
    split.
    - eapply (pace_positive var g N K'); eassumption.
    - eapply (critical_circuit_bound var g N K'); eassumption. }
  set (th := fst (solve cs')) in *. set (l := snd (solve cs')) in *. split.
  - intros Hth. split.
    + assert (Hom : (0 <= / th)%Q) by (apply Qinv_le_0_compat; lra).
      assert (Hfit : circuits_fit cs1 (/ th)).
      { intros l' Hl'. assert (Hl : circuit cs' l').
        { destruct Hl' as (H1 & H2 & H3). split; [exact H1|]. split; [|exact H3]. intros x Hx. apply Hcs, H2, Hx. }
        specialize (Hmin l' Hl). set (D := sumQ c_d l') in *. set (W := sumQ c_w l') in *.
        assert (E : (D == / th * (th * D))%Q) by (field; lra). rewrite E.
        assert (0 < / th)%Q by (apply Qinv_lt_0_compat; exact Hth). set (q := (/ th)%Q) in *. clearbody q. nra. }
      apply (periodic_exists_iff var g N K' (/ th) cs1 Hwf Hbal Hni Hno HN HKp Hom Hg) in Hfit.
      destruct Hfit as (s & Hs & Hv). exists s. split; [exact Hs|]. split; [exact Hv|].
      apply (periodic_keeps_pace g N K' (/ th) s HN HKp); [|exact Hs].
      intros v Hin. destruct Hwf as (Hvs & _). apply (Hvs v Hin).
    + intros s omega Hv Hnz Hp. destruct (Hbound s omega Hv Hnz Hp) as [Ho Hb].
      rewrite <- Hratio in Hb. set (D := sumQ c_d l) in *.
      assert (H1 : (1 <= omega * th)%Q).
      { assert (E : (omega * (th * D) == (omega * th) * D)%Q) by ring. rewrite E in Hb.
        set (q := (omega * th)%Q) in *. clearbody q D. nra. }
      assert (E : (omega == (omega * th) * / th)%Q) by (field; lra). rewrite E.
      assert (0 < / th)%Q by (apply Qinv_lt_0_compat; exact Hth). set (q := (/ th)%Q) in *. clearbody q. nra.
  - intros Hth s omega Hv Hnz Hp. destruct (Hbound s omega Hv Hnz Hp) as [Ho Hb].
    rewrite <- Hratio in Hb. set (D := sumQ c_d l) in *. clearbody D.
    assert (th * D <= 0)%Q by nra. set (q := (th * D)%Q) in *. clearbody q. nra.
Qed.

Lemma kiter_optimal solve arrange var g N fuel r K cs : (forall l, Permutation (arrange l) l) ->
  graph_wf g -> balanced g N -> no_init g -> no_overlap g -> whole_cycles g N -> edge_ids_ok g ->
  (iteration_bound g N <= fuel)%nat -> kiter solve arrange fuel var g N = Ok (r, K, cs) -> exact_answer cs (solve cs) ->
  ((0 < kr_throughput r)%Q ->
     (exists s, periodic_schedule g N K (/ kr_throughput r) s /\ schedule_valid g s /\ keeps_pace g N s (/ kr_throughput r)) /\
     (forall s omega, schedule_valid g s -> non_zeno g s -> keeps_pace g N s omega -> (/ kr_throughput r <= omega)%Q)) /\
  ((kr_throughput r <= 0)%Q -> forall s omega, schedule_valid g s -> non_zeno g s -> ~ keeps_pace g N s omega).
Proof.
  intros Harr Hwf Hbal Hni Hno Hcyc Hids Hf Hk Hex.
  destruct (kiter_optimal_along solve arrange var g N fuel r K cs Harr Hwf Hbal Hni Hno Hcyc Hids Hf Hk Hex) as [H1 H2].
  assert (Hin : incl (kr_critical r) (edges g)).
  { destruct (kiter_spec var g N Hwf Hcyc Hni Hids solve arrange Harr fuel Hf) as (K' & cs' & cs1 & Hk' & _).
    rewrite Hk in Hk'. injection Hk' as -> _ _. intros c Hc. apply (solve_critical g Hids solve arrange Harr cs') in Hc. apply Hc. }
  assert (A : forall s, schedule_valid g s -> valid_along g (kr_critical r) s) by (intros s [V1 V2]; split; auto).
  split; [intros P; destruct (H1 P) as [X Y]; split; [exact X|]|intros P]; intros s omega V; [apply Y, A, V|apply H2; [exact P|apply A, V]].
Qed.

(** * Theorems *)

(** C31: the update of the periodicity vector never fails, multiplies entries, keeps every
    K a divisor of the cycle count, changes only tasks of the critical circuit, and
    reports exactly whether something changed. *)
Theorem C31_update_vector_invariants : forall g N K cc,
  graph_wf g -> whole_cycles g N -> incl cc (edges g) -> divides_iteration g N K ->
  exists K' changed, update_vector g N K cc = Ok (K', changed) /\ divides_iteration g N K' /\
    (forall i, (K i | K' i)) /\ (forall i, ~ on_circuit cc i -> K' i = K i) /\
    (forall G i, is_cycle_gcd g N cc G -> on_circuit cc i -> K' i = Z.lcm (K i) (cycles g N i / G)) /\
    (changed = false <-> forall i, K' i = K i).
Proof. exact update_vector_full. Qed.
Print Assumptions C31_update_vector_invariants.

(** C31: the iteration order of the critical channels does not matter. *)
Theorem C31_update_vector_order : forall g N K cc1 cc2,
  graph_wf g -> whole_cycles g N -> incl cc1 (edges g) -> divides_iteration g N K ->
  (forall c, In c cc1 <-> In c cc2) ->
  exists K1 K2 b, update_vector g N K cc1 = Ok (K1, b) /\ update_vector g N K cc2 = Ok (K2, b) /\ forall i, K1 i = K2 i.
Proof.
  intros g N K cc1 cc2 Hwf Hcyc Hi HK Hsame.
  destruct (update_vector_full g N K cc1 Hwf Hcyc Hi HK) as (K1 & b1 & E1 & _ & _ & A1 & B1 & C1).
  destruct (update_vector_full g N K cc2 Hwf Hcyc) as (K2 & b2 & E2 & _ & _ & A2 & B2 & C2); [|exact HK|].
  { intros c Hc. apply Hi, Hsame, Hc. }
  assert (Hon : forall i, on_circuit cc1 i <-> on_circuit cc2 i).
  { intros i. split; intros (c & Hc & E); exists c; (split; [apply Hsame; exact Hc|exact E]). }
  assert (HKK : forall i, K1 i = K2 i).
  { intros i. destruct (on_circuit_dec cc1 i) as [H|H].
    - pose proof (is_cycle_gcd_list g N cc1) as HG. set (G := gcd_list g N cc1 0) in *. rewrite (B1 G i HG H). symmetry. apply B2; [|apply Hon; exact H].
      destruct HG as (G0 & G1 & G2). split; [exact G0|]. split.
      + intros k Hk. apply G1, Hon, Hk.
      + intros d Hd. apply G2. intros k Hk. apply Hd, Hon, Hk.
    - rewrite A1 by exact H. symmetry. apply A2. intros H'. apply H, Hon, H'. }
  assert (Hb : b1 = b2).
  { destruct b1, b2; try reflexivity.
    - exfalso. assert (true = false); [|discriminate]. apply C1. intros i. rewrite HKK. apply (proj1 C2 eq_refl).
    - exfalso. assert (true = false); [|discriminate]. apply C2. intros i. rewrite <- HKK. apply (proj1 C1 eq_refl). }
  subst b2. exists K1, K2, b1. auto.
Qed.
Print Assumptions C31_update_vector_order.

(** C32: whatever the cycle-ratio solver answers (even wrong circuits) and in whatever
    order the critical set is traversed, the iteration stops within one round per cycle
    of an iteration, with a vector dividing the repetition vector. *)
Theorem C32_kiter_terminates : forall solve arrange var g N fuel,
  (forall l, Permutation (arrange l) l) ->
  graph_wf g -> no_init g -> whole_cycles g N -> edge_ids_ok g ->
  (S (Z.to_nat (sumf (cycles g N) (length (vertices g)))) <= fuel)%nat ->
  exists r K cs, kiter solve arrange fuel var g N = Ok (r, K, cs) /\ divides_iteration g N K /\
    r = solve_graph solve arrange g cs /\
    exists cs1, generate_event_graph var g N K = Ok cs1 /\ forall x, In x cs <-> In x cs1.
Proof.
  intros solve arrange var g N fuel Harr Hwf Hni Hcyc Hids Hf.
  destruct (kiter_spec var g N Hwf Hcyc Hni Hids solve arrange Harr fuel Hf) as (K' & cs' & cs1 & Hk' & HK & Hg & Hcs & _).
  exists (solve_graph solve arrange g cs'), K', cs'. split; [exact Hk'|].
  split; [apply (divides_iteration_kdiv g N Hwf Hcyc); exact HK|]. split; [reflexivity|]. exists cs1. auto.
Qed.
Print Assumptions C32_kiter_terminates.

(** C34 *)
Theorem C34_sameset_exact : forall l1 l2, NoDup (map e_id l1) -> NoDup (map e_id l2) ->
  (sameset l1 l2 = true <-> forall id, In id (map e_id l1) <-> In id (map e_id l2)).
Proof. exact sameset_spec. Qed.
Print Assumptions C34_sameset_exact.

(** C35: the incremental update yields the constraints of a generation from scratch; it
    gives up (NULL) exactly when the vector would not change. *)
Theorem C35_update_is_regeneration : forall var g N K cc cs0 cs,
  graph_wf g -> whole_cycles g N -> no_init g -> edge_ids_ok g -> incl cc (edges g) -> divides_iteration g N K ->
  generate_event_graph var g N K = Ok cs0 -> (forall x, In x cs <-> In x cs0) ->
  (exists K', update_vector g N K cc = Ok (K', false) /\ update_event_graph var g N K cc cs = Ok None) \/
  (exists K' cs' cs1, update_vector g N K cc = Ok (K', true) /\ update_event_graph var g N K cc cs = Ok (Some (cs', K')) /\
     generate_event_graph var g N K' = Ok cs1 /\ forall x, In x cs' <-> In x cs1).
Proof.
  intros var g N K cc cs0 cs Hwf Hcyc Hni Hids Hi HK Hg Hcs.
  pose proof (proj1 (divides_iteration_kdiv g N Hwf Hcyc K) HK) as HKd.
  destruct (update_regenerates var g N Hwf Hcyc Hni Hids K cc cs0 cs Hi HKd Hg Hcs) as (r & Hr & Hspec).
  destruct (update_vector_full g N K cc Hwf Hcyc Hi HK) as (K' & b & E & _).
  rewrite Hr. unfold update_event_graph in Hr. rewrite E in Hr. cbn [bind fst snd] in Hr. destruct b.
  - right. destruct r as [[cs' K2]|].
    + destruct Hspec as (_ & _ & _ & _ & cs1 & Hg1 & Hcs1).
      assert (K2 = K').
      { destruct (remove_step g N K K' cc cs); cbn [bind] in Hr; try discriminate.
        destruct (loops_step g N K K' cc); cbn [bind] in Hr; try discriminate.
        destruct (channels_step var g N K K' cc); cbn [bind] in Hr; try discriminate. congruence. }
      subst K2. exists K', cs', cs1. auto.
    + destruct (remove_step g N K K' cc cs); cbn [bind] in Hr; try discriminate.
      destruct (loops_step g N K K' cc); cbn [bind] in Hr; try discriminate.
      destruct (channels_step var g N K K' cc); cbn [bind] in Hr; discriminate.
  - left. injection Hr as <-. exists K'. auto.
Qed.
Print Assumptions C35_update_is_regeneration.

(** C55: if the solver's answer on the last event graph is exact, the throughput K-Iter
    reports is the maximum one: a positive throughput is reached by a valid K-periodic
    schedule, and no valid schedule of any kind has a smaller average iteration time; a
    non-positive one means that no valid schedule keeps any pace. *)
Theorem C55_kiter_optimal : forall solve arrange var g N fuel r K cs, (forall l, Permutation (arrange l) l) ->
  graph_wf g -> balanced g N -> no_init g -> no_overlap g -> whole_cycles g N -> edge_ids_ok g ->
  (S (Z.to_nat (sumf (cycles g N) (length (vertices g)))) <= fuel)%nat ->
  kiter solve arrange fuel var g N = Ok (r, K, cs) -> exact_answer cs (solve cs) ->
  ((0 < kr_throughput r)%Q ->
     (exists s, periodic_schedule g N K (/ kr_throughput r) s /\ schedule_valid g s /\ keeps_pace g N s (/ kr_throughput r)) /\
     (forall s omega, schedule_valid g s -> non_zeno g s -> keeps_pace g N s omega -> (/ kr_throughput r <= omega)%Q)) /\
  ((kr_throughput r <= 0)%Q -> forall s omega, schedule_valid g s -> non_zeno g s -> ~ keeps_pace g N s omega).
Proof. exact kiter_optimal. Qed.
Print Assumptions C55_kiter_optimal.

(** * The example graph meets the hypotheses; K-Iter goes from period 9 (K = 1) to 6. *)
Example ex_whole_cycles : whole_cycles ex_graph ex_N.
Proof.
  intros [|[|[|i]]] v E; try discriminate; injection E as <-; (split; [reflexivity|]); [exists 2|exists 3]; reflexivity.
Qed.
Example ex_edge_ids : edge_ids_ok ex_graph.
Proof. split; [repeat constructor; cbn; intuition discriminate|]. intros c [<-|[<-|[]]]; reflexivity. Qed.
Definition ex_solve (cs : list constraint) : Q * list constraint :=
  if (length cs =? 7)%nat then ((1 # 9)%Q, firstn 1 (skipn 4 cs) ++ skipn 6 cs) else ((1 # 6)%Q, firstn 4 cs).
Definition ex_run := kiter ex_solve (fun l => l) 6 StronglyOptimized ex_graph ex_N.
Example ex_kiter : exists r K cs, ex_run = Ok (r, K, cs) /\ kr_throughput r = (1 # 6)%Q /\ K 0%nat = 2 /\ K 1%nat = 3 /\
  exact_answer cs (ex_solve cs).
Proof.
  destruct (C32_kiter_terminates ex_solve (fun l => l) StronglyOptimized ex_graph ex_N 6
    (fun l => Permutation_refl l) ex_wf ex_no_init ex_whole_cycles ex_edge_ids ltac:(vm_compute; lia)) as (r & K & cs & Hrun & HK & Hr & cs1 & Hg & Hcs).
  fold ex_run in Hrun. exists r, K, cs. split; [exact Hrun|].
  assert (HKv : K 0%nat = 2 /\ K 1%nat = 3).
  { assert (E : match ex_run with Ok (_, K, _) => (K 0%nat =? 2) && (K 1%nat =? 3) | _ => false end = true) by (vm_compute; reflexivity).
    rewrite Hrun in E. apply andb_true_iff in E as [E1 E2]. apply Z.eqb_eq in E1, E2. auto. }
  assert (Hth : match ex_run with Ok (_, _, cs) => fst (ex_solve cs) = (1 # 6)%Q /\ (0 < sumQ c_d (snd (ex_solve cs)))%Q /\
     ((1 # 6) * sumQ c_d (snd (ex_solve cs)) == sumQ c_w (snd (ex_solve cs)))%Q /\
     snd (ex_solve cs) <> [] /\ path (mkEvent 1 1 1) (snd (ex_solve cs)) (mkEvent 1 1 1) /\ snd (ex_solve cs) = firstn 4 cs | _ => False end).
  { vm_compute. repeat split; try reflexivity. discriminate. }
  rewrite Hrun in Hth. destruct Hth as (T1 & T2 & T3 & T4 & T5 & T6).
  split; [subst r; exact T1|]. split; [apply HKv|]. split; [apply HKv|].
  split; [|split; [exact T2|split; [rewrite T1; exact T3|]]].
  - split; [exact T4|]. split; [|exists (mkEvent 1 1 1); exact T5]. rewrite T6. intros x Hx.
    rewrite <- (firstn_skipn 4 cs). apply in_or_app. auto.
  - intros l (L1 & L2 & L3). rewrite T1.
    assert (Hfit : circuits_fit cs1 6).
    { destruct ex_positive as (HN & HKp & _).
      assert (HK' : forall i, (i < length (vertices ex_graph))%nat -> K i = ex_K i).
      { intros [|[|i]] Hi; [apply HKv|apply HKv|cbn in Hi; lia]. }
      assert (Hpk : positive_on ex_graph K) by (intros i Hi; rewrite HK' by exact Hi; apply HKp; exact Hi).
      apply (C28_feasible_iff_circuits_fit StronglyOptimized ex_graph ex_N K 6 cs1 ex_wf ex_balanced ex_no_init ex_no_overlap HN Hpk); [unfold Qle; cbn; lia|exact Hg|].
      destruct ex_valid_schedule as (s & Hs & Hv). exists s. split; [|exact Hv].
      intros i v m E. rewrite HK' by (eapply vertex_lt; exact E). apply (Hs i v m E). }
    specialize (Hfit l). assert (circuit cs1 l) as Hc.
    { split; [exact L1|]. split; [|exact L3]. intros x Hx. apply Hcs, L2, Hx. }
    specialize (Hfit Hc). lra.
Qed.
