(** Critical channels hold few tokens; the marking loop ends; exact solvers exist. *)
From Coq Require Import QArith Permutation Lqa.
From Verif Require Import Base Fraction Commons CommonsProofs Graph ScheduleSpec ScheduleCore KPeriodic KPeriodicProofs KPeriodicChannel KPeriodicSelfloop KPeriodicGraph KPeriodicEnd KPeriodicProps EventGraph EventGraphSpec EventGraphProofs
  KIter KIterSpec KIterProofs KIterLoop KIterProps RepVec RepVecSpec RepVecProofs RepVecProps SimSpec Howard HowardProofs HowardTotal HowardFinal HowardKIter SymbExecSpec LiveProofs LiveProps RandomGen RandomGenSpec RandomGenProofs RandomGenMarking.
Open Scope Z_scope.

(** ** Circuits through a constraint *)
Lemma sumQ_split f l1 l2 : (sumQ f (l1 ++ l2) == sumQ f l1 + sumQ f l2)%Q.
Proof. unfold sumQ. induction l1 as [|c l1 IH]; cbn [app fold_right]; [ring|]. rewrite IH. ring. Qed.
Lemma sumQ_one f c l : (sumQ f (c :: l) == f c + sumQ f l)%Q.
Proof. unfold sumQ. cbn [fold_right]. ring. Qed.

(** A circuit that meets a source twice is two shorter ones. *)
Lemma cut_circuit cs l1 c l2 c' l3 : circuit cs (l1 ++ c :: l2 ++ c' :: l3) -> c_source c = c_source c' ->
  circuit cs (c :: l2) /\ circuit cs (l1 ++ c' :: l3).
Proof.
  intros (_ & I & u & P) E. apply path_split in P. destruct P as (w & P1 & P). change (c :: l2 ++ c' :: l3) with ((c :: l2) ++ c' :: l3) in P.
  apply path_split in P. destruct P as (x & P2 & P3). pose proof (proj1 P3) as Ex. pose proof (proj1 P2) as Ew. cbn in Ex, Ew. assert (Exw : x = w) by congruence. clear Ex Ew. subst x. split.
  - split; [discriminate|]. split; [|exists w; exact P2]. intros y Hy. apply I, in_app_iff. right. apply in_app_iff with (l := c :: l2). auto.
  - split; [destruct l1; discriminate|]. split.
    + intros y Hy. apply I. apply in_app_iff in Hy. apply in_app_iff. destruct Hy as [Hy|Hy]; [auto|]. right. apply in_app_iff with (l := c :: l2). auto.
    + exists u. revert P1 P3. clear. generalize u at 1 3. intros u0. revert u0. induction l1 as [|y l1 IH]; cbn [app path]; intros u0; [intros <-; auto|]. intros [A B] H. split; [exact A|]. apply (IH _ B H).
Qed.
Lemma cut_sum (f : constraint -> Q) l1 c l2 c' l3 : (sumQ f (l1 ++ c :: l2 ++ c' :: l3) == sumQ f (c :: l2) + sumQ f (l1 ++ c' :: l3))%Q.
Proof. change (c :: l2 ++ c' :: l3) with ((c :: l2) ++ c' :: l3). rewrite !sumQ_split. ring. Qed.

Lemma simple_through cs th : (forall l, circuit cs l -> (th * sumQ c_d l <= sumQ c_w l)%Q) ->
  forall l x, circuit cs l -> In x l -> (th * sumQ c_d l == sumQ c_w l)%Q ->
  exists l', circuit cs l' /\ In x l' /\ NoDup (map c_source l') /\ (th * sumQ c_d l' == sumQ c_w l')%Q.
Proof.
  intros Min l. remember (length l) as n eqn:En. revert l En. induction n as [n IH] using lt_wf_ind. intros l En x C I E.
  destruct (dup_split l) as [N|(l1 & c & l2 & c' & l3 & -> & Es)]; [exists l; auto|].
  destruct (cut_circuit _ _ _ _ _ _ C Es) as [C1 C2]. pose proof (Min _ C1) as M1. pose proof (Min _ C2) as M2. rewrite !cut_sum in E.
  assert (E1 : (th * sumQ c_d (c :: l2) == sumQ c_w (c :: l2))%Q) by lra. assert (E2 : (th * sumQ c_d (l1 ++ c' :: l3) == sumQ c_w (l1 ++ c' :: l3))%Q) by lra.
  rewrite app_length in En. cbn [length] in En. rewrite app_length in En. cbn [length] in En.
  assert (D : In x (c :: l2) \/ In x (l1 ++ c' :: l3)).
  { apply in_app_iff in I. destruct I as [I|I]; [right; apply in_app_iff; auto|]. change (c :: l2 ++ c' :: l3) with ((c :: l2) ++ c' :: l3) in I. apply in_app_iff in I. destruct I as [I|I]; [auto|]. right. apply in_app_iff. auto. }
  destruct D as [D|D]; [refine (IH _ _ _ eq_refl x C1 D E1)|refine (IH _ _ _ eq_refl x C2 D E2)]; rewrite ?app_length; cbn [length]; lia.
Qed.

(** A bound met by the simple circuits is met by all. *)
Lemma all_circuits cs th : (forall l, circuit cs l -> NoDup l -> (th * sumQ c_d l <= sumQ c_w l)%Q) -> forall l, circuit cs l -> (th * sumQ c_d l <= sumQ c_w l)%Q.
Proof.
  intros Min l. remember (length l) as n eqn:En. revert l En. induction n as [n IH] using lt_wf_ind. intros l En C.
  destruct (dup_split l) as [N|(l1 & c & l2 & c' & l3 & -> & Es)]; [apply Min; [exact C|]; apply NoDup_map_inv with (f := c_source); exact N|].
  destruct (cut_circuit _ _ _ _ _ _ C Es) as [C1 C2]. rewrite app_length in En. cbn [length] in En. rewrite app_length in En. cbn [length] in En.
  assert (M1 : (th * sumQ c_d (c :: l2) <= sumQ c_w (c :: l2))%Q) by (refine (IH _ _ _ eq_refl C1); cbn [length]; lia).
  assert (M2 : (th * sumQ c_d (l1 ++ c' :: l3) <= sumQ c_w (l1 ++ c' :: l3))%Q) by (refine (IH _ _ _ eq_refl C2); rewrite app_length; cbn [length]; lia). rewrite !cut_sum. lra.
Qed.

Lemma sum_low l x : (forall y, In y l -> -(1) <= c_w y)%Q -> In x l -> (c_w x - inject_Z (Z.of_nat (length l) - 1) <= sumQ c_w l)%Q.
Proof.
  intros H. assert (G : forall l, (forall y, In y l -> -(1) <= c_w y)%Q -> (- inject_Z (Z.of_nat (length l)) <= sumQ c_w l)%Q).
  { clear. induction l as [|y l IH]; intros H; [vm_compute; discriminate|]. rewrite sumQ_one. cbn [length]. rewrite Nat2Z.inj_succ. unfold Z.succ. rewrite inject_Z_plus. pose proof (H y (or_introl eq_refl)). pose proof (IH (fun z Hz => H z (or_intror Hz))). change (inject_Z 1) with 1%Q. lra. }
  intros I. apply in_split in I. destruct I as (l1 & l2 & ->). rewrite sumQ_split, sumQ_one. pose proof (G l1 (fun y Hy => H y (proj2 (in_app_iff _ _ _) (or_introl Hy)))) as G1.
  pose proof (G l2 (fun y Hy => H y (in_or_app _ _ _ (or_intror (in_cons x y l2 Hy))))) as G2. rewrite app_length. cbn [length].
  replace (Z.of_nat (length l1 + S (length l2)) - 1) with (Z.of_nat (length l1) + Z.of_nat (length l2)) by lia. rewrite inject_Z_plus. lra.
Qed.

(** ** Critical channels *)
(** Self-loops alone do not close without weight. *)
Lemma self_loops_weigh l u : l <> [] -> path u l u -> (forall x, In x l -> (0 < c_w x)%Q \/ (c_w x == 0)%Q /\ after (c_source x) (c_target x)) -> (sumQ c_w l <= 0)%Q -> False.
Proof.
  intros Nl P W S0.
  assert (G : forall l u v, path u l v -> (forall x, In x l -> (0 < c_w x)%Q \/ (c_w x == 0)%Q /\ after (c_source x) (c_target x)) -> (0 <= sumQ c_w l)%Q /\ ((sumQ c_w l <= 0)%Q -> l <> [] -> after u v)).
  { clear. induction l as [|c l IH]; intros u v; [intros _ _; split; [cbn; lra|congruence]|]. intros [<- P] W. destruct (IH _ _ P (fun x Hx => W x (or_intror Hx))) as [A B].
    pose proof (W c (or_introl eq_refl)) as Wc. rewrite sumQ_one. split; [destruct Wc as [Wc|[Wc _]]; lra|]. intros S0 _. destruct Wc as [Wc|[Wc F]]; [exfalso; lra|].
    destruct l as [|c' l]; [cbn in P; subst v; exact F|]. eapply after_trans; [exact F|]. apply B; [lra|discriminate]. }
  destruct (G l u u P W) as [_ B]. pose proof (B S0 Nl) as F. unfold after in F. lia.
Qed.

Lemma critical_small solve arrange var g N fuel r K cs : (forall l, Permutation (arrange l) l) -> ready g N -> (iteration_bound g N <= fuel)%nat ->
  kiter solve arrange fuel var g N = Ok (r, K, cs) -> exact_answer cs (solve cs) -> (kr_throughput r <= 0)%Q ->
  kr_critical r <> [] /\ forall c, In c (kr_critical r) -> In c (edges g) /\
    exists gc, fine_gcd c = Ok gc /\ 0 < gc <= carried N c /\ e_preload c <= gc + sumf N (length (vertices g)) * carried N c.
Proof.
  intros Ha R Hf Hk X T. pose proof R as [WF B NI NO C ID NE PD]. destruct (kiter_spec var g N WF C NI ID solve arrange Ha fuel Hf) as (K' & cs' & cs1 & Hk' & HK & Hg & Hcs & _).
  rewrite Hk in Hk'. injection Hk' as -> -> ->. destruct X as (Cc & Dp & Eq & Min). cbn [solve_graph kr_throughput] in T.
  pose proof (HN_pos g N C) as HNp. pose proof (kdiv_pos g N K' HK) as HKp.
  assert (CD : forall x, In x cs' -> (0 < c_d x)%Q) by (intros x Ix; apply (constraint_durations var g N K' cs1 cs' WF NI NO PD HNp HKp Hg Hcs x Ix)).
  assert (Kd : forall x, In x cs' -> _) by (exact (weight_kind var g N K' cs1 cs' R HK Hg Hcs)).
  assert (Lo : forall x, In x cs' -> (-(1) <= c_w x)%Q) by (intros x Ix; destruct (Kd x Ix) as [[[P|[P _]] _]|(c & gc & _ & _ & _ & _ & _ & P)]; [| |exact P]; clear - P; lra).
  assert (Wn : (sumQ c_w (snd (solve cs')) <= 0)%Q) by (clear - T Dp Eq; nra).
  set (SC := solve_critical g ID solve arrange Ha cs'). split.
  - (* the circuit goes through some channel: self-loops alone have positive weight *)
    intros Z0. destruct Cc as (Nl & Il & u & P).
    assert (W0 : forall x, In x (snd (solve cs')) -> ((0 < c_w x)%Q \/ (c_w x == 0)%Q /\ after (c_source x) (c_target x))).
    { intros x Ix. destruct (Kd x (Il x Ix)) as [[P0 _]|(c & gc & Ic & Ec & _)]; [exact P0|]. exfalso.
      assert (IC : In c (kr_critical (solve_graph solve arrange g cs'))) by (apply SC; split; [exact Ic|exists x; auto]). rewrite Z0 in IC. exact IC. }
    exact (self_loops_weigh _ u Nl P W0 Wn).
  - intros c Ic. apply SC in Ic. destruct Ic as (Ic & x & Ix & Ex). split; [exact Ic|].
    destruct (simple_through cs' (fst (solve cs')) Min _ x Cc Ix Eq) as (l & Cl & Ixl & ND & El).
    destruct Cl as (Nl & Il & Pl). destruct (Kd x (Il x Ixl)) as [[_ Z0]|(c' & gc & Ic' & Ec' & Fg & Gb & Wx & _)].
    { exfalso. pose proof (proj2 ID c Ic). lia. }
    assert (c' = c) by (apply (edge_id_inj g ID); congruence). subst c'. exists gc. split; [exact Fg|]. split; [exact Gb|].
    assert (Ln : Z.of_nat (length l) <= sumf N (length (vertices g))).
    { etransitivity; [|apply (event_count g N K' R HK)]. apply inj_le. rewrite <- (map_length c_source l). apply NoDup_incl_length; [exact ND|].
      intros e He. apply in_map_iff in He. destruct He as (y & <- & Iy). apply (generated_closed var g N K' WF HNp HKp cs1 Hg y). apply Hcs, Il, Iy. }
    pose proof (sum_low l x (fun y Hy => Lo y (Il y Hy)) Ixl) as SL.
    assert (Dl : (0 <= sumQ c_d l)%Q).
    { clear - Il CD. induction l as [|y l IH]; [cbn; lra|]. rewrite sumQ_one. pose proof (CD y (Il y (or_introl eq_refl))). pose proof (IH (fun z Hz => Il z (or_intror Hz))). lra. }
    assert (W2 : (sumQ c_w l <= 0)%Q) by (clear - T Dl El; nra).
    set (M := carried N c) in *. set (E := sumf N (length (vertices g))) in *. set (n := Z.of_nat (length l)) in *.
    assert (MQ : (0 < inject_Z M)%Q) by (change 0%Q with (inject_Z 0); rewrite <- Zlt_Qlt; lia).
    assert (A : (inject_Z (e_preload c - gc - M) <= inject_Z (n - 1) * inject_Z M)%Q) by (clear - SL W2 Wx MQ; nra).
    rewrite <- inject_Z_mult, <- Zle_Qle in A. assert ((n - 1) * M <= (E - 1) * M) by nia. lia.
Qed.

(** ** The marking loop *)
Lemma exact_on_kiter solve arrange var g N fuel r K cs : (forall l, Permutation (arrange l) l) -> exact_solver solve -> ready g N -> (iteration_bound g N <= fuel)%nat ->
  kiter solve arrange fuel var g N = Ok (r, K, cs) -> exact_answer cs (solve cs).
Proof.
  intros Ha X R Hf Hk. pose proof R as [WF B NI NO C ID NE PD]. destruct (kiter_spec var g N WF C NI ID solve arrange Ha fuel Hf) as (K' & cs' & cs1 & Hk' & HK & Hg & Hcs & _).
  rewrite Hk in Hk'. injection Hk' as -> -> ->. pose proof (HN_pos g N C) as HNp. pose proof (kdiv_pos g N K' HK) as HKp. apply X.
  - intros x Ix. apply (constraint_durations var g N K' cs1 cs' WF NI NO PD HNp HKp Hg Hcs x Ix).
  - destruct (vertices g) as [|v vs] eqn:E; [congruence|]. assert (E0 : nth_error (vertices g) 0 = Some v) by (rewrite E; reflexivity).
    destruct (task_circuit var g N K' cs1 cs' WF NI NO HNp HKp Hg Hcs 0 v E0) as (ch & x & Cc & _). exists (ch ++ [x]). exact Cc.
Qed.

Lemma NoDup_map_eq {A B} (f : A -> B) l x y : NoDup (map f l) -> In x l -> In y l -> f x = f y -> x = y.
Proof.
  induction l as [|a l IH]; intros ND Ix Iy E; [contradiction|]. cbn [map] in ND. inversion ND as [|? ? Na ND']; subst. destruct Ix as [->|Ix], Iy as [->|Iy]; auto.
  - exfalso. apply Na. rewrite E. apply in_map, Iy.
  - exfalso. apply Na. rewrite <- E. apply in_map, Ix.
Qed.

Definition room (g : graph) (N : nat -> Z) (c : edge) : Z := (sumf N (length (vertices g)) + 2) * carried N c.
Definition missing (g : graph) (N : nat -> Z) : Z := sumZ (map (fun c => Z.max 0 (room g N c - e_preload c)) (edges g)).
Definition within (g : graph) (N : nat -> Z) (c c' : edge) : Prop := same_but_tokens c c' /\ e_preload c' <= Z.max (e_preload c) (room g N c).

Lemma set_preload_within g N c n : In c (edges g) -> NoDup (map e_id (edges g)) -> e_preload c <= n <= room g N c -> Forall2 (within g N) (edges g) (edges (set_preload g c n)).
Proof.
  intros I ND Hn. cbn [set_preload edges].
  assert (G : forall l, (forall e, In e l -> In e (edges g)) -> Forall2 (within g N) l (map (fun e => if e_id e =? e_id c then mkEdge (e_id e) (e_src e) (e_dst e) (e_in e) (e_out e) (e_in_init e) (e_out_init e) n else e) l)).
  { induction l as [|e l IH]; intros H; cbn [map]; constructor; [|apply IH; intros; apply H; right; assumption].
    destruct (Z.eqb_spec (e_id e) (e_id c)) as [E|E].
    - assert (e = c) by (apply (NoDup_map_eq e_id (edges g)); [exact ND|apply H; left; reflexivity|exact I|exact E]). subst e. unfold within, same_but_tokens. cbn. intuition lia.
    - unfold within, same_but_tokens. intuition lia. }
  apply G. auto.
Qed.

Lemma within_more g N l l' : Forall2 (within g N) l l' -> Forall2 same_but_tokens l l'.
Proof. induction 1; constructor; [apply H|assumption]. Qed.

Lemma same_carried N c c' : same_but_tokens c c' -> carried N c' = carried N c.
Proof. intros (_ & E2 & _ & E4 & _). unfold carried. rewrite E2, E4. reflexivity. Qed.

Lemma missing_less g N c f : In c (edges g) -> NoDup (map e_id (edges g)) -> 0 < f -> e_preload c + f <= room g N c -> missing (set_preload g c (e_preload c + f)) N < missing g N.
Proof.
  intros I ND Hf Hr. unfold missing. cbn [set_preload edges]. rewrite map_map.
  set (h := fun e => Z.max 0 (room g N e - e_preload e)).
  set (u := fun e => if e_id e =? e_id c then mkEdge (e_id e) (e_src e) (e_dst e) (e_in e) (e_out e) (e_in_init e) (e_out_init e) (e_preload c + f) else e).
  match goal with |- sumZ (map ?q _) < _ => replace (map q (edges g)) with (map (fun e => h (u e)) (edges g)) by (apply map_ext; intros e; reflexivity) end.
  assert (P : forall e, In e (edges g) -> h (u e) <= h e /\ (e = c -> h (u e) < h e)).
  { intros e Ie. unfold u. destruct (Z.eqb_spec (e_id e) (e_id c)) as [E|E].
    - assert (e = c) by (apply (NoDup_map_eq e_id (edges g)); auto). subst e. unfold h, room, carried in *. cbn [e_preload e_in e_src]. lia.
    - split; [lia|]. intros ->. congruence. }
  assert (G : forall l, (forall e, In e l -> In e (edges g)) -> sumZ (map (fun e => h (u e)) l) <= sumZ (map h l) /\ (In c l -> sumZ (map (fun e => h (u e)) l) < sumZ (map h l))).
  { induction l as [|e l IH]; intros H; [split; [cbn; lia|intros []]|]. cbn [map sumZ fold_right]. fold (sumZ (map (fun e => h (u e)) l)). fold (sumZ (map h l)).
    destruct (IH (fun x Hx => H x (or_intror Hx))) as [A B]. destruct (P e (H e (or_introl eq_refl))) as [Q1 Q2]. split; [lia|]. intros [->|X]; [specialize (Q2 eq_refl); lia|specialize (B X); lia]. }
  apply (G (edges g)); auto.
Qed.

Lemma within_trans g g1 N l l1 l2 : vertices g1 = vertices g -> Forall2 (within g N) l l1 -> Forall2 (within g1 N) l1 l2 -> Forall2 (within g N) l l2.
Proof.
  intros V F. revert l2. induction F as [|c c1 l l1 [S1 B1] F IH]; intros l2 F2; inversion F2 as [|? c2 ? l2' [S2 B2] F2']; subst; constructor; [|auto].
  assert (R : room g1 N c1 = room g N c) by (unfold room; rewrite V, (same_carried N c c1 S1); reflexivity). rewrite R in B2. split; [|lia].
  unfold same_but_tokens in *. intuition (try congruence; try lia).
Qed.

(** Some channel could not do with [fine_gcd] tokens fewer. *)
Definition tight (g : graph) (N : nat -> Z) : Prop := exists c f, In c (edges g) /\ fine_gcd c = Ok f /\ 0 < f <= e_preload c /\ ~ live (set_preload g c (e_preload c - f)) N.

Lemma undo g c f : In c (edges g) -> NoDup (map e_id (edges g)) -> exists c1, In c1 (edges (set_preload g c (e_preload c + f))) /\ fine_gcd c1 = fine_gcd c /\ e_preload c1 = e_preload c + f /\
  set_preload (set_preload g c (e_preload c + f)) c1 (e_preload c1 - f) = g.
Proof.
  intros I ND. set (c1 := mkEdge (e_id c) (e_src c) (e_dst c) (e_in c) (e_out c) (e_in_init c) (e_out_init c) (e_preload c + f)). exists c1. split; [|split; [reflexivity|split; [reflexivity|]]].
  - cbn [set_preload edges]. apply in_map_iff. exists c. rewrite Z.eqb_refl. auto.
  - destruct g as [vs es]. unfold set_preload. cbn [vertices edges e_preload e_id c1] in *. f_equal. rewrite map_map. rewrite <- (map_id es) at 2. apply map_ext_in. intros e Ie.
    destruct (Z.eqb_spec (e_id e) (e_id c)) as [E|E]; cbn [e_id].
    + rewrite E, Z.eqb_refl. assert (e = c) by (apply (NoDup_map_eq e_id es); auto). subst e. destruct c; cbn. f_equal. lia.
    + destruct (Z.eqb_spec (e_id e) (e_id c)); [congruence|reflexivity].
Qed.

Section Loop.
Variables (solve : list constraint -> Q * list constraint) (arrange : list edge -> list edge) (rounds : graph -> (nat -> Z) -> nat) (N : list Z).
Hypothesis Ha : forall l, Permutation (arrange l) l.
Hypothesis X : exact_solver solve.
Hypothesis Hr : forall g n, (iteration_bound g n <= rounds g n)%nat.

Lemma marking_ends : forall fuel g, ready g (as_vector N) -> compute_repetition_vector (length (vertices g)) g = Ok (Some N) -> missing g (as_vector N) < Z.of_nat fuel ->
  exists g', set_initial_marking solve arrange rounds fuel g = Ok g' /\ vertices g' = vertices g /\ Forall2 (within g (as_vector N)) (edges g) (edges g') /\ live g' (as_vector N) /\
    (live g (as_vector N) -> g' = g) /\ (g' = g \/ tight g' (as_vector N)).
Proof.
  induction fuel as [|fuel IH]; intros g R RV Hm.
  { exfalso. assert (0 <= missing g (as_vector N)); [|lia]. unfold missing. generalize (edges g) at 1. intros l. induction l as [|e l IHl]; cbn [map sumZ fold_right]; [lia|]. fold (sumZ (map (fun c => Z.max 0 (room g (as_vector N) c - e_preload c)) l)). lia. }
  pose proof R as [WF B NI NO C ID NE PD]. cbn [set_initial_marking]. rewrite RV. cbn [bind]. change (fun i => nth i N 0) with (as_vector N).
  destruct (kiter_spec StronglyOptimized g (as_vector N) WF C NI ID solve arrange Ha _ (Hr g (as_vector N))) as (K' & cs' & cs1 & Hk & _).
  pose proof (exact_on_kiter solve arrange StronglyOptimized g (as_vector N) _ _ _ _ Ha X R (Hr _ _) Hk) as EX.
  pose proof (C101_kiter_decides_liveness solve arrange StronglyOptimized g (as_vector N) _ _ _ _ Ha WF B NI NO C ID NE PD (Hr _ _) Hk EX) as LV.
  pose proof (critical_small solve arrange StronglyOptimized g (as_vector N) _ _ _ _ Ha R (Hr _ _) Hk EX) as CR.
  rewrite Hk. cbn [bind fst snd]. set (r := solve_graph solve arrange g cs') in *. destruct (Qle_bool (kr_throughput r) 0) eqn:T.
  - apply Qle_bool_iff in T. destruct (CR T) as [Ne Sm]. assert (NL : ~ live g (as_vector N)) by (intros L; apply LV in L; lra).
    destruct (kr_critical r) as [|c cl] eqn:Ec; [congruence|]. destruct (Sm c (or_introl eq_refl)) as (Ic & f & Ff & Fp & Fb). rewrite Ff. cbn [bind].
    assert (RM : e_preload c + f <= room g (as_vector N) c) by (unfold room; nia).
    set (g1 := set_preload g c (e_preload c + f)). pose proof (set_preload_within g (as_vector N) c (e_preload c + f) Ic (proj1 ID) ltac:(lia)) as W1. fold g1 in W1.
    assert (M1 : more_tokens g g1) by (split; [reflexivity|apply (within_more g (as_vector N)); exact W1]).
    destruct (IH g1) as (g' & E & V & W & L & Lg & Tg).
    + apply (more_ready g); assumption.
    + rewrite (more_vector g g1 _ M1). exact RV.
    + pose proof (missing_less g (as_vector N) c f Ic (proj1 ID) ltac:(lia) RM). fold g1 in H. lia.
    + exists g'. split; [exact E|]. split; [exact V|]. split; [apply (within_trans g g1 _ _ (edges g1)); [reflexivity|exact W1|exact W]|]. split; [exact L|]. split; [intros L0; contradiction|].
      right. destruct Tg as [->|Tg]; [|exact Tg]. destruct (undo g c f Ic (proj1 ID)) as (c1 & I1 & F1 & P1 & U). fold g1 in I1, U. exists c1, f. split; [exact I1|]. split; [congruence|].
      destruct (proj1 (proj2 WF) c Ic) as (? & ? & Hw). split; [rewrite P1; unfold edge_wf in Hw; intuition lia|]. rewrite U. exact NL.
  - exists g. assert (L : live g (as_vector N)). { apply LV. destruct (Qlt_le_dec 0 (kr_throughput r)) as [P|P]; [exact P|]. apply Qle_bool_iff in P. congruence. }
    split; [reflexivity|]. split; [reflexivity|]. split; [|auto]. generalize (edges g) at 1 2. intros l. induction l; constructor; auto. unfold within, same_but_tokens. intuition lia.
Qed.
End Loop.

(** ** An exact solver: try every simple circuit *)
Fixpoint words (cs : list constraint) (n : nat) : list (list constraint) :=
  match n with O => [[]] | S n' => [] :: flat_map (fun c => map (cons c) (words cs n')) cs end.
Fixpoint path_b (u : event) (l : list constraint) (v : event) : bool :=
  match l with [] => event_eqb u v | c :: l' => event_eqb (c_source c) u && path_b (c_target c) l' v end.
Definition circuit_b (l : list constraint) : bool := match l with [] => false | c :: _ => path_b (c_source c) l (c_source c) end.
Definition ratio_of (l : list constraint) : Q := (sumQ c_w l / sumQ c_d l)%Q.
Fixpoint least (ls : list (list constraint)) : option (list constraint) :=
  match ls with
  | [] => None
  | l :: ls' => match least ls' with None => Some l | Some b => if Qle_bool (ratio_of l) (ratio_of b) then Some l else Some b end
  end.
Definition try_all (cs : list constraint) : Q * list constraint :=
  match least (filter circuit_b (words cs (length cs))) with Some l => (ratio_of l, l) | None => (0%Q, []) end.

Lemma event_eqb_iff a b : event_eqb a b = true <-> a = b.
Proof.
  unfold event_eqb. rewrite !andb_true_iff, !Z.eqb_eq. destruct a, b; cbn. split; [intros [[-> ->] ->]; reflexivity|intros E; injection E as -> -> ->; auto].
Qed.
Lemma path_b_iff l : forall u v, path_b u l v = true <-> path u l v.
Proof. induction l as [|c l IH]; intros u v; cbn [path_b path]; [apply event_eqb_iff|]. rewrite andb_true_iff, event_eqb_iff, IH. intuition. Qed.
Lemma words_in cs n l : In l (words cs n) <-> incl l cs /\ (length l <= n)%nat.
Proof.
  revert l. induction n as [|n IH]; intros l; cbn [words].
  - cbn. split; [intros [<-|[]]; split; [intros x []|auto]|]. intros [_ L]. left. destruct l; [reflexivity|cbn in L; lia].
  - cbn [In]. rewrite in_flat_map. split.
    + intros [<-|(c & Ic & I)]; [split; [intros x []|cbn; lia]|]. apply in_map_iff in I. destruct I as (l' & <- & I). apply IH in I. destruct I as [I L]. split; [|cbn; lia]. intros x [<-|Hx]; auto.
    + intros [I L]. destruct l as [|c l]; [auto|]. right. exists c. split; [apply I; left; reflexivity|]. apply in_map, IH. split; [intros x Hx; apply I; right; exact Hx|cbn in L; lia].
Qed.
Lemma least_spec ls : match least ls with None => ls = [] | Some b => In b ls /\ forall l, In l ls -> (ratio_of b <= ratio_of l)%Q end.
Proof.
  induction ls as [|l ls IH]; cbn [least]; [reflexivity|]. destruct (least ls) as [b|]; [|subst ls; split; [left; reflexivity|]; intros x [<-|[]]; apply Qle_refl].
  destruct IH as [Ib Mb]. destruct (Qle_bool (ratio_of l) (ratio_of b)) eqn:E.
  - apply Qle_bool_iff in E. split; [left; reflexivity|]. intros x [<-|Hx]; [apply Qle_refl|]. apply (Qle_trans _ _ _ E), Mb, Hx.
  - split; [right; exact Ib|]. intros x [<-|Hx]; [|apply Mb, Hx]. apply Qlt_le_weak, Qnot_le_lt. intros L. apply Qle_bool_iff in L. congruence.
Qed.
Lemma circuit_b_iff cs l : (circuit_b l = true /\ incl l cs) <-> circuit cs l.
Proof.
  split.
  - intros [E I]. destruct l as [|c l]; [discriminate|]. split; [discriminate|]. split; [exact I|]. exists (c_source c). apply path_b_iff, E.
  - intros (Nl & I & u & P). split; [|exact I]. destruct l as [|c l]; [congruence|]. cbn [circuit_b]. pose proof P as [<- _]. apply path_b_iff, P.
Qed.

Lemma try_all_exact : exact_solver try_all.
Proof.
  intros cs D (l0 & C0).
  assert (DP : forall l, circuit cs l -> (0 < sumQ c_d l)%Q).
  { intros l (Nl & I & _). clear - D Nl I. destruct l as [|c l]; [congruence|]. clear Nl. assert (G : (0 <= sumQ c_d l)%Q).
    { assert (I' : incl l cs) by (intros x Hx; apply I; right; exact Hx). clear I. induction l as [|y l IH]; [vm_compute; discriminate|]. rewrite sumQ_one. pose proof (D y (I' y (or_introl eq_refl))). pose proof (IH (fun z Hz => I' z (or_intror Hz))). lra. }
    rewrite sumQ_one. pose proof (D c (I c (or_introl eq_refl))). lra. }
  assert (W : forall l, circuit cs l -> NoDup l -> In l (filter circuit_b (words cs (length cs)))).
  { intros l C N. apply circuit_b_iff in C. destruct C as [C I]. apply filter_In. split; [|exact C]. apply words_in. split; [exact I|]. apply NoDup_incl_length; assumption. }
  assert (Some_simple : exists l, circuit cs l /\ NoDup l).
  { clear - C0. remember (length l0) as n eqn:En. revert l0 C0 En. induction n as [n IH] using lt_wf_ind. intros l C En. destruct (dup_split l) as [N|(l1 & c & l2 & c' & l3 & -> & Es)].
    - exists l. split; [exact C|]. apply NoDup_map_inv with (f := c_source). exact N.
    - destruct (cut_circuit _ _ _ _ _ _ C Es) as [C1 _]. refine (IH _ _ _ C1 eq_refl). rewrite En, app_length. cbn [length]. rewrite app_length. cbn [length]. lia. }
  destruct Some_simple as (l1 & C1 & N1). pose proof (least_spec (filter circuit_b (words cs (length cs)))) as LS. unfold try_all.
  destruct (least (filter circuit_b (words cs (length cs)))) as [b|]; [|pose proof (W _ C1 N1) as I; rewrite LS in I; contradiction].
  destruct LS as [Ib Mb]. apply filter_In in Ib. destruct Ib as [Iw Cb]. apply words_in in Iw. assert (Cc : circuit cs b) by (apply circuit_b_iff; split; [exact Cb|apply Iw]).
  pose proof (DP b Cc) as Db. unfold exact_answer. cbn [fst snd]. split; [exact Cc|]. split; [exact Db|]. split; [unfold ratio_of; field; lra|].
  apply all_circuits. intros l Cl Nl. pose proof (DP l Cl) as Dl. pose proof (Mb l (W l Cl Nl)) as M. setoid_replace (sumQ c_w l) with (ratio_of l * sumQ c_d l)%Q by (unfold ratio_of; field; lra).
  apply Qmult_le_compat_r; [exact M|]. apply Qlt_le_weak, Dl.
Qed.

(** ** The theorems *)
Lemma fuel_more solve arrange rounds : forall f f' g g', (f <= f')%nat -> set_initial_marking solve arrange rounds f g = Ok g' -> set_initial_marking solve arrange rounds f' g = Ok g'.
Proof.
  induction f as [|f IH]; intros f' g g' L; cbn [set_initial_marking]; [discriminate|]. destruct f' as [|f']; [lia|]. cbn [set_initial_marking].
  destruct (compute_repetition_vector (length (vertices g)) g) as [[M|]| | |]; cbn [bind]; try discriminate.
  destruct (kiter solve arrange (rounds g (fun i => nth i M 0)) StronglyOptimized g (fun i => nth i M 0)) as [k| | |]; cbn [bind]; try discriminate.
  destruct (Qle_bool (kr_throughput (fst (fst k))) 0); [|auto]. destruct (kr_critical (fst (fst k))) as [|c l]; [discriminate|]. destruct (fine_gcd c); cbn [bind]; try discriminate. apply IH. lia.
Qed.

Lemma marking_thm : forall solve arrange rounds g N, (forall l, Permutation (arrange l) l) -> exact_solver solve ->
  (forall g' n, (S (Z.to_nat (sumf (cycles g' n) (length (vertices g')))) <= rounds g' n)%nat) ->
  graph_wf g -> no_init g -> no_overlap g -> no_lonely_phases g -> edge_ids_ok g -> vertices g <> [] -> positive_durations g ->
  compute_repetition_vector (length (vertices g)) g = Ok (Some N) ->
  exists g' enough, (forall fuel, (enough <= fuel)%nat -> set_initial_marking solve arrange rounds fuel g = Ok g') /\
    more_tokens g g' /\ live g' (as_vector N) /\ (live g (as_vector N) -> g' = g) /\
    (forall c', In c' (edges g') -> exists c, In c (edges g) /\ e_id c = e_id c' /\ e_preload c' <= token_bound g (as_vector N) c) /\
    (g' = g \/ exists c f, In c (edges g') /\ fine_gcd c = Ok f /\ 0 < f <= e_preload c /\ ~ live (set_preload g' c (e_preload c - f)) (as_vector N)).
Proof.
  intros solve arrange rounds g N Ha X Hr WF NI NO NL ID NE PD RV. destruct (rv_for_scheduling g _ N WF NE (le_n _) NL RV) as [B C].
  assert (R : ready g (as_vector N)) by (constructor; assumption).
  destruct (marking_ends solve arrange rounds N Ha X Hr (S (Z.to_nat (missing g (as_vector N)))) g R RV ltac:(lia)) as (g' & E & V & W & L & Lg & T).
  exists g', (S (Z.to_nat (missing g (as_vector N)))). split; [intros f Hf; exact (fuel_more _ _ _ _ f g g' Hf E)|]. split; [split; [exact V|exact (within_more _ _ _ _ W)]|].
  split; [exact L|]. split; [exact Lg|]. split; [|exact T]. intros c' I. destruct (Forall2_left _ _ _ _ W I) as (c & Ic & S1 & Bd). exists c. split; [exact Ic|]. split; [symmetry; apply S1|].
  unfold token_bound. fold (room g (as_vector N) c). pose proof (proj1 (proj2 WF) c Ic) as (vs & vd & V1 & Hw). assert (0 <= e_preload c) by (unfold edge_wf in Hw; intuition lia).
  destruct (carried_spec g (as_vector N) c vs R Ic V1) as (_ & _ & C3). assert (0 <= room g (as_vector N) c); [|lia]. unfold room.
  assert (0 <= sumf (as_vector N) (length (vertices g))); [|nia]. pose proof (HN_pos g (as_vector N) C) as HP. clear - HP. unfold positive_on in HP. revert HP. generalize (length (vertices g)). intros m. induction m as [|n IH]; intros HP; [cbn; lia|]. cbn [sumf]. pose proof (HP n ltac:(lia)). assert (0 <= sumf (as_vector N) n) by (apply IH; intros i Hi; apply HP; lia). lia.
Qed.

Lemma redraw_more rnd : forall f f' n s d p x, (f <= f')%nat -> redraw rnd f n s d p = Ok x -> redraw rnd f' n s d p = Ok x.
Proof.
  induction f as [|f IH]; intros f' n s d p x L; destruct f' as [|f']; try lia; cbn [redraw]; destruct (s =? d); try discriminate; auto.
  destruct (pick rnd 1 n p); cbn [bind]; try discriminate. apply IH. lia.
Qed.
Lemma channel_more rnd f f' cf vs ws i p x : (f <= f')%nat -> new_channel rnd f cf vs ws i p = Ok x -> new_channel rnd f' cf vs ws i p = Ok x.
Proof.
  intros L. unfold new_channel. destruct (pick rnd 1 (Z.of_nat (length vs)) p) as [s| | |]; cbn [bind]; try discriminate. destruct (pick rnd 1 (Z.of_nat (length vs)) (snd s)) as [d0| | |]; cbn [bind]; try discriminate.
  destruct (cassert _); cbn [bind]; try discriminate. destruct (cf_no_self_loop cf); [|auto].
  destruct (redraw rnd f (Z.of_nat (length vs)) (fst s) (fst d0) (snd d0)) as [d| | |] eqn:E; cbn [bind]; try discriminate. rewrite (redraw_more rnd f f' _ _ _ _ _ L E). cbn [bind]. auto.
Qed.
Lemma channels_more rnd f f' cf vs ws : (f <= f')%nat -> forall m i p x, new_channels rnd f cf vs ws m i p = Ok x -> new_channels rnd f' cf vs ws m i p = Ok x.
Proof.
  intros L. induction m as [|m IH]; intros i p x; cbn [new_channels]; [auto|]. destruct (new_channel rnd f cf vs ws i p) as [c| | |] eqn:E; cbn [bind]; try discriminate. rewrite (channel_more rnd f f' _ _ _ _ _ _ L E). cbn [bind].
  destruct (new_channels rnd f cf vs ws m (i + 1) (snd c)) as [l| | |] eqn:E2; cbn [bind]; try discriminate. rewrite (IH _ _ _ E2). auto.
Qed.
Lemma structure_more rnd f f' cf g : (f <= f')%nat -> random_structure rnd f cf = Ok g -> random_structure rnd f' cf = Ok g.
Proof.
  intros L. unfold random_structure. do 6 (destruct (cassert _); cbn [bind]; try discriminate). destruct (pick rnd (cf_min_vertices cf) (cf_max_vertices cf) 0) as [nv| | |]; cbn [bind]; try discriminate.
  destruct (pick rnd (cf_min_edges cf) (cf_max_edges cf) (snd nv)) as [ne| | |]; cbn [bind]; try discriminate. destruct ((fst nv <? 1) || (fst ne <? 1)); try discriminate.
  destruct (new_tasks rnd cf (Z.to_nat (fst nv)) 1 (snd ne)) as [ts| | |]; cbn [bind]; try discriminate.
  destruct (new_channels rnd f cf (fst (fst ts)) (snd (fst ts)) (Z.to_nat (fst ne)) 1 (snd ts)) as [cs| | |] eqn:E; cbn [bind]; try discriminate. rewrite (channels_more rnd f f' _ _ _ L _ _ _ _ E). auto.
Qed.

Lemma generated_thm : forall solve arrange rounds rnd fuel0 cf g0, (forall l, Permutation (arrange l) l) -> exact_solver solve ->
  (forall g' n, (S (Z.to_nat (sumf (cycles g' n) (length (vertices g')))) <= rounds g' n)%nat) ->
  cf_max_phases cf = 1 -> cf_max_init_phases cf = 0 -> cf_no_reentrancy cf = false -> random_structure rnd fuel0 cf = Ok g0 ->
  exists g N enough, (forall fuel, (enough <= fuel)%nat -> generate solve arrange rounds rnd fuel cf = Ok g) /\ more_tokens g0 g /\
    compute_repetition_vector (length (vertices g)) g = Ok (Some N) /\ live g (as_vector N).
Proof.
  intros solve arrange rounds rnd fuel0 cf g0 Ha X Hr P1 P2 P3 RS. pose proof (structure_wf _ _ _ _ RS) as WF. destruct (structure_consistent _ _ _ _ RS) as (N & RV).
  destruct (structure_parts _ _ _ _ RS) as (ws & _ & _ & _ & (_ & _ & NV & NEd & FV & FE) & _).
  destruct (marking_thm solve arrange rounds g0 N Ha X Hr WF) as (g & n & E & M & L & _); auto.
  - intros v I. destruct (FV v I) as (_ & Q & _). lia.
  - intros v I. destruct (FV v I) as (_ & _ & _ & _ & _ & Q). rewrite Q, P3. lia.
  - intros i v I. right. destruct (FV v (nth_error_In _ _ I)) as (Q & _). lia.
  - split; [apply numbered_nodup, NEd|]. intros c I. apply (numbered_pos (map e_id (edges g0))); [exact NEd|]. apply in_map, I.
  - exact (structure_nonempty _ _ _ _ RS).
  - intros v d Iv Id. destruct (FV v Iv) as (_ & _ & _ & _ & D & _). destruct (D d) as (z & -> & Hz); [apply in_app_iff; auto|]. change 0%Q with (inject_Z 0). rewrite <- Zlt_Qlt. lia.
  - exists g, N, (max fuel0 n). split; [|split; [exact M|split; [|exact L]]].
    + intros f Hf. unfold generate. rewrite (structure_more rnd fuel0 f cf g0 ltac:(lia) RS). cbn [bind]. apply E. lia.
    + rewrite (more_vector g0 g _ M). rewrite (proj1 M). exact RV.
Qed.
