(** C131-C133: the placement of the tasks on the cores of the network. *)
From Coq Require Import QArith ZifyBool ZifyNat.
From Verif Require Import Base Noc NocSpec NocProofs NocProps NocPath NocPathSpec NocPathProofs NocPathMesh NocPathProps Mapper MapperSpec MapperProofs.
Open Scope nat_scope.

(** ** C131 *)
(** Whatever the graphs and the order in which tasks leave the queue, the placement ends: each turn takes a
    core, and there are only so many. *)
Theorem C131_ends : forall xs ys n pick d to start, (0 <= xs)%Z -> (0 <= ys)%Z -> make_noc xs ys = Ok n ->
  map_tasks (Z.to_nat (xs * ys) + 2) pick d to start (make_graph n) = Undefined \/ exists st, map_tasks (Z.to_nat (xs * ys) + 2) pick d to start (make_graph n) = Ok st.
Proof. intros xs ys n pick d to start Hx Hy E. rewrite <- (mesh_eq xs ys n Hx Hy E). exact (whole_ends xs ys n Hx Hy E d pick to start). Qed.
Print Assumptions C131_ends.

(** When it succeeds, every placed task is on a core of the network and no two are on the same. *)
Theorem C131_one_task_per_core : forall fuel xs ys n pick d to start st, (0 <= xs)%Z -> (0 <= ys)%Z -> make_noc xs ys = Ok n ->
  map_tasks fuel pick d to start (make_graph n) = Ok st ->
  (forall t c, p_core st t = Some c -> (Z.of_nat c < xs * ys)%Z) /\ (forall t t' c, p_core st t = Some c -> p_core st t' = Some c -> t = t').
Proof.
  intros fuel xs ys n pick d to start st Hx Hy E H. destruct (whole_ok xs ys n Hx Hy E d pick to start fuel st H) as (vis & I). pose proof (v_cons _ _ _ _ _ _ _ I) as K.
  split; [|exact (k_one n st K)]. intros t c C. destruct (k_core n st K t c C) as [R _]. destruct (in_use_v n _ (k_net n st K)) as [_ En]. rewrite En, (mesh_eq xs ys n Hx Hy E) in R. lia.
Qed.
Print Assumptions C131_one_task_per_core.

(** And, when the channels left make no cycle and every task comes after [start], the tasks placed are all
    the tasks. *)
Theorem C131_every_task : forall fuel xs ys n pick d to start st, (0 <= xs)%Z -> (0 <= ys)%Z -> make_noc xs ys = Ok n ->
  map_tasks fuel pick d to start (make_graph n) = Ok st -> acyclic to -> (forall a b, In (a, b) to -> a = start \/ exists c, In (c, a) to) ->
  forall t, p_core st t <> None <-> t <> start /\ exists a, In (a, t) to.
Proof. intros fuel xs ys n pick d to start st Hx Hy E. exact (whole_all xs ys n Hx Hy E d pick to start fuel st). Qed.
Print Assumptions C131_every_task.

(** Without parallel channels no core is taken in vain: there are as many cores taken as tasks placed. *)
Theorem C131_no_waste_partial : forall fuel xs ys n pick d to start st, (0 <= xs)%Z -> (0 <= ys)%Z -> make_noc xs ys = Ok n ->
  map_tasks fuel pick d to start (make_graph n) = Ok st -> NoDup to ->
  exists l, NoDup l /\ (forall t, In t l <-> p_core st t <> None) /\ (Z.of_nat (length l + length (p_free st)) = xs * ys)%Z.
Proof.
  intros fuel xs ys n pick d to start st Hx Hy E H ND. destruct (whole_once xs ys n Hx Hy E d pick to start ND fuel st H) as (l & N1 & N2 & N3). exists l. split; [exact N1|]. split; [exact N2|]. rewrite N3, (mesh_eq xs ys n Hx Hy E). nia.
Qed.
Print Assumptions C131_no_waste_partial.

(** Two tasks joined by as many channels as there are cores cannot be placed, on any network: the consumer
    is placed once per channel and the cores run out. *)
Theorem C131_parallel_refuted : forall xs ys n pick start m, (0 <= xs)%Z -> (0 <= ys)%Z -> make_noc xs ys = Ok n -> start <> 1 -> start <> 2 -> (xs * ys <= Z.of_nat m)%Z ->
  map_tasks (Z.to_nat (xs * ys) + 2) pick (repeat (1, 2) m) ((start, 1) :: repeat (1, 2) m) start (make_graph n) = Undefined.
Proof.
  intros xs ys n pick start m Hx Hy E N1 N2 Hm. set (d := repeat (1, 2) m). set (to := (start, 1) :: d).
  destruct (C131_ends xs ys n pick d to start Hx Hy E) as [H|(st & H)]; [exact H|exfalso]. revert H. rewrite Nat.add_comm. change (2 + Z.to_nat (xs * ys)) with (S (S (Z.to_nat (xs * ys)))). rewrite first_turn.
  assert (Od : forall t, outputs d t = if t =? 1 then repeat 2 m else []). { intros t. unfold d, outputs. clear. induction m as [|m IH]; [destruct (t =? 1); reflexivity|]. cbn [repeat filter fst]. rewrite Nat.eqb_sym. destruct (t =? 1) eqn:B; cbn [map]; rewrite IH; reflexivity. }
  assert (Id : forall t a, In (a, t) to -> a = start /\ t = 1 \/ a = 1 /\ t = 2). { intros t a [X|X]; [left; injection X; auto|right]. apply repeat_spec in X. injection X; auto. }
  assert (O0 : outputs to start = [1]). { unfold to, outputs. cbn [filter fst]. rewrite Nat.eqb_refl. cbn [map snd]. f_equal. fold (outputs d start). rewrite Od. replace (start =? 1) with false by (symmetry; apply Nat.eqb_neq, N1). reflexivity. }
  assert (O1 : outputs to 1 = repeat 2 m). { unfold to, outputs. cbn [filter fst]. replace (start =? 1) with false by (symmetry; apply Nat.eqb_neq, N1). fold (outputs d 1). rewrite Od. reflexivity. }
  assert (O2 : outputs to 2 = []). { unfold to, outputs. cbn [filter fst]. replace (start =? 2) with false by (symmetry; apply Nat.eqb_neq, N2). fold (outputs d 2). rewrite Od. reflexivity. }
  assert (V0 : vis0 start start = true) by (unfold vis0; apply set_at_eq).
  rewrite O0. cbn [filter]. replace (ready to (vis0 start) 1) with true.
  2:{ symmetry. apply ready_iff. split; [unfold vis0; apply set_at_neq; congruence|]. intros a Ha. destruct (Id 1 a Ha) as [[-> _]|[_ X]]; [exact V0|discriminate]. }
  cbn [place_all]. change (length [1]) with 1. rewrite Nat.mod_1_r. cbn [nth firstn skipn app]. replace (1 =? start) with false by (symmetry; apply Nat.eqb_neq; congruence).
  destruct (place d (st0 (make_graph n)) 1) as [s1| | |] eqn:E1; cbn [bind]; try discriminate. rewrite O1.
  assert (Fr : filter (ready to (set_at (vis0 start) 1 true)) (repeat 2 m) = repeat 2 m).
  { assert (Rd : ready to (set_at (vis0 start) 1 true) 2 = true). { apply ready_iff. split; [rewrite set_at_neq by discriminate; unfold vis0; apply set_at_neq; congruence|]. intros a Ha. destruct (Id 2 a Ha) as [[_ X]|[-> _]]; [discriminate|apply set_at_eq]. }
    apply filter_repeat, Rd. }
  rewrite Fr. destruct (first_placed xs ys n Hx Hy E d 1 s1 E1) as (Pos & K & R & _ & F). apply (crowded xs ys n Hx Hy E d); try assumption; try congruence. rewrite F, seq_length. rewrite (mesh_eq xs ys n Hx Hy E) in *. lia.
Qed.
Print Assumptions C131_parallel_refuted.

(** ** C132 *)
(** When the placement succeeds, every channel between two different placed tasks has a route stored under
    its source and target, following links of the network from the core of the one to the core of the other
    with fewest links. *)
Theorem C132_routes : forall fuel xs ys n pick d to start st, (0 <= xs)%Z -> (0 <= ys)%Z -> make_noc xs ys = Ok n ->
  map_tasks fuel pick d to start (make_graph n) = Ok st -> (forall s t, In (s, t) d -> t < g_v (make_graph n)) ->
  forall s t a b, In (s, t) d -> s <> t -> p_core st s = Some a -> p_core st t = Some b ->
  exists r, get (p_routes st) (map_index (g_v (make_graph n)) s t) = Some r /\ leads (make_graph n) r a b.
Proof.
  intros fuel xs ys n pick d to start st Hx Hy E H Small s t a b Hd Ne Ca Cb. destruct (whole_ok xs ys n Hx Hy E d pick to start fuel st H) as (vis & I). destruct (v_routed _ _ _ _ _ _ _ I) as [R1 R2].
  destruct (get (p_routes st) (map_index (g_v (make_graph n)) s t)) as [r|] eqn:Gr.
  - exists r. split; [reflexivity|]. destruct (R1 _ r Gr) as (s' & t' & a' & b' & Hd' & Ek & Ca' & Cb' & L). apply map_index_inj in Ek; [|exact (Small s t Hd)|exact (Small s' t' Hd')]. destruct Ek as [<- <-].
    rewrite Ca in Ca'. rewrite Cb in Cb'. injection Ca' as <-. injection Cb' as <-. exact (L Ne).
  - exfalso. apply (R2 s t Hd Ne); [congruence|congruence|exact Gr].
Qed.
Print Assumptions C132_routes.
(** No route is stored for anything else. *)
Theorem C132_only_channels : forall fuel xs ys n pick d to start st, (0 <= xs)%Z -> (0 <= ys)%Z -> make_noc xs ys = Ok n ->
  map_tasks fuel pick d to start (make_graph n) = Ok st ->
  forall k r, get (p_routes st) k = Some r -> exists s t, In (s, t) d /\ k = map_index (g_v (make_graph n)) s t /\ p_core st s <> None /\ p_core st t <> None.
Proof.
  intros fuel xs ys n pick d to start st Hx Hy E H k r Gr. destruct (whole_ok xs ys n Hx Hy E d pick to start fuel st H) as (vis & I). destruct (v_routed _ _ _ _ _ _ _ I) as [R1 _].
  destruct (R1 k r Gr) as (s & t & a & b & Hd & Ek & Ca & Cb & _). exists s, t. repeat split; try assumption; congruence.
Qed.
Print Assumptions C132_only_channels.

(** ** C133 *)
(** One step of the placement, from any state in which the cores are shared out properly: what happens next is
    decided by three things.  The first task goes to the first free core.  Later on the step is defined
    exactly when a core is free, no channel arrives from the last core and, if the last core is free, no
    channel goes to a task already placed. *)
Theorem C133_defined : forall xs ys n d st x, (0 <= xs)%Z -> (0 <= ys)%Z -> make_noc xs ys = Ok n -> consistent n st ->
  let last := (Z.to_nat (xs * ys) - 1)%nat in
  ((exists st', place d st x = Ok st') <->
   p_free st <> [] /\ (length (p_free st) = Z.to_nat (xs * ys) \/
     (forall s, In (s, x) d -> p_core st s <> Some last) /\ (In last (p_free st) -> forall t, In (x, t) d -> p_core st t = None))) /\
  (~ (exists st', place d st x = Ok st') -> place d st x = Undefined).
Proof.
  intros xs ys n d st x Hx Hy E K last. pose proof (mesh_eq xs ys n Hx Hy E) as Em. destruct (in_use_v n _ (k_net n st K)) as [_ En].
  split.
  2:{ intros No. destruct (place_total xs ys n Hx Hy E d st x K) as [H|H]; [exact H|contradiction]. }
  destruct (place_cases xs ys n Hx Hy E d st x K) as [[F H]|[(s1 & H & L & F)|[(Ne & (c & Hc & L) & H)|(Ne & No & Nf & s1 & H & F)]]].
  - split; [intros (s & Es); congruence|]. intros [X _]. congruence.
  - split; [|eauto]. intros _. rewrite <- Em. split; [destruct F as (c & cs & -> & _); discriminate|left; exact L].
  - split; [intros (s & Es); congruence|]. rewrite <- Em. intros [_ [X|[X Y]]]; [congruence|]. pose proof (k_range n st K c Hc) as Rc. rewrite En, Em in Rc. rewrite <- Em in Rc.
    destruct L as [(s & a & Hs & Ca & La)|(Lc & s & b & Hs & Cb)].
    + destruct (X s Hs). rewrite Ca. f_equal. unfold last. lia.
    + assert (c = last) by (unfold last; lia). subst c. rewrite (Y Hc s Hs) in Cb. discriminate.
  - split; [|eauto]. intros _. split; [exact Nf|]. right. destruct (p_free st) as [|c cs] eqn:Fr; [congruence|]. assert (P : 0 < Z.to_nat (xs * ys)). { pose proof (k_range n st K c) as Rc. rewrite Fr in Rc. specialize (Rc (or_introl eq_refl)). lia. }
    split.
    + intros s Hs Ca. apply (No c (or_introl eq_refl)). left. exists s, last. repeat split; try assumption. unfold last. lia.
    + intros Hl t Ht. destruct (p_core st t) as [b|] eqn:Cb; [|reflexivity]. exfalso. apply (No last Hl). right. split; [unfold last; lia|eauto].
Qed.
Print Assumptions C133_defined.

(** The first task goes to the first free core, a later task that has no channel with a placed task to the
    last free one. *)
Theorem C133_first_and_alone : forall xs ys n d st x st', (0 <= xs)%Z -> (0 <= ys)%Z -> make_noc xs ys = Ok n -> consistent n st -> place d st x = Ok st' ->
  (length (p_free st) = Z.to_nat (xs * ys) -> exists cs c, p_free st = c :: cs /\ p_core st' x = Some c) /\
  (length (p_free st) <> Z.to_nat (xs * ys) -> (forall c, connections d (p_core st) x c = []) -> exists cs c, p_free st = cs ++ [c] /\ p_core st' x = Some c).
Proof.
  intros xs ys n d st x st' Hx Hy E K P. rewrite <- (mesh_eq xs ys n Hx Hy E).
  destruct (place_cases xs ys n Hx Hy E d st x K) as [[F H]|[(s1 & H & L & F)|[(Ne & _ & H)|(Ne & No & Nf & s1 & H & F)]]]; try congruence; rewrite H in P; injection P as ->; (split; [intros L'|intros L' A]); try contradiction.
  - destruct F as (c & cs & F & ->). exists cs, c. split; [exact F|apply set_at_eq].
  - destruct F as (q & c & t & (q' & c' & t' & p & r & E' & _ & S1 & Al & _) & ->). injection E' as <- <- <-. rewrite (Al A) in S1. exists p, c. split; [exact S1|apply set_at_eq].
Qed.
Print Assumptions C133_first_and_alone.

(** On a square network, a later task that has channels with placed tasks goes to a free core of least cost:
    the use of the most used link of the paths found, plus their average length; the first one of those. *)
Theorem C133_least_cost : forall side n d st x st', (0 <= side)%Z -> make_noc side side = Ok n -> consistent n st -> place d st x = Ok st' ->
  length (p_free st) <> Z.to_nat (side * side) -> (forall c, connections d (p_core st) x c <> []) ->
  exists p c r q, p_free st = p ++ c :: r /\ p_core st' x = Some c /\ costs (p_net st) d (p_core st) x c q /\
    (forall c' , In c' p -> exists q', costs (p_net st) d (p_core st) x c' q' /\ (q < q')%Q) /\
    (forall c', In c' r -> exists q', costs (p_net st) d (p_core st) x c' q' /\ (q <= q')%Q).
Proof.
  intros side n d st x st' Hs E K P L J. rewrite <- (mesh_eq side side n Hs Hs E) in L.
  destruct (place_cases side side n Hs Hs E d st x K) as [[F H]|[(s1 & H & L' & F)|[(Ne & _ & H)|(Ne & No & Nf & s1 & H & F)]]]; try congruence; try contradiction.
  rewrite H in P; injection P as ->. destruct F as (q & c & t & (q' & c' & t' & p & r & E' & T & S1 & _ & Jo) & ->). injection E' as <- <- <-. destruct (Jo J) as [J1 J2].
  assert (In' : forall c', In c' p \/ c' = c \/ In c' r -> In c' (p_free st)). { intros c' X. rewrite S1. apply in_or_app. destruct X as [X|[->|X]]; [left; exact X|right; left; reflexivity|right; right; exact X]. }
  exists p, c, r, q. split; [exact S1|]. split; [apply set_at_eq|]. split; [apply (trial_costs side n Hs E d st x c t q K); auto|].
  split; intros c' Hc'; (assert (Fc : In c' (p_free st)) by auto); destruct (better_defined side side n Hs Hs E d st x (0%Q, None) c' K Fc (No c' Fc)) as (t1 & q1 & T1 & _); exists q1; (split; [apply (trial_costs side n Hs E d st x c' t1 q1 K Fc T1), J|]).
  - exact (J1 c' t1 q1 Hc' T1).
  - exact (J2 c' t1 q1 Hc' T1).
Qed.
Print Assumptions C133_least_cost.
(** The cost of a core is determined. *)
Theorem C133_cost_unique : forall g d core x c q q', costs g d core x c q -> costs g d core x c q' -> (q == q')%Q.
Proof.
  intros g d core x c q q' (ls & F & ->) (ls' & F' & ->). replace ls' with ls; [reflexivity|]. revert ls' F'. induction F as [|p l ps ls H _ IH]; intros ls' F'; inversion F' as [|? l' ? ls1 H' F1]; subst; [reflexivity|].
  rewrite H in H'. injection H' as <-. f_equal. exact (IH ls1 F1).
Qed.
Print Assumptions C133_cost_unique.

(** Two tasks without inputs that feed a third one cannot be placed, on any network and in any order: the
    second one is put on the last core, from which no path can be searched. *)
Theorem C133_two_sources_refuted : forall xs ys n pick start, (0 <= xs)%Z -> (0 <= ys)%Z -> make_noc xs ys = Ok n -> start <> 1 -> start <> 2 -> start <> 3 ->
  map_tasks (Z.to_nat (xs * ys) + 2) pick [(1, 3); (2, 3)] [(1, 3); (2, 3); (start, 1); (start, 2)] start (make_graph n) = Undefined.
Proof.
  intros xs ys n pick start Hx Hy E N1 N2 N3. set (d := [(1, 3); (2, 3)]). set (to := [(1, 3); (2, 3); (start, 1); (start, 2)]).
  destruct (C131_ends xs ys n pick d to start Hx Hy E) as [H|(st & H)]; [exact H|exfalso]. revert H. rewrite Nat.add_comm. change (2 + Z.to_nat (xs * ys)) with (S (S (Z.to_nat (xs * ys)))). rewrite first_turn.
  assert (B : forall a, a <> start -> (a =? start) = false /\ (start =? a) = false) by (intros a Ha; split; apply Nat.eqb_neq; congruence).
  destruct (B 1 ltac:(congruence)) as [B1 B1']. destruct (B 2 ltac:(congruence)) as [B2 B2']. destruct (B 3 ltac:(congruence)) as [B3 B3'].
  assert (Out : outputs to start = [1; 2]). { unfold to, outputs. cbn [filter fst]. rewrite B1, B2, Nat.eqb_refl. reflexivity. }
  assert (Ou : forall x, x = 1 \/ x = 2 -> outputs to x = [3]). { intros x X. unfold to, outputs. cbn [filter fst]. destruct X as [->| ->]; [rewrite B1'|rewrite B2']; reflexivity. }
  assert (Vs : forall x, vis0 start x = (x =? start)). { intros x. unfold vis0, set_at. destruct (x =? start); reflexivity. }
  assert (Id : forall x y, x = 1 /\ y = 2 \/ x = 2 /\ y = 1 -> ready to (set_at (vis0 start) x true) 3 = false /\ ready to (set_at (set_at (vis0 start) x true) y true) 3 = true).
  { intros x y X. assert (I3 : inputs to 3 = [1; 2]) by reflexivity. unfold ready. rewrite I3. unfold set_at. cbn [forallb]. rewrite !Vs. destruct X as [[-> ->]|[-> ->]]; change (1 =? 1) with true; change (2 =? 2) with true; change (1 =? 2) with false; change (2 =? 1) with false; change (3 =? 1) with false; change (3 =? 2) with false; cbv iota; rewrite ?B1, ?B2, ?B3; split; reflexivity. }
  rewrite Out. replace (filter (ready to (vis0 start)) [1; 2]) with [1; 2].
  2:{ symmetry. unfold ready. assert (I1 : inputs to 1 = [start]) by reflexivity. assert (I2 : inputs to 2 = [start]) by reflexivity. cbn [filter]. rewrite I1, I2. cbn [forallb]. rewrite !Vs, B1, B2, Nat.eqb_refl. reflexivity. }
  cbn [place_all]. set (i := pick [1; 2] mod length [1; 2]).
  assert (Ci : exists x y, (x = 1 /\ y = 2 \/ x = 2 /\ y = 1) /\ nth i [1; 2] 0 = x /\ firstn i [1; 2] ++ skipn (S i) [1; 2] = [y]).
  { assert (Li : i < 2) by (apply (Nat.mod_upper_bound _ 2); discriminate). destruct i as [|[|i]]; [exists 1, 2|exists 2, 1|lia]; cbn; auto. }
  destruct Ci as (x & y & XY & Ex & Er). rewrite Ex. replace (x =? start) with false by (symmetry; destruct XY as [[-> _]|[-> _]]; assumption).
  destruct (place d (st0 (make_graph n)) x) as [s1| | |] eqn:E1; cbn [bind]; try discriminate. rewrite app_assoc, Er. rewrite (Ou x) by (destruct XY as [[-> _]|[-> _]]; auto). cbn [filter]. destruct (Id x y XY) as [R1 R2]. rewrite R1. cbn [app].
  destruct (first_placed xs ys n Hx Hy E d x s1 E1) as (Pos & K & R & C & F). destruct (Z.to_nat (xs * ys)) as [|f] eqn:Ef; [discriminate|].
  cbn [place_all]. change (length [y]) with 1. rewrite Nat.mod_1_r. cbn [nth firstn skipn app]. replace (y =? start) with false by (symmetry; destruct XY as [[_ ->]|[_ ->]]; assumption).
  destruct (place d s1 y) as [s2| | |] eqn:E2; cbn [bind]; try discriminate. rewrite (Ou y) by (destruct XY as [[_ ->]|[_ ->]]; auto). cbn [filter]. rewrite R2. destruct f as [|f]; [discriminate|].
  assert (C2 : p_core s2 y = Some (mesh_size (make_graph n) - 1)). { apply (second_placed xs ys n Hx Hy E d x y s1); try assumption; [destruct XY as [[-> ->]|[-> ->]]; discriminate|]. intros c. unfold connections, d. cbn [flat_map fst snd]. rewrite C. unfold set_at. destruct XY as [[-> ->]|[-> ->]]; reflexivity. }
  destruct (place_step xs ys n Hx Hy E d s1 y s2 K R E2) as (K2 & R2' & _).
  cbn [place_all]. change (length [3]) with 1. rewrite Nat.mod_1_r. cbn [nth firstn skipn app]. rewrite B3. destruct (place d s2 3) as [s3| | |] eqn:E3; cbn [bind]; try discriminate. exfalso.
  apply (no_exit xs ys n Hx Hy E d s2 3 s3 K2); try assumption; [exists y; congruence|]. exists y. split; [|exact C2]. unfold d. destruct XY as [[_ ->]|[_ ->]]; cbn; auto.
Qed.
Print Assumptions C133_two_sources_refuted.

(** Two tasks on a cycle cannot be placed either: every free core is tried for the second one, the last core
    among them, with a channel back to the first. *)
Theorem C133_cycle_refuted : forall xs ys n pick start, (0 <= xs)%Z -> (0 <= ys)%Z -> make_noc xs ys = Ok n -> start <> 1 -> start <> 2 ->
  map_tasks (Z.to_nat (xs * ys) + 2) pick [(1, 2); (2, 1)] [(1, 2); (start, 1)] start (make_graph n) = Undefined.
Proof.
  intros xs ys n pick start Hx Hy E N1 N2. set (d := [(1, 2); (2, 1)]). set (to := [(1, 2); (start, 1)]).
  destruct (C131_ends xs ys n pick d to start Hx Hy E) as [H|(st & H)]; [exact H|exfalso]. revert H. rewrite Nat.add_comm. change (2 + Z.to_nat (xs * ys)) with (S (S (Z.to_nat (xs * ys)))). rewrite first_turn.
  assert (B : forall a, a <> start -> (a =? start) = false /\ (start =? a) = false) by (intros a Ha; split; apply Nat.eqb_neq; congruence).
  destruct (B 1 ltac:(congruence)) as [B1 B1']. destruct (B 2 ltac:(congruence)) as [B2 B2'].
  assert (Out : outputs to start = [1]). { unfold to, outputs. cbn [filter fst]. rewrite B1, Nat.eqb_refl. reflexivity. }
  assert (O1 : outputs to 1 = [2]). { unfold to, outputs. cbn [filter fst]. rewrite B1'. reflexivity. }
  assert (Vs : forall x, vis0 start x = (x =? start)). { intros x. unfold vis0, set_at. destruct (x =? start); reflexivity. }
  rewrite Out. replace (filter (ready to (vis0 start)) [1]) with [1].
  2:{ symmetry. unfold ready. assert (I1 : inputs to 1 = [start]) by reflexivity. cbn [filter]. rewrite I1. cbn [forallb]. rewrite !Vs, B1, Nat.eqb_refl. reflexivity. }
  cbn [place_all]. change (length [1]) with 1. rewrite Nat.mod_1_r. cbn [nth firstn skipn app]. rewrite B1. destruct (place d (st0 (make_graph n)) 1) as [s1| | |] eqn:E1; cbn [bind]; try discriminate. rewrite O1. cbn [filter].
  replace (ready to (set_at (vis0 start) 1 true) 2) with true.
  2:{ symmetry. unfold ready. assert (I2 : inputs to 2 = [1]) by reflexivity. rewrite I2. unfold set_at. cbn [forallb]. change (1 =? 1) with true. change (2 =? 1) with false. cbv iota. rewrite Vs, B2. reflexivity. }
  destruct (first_placed xs ys n Hx Hy E d 1 s1 E1) as (Pos & K & R & C & F). destruct (Z.to_nat (xs * ys)) as [|f] eqn:Ef; [discriminate|].
  cbn [place_all]. change (length [2]) with 1. rewrite Nat.mod_1_r. cbn [nth firstn skipn app]. rewrite B2. destruct (place d s1 2) as [s2| | |] eqn:E2; cbn [bind]; try discriminate. exfalso.
  destruct (Nat.eq_dec (mesh_size (make_graph n)) 1) as [One|More].
  - rewrite One in F. cbn in F. unfold place in E2. rewrite F in E2. discriminate.
  - apply (no_return xs ys n Hx Hy E d s1 2 s2 K); [|rewrite F; apply in_seq; lia|exact E2]. exists 1. split; [cbn; auto|]. rewrite C, set_at_eq. discriminate.
Qed.
Print Assumptions C133_cycle_refuted.

(** ** Examples *)
Definition net22 : graph := make_graph mesh22.
(** A diamond of four tasks fills the 2x2 network. *)
Example C131_hyp : match map_tasks 6 (fun _ => 0) [(1, 2); (1, 3); (2, 4); (3, 4)] [(1, 2); (1, 3); (2, 4); (3, 4); (5, 1)] 5 net22 with
  | Ok st => (map (p_core st) [1; 2; 3; 4], p_free st) | _ => ([], []) end = ([Some 0; Some 1; Some 2; Some 3], []).
Proof. vm_compute. reflexivity. Qed.
Example C131_hyp_shape : let to := [(1, 2); (1, 3); (2, 4); (3, 4); (5, 1)] in acyclic to /\ NoDup to /\ forall a b, In (a, b) to -> a = 5 \/ exists c, In (c, a) to.
Proof.
  split; [|split].
  - exists (fun x => x mod 5). intros a b H. repeat (destruct H as [H|H]; [injection H as <- <-; cbn; lia|]). destruct H.
  - repeat constructor; cbn; intuition congruence.
  - intros a b H. repeat (destruct H as [H|H]; [injection H as <- <-; (left; reflexivity) || (right; eexists; cbn; tauto)|]). destruct H.
Qed.
Example C132_hyp : match map_tasks 6 (fun _ => 0) [(1, 2); (1, 3); (2, 4); (3, 4)] [(1, 2); (1, 3); (2, 4); (3, 4); (5, 1)] 5 net22 with
  | Ok st => map (fun k => option_map (map (map_index_pair 8)) (get (p_routes st) k)) [map_index 8 1 2; map_index 8 3 4] | _ => [] end
  = [Some [(4, 0); (0, 1); (1, 5)]; Some [(6, 2); (2, 3); (3, 7)]].
Proof. vm_compute. reflexivity. Qed.
(** A parallel channel takes a core in vain. *)
Example C131_waste : match map_tasks 6 (fun _ => 0) [(1, 2); (1, 2)] [(1, 2); (1, 2); (5, 1)] 5 net22 with Ok st => (p_core st 1, p_core st 2, p_free st) | _ => (None, None, []) end
  = (Some 0, Some 2, [3]).
Proof. vm_compute. reflexivity. Qed.
