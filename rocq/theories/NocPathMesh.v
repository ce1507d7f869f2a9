(** The path searches on a generated mesh: which reads are out of range, and what the lengths used
    by the enumeration amount to. *)
From Coq Require Import ZifyBool ZifyNat ListDec FinFun Decidable.
From Verif Require Import Base Noc NocSpec NocProofs NocProps NocPath NocPathSpec NocPathProofs.
Open Scope nat_scope.

(** * Reads that never happen *)
(** A link without a count starts from a vertex that can only be reached from its other end. *)
Definition read_safe (g : graph) (u : nat) := forall x y, x < g_v g -> In y (g_adj g x) -> map_index (g_v g) x y < length (g_util g) \/ x <> u /\ forall z, In x (g_adj g z) -> z = y.
Lemma relax_gen_vis g ok v s x s' : relax_gen g ok v s x = Ok s' -> s_vis s' = s_vis s.
Proof.
  unfold relax_gen, improve. destruct (ok v x); [|intros [= <-]; reflexivity]. destruct (s_vis s x); [intros [= <-]; reflexivity|]. destruct (s_cost s v); [|discriminate].
  destruct (match s_cost s x with Some _ => _ | None => _ end); intros [= <-]; reflexivity.
Qed.
Lemma relax_all_ext_vis f h V0 s l : (forall s' x, In x l -> s_vis s' = V0 -> f s' x = h s' x) -> (forall s' x s'', h s' x = Ok s'' -> s_vis s'' = s_vis s') -> s_vis s = V0 ->
  relax_all f s l = relax_all h s l.
Proof.
  intros H K. revert s. induction l as [|x l IH]; intros s V; [reflexivity|]. cbn. rewrite H by (try assumption; left; reflexivity). destruct (h s x) as [s1| | |] eqn:E; try reflexivity. cbn. apply IH.
  - intros s' y Hy. apply H. right. exact Hy.
  - rewrite (K _ _ _ E). exact V.
Qed.
Lemma short_gen g u lost d : closed_links g -> u < g_v g -> read_safe g u -> search_path (relax_short g) lost g u d = search_path (relax_gen g (fun _ _ => true)) lost g u d.
Proof.
  intros Cl Hu Rs. unfold search_path. destruct (u =? d); [reflexivity|]. destruct (negb _); [reflexivity|].
  assert (T : forall k s, inv g (fun _ _ => true) u s -> turns k (relax_short g) g s = turns k (relax_gen g (fun _ _ => true)) g s); [|rewrite T by (apply start_inv; assumption); reflexivity].
  intros k. induction k as [|k IH]; intros s I; [reflexivity|]. cbn.
  assert (E : turn (relax_short g) g s = turn (relax_gen g (fun _ _ => true)) g s).
  { unfold turn. destruct (nearest (g_v g) s) as [v|] eqn:N; [|reflexivity]. apply nearest_some in N. destruct N as (Hv & c & [Vv Cv] & _).
    apply (relax_all_ext_vis _ _ (set_at (s_vis s) v true)); [|intros s' x s''; apply relax_gen_vis|reflexivity].
    intros s' x Hx V'. unfold relax_short, relax_gen. replace (x <? g_v g) with true by (symmetry; apply Nat.ltb_lt; exact (Cl v x Hv Hx)). cbn [negb].
    destruct (Rs v x Hv Hx) as [C|[Nu D]]; [rewrite link_use_ok by exact C; destruct (s_vis s' x); reflexivity|].
    destruct (c_prev _ _ _ _ (i_common _ _ _ _ I) v c Cv) as [[-> _]|(_ & i & ci & _ & Vi & _ & _ & [L _] & _)]; [contradiction|]. specialize (D i L). subst i.
    rewrite V'. replace (set_at (s_vis s) v true x) with true; [reflexivity|]. unfold set_at. destruct (x =? v); [reflexivity|symmetry; exact Vi]. }
  rewrite E. destruct (turn_gen g (fun _ _ => true) u Cl Hu s I) as (s1 & E1 & I1 & _). rewrite E1. cbn. apply IH, I1.
Qed.
(** * Reads that do happen *)
Lemma link_use_cases g x y : link_use g x y = Undefined \/ map_index (g_v g) x y < length (g_util g).
Proof. unfold link_use. destruct (nth_error (g_util g) (map_index (g_v g) x y)) eqn:E; [right; apply nth_error_Some; congruence|left; reflexivity]. Qed.
Definition all_read g s := forall v x, s_vis s v = true -> In x (g_adj g v) -> map_index (g_v g) v x < length (g_util g).
Lemma relax_low_all g v s l : closed_links g -> v < g_v g -> s_cost s v <> None -> (forall x, In x l -> In x (g_adj g v)) ->
  relax_all (relax_low g v) s l = Undefined \/ relax_all (relax_low g v) s l = relax_all (relax_gen g (light g) v) s l /\ forall x, In x l -> map_index (g_v g) v x < length (g_util g).
Proof.
  intros Cl Hv. revert s. induction l as [|x l IH]; intros s Nc Sub; [right; split; [reflexivity|intros x []]|]. cbn [relax_all].
  destruct (link_use_cases g v x) as [U|C]; [left; unfold relax_low at 1; rewrite U; reflexivity|].
  assert (E : relax_low g v s x = relax_gen g (light g) v s x).
  { unfold relax_low, relax_gen, light. replace (x <? g_v g) with true by (symmetry; apply Nat.ltb_lt; exact (Cl v x Hv (Sub x (or_introl eq_refl)))). cbn [negb].
    rewrite link_use_ok by exact C. cbn [bind]. destruct (hw_limit <? use_of g v x)%Z; [reflexivity|]. destruct (s_vis s x); reflexivity. }
  rewrite E. destruct (relax_gen g (light g) v s x) as [s1| | |] eqn:R.
  - cbn [bind]. destruct (IH s1) as [U|[A B]].
    + unfold relax_gen, improve in R. destruct (light g v x); [|injection R as <-; exact Nc]. destruct (s_vis s x); [injection R as <-; exact Nc|]. destruct (s_cost s v) eqn:Cv; [|discriminate].
      destruct (match s_cost s x with Some _ => _ | None => _ end); injection R as <-; cbn; [|congruence]. unfold set_at. destruct (v =? x); congruence.
    + intros y Hy. apply Sub. right. exact Hy.
    + left. exact U.
    + right. split; [exact A|]. intros y [<-|Hy]; [exact C|apply B, Hy].
  - exfalso. unfold relax_gen, improve in R. destruct (light g v x); [|discriminate]. destruct (s_vis s x); [discriminate|]. destruct (s_cost s v); [|discriminate]. destruct (match s_cost s x with Some _ => _ | None => _ end); discriminate.
  - left. reflexivity.
  - exfalso. unfold relax_gen, improve in R. destruct (light g v x); [|discriminate]. destruct (s_vis s x); [discriminate|]. destruct (s_cost s v); [|discriminate]. destruct (match s_cost s x with Some _ => _ | None => _ end); discriminate.
Qed.
Lemma relax_all_vis g ok v s l s' : relax_all (relax_gen g ok v) s l = Ok s' -> s_vis s' = s_vis s.
Proof. revert s. induction l as [|x l IH]; intros s E; cbn in E; [injection E as <-; reflexivity|]. destruct (relax_gen g ok v s x) as [s1| | |] eqn:R; try discriminate. cbn in E. rewrite (IH _ E). apply (relax_gen_vis _ _ _ _ _ _ R). Qed.
Lemma low_turns g u k s : closed_links g -> u < g_v g -> inv g (light g) u s -> all_read g s ->
  turns k (relax_low g) g s = Undefined \/ exists s', turns k (relax_low g) g s = Ok s' /\ turns k (relax_gen g (light g)) g s = Ok s' /\ all_read g s'.
Proof.
  intros Cl Hu. revert s. induction k as [|k IH]; intros s I R; [right; exists s; split; [reflexivity|split; [reflexivity|exact R]]|]. cbn [turns].
  destruct (turn_gen g (light g) u Cl Hu s I) as (s1 & E1 & I1 & _).
  assert (H : turn (relax_low g) g s = Undefined \/ turn (relax_low g) g s = Ok s1 /\ all_read g s1).
  { unfold turn in *. destruct (nearest (g_v g) s) as [v|] eqn:N; [|injection E1 as <-; right; split; [reflexivity|exact R]].
    apply nearest_some in N. destruct N as (Hv & c & [_ Cv] & _).
    destruct (relax_low_all g v (mkSearch (set_at (s_vis s) v true) (s_cost s) (s_prev s) (s_util s)) (g_adj g v) Cl Hv) as [U|[A B]]; [cbn; congruence|intros x H; exact H|left; exact U|].
    right. rewrite A. split; [exact E1|]. intros w x Vw Hx. rewrite (relax_all_vis _ _ _ _ _ _ E1) in Vw. cbn in Vw. unfold set_at in Vw. destruct (Nat.eqb_spec w v) as [->|Nw]; [apply B, Hx|apply (R w x Vw Hx)]. }
  destruct H as [U|[E R1]]; [left; rewrite U; reflexivity|]. rewrite E, E1. cbn [bind]. apply IH; assumption.
Qed.
Lemma low_undefined g u lost d l x y : closed_links g -> u < g_v g -> d < g_v g -> u <> d -> follows (free_link g hw_limit) u l x -> In y (g_adj g x) -> length (g_util g) <= map_index (g_v g) x y ->
  search_path (relax_low g) lost g u d = Undefined.
Proof.
  intros Cl Hu Hd Ne F Hy Big. unfold search_path. replace (u =? d) with false by (symmetry; apply Nat.eqb_neq; exact Ne).
  replace (u <? g_v g) with true by (symmetry; apply Nat.ltb_lt; exact Hu). replace (d <? g_v g) with true by (symmetry; apply Nat.ltb_lt; exact Hd). cbn [andb negb].
  destruct (low_turns g u (g_v g) (start u) Cl Hu (start_inv _ _ _ Hu) ltac:(intros v z; discriminate)) as [U|(s' & _ & E & R)]; [rewrite U; reflexivity|exfalso].
  destruct (search_done g (light g) u Cl Hu) as (s & E' & I & A). rewrite E in E'. injection E' as ->.
  apply (follows_iff _ _ _ _ _ (fun a b => iff_sym (link_light g a b))) in F.
  destruct (final_le g (light g) u Hu s I A x l u 0 (c_start _ _ _ _ (i_common _ _ _ _ I)) F) as (cx & Cx & _).
  pose proof (c_range _ _ _ _ (i_common _ _ _ _ I) x cx Cx) as Hx.
  assert (Vx : s_vis s x = true). { destruct (s_vis s x) eqn:Vx; [reflexivity|]. destruct (A x cx Hx). split; assumption. }
  pose proof (R x y Vx Hy). lia.
Qed.

(** * The mesh *)
Section MESH.
Variables (xs ys : Z) (n : noc).
Hypothesis Hxs : (0 <= xs)%Z.
Hypothesis Hys : (0 <= ys)%Z.
Hypothesis Hn : make_noc xs ys = Ok n.
Let g := make_graph n.
Lemma g_v_eq : g_v g = 2 * Z.to_nat (xs * ys).
Proof. unfold g, make_graph. cbn. destruct (make_noc_inv xs ys n Hxs Hys Hn) as [-> _]. reflexivity. Qed.
Lemma mesh_eq : mesh_size g = Z.to_nat (xs * ys).
Proof. unfold mesh_size. rewrite g_v_eq. rewrite Nat.mul_comm. apply Nat.div_mul. discriminate. Qed.
Lemma mesh_link x y : has_link g x y <-> linked xs ys (Z.of_nat x) (Z.of_nat y).
Proof.
  unfold has_link, g, make_graph. cbn. destruct (make_noc_inv xs ys n Hxs Hys Hn) as [-> _]. rewrite in_map_iff. split.
  - intros (l & E & H). apply filter_In in H. destruct H as [H T]. apply Z.eqb_eq in T. apply pure_links in H. destruct H as (a & b & -> & L). cbn in E, T. subst a.
    destruct (linked_bound _ _ _ _ L) as [_ B]. replace (Z.of_nat y) with b by lia. exact L.
  - intros L. exists (plink (xs * ys * 2) (Z.of_nat x) (Z.of_nat y)). cbn. split; [apply Nat2Z.id|]. apply filter_In. split; [apply pure_links; eauto|]. cbn. apply Z.eqb_refl.
Qed.
Lemma mesh_closed : closed_links g.
Proof. intros x y _ H. apply mesh_link in H. apply linked_bound in H. rewrite g_v_eq. lia. Qed.
Lemma mesh_nodup x : NoDup (g_adj g x).
Proof.
  unfold g, make_graph. cbn. destruct (make_noc_inv xs ys n Hxs Hys Hn) as [-> _].
  apply NoDup_map_inj; [apply NoDup_filter, links_nodup|]. intros l l' H H' E. apply filter_In in H, H'. destruct H as [H T], H' as [H' T']. apply Z.eqb_eq in T, T'.
  apply pure_links in H, H'. destruct H as (a & b & -> & L), H' as (a' & b' & -> & L'). cbn in T, T', E. subst.
  apply linked_bound in L, L'. replace b' with b by lia. reflexivity.
Qed.
(** Paths of the two models. *)
Lemma path_of_links x l d : follows (has_link g) x l d -> exists ls, connected (Z.of_nat x) ls (Z.of_nat d) /\ (forall e, In e ls -> In e (links n)) /\ length l = S (length ls).
Proof.
  revert x. induction l as [|a l IH]; intros x F; [destruct F|]. destruct F as [-> F]. destruct l as [|b l].
  - subst. exists []. split; [reflexivity|]. split; [intros e []|reflexivity].
  - destruct F as [L F]. destruct (IH b F) as (ls & C & H & Len). apply mesh_link in L.
    destruct (make_noc_inv xs ys n Hxs Hys Hn) as [En _].
    exists (plink (xs * ys * 2) (Z.of_nat x) (Z.of_nat b) :: ls). split; [split; [reflexivity|exact C]|]. split; [|cbn in *; lia].
    intros e [<-|He]; [|apply H, He]. rewrite En. apply pure_links. eauto.
Qed.
Lemma links_path x ls d : connected (Z.of_nat x) ls (Z.of_nat d) -> (forall e, In e ls -> In e (links n)) -> exists l, follows (has_link g) x l d /\ length l = S (length ls).
Proof.
  revert x. induction ls as [|e ls IH]; intros x C H.
  - cbn in C. apply Nat2Z.inj in C. subst. exists [d]. split; [split; reflexivity|reflexivity].
  - destruct C as [E C]. pose proof (H e (or_introl eq_refl)) as He. destruct (make_noc_inv xs ys n Hxs Hys Hn) as [En _]. rewrite En in He. apply pure_links in He. destruct He as (a & b & -> & L).
    cbn in E, C. subst a. pose proof (linked_bound _ _ _ _ L) as [_ B]. set (y := Z.to_nat b). assert (Eb : b = Z.of_nat y) by lia. rewrite Eb in C, L.
    destruct (IH y C (fun e' H' => H e' (or_intror H'))) as (l & F & Len). exists (x :: l). split; [|cbn; lia].
    destruct l as [|z l]; [destruct F|]. destruct F as [-> F]. split; [reflexivity|]. split; [apply mesh_link; exact L|]. split; [reflexivity|exact F].
Qed.
(** The position of a core. *)
Definition col (s : nat) : Z := Z.of_nat s mod xs.
Definition row (s : nat) : Z := Z.of_nat s / xs.
Lemma core_pos s : s < Z.to_nat (xs * ys) -> in_mesh xs ys (col s) (row s) /\ core_at xs ys (col s) (row s) = Z.of_nat (s + mesh_size g) /\ router_at xs (col s) (row s) = Z.of_nat s.
Proof.
  intros H. assert (P : (0 < xs)%Z) by nia. unfold col, row. pose proof (Z.mod_pos_bound (Z.of_nat s) xs P). pose proof (Z.div_mod (Z.of_nat s) xs ltac:(lia)) as D.
  split; [split; [lia|]|].
  - split; [apply Z.div_pos; lia|]. apply Z.div_lt_upper_bound; [exact P|]. lia.
  - rewrite mesh_eq. unfold core_at, router_at. nia.
Qed.
Lemma pos_inj s d : col s = col d -> row s = row d -> (0 < xs)%Z -> s = d.
Proof. unfold col, row. intros A B P. pose proof (Z.div_mod (Z.of_nat s) xs ltac:(lia)). pose proof (Z.div_mod (Z.of_nat d) xs ltac:(lia)). lia. Qed.
Definition apart (s d : nat) : nat := Z.to_nat (Z.abs (col d - col s) + Z.abs (row d - row s)).
Lemma mesh_far s d l : s < Z.to_nat (xs * ys) -> d < Z.to_nat (xs * ys) -> s <> d -> follows (has_link g) (s + mesh_size g) l (d + mesh_size g) -> apart s d + 3 <= length l.
Proof.
  intros Hs Hd Ne F. destruct (core_pos s Hs) as (Ms & Es & _), (core_pos d Hd) as (Md & Ed & _). destruct (path_of_links _ _ _ F) as (ls & C & H & Len). rewrite <- Es, <- Ed in C.
  assert (Np : (col s, row s) <> (col d, row d)). { intros [= A B]. apply Ne, pos_inj; [assumption..|]. destruct Ms. lia. }
  pose proof (C50_shortest xs ys n _ _ _ _ ls Hxs Hys Hn Ms Md Np C H). unfold apart. lia.
Qed.
Lemma mesh_near s d : s < Z.to_nat (xs * ys) -> d < Z.to_nat (xs * ys) -> exists l, follows (has_link g) (s + mesh_size g) l (d + mesh_size g) /\ length l = apart s d + 3.
Proof.
  intros Hs Hd. destruct (core_pos s Hs) as (Ms & Es & _), (core_pos d Hd) as (Md & Ed & _).
  destruct (C50_xy_route xs ys n _ _ _ _ _ Hxs Hys Hn Ms Md (Nat.le_refl _)) as (a & lx & ly & b & _ & C & H & _ & _ & Lx & Ly). rewrite Es, Ed in C.
  destruct (links_path _ _ _ C H) as (l & F & Len). exists l. split; [exact F|]. rewrite Len. cbn. rewrite !app_length. cbn. unfold apart. lia.
Qed.
(** A core is reached from its router only. *)
Lemma core_router_only c z : Z.to_nat (xs * ys) <= c < 2 * Z.to_nat (xs * ys) -> (has_link g z c <-> z + mesh_size g = c) /\ (has_link g c z <-> z + mesh_size g = c).
Proof.
  intros Hc. set (s := c - Z.to_nat (xs * ys)). assert (Ec : c = s + mesh_size g) by (rewrite mesh_eq; unfold s; lia). destruct (core_pos s ltac:(unfold s; lia)) as (M & Ek & Er).
  rewrite mesh_eq. assert (Q : forall w, linked xs ys (Z.of_nat c) w <-> w = Z.of_nat s). { intros w. rewrite Ec, <- Ek, (C49_core_has_one_router xs ys _ _ w M), Er. reflexivity. }
  assert (S1 : forall a b, linked xs ys a b -> linked xs ys b a) by (intros a b; apply C49_symmetric).
  split; rewrite mesh_link; split.
  - intros L. apply S1, Q in L. lia.
  - intros E. apply S1. apply Q. lia.
  - intros L. apply Q in L. lia.
  - intros E. apply Q. lia.
Qed.
End MESH.

(** * Shortest paths visit no vertex twice *)
Lemma follows_app (P : nat -> nat -> Prop) u p x q d : follows P u (p ++ x :: q) d <-> follows P u (p ++ [x]) x /\ follows P x (x :: q) d.
Proof.
  revert u. induction p as [|a p IH]; intros u.
  - cbn [app]. split.
    + intros F. pose proof F as [-> _]. split; [split; reflexivity|exact F].
    + intros [[-> _] F]. exact F.
  - assert (Unf : forall b t e, follows P u (a :: b :: t) e <-> a = u /\ P u b /\ follows P b (b :: t) e) by (intros; reflexivity).
    destruct p as [|b p].
    + change (([a] ++ x :: q)) with (a :: x :: q). change ([a] ++ [x]) with [a; x]. rewrite !Unf. specialize (IH x). change ([] ++ x :: q) with (x :: q) in IH. change ([] ++ [x]) with [x] in IH. rewrite IH. tauto.
    + change ((a :: b :: p) ++ x :: q) with (a :: b :: (p ++ x :: q)). change ((a :: b :: p) ++ [x]) with (a :: b :: (p ++ [x])). rewrite !Unf.
      specialize (IH b). change ((b :: p) ++ x :: q) with (b :: (p ++ x :: q)) in IH. change ((b :: p) ++ [x]) with (b :: (p ++ [x])) in IH. rewrite IH. tauto.
Qed.
Lemma fewest_nodup (P : nat -> nat -> Prop) u l d : fewest_links P u l d -> NoDup l.
Proof.
  intros [F Min]. destruct (NoDup_dec Nat.eq_dec l) as [H|H]; [exact H|exfalso].
  assert (Sp : forall l : list nat, ~ NoDup l -> exists x a b c, l = a ++ x :: b ++ x :: c).
  { clear. intros l. induction l as [|x l IH]; intros H; [destruct H; constructor|]. destruct (in_dec Nat.eq_dec x l) as [I|I].
    - apply in_split in I. destruct I as (b & c & ->). exists x, [], b, c. reflexivity.
    - destruct IH as (y & a & b & c & ->); [intros N; apply H; constructor; assumption|]. exists y, (x :: a), b, c. reflexivity. }
  destruct (Sp l H) as (x & a & b & c & ->). clear Sp H.
  apply follows_app in F. destruct F as [F1 F2]. change (x :: b ++ x :: c) with ((x :: b) ++ x :: c) in F2. apply follows_app in F2. destruct F2 as [_ F2].
  assert (F3 : follows P u (a ++ x :: c) d) by (apply follows_app; split; assumption). specialize (Min _ F3). rewrite !app_length in Min. cbn in Min. rewrite app_length in Min. cbn in Min. lia.
Qed.

(** * Routes *)
Lemma map_index_pair_ok v x y : y < v -> map_index_pair v (map_index v x y) = (x, y).
Proof.
  intros H. unfold map_index_pair, map_index. replace (v + (x * v + y) - v) with (y + x * v) by lia. rewrite Nat.div_add, Nat.mod_add by lia. rewrite Nat.div_small, Nat.mod_small by exact H. reflexivity.
Qed.
Lemma map_index_inj v x y x' y' : y < v -> y' < v -> map_index v x y = map_index v x' y' -> x = x' /\ y = y'.
Proof. intros H H' E. pose proof (map_index_pair_ok v x y H) as A. rewrite E, map_index_pair_ok in A by exact H'. injection A as -> ->. split; reflexivity. Qed.
Lemma link_ids_pairs v l : Forall (fun x => x < v) l -> map (map_index_pair v) (link_ids v l) = path_links l.
Proof.
  induction l as [|x l IH]; intros H; [reflexivity|]. destruct l as [|y l]; [reflexivity|]. inversion H as [|? ? _ H']; subst. inversion H' as [|? ? Hy _]; subst.
  change (link_ids v (x :: y :: l)) with (map_index v x y :: link_ids v (y :: l)). cbn [map]. rewrite map_index_pair_ok by exact Hy. rewrite IH by exact H'. reflexivity.
Qed.
Fixpoint times (e : nat * nat) (l : list (nat * nat)) : Z :=
  match l with [] => 0%Z | f :: l' => ((if ((fst e =? fst f) && (snd e =? snd f))%nat then 1 else 0) + times e l')%Z end.
Lemma path_links_cons x y l : path_links (x :: y :: l) = (x, y) :: path_links (y :: l).
Proof. reflexivity. Qed.
Lemma count_links_ok v l use : Forall (fun x => x < v) l -> (forall x y, In (x, y) (path_links l) -> map_index v x y < length use) ->
  exists use', count_links v l use = Ok use' /\ length use' = length use /\
    forall x y, y < v -> map_index v x y < length use -> nth (map_index v x y) use' 0%Z = (nth (map_index v x y) use 0 + times (x, y) (removelast (path_links l)))%Z.
Proof.
  revert use. induction l as [|a l IH]; intros use Fv H; [exists use; split; [reflexivity|split; [reflexivity|intros; cbn; lia]]|].
  destruct l as [|b l]; [exists use; split; [reflexivity|split; [reflexivity|intros; cbn; lia]]|].
  destruct l as [|c l]; [exists use; split; [reflexivity|split; [reflexivity|intros; cbn; lia]]|].
  inversion Fv as [|? ? _ Fv']; subst. inversion Fv' as [|? ? Hb _]; subst.
  change (count_links v (a :: b :: c :: l) use) with (match nth_error use (map_index v a b) with Some w => count_links v (b :: c :: l) (firstn (map_index v a b) use ++ (w + 1)%Z :: skipn (S (map_index v a b)) use) | None => Undefined end).
  assert (Hab : map_index v a b < length use) by (apply H; left; reflexivity). rewrite (nth_error_nth' use 0%Z Hab).
  set (i := map_index v a b) in *. set (use1 := firstn i use ++ (nth i use 0 + 1)%Z :: skipn (S i) use).
  assert (L1 : length use1 = length use). { unfold use1. rewrite app_length. cbn [length]. rewrite firstn_length_le by lia. rewrite skipn_length. lia. }
  destruct (IH use1 Fv') as (use' & E & Len & Nth). { intros x y Hxy. rewrite L1. apply H. right. exact Hxy. }
  exists use'. split; [exact E|]. split; [lia|]. intros x y Hy Hi. rewrite Nth by (try exact Hy; lia).
  change (removelast (path_links (a :: b :: c :: l))) with ((a, b) :: removelast (path_links (b :: c :: l))). cbn [times fst snd].
  assert (N1 : nth (map_index v x y) use1 0%Z = (nth (map_index v x y) use 0 + (if ((x =? a) && (y =? b))%nat then 1 else 0))%Z); [|rewrite N1; lia].
  unfold use1. destruct (Nat.lt_trichotomy (map_index v x y) i) as [Lt|[Eq|Gt]].
  - rewrite app_nth1 by (rewrite firstn_length_le; lia). replace ((x =? a) && (y =? b)) with false.
    + rewrite <- (firstn_skipn i use) at 2. rewrite (app_nth1 (firstn i use)) by (rewrite firstn_length_le; lia). lia.
    + symmetry. apply not_true_is_false. intros T. apply andb_true_iff in T. destruct T as [T1 T2]. apply Nat.eqb_eq in T1, T2. subst. fold i in Lt. lia.
  - rewrite Eq. rewrite app_nth2 by (rewrite firstn_length_le; lia). rewrite firstn_length_le by lia. rewrite Nat.sub_diag. cbn [nth].
    destruct (map_index_inj v x y a b Hy Hb Eq) as [-> ->]. rewrite !Nat.eqb_refl. reflexivity.
  - rewrite app_nth2 by (rewrite firstn_length_le; lia). rewrite firstn_length_le by lia. destruct (map_index v x y - i) as [|k] eqn:Ek; [lia|]. cbn [nth].
    replace ((x =? a) && (y =? b)) with false.
    + rewrite <- (firstn_skipn (S i) use) at 2. rewrite (app_nth2 (firstn (S i) use)) by (rewrite firstn_length_le; lia). rewrite firstn_length_le by lia. replace (map_index v x y - S i) with k by lia. lia.
    + symmetry. apply not_true_is_false. intros T. apply andb_true_iff in T. destruct T as [T1 T2]. apply Nat.eqb_eq in T1, T2. subst. fold i in Gt. lia.
Qed.
Lemma inner_eq a l : 1 <= length l -> removelast (path_links l) = tl (removelast (path_links (a :: l))).
Proof. destruct l as [|b l]; [cbn; lia|]. intros _. rewrite path_links_cons. destruct l as [|c l]; [reflexivity|]. rewrite path_links_cons. reflexivity. Qed.
Lemma times_out e l : ~ In e l -> times e l = 0%Z.
Proof.
  destruct e as [x y]. induction l as [|[a b] l IH]; intros N; [reflexivity|]. cbn [times fst snd]. rewrite IH by (intros H; apply N; right; exact H).
  destruct ((x =? a) && (y =? b)) eqn:T; [|reflexivity]. apply andb_true_iff in T. destruct T as [T1 T2]. apply Nat.eqb_eq in T1, T2. subst. destruct N. left. reflexivity.
Qed.
Lemma times_in e l : NoDup l -> In e l -> times e l = 1%Z.
Proof.
  intros ND I. induction l as [|f l IH]; [destruct I|]. inversion ND as [|? ? N1 N2]; subst. cbn [times]. destruct I as [->|I].
  - rewrite !Nat.eqb_refl. cbn [andb]. rewrite times_out by exact N1. reflexivity.
  - rewrite (IH N2 I). destruct e as [x y], f as [x' y']. cbn [fst snd]. destruct ((x =? x') && (y =? y')) eqn:T; [|reflexivity].
    apply andb_true_iff in T. destruct T as [T1 T2]. apply Nat.eqb_eq in T1, T2. subst. contradiction.
Qed.
Lemma path_links_fst l e : In e (path_links l) -> In (fst e) l.
Proof. destruct e as [x y]. intros H. apply in_combine_l in H. exact H. Qed.
Lemma path_links_nodup l : NoDup l -> NoDup (path_links l).
Proof.
  induction l as [|a l IH]; intros ND; [constructor|]. destruct l as [|b l]; [constructor|]. rewrite path_links_cons. inversion ND as [|? ? N1 N2]; subst. constructor; [|apply IH, N2].
  intros H. apply path_links_fst in H. contradiction.
Qed.
Lemma removelast_nodup {A} (l : list A) : NoDup l -> NoDup (removelast l).
Proof. intros H. destruct l as [|a l] using rev_ind; [exact H|]. rewrite removelast_last. clear IHl. apply NoDup_remove_1 in H. rewrite app_nil_r in H. exact H. Qed.
Lemma removelast_in {A} (l : list A) x : In x (removelast l) -> In x l.
Proof. destruct l as [|a l] using rev_ind; [intros []|]. rewrite removelast_last. intros H. apply in_or_app. left. exact H. Qed.
Lemma inner_nodup l : NoDup l -> NoDup (inner_links l).
Proof. intros H. apply path_links_nodup, removelast_nodup in H. unfold inner_links. destruct (removelast (path_links l)); [exact H|]. inversion H; assumption. Qed.
Lemma follows_links (P : nat -> nat -> Prop) u l d x y : follows P u l d -> In (x, y) (path_links l) -> P x y.
Proof.
  revert u. induction l as [|a l IH]; intros u F H; [destruct F|]. destruct F as [-> F]. destruct l as [|b l]; [destruct H|]. rewrite path_links_cons in H. destruct F as [L F]. destruct H as [[= <- <-]|H]; [exact L|apply (IH b F H)].
Qed.
Lemma follows_in (P : nat -> nat -> Prop) u l d v : (forall x y, x < v -> P x y -> y < v) -> u < v -> follows P u l d -> Forall (fun x => x < v) l.
Proof.
  intros H. revert u. induction l as [|a l IH]; intros u Hu F; [constructor|]. destruct F as [-> F]. constructor; [exact Hu|]. destruct l as [|b l]; [constructor|]. destruct F as [L F]. apply (IH b); [apply (H u b Hu L)|exact F].
Qed.
Lemma contention_pos g l : (0 <= contention g l)%Z.
Proof. induction l as [|a l IH]; [reflexivity|]. cbn [contention]. destruct l; [reflexivity|]. lia. Qed.
Lemma path_cost_links g x l m : (0 <= m)%Z -> (forall a b, In (a, b) (path_links (x :: l)) -> map_index (g_v g) a b < length (g_util g)) -> path_cost_from g x l m = Ok (Z.max m (contention g (x :: l))).
Proof.
  revert x m. induction l as [|y l IH]; intros x m Hm H.
  - cbn. f_equal. lia.
  - cbn [path_cost_from]. rewrite link_use_ok by (apply H; left; reflexivity). cbn [bind]. rewrite IH; [|lia|intros a b Hab; apply H; right; exact Hab].
    f_equal. change (contention g (x :: y :: l)) with (Z.max (use_of g x y) (contention g (y :: l))). lia.
Qed.
Lemma contention_cost g l : l <> [] -> (forall a b, In (a, b) (path_links l) -> map_index (g_v g) a b < length (g_util g)) -> find_path_cost g l = Ok (contention g l).
Proof.
  intros N H. destruct l as [|x l]; [contradiction|]. cbn [find_path_cost]. rewrite path_cost_links; [|reflexivity|exact H]. f_equal. apply Z.max_r, contention_pos.
Qed.
Lemma path_links_split l x y : In (x, y) (path_links l) -> exists p q, l = p ++ x :: y :: q.
Proof.
  induction l as [|a l IH]; intros H; [destruct H|]. destruct l as [|b l]; [destruct H|]. rewrite path_links_cons in H. destruct H as [[= -> ->]|H]; [exists [], l; reflexivity|].
  destruct (IH H) as (p & q & ->). exists (a :: p), q. reflexivity.
Qed.
(** The links of a simple path are counted as soon as the others are never read. *)
Lemma safe_counted g u l d : closed_links g -> u < g_v g -> read_safe g u -> follows (has_link g) u l d -> NoDup l -> forall x y, In (x, y) (path_links l) -> map_index (g_v g) x y < length (g_util g).
Proof.
  intros Cl Hu Rs F ND x y H. pose proof (follows_in (has_link g) u l d (g_v g) (fun a b Ha Hb => Cl a b Ha Hb) Hu F) as Fv.
  assert (Hx : x < g_v g) by (rewrite Forall_forall in Fv; apply Fv, (path_links_fst l (x, y) H)).
  destruct (Rs x y Hx (follows_links _ _ _ _ x y F H)) as [C|[Nu D]]; [exact C|exfalso].
  destruct (path_links_split l x y H) as (p & q & ->). destruct p as [|z p _] using rev_ind.
  - destruct F as [F _]. contradiction.
  - rewrite <- app_assoc in *. cbn [app] in *. assert (Hz : z = y).
    { apply D. apply (follows_links _ _ _ _ z x F). clear. induction p as [|a p IH]; [left; reflexivity|]. destruct p as [|b p]; right; exact IH. }
    subst z. apply NoDup_remove_2 in ND. apply ND. apply in_or_app. right. right. left. reflexivity.
Qed.
Lemma counted_safe g u : all_counted g -> read_safe g u.
Proof. intros C x y Hx Hy. left. apply C; assumption. Qed.
Lemma route_of g s d uses l : closed_links g -> s + mesh_size g < g_v g -> s <> d -> read_safe g (s + mesh_size g) -> length uses = length (g_util g) ->
  find_path_dijkstra g s d = Ok l -> fewest_links (has_link g) (s + mesh_size g) l (d + mesh_size g) ->
  exists route uses', dijkstra_find_paths g s d uses = Ok (contention g l, route, uses') /\
    map (map_index_pair (g_v g)) route = path_links l /\ length uses' = length uses /\
    forall x y, y < g_v g -> map_index (g_v g) x y < length uses ->
      (In (x, y) (inner_links l) -> nth (map_index (g_v g) x y) uses' 0%Z = (nth (map_index (g_v g) x y) uses 0 + 1)%Z) /\
      (~ In (x, y) (inner_links l) -> nth (map_index (g_v g) x y) uses' 0%Z = nth (map_index (g_v g) x y) uses 0%Z).
Proof.
  intros Cl Hs Ne Rs Len E Few. pose proof Few as [F _]. pose proof (fewest_nodup _ _ _ _ Few) as ND.
  pose proof (follows_in (has_link g) _ _ _ (g_v g) (fun x y Hx H => Cl x y Hx H) Hs F) as Fv.
  assert (Hl : exists a b t, l = a :: b :: t). { destruct l as [|a [|b t]]; [destruct F|destruct F as [-> F]; lia|eauto]. } destruct Hl as (a & b & t & El).
  pose proof (safe_counted g _ l _ Cl Hs Rs F ND) as Bound.
  destruct (count_links_ok (g_v g) (b :: t) uses) as (uses' & Ec & Lu & Nth).
  { rewrite El in Fv. inversion Fv; assumption. }
  { intros x y H. rewrite Len. apply Bound. rewrite El. right. exact H. }
  exists (link_ids (g_v g) l), uses'. split; [|split; [|split; [exact Lu|]]].
  - unfold dijkstra_find_paths. rewrite E. cbn [bind]. rewrite (contention_cost g l); [|rewrite El; discriminate|exact Bound]. cbn [bind]. unfold setmap.
    rewrite El. cbn [length Nat.eqb Nat.ltb Nat.leb tl]. rewrite Ec. reflexivity.
  - apply link_ids_pairs, Fv.
  - intros x y Hy Hi. rewrite (Nth x y Hy Hi). unfold inner_links. rewrite El. rewrite <- (inner_eq a (b :: t)) by (cbn; lia). split; intros H.
    + rewrite times_in; [reflexivity| |exact H]. apply removelast_nodup, path_links_nodup. rewrite El in ND. inversion ND; assumption.
    + rewrite times_out by exact H. lia.
Qed.
Lemma get_path_best g s d k : closed_links g -> read_safe g (s + mesh_size g) -> s + mesh_size g < g_v g -> s <> d -> path_length g s d = Ok k ->
  let candidate p := follows (has_link g) (s + mesh_size g) p (d + mesh_size g) /\ NoDup p /\ length p <= S k in
  exists r, get_path g s d = Ok r /\ (r = [] -> forall p, ~ candidate p) /\ (r <> [] -> candidate r /\ forall p, candidate p -> (contention g r <= contention g p)%Z).
Proof.
  intros Cl Rs Hs Ne Ek cand. unfold get_path. rewrite Ek. cbn [bind]. replace (s =? d) with false by (symmetry; apply Nat.eqb_neq; exact Ne). rewrite least_cost_keep.
  set (ps := all_paths k (g_adj g) (d + mesh_size g) [] (s + mesh_size g)).
  assert (In_cand : forall p, In p ps <-> cand p).
  { intros p. unfold ps, cand. rewrite all_paths_spec by (intros []). split.
    - intros (t & -> & F & L & ND & _). cbn. split; [exact F|]. split; [exact ND|]. lia.
    - intros (F & ND & L). destruct p as [|a t]; [destruct F|]. pose proof F as [-> _]. exists t. split; [reflexivity|]. split; [exact F|]. split; [cbn in L; lia|]. split; [exact ND|]. intros x _ []. }
  destruct (keep_all_spec g cand ps []) as (r & E & R1 & R2 & R3).
  - intros p (F & ND & _). assert (Np : p <> []) by (intros ->; destruct F). split; [exact Np|]. apply contention_cost; [exact Np|]. apply (safe_counted g _ p _ Cl Hs Rs F ND).
  - apply Forall_forall. intros p. apply In_cand.
  - left. reflexivity.
  - exists r. split; [exact E|]. split.
    + intros Er p Hp. destruct (R1 Er) as [_ P]. apply In_cand in Hp. rewrite P in Hp. destruct Hp.
    + intros Nr. split; [destruct (R2 Nr) as [H|H]; [contradiction|apply In_cand, H]|]. intros p Hp. apply R3; [right; apply In_cand, Hp|]. destruct Hp as [F _]. intros ->. destruct F.
Qed.
