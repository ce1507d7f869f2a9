(** Properties of the mesh network, of the mappings and of the routes: C49-C52, C61-C64. *)
From Verif Require Import Base Noc NocSpec NocProofs NocRoutes.
Open Scope Z_scope.

Lemma make_noc_inv xs ys n : 0 <= xs -> 0 <= ys -> make_noc xs ys = Ok n -> n = pure_noc xs ys /\ fits xs ys.
Proof.
  intros Hx Hy E. assert (D : fits xs ys \/ ~ fits xs ys) by (unfold fits; lia). destruct D as [F|F].
  - rewrite (make_noc_ok xs ys Hx Hy F) in E. injection E as <-. auto.
  - exfalso. assert (0 < xs) by (destruct (Z.eq_dec xs 0) as [->|]; [exfalso; apply F; unfold fits, i32_max; lia|lia]).
    assert (0 < ys) by (destruct (Z.eq_dec ys 0) as [->|]; [exfalso; apply F; unfold fits, i32_max; lia|lia]).
    unfold make_noc in E. rewrite (generate_overflow xs ys) in E by assumption. discriminate.
Qed.

(** ** C49 *)
(** As long as the largest identifier fits in an int, the mesh is built, all node and link
    identifiers are distinct, there is a router and a core at each position with the right
    coordinates and nothing else, and the links are exactly those of the mesh. *)
Theorem C49_generation_partial : forall xs ys, 0 <= xs -> 0 <= ys -> 4 * (xs * ys) * (xs * ys) + xs * ys - 1 <= 2147483647 ->
  exists n, make_noc xs ys = Ok n /\ NoDup (map l_id (links n) ++ map n_id (nodes n)) /\
  (forall x, In x (nodes n) <-> exists X Y, in_mesh xs ys X Y /\
     (x = mkNode (router_at xs X Y) false (2 * X + 1) (2 * Y + 1) \/ x = mkNode (core_at xs ys X Y) true (2 * X) (2 * Y))) /\
  NoDup (map (fun l => (l_src l, l_dst l)) (links n)) /\
  (forall a b, (exists l, In l (links n) /\ l_src l = a /\ l_dst l = b) <-> linked xs ys a b).
Proof.
  intros xs ys Hx Hy F. exists (pure_noc xs ys). split; [apply make_noc_ok; assumption|]. split; [apply all_ids_nodup|]. split; [apply pure_nodes|]. split.
  - apply NoDup_map_inj; [apply links_nodup|]. intros l l' H H' E. apply pure_links in H, H'. destruct H as (a & b & -> & L), H' as (a' & b' & -> & L'). injection E as -> ->. reflexivity.
  - intros a b. split.
    + intros (l & H & <- & <-). apply pure_links in H. destruct H as (a & b & -> & L). exact L.
    + intros L. exists (plink (xs * ys * 2) a b). split; [apply pure_links; eauto|]. auto.
Qed.
Print Assumptions C49_generation_partial.
(** Links go both ways and a core is linked to its own router only. *)
Theorem C49_symmetric : forall xs ys a b, linked xs ys a b -> linked xs ys b a.
Proof. intros xs ys a b L. inversion L; subst; constructor; assumption. Qed.
Print Assumptions C49_symmetric.
Theorem C49_core_has_one_router : forall xs ys X Y b, in_mesh xs ys X Y -> (linked xs ys (core_at xs ys X Y) b <-> b = router_at xs X Y).
Proof. intros xs ys X Y b M. split; [apply from_core_only, M|]. intros ->. constructor. exact M. Qed.
Print Assumptions C49_core_has_one_router.
(** Looking up a link by its ends or by its identifier finds it. *)
Theorem C49_lookup : forall xs ys n l, 0 <= xs -> 0 <= ys -> make_noc xs ys = Ok n -> In l (links n) ->
  get_edge n (l_src l) (l_dst l) = Ok l /\ get_edge_by_id n (l_id l) = Ok l.
Proof.
  intros xs ys n l Hx Hy E H. destruct (make_noc_inv xs ys n Hx Hy E) as [-> _]. unfold get_edge, get_edge_by_id. split.
  - rewrite (find_unique _ _ l); [reflexivity|exact H|rewrite !Z.eqb_refl; reflexivity|]. intros y Hy' T. apply andb_true_iff in T. destruct T as [T1 T2]. apply Z.eqb_eq in T1, T2.
    apply pure_links in H, Hy'. destruct H as (a & b & -> & _), Hy' as (a' & b' & -> & _). cbn in T1, T2. subst. reflexivity.
  - rewrite (find_unique _ _ l); [reflexivity|exact H|apply Z.eqb_refl|]. intros y Hy' T. apply Z.eqb_eq in T. apply (NoDup_map_eq l_id (links (pure_noc xs ys))); [apply link_ids_nodup|assumption..].
Qed.
Print Assumptions C49_lookup.
(** Beyond, the identifiers overflow: 153 x 153 is the first square mesh that cannot be built. *)
Theorem C49_overflow_refuted : forall xs ys, 0 < xs -> 0 < ys -> 2147483647 < 4 * (xs * ys) * (xs * ys) + xs * ys - 1 -> make_noc xs ys = Undefined.
Proof. intros xs ys Hx Hy F. unfold make_noc. rewrite generate_overflow; [reflexivity|assumption..|]. unfold fits, i32_max. lia. Qed.
Print Assumptions C49_overflow_refuted.
Example C49_hyp : (exists n, make_noc 3 2 = Ok n /\ length (nodes n) = 12%nat /\ length (links n) = 26%nat) /\ 4 * (152 * 152) * (152 * 152) + 152 * 152 - 1 <= 2147483647 < 4 * (153 * 153) * (153 * 153) + 153 * 153 - 1.
Proof. split; [eexists; split; [vm_compute; reflexivity|split; reflexivity]|lia]. Qed.

(** ** C50 *)
(** Between any two cores the route is a chain of links of the mesh from the first core to the
    second: to the router, along the row, along the column, to the core. *)
Theorem C50_xy_route : forall xs ys n X0 Y0 X1 Y1 fuel, 0 <= xs -> 0 <= ys -> make_noc xs ys = Ok n -> in_mesh xs ys X0 Y0 -> in_mesh xs ys X1 Y1 ->
  (Z.to_nat (Z.max (Z.abs (X1 - X0)) (Z.abs (Y1 - Y0))) <= fuel)%nat ->
  exists first lx ly last,
    xy_route fuel n (core_at xs ys X0 Y0) (core_at xs ys X1 Y1) = Ok (map l_id (first :: lx ++ ly ++ [last])) /\
    connected (core_at xs ys X0 Y0) (first :: lx ++ ly ++ [last]) (core_at xs ys X1 Y1) /\
    (forall l, In l (first :: lx ++ ly ++ [last]) -> In l (links n)) /\
    (forall l, In l lx -> in_row xs ys l) /\ (forall l, In l ly -> in_column xs ys l) /\
    Z.of_nat (length lx) = Z.abs (X1 - X0) /\ Z.of_nat (length ly) = Z.abs (Y1 - Y0).
Proof. intros xs ys n X0 Y0 X1 Y1 fuel Hx Hy E. destruct (make_noc_inv xs ys n Hx Hy E) as [-> _]. apply xy_route_ok. Qed.
Print Assumptions C50_xy_route.
(** No route is shorter. *)
Theorem C50_shortest : forall xs ys n X0 Y0 X1 Y1 ls, 0 <= xs -> 0 <= ys -> make_noc xs ys = Ok n -> in_mesh xs ys X0 Y0 -> in_mesh xs ys X1 Y1 -> (X0, Y0) <> (X1, Y1) ->
  connected (core_at xs ys X0 Y0) ls (core_at xs ys X1 Y1) -> (forall l, In l ls -> In l (links n)) ->
  Z.abs (X1 - X0) + Z.abs (Y1 - Y0) + 2 <= Z.of_nat (length ls).
Proof.
  intros xs ys n X0 Y0 X1 Y1 ls Hx Hy E M0 M1 Ne Co Hl. destruct (make_noc_inv xs ys n Hx Hy E) as [-> _].
  (* distance left to go from any node *)
  set (left := fun i => if i <? xs * ys then Z.abs (X1 - i mod xs) + Z.abs (Y1 - i / xs) + 1
                        else if i =? core_at xs ys X1 Y1 then 0 else Z.abs (X1 - (i - xs * ys) mod xs) + Z.abs (Y1 - (i - xs * ys) / xs) + 2).
  assert (PR : forall X Y, in_mesh xs ys X Y -> router_at xs X Y mod xs = X /\ router_at xs X Y / xs = Y).
  { intros X Y [MX MY]. unfold router_at. split; [symmetry; apply (Z.mod_unique _ xs Y X); lia|symmetry; apply (Z.div_unique _ xs Y X); lia]. }
  assert (LR : forall X Y, in_mesh xs ys X Y -> left (router_at xs X Y) = Z.abs (X1 - X) + Z.abs (Y1 - Y) + 1).
  { intros X Y M. unfold left. pose proof (router_bound _ _ _ _ M). replace (router_at xs X Y <? xs * ys) with true by lia. destruct (PR X Y M) as [-> ->]. reflexivity. }
  assert (LC : forall X Y, in_mesh xs ys X Y -> left (core_at xs ys X Y) = if (X =? X1) && (Y =? Y1) then 0 else Z.abs (X1 - X) + Z.abs (Y1 - Y) + 2).
  { intros X Y M. unfold left. rewrite !core_router. pose proof (router_bound _ _ _ _ M). replace (router_at xs X Y + xs * ys <? xs * ys) with false by lia.
    replace (router_at xs X Y + xs * ys - xs * ys) with (router_at xs X Y) by lia. destruct (PR X Y M) as [-> ->].
    destruct (Z.eqb_spec (router_at xs X Y + xs * ys) (router_at xs X1 Y1 + xs * ys)) as [Eq|Nq].
    - assert (Eq' : router_at xs X Y = router_at xs X1 Y1) by lia. destruct (router_inj _ _ _ _ _ _ M M1 Eq') as [-> ->]. rewrite !Z.eqb_refl. reflexivity.
    - destruct (Z.eqb_spec X X1) as [->|]; [destruct (Z.eqb_spec Y Y1) as [->|]|]; [exfalso; apply Nq; reflexivity|reflexivity|reflexivity]. }
  assert (Step : forall a b, linked xs ys a b -> left a <= left b + 1).
  { intros a b L. inversion L; subst; rewrite ?LR, ?LC by assumption; try (destruct ((X =? X1) && (Y =? Y1)) eqn:T; [apply andb_true_iff in T; destruct T as [T1 T2]; apply Z.eqb_eq in T1, T2; subst|]); lia. }
  assert (Gen : forall ls a, (forall l, In l ls -> In l (links (pure_noc xs ys))) -> connected a ls (core_at xs ys X1 Y1) -> left a <= Z.of_nat (length ls)).
  { clear ls Co Hl. induction ls as [|l ls IH]; intros a Hl Co; cbn [connected length] in *.
    - subst a. rewrite LC by exact M1. rewrite !Z.eqb_refl. cbn. lia.
    - destruct Co as [<- Co]. specialize (IH (l_dst l) (fun l' H => Hl l' (or_intror H)) Co). pose proof (Hl l (or_introl eq_refl)) as Hin. apply pure_links in Hin. destruct Hin as (a & b & -> & L). cbn [plink l_src l_dst] in *. specialize (Step a b L). lia. }
  specialize (Gen ls _ Hl Co). rewrite LC in Gen by exact M0. destruct (Z.eqb_spec X0 X1) as [->|]; [destruct (Z.eqb_spec Y0 Y1) as [->|]|]; cbn [andb] in Gen; [congruence|lia|lia].
Qed.
Print Assumptions C50_shortest.
Example C50_hyp : exists n, make_noc 3 2 = Ok n /\ in_mesh 3 2 0 1 /\ in_mesh 3 2 2 0 /\ (do r <- xy_route 5 n (core_at 3 2 0 1) (core_at 3 2 2 0); Ok (length r)) = Ok 5%nat.
Proof. eexists. split; [vm_compute; reflexivity|]. split; [split; lia|]. split; [split; lia|]. vm_compute. reflexivity. Qed.

(** ** C51 *)
(** The modulo mapping never places a task on a core: the node chosen is a router. *)
Theorem C51_modulo_mapping_refuted : forall xs ys n id, 0 < xs -> 0 < ys -> make_noc xs ys = Ok n -> 1 <= id ->
  exists i x, modulo_mapping n id = Ok i /\ get_node n i = Ok x /\ n_core x = false.
Proof.
  intros xs ys n id Hx Hy E Hi. destruct (make_noc_inv xs ys n ltac:(lia) ltac:(lia) E) as [-> F]. set (s := xs * ys). assert (0 < s) by (unfold s; nia).
  unfold fits in F. fold s in F.
  unfold modulo_mapping, noc_size, imul. cbn [pure_noc xsize ysize]. fold s. rewrite i32_ok by nia. cbn [bind]. replace (s =? 0) with false by lia.
  pose proof (Z.rem_bound_pos (id - 1) s ltac:(lia) ltac:(lia)) as B. set (i := Z.rem (id - 1) s) in *.
  pose proof (Z.div_mod i xs ltac:(lia)) as DM. pose proof (Z.mod_pos_bound i xs ltac:(lia)) as MB.
  assert (M : in_mesh xs ys (i mod xs) (i / xs)). { split; [exact MB|]. split; [apply Z.div_pos; lia|apply Z.div_lt_upper_bound; [lia|unfold s in B; lia]]. }
  exists i, (RN xs (i mod xs) (i / xs)). split; [reflexivity|]. split; [|reflexivity]. rewrite <- (get_router xs ys _ _ M). f_equal. unfold router_at. lia.
Qed.
Print Assumptions C51_modulo_mapping_refuted.
(** As a consequence routing a channel between the tasks 1 and 2 so mapped is undefined: the
    search for a neighbour of a core runs off the end. *)
Theorem C51_route_undefined_refuted : forall xs ys n fuel, 2 <= xs -> 1 <= ys -> make_noc xs ys = Ok n ->
  (do a <- modulo_mapping n 1; do b <- modulo_mapping n 2; xy_route (S fuel) n a b) = Undefined.
Proof.
  intros xs ys n fuel Hx Hy E. destruct (make_noc_inv xs ys n ltac:(lia) ltac:(lia) E) as [-> F]. assert (2 <= xs * ys) by nia.
  assert (M0 : in_mesh xs ys 0 0) by (split; lia). assert (Es : noc_size (pure_noc xs ys) = Ok (xs * ys)) by (unfold noc_size, imul; cbn [pure_noc xsize ysize]; unfold fits in F; apply i32_ok; nia).
  unfold modulo_mapping. rewrite Es. cbn [bind]. replace (xs * ys =? 0) with false by lia. cbn [bind]. change (1 - 1) with 0. change (2 - 1) with 1. rewrite Z.rem_0_l, Z.rem_small by lia.
  assert (P : exists ps, positions xs ys = (0, 0) :: ps).
  { unfold positions, upto. replace (Z.to_nat xs) with (S (Z.to_nat (xs - 1))) by lia. replace (Z.to_nat ys) with (S (Z.to_nat (ys - 1))) by lia. cbn [seq map flat_map app]. eauto. }
  destruct P as [ps P]. set (N := xs * ys * 2).
  assert (L : exists ls, links (pure_noc xs ys) = plink N 0 (core_at xs ys 0 0) :: plink N (core_at xs ys 0 0) 0 :: plink N 0 1 :: ls).
  { cbn [pure_noc links]. rewrite P. cbn [flat_map fst snd]. unfold plinks. cbv zeta. replace (0 <? xs - 1) with true by lia. cbn [app]. eexists. reflexivity. }
  destruct L as [ls L].
  unfold xy_route, src_neighbour, dst_neighbour. rewrite L. cbn [first_link bind l_src l_dst plink]. rewrite Z.eqb_refl. cbn [bind l_dst].
  assert (Cn : core_at xs ys 0 0 = xs * ys) by (unfold core_at; lia). rewrite Cn in *. replace (xs * ys =? 1) with false by lia. cbn [bind]. change (0 =? 1) with false. cbn [bind]. rewrite Z.eqb_refl. cbn [bind l_src].
  change (l_dst (plink N 0 (xs * ys))) with (xs * ys). change (l_src (plink N 0 1)) with (router_at xs 0 0). rewrite <- Cn. rewrite get_core by exact M0. cbn [bind]. rewrite get_router by exact M0. cbn [bind CN RN n_x n_y n_id]. change (2 * 0 <? 2 * 0 + 1) with true. cbn [travel]. change (n_x _ =? 2 * 0 + 1) with false. cbn [n_id]. change (n_id (CN xs ys 0 0)) with (core_at xs ys 0 0).
  replace (right_neighbour (pure_noc xs ys) (core_at xs ys 0 0)) with (@Undefined link); [reflexivity|]. symmetry. unfold right_neighbour.
  assert (G : forall es, (forall l, In l es -> In l (links (pure_noc xs ys))) -> first_link (towards (pure_noc xs ys) (core_at xs ys 0 0) (fun a b => (n_y a =? n_y b) && (n_x a <? n_x b))) es = Undefined).
  { induction es as [|l es IH]; intros H'; [reflexivity|]. cbn [first_link].
    assert (T : towards (pure_noc xs ys) (core_at xs ys 0 0) (fun a b => (n_y a =? n_y b) && (n_x a <? n_x b)) l = Ok false).
    { pose proof (H' l (or_introl eq_refl)) as Hin. apply pure_links in Hin. destruct Hin as (a & b & -> & Lk). unfold towards. cbn [plink l_src l_dst]. destruct (Z.eqb_spec a (core_at xs ys 0 0)) as [->|]; [|reflexivity].
      rewrite (from_core_only xs ys 0 0 b M0 Lk). rewrite get_core, get_router by exact M0. reflexivity. }
    rewrite T. cbn [bind]. apply IH. intros; apply H'; right; assumption. }
  apply G. auto.
Qed.
Print Assumptions C51_route_undefined_refuted.
Example C51_hyp : exists n, make_noc 2 2 = Ok n /\ modulo_mapping n 7 = Ok 2 /\ (do a <- modulo_mapping n 1; do b <- modulo_mapping n 2; xy_route 9 n a b) = Undefined.
Proof. eexists. split; [vm_compute; reflexivity|]. split; vm_compute; reflexivity. Qed.

(** ** C52 *)
(** On a square mesh the result is the number of routers on a shortest path between the routers
    at columns X0, X1 and rows Y0, Y1. *)
Theorem C52_square_partial : forall side X0 Y0 X1 Y1, in_mesh side side X0 Y0 -> in_mesh side side X1 Y1 ->
  get_distance (router_at side X0 Y0) (router_at side X1 Y1) side side = Ok (Z.abs (X0 - X1) + Z.abs (Y0 - Y1) + 1).
Proof.
  intros side X0 Y0 X1 Y1 [A0 B0] [A1 B1]. unfold get_distance. replace (side =? 0) with false by lia. cbn [orb]. f_equal.
  assert (P : forall X Y, 0 <= X < side -> 0 <= Y < side -> Z.quot (router_at side X Y) side = Y /\ Z.rem (router_at side X Y) side = X).
  { intros X Y HX HY. unfold router_at. assert (0 <= X + Y * side) by nia. split; [symmetry; apply (Z.quot_unique _ side Y X); lia|symmetry; apply (Z.rem_unique _ side Y X); lia]. }
  destruct (P X0 Y0 A0 B0) as [-> ->], (P X1 Y1 A1 B1) as [-> ->]. lia.
Qed.
Print Assumptions C52_square_partial.
(** With more columns than rows or the reverse it is not: neighbours can be at distance 3. *)
Theorem C52_rectangle_refuted :
  (exists cols rows X0 Y0 X1 Y1, in_mesh cols rows X0 Y0 /\ in_mesh cols rows X1 Y1 /\ cols < rows /\
     get_distance (router_at cols X0 Y0) (router_at cols X1 Y1) rows cols <> Ok (Z.abs (X0 - X1) + Z.abs (Y0 - Y1) + 1)) /\
  (exists cols rows X0 Y0 X1 Y1, in_mesh cols rows X0 Y0 /\ in_mesh cols rows X1 Y1 /\ rows < cols /\
     get_distance (router_at cols X0 Y0) (router_at cols X1 Y1) rows cols <> Ok (Z.abs (X0 - X1) + Z.abs (Y0 - Y1) + 1)).
Proof.
  split.
  - exists 2, 3, 0, 0, 0, 1. repeat split; try lia. vm_compute. discriminate.
  - exists 3, 2, 0, 0, 2, 0. repeat split; try lia. vm_compute. discriminate.
Qed.
Print Assumptions C52_rectangle_refuted.
Example C52_hyp : in_mesh 4 4 1 3 /\ in_mesh 4 4 3 0 /\ get_distance (router_at 4 1 3) (router_at 4 3 0) 4 4 = Ok 6.
Proof. repeat split; lia. Qed.

(** ** C61 *)
(** The random mapping places every task on a core, whatever the random number. *)
Theorem C61_random_mapping : forall xs ys n r, 0 < xs -> 0 < ys -> make_noc xs ys = Ok n -> 0 <= r ->
  exists i x, random_mapping n r = Ok i /\ get_node n i = Ok x /\ n_core x = true.
Proof.
  intros xs ys n r Hx Hy E Hr. destruct (make_noc_inv xs ys n ltac:(lia) ltac:(lia) E) as [-> F]. set (s := xs * ys). assert (0 < s) by (unfold s; nia).
  unfold fits in F. fold s in F. unfold random_mapping, noc_size, imul, iadd. cbn [pure_noc xsize ysize]. fold s. rewrite i32_ok by nia. cbn [bind]. replace (s =? 0) with false by lia.
  pose proof (Z.rem_bound_pos r s ltac:(lia) ltac:(lia)) as B. set (i := Z.rem r s) in *. rewrite i32_ok by nia.
  pose proof (Z.div_mod i xs ltac:(lia)) as DM. pose proof (Z.mod_pos_bound i xs ltac:(lia)) as MB.
  assert (M : in_mesh xs ys (i mod xs) (i / xs)). { split; [exact MB|]. split; [apply Z.div_pos; lia|apply Z.div_lt_upper_bound; [lia|unfold s in B; lia]]. }
  exists (s + i), (CN xs ys (i mod xs) (i / xs)). split; [reflexivity|]. split; [|reflexivity]. rewrite <- (get_core xs ys _ _ M). f_equal. unfold core_at, s. lia.
Qed.
Print Assumptions C61_random_mapping.
(** Every core can be chosen. *)
Theorem C61_every_core : forall xs ys n X Y, 0 < xs -> 0 < ys -> make_noc xs ys = Ok n -> in_mesh xs ys X Y -> exists r, 0 <= r < xs * ys /\ random_mapping n r = Ok (core_at xs ys X Y).
Proof.
  intros xs ys n X Y Hx Hy E M. destruct (make_noc_inv xs ys n ltac:(lia) ltac:(lia) E) as [-> F]. pose proof (router_bound _ _ _ _ M) as RB. exists (router_at xs X Y). split; [exact RB|].
  unfold fits in F. assert (1 <= xs * ys) by nia. set (s := xs * ys) in *. unfold random_mapping, noc_size, imul, iadd. cbn [pure_noc xsize ysize]. fold s. rewrite i32_ok by nia. cbn [bind]. replace (s =? 0) with false by lia.
  rewrite Z.rem_small by lia. rewrite i32_ok by nia. rewrite core_router. f_equal. unfold s. lia.
Qed.
Print Assumptions C61_every_core.
Example C61_hyp : exists n, make_noc 3 2 = Ok n /\ random_mapping n 17 = Ok 11.
Proof. eexists. split; [vm_compute; reflexivity|]. vm_compute. reflexivity. Qed.

(** ** C62 *)
(** Whatever the random choices, the random route between two cores is never undefined; if it
    ends it is a chain of links from one to the other of the least possible length, and it ends
    once both directions have been chosen often enough. *)
Theorem C62_random_route : forall xs ys n X0 Y0 X1 Y1 choices, 0 <= xs -> 0 <= ys -> make_noc xs ys = Ok n -> in_mesh xs ys X0 Y0 -> in_mesh xs ys X1 Y1 ->
  (random_route n choices (core_at xs ys X0 Y0) (core_at xs ys X1 Y1) = Timeout /\
     (Z.of_nat (count_occ bool_dec choices true) < Z.abs (X1 - X0) \/ Z.of_nat (count_occ bool_dec choices false) < Z.abs (Y1 - Y0))) \/
  exists ls, random_route n choices (core_at xs ys X0 Y0) (core_at xs ys X1 Y1) = Ok (map l_id ls) /\
    connected (core_at xs ys X0 Y0) ls (core_at xs ys X1 Y1) /\ (forall l, In l ls -> In l (links n)) /\
    Z.of_nat (length ls) = Z.abs (X1 - X0) + Z.abs (Y1 - Y0) + 2.
Proof.
  intros xs ys n X0 Y0 X1 Y1 cs Hx Hy E M0 M1. destruct (make_noc_inv xs ys n Hx Hy E) as [-> _].
  assert (Cc : forall b, Z.of_nat (count_occ bool_dec cs b) = count b cs). { intros b. unfold count. f_equal. clear. induction cs as [|c cs IH]; [reflexivity|]. cbn [count_occ filter]. destruct b, c; cbn [Bool.eqb]; destruct (bool_dec _ _); try congruence; cbn [length]; rewrite IH; reflexivity. }
  rewrite !Cc. apply random_route_ok; assumption.
Qed.
Print Assumptions C62_random_route.
Example C62_hyp : exists n, make_noc 3 2 = Ok n /\ (do r <- random_route n [false; true; false; true] (core_at 3 2 0 1) (core_at 3 2 2 0); Ok (length r)) = Ok 5%nat.
Proof. eexists. split; [vm_compute; reflexivity|]. vm_compute. reflexivity. Qed.

(** ** C63 *)
(** The mesh created for a graph has at least one core per task, and is the smallest square of
    side at least two that does. *)
Theorem C63_mesh_side : forall count, 0 <= count -> let s := mesh_side count in count <= s * s /\ 2 <= s /\ forall k, 2 <= k -> count <= k * k -> s <= k.
Proof.
  intros c Hc. unfold mesh_side. pose proof (Z.sqrt_spec c Hc) as [S1 S2]. pose proof (Z.sqrt_nonneg c) as S0. set (r := Z.sqrt c) in *.
  assert (G : let m := if r * r =? c then r else r + 1 in c <= m * m /\ forall k, 2 <= k -> c <= k * k -> m <= k).
  { cbv zeta. destruct (Z.eqb_spec (r * r) c) as [Eq|Ne]; split; [lia| |lia|]; intros k Hk Le; nia. }
  cbv zeta in *. destruct G as [G1 G2]. destruct (Z.leb_spec (if r * r =? c then r else r + 1) 2) as [L|L].
  - split; [|split; [lia|intros; assumption]]. assert (0 <= (if r * r =? c then r else r + 1)) by (destruct (r * r =? c); lia). nia.
  - split; [exact G1|]. split; [lia|exact G2].
Qed.
Print Assumptions C63_mesh_side.
Example C63_hyp : mesh_side 1 = 2 /\ mesh_side 9 = 3 /\ mesh_side 10 = 4.
Proof. repeat split. Qed.

(** ** C64 *)
(** Waiting the number of slots computed reaches the wanted slot, and no shorter wait does. *)
Theorem C64_event_cycle : forall cur mine total, 0 <= cur < total -> 0 <= mine < total ->
  let w := event_cycle cur mine total in 0 <= w < total /\ (cur + w) mod total = mine /\ forall k, 0 <= k -> (cur + k) mod total = mine -> w <= k.
Proof.
  intros cur mine total H1 H2. unfold event_cycle. cbv zeta. rewrite Z.geb_leb. destruct (Z.leb_spec cur mine).
  - split; [lia|]. split; [replace (cur + (mine - cur)) with mine by lia; apply Z.mod_small; lia|]. intros k Hk E. destruct (Z.ltb_spec (cur + k) total); [rewrite Z.mod_small in E by lia; lia|lia].
  - split; [lia|]. split; [replace (cur + (total - cur + mine)) with (mine + 1 * total) by lia; rewrite Z.mod_add by lia; apply Z.mod_small; lia|].
    intros k Hk E. destruct (Z.ltb_spec (cur + k) total); [rewrite Z.mod_small in E by lia; lia|].
    destruct (Z.ltb_spec (cur + k) (2 * total)); [|lia]. replace (cur + k) with (cur + k - total + 1 * total) in E by lia. rewrite Z.mod_add, Z.mod_small in E by lia. lia.
Qed.
Print Assumptions C64_event_cycle.
Example C64_hyp : event_cycle 5 2 8 = 5 /\ event_cycle 2 5 8 = 3.
Proof. split; reflexivity. Qed.
