(** Properties C124-C127: the path searches over the network. *)
From Coq Require Import ZifyBool ZifyNat.
From Verif Require Import Base Noc NocSpec NocProofs NocProps NocPath NocPathSpec NocPathProofs NocPathMesh.
Open Scope nat_scope.

(** ** C124 *)
(** When a destination can be reached, the path returned follows links of the network from one core to
    the other, none has fewer links, and no path with as few links arrives by a less used link. *)
Theorem C124_shortest_partial : forall g s d, closed_links g -> all_counted g -> s + mesh_size g < g_v g -> d + mesh_size g < g_v g -> s <> d ->
  (exists l, follows (has_link g) (s + mesh_size g) l (d + mesh_size g)) ->
  exists l, find_path_dijkstra g s d = Ok l /\ fewest_links (has_link g) (s + mesh_size g) l (d + mesh_size g) /\
    forall l' p x q y, fewest_links (has_link g) (s + mesh_size g) l' (d + mesh_size g) -> l = p ++ [x; d + mesh_size g] -> l' = q ++ [y; d + mesh_size g] ->
      (use_of g x (d + mesh_size g) <= use_of g y (d + mesh_size g))%Z.
Proof.
  intros g s d Cl Co Hs Hd Ne (l0 & F0). unfold find_path_dijkstra. rewrite (search_path_ext _ _ _ _ _ _ (fun v s' x Hv Hx => relax_short_gen g v s' x Cl Co Hv Hx)).
  apply (follows_iff _ _ _ _ _ (fun a b => iff_sym (link_all g a b))) in F0.
  destruct (gen_found g _ _ Cl Hs Undefined (d + mesh_size g) l0 ltac:(lia) Hd F0) as (l & E & Few & Last). exists l. split; [exact E|]. split; [apply (fewest_iff _ _ _ _ _ (link_all g)), Few|].
  intros l' p x q y Few'. apply (Last l' x y p q). apply (fewest_iff _ _ _ _ _ (link_all g)), Few'.
Qed.
Print Assumptions C124_shortest_partial.
(** Searching a destination that cannot be reached is undefined behaviour. *)
Theorem C124_unreachable_refuted : forall g s d, closed_links g -> all_counted g -> s + mesh_size g < g_v g -> d + mesh_size g < g_v g -> s <> d ->
  (forall l, ~ follows (has_link g) (s + mesh_size g) l (d + mesh_size g)) -> find_path_dijkstra g s d = Undefined.
Proof.
  intros g s d Cl Co Hs Hd Ne No. unfold find_path_dijkstra. rewrite (search_path_ext _ _ _ _ _ _ (fun v s' x Hv Hx => relax_short_gen g v s' x Cl Co Hv Hx)).
  apply (gen_lost g _ _ Cl Hs Undefined (d + mesh_size g)); [lia|exact Hd|]. intros l F. apply (No l), (follows_iff _ _ _ _ _ (link_all g)), F.
Qed.
Print Assumptions C124_unreachable_refuted.

Lemma uses_closed xs ys n uses : (0 <= xs)%Z -> (0 <= ys)%Z -> make_noc xs ys = Ok n -> closed_links (with_uses (make_graph n) uses).
Proof. intros Hx Hy E. exact (mesh_closed xs ys n Hx Hy E). Qed.
Lemma mesh_read_safe xs ys n uses u : (0 <= xs)%Z -> (0 <= ys)%Z -> make_noc xs ys = Ok n -> length uses = g_v (make_graph n) * g_v (make_graph n) -> S u <> g_v (make_graph n) ->
  read_safe (with_uses (make_graph n) uses) u.
Proof.
  intros Hx Hy E Len Nu x y Hv L. cbn in *. pose proof (mesh_closed xs ys n Hx Hy E x y Hv L) as Hy'. pose proof (g_v_eq xs ys n Hx Hy E) as Ev. cbn in Hy', Ev.
  destruct (Nat.eq_dec (S x) (2 * Z.to_nat (xsize n * ysize n))) as [Ex|Nx].
  - right. split; [lia|]. intros z Lz. pose proof (core_router_only xs ys n Hx Hy E x) as R. apply (proj1 (R z ltac:(lia))) in Lz. apply (proj2 (R y ltac:(lia))) in L. cbn in *. lia.
  - left. rewrite Len. unfold map_index. set (V := 2 * Z.to_nat (xsize n * ysize n)) in *. assert (x <= V - 2) by lia. nia.
Qed.
(** On a generated mesh, with the counts NoCGraph keeps (one per pair of vertices), the search from any
    core but the last one is defined and returns a path with fewest links. *)
Theorem C124_mesh_partial : forall xs ys n uses s d, (0 <= xs)%Z -> (0 <= ys)%Z -> make_noc xs ys = Ok n -> let g := with_uses (make_graph n) uses in
  length uses = g_v g * g_v g -> S s < mesh_size g -> d < mesh_size g -> s <> d ->
  exists l, find_path_dijkstra g s d = Ok l /\ fewest_links (has_link g) (s + mesh_size g) l (d + mesh_size g).
Proof.
  intros xs ys n uses s d Hx Hy E g Len Hs Hd Ne. pose proof (g_v_eq xs ys n Hx Hy E) as Ev. pose proof (mesh_eq xs ys n Hx Hy E) as Em. change (mesh_size (make_graph n)) with (mesh_size g) in Em. change (g_v (make_graph n)) with (g_v g) in Ev.
  pose proof (uses_closed xs ys n uses Hx Hy E) as Cl. fold g in Cl. unfold find_path_dijkstra.
  rewrite (short_gen g (s + mesh_size g) Undefined (d + mesh_size g) Cl ltac:(lia)).
  2:{ apply (mesh_read_safe xs ys n uses); try assumption. change (g_v (make_graph n)) with (g_v g). lia. }
  destruct (mesh_near xs ys n Hx Hy E s d ltac:(lia) ltac:(lia)) as (l0 & F0 & _). change (follows (has_link g) (s + mesh_size g) l0 (d + mesh_size g)) in F0.
  apply (follows_iff _ _ _ _ _ (fun a b => iff_sym (link_all g a b))) in F0.
  destruct (gen_found g _ (s + mesh_size g) Cl ltac:(lia) Undefined (d + mesh_size g) l0 ltac:(lia) ltac:(lia) F0) as (l & El & Few & _). exists l. split; [exact El|]. apply (fewest_iff _ _ _ _ _ (link_all g)), Few.
Qed.
Print Assumptions C124_mesh_partial.
(** From the last core it always reads past the end of the counts. *)
Theorem C124_last_core_refuted : forall xs ys n uses s d, (0 <= xs)%Z -> (0 <= ys)%Z -> make_noc xs ys = Ok n -> let g := with_uses (make_graph n) uses in
  length uses = g_v g * g_v g -> S s = mesh_size g -> d < mesh_size g -> s <> d -> find_path_dijkstra g s d = Undefined.
Proof.
  intros xs ys n uses s d Hx Hy E g Len Hs Hd Ne. pose proof (g_v_eq xs ys n Hx Hy E) as Ev. pose proof (mesh_eq xs ys n Hx Hy E) as Em. change (mesh_size (make_graph n)) with (mesh_size g) in Em. change (g_v (make_graph n)) with (g_v g) in Ev.
  pose proof (uses_closed xs ys n uses Hx Hy E) as Cl. fold g in Cl. unfold find_path_dijkstra, search_path. set (u := s + mesh_size g).
  replace (u =? d + mesh_size g) with false by (symmetry; apply Nat.eqb_neq; lia). replace (u <? g_v g) with true by (symmetry; apply Nat.ltb_lt; lia). replace (d + mesh_size g <? g_v g) with true by (symmetry; apply Nat.ltb_lt; lia). cbn [andb negb].
  assert (T : turn (relax_short g) g (start u) = Undefined).
  { unfold turn. destruct (nearest (g_v g) (start u)) as [v|] eqn:N.
    2:{ destruct (nearest_none _ _ N u 0 ltac:(lia)). split; [reflexivity|apply set_at_eq]. }
    apply nearest_some in N. destruct N as (Hv & c & [_ Cv] & _). cbn in Cv. destruct (Nat.eq_dec v u) as [->|Nv]; [|rewrite set_at_neq in Cv by exact Nv; discriminate].
    pose proof (core_router_only xs ys n Hx Hy E u s ltac:(lia)) as [_ R]. apply proj2 in R. specialize (R eq_refl). change (In s (g_adj g u)) in R.
    destruct (g_adj g u) as [|x l] eqn:A; [destruct R|]. cbn [relax_all]. assert (Hx' : In x (g_adj g u)) by (rewrite A; left; reflexivity).
    unfold relax_short at 1. replace (x <? g_v g) with true by (symmetry; apply Nat.ltb_lt; apply (Cl u x); [lia|exact Hx']). cbn [negb s_vis].
    pose proof (core_router_only xs ys n Hx Hy E u x ltac:(lia)) as [_ R2]. apply (proj1 R2) in Hx'. change (x + mesh_size g = u) in Hx'.
    rewrite set_at_neq by lia. cbn [s_vis start].
    unfold link_use. replace (nth_error (g_util g) (map_index (g_v g) u x)) with (@None Z); [reflexivity|]. symmetry. apply nth_error_None. change (g_util g) with uses. rewrite Len. unfold map_index. assert (Eu : u = g_v g - 1) by lia. rewrite Eu. nia. }
  destruct (g_v g) as [|k] eqn:Ek; [lia|]. cbn [turns]. rewrite T. reflexivity.
Qed.
Print Assumptions C124_last_core_refuted.

(** ** C125 *)
(** The path returned has fewest links among those whose links are all used at most four times. *)
Theorem C125_found_partial : forall g s d, closed_links g -> all_counted g -> s + mesh_size g < g_v g -> d + mesh_size g < g_v g -> s <> d ->
  (exists l, follows (free_link g 4) (s + mesh_size g) l (d + mesh_size g)) ->
  exists l, find_low_contention_path g s d = Ok l /\ fewest_links (free_link g 4) (s + mesh_size g) l (d + mesh_size g).
Proof.
  intros g s d Cl Co Hs Hd Ne (l0 & F0). unfold find_low_contention_path. rewrite (search_path_ext _ _ _ _ _ _ (fun v s' x Hv Hx => relax_low_gen g v s' x Cl Co Hv Hx)).
  apply (follows_iff _ _ _ _ _ (fun a b => iff_sym (link_light g a b))) in F0.
  destruct (gen_found g _ _ Cl Hs (Ok []) (d + mesh_size g) l0 ltac:(lia) Hd F0) as (l & E & Few & _). exists l. split; [exact E|]. apply (fewest_iff _ _ _ _ _ (link_light g)), Few.
Qed.
Print Assumptions C125_found_partial.
(** Without such a path the answer is the empty path. *)
Theorem C125_none_partial : forall g s d, closed_links g -> all_counted g -> s + mesh_size g < g_v g -> d + mesh_size g < g_v g -> s <> d ->
  (forall l, ~ follows (free_link g 4) (s + mesh_size g) l (d + mesh_size g)) -> find_low_contention_path g s d = Ok [].
Proof.
  intros g s d Cl Co Hs Hd Ne No. unfold find_low_contention_path. rewrite (search_path_ext _ _ _ _ _ _ (fun v s' x Hv Hx => relax_low_gen g v s' x Cl Co Hv Hx)).
  apply (gen_lost g _ _ Cl Hs (Ok []) (d + mesh_size g)); [lia|exact Hd|]. intros l F. apply (No l), (follows_iff _ _ _ _ _ (link_light g)), F.
Qed.
Print Assumptions C125_none_partial.
(** On every generated mesh whose links are not overused, with the counts NoCGraph keeps, the search
    between any two cores reads past the end of the counts. *)
Theorem C125_mesh_refuted : forall xs ys n uses s d, (0 <= xs)%Z -> (0 <= ys)%Z -> make_noc xs ys = Ok n -> let g := with_uses (make_graph n) uses in
  length uses = g_v g * g_v g -> (forall w, In w uses -> (w <= 4)%Z) -> s < mesh_size g -> d < mesh_size g -> s <> d -> find_low_contention_path g s d = Undefined.
Proof.
  intros xs ys n uses s d Hx Hy E g Len Low Hs Hd Ne. pose proof (g_v_eq xs ys n Hx Hy E) as Ev. pose proof (mesh_eq xs ys n Hx Hy E) as Em. change (mesh_size (make_graph n)) with (mesh_size g) in Em. change (g_v (make_graph n)) with (g_v g) in Ev.
  pose proof (uses_closed xs ys n uses Hx Hy E) as Cl. fold g in Cl. unfold find_low_contention_path.
  set (c := mesh_size g - 1). destruct (mesh_near xs ys n Hx Hy E s c ltac:(lia) ltac:(lia)) as (l0 & F0 & _). change (follows (has_link g) (s + mesh_size g) l0 (c + mesh_size g)) in F0.
  apply (low_undefined g (s + mesh_size g) (Ok []) (d + mesh_size g) l0 (c + mesh_size g) c); [exact Cl|lia|lia|lia| | |].
  - refine (proj1 (follows_iff _ _ _ _ _ _) F0). intros a b. unfold has_link, free_link. split; [|tauto]. intros H. split; [exact H|]. unfold use_of. change (g_util g) with uses.
    destruct (Nat.lt_ge_cases (map_index (g_v g) a b) (length uses)) as [L|L]; [apply Low, nth_In, L|rewrite nth_overflow by exact L; discriminate].
  - apply (core_router_only xs ys n Hx Hy E (c + mesh_size g) c); [lia|reflexivity].
  - change (g_util g) with uses. rewrite Len. unfold map_index. assert (Ec : c + mesh_size g = g_v g - 1) by lia. rewrite Ec. nia.
Qed.
Print Assumptions C125_mesh_refuted.

(** ** C126 *)
(** The paths stored for two cores are exactly the paths without repeated vertex that have at most the
    computed number of links, each once. *)
Theorem C126_all_simple_paths : forall g s d k, (forall x, NoDup (g_adj g x)) -> s <> d -> path_length g s d = Ok k ->
  exists ps, shortest_paths g s d = Ok ps /\ NoDup ps /\
    forall p, In p ps <-> follows (has_link g) (s + mesh_size g) p (d + mesh_size g) /\ NoDup p /\ length p <= S k.
Proof.
  intros g s d k HN Ne Ek. unfold shortest_paths. rewrite Ek. cbn [bind]. replace (s =? d) with false by (symmetry; apply Nat.eqb_neq; exact Ne). eexists. split; [reflexivity|]. split; [apply all_paths_nodup; [exact HN|intros []]|].
  intros p. rewrite all_paths_spec by (intros []). split.
  - intros (t & -> & F & L & ND & _). cbn. split; [exact F|]. split; [exact ND|]. lia.
  - intros (F & ND & L). destruct p as [|a t]; [destruct F|]. pose proof F as [-> _]. exists t. split; [reflexivity|]. split; [exact F|]. split; [cbn in L; lia|]. split; [exact ND|]. intros x _ [].
Qed.
Print Assumptions C126_all_simple_paths.

Lemma mesh_path_length side n uses s d : (0 <= side)%Z -> make_noc side side = Ok n -> let g := with_uses (make_graph n) uses in s < mesh_size g -> d < mesh_size g -> s <> d ->
  path_length g s d = Ok (apart side s d + 2).
Proof.
  intros Hs E g Ls Ld Ne. pose proof (g_v_eq side side n Hs Hs E) as Ev. pose proof (mesh_eq side side n Hs Hs E) as Em. change (mesh_size (make_graph n)) with (mesh_size g) in Em. change (g_v (make_graph n)) with (g_v g) in Ev.
  unfold path_length. replace (s =? d) with false by (symmetry; apply Nat.eqb_neq; exact Ne). change (g_v g / 2) with (mesh_size g). rewrite Em. rewrite Z2Nat.inj_mul by assumption. rewrite Nat.sqrt_square.
  set (k := Z.to_nat side). assert (Ek : side = Z.of_nat k) by lia. assert (Pk : 0 < k) by nia. replace (k =? 0) with false by (symmetry; apply Nat.eqb_neq; lia). f_equal.
  unfold apart, col, row. rewrite Ek. rewrite <- !Nat2Z.inj_mod, <- !Nat2Z.inj_div. unfold absdiff. lia.
Qed.
(** On a square mesh they are exactly the paths with fewest links. *)
Theorem C126_square_mesh_partial : forall side n uses s d, (0 <= side)%Z -> make_noc side side = Ok n -> let g := with_uses (make_graph n) uses in
  s < mesh_size g -> d < mesh_size g -> s <> d ->
  exists ps, shortest_paths g s d = Ok ps /\ NoDup ps /\ forall p, In p ps <-> fewest_links (has_link g) (s + mesh_size g) p (d + mesh_size g).
Proof.
  intros side n uses s d Hs E g Ls Ld Ne. pose proof (mesh_eq side side n Hs Hs E) as Em. change (mesh_size (make_graph n)) with (mesh_size g) in Em.
  destruct (C126_all_simple_paths g s d _ (mesh_nodup side side n Hs Hs E) Ne (mesh_path_length side n uses s d Hs E Ls Ld Ne)) as (ps & Eps & ND & Iff). exists ps. split; [exact Eps|]. split; [exact ND|].
  intros p. rewrite Iff.
  assert (Far : forall l, follows (has_link g) (s + mesh_size g) l (d + mesh_size g) -> apart side s d + 3 <= length l) by (intros l F; apply (mesh_far side side n Hs Hs E s d l); [lia|lia|exact Ne|exact F]).
  destruct (mesh_near side side n Hs Hs E s d ltac:(lia) ltac:(lia)) as (l0 & F0 & L0). change (follows (has_link g) (s + mesh_size g) l0 (d + mesh_size g)) in F0.
  split.
  - intros (F & _ & L). split; [exact F|]. intros l' F'. specialize (Far l' F'). lia.
  - intros Few. pose proof Few as [F Min]. split; [exact F|]. split; [apply (fewest_nodup _ _ _ _ Few)|]. specialize (Min l0 F0). lia.
Qed.
Print Assumptions C126_square_mesh_partial.
(** Among them the one returned by getPath has the least contention: the use of its most used link is
    the smallest. *)
Theorem C126_least_contended : forall g s d k, closed_links g -> all_counted g -> s + mesh_size g < g_v g -> s <> d -> path_length g s d = Ok k ->
  let candidate p := follows (has_link g) (s + mesh_size g) p (d + mesh_size g) /\ NoDup p /\ length p <= S k in
  exists r, get_path g s d = Ok r /\ (r = [] -> forall p, ~ candidate p) /\ (r <> [] -> candidate r /\ forall p, candidate p -> (contention g r <= contention g p)%Z).
Proof. intros g s d k Cl Co Hs Ne Ek. apply get_path_best; try assumption. apply counted_safe, Co. Qed.
Print Assumptions C126_least_contended.
(** On a square mesh, with the counts NoCGraph keeps and from any core but the last: a path with fewest
    links that is the least contended of them. *)
Theorem C126_mesh_least_contended_partial : forall side n uses s d, (0 <= side)%Z -> make_noc side side = Ok n -> let g := with_uses (make_graph n) uses in
  length uses = g_v g * g_v g -> S s < mesh_size g -> d < mesh_size g -> s <> d ->
  exists r, get_path g s d = Ok r /\ fewest_links (has_link g) (s + mesh_size g) r (d + mesh_size g) /\
    forall p, fewest_links (has_link g) (s + mesh_size g) p (d + mesh_size g) -> (contention g r <= contention g p)%Z.
Proof.
  intros side n uses s d Hs E g Len Ls Ld Ne. pose proof (g_v_eq side side n Hs Hs E) as Ev. pose proof (mesh_eq side side n Hs Hs E) as Em. change (mesh_size (make_graph n)) with (mesh_size g) in Em. change (g_v (make_graph n)) with (g_v g) in Ev.
  assert (Ls' : s < mesh_size g) by lia.
  destruct (C126_square_mesh_partial side n uses s d Hs E Ls' Ld Ne) as (ps & Eps & _ & Iff). fold g in Eps, Iff.
  destruct (C126_all_simple_paths g s d _ (mesh_nodup side side n Hs Hs E) Ne (mesh_path_length side n uses s d Hs E Ls' Ld Ne)) as (ps' & Eps' & _ & Iff'). rewrite Eps in Eps'. injection Eps' as <-.
  destruct (get_path_best g s d (apart side s d + 2)) as (r & Er & R1 & R2).
  - exact (uses_closed side side n uses Hs Hs E).
  - apply (mesh_read_safe side side n uses); try assumption. change (g_v (make_graph n)) with (g_v g). lia.
  - lia.
  - exact Ne.
  - apply (mesh_path_length side n uses s d Hs E Ls' Ld Ne).
  - assert (Nr : r <> []).
    { intros ->. destruct (mesh_near side side n Hs Hs E s d ltac:(lia) ltac:(lia)) as (l0 & F0 & L0). apply (R1 eq_refl l0). apply Iff', Iff. split; [exact F0|]. intros l' F'.
      pose proof (mesh_far side side n Hs Hs E s d l' ltac:(lia) ltac:(lia) Ne F'). lia. }
    destruct (R2 Nr) as [C M]. exists r. split; [exact Er|]. split; [apply Iff, Iff', C|]. intros p Hp. apply M. apply Iff', Iff, Hp.
Qed.
Print Assumptions C126_mesh_least_contended_partial.

(** ** Concrete networks *)
Definition mesh22 : noc := match make_noc 2 2 with Ok n => n | _ => mkNoC 0 0 [] [] end.
Lemma mesh22_ok : make_noc 2 2 = Ok mesh22.
Proof. vm_compute. reflexivity. Qed.
(** The link from router 0 to router 1 is used four times, those from 0 to 2 and from 2 to 3 once. *)
Definition uses22 : list Z :=
  map (fun i => if i =? map_index 8 0 1 then 4%Z else if (i =? map_index 8 0 2) || (i =? map_index 8 2 3) then 1%Z else 0%Z) (seq 0 72).
Definition net22 : graph := with_uses (make_graph mesh22) uses22.
Lemma net22_closed : closed_links net22.
Proof. apply (uses_closed 2 2 mesh22 uses22); [discriminate|discriminate|apply mesh22_ok]. Qed.
Lemma net22_counted : all_counted net22.
Proof.
  intros x y Hx Hy. pose proof (net22_closed x y Hx Hy) as Hy'. replace (length (g_util net22)) with 72 by (vm_compute; reflexivity).
  replace (g_v net22) with 8 in * by (vm_compute; reflexivity). unfold map_index. lia.
Qed.
Example C124_hyp : find_path_dijkstra net22 0 3 = Ok [4; 0; 1; 3; 7] /\ follows (has_link net22) (0 + mesh_size net22) [4; 0; 2; 3; 7] (3 + mesh_size net22) /\
  find_path_dijkstra (clear (make_graph mesh22)) 2 1 = Ok [6; 2; 0; 1; 5] /\ find_path_dijkstra (clear (make_graph mesh22)) 3 0 = Undefined.
Proof. split; [vm_compute; reflexivity|]. split; [vm_compute; tauto|]. split; vm_compute; reflexivity. Qed.
Lemma few22 : fewest_links (has_link net22) 4 [4; 0; 2; 3; 7] 7.
Proof.
  destruct (C124_shortest_partial net22 0 3 net22_closed net22_counted) as (l & E & [_ Min] & _); [vm_compute; lia|vm_compute; lia|discriminate| |].
  - exists [4; 0; 1; 3; 7]. vm_compute. tauto.
  - split; [vm_compute; tauto|]. intros l' F. specialize (Min l' F). assert (El : l = [4; 0; 1; 3; 7]) by (vm_compute in E; congruence). subst l. exact Min.
Qed.
(** The path returned is not the least contended of those with fewest links, although each of its
    links is the least used one into its end. *)
Theorem C124_least_contended_refuted : exists n uses l l', make_noc 2 2 = Ok n /\ let g := with_uses (make_graph n) uses in closed_links g /\ all_counted g /\
  find_path_dijkstra g 0 3 = Ok l /\ fewest_links (has_link g) (0 + mesh_size g) l' (3 + mesh_size g) /\ (contention g l' < contention g l)%Z.
Proof.
  exists mesh22, uses22, [4; 0; 1; 3; 7], [4; 0; 2; 3; 7]. split; [apply mesh22_ok|]. split; [apply net22_closed|]. split; [apply net22_counted|]. split; [vm_compute; reflexivity|].
  split; [exact few22|vm_compute; reflexivity].
Qed.
Print Assumptions C124_least_contended_refuted.
Example C125_hyp : find_low_contention_path net22 0 3 = Ok [4; 0; 1; 3; 7] /\ follows (free_link net22 4) (0 + mesh_size net22) [4; 0; 1; 3; 7] (3 + mesh_size net22) /\
  find_low_contention_path (with_uses net22 (repeat 5%Z 72)) 0 3 = Ok [] /\ find_low_contention_path (clear (make_graph mesh22)) 0 3 = Undefined.
Proof. split; [vm_compute; reflexivity|]. split; [vm_compute; intuition discriminate|]. split; vm_compute; reflexivity. Qed.
(** findLowContentionPath is documented to return "the least contended path": it does not. *)
Theorem C125_least_contended_refuted : exists n uses l l', make_noc 2 2 = Ok n /\ let g := with_uses (make_graph n) uses in closed_links g /\ all_counted g /\
  find_low_contention_path g 0 3 = Ok l /\ follows (free_link g 4) (0 + mesh_size g) l' (3 + mesh_size g) /\ length l' = length l /\ (contention g l' < contention g l)%Z.
Proof.
  exists mesh22, uses22, [4; 0; 1; 3; 7], [4; 0; 2; 3; 7]. split; [apply mesh22_ok|]. split; [apply net22_closed|]. split; [apply net22_counted|]. split; [vm_compute; reflexivity|].
  split; [vm_compute; intuition discriminate|]. split; vm_compute; reflexivity.
Qed.
Print Assumptions C125_least_contended_refuted.
Example C126_hyp : shortest_paths net22 0 3 = Ok [[4; 0; 1; 3; 7]; [4; 0; 2; 3; 7]].
Proof. vm_compute. reflexivity. Qed.
Example C126_get_path : get_path net22 0 3 = Ok [4; 0; 2; 3; 7] /\ path_length net22 0 3 = Ok 4.
Proof. split; vm_compute; reflexivity. Qed.
(** On a mesh that is not square the length is computed with the wrong side: cores that are connected
    are left without a path, and paths that are not shortest are kept. *)
Theorem C126_rectangle_refuted :
  (exists n l, make_noc 4 1 = Ok n /\ shortest_paths (make_graph n) 0 3 = Ok [] /\ follows (has_link (make_graph n)) 4 l 7) /\
  (exists n ps p q, make_noc 8 2 = Ok n /\ shortest_paths (make_graph n) 3 4 = Ok ps /\ In p ps /\ In q ps /\ length p < length q).
Proof.
  split.
  - destruct (make_noc 4 1) as [n| | |] eqn:E; [|vm_compute in E; discriminate E..]. exists n, [4; 0; 1; 2; 3; 7]. split; [reflexivity|]. vm_compute in E. injection E as <-. split; [vm_compute; reflexivity|vm_compute; tauto].
  - destruct (make_noc 8 2) as [n| | |] eqn:E; [|vm_compute in E; discriminate E..]. destruct (shortest_paths (make_graph n) 3 4) as [ps| | |] eqn:Ep.
    2-4: vm_compute in E; injection E as <-; vm_compute in Ep; discriminate Ep.
    exists n, ps, [19; 3; 4; 20], [19; 3; 11; 12; 4; 20]. split; [reflexivity|]. split; [exact Ep|]. vm_compute in E. injection E as <-. vm_compute in Ep. injection Ep as <-. split; [vm_compute; tauto|]. split; [vm_compute; tauto|cbn; lia].
Qed.
Print Assumptions C126_rectangle_refuted.

(** ** C127 *)
(** The route recorded between two cores: the path found, as the identifiers of its links in order, with
    its contention; the count of every link between two routers of the path goes up by one, the others
    keep their counts. *)
Theorem C127_route : forall g s d uses, closed_links g -> all_counted g -> s + mesh_size g < g_v g -> d + mesh_size g < g_v g -> s <> d -> length uses = length (g_util g) ->
  (exists l, follows (has_link g) (s + mesh_size g) l (d + mesh_size g)) ->
  exists l route uses', find_path_dijkstra g s d = Ok l /\ dijkstra_find_paths g s d uses = Ok (contention g l, route, uses') /\
    map (map_index_pair (g_v g)) route = path_links l /\ length uses' = length uses /\
    forall x y, y < g_v g -> map_index (g_v g) x y < length uses ->
      (In (x, y) (inner_links l) -> nth (map_index (g_v g) x y) uses' 0%Z = (nth (map_index (g_v g) x y) uses 0 + 1)%Z) /\
      (~ In (x, y) (inner_links l) -> nth (map_index (g_v g) x y) uses' 0%Z = nth (map_index (g_v g) x y) uses 0%Z).
Proof.
  intros g s d uses Cl Co Hs Hd Ne Len Ex. destruct (C124_shortest_partial g s d Cl Co Hs Hd Ne Ex) as (l & E & Few & _).
  destruct (route_of g s d uses l Cl Hs Ne (counted_safe g _ Co) Len E Few) as (route & uses' & H). exists l, route, uses'. split; [exact E|exact H].
Qed.
Print Assumptions C127_route.
(** The same on a generated mesh with the counts NoCGraph keeps, from any core but the last. *)
Theorem C127_mesh : forall xs ys n uses s d, (0 <= xs)%Z -> (0 <= ys)%Z -> make_noc xs ys = Ok n -> let g := with_uses (make_graph n) uses in
  length uses = g_v g * g_v g -> S s < mesh_size g -> d < mesh_size g -> s <> d ->
  exists l route uses', find_path_dijkstra g s d = Ok l /\ fewest_links (has_link g) (s + mesh_size g) l (d + mesh_size g) /\
    dijkstra_find_paths g s d uses = Ok (contention g l, route, uses') /\
    map (map_index_pair (g_v g)) route = path_links l /\ length uses' = length uses /\
    forall x y, y < g_v g -> map_index (g_v g) x y < length uses ->
      (In (x, y) (inner_links l) -> nth (map_index (g_v g) x y) uses' 0%Z = (nth (map_index (g_v g) x y) uses 0 + 1)%Z) /\
      (~ In (x, y) (inner_links l) -> nth (map_index (g_v g) x y) uses' 0%Z = nth (map_index (g_v g) x y) uses 0%Z).
Proof.
  intros xs ys n uses s d Hx Hy E g Len Ls Ld Ne. pose proof (g_v_eq xs ys n Hx Hy E) as Ev. pose proof (mesh_eq xs ys n Hx Hy E) as Em. change (mesh_size (make_graph n)) with (mesh_size g) in Em. change (g_v (make_graph n)) with (g_v g) in Ev.
  destruct (C124_mesh_partial xs ys n uses s d Hx Hy E Len Ls Ld Ne) as (l & El & Few).
  destruct (route_of g s d uses l) as (route & uses' & H); [exact (uses_closed xs ys n uses Hx Hy E)|lia|exact Ne| |reflexivity|exact El|exact Few|].
  - apply (mesh_read_safe xs ys n uses); try assumption. change (g_v (make_graph n)) with (g_v g). lia.
  - exists l, route, uses'. split; [exact El|]. split; [exact Few|exact H].
Qed.
Print Assumptions C127_mesh.
(** The identifiers are those of the links of the mesh (NoC::generate). *)
Theorem C127_link_ids : forall xs ys n, (0 <= xs)%Z -> (0 <= ys)%Z -> make_noc xs ys = Ok n -> forall l, In l (links n) ->
  l_id l = Z.of_nat (map_index (g_v (make_graph n)) (Z.to_nat (l_src l)) (Z.to_nat (l_dst l))).
Proof.
  intros xs ys n Hx Hy E l Hl. pose proof (g_v_eq xs ys n Hx Hy E) as Ev. rewrite Ev. destruct (make_noc_inv xs ys n Hx Hy E) as [-> _]. apply pure_links in Hl. destruct Hl as (a & b & -> & L).
  apply linked_bound in L. cbn [plink l_id l_src l_dst]. unfold map_index. assert (0 <= xs * ys)%Z by nia. nia.
Qed.
Print Assumptions C127_link_ids.
(** Asking for a route from a core to itself reads past the end of the empty path. *)
Theorem C127_same_core_refuted : forall g s uses, dijkstra_find_paths g s s uses = Undefined.
Proof. intros g s uses. unfold dijkstra_find_paths, find_path_dijkstra, search_path. rewrite Nat.eqb_refl. reflexivity. Qed.
Print Assumptions C127_same_core_refuted.
Example C127_hyp : dijkstra_find_paths net22 0 3 (repeat 0%Z 72) = Ok (4%Z, [40; 9; 19; 39], map (fun i => if (i =? 9) || (i =? 19) then 1%Z else 0%Z) (seq 0 72)).
Proof. vm_compute. reflexivity. Qed.
(** "clear" leaves the counts as they are once they have been created. *)
Theorem C127_clear_refuted : forall g, length (g_util g) = g_v g * g_v g -> g_util (clear g) = g_util g.
Proof. intros g H. unfold clear, resized. cbn. rewrite H, Nat.sub_diag, <- H, firstn_all. cbn. apply app_nil_r. Qed.
Print Assumptions C127_clear_refuted.
