(** Proofs about the enumeration of cycles: subgraphs and the loop over starting tasks. *)
From Coq Require Import Lia Permutation.
From Verif Require Import Base Graph Scc SccSpec SccProofs Cycles CyclesSpec CyclesProofs.
Open Scope Z_scope.

(** ** Removing tasks *)
Lemma nth_removed {A} (l : list A) i x : x <> i -> (i < length l)%nat -> nth_error (firstn i l ++ skipn (S i) l) (move_down i x) = nth_error l x.
Proof.
  intros D L. unfold move_down. destruct (Nat.ltb_spec i x).
  - rewrite nth_error_app2 by (rewrite firstn_length; lia). rewrite firstn_length, Nat.min_l by lia. rewrite <- (firstn_skipn (S i) l) at 2. rewrite nth_error_app2 by (rewrite firstn_length; lia). rewrite firstn_length, Nat.min_l by lia. f_equal. lia.
  - rewrite nth_error_app1 by (rewrite firstn_length; lia). rewrite <- (firstn_skipn i l) at 2. rewrite nth_error_app1 by (rewrite firstn_length; lia). reflexivity.
Qed.

(** [h] is [g] without the tasks that do not satisfy [P]. *)
Record part_of (g h : graph) (P : Z -> Prop) : Prop := mkPart {
  p_graph : id_graph h; p_edges : NoDup (map e_id (edges h));
  p_tasks : forall u, is_task h u <-> is_task g u /\ P u;
  p_hops : forall u k w, hop h u k w <-> hop g u k w /\ P u /\ P w;
  p_size : (length (vertices h) <= length (vertices g))%nat }.

Lemma part_ext g h P Q : (forall u, is_task g u -> (P u <-> Q u)) -> part_of g h P -> part_of g h Q.
Proof.
  intros E [A B C D F]. assert (T : forall u k w, hop g u k w -> is_task g u /\ is_task g w).
  { intros u k w (e & a & b & _ & Sa & Sb & _ & <- & <-). split; apply in_map; eapply nth_error_In; eassumption. }
  constructor; auto.
  - intros u. rewrite C. split; intros [H1 H2]; (split; [exact H1|]); apply (E u H1); exact H2.
  - intros u k w. rewrite D. split; intros (H1 & H2 & H3); destruct (T u k w H1) as [Tu Tw]; (split; [exact H1|]); split; (apply (E u Tu) + apply (E w Tw)); assumption.
Qed.
Lemma part_refl g : id_graph g -> NoDup (map e_id (edges g)) -> part_of g g (fun _ => True).
Proof. intros A B. constructor; auto; intros; tauto. Qed.
Lemma part_trans g h h' P Q : part_of g h P -> part_of h h' Q -> part_of g h' (fun u => P u /\ Q u).
Proof. intros [A B C D F] [A' B' C' D' F']. constructor; auto; [| |lia]; intros; [rewrite C', C; tauto|rewrite D', D; tauto]. Qed.

Lemma remove_part g id i : id_graph g -> NoDup (map e_id (edges g)) -> position_of id (vertices g) = Some i -> part_of g (remove_at i g) (fun u => u <> id).
Proof.
  intros G NE P. destruct (position_name _ _ _ P) as (v & Ev & Nv). assert (L : (i < length (vertices g))%nat) by (apply nth_error_Some; congruence). destruct G as [G1 G2].
  assert (Spl : map v_id (vertices g) = map v_id (firstn i (vertices g)) ++ id :: map v_id (skipn (S i) (vertices g))).
  { rewrite <- (firstn_skipn i (vertices g)) at 1. rewrite map_app. f_equal. clear - Ev Nv. revert i Ev. induction (vertices g) as [|x l IH]; intros i E; [destruct i; discriminate|]. destruct i as [|i]; [cbn in E |- *; congruence|]. cbn [skipn]. apply IH. exact E. }
  assert (Vr : map v_id (vertices (remove_at i g)) = map v_id (firstn i (vertices g)) ++ map v_id (skipn (S i) (vertices g))) by (cbn [remove_at vertices]; apply map_app).
  assert (NN : NoDup (map v_id (vertices (remove_at i g))) /\ ~ In id (map v_id (vertices (remove_at i g)))) by (rewrite Vr; rewrite Spl in G1; split; [exact (NoDup_remove_1 _ _ _ G1)|exact (NoDup_remove_2 _ _ _ G1)]).
  assert (Uq : forall e w, nth_error (vertices g) e = Some w -> v_id w = id -> e = i) by (intros e w E H; pose proof (position_nth _ _ _ G1 E) as Q; rewrite H, P in Q; congruence).
  constructor.
  - split; [exact (proj1 NN)|]. intros e He. cbn [remove_at edges vertices] in He |- *. apply in_map_iff in He. destruct He as (e0 & <- & H). apply filter_In in H. destruct H as [H D]. apply andb_prop in D. destruct D as [D1 D2]. apply negb_true_iff, Nat.eqb_neq in D1. apply negb_true_iff, Nat.eqb_neq in D2.
    destruct (G2 e0 H) as [A B]. cbn [moved_edge e_src e_dst]. rewrite app_length, firstn_length, skipn_length. unfold move_down. destruct (Nat.ltb_spec i (e_src e0)); destruct (Nat.ltb_spec i (e_dst e0)); lia.
  - cbn [remove_at edges]. rewrite map_map. cbn [moved_edge e_id]. clear - NE. induction (edges g) as [|e es IH]; cbn [filter map]; [constructor|]. cbn [map] in NE. inversion NE as [|? ? N1 N2]; subst. destruct (negb (e_src e =? i)%nat && negb (e_dst e =? i)%nat); cbn [map]; [|apply IH, N2]. constructor; [|apply IH, N2].
    intros H. apply in_map_iff in H. destruct H as (e' & E & H). apply filter_In in H. apply N1. rewrite <- E. apply in_map. tauto.
  - intros u. unfold is_task. rewrite Vr, Spl, !in_app_iff. cbn [In]. rewrite Vr in NN. rewrite in_app_iff in NN. split; [intros H; split; [tauto|]; intros ->; tauto|intros [[H|[H|H]] D]; [left; exact H|congruence|right; exact H]].
  - intros u k w. split.
    + intros (e & a & b & He & Sa & Sb & <- & <- & <-). cbn [remove_at edges vertices] in He, Sa, Sb. apply in_map_iff in He. destruct He as (e0 & <- & H). apply filter_In in H. destruct H as [H D]. apply andb_prop in D. destruct D as [D1 D2]. apply negb_true_iff, Nat.eqb_neq in D1. apply negb_true_iff, Nat.eqb_neq in D2.
      cbn [moved_edge e_src e_dst e_id] in *. rewrite nth_removed in Sa, Sb by assumption. split; [exists e0, a, b; auto 10|]. split; intros E; [apply D1, (Uq _ _ Sa E)|apply D2, (Uq _ _ Sb E)].
    + intros ((e & a & b & He & Sa & Sb & <- & Ha & Hb) & Du & Dw). assert (D1 : e_src e <> i) by (intros E; rewrite E, Ev in Sa; congruence). assert (D2 : e_dst e <> i) by (intros E; rewrite E, Ev in Sb; congruence).
      exists (moved_edge i e), a, b. cbn [remove_at edges vertices moved_edge e_src e_dst e_id]. rewrite !nth_removed by assumption. split; [|auto 10]. apply in_map, filter_In. split; [exact He|]. rewrite (proj2 (Nat.eqb_neq _ _) D1), (proj2 (Nat.eqb_neq _ _) D2). reflexivity.
  - cbn [remove_at vertices]. rewrite app_length, firstn_length, skipn_length. lia.
Qed.

Lemma remove_tasks_part : forall ids g, id_graph g -> NoDup (map e_id (edges g)) -> NoDup ids -> (forall id, In id ids -> is_task g id) -> exists h, remove_tasks ids g = Ok h /\ part_of g h (fun u => ~ In u ids).
Proof.
  induction ids as [|id ids IH]; intros g G NE N T; cbn [remove_tasks].
  - exists g. split; [reflexivity|]. apply (part_ext g g (fun _ => True)); [intros u _; cbn; tauto|apply part_refl; assumption].
  - inversion N as [|? ? N1 N2]; subst. unfold remove_task, vertex_by_id. destruct (position_some _ _ (T id (or_introl eq_refl))) as (i & P). rewrite P. cbn [bind]. pose proof (remove_part g id i G NE P) as Pa.
    destruct (IH (remove_at i g) (p_graph _ _ _ Pa) (p_edges _ _ _ Pa) N2) as (h & E & Ph); [intros x Hx; apply (p_tasks _ _ _ Pa); split; [apply T; right; exact Hx|intros ->; contradiction]|]. exists h. split; [exact E|].
    apply (part_ext g h (fun u => u <> id /\ ~ In u ids)); [intros u _; cbn [In]; split; [intros [H1 H2] [H|H]; [congruence|contradiction]|intros H; split; [intros ->; apply H; left; reflexivity|intros H'; apply H; right; exact H']]|exact (part_trans _ _ _ _ _ Pa Ph)].
Qed.

(** ** Routes and reachability *)
Lemma NoDup_tail {A} (l l' : list A) : NoDup (l ++ l') -> NoDup l'.
Proof. induction l as [|x l IH]; intros N; [exact N|]. inversion N; subst. auto. Qed.
Lemma arc_hop g u v : arc g u v <-> exists k, hop g u k v.
Proof. split; [intros (e & s & t & A & B & C & D & E); exists (e_id e), e, s, t; auto 10|intros (k & e & s & t & A & B & C & _ & D & E); exists e, s, t; auto 10]. Qed.
Lemma reaches_route g u v : reaches g u v <-> exists p, route g u p v.
Proof.
  split.
  - intros (l & W). revert u W. induction l as [|w l IH]; intros u W; [exists []; exact W|]. destruct W as [A W]. apply arc_hop in A. destruct A as (k & H). destruct (IH w W) as (p & R). exists ((k, w) :: p). split; assumption.
  - intros (p & R). exists (map snd p). revert u R. induction p as [|[k w] p IH]; intros u R; [exact R|]. destruct R as [H R]. split; [apply arc_hop; exists k; exact H|apply IH, R].
Qed.
Lemma route_app g u p v q w : route g u p v -> route g v q w -> route g u (p ++ q) w.
Proof. revert u. induction p as [|[k x] p IH]; intros u R S; cbn [app]; [cbn in R; rewrite R; exact S|]. destruct R as [H R]. split; [exact H|apply IH; assumption]. Qed.
Lemma route_split g u p w y : route g u p w -> In y (map snd p) -> exists p1 p2, p = p1 ++ p2 /\ route g u p1 y /\ route g y p2 w /\ p1 <> [].
Proof.
  revert u. induction p as [|[k x] p IH]; intros u R I; [destruct I|]. destruct R as [H R]. destruct I as [<-|I].
  - exists [(k, x)], p. split; [reflexivity|]. split; [split; [exact H|reflexivity]|]. split; [exact R|discriminate].
  - destruct (IH x R I) as (p1 & p2 & -> & A & B & C). exists ((k, x) :: p1), p2. split; [reflexivity|]. split; [split; assumption|]. split; [exact B|discriminate].
Qed.
Lemma route_simple g p : forall w m, route g w p m -> exists q, route g w q m /\ NoDup (w :: map snd q) /\ incl (map snd q) (map snd p).
Proof.
  induction p as [|[k x] p IH]; intros w m R; [exists []; split; [exact R|]; split; [constructor; [intros []|constructor]|intros y []]|]. destruct R as [H R]. destruct (IH x m R) as (q & Rq & Nq & Iq).
  destruct (in_dec Z.eq_dec w (x :: map snd q)) as [I|I].
  - destruct I as [<-|I].
    + exists q. split; [exact Rq|]. split; [exact Nq|]. intros y Hy. right. apply Iq, Hy.
    + destruct (route_split g x q m w Rq I) as (q1 & q2 & -> & A & B & C). exists q2. split; [exact B|]. rewrite map_app in Nq, Iq. split.
      * inversion Nq as [|? ? _ N]; subst. assert (J : In w (map snd q1)) by (apply (route_end g _ _ _ A C)). constructor; [|exact (NoDup_tail _ _ N)]. intros K. revert N J K. clear. intros N J K. induction (map snd q1) as [|z l IHl]; [destruct J|]. cbn [app] in N. inversion N as [|? ? N1 N2]; subst. destruct J as [->|J]; [apply N1, in_app_iff; right; exact K|exact (IHl N2 J)].
      * intros y Hy. right. apply Iq, in_app_iff. right; exact Hy.
  - exists ((k, x) :: q). split; [split; assumption|]. split; [constructor; [exact I|exact Nq]|]. intros y [<-|Hy]; [left; reflexivity|right; apply Iq, Hy].
Qed.

(** ** The smallest task on a cycle *)
Lemma least_spec c : c <> [] -> In (least c) c /\ forall x, In x c -> least c <= x.
Proof.
  destruct c as [|x c]; [congruence|]. intros _. cbn [least]. revert x. induction c as [|y c IH]; intros x; cbn [fold_left].
  - split; [left; reflexivity|]. intros z [<-|[]]. lia.
  - destruct (IH (Z.min x y)) as [A B]. split.
    + destruct A as [A|A]; [|right; right; exact A]. rewrite <- A. destruct (Z.min_spec x y) as [[_ ->]|[_ ->]]; [left; reflexivity|right; left; reflexivity].
    + intros z [<-|[<-|Hz]]; [specialize (B _ (or_introl eq_refl)); lia|specialize (B _ (or_introl eq_refl)); lia|apply B; right; exact Hz].
Qed.
Lemma smallest_index_spec : forall comps best, let m := smallest_index comps best in
  m <= best /\ (forall c, In c comps -> (1 < length c)%nat -> m <= least c) /\ (m = best \/ exists c, In c comps /\ (1 < length c)%nat /\ m = least c).
Proof.
  induction comps as [|c comps IH]; intros best; cbn [smallest_index]; cbv zeta.
  - split; [lia|]. split; [intros c []|left; reflexivity].
  - destruct (IH (if (1 <? length c)%nat && (least c <? best) then least c else best)) as (A & B & C). destruct (Nat.ltb_spec 1 (length c)); destruct (Z.ltb_spec (least c) best); cbn [andb] in *.
    + split; [lia|]. split; [intros c' [<-|I] L; [lia|exact (B c' I L)]|]. right. destruct C as [C|(c' & I & L & C)]; [exists c; split; [left; reflexivity|auto]|exists c'; split; [right; exact I|auto]].
    + split; [lia|]. split; [intros c' [<-|I] L; [lia|exact (B c' I L)]|]. destruct C as [C|(c' & I & L & C)]; [left; exact C|right; exists c'; split; [right; exact I|auto]].
    + split; [lia|]. split; [intros c' [<-|I] L; [lia|exact (B c' I L)]|]. destruct C as [C|(c' & I & L & C)]; [left; exact C|right; exists c'; split; [right; exact I|auto]].
    + split; [lia|]. split; [intros c' [<-|I] L; [lia|exact (B c' I L)]|]. destruct C as [C|(c' & I & L & C)]; [left; exact C|right; exists c'; split; [right; exact I|auto]].
Qed.

(** [s] is the smallest task of a cycle of several tasks. *)
Definition leads (g : graph) (s : Z) : Prop := exists p, elementary g s p /\ from_smallest s p /\ several s p.

Lemma elementary_task g s p : elementary g s p -> is_task g s.
Proof. intros (A & R & _). destruct p as [|[k w] p]; [congruence|]. destruct R as [(e & a & b & _ & S & _ & _ & <- & _) _]. apply in_map. exact (nth_error_In _ _ S). Qed.

Lemma part_route g h P u p v : part_of g h P -> route h u p v -> route g u p v.
Proof. intros Pa. revert u. induction p as [|[k w] p IH]; intros u R; [exact R|]. destruct R as [H R]. split; [apply (p_hops _ _ _ Pa) in H; tauto|apply IH, R]. Qed.
Lemma part_route_in g h P u p v : part_of g h P -> route g u p v -> P u -> (forall y, In y (map snd p) -> P y) -> route h u p v.
Proof. intros Pa. revert u. induction p as [|[k w] p IH]; intros u R Pu Py; [exact R|]. destruct R as [H R]. assert (Pw : P w) by (apply Py; left; reflexivity). split; [apply (p_hops _ _ _ Pa); auto|apply IH; [exact R|exact Pw|intros y Hy; apply Py; right; exact Hy]]. Qed.

Section Turn.
Variables (g gs : graph) (start : Z) (fuel : nat).
Hypothesis G : id_graph g.
Hypothesis Pa : part_of g gs (fun u => start <= u).
Variable comps : list (list Z).
Hypothesis CP : Permutation (concat comps) (map v_id (vertices gs)).
Hypothesis CN : forall c, In c comps -> c <> [] /\ NoDup c.
Hypothesis CE : forall c u v, In c comps -> In u c -> (In v c <-> reaches gs u v /\ reaches gs v u).

Lemma comp_of u : is_task gs u -> exists c, In c comps /\ In u c.
Proof. intros T. assert (I : In u (concat comps)) by (apply (Permutation_in _ (Permutation_sym CP)); exact T). apply in_concat in I. destruct I as (c & A & B). exists c; auto. Qed.

Lemma on_cycle s p y : elementary gs s p -> In y (map snd p) -> reaches gs s y /\ reaches gs y s.
Proof. intros (_ & R & _) I. destruct (route_split _ _ _ _ _ R I) as (p1 & p2 & _ & A & B & _). split; apply reaches_route; eexists; eassumption. Qed.

(** No cycle of several tasks starts below the smallest index. *)
Lemma leads_above s : leads g s -> start <= s -> (forall v, is_task g v -> v < int_max) -> smallest_index comps int_max <= s /\ smallest_index comps int_max <> int_max.
Proof.
  intros (p & El & Fs & (v & Iv & Dv)) Ls Mx. assert (El' : elementary gs s p).
  { destruct El as (A & R & N). split; [exact A|]. split; [|exact N]. apply (part_route_in _ _ _ _ _ _ Pa R Ls). intros y Hy. specialize (Fs y Hy). lia. }
  destruct (comp_of s (elementary_task _ _ _ El')) as (c & Ic & Isc). assert (Ivc : In v c) by (apply (CE c s v Ic Isc), (on_cycle s p v El' Iv)).
  assert (L : (1 < length c)%nat) by (destruct c as [|x [|y c]]; cbn [length]; [destruct Isc|exfalso; destruct Isc as [<-|[]]; destruct Ivc as [<-|[]]; congruence|lia]).
  destruct (smallest_index_spec comps int_max) as (A & B & C). destruct (least_spec c (proj1 (CN c Ic))) as [_ D]. specialize (B c Ic L). specialize (D s Isc). split; [lia|]. pose proof (Mx s (elementary_task _ _ _ El)). lia.
Qed.

Lemma smallest_leads m : smallest_index comps int_max = m -> m <> int_max -> exists c, In c comps /\ In m c /\ (forall y, In y c -> m <= y) /\ start <= m /\ is_task g m /\ leads g m.
Proof.
  intros Em Dm. destruct (smallest_index_spec comps int_max) as (A & B & C). rewrite Em in *. destruct C as [C|(c & Ic & L & Ec)]; [congruence|]. destruct (least_spec c (proj1 (CN c Ic))) as [D1 D2]. rewrite <- Ec in D1, D2. exists c. split; [exact Ic|]. split; [exact D1|]. split; [exact D2|].
  assert (Tm : is_task gs m) by (apply (Permutation_in _ CP), in_concat; exists c; auto). apply (p_tasks _ _ _ Pa) in Tm. destruct Tm as [Tm Sm]. split; [exact Sm|]. split; [exact Tm|].
  (* another task of the component *)
  assert (O : exists v, In v c /\ v <> m).
  { destruct c as [|x [|y c']]; cbn [length] in L; try lia. destruct (Z.eq_dec x m) as [->|E]; [exists y; split; [right; left; reflexivity|]|exists x; split; [left; reflexivity|exact E]]. intros ->. pose proof (proj2 (CN _ Ic)) as N. inversion N as [|? ? N1 _]; subst. apply N1. left; reflexivity. }
  destruct O as (v & Iv & Dv). destruct (proj1 (CE c m v Ic D1) Iv) as [R1 R2]. apply reaches_route in R1. apply reaches_route in R2. destruct R1 as (p1 & R1). destruct R2 as (p2 & R2).
  destruct (route_simple _ _ _ _ R1) as (q1 & Q1 & N1 & _). destruct q1 as [|[k w] q1]; [cbn in Q1; congruence|]. destruct Q1 as [H Q1]. cbn [map snd] in N1. inversion N1 as [|? ? N1a N1b]; subst. assert (Dw : w <> smallest_index comps int_max) by (intros E; apply N1a; left; exact E).
  destruct (route_simple _ _ _ _ (route_app _ _ _ _ _ _ Q1 R2)) as (q & Q & N & _). set (m := smallest_index comps int_max) in *. assert (El : elementary gs m ((k, w) :: q)) by (split; [discriminate|]; split; [split; assumption|exact N]).
  exists ((k, w) :: q). split; [|split].
  - destruct El as (E1 & E2 & E3). split; [exact E1|]. split; [exact (part_route _ _ _ _ _ _ Pa E2)|exact E3].
  - intros y Hy. apply D2, (CE c m y Ic D1). exact (on_cycle m _ y El Hy).
  - exists w. split; [left; reflexivity|exact Dw].
Qed.

(** The cycles of its component are those of the graph that start from it. *)
Lemma component_cycles m c h : In c comps -> In m c -> (forall y, In y c -> m <= y) -> start <= m -> part_of gs h (fun u => In u c) -> forall q, elementary h m q <-> elementary g m q /\ from_smallest m q.
Proof.
  intros Ic Im Lm Ls Ph q. pose proof (part_trans _ _ _ _ _ Pa Ph) as Pgh. split.
  - intros (A & R & N). split; [split; [exact A|split; [exact (part_route _ _ _ _ _ _ Pgh R)|exact N]]|]. intros y Hy. apply Lm. destruct (route_split _ _ _ _ _ R Hy) as (p1 & p2 & _ & B & C & D). destruct p2 as [|[k w] p2]; [cbn in C; rewrite C; exact Im|]. destruct C as [C _]. apply (p_hops _ _ _ Ph) in C. tauto.
  - intros ((A & R & N) & Fs). assert (Rs : route gs m q m) by (apply (part_route_in _ _ _ _ _ _ Pa R Ls); intros y Hy; specialize (Fs y Hy); lia). split; [exact A|]. split; [|exact N]. apply (part_route_in _ _ _ _ _ _ Ph Rs Im). intros y Hy. apply (CE c m y Ic Im). apply (on_cycle m q y); [split; [exact A|split; assumption]|exact Hy].
Qed.

Lemma scc_of_part m : (exists c, In c comps /\ In m c) -> exists c h, In c comps /\ In m c /\ scc_of gs comps m = Ok h /\ part_of gs h (fun u => In u c).
Proof.
  intros (c & Ic & Im).
  assert (K : forall cs, (exists c, In c cs /\ In m c) -> exists c, In c cs /\ In m c /\ scc_of gs cs m = remove_tasks (filter (fun id => negb (visited c id)) (map v_id (vertices gs))) gs).
  { clear. induction cs as [|c cs IH]; intros (c0 & I0 & Im); [destruct I0|]. cbn [scc_of]. destruct (visited c m) eqn:V; [exists c; split; [left; reflexivity|]; split; [apply visited_spec; exact V|reflexivity]|]. apply visited_false in V. destruct IH as (c1 & I1 & M1 & E1); [exists c0; split; [destruct I0 as [->|I0]; [contradiction|exact I0]|exact Im]|]. exists c1. split; [right; exact I1|]. split; [exact M1|exact E1]. }
  destruct (K comps (ex_intro _ c (conj Ic Im))) as (c1 & I1 & M1 & E1). exists c1.
  destruct (remove_tasks_part (filter (fun id => negb (visited c1 id)) (map v_id (vertices gs))) gs (p_graph _ _ _ Pa) (p_edges _ _ _ Pa) (NoDup_filter _ (proj1 (p_graph _ _ _ Pa)))) as (h & E & Ph); [intros id H; apply filter_In in H; exact (proj1 H)|].
  exists h. split; [exact I1|]. split; [exact M1|]. split; [rewrite E1; exact E|]. apply (part_ext gs h _ _) with (2 := Ph). intros u Tu. rewrite filter_In, negb_true_iff, visited_false. split; [intros H; destruct (in_dec Z.eq_dec u c1) as [J|J]; [exact J|exfalso; apply H; split; assumption]|intros H [_ H']; contradiction].
Qed.
End Turn.

Lemma subgraph_part g start : id_graph g -> NoDup (map e_id (edges g)) -> exists gs, subgraph_from g start = Ok gs /\ part_of g gs (fun u => start <= u).
Proof.
  intros G NE. destruct (remove_tasks_part (filter (fun id => id <? start) (map v_id (vertices g))) g G NE (NoDup_filter _ (proj1 G))) as (gs & E & P); [intros id H; apply filter_In in H; exact (proj1 H)|]. exists gs. split; [exact E|].
  apply (part_ext g gs _ _) with (2 := P). intros u Tu. rewrite filter_In, Z.ltb_lt. split; [intros H; destruct (Z_lt_le_dec u start) as [L|L]; [exfalso; apply H; split; assumption|exact L]|intros H [_ H']; lia].
Qed.

Lemma loop_ok g fuel : id_graph g -> numbered g -> Z.of_nat (length (vertices g)) < int_max -> (length (vertices g) < fuel)%nat ->
  forall rounds start out, 1 <= start -> Z.of_nat (length (vertices g)) + 1 - start <= Z.of_nat rounds ->
  exists L, cycles_loop rounds fuel g start out = Ok (out ++ map printed L) /\ NoDup L /\ forall s p, In (s, p) L <-> elementary g s p /\ from_smallest s p /\ leads g s /\ start <= s.
Proof.
  intros G [NE NV] Mx LF. assert (Tn : forall s, is_task g s -> 1 <= s <= Z.of_nat (length (vertices g))) by (intros s T; apply in_map_iff in T; destruct T as (v & <- & I); exact (NV v I)).
  induction rounds as [|rounds IH]; intros start out S1 R.
  - exists []. cbn [cycles_loop map]. rewrite app_nil_r. destruct (Z.ltb_spec (Z.of_nat (length (vertices g))) start) as [L|L]; [|lia]. split; [reflexivity|]. split; [constructor|]. intros s p. split; [intros []|]. intros (El & _ & _ & Ls). pose proof (Tn s (elementary_task _ _ _ El)). lia.
  - cbn [cycles_loop]. destruct (Z.ltb_spec (Z.of_nat (length (vertices g))) start) as [L|L].
    { exists []. cbn [map]. rewrite app_nil_r. split; [reflexivity|]. split; [constructor|]. intros s p. split; [intros []|]. intros (El & _ & _ & Ls). pose proof (Tn s (elementary_task _ _ _ El)). lia. }
    destruct (subgraph_part g start G NE) as (gs & -> & Pa). cbn [bind]. destruct (kosaraju_run gs (p_graph _ _ _ Pa) fuel) as (comps & Ek & Gc & CP & _); [pose proof (p_size _ _ _ Pa); lia|]. rewrite Ek. cbn [bind].
    assert (CN : forall c, In c comps -> c <> [] /\ NoDup c) by (intros c Hc; exact (conj (proj1 (Gc c Hc)) (proj1 (proj2 (Gc c Hc))))). assert (CE : forall c u v, In c comps -> In u c -> (In v c <-> reaches gs u v /\ reaches gs v u)) by (intros c u v Hc Hu; exact (proj2 (proj2 (proj2 (Gc c Hc))) u v Hu)). clear Gc.
    assert (Lt : forall v, is_task g v -> v < int_max) by (intros v T; specialize (Tn v T); lia).
    destruct (Z.eqb_spec (smallest_index comps int_max) int_max) as [Em|Em].
    { exists []. cbn [map]. rewrite app_nil_r. split; [reflexivity|]. split; [constructor|]. intros s p. split; [intros []|]. intros (_ & _ & Ld & Ls). destruct (leads_above g gs start Pa comps CP CN CE s Ld Ls Lt) as [_ H]. congruence. }
    set (m := smallest_index comps int_max) in *. destruct (smallest_leads g gs start Pa comps CP CN CE m eq_refl Em) as (c0 & Ic0 & Im0 & _ & Sm & Tm & Ld).
    destruct (scc_of_part g gs start Pa comps m (ex_intro _ c0 (conj Ic0 Im0))) as (c & h & Ic & Im & Eh & Ph). rewrite Eh. cbn [bind].
    assert (Lm : forall y, In y c -> m <= y).
    { intros y Hy. assert (Cy : (1 < length c)%nat).
      { destruct Ld as (p & El & Fs & (v & Iv & Dv)). assert (El' : elementary gs m p) by (destruct El as (A & B & C); split; [exact A|]; split; [|exact C]; apply (part_route_in _ _ _ _ _ _ Pa B Sm); intros z Hz; specialize (Fs z Hz); lia). assert (Ivc : In v c) by (apply (CE c m v Ic Im), (on_cycle gs m p v El' Iv)).
        destruct c as [|x [|z c']]; cbn [length]; [destruct Im|exfalso; destruct Im as [<-|[]]; destruct Ivc as [<-|[]]; congruence|lia]. }
      pose proof (proj1 (proj2 (smallest_index_spec comps int_max)) c Ic Cy) as B. pose proof (proj2 (least_spec c (proj1 (CN c Ic))) y Hy). fold m in B. lia. }
    assert (Vm : In m (map v_id (vertices h))) by (apply (p_tasks _ _ _ Ph); split; [apply (p_tasks _ _ _ Pa); split; assumption|exact Im]).
    assert (Lh : (length (map v_id (vertices h)) <= fuel)%nat) by (rewrite map_length; pose proof (p_size _ _ _ Pa); pose proof (p_size _ _ _ Ph); lia).
    destruct (search_all fuel h m (p_graph _ _ _ Ph) (p_edges _ _ _ Ph) Lh out Vm) as (found & bs & bm & Lq & Ev & Nq & Hq). rewrite Ev. cbn [bind snd sr_cycles].
    destruct (IH (m + 1) (out ++ map (fun q => m :: map snd q) Lq) ltac:(lia) ltac:(lia)) as (L2 & E2 & N2 & H2). exists (map (pair m) Lq ++ L2). split; [|split].
    + rewrite E2, map_app, map_map, app_assoc. reflexivity.
    + apply NoDup_app_intro; [|exact N2|].
      * clear - Nq. induction Nq as [|q l H N IHl]; cbn [map]; constructor; [|exact IHl]. intros J. apply in_map_iff in J. destruct J as (q' & [= ->] & J). contradiction.
      * intros [s p] A B. apply in_map_iff in A. destruct A as (q & [= <- _] & _). apply H2 in B. lia.
    + intros s p. rewrite in_app_iff, in_map_iff, H2. split.
      * intros [(q & [= <- <-] & I)|(A & B & C & D)]; [|repeat split; try assumption; try apply A; lia]. apply Hq in I. apply (component_cycles g gs start Pa comps CE m c h Ic Im Lm Sm Ph) in I. destruct I as [I1 I2]. auto.
      * intros (A & B & C & D). destruct (leads_above g gs start Pa comps CP CN CE s C D Lt) as [E _]. fold m in E. destruct (Z.eq_dec s m) as [->|Ds]; [left; exists p; split; [reflexivity|]; apply Hq, (component_cycles g gs start Pa comps CE m c h Ic Im Lm Sm Ph); auto|right; repeat split; try assumption; try apply A; lia].
Qed.

Lemma cycles_listed g rounds fuel before : id_graph g -> numbered g -> Z.of_nat (length (vertices g)) < int_max ->
  (length (vertices g) <= rounds)%nat -> (length (vertices g) < fuel)%nat ->
  exists L, find_simple_cycles rounds fuel g before = Ok (before ++ map printed L) /\
    lists_all g (fun s _ => exists p, elementary g s p /\ from_smallest s p /\ several s p) L.
Proof.
  intros G NU Mx R F. destruct (loop_ok g fuel G NU Mx F rounds 1 before ltac:(lia) ltac:(lia)) as (L & E & N & H). exists L. split; [exact E|]. split; [exact N|]. intros s p. rewrite H. split; [intros (A & B & C & _); auto|]. intros (A & B & C). split; [exact A|]. split; [exact B|]. split; [exact C|].
  pose proof (elementary_task _ _ _ A) as T. apply in_map_iff in T. destruct T as (v & <- & I). apply (proj2 NU v I).
Qed.

Lemma cycles_all g rounds fuel : id_graph g -> numbered g -> Z.of_nat (length (vertices g)) < int_max ->
  (forall u k, ~ hop g u k u) -> (length (vertices g) <= rounds)%nat -> (length (vertices g) < fuel)%nat ->
  exists L, find_simple_cycles rounds fuel g [] = Ok (map printed L) /\ lists_all g (fun _ _ => True) L.
Proof.
  intros G NU Mx NS R F. destruct (cycles_listed g rounds fuel [] G NU Mx R F) as (L & E & N & H). exists L. split; [exact E|]. split; [exact N|]. intros s p. rewrite H. split; [intros (A & B & _); auto|]. intros (A & B & _). split; [exact A|]. split; [exact B|]. exists p. split; [exact A|]. split; [exact B|].
  destruct A as (A1 & A2 & _). destruct p as [|[k w] p]; [congruence|]. destruct A2 as [A2 _]. exists w. split; [left; reflexivity|]. intros ->. exact (NS s k A2).
Qed.

Lemma cycles_again g r f before : id_graph g -> numbered g -> Z.of_nat (length (vertices g)) < int_max ->
  (length (vertices g) <= r)%nat -> (length (vertices g) < f)%nat ->
  exists first again, find_simple_cycles r f g [] = Ok first /\ find_simple_cycles r f g before = Ok (before ++ again) /\ Permutation first again.
Proof.
  intros G NU Mx A B. destruct (cycles_listed g r f [] G NU Mx A B) as (L & E & N & H). destruct (cycles_listed g r f before G NU Mx A B) as (L' & E' & N' & H'). exists (map printed L), (map printed L'). split; [exact E|]. split; [exact E'|].
  apply Permutation_map, NoDup_Permutation; [exact N|exact N'|]. intros [s p]. rewrite H, H'. tauto.
Qed.

Lemma second_run g r f : id_graph g -> numbered g -> Z.of_nat (length (vertices g)) < int_max ->
  (length (vertices g) <= r)%nat -> (length (vertices g) < f)%nat ->
  exists first again, find_simple_cycles r f g [] = Ok first /\ find_simple_cycles r f g first = Ok (first ++ again) /\ Permutation first again.
Proof.
  intros G NU Mx A B. destruct (cycles_listed g r f [] G NU Mx A B) as (L & E & _). destruct (cycles_again g r f (map printed L) G NU Mx A B) as (first & again & E1 & E2 & P). rewrite E in E1. injection E1 as E1. exists first, again. split; [rewrite <- E1; exact E|]. split; [rewrite <- E1; exact E2|exact P].
Qed.
