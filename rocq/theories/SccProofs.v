(** Correctness of the two-pass component algorithm. *)
From Coq Require Import Permutation.
From Verif Require Import Base Graph Scc SccSpec.
Open Scope Z_scope.

Lemma visited_spec vis x : visited vis x = true <-> In x vis.
Proof.
  unfold visited. rewrite existsb_exists. split.
  - intros (y & Hy & E). apply Z.eqb_eq in E. congruence.
  - intros H. exists x. split; [exact H|apply Z.eqb_refl].
Qed.
Lemma visited_false vis x : visited vis x = false <-> ~ In x vis.
Proof. rewrite <- visited_spec. destruct (visited vis x); intuition congruence. Qed.

Lemma NoDup_app_intro {A} (l1 l2 : list A) : NoDup l1 -> NoDup l2 -> (forall x, In x l1 -> ~ In x l2) -> NoDup (l1 ++ l2).
Proof.
  intros H1 H2. induction H1 as [|x l N _ IH]; cbn; intros D; [exact H2|]. constructor.
  - rewrite in_app_iff. intros [H|H]; [contradiction|]. exact (D x (or_introl eq_refl) H).
  - apply IH. intros y Hy. apply D. right. exact Hy.
Qed.

(** * Depth-first search as a relation.
    [Dfs S vis xs vis' N]: searching from the targets [xs] with [vis] visited ends with [vis']
    visited, and finishes the vertices [N], the last finished first. *)
Section Search.
Variable S : Z -> list Z.
Inductive Dfs : list Z -> list Z -> list Z -> list Z -> Prop :=
| D_nil vis : Dfs vis [] vis []
| D_seen vis x xs vis' N : In x vis -> Dfs vis xs vis' N -> Dfs vis (x :: xs) vis' N
| D_new vis x xs vis1 N1 vis2 N2 : ~ In x vis -> Dfs (x :: vis) (S x) vis1 N1 -> Dfs vis1 xs vis2 N2 ->
    Dfs vis (x :: xs) vis2 (N2 ++ x :: N1).

(** Paths outside a set of vertices. *)
Inductive path (A : list Z) : Z -> Z -> Prop :=
| path_refl x : ~ In x A -> path A x x
| path_step x y z : ~ In x A -> In y (S x) -> path A y z -> path A x z.

Lemma path_trans A x y z : path A x y -> path A y z -> path A x z.
Proof. induction 1; intros; auto. econstructor; eauto. Qed.
Lemma path_incl A B x y : (forall v, In v B -> In v A) -> path A x y -> path B x y.
Proof. intros H. induction 1; [constructor|econstructor]; eauto. Qed.
Lemma path_start A x y : path A x y -> ~ In x A.
Proof. destruct 1; auto. Qed.
Lemma path_end A x y : path A x y -> ~ In y A.
Proof. induction 1; auto. Qed.
(** A path either avoids [v] too, or goes through it. *)
Lemma path_through A v x y : path A x y -> path (v :: A) x y \/ (path A x v /\ path A v y).
Proof.
  induction 1 as [x Hx|x y z Hx Hy P IH].
  - destruct (Z.eq_dec v x) as [->|N]; [right; split; constructor; auto|left; constructor; cbn; intuition].
  - destruct (Z.eq_dec v x) as [->|N].
    + right. split; [constructor; auto|econstructor; eauto].
    + destruct IH as [IH|[I1 I2]].
      * left. econstructor; cbn; intuition eauto.
      * right. split; [econstructor; eauto|exact I2].
Qed.

Lemma dfs_vis vis xs vis' N : Dfs vis xs vis' N -> (forall v, In v vis' <-> In v N \/ In v vis).
Proof.
  induction 1 as [vis|vis x xs vis' N Hx _ IH|vis x xs vis1 N1 vis2 N2 Hx _ IH1 _ IH2]; intros v.
  - cbn. tauto.
  - apply IH.
  - rewrite IH2, IH1, in_app_iff. cbn. tauto.
Qed.
Lemma dfs_new vis xs vis' N : Dfs vis xs vis' N -> (forall v, In v N -> ~ In v vis) /\ NoDup N.
Proof.
  induction 1 as [vis|vis x xs vis' N Hx _ IH|vis x xs vis1 N1 vis2 N2 Hx D1 [I1 U1] D2 [I2 U2]].
  - split; [intros v []|constructor].
  - exact IH.
  - pose proof (dfs_vis _ _ _ _ D1) as V1. split.
    + intros v Hv Hv'. apply in_app_iff in Hv as [Hv|[<-|Hv]].
      * apply (I2 v Hv). apply V1. right. right. exact Hv'.
      * contradiction.
      * apply (I1 v Hv). right. exact Hv'.
    + apply NoDup_app_intro; [exact U2| |].
      * constructor; [|exact U1]. intros H. apply (I1 x H). left. reflexivity.
      * intros v Hv [<-|Hv']; apply (I2 _ Hv), V1; [right; left; reflexivity|left; exact Hv'].
Qed.
Lemma dfs_targets vis xs vis' N : Dfs vis xs vis' N -> forall x, In x xs -> In x vis'.
Proof.
  induction 1 as [vis|vis x xs vis' N Hx D IH|vis x xs vis1 N1 vis2 N2 Hx D1 _ D2 IH2]; intros z Hz.
  - destruct Hz.
  - destruct Hz as [<-|Hz]; [|auto]. apply (dfs_vis _ _ _ _ D). right. exact Hx.
  - destruct Hz as [<-|Hz]; [|auto]. apply (dfs_vis _ _ _ _ D2). right. apply (dfs_vis _ _ _ _ D1). right. left. reflexivity.
Qed.
Lemma dfs_closed vis xs vis' N : Dfs vis xs vis' N -> forall y z, In y N -> In z (S y) -> In z vis'.
Proof.
  induction 1 as [vis|vis x xs vis' N Hx D IH|vis x xs vis1 N1 vis2 N2 Hx D1 IH1 D2 IH2]; intros y z Hy Hz.
  - destruct Hy.
  - eauto.
  - apply in_app_iff in Hy as [Hy|[<-|Hy]].
    + eauto.
    + apply (dfs_vis _ _ _ _ D2). right. eapply dfs_targets; eauto.
    + apply (dfs_vis _ _ _ _ D2). right. eauto.
Qed.
(** So a path avoiding [vis] that starts in [N] stays in [N]. *)
Lemma dfs_stay vis xs vis' N : Dfs vis xs vis' N -> forall y z, In y N -> path vis y z -> In z N.
Proof.
  intros D y z Hy P. induction P as [x _|x y z Hx Hs P IH]; [exact Hy|]. apply IH.
  pose proof (dfs_closed _ _ _ _ D x y Hy Hs) as H. apply (dfs_vis _ _ _ _ D) in H as [H|H]; [exact H|]. destruct (path_start _ _ _ P H).
Qed.
Lemma dfs_reached vis xs vis' N : Dfs vis xs vis' N -> forall y, In y N -> exists x, In x xs /\ path vis x y.
Proof.
  induction 1 as [vis|vis x xs vis' N Hx D IH|vis x xs vis1 N1 vis2 N2 Hx D1 IH1 D2 IH2]; intros y Hy.
  - destruct Hy.
  - destruct (IH y Hy) as (z & Hz & P). exists z. split; [right; exact Hz|exact P].
  - apply in_app_iff in Hy as [Hy|[<-|Hy]].
    + destruct (IH2 y Hy) as (z & Hz & P). exists z. split; [right; exact Hz|]. eapply path_incl; [|exact P].
      intros v Hv. apply (dfs_vis _ _ _ _ D1). right. right. exact Hv.
    + exists x. split; [left; reflexivity|constructor; exact Hx].
    + destruct (IH1 y Hy) as (z & Hz & P). exists x. split; [left; reflexivity|]. econstructor; eauto.
      eapply path_incl; [|exact P]. intros v Hv. right. exact Hv.
Qed.
(** White-path characterisation. *)
Lemma dfs_exact vis xs vis' N : Dfs vis xs vis' N -> forall y, In y N <-> exists x, In x xs /\ path vis x y.
Proof.
  intros D y. split; [apply (dfs_reached _ _ _ _ D)|]. intros (x & Hx & P).
  pose proof (dfs_targets _ _ _ _ D x Hx) as H. apply (dfs_vis _ _ _ _ D) in H as [H|H].
  - exact (dfs_stay _ _ _ _ D x y H P).
  - destruct (path_start _ _ _ P H).
Qed.

(** [above l x y]: [x] comes before [y] in [l]. *)
Definition above (l : list Z) (x y : Z) : Prop := exists l1 l2, l = l1 ++ l2 /\ In x l1 /\ In y l2.
Lemma above_app_r l l' x y : above l x y -> above (l ++ l') x y.
Proof. intros (a & b & -> & H1 & H2). exists a, (b ++ l'). rewrite app_assoc, in_app_iff. auto. Qed.
Lemma above_app_l l l' x y : above l x y -> above (l' ++ l) x y.
Proof. intros (a & b & -> & H1 & H2). exists (l' ++ a), b. rewrite app_assoc, in_app_iff. auto. Qed.
Lemma above_cons l z x y : above l x y -> above (z :: l) x y.
Proof. intros H. apply (above_app_l l [z]). exact H. Qed.

(** Finishing order: when [y] reaches [z], then [z] reaches [y] or something strongly
    connected to [y] finishes after [z]. *)
Definition ordered (vis N : list Z) : Prop := forall y z, In y N -> In z N -> path vis y z ->
  path vis z y \/ exists g, above N g z /\ path vis y g /\ path vis g y.

Lemma dfs_ordered vis xs vis' N : Dfs vis xs vis' N -> ordered vis N.
Proof.
  induction 1 as [vis|vis x xs vis' N Hx D IH|vis x xs vis1 N1 vis2 N2 Hx D1 IH1 D2 IH2].
  - intros y z [].
  - exact IH.
  - assert (DX : Dfs vis [x] vis1 (x :: N1)) by exact (D_new vis x [] vis1 N1 vis1 [] Hx D1 (D_nil vis1)).
    assert (X : forall y, In y (x :: N1) -> path vis x y).
    { intros y Hy. destruct (dfs_reached _ _ _ _ DX y Hy) as (z & [<-|[]] & P). exact P. }
    assert (O1 : ordered vis (x :: N1)).
    { intros y z Hy Hz P. destruct Hz as [<-|Hz]; [left; apply X; exact Hy|]. destruct Hy as [<-|Hy].
      - right. exists x. split; [exists [x], N1; cbn; auto|]. split; constructor; exact Hx.
      - destruct (path_through _ x _ _ P) as [P'|[P1 P2]].
        + destruct (IH1 y z Hy Hz P') as [Q|(g & Ag & Q1 & Q2)].
          * left. eapply path_incl; [|exact Q]. intros v Hv. right. exact Hv.
          * right. exists g. split; [apply above_cons; exact Ag|]. split; (eapply path_incl; [|eassumption]); intros v Hv; right; exact Hv.
        + right. exists x. split; [exists [x], N1; cbn; auto|]. split; [exact P1|apply X; right; exact Hy]. }
    assert (V1 : forall v, In v vis1 <-> In v (x :: N1) \/ In v vis) by exact (dfs_vis _ _ _ _ DX).
    intros y z Hy Hz P. apply in_app_iff in Hy as [Hy|Hy]; apply in_app_iff in Hz as [Hz|Hz].
    + assert (P' : path vis1 y z).
      { clear Hy. induction P as [a Ha|a b c Ha Hb P IHP].
        - constructor. exact (proj1 (dfs_new _ _ _ _ D2) a Hz).
        - assert (Na : ~ In a vis1).
          { rewrite V1. intros [H|H]; [|contradiction]. assert (Hc : In c (x :: N1)) by (apply (dfs_stay _ _ _ _ DX a c H); econstructor; eauto).
            apply (proj1 (dfs_new _ _ _ _ D2) c Hz). apply V1. left. exact Hc. }
          econstructor; eauto. }
      assert (W : forall a b, path vis1 a b -> path vis a b) by (intros a b; apply path_incl; intros v Hv; apply V1; right; exact Hv).
      destruct (IH2 y z Hy Hz P') as [Q|(g & Ag & Q1 & Q2)]; [left; auto|]. right. exists g. split; [apply above_app_r; exact Ag|auto].
    + right. exists y. split; [exists N2, (x :: N1); auto|]. split; constructor; apply (path_start _ _ _ P).
    + exfalso. apply (proj1 (dfs_new _ _ _ _ D2) z Hz). apply V1. left. exact (dfs_stay _ _ _ _ DX y z Hy P).
    + destruct (O1 y z Hy Hz P) as [Q|(g & Ag & Q)]; [left; exact Q|]. right. exists g. split; [apply above_app_l; exact Ag|exact Q].
Qed.
End Search.

Lemma dfs_app S vis xs vis1 N1 ys vis2 N2 : Dfs S vis xs vis1 N1 -> Dfs S vis1 ys vis2 N2 -> Dfs S vis (xs ++ ys) vis2 (N2 ++ N1).
Proof.
  intros D. revert ys vis2 N2. induction D as [vis|vis x xs vis' N Hx D IH|vis x xs v1 M1 v2 M2 Hx D1 IH1 D2 IH2]; intros ys vis2 N2 D'.
  - cbn. rewrite app_nil_r. exact D'.
  - cbn. apply D_seen; [exact Hx|]. apply IH. exact D'.
  - cbn. rewrite app_assoc. eapply D_new; eauto.
Qed.

(** * The model runs this search *)
Section Run.
Variable g : graph.
Hypothesis Hg : id_graph g.
Let V := map v_id (vertices g).

Definition name_at (i : nat) : Z := match nth_error (vertices g) i with Some v => v_id v | None => 0 end.
Definition outs (x : Z) : list Z :=
  match position_of x (vertices g) with
  | Some i => map (fun e => name_at (e_dst e)) (filter (fun e => (e_src e =? i)%nat) (edges g))
  | None => []
  end.
Definition ins (x : Z) : list Z :=
  match position_of x (vertices g) with
  | Some i => map (fun e => name_at (e_src e)) (filter (fun e => (e_dst e =? i)%nat) (edges g))
  | None => []
  end.

Lemma position_some vs x : In x (map v_id vs) -> exists i, position_of x vs = Some i.
Proof.
  induction vs as [|v vs IH]; cbn; [intros []|]. destruct (Z.eqb_spec (v_id v) x) as [E|N]; [intros _; exists O; reflexivity|].
  intros [E|H]; [contradiction|]. destruct (IH H) as [i E]. rewrite E. exists (S i). reflexivity.
Qed.
Lemma position_name vs x i : position_of x vs = Some i -> exists v, nth_error vs i = Some v /\ v_id v = x.
Proof.
  revert i. induction vs as [|v vs IH]; cbn; intros i E; [discriminate|]. destruct (Z.eqb_spec (v_id v) x) as [E1|N].
  - injection E as <-. exists v. split; [reflexivity|exact E1].
  - destruct (position_of x vs) as [j|]; [|discriminate]. cbn in E. injection E as <-. apply (IH j eq_refl).
Qed.
Lemma position_nth vs i v : NoDup (map v_id vs) -> nth_error vs i = Some v -> position_of (v_id v) vs = Some i.
Proof.
  revert i. induction vs as [|w vs IH]; intros i U E; [destruct i; discriminate|]. inversion U as [|? ? Nw U']; subst. destruct i as [|i]; cbn in E.
  - injection E as <-. cbn. rewrite Z.eqb_refl. reflexivity.
  - cbn. destruct (Z.eqb_spec (v_id w) (v_id v)) as [E1|N]; [|rewrite (IH i U' E); reflexivity].
    destruct Nw. rewrite E1. apply in_map. eapply nth_error_In; eauto.
Qed.
Lemma name_at_ok i : (i < length (vertices g))%nat -> id_of g i = Ok (name_at i) /\ In (name_at i) V.
Proof.
  intros H. unfold id_of, name_at. destruct (nth_error (vertices g) i) as [v|] eqn:E; [|apply nth_error_None in E; lia].
  split; [reflexivity|]. apply in_map. eapply nth_error_In; eauto.
Qed.

Lemma outs_arc u v : In v (outs u) <-> arc g u v.
Proof.
  unfold outs, arc. split.
  - destruct (position_of u (vertices g)) as [i|] eqn:E; [|intros []]. intros H. apply in_map_iff in H as (e & E1 & He). apply filter_In in He as [He Ei].
    apply Nat.eqb_eq in Ei. destruct (position_name _ _ _ E) as (s & Es & Is). destruct (proj2 Hg e He) as [_ Hd].
    destruct (nth_error (vertices g) (e_dst e)) as [t|] eqn:Et; [|apply nth_error_None in Et; lia].
    exists e, s, t. unfold name_at in E1. rewrite Et in E1. repeat split; auto. congruence.
  - intros (e & s & t & He & Es & Et & Eu & Ev). subst u v. rewrite (position_nth _ _ _ (proj1 Hg) Es). apply in_map_iff.
    exists e. split; [unfold name_at; rewrite Et; reflexivity|]. apply filter_In. split; [exact He|apply Nat.eqb_refl].
Qed.
Lemma ins_arc u v : In u (ins v) <-> arc g u v.
Proof.
  unfold ins, arc. split.
  - destruct (position_of v (vertices g)) as [i|] eqn:E; [|intros []]. intros H. apply in_map_iff in H as (e & E1 & He). apply filter_In in He as [He Ei].
    apply Nat.eqb_eq in Ei. destruct (position_name _ _ _ E) as (t & Et & It). destruct (proj2 Hg e He) as [Hd _].
    destruct (nth_error (vertices g) (e_src e)) as [s|] eqn:Es; [|apply nth_error_None in Es; lia].
    exists e, s, t. unfold name_at in E1. rewrite Es in E1. repeat split; auto. congruence.
  - intros (e & s & t & He & Es & Et & Eu & Ev). subst u v. rewrite (position_nth _ _ _ (proj1 Hg) Et). apply in_map_iff.
    exists e. split; [unfold name_at; rewrite Es; reflexivity|]. apply filter_In. split; [exact He|apply Nat.eqb_refl].
Qed.

(** Vertices not visited yet: the bound on the depth. *)
Definition todo (vis : list Z) : nat := length (filter (fun x => negb (visited vis x)) V).
Lemma todo_incl vis vis' : (forall x, In x vis -> In x vis') -> (todo vis' <= todo vis)%nat.
Proof.
  intros H. unfold todo. induction V as [|x l IH]; cbn; [lia|]. destruct (visited vis x) eqn:E; cbn.
  - apply visited_spec in E. apply H in E. apply visited_spec in E. rewrite E. cbn. exact IH.
  - destruct (visited vis' x); cbn; lia.
Qed.
Lemma todo_cons vis x : In x V -> ~ In x vis -> (todo (x :: vis) < todo vis)%nat.
Proof.
  intros Hx Nx. unfold todo. induction V as [|y l IH]; [destruct Hx|]. cbn [filter].
  assert (M : (length (filter (fun x0 => negb (visited (x :: vis) x0)) l) <= length (filter (fun x0 => negb (visited vis x0)) l))%nat).
  { clear. induction l as [|z l IH]; cbn [filter]; [lia|]. destruct (visited vis z) eqn:E.
    - apply visited_spec in E. assert (E' : visited (x :: vis) z = true) by (apply visited_spec; right; exact E). rewrite E'. exact IH.
    - destruct (visited (x :: vis) z); cbn [negb length]; lia. }
  destruct Hx as [->|Hx].
  - assert (E1 : visited (x :: vis) x = true) by (apply visited_spec; left; reflexivity). apply visited_false in Nx. rewrite E1, Nx. cbn [negb length]. lia.
  - specialize (IH Hx). destruct (visited vis y) eqn:E.
    + apply visited_spec in E. assert (E' : visited (x :: vis) y = true) by (apply visited_spec; right; exact E). rewrite E'. exact IH.
    + destruct (visited (x :: vis) y); cbn [negb length]; lia.
Qed.

Lemma dfs_grows S vis xs vis' N : Dfs S vis xs vis' N -> forall x, In x vis -> In x vis'.
Proof. intros D x H. apply (dfs_vis _ _ _ _ _ D). right. exact H. Qed.

Lemma each_edge_stack fuel es :
  (forall x vis acc, In x V -> (todo vis < fuel)%nat -> exists vis' N, dfs_stack fuel g x (vis, acc) = Ok (vis', N ++ acc) /\ Dfs outs vis [x] vis' N) ->
  (forall e, In e es -> In e (edges g)) ->
  forall vis acc, (todo vis < fuel)%nat -> exists vis' N, each_edge (dfs_stack fuel g) g e_dst es (vis, acc) = Ok (vis', N ++ acc) /\ Dfs outs vis (map (fun e => name_at (e_dst e)) es) vis' N.
Proof.
  intros R. induction es as [|e es IH]; intros He vis acc F.
  - exists vis, []. split; [reflexivity|constructor].
  - destruct (name_at_ok (e_dst e)) as [E HV]; [apply (proj2 Hg e), He; left; reflexivity|]. cbn [each_edge]. rewrite E. cbn [bind].
    destruct (R (name_at (e_dst e)) vis acc HV F) as (v1 & N1 & E1 & D1). rewrite E1. cbn [bind].
    destruct (IH (fun e' H => He e' (or_intror H)) v1 (N1 ++ acc)) as (v2 & N2 & E2 & D2).
    { pose proof (todo_incl vis v1 (dfs_grows _ _ _ _ _ D1)). lia. }
    exists v2, (N2 ++ N1). rewrite E2, app_assoc. split; [reflexivity|]. exact (dfs_app _ _ _ _ _ _ _ _ D1 D2).
Qed.

Lemma dfs_stack_run fuel : forall x vis acc, In x V -> (todo vis < fuel)%nat ->
  exists vis' N, dfs_stack fuel g x (vis, acc) = Ok (vis', N ++ acc) /\ Dfs outs vis [x] vis' N.
Proof.
  induction fuel as [|fuel IH]; intros x vis acc Hx F; [lia|]. cbn [dfs_stack]. destruct (position_some _ _ Hx) as [i Ei].
  unfold vertex_by_id. rewrite Ei. cbn [bind fst snd]. destruct (visited vis x) eqn:Ev.
  - exists vis, []. split; [reflexivity|]. apply D_seen; [apply visited_spec; exact Ev|constructor].
  - apply visited_false in Ev.
    destruct (each_edge_stack fuel (filter (fun e => (e_src e =? i)%nat) (edges g)) IH) with (vis := x :: vis) (acc := acc) as (v1 & N1 & E1 & D1).
    + intros e He. apply filter_In in He. apply He.
    + pose proof (todo_cons vis x Hx Ev). lia.
    + rewrite E1. cbn [bind fst snd]. exists v1, (x :: N1). split; [reflexivity|].
      replace (map (fun e => name_at (e_dst e)) (filter (fun e => (e_src e =? i)%nat) (edges g))) with (outs x) in D1 by (unfold outs; rewrite Ei; reflexivity).
      exact (D_new _ vis x [] v1 N1 v1 [] Ev D1 (D_nil _ v1)).
Qed.

Lemma each_edge_transpose fuel es :
  (forall x vis acc, In x V -> (todo vis < fuel)%nat -> exists vis' N P, dfs_transpose fuel g x (vis, acc) = Ok (vis', acc ++ P) /\ Dfs ins vis [x] vis' N /\ Permutation P N) ->
  (forall e, In e es -> In e (edges g)) ->
  forall vis acc, (todo vis < fuel)%nat -> exists vis' N P, each_edge (dfs_transpose fuel g) g e_src es (vis, acc) = Ok (vis', acc ++ P) /\ Dfs ins vis (map (fun e => name_at (e_src e)) es) vis' N /\ Permutation P N.
Proof.
  intros R. induction es as [|e es IH]; intros He vis acc F.
  - exists vis, [], []. rewrite app_nil_r. repeat split; constructor.
  - destruct (name_at_ok (e_src e)) as [E HV]; [apply (proj2 Hg e), He; left; reflexivity|]. cbn [each_edge]. rewrite E. cbn [bind].
    destruct (R (name_at (e_src e)) vis acc HV F) as (v1 & N1 & P1 & E1 & D1 & Q1). rewrite E1. cbn [bind].
    destruct (IH (fun e' H => He e' (or_intror H)) v1 (acc ++ P1)) as (v2 & N2 & P2 & E2 & D2 & Q2).
    { pose proof (todo_incl vis v1 (dfs_grows _ _ _ _ _ D1)). lia. }
    exists v2, (N2 ++ N1), (P1 ++ P2). rewrite E2, app_assoc. split; [reflexivity|]. split; [exact (dfs_app _ _ _ _ _ _ _ _ D1 D2)|].
    rewrite (Permutation_app_comm N2 N1). apply Permutation_app; assumption.
Qed.
Lemma dfs_transpose_run fuel : forall x vis acc, In x V -> (todo vis < fuel)%nat ->
  exists vis' N P, dfs_transpose fuel g x (vis, acc) = Ok (vis', acc ++ P) /\ Dfs ins vis [x] vis' N /\ Permutation P N.
Proof.
  induction fuel as [|fuel IH]; intros x vis acc Hx F; [lia|]. cbn [dfs_transpose]. destruct (position_some _ _ Hx) as [i Ei].
  unfold vertex_by_id. rewrite Ei. cbn [bind fst snd]. destruct (visited vis x) eqn:Ev.
  - exists vis, [], []. rewrite app_nil_r. split; [reflexivity|]. split; [|constructor]. apply D_seen; [apply visited_spec; exact Ev|constructor].
  - apply visited_false in Ev.
    destruct (each_edge_transpose fuel (filter (fun e => (e_dst e =? i)%nat) (edges g)) IH) with (vis := x :: vis) (acc := acc ++ [x]) as (v1 & N1 & P1 & E1 & D1 & Q1).
    + intros e He. apply filter_In in He. apply He.
    + pose proof (todo_cons vis x Hx Ev). lia.
    + rewrite E1. exists v1, (x :: N1), (x :: P1). rewrite <- app_assoc. split; [reflexivity|].
      replace (map (fun e => name_at (e_src e)) (filter (fun e => (e_dst e =? i)%nat) (edges g))) with (ins x) in D1 by (unfold ins; rewrite Ei; reflexivity).
      split; [exact (D_new _ vis x [] v1 N1 v1 [] Ev D1 (D_nil _ v1))|apply perm_skip; exact Q1].
Qed.

Lemma todo_bound vis : (todo vis <= length (vertices g))%nat.
Proof.
  unfold todo. transitivity (length V); [|unfold V; rewrite map_length; lia].
  induction V as [|x l IH]; cbn; [lia|]. destruct (negb (visited vis x)); cbn; lia.
Qed.

Lemma stack_loop_run fuel ids : (length (vertices g) < fuel)%nat -> (forall x, In x ids -> In x V) ->
  forall vis acc, exists vis' N, stack_loop fuel g ids (vis, acc) = Ok (vis', N ++ acc) /\ Dfs outs vis ids vis' N.
Proof.
  intros F. induction ids as [|x ids IH]; intros Hi vis acc.
  - exists vis, []. split; [reflexivity|constructor].
  - cbn [stack_loop fst]. destruct (visited vis x) eqn:Ev.
    + destruct (IH (fun y H => Hi y (or_intror H)) vis acc) as (v1 & N1 & E1 & D1). exists v1, N1. split; [exact E1|]. apply D_seen; [apply visited_spec; exact Ev|exact D1].
    + destruct (dfs_stack_run fuel x vis acc (Hi x (or_introl eq_refl))) as (v1 & N1 & E1 & D1); [pose proof (todo_bound vis); lia|]. rewrite E1. cbn [bind].
      destruct (IH (fun y H => Hi y (or_intror H)) v1 (N1 ++ acc)) as (v2 & N2 & E2 & D2). exists v2, (N2 ++ N1). rewrite E2, app_assoc. split; [reflexivity|].
      exact (dfs_app _ _ _ _ _ _ _ _ D1 D2).
Qed.

Lemma keys_in l x : In x (keys l) <-> In x l.
Proof.
  assert (I : forall y l, In x (insert_key y l) <-> x = y \/ In x l).
  { intros y l'. induction l' as [|z l' IH]; cbn; [intuition|]. destruct (y <? z); cbn; [intuition|]. destruct (Z.eqb_spec y z) as [->|N]; cbn; [intuition|].
    rewrite IH. intuition. }
  unfold keys. induction l as [|y l IH]; cbn; [tauto|]. rewrite I, IH. intuition.
Qed.

(** * From paths to reachability *)
Lemma path_reaches u v : path outs [] u v <-> reaches g u v.
Proof.
  split.
  - induction 1 as [x _|x y z _ H _ [l IH]]; [exists []; reflexivity|]. exists (y :: l). split; [apply outs_arc; exact H|exact IH].
  - intros [l W]. revert u W. induction l as [|w l IH]; cbn; intros u W; [subst; constructor; auto|]. destruct W as [A W]. econstructor; [auto|apply outs_arc; exact A|auto].
Qed.
Lemma reaches_trans u v w : reaches g u v -> reaches g v w -> reaches g u w.
Proof. rewrite <- !path_reaches. apply path_trans. Qed.
Lemma reaches_refl u : reaches g u u.
Proof. exists []. reflexivity. Qed.
(** A path of the transposed graph, read backwards. *)
Lemma path_ins A u v : path ins A u v -> reaches g v u /\ forall w, path ins A u w -> True.
Proof.
  intros P. split; [|auto]. induction P as [x _|x y z _ H _ IH]; [apply reaches_refl|]. eapply reaches_trans; [exact IH|]. exists [x]. split; [apply ins_arc; exact H|reflexivity].
Qed.
Lemma reaches_ins A u v : (forall w, reaches g u w -> reaches g w v -> ~ In w A) -> reaches g u v -> path ins A v u.
Proof.
  intros HA [l W]. revert u HA W. induction l as [|w l IH]; cbn; intros u HA W.
  - subst. constructor. apply HA; apply reaches_refl.
  - destruct W as [Ar W]. assert (R : reaches g u w) by (exists [w]; split; [exact Ar|reflexivity]).
    eapply path_trans; [apply (IH w)|].
    + intros x Hx Hv. apply HA; [eapply reaches_trans; eauto|exact Hv].
    + exact W.
    + econstructor; [|apply ins_arc; exact Ar|constructor].
      * apply HA; [exact R|exists l; exact W].
      * apply HA; [apply reaches_refl|eapply reaches_trans; [exact R|exists l; exact W]].
Qed.
Lemma reaches_task u v : is_task g u -> reaches g u v -> is_task g v.
Proof.
  intros Hu [l W]. revert u Hu W. induction l as [|w l IH]; cbn; intros u Hu W; [congruence|]. destruct W as [(e & s & t & _ & _ & Et & _ & Ev) W].
  apply (IH w); [|exact W]. subst w. apply in_map. eapply nth_error_In; eauto.
Qed.

Definition linked (u v : Z) : Prop := reaches g u v /\ reaches g v u.
Lemma linked_sym u v : linked u v -> linked v u.
Proof. intros [H1 H2]. split; assumption. Qed.
Lemma linked_trans u v w : linked u v -> linked v w -> linked u w.
Proof. intros [H1 H2] [H3 H4]. split; eapply reaches_trans; eauto. Qed.

(** * The second loop
    [stack] is what is left of the finishing order [L = pre ++ stack]; the visited vertices are
    a union of components containing [pre]. *)
Definition good_component (c : list Z) : Prop :=
  c <> [] /\ NoDup c /\ (forall u : Z, In u c -> is_task g u) /\
  (forall u v : Z, In u c -> (In v c <-> linked u v)).

Lemma before_in (a b c d : list Z) (y z : Z) : a ++ b = c ++ z :: d -> In y a -> In z b -> NoDup (a ++ b) -> In y c.
Proof.
  revert c. induction a as [|p a IHa]; intros c E Hy Hz U; [destruct Hy|]. destruct c as [|q c].
  - cbn in E. injection E as -> E. inversion U as [|? ? N _]; subst. destruct N. apply in_app_iff. right. exact Hz.
  - cbn in E. injection E as -> E. destruct Hy as [<-|Hy]; [left; reflexivity|]. right. inversion U; subst. apply IHa; auto.
Qed.

Lemma component_loop_run fuel (L : list Z) : (length (vertices g) < fuel)%nat -> NoDup L ->
  (forall u, is_task g u <-> In u L) -> ordered outs [] L ->
  forall stack pre vis, L = pre ++ stack -> (forall u, In u pre -> In u vis) -> (forall u, In u vis -> is_task g u) ->
    (forall u v, In u vis -> linked u v -> In v vis) -> (forall u w, In w vis -> ~ In u vis -> ~ reaches g u w) ->
  exists comps, component_loop fuel g stack vis = Ok comps /\
    (forall c, In c comps -> good_component c) /\
    (forall u, In u (concat comps) <-> is_task g u /\ ~ In u vis) /\ NoDup (concat comps) /\
    (forall i j c d u v, nth_error comps i = Some c -> nth_error comps j = Some d -> In u c -> In v d -> reaches g u v -> (i <= j)%nat).
Proof.
  intros F UL HL O. induction stack as [|x stack IH]; intros pre vis EL Hp Ht Hc Hn.
  - exists []. split; [reflexivity|]. split; [intros c []|]. split; [|split; [constructor|intros [|i] j c d u v E; discriminate]].
    intros u. split; [intros []|]. intros [H N]. apply HL in H. rewrite EL, app_nil_r in H. destruct (N (Hp u H)).
  - cbn [component_loop]. destruct (visited vis x) eqn:Ev.
    + apply (IH (pre ++ [x]) vis); auto; [rewrite EL, <- app_assoc; reflexivity|]. intros u Hu. apply in_app_iff in Hu as [Hu|[<-|[]]]; [auto|apply visited_spec; exact Ev].
    + apply visited_false in Ev. assert (Hx : is_task g x) by (apply HL; rewrite EL; apply in_app_iff; right; left; reflexivity).
      destruct (dfs_transpose_run fuel x vis [] Hx) as (v1 & N & P & E1 & D & Q); [pose proof (todo_bound vis); lia|].
      rewrite E1. cbn [bind fst snd app].
      assert (C : forall w, In w P <-> linked x w).
      { intros w. rewrite Q. rewrite (dfs_exact _ _ _ _ _ D). split.
        - intros (x' & [<-|[]] & Pa). pose proof (path_end _ _ _ _ Pa) as Nw. apply path_ins in Pa as [Rw _]. split; [|exact Rw].
          assert (Hw : is_task g w).
          { pose proof (dfs_exact _ _ _ _ _ D w) as K. clear - Rw Hx Hg. destruct Rw as [l W]. destruct l as [|y l]; cbn in W; [subst; exact Hx|]. destruct W as [(e & s & t & _ & Es & _ & Eu & _) _].
            subst w. apply in_map. eapply nth_error_In; eauto. }
          destruct (O w x) as [R|(h & Ah & R1 & R2)].
          + apply HL. exact Hw.
          + apply HL. exact Hx.
          + apply path_reaches. exact Rw.
          + apply path_reaches. exact R.
          + exfalso. apply path_reaches in R1, R2. destruct Ah as (l1 & l2 & El & Hh & Hxl).
            apply Nw. apply (Hc h w); [|split; assumption].
            apply Hp. apply (before_in l1 l2 pre stack h x); auto; [congruence|rewrite <- El; exact UL].
        - intros [R1 R2]. exists x. split; [left; reflexivity|]. apply reaches_ins; [|exact R2]. intros y Hy1 Hy2 Hv.
          apply Ev. apply (Hc y x Hv). split; [exact Hy2|]. eapply reaches_trans; eauto. }
      assert (EV : forall u, In u v1 <-> In u P \/ In u vis) by (intros u; rewrite Q; apply (dfs_vis _ _ _ _ _ D)).
      assert (TP : forall u, In u P -> is_task g u) by (intros u Hu; apply C in Hu as [Hu _]; exact (reaches_task x u Hx Hu)).
      assert (XP : In x P) by (apply C; split; apply reaches_refl).
      assert (NP : forall u, In u P -> ~ In u vis) by (intros u Hu; apply (Permutation_in u Q) in Hu; exact (proj1 (dfs_new _ _ _ _ _ D) u Hu)).
      assert (UP : forall u w, In w P -> ~ In u vis -> reaches g u w -> In u P).
      { intros u w Hw Nu R. assert (Rx : reaches g u x) by (eapply reaches_trans; [exact R|apply C; exact Hw]).
        apply (Permutation_in u (Permutation_sym Q)). apply (dfs_exact _ _ _ _ _ D). exists x. split; [left; reflexivity|].
        apply reaches_ins; [|exact Rx]. intros y Hy1 Hy2 Hy. exact (Hn u y Hy Nu Hy1). }
      destruct (IH (pre ++ [x]) v1) as (comps & E2 & G & Cov & U & Topo).
      * rewrite EL, <- app_assoc. reflexivity.
      * intros u Hu. apply EV. apply in_app_iff in Hu as [Hu|[<-|[]]]; auto.
      * intros u Hu. apply EV in Hu as [Hu|Hu]; auto.
      * intros u v Hu Huv. apply EV. apply EV in Hu as [Hu|Hu]; [left|right; eauto]. apply C. apply C in Hu. eapply linked_trans; eauto.
      * intros u w Hw Nu R. rewrite EV in Nu. apply EV in Hw as [Hw|Hw]; [|exact (Hn u w Hw (fun H => Nu (or_intror H)) R)].
        apply Nu. left. exact (UP u w Hw (fun H => Nu (or_intror H)) R).
      * rewrite E2. cbn [bind]. exists (P :: comps). split; [reflexivity|].
        assert (G1 : good_component P).
        { split; [intros ->; destruct XP|]. split; [exact (Permutation_NoDup (Permutation_sym Q) (proj2 (dfs_new _ _ _ _ _ D)))|]. split; [exact TP|].
          intros u v Hu. apply C in Hu. rewrite C. split; intros Hv; [eapply linked_trans; [apply linked_sym|]; eauto|eapply linked_trans; eauto]. }
        assert (Nu : forall u, In u (concat comps) -> ~ In u P) by (intros u Hu HP; apply Cov in Hu as [_ Hu]; apply Hu, EV; left; exact HP).
        split; [|split; [|split]].
        -- intros c [<-|Hc']; [exact G1|]. destruct (G c Hc') as (A1 & A2 & A3 & A4). repeat split; auto; apply A4; auto.
        -- intros u. cbn [concat]. rewrite in_app_iff, Cov, EV. split.
           ++ intros [H|[H1 H2]]; [split; auto|]. split; [exact H1|tauto].
           ++ intros [H1 H2]. destruct (in_dec Z.eq_dec u P); [left; assumption|right]. split; [exact H1|tauto].
        -- cbn [concat]. apply NoDup_app_intro; [apply G1|exact U|]. intros u HP Hu. exact (Nu u Hu HP).
        -- intros i j c d u v Ei Ej Hu Hv R. destruct j as [|j]; [|destruct i as [|i]; [lia|cbn in Ei, Ej; specialize (Topo i j c d u v Ei Ej Hu Hv R); lia]].
           destruct i as [|i]; [lia|]. exfalso. cbn in Ei, Ej. injection Ej as <-.
           assert (Hu' : In u (concat comps)) by (apply in_concat; exists c; split; [eapply nth_error_In; eauto|exact Hu]).
           apply (Nu u Hu'). apply Cov in Hu' as [_ Nv]. apply (UP u v Hv); [|exact R]. intros H. apply Nv, EV. right. exact H.
Qed.

Lemma kosaraju_run fuel : (length (vertices g) < fuel)%nat ->
  exists comps, kosaraju fuel g = Ok comps /\ (forall c, In c comps -> good_component c) /\
    Permutation (concat comps) (map v_id (vertices g)) /\
    (forall i j c d u v, nth_error comps i = Some c -> nth_error comps j = Some d -> In u c -> In v d -> reaches g u v -> (i <= j)%nat).
Proof.
  intros F. unfold kosaraju. destruct (stack_loop_run fuel (keys (map v_id (vertices g))) F) with (vis := @nil Z) (acc := @nil Z) as (v1 & N & E & D).
  { intros x Hx. apply (proj1 (keys_in _ _)) in Hx. exact Hx. }
  rewrite E. cbn [bind snd]. rewrite app_nil_r.
  assert (HL : forall u, is_task g u <-> In u N).
  { intros u. split.
    - intros Hu. apply (proj2 (keys_in _ _)) in Hu. pose proof (dfs_targets _ _ _ _ _ D u Hu) as H. apply (dfs_vis _ _ _ _ _ D) in H as [H|[]]; exact H.
    - intros Hu. destruct (dfs_reached _ _ _ _ _ D u Hu) as (x & Hx & Pa). apply path_reaches in Pa. apply (proj1 (keys_in _ _)) in Hx. exact (reaches_task x u Hx Pa). }
  destruct (component_loop_run fuel N F (proj2 (dfs_new _ _ _ _ _ D)) HL (dfs_ordered _ _ _ _ _ D) N [] []) as (comps & E2 & G & Cov & U & T);
    [reflexivity|intros u []|intros u []|intros u v []|intros u w []|].
  exists comps. split; [exact E2|]. split; [exact G|]. split; [|exact T].
  apply NoDup_Permutation; [exact U|apply Hg|]. intros u. rewrite Cov. unfold is_task. intuition.
Qed.
End Run.

(** * Cycles *)
Lemma walk_app g u l v m w : walk g u l v -> walk g v m w -> walk g u (l ++ m) w.
Proof. revert u. induction l as [|x l IH]; cbn; intros u H1 H2; [subst; exact H2|]. destruct H1 as [A H1]. split; [exact A|]. apply IH; assumption. Qed.
Lemma walk_last g u l v : walk g u l v -> l <> [] -> In v l.
Proof. revert u. induction l as [|x l IH]; cbn; intros u W N; [contradiction|]. destruct W as [_ W]. destruct l as [|y l]; [left; exact W|right; apply (IH x W); discriminate]. Qed.
Lemma walk_split g u l v w : walk g u l v -> In w l -> exists l1 l2, walk g u l1 w /\ walk g w l2 v.
Proof.
  revert u. induction l as [|x l IH]; cbn; intros u W H; [destruct H|]. destruct W as [A W]. destruct H as [->|H].
  - exists [w], l. cbn. auto.
  - destruct (IH x W H) as (l1 & l2 & W1 & W2). exists (x :: l1), l2. cbn. auto.
Qed.
Lemma walk_task g u l v : walk g u l v -> l <> [] -> is_task g u /\ is_task g v /\ forall w, In w l -> is_task g w.
Proof.
  revert u. induction l as [|x l IH]; cbn; intros u W N; [contradiction|]. destruct W as [(e & s & t & _ & Es & Et & Eu & Ev) W].
  assert (Hu : is_task g u) by (subst u; apply in_map; eapply nth_error_In; eauto). assert (Hx : is_task g x) by (subst x; apply in_map; eapply nth_error_In; eauto).
  split; [exact Hu|]. destruct l as [|y l].
  - cbn in W. subst v. split; [exact Hx|]. intros w [<-|[]]. exact Hx.
  - destruct (IH x W) as (_ & Hv & Hw); [discriminate|]. split; [exact Hv|]. intros w [<-|H]; auto.
Qed.
Lemma two_linked (g : graph) (l : list Z) : NoDup l -> (1 < length l)%nat -> exists u v, In u l /\ In v l /\ u <> v.
Proof.
  destruct l as [|u [|v l]]; cbn; intros U H; try lia. exists u, v. inversion U as [|? ? N _]; subst. repeat split; auto. intros ->. apply N. left. reflexivity.
Qed.

Lemma has_cycles_spec g fuel : id_graph g -> (length (vertices g) < fuel)%nat ->
  exists b, has_cycles fuel g = Ok b /\ (b = true <-> exists u l, cycle g u l /\ exists v, In v l /\ v <> u).
Proof.
  intros Hg F. destruct (kosaraju_run g Hg fuel F) as (comps & E & G & P & _). unfold has_cycles. rewrite E. cbn [bind].
  eexists. split; [reflexivity|]. rewrite existsb_exists. split.
  - intros (c & Hc & L). apply Nat.ltb_lt in L. destruct (G c Hc) as (_ & U & _ & Lk). destruct (two_linked g c U L) as (u & v & Hu & Hv & N).
    destruct (proj1 (Lk u v Hu) Hv) as [[l1 W1] [l2 W2]]. exists u, (l1 ++ l2). assert (N1 : l1 <> []) by (intros ->; cbn in W1; congruence).
    split; [split; [intros H; apply app_eq_nil in H as [H _]; contradiction|eapply walk_app; eauto]|]. exists v. split; [|congruence].
    apply in_app_iff. left. eapply walk_last; eauto.
  - intros (u & l & [Nl W] & v & Hv & N). destruct (walk_split g u l u v W Hv) as (l1 & l2 & W1 & W2).
    destruct (walk_task g u l u W Nl) as (Tu & _ & Tw). assert (Hu : In u (concat comps)) by (apply (Permutation_in u (Permutation_sym P)); exact Tu).
    apply in_concat in Hu as (c & Hc & Hu). exists c. split; [exact Hc|]. destruct (G c Hc) as (_ & _ & _ & Lk).
    assert (Hv' : In v c) by (apply (Lk u v Hu); split; [exists l1|exists l2]; assumption).
    apply Nat.ltb_lt. destruct c as [|a [|b c]]; cbn; [destruct Hu| |lia]. destruct Hu as [<-|[]]. destruct Hv' as [<-|[]]. contradiction.
Qed.

Lemma has_cycles_no_loop g fuel : id_graph g -> (length (vertices g) < fuel)%nat -> (forall e, In e (edges g) -> e_src e <> e_dst e) ->
  exists b, has_cycles fuel g = Ok b /\ (b = true <-> exists u l, cycle g u l).
Proof.
  intros Hg F Hl. destruct (has_cycles_spec g fuel Hg F) as (b & E & H). exists b. split; [exact E|]. rewrite H. split.
  - intros (u & l & C & _). exists u, l. exact C.
  - intros (u & l & C). exists u, l. split; [exact C|]. destruct C as [N W]. destruct l as [|w l]; [contradiction|]. exists w. split; [left; reflexivity|].
    destruct W as [(e & s & t & He & Es & Et & Eu & Ev) _]. intros ->. apply (Hl e He).
    destruct Hg as [U _]. assert (nth_error (map v_id (vertices g)) (e_src e) = nth_error (map v_id (vertices g)) (e_dst e)) as K.
    { rewrite !nth_error_map, Es, Et. cbn. congruence. }
    apply (proj1 (NoDup_nth_error _) U); [|exact K]. apply nth_error_Some. rewrite nth_error_map, Es. discriminate.
Qed.

Lemma topological g fuel comps : id_graph g -> (length (vertices g) < fuel)%nat -> kosaraju fuel g = Ok comps ->
  forall i j c d u v, nth_error comps i = Some c -> nth_error comps j = Some d -> In u c -> In v d -> reaches g u v -> (i <= j)%nat.
Proof. intros Hg F E. destruct (kosaraju_run g Hg fuel F) as (comps' & E' & _ & _ & T). rewrite E in E'. injection E' as <-. exact T. Qed.
