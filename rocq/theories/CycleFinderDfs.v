(** Depth-first search as a relation, on tasks named by natural numbers (as SccProofs.v has it for
    integers): which tasks it finds and in what order it is done with them. *)
From Verif Require Import Base.
Open Scope nat_scope.

Lemma NoDup_app_intro {A} (l1 l2 : list A) : NoDup l1 -> NoDup l2 -> (forall x, In x l1 -> ~ In x l2) -> NoDup (l1 ++ l2).
Proof.
  intros H1 H2. induction H1 as [|x l N _ IH]; cbn; intros D; [exact H2|]. constructor.
  - rewrite in_app_iff. intros [H|H]; [contradiction|]. exact (D x (or_introl eq_refl) H).
  - apply IH. intros y Hy. apply D. right. exact Hy.
Qed.

(** * Depth-first search as a relation.
    [Dfs Sc vis xs vis' N]: searching from the targets [xs] with [vis] visited ends with [vis']
    visited, and finishes the vertices [N], the last finished first. *)
Section Search.
Variable Sc : nat -> list nat.
Inductive Dfs : list nat -> list nat -> list nat -> list nat -> Prop :=
| D_nil vis : Dfs vis [] vis []
| D_seen vis x xs vis' N : In x vis -> Dfs vis xs vis' N -> Dfs vis (x :: xs) vis' N
| D_new vis x xs vis1 N1 vis2 N2 : ~ In x vis -> Dfs (x :: vis) (Sc x) vis1 N1 -> Dfs vis1 xs vis2 N2 ->
    Dfs vis (x :: xs) vis2 (N2 ++ x :: N1).

(** Paths outside a set of vertices. *)
Inductive path (A : list nat) : nat -> nat -> Prop :=
| path_refl x : ~ In x A -> path A x x
| path_step x y z : ~ In x A -> In y (Sc x) -> path A y z -> path A x z.

Lemma path_trans A x y z : path A x y -> path A y z -> path A x z.
Proof. induction 1; intros; auto. econstructor; eauto. Qed.
Lemma path_incl A B x y : (forall v, In v B -> In v A) -> path A x y -> path B x y.
Proof. intros H. induction 1; [constructor|econstructor]; eauto. Qed.
Lemma path_start A x y : path A x y -> ~ In x A.
Proof. destruct 1; auto. Qed.
Lemma path_end A x y : path A x y -> ~ In y A.
Proof. induction 1; auto. Qed.
(** A path either avoids [v] too, or goes through it. *)
Lemma path_through A v x y : path A x y -> path (v :: A) x y \/ (path A x v /\ path A v y).
Proof.
  induction 1 as [x Hx|x y z Hx Hy P IH].
  - destruct (Nat.eq_dec v x) as [->|N]; [right; split; constructor; auto|left; constructor; cbn; intuition].
  - destruct (Nat.eq_dec v x) as [->|N].
    + right. split; [constructor; auto|econstructor; eauto].
    + destruct IH as [IH|[I1 I2]].
      * left. econstructor; cbn; intuition eauto.
      * right. split; [econstructor; eauto|exact I2].
Qed.

Lemma dfs_vis vis xs vis' N : Dfs vis xs vis' N -> (forall v, In v vis' <-> In v N \/ In v vis).
Proof.
  induction 1 as [vis|vis x xs vis' N Hx _ IH|vis x xs vis1 N1 vis2 N2 Hx _ IH1 _ IH2]; intros v.
  - cbn. tauto.
  - apply IH.
  - rewrite IH2, IH1, in_app_iff. cbn. tauto.
Qed.
Lemma dfs_new vis xs vis' N : Dfs vis xs vis' N -> (forall v, In v N -> ~ In v vis) /\ NoDup N.
Proof.
  induction 1 as [vis|vis x xs vis' N Hx _ IH|vis x xs vis1 N1 vis2 N2 Hx D1 [I1 U1] D2 [I2 U2]].
  - split; [intros v []|constructor].
  - exact IH.
  - pose proof (dfs_vis _ _ _ _ D1) as V1. split.
    + intros v Hv Hv'. apply in_app_iff in Hv as [Hv|[<-|Hv]].
      * apply (I2 v Hv). apply V1. right. right. exact Hv'.
      * contradiction.
      * apply (I1 v Hv). right. exact Hv'.
    + apply NoDup_app_intro; [exact U2| |].
      * constructor; [|exact U1]. intros H. apply (I1 x H). left. reflexivity.
      * intros v Hv [<-|Hv']; apply (I2 _ Hv), V1; [right; left; reflexivity|left; exact Hv'].
Qed.
Lemma dfs_targets vis xs vis' N : Dfs vis xs vis' N -> forall x, In x xs -> In x vis'.
Proof.
  induction 1 as [vis|vis x xs vis' N Hx D IH|vis x xs vis1 N1 vis2 N2 Hx D1 _ D2 IH2]; intros z Hz.
  - destruct Hz.
  - destruct Hz as [<-|Hz]; [|auto]. apply (dfs_vis _ _ _ _ D). right. exact Hx.
  - destruct Hz as [<-|Hz]; [|auto]. apply (dfs_vis _ _ _ _ D2). right. apply (dfs_vis _ _ _ _ D1). right. left. reflexivity.
Qed.
Lemma dfs_closed vis xs vis' N : Dfs vis xs vis' N -> forall y z, In y N -> In z (Sc y) -> In z vis'.
Proof.
  induction 1 as [vis|vis x xs vis' N Hx D IH|vis x xs vis1 N1 vis2 N2 Hx D1 IH1 D2 IH2]; intros y z Hy Hz.
  - destruct Hy.
  - eauto.
  - apply in_app_iff in Hy as [Hy|[<-|Hy]].
    + eauto.
    + apply (dfs_vis _ _ _ _ D2). right. eapply dfs_targets; eauto.
    + apply (dfs_vis _ _ _ _ D2). right. eauto.
Qed.
(** So a path avoiding [vis] that starts in [N] stays in [N]. *)
Lemma dfs_stay vis xs vis' N : Dfs vis xs vis' N -> forall y z, In y N -> path vis y z -> In z N.
Proof.
  intros D y z Hy P. induction P as [x _|x y z Hx Hs P IH]; [exact Hy|]. apply IH.
  pose proof (dfs_closed _ _ _ _ D x y Hy Hs) as H. apply (dfs_vis _ _ _ _ D) in H as [H|H]; [exact H|]. destruct (path_start _ _ _ P H).
Qed.
Lemma dfs_reached vis xs vis' N : Dfs vis xs vis' N -> forall y, In y N -> exists x, In x xs /\ path vis x y.
Proof.
  induction 1 as [vis|vis x xs vis' N Hx D IH|vis x xs vis1 N1 vis2 N2 Hx D1 IH1 D2 IH2]; intros y Hy.
  - destruct Hy.
  - destruct (IH y Hy) as (z & Hz & P). exists z. split; [right; exact Hz|exact P].
  - apply in_app_iff in Hy as [Hy|[<-|Hy]].
    + destruct (IH2 y Hy) as (z & Hz & P). exists z. split; [right; exact Hz|]. eapply path_incl; [|exact P].
      intros v Hv. apply (dfs_vis _ _ _ _ D1). right. right. exact Hv.
    + exists x. split; [left; reflexivity|constructor; exact Hx].
    + destruct (IH1 y Hy) as (z & Hz & P). exists x. split; [left; reflexivity|]. econstructor; eauto.
      eapply path_incl; [|exact P]. intros v Hv. right. exact Hv.
Qed.
(** White-path characterisation. *)
Lemma dfs_exact vis xs vis' N : Dfs vis xs vis' N -> forall y, In y N <-> exists x, In x xs /\ path vis x y.
Proof.
  intros D y. split; [apply (dfs_reached _ _ _ _ D)|]. intros (x & Hx & P).
  pose proof (dfs_targets _ _ _ _ D x Hx) as H. apply (dfs_vis _ _ _ _ D) in H as [H|H].
  - exact (dfs_stay _ _ _ _ D x y H P).
  - destruct (path_start _ _ _ P H).
Qed.

(** [above l x y]: [x] comes before [y] in [l]. *)
Definition above (l : list nat) (x y : nat) : Prop := exists l1 l2, l = l1 ++ l2 /\ In x l1 /\ In y l2.
Lemma above_app_r l l' x y : above l x y -> above (l ++ l') x y.
Proof. intros (a & b & -> & H1 & H2). exists a, (b ++ l'). rewrite app_assoc, in_app_iff. auto. Qed.
Lemma above_app_l l l' x y : above l x y -> above (l' ++ l) x y.
Proof. intros (a & b & -> & H1 & H2). exists (l' ++ a), b. rewrite app_assoc, in_app_iff. auto. Qed.
Lemma above_cons l z x y : above l x y -> above (z :: l) x y.
Proof. intros H. apply (above_app_l l [z]). exact H. Qed.

(** Finishing order: when [y] reaches [z], then [z] reaches [y] or something strongly
    connected to [y] finishes after [z]. *)
Definition ordered (vis N : list nat) : Prop := forall y z, In y N -> In z N -> path vis y z ->
  path vis z y \/ exists g, above N g z /\ path vis y g /\ path vis g y.

Lemma dfs_ordered vis xs vis' N : Dfs vis xs vis' N -> ordered vis N.
Proof.
  induction 1 as [vis|vis x xs vis' N Hx D IH|vis x xs vis1 N1 vis2 N2 Hx D1 IH1 D2 IH2].
  - intros y z [].
  - exact IH.
  - assert (DX : Dfs vis [x] vis1 (x :: N1)) by exact (D_new vis x [] vis1 N1 vis1 [] Hx D1 (D_nil vis1)).
    assert (X : forall y, In y (x :: N1) -> path vis x y).
    { intros y Hy. destruct (dfs_reached _ _ _ _ DX y Hy) as (z & [<-|[]] & P). exact P. }
    assert (O1 : ordered vis (x :: N1)).
    { intros y z Hy Hz P. destruct Hz as [<-|Hz]; [left; apply X; exact Hy|]. destruct Hy as [<-|Hy].
      - right. exists x. split; [exists [x], N1; cbn; auto|]. split; constructor; exact Hx.
      - destruct (path_through _ x _ _ P) as [P'|[P1 P2]].
        + destruct (IH1 y z Hy Hz P') as [Q|(g & Ag & Q1 & Q2)].
          * left. eapply path_incl; [|exact Q]. intros v Hv. right. exact Hv.
          * right. exists g. split; [apply above_cons; exact Ag|]. split; (eapply path_incl; [|eassumption]); intros v Hv; right; exact Hv.
        + right. exists x. split; [exists [x], N1; cbn; auto|]. split; [exact P1|apply X; right; exact Hy]. }
    assert (V1 : forall v, In v vis1 <-> In v (x :: N1) \/ In v vis) by exact (dfs_vis _ _ _ _ DX).
    intros y z Hy Hz P. apply in_app_iff in Hy as [Hy|Hy]; apply in_app_iff in Hz as [Hz|Hz].
    + assert (P' : path vis1 y z).
      { clear Hy. induction P as [a Ha|a b c Ha Hb P IHP].
        - constructor. exact (proj1 (dfs_new _ _ _ _ D2) a Hz).
        - assert (Na : ~ In a vis1).
          { rewrite V1. intros [H|H]; [|contradiction]. assert (Hc : In c (x :: N1)) by (apply (dfs_stay _ _ _ _ DX a c H); econstructor; eauto).
            apply (proj1 (dfs_new _ _ _ _ D2) c Hz). apply V1. left. exact Hc. }
          econstructor; eauto. }
      assert (W : forall a b, path vis1 a b -> path vis a b) by (intros a b; apply path_incl; intros v Hv; apply V1; right; exact Hv).
      destruct (IH2 y z Hy Hz P') as [Q|(g & Ag & Q1 & Q2)]; [left; auto|]. right. exists g. split; [apply above_app_r; exact Ag|auto].
    + right. exists y. split; [exists N2, (x :: N1); auto|]. split; constructor; apply (path_start _ _ _ P).
    + exfalso. apply (proj1 (dfs_new _ _ _ _ D2) z Hz). apply V1. left. exact (dfs_stay _ _ _ _ DX y z Hy P).
    + destruct (O1 y z Hy Hz P) as [Q|(g & Ag & Q)]; [left; exact Q|]. right. exists g. split; [apply above_app_l; exact Ag|exact Q].
Qed.
End Search.

Lemma dfs_app Sc vis xs vis1 N1 ys vis2 N2 : Dfs Sc vis xs vis1 N1 -> Dfs Sc vis1 ys vis2 N2 -> Dfs Sc vis (xs ++ ys) vis2 (N2 ++ N1).
Proof.
  intros D. revert ys vis2 N2. induction D as [vis|vis x xs vis' N Hx D IH|vis x xs v1 M1 v2 M2 Hx D1 IH1 D2 IH2]; intros ys vis2 N2 D'.
  - cbn. rewrite app_nil_r. exact D'.
  - cbn. apply D_seen; [exact Hx|]. apply IH. exact D'.
  - cbn. rewrite app_assoc. eapply D_new; eauto.
Qed.

Lemma before_in (a b c d : list nat) (y z : nat) : a ++ b = c ++ z :: d -> In y a -> In z b -> NoDup (a ++ b) -> In y c.
Proof.
  revert c. induction a as [|p a IHa]; intros c E Hy Hz U; [destruct Hy|]. destruct c as [|q c].
  - cbn in E. injection E as -> E. inversion U as [|? ? N _]; subst. destruct N. apply in_app_iff. right. exact Hz.
  - cbn in E. injection E as -> E. destruct Hy as [<-|Hy]; [left; reflexivity|]. right. inversion U; subst. apply IHa; auto.
Qed.
