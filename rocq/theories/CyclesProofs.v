(** Proofs about the enumeration of cycles: the search from one task. *)
From Coq Require Import Lia Permutation.
From Verif Require Import Base Graph Scc SccSpec SccProofs Cycles CyclesSpec.
Open Scope Z_scope.

(** ** Sets and maps *)
Lemma insert_key_in x l y : In y (insert_key x l) <-> y = x \/ In y l.
Proof.
  induction l as [|z l IH]; cbn [insert_key]; [cbn; intuition|]. destruct (Z.ltb_spec x z); [cbn [In]; intuition|]. destruct (Z.eqb_spec x z) as [->|]; cbn [In]; [intuition|rewrite IH; intuition].
Qed.
Lemma insert_key_nodup x l : ~ In x l -> NoDup l -> NoDup (insert_key x l).
Proof.
  induction l as [|z l IH]; intros H N; cbn [insert_key]; [repeat constructor; intros []|]. destruct (Z.ltb_spec x z); [constructor; assumption|]. destruct (Z.eqb_spec x z) as [->|]; [exact N|]. inversion N as [|? ? N1 N2]; subst. constructor.
  - rewrite insert_key_in. intros [->|I]; [lia|contradiction].
  - apply IH; [intros I; apply H; right; exact I|exact N2].
Qed.
Lemma drop_blocked_in bs x y : In y (drop_blocked bs x) <-> In y bs /\ y <> x.
Proof. unfold drop_blocked. rewrite filter_In, negb_true_iff, Z.eqb_neq. reflexivity. Qed.
Lemma drop_blocked_nodup bs x : NoDup bs -> NoDup (drop_blocked bs x).
Proof. apply NoDup_filter. Qed.
Lemma drop_blocked_length bs x : In x bs -> (length (drop_blocked bs x) < length bs)%nat.
Proof.
  unfold drop_blocked. induction bs as [|y bs IH]; intros H; [destruct H|]. cbn [filter length]. assert (L : forall l, (length (filter (fun y => negb (y =? x)%Z) l) <= length l)%nat) by (induction l as [|z l IHl]; cbn [filter length]; [lia|destruct (negb (z =? x)); cbn [length]; lia]).
  destruct (Z.eqb_spec y x) as [->|N]; cbn [negb length]; [specialize (L bs); lia|]. destruct H as [->|H]; [congruence|]. specialize (IH H). lia.
Qed.
Lemma waiting_drop bm id y : waiting (drop_waiting bm id) y = if y =? id then None else waiting bm y.
Proof.
  unfold drop_waiting. induction bm as [|[k ws] bm IH]; cbn [filter waiting fst]; [destruct (y =? id); reflexivity|]. destruct (Z.eqb_spec k id) as [->|N]; cbn [negb].
  - rewrite IH. destruct (Z.eqb_spec y id) as [E|N']; [reflexivity|]. destruct (Z.eqb_spec id y); [congruence|reflexivity].
  - cbn [waiting]. destruct (Z.eqb_spec k y) as [->|N']; [destruct (Z.eqb_spec y id); [congruence|reflexivity]|exact IH].
Qed.

(** [x] waits for [y]. *)
Definition waits (bm : list (Z * list Z)) (x y : Z) : Prop := exists ws, waiting bm y = Some ws /\ In x ws.
Lemma waits_add bm id w x y : waits (add_waiting bm id w) x y <-> waits bm x y \/ (y = id /\ x = w).
Proof.
  unfold waits. induction bm as [|[k ws] bm IH]; cbn [add_waiting waiting].
  - destruct (Z.eqb_spec id y) as [->|N].
    + split; [intros (l & [= <-] & [<-|[]]); auto|intros [(l & ? & _)|[_ ->]]; [discriminate|exists [w]; split; [reflexivity|left; reflexivity]]].
    + split; [intros (l & ? & _); discriminate|intros [(l & ? & _)|[E _]]; [discriminate|congruence]].
  - destruct (Z.eqb_spec k id) as [->|N]; cbn [waiting].
    + destruct (Z.eqb_spec id y) as [->|N'].
      * split; [intros (l & [= <-] & I); apply insert_key_in in I; destruct I as [->|I]; [right; auto|left; exists ws; auto]|intros [(l & [= <-] & I)|[_ ->]]; eexists; (split; [reflexivity|]); apply insert_key_in; auto].
      * split; [intros H; left; exact H|intros [H|[E _]]; [exact H|congruence]].
    + destruct (Z.eqb_spec k y) as [->|N']; [|exact IH]. split; [intros H; left; exact H|intros [H|[E _]]; [exact H|congruence]].
Qed.

(** Chains of waiting. *)
Inductive chain (bm : list (Z * list Z)) : Z -> Z -> Prop :=
| chain_refl x : chain bm x x
| chain_step x y z : waits bm x y -> chain bm y z -> chain bm x z.
Lemma chain_trans bm x y z : chain bm x y -> chain bm y z -> chain bm x z.
Proof. induction 1; intros H'; [exact H'|]. eapply chain_step; eauto. Qed.
Lemma chain_one bm x y : waits bm x y -> chain bm x y.
Proof. intros H. eapply chain_step; [exact H|apply chain_refl]. Qed.
Lemma chain_incl bm bm' x y : (forall x y, waits bm x y -> waits bm' x y) -> chain bm x y -> chain bm' x y.
Proof. intros H C. induction C; [apply chain_refl|]. eapply chain_step; eauto. Qed.
Definition chain1 (bm : list (Z * list Z)) (x z : Z) : Prop := exists y, waits bm x y /\ chain bm y z.

(** ** Unblocking *)
Definition unblocked (bs bs' : list Z) (x : Z) : Prop := In x bs /\ ~ In x bs'.
(** What unblocking does, whoever was unblocked. *)
Record freed (bs : list Z) (bm : list (Z * list Z)) (bs' : list Z) (bm' : list (Z * list Z)) : Prop := mkFreed {
  fr_incl : forall x, In x bs' -> In x bs;
  fr_nodup : NoDup bs';
  fr_len : (length bs' <= length bs)%nat;
  fr_gone : forall y, unblocked bs bs' y -> waiting bm' y = None;
  fr_kept : forall y, ~ unblocked bs bs' y -> waiting bm' y = waiting bm y;
  fr_closed : forall x y, unblocked bs bs' y -> waits bm x y -> ~ In x bs' }.

Lemma freed_refl bs bm : NoDup bs -> freed bs bm bs bm.
Proof. intros N. constructor; auto; unfold unblocked; intros; tauto. Qed.
Lemma freed_trans bs bm bs1 bm1 bs2 bm2 : freed bs bm bs1 bm1 -> freed bs1 bm1 bs2 bm2 -> freed bs bm bs2 bm2.
Proof.
  intros [I1 N1 L1 G1 K1 C1] [I2 N2 L2 G2 K2 C2]. constructor; auto; [lia| | |].
  - intros y [A B]. destruct (in_dec Z.eq_dec y bs1) as [J|J]; [apply G2; split; assumption|]. rewrite K2; [apply G1; split; assumption|]. intros [H _]; contradiction.
  - intros y H. rewrite K2, K1; [reflexivity| |]; unfold unblocked in *; intros [A B]; apply H; split; auto.
  - intros x y [A B] W. destruct (in_dec Z.eq_dec y bs1) as [J|J].
    + apply (C2 x y); [split; assumption|]. destruct W as (ws & W & I). exists ws. split; [|exact I]. rewrite K1; [exact W|]. intros [_ H]; contradiction.
    + intros H. apply (C1 x y); [split; assumption|exact W|]. apply I2, H.
Qed.

Lemma unblock_ok fuel : forall v bs bm, NoDup bs -> In v bs -> (length bs <= fuel)%nat -> exists bs' bm', unblock fuel v (bs, bm) = Ok (bs', bm') /\
  freed bs bm bs' bm' /\ ~ In v bs' /\ (forall x, unblocked bs bs' x -> chain bm x v).
Proof.
  induction fuel as [|fuel IH]; intros v bs bm N I L; [destruct bs; [destruct I|cbn in L; lia]|].
  cbn [unblock fst snd]. rewrite (proj2 (visited_spec bs v) I). cbn [negb]. pose proof (drop_blocked_length bs v I) as LD.
  destruct (waiting bm v) as [ws|] eqn:W.
  - (* the loop *)
    assert (G : forall us bs1 bm1, (forall w, In w us -> In w ws) -> freed (drop_blocked bs v) bm bs1 bm1 -> (forall x, In x bs -> ~ In x bs1 -> chain bm x v) ->
      exists bs2 bm2, each_waiting (unblock fuel) v us (bs1, bm1) = Ok (bs2, bm2) /\ freed (drop_blocked bs v) bm bs2 bm2 /\ (forall x, In x bs -> ~ In x bs2 -> chain bm x v) /\ (forall w, In w us -> ~ In w bs2) /\ (forall x, In x bs2 -> In x bs1)).
    { assert (WV : forall bs1 bm1, freed (drop_blocked bs v) bm bs1 bm1 -> waiting bm1 v = Some ws) by (intros bs1 bm1 F; rewrite (fr_kept _ _ _ _ F), W; [reflexivity|]; intros [H _]; apply drop_blocked_in in H; destruct H; congruence).
      induction us as [|w us IHu]; intros bs1 bm1 Hu F1 C1; cbn [each_waiting snd fst]; rewrite (WV _ _ F1).
      { exists bs1, bm1. split; [reflexivity|]. split; [exact F1|]. split; [exact C1|]. split; [intros w []|auto]. }
      destruct (visited bs1 w) eqn:V; [apply visited_spec in V|apply visited_false in V].
      - pose proof (fr_len _ _ _ _ F1) as L1. destruct (IH w bs1 bm1 (fr_nodup _ _ _ _ F1) V ltac:(lia)) as (bs2 & bm2 & E2 & F2 & V2 & C2). rewrite E2. cbn [bind].
        assert (F12 := freed_trans _ _ _ _ _ _ F1 F2).
        assert (C12 : forall x, In x bs -> ~ In x bs2 -> chain bm x v).
        { intros x A B. destruct (in_dec Z.eq_dec x bs1) as [J|J]; [|exact (C1 x A J)]. specialize (C2 x (conj J B)). eapply chain_trans.
          - apply (chain_incl bm1 bm); [|exact C2]. intros a b (l & Wl & Il). exists l. split; [|exact Il]. destruct (waiting bm b) as [l'|] eqn:Wb.
            + destruct (in_dec Z.eq_dec b (drop_blocked bs v)) as [D|D].
              * destruct (in_dec Z.eq_dec b bs1) as [D1|D1]; [rewrite (fr_kept _ _ _ _ F1), Wb in Wl by (intros [_ H]; contradiction); exact Wl|rewrite (fr_gone _ _ _ _ F1) in Wl by (split; assumption); discriminate].
              * rewrite (fr_kept _ _ _ _ F1), Wb in Wl by (intros [H _]; contradiction). exact Wl.
            + destruct (in_dec Z.eq_dec b (drop_blocked bs v)) as [D|D]; [destruct (in_dec Z.eq_dec b bs1) as [D1|D1]|].
              * rewrite (fr_kept _ _ _ _ F1), Wb in Wl by (intros [_ H]; contradiction). discriminate.
              * rewrite (fr_gone _ _ _ _ F1) in Wl by (split; assumption). discriminate.
              * rewrite (fr_kept _ _ _ _ F1), Wb in Wl by (intros [H _]; contradiction). discriminate.
          - apply chain_one. exists ws. split; [exact W|]. apply Hu. left. reflexivity. }
        destruct (IHu bs2 bm2 (fun w H => Hu w (or_intror H)) F12 C12) as (bs3 & bm3 & E3 & F3 & C3 & V3 & I3). exists bs3, bm3. split; [exact E3|]. split; [exact F3|]. split; [exact C3|]. split.
        + intros w' [<-|H]; [intros J; apply V2, I3, J|exact (V3 w' H)].
        + intros x J. apply (fr_incl _ _ _ _ F2), I3, J.
      - cbn [bind]. destruct (IHu bs1 bm1 (fun w H => Hu w (or_intror H)) F1 C1) as (bs3 & bm3 & E3 & F3 & C3 & V3 & I3). exists bs3, bm3. split; [exact E3|]. split; [exact F3|]. split; [exact C3|]. split; [|exact I3].
        intros w' [<-|H]; [intros J; apply V, I3, J|exact (V3 w' H)]. }
    destruct (G ws (drop_blocked bs v) bm (fun w H => H) (freed_refl _ _ (drop_blocked_nodup _ _ N))) as (bs2 & bm2 & E2 & F2 & C2 & V2 & I2).
    { intros x A B. destruct (Z.eq_dec x v) as [->|D]; [apply chain_refl|]. exfalso. apply B, drop_blocked_in. auto. }
    rewrite E2. cbn [bind fst snd]. exists bs2, (drop_waiting bm2 v). split; [reflexivity|].
    assert (NV : ~ In v bs2) by (intros H; apply I2, drop_blocked_in in H; destruct H; congruence). split; [|split; [exact NV|intros x [A B]; exact (C2 x A B)]].
    destruct F2 as [FI FN FL FG FK FC]. constructor.
    + intros x H. apply FI, drop_blocked_in in H. tauto.
    + exact FN.
    + lia.
    + intros y [A B]. rewrite waiting_drop. destruct (Z.eqb_spec y v) as [->|D]; [reflexivity|]. apply FG. split; [apply drop_blocked_in; auto|exact B].
    + intros y H. rewrite waiting_drop. destruct (Z.eqb_spec y v) as [->|D]; [exfalso; apply H; split; assumption|]. apply FK. intros [A B]. apply H. apply drop_blocked_in in A. split; tauto.
    + intros x y [A B] Wx. destruct (Z.eq_dec y v) as [->|D]; [|apply (FC x y); [split; [apply drop_blocked_in; auto|exact B]|exact Wx]]. destruct Wx as (l & Wl & Il). rewrite W in Wl. injection Wl as <-. exact (V2 x Il).
  - exists (drop_blocked bs v), bm. split; [reflexivity|]. assert (NV : ~ In v (drop_blocked bs v)) by (rewrite drop_blocked_in; tauto).
    assert (U : forall y, unblocked bs (drop_blocked bs v) y -> y = v) by (intros y [A B]; destruct (Z.eq_dec y v); [assumption|exfalso; apply B, drop_blocked_in; auto]).
    split; [|split; [exact NV|intros x H; rewrite (U x H); apply chain_refl]]. constructor; auto.
    + intros x H. apply drop_blocked_in in H. tauto.
    + apply drop_blocked_nodup, N.
    + lia.
    + intros y H. rewrite (U y H). exact W.
    + intros x y H (l & Wl & _). rewrite (U y H), W in Wl. discriminate.
Qed.

(** ** The channels leaving a task *)
Definition target (g : graph) (e : edge) : Z := match nth_error (vertices g) (e_dst e) with Some v => v_id v | None => 0 end.
Definition hop_of (g : graph) (e : edge) : Z * Z := (e_id e, target g e).

Lemma target_ok g e : id_graph g -> In e (edges g) -> id_of g (e_dst e) = Ok (target g e) /\ In (target g e) (map v_id (vertices g)).
Proof.
  intros G I. destruct (proj2 G e I) as [_ L]. unfold id_of, target. destruct (nth_error (vertices g) (e_dst e)) as [v|] eqn:E; [|apply nth_error_None in E; lia]. split; [reflexivity|]. apply in_map. exact (nth_error_In _ _ E).
Qed.
Lemma leaving g u i : id_graph g -> position_of u (vertices g) = Some i -> forall k w, hop g u k w <-> In (k, w) (map (hop_of g) (filter (fun e => (e_src e =? i)%nat) (edges g))).
Proof.
  intros G P k w. rewrite in_map_iff. split.
  - intros (e & a & b & I & S & T & <- & Ha & <-). exists e. split; [unfold hop_of, target; rewrite T; reflexivity|]. apply filter_In. split; [exact I|]. apply Nat.eqb_eq.
    pose proof (position_nth _ _ _ (proj1 G) S) as Q. rewrite Ha, P in Q. congruence.
  - intros (e & [= <- <-] & H). apply filter_In in H. destruct H as [I H]. apply Nat.eqb_eq in H. destruct (proj2 G e I) as [LS LT]. destruct (position_name _ _ _ P) as (a & Ea & Na). destruct (nth_error (vertices g) (e_dst e)) as [b|] eqn:Eb; [|apply nth_error_None in Eb; lia].
    exists e, a, b. split; [exact I|]. split; [rewrite H; exact Ea|]. split; [exact Eb|]. split; [reflexivity|]. split; [exact Na|]. unfold target. rewrite Eb. reflexivity.
Qed.
Lemma leaving_nodup g i : NoDup (map e_id (edges g)) -> NoDup (map (hop_of g) (filter (fun e => (e_src e =? i)%nat) (edges g))).
Proof.
  intros N. induction (edges g) as [|e es IH]; cbn [filter map]; [constructor|]. cbn [map] in N. inversion N as [|? ? N1 N2]; subst. destruct (e_src e =? i)%nat; cbn [map]; [|apply IH, N2]. constructor; [|apply IH, N2].
  intros H. apply in_map_iff in H. destruct H as (e' & [= E _] & H). apply filter_In in H. apply N1. rewrite <- E. apply in_map. tauto.
Qed.

Section Search.
Variables (fuel : nat) (g : graph) (s : Z).
Hypothesis G : id_graph g.
Hypothesis NE : NoDup (map e_id (edges g)).
Let V := map v_id (vertices g).
Hypothesis LF : (length V <= fuel)%nat.

(** The routes from [v] back to [s] that keep off the stack. *)
Definition completes (stack : list Z) (v : Z) (q : list (Z * Z)) : Prop :=
  q <> [] /\ route g v q s /\ NoDup (map snd q) /\ forall y, In y (map snd q) -> y = s \/ ~ In y (stack ++ [v]).

Lemma route_end u q v : route g u q v -> q <> [] -> In v (map snd q).
Proof. revert u. induction q as [|[k w] q IH]; intros u R N; [congruence|]. destruct R as [_ R]. cbn [map snd]. destruct q as [|h q]; [left; exact R|right; apply (IH w R); discriminate]. Qed.

Lemma completes_cons stack v k n q : completes stack v ((k, n) :: q) <-> hop g v k n /\ (n = s /\ q = [] \/ n <> s /\ ~ In n (stack ++ [v]) /\ completes (stack ++ [v]) n q).
Proof.
  unfold completes. cbn [route map snd]. split.
  - intros (_ & [H R] & N & D). split; [exact H|]. inversion N as [|? ? N1 N2]; subst. destruct (Z.eq_dec n s) as [->|E].
    + left. split; [reflexivity|]. destruct q as [|h q]; [reflexivity|]. exfalso. apply N1. apply (route_end _ _ _ R). discriminate.
    + right. split; [exact E|]. split; [destruct (D n (or_introl eq_refl)) as [H'|H']; [contradiction|exact H']|]. split; [intros ->; cbn in R; contradiction|]. split; [exact R|]. split; [exact N2|]. intros y Iy. destruct (D y (or_intror Iy)) as [->|H']; [left; reflexivity|].
      right. intros H2. apply in_app_iff in H2. destruct H2 as [H2|[<-|[]]]; contradiction.
  - intros [H [[-> ->]|(E & D & (Q & R & N & D2))]].
    + split; [discriminate|]. split; [split; [exact H|reflexivity]|]. split; [constructor; [intros []|constructor]|]. intros y [<-|[]]. left; reflexivity.
    + split; [discriminate|]. split; [split; assumption|]. split.
      * constructor; [|exact N]. intros I. destruct (D2 n I) as [H'|H']; [contradiction|]. apply H', in_app_iff. right; left; reflexivity.
      * intros y [<-|I]; [right; exact D|]. destruct (D2 y I) as [->|H']; [left; reflexivity|right]. intros H2. apply H', in_app_iff. left; exact H2.
Qed.

(** The invariant of the search. *)
Record inv (stack bs : list Z) (bm : list (Z * list Z)) : Prop := mkInv {
  i_set : NoDup bs; i_tasks : forall x, In x bs -> In x V;
  i_stack : NoDup stack; i_blocked : forall x, In x stack -> In x bs;
  i_keys : forall x y, waits bm x y -> In y bs;
  i_dead : forall x k y, In x bs -> ~ In x stack -> hop g x k y -> y <> s /\ In y bs /\ waits bm x y;
  i_below : forall a y b x, stack = a ++ y :: b -> In x (a ++ [y]) -> ~ chain1 bm x y }.

(** A blocked task off the stack leads to [s] through the stack only. *)
Lemma blocked_dead stack bs bm : inv stack bs bm -> forall q n, In n bs -> ~ In n stack -> n <> s -> route g n q s -> (forall y, In y (map snd q) -> y = s \/ ~ In y stack) -> False.
Proof.
  intros I. induction q as [|[k w] q IH]; intros n B O E R D; [cbn in R; contradiction|]. destruct R as [H R]. destruct (i_dead _ _ _ I n k w B O H) as (Ew & Bw & _). destruct (D w (or_introl eq_refl)) as [D1|D1]; [contradiction|]. exact (IH w Bw D1 Ew R (fun y Hy => D y (or_intror Hy))).
Qed.

Lemma inv_push stack bs bm v : inv stack bs bm -> In v V -> ~ In v bs -> inv (stack ++ [v]) (insert_key v bs) bm.
Proof.
  intros [IS IT IK IB IY ID IW] Iv Nb. constructor.
  - apply insert_key_nodup; assumption.
  - intros x H. apply insert_key_in in H. destruct H as [->|H]; auto.
  - apply NoDup_app_intro; [exact IK|constructor; [intros []|constructor]|]. intros x H [<-|[]]. apply Nb, IB, H.
  - intros x H. apply insert_key_in. apply in_app_iff in H. destruct H as [H|[<-|[]]]; auto.
  - intros x y W. apply insert_key_in. right. exact (IY x y W).
  - intros x k y B O H. apply insert_key_in in B. destruct B as [->|B]; [exfalso; apply O, in_app_iff; right; left; reflexivity|]. destruct (ID x k y B) as (A1 & A2 & A3); [intros J; apply O, in_app_iff; left; exact J|exact H|]. split; [exact A1|]. split; [apply insert_key_in; auto|exact A3].
  - intros a y b x E Ix C. destruct b as [|z b] using rev_ind.
    + apply app_inj_tail in E. destruct E as [-> ->]. destruct C as (z & W & C). assert (K : forall x' z', waits bm x' z' -> chain bm z' y -> exists x'', waits bm x'' y).
      { clear - W. intros x' z' W' C'. revert x' W'. induction C' as [y|x1 y1 z1 W1 C1 IH]; intros x' W'; [exists x'; exact W'|exact (IH x1 W1)]. }
      destruct (K x z W C) as (x' & W'). exact (Nb (IY _ _ W')).
    + replace (a ++ y :: b ++ [z]) with ((a ++ y :: b) ++ [z]) in E by (rewrite <- app_assoc; reflexivity). apply app_inj_tail in E. destruct E as [E _]. exact (IW a y b x E Ix C).
Qed.

Lemma inv_pop_cycle stack bs bm v bs' bm' : inv (stack ++ [v]) bs bm -> freed bs bm bs' bm' -> ~ In v bs' -> (forall x, unblocked bs bs' x -> chain bm x v) -> inv stack bs' bm'.
Proof.
  intros [IS IT IK IB IY ID IW] [FI FN FL FG FK FC] Nv Cv.
  assert (WW : forall x y, waits bm' x y -> waits bm x y).
  { intros x y (l & W & Il). exists l. split; [|exact Il]. destruct (in_dec Z.eq_dec y bs) as [A|A]; [destruct (in_dec Z.eq_dec y bs') as [B|B]|].
    - rewrite FK in W by (intros [_ H]; contradiction). exact W.
    - rewrite FG in W by (split; assumption). discriminate.
    - rewrite FK in W by (intros [H _]; contradiction). exact W. }
  assert (NS : ~ In v stack) by (intros H; apply NoDup_remove_2 in IK; apply IK; rewrite app_nil_r; exact H).
  assert (IK' : NoDup stack) by (apply NoDup_remove_1 in IK; rewrite app_nil_r in IK; exact IK).
  constructor; auto.
  - intros x H. destruct (in_dec Z.eq_dec x bs') as [A|A]; [exact A|exfalso]. pose proof (Cv x (conj (IB x ltac:(apply in_app_iff; left; exact H)) A)) as C. inversion C as [|? y ? W C']; subst; [contradiction|].
    apply (IW stack v [] x eq_refl); [apply in_app_iff; left; exact H|exists y; split; assumption].
  - intros x y W. destruct (in_dec Z.eq_dec y bs') as [A|A]; [exact A|exfalso]. pose proof (IY x y (WW x y W)) as B. destruct W as (l & W & _). rewrite FG in W by (split; assumption). discriminate.
  - intros x k y B O H. destruct (ID x k y (FI x B)) as (A1 & A2 & A3); [intros J; apply in_app_iff in J; destruct J as [J|[<-|[]]]; contradiction|exact H|]. split; [exact A1|].
    assert (By : In y bs') by (destruct (in_dec Z.eq_dec y bs') as [A|A]; [exact A|exfalso; exact (FC x y (conj A2 A) A3 B)]). split; [exact By|]. destruct A3 as (l & W & Il). exists l. split; [|exact Il]. rewrite FK; [exact W|]. intros [_ J]; contradiction.
  - intros a y b x E Ix (z & W & C). apply (IW a y (b ++ [v]) x); [rewrite E, <- app_assoc; reflexivity|exact Ix|]. exists z. split; [exact (WW _ _ W)|]. exact (chain_incl _ _ _ _ WW C).
Qed.

Lemma inv_pop_dead stack bs bm v bm' : inv (stack ++ [v]) bs bm -> (forall x y, waits bm' x y <-> waits bm x y \/ (x = v /\ exists k, hop g v k y)) -> (forall k y, hop g v k y -> y <> s /\ In y bs) -> inv stack bs bm'.
Proof.
  intros [IS IT IK IB IY ID IW] WW Out.
  assert (NS : ~ In v stack) by (intros H; apply NoDup_remove_2 in IK; apply IK; rewrite app_nil_r; exact H).
  assert (IK' : NoDup stack) by (apply NoDup_remove_1 in IK; rewrite app_nil_r in IK; exact IK).
  constructor; auto.
  - intros x H. apply IB, in_app_iff. left; exact H.
  - intros x y W. apply WW in W. destruct W as [W|[-> (k & H)]]; [exact (IY x y W)|exact (proj2 (Out k y H))].
  - intros x k y B O H. destruct (Z.eq_dec x v) as [->|E].
    + destruct (Out k y H) as [A1 A2]. split; [exact A1|]. split; [exact A2|]. apply WW. right. split; [reflexivity|exists k; exact H].
    + destruct (ID x k y B) as (A1 & A2 & A3); [intros J; apply in_app_iff in J; destruct J as [J|[<-|[]]]; contradiction|exact H|]. split; [exact A1|]. split; [exact A2|]. apply WW. left; exact A3.
  - intros a y b x E Ix (z & W & C).
    (* a chain uses the new links only after reaching v *)
    assert (K : forall p q, chain bm' p q -> chain bm p q \/ chain bm p v).
    { clear - WW. intros p q C. induction C as [p|p r q W C IH]; [left; apply chain_refl|]. apply WW in W. destruct W as [W|[-> _]]; [|right; apply chain_refl]. destruct IH as [IH|IH]; [left|right]; eapply chain_step; eauto. }
    assert (Sx : In x stack) by (rewrite E; apply in_app_iff in Ix; apply in_app_iff; destruct Ix as [Ix|[<-|[]]]; [left; exact Ix|right; left; reflexivity]).
    apply WW in W. destruct W as [W|[-> _]]; [|contradiction]. destruct (K z y C) as [C'|C'].
    + apply (IW a y (b ++ [v]) x); [rewrite E, <- app_assoc; reflexivity|exact Ix|exists z; split; assumption].
    + apply (IW stack v [] x eq_refl); [apply in_app_iff; left; exact Sx|exists z; split; assumption].
Qed.

Lemma wait_all_ok v : forall es bm, (forall e, In e es -> In e (edges g)) -> exists bm', wait_all g v es bm = Ok bm' /\ forall x y, waits bm' x y <-> waits bm x y \/ (x = v /\ exists k, In (k, y) (map (hop_of g) es)).
Proof.
  induction es as [|e es IH]; intros bm I; cbn [wait_all].
  - exists bm. split; [reflexivity|]. intros x y. split; [auto|]. intros [H|[_ (k & [])]]; exact H.
  - destruct (target_ok g e G (I e (or_introl eq_refl))) as [E _]. rewrite E. cbn [bind]. destruct (IH (add_waiting bm (target g e) v) (fun e' H => I e' (or_intror H))) as (bm' & E' & W). exists bm'. split; [exact E'|].
    intros x y. rewrite W, waits_add. cbn [map In]. unfold hop_of at 2. split.
    + intros [[H|[-> ->]]|[-> (k & H)]]; [left; exact H|right; split; [reflexivity|exists (e_id e); left; reflexivity]|right; split; [reflexivity|exists k; right; exact H]].
    + intros [H|[-> (k & [[= _ <-]|H])]]; [left; left; exact H|left; right; split; reflexivity|right; split; [reflexivity|exists k; exact H]].
Qed.

(** One call of the search. *)
Definition searches (rec : Z -> search -> outcome (bool * search)) (stack : list Z) : Prop :=
  forall v bs bm out, inv stack bs bm -> In v V -> ~ In v bs -> In s (stack ++ [v]) ->
  exists found bs' bm' L, rec v (mkSearch stack bs bm out) = Ok (found, mkSearch stack bs' bm' (out ++ map (fun q => stack ++ v :: map snd q) L)) /\
    inv stack bs' bm' /\ (found = true <-> L <> []) /\ (found = false -> (forall x, In x bs -> In x bs') /\ In v bs') /\ NoDup L /\ (forall q, In q L <-> completes stack v q).

Lemma each_output_ok rec stack : searches rec stack -> In s stack -> forall es, (forall e, In e es -> In e (edges g)) -> NoDup (map (hop_of g) es) -> forall found bs bm out, inv stack bs bm ->
  exists found' bs' bm' L, each_output g s rec es found (mkSearch stack bs bm out) = Ok (found || found', mkSearch stack bs' bm' (out ++ map (fun q => stack ++ map snd q) L)) /\
    inv stack bs' bm' /\ (found' = true <-> L <> []) /\ (found' = false -> (forall x, In x bs -> In x bs') /\ forall k n, In (k, n) (map (hop_of g) es) -> n <> s /\ In n bs') /\ NoDup L /\
    (forall q, In q L <-> exists k n q', q = (k, n) :: q' /\ In (k, n) (map (hop_of g) es) /\ (n = s /\ q' = [] \/ n <> s /\ ~ In n stack /\ completes stack n q')).
Proof.
  intros Rec Ss. induction es as [|e es IH]; intros Ie Nh found bs bm out I; cbn [each_output].
  - exists false, bs, bm, []. rewrite orb_false_r. cbn [map]. rewrite app_nil_r. split; [reflexivity|]. split; [exact I|]. split; [split; [discriminate|congruence]|]. split; [intros _; split; [auto|intros k n []]|]. split; [constructor|].
    intros q. split; [intros []|intros (k & n & q' & _ & [] & _)].
  - destruct (target_ok g e G (Ie e (or_introl eq_refl))) as [E Te]. rewrite E. cbn [bind sr_stack sr_blocked sr_waiting sr_cycles]. cbn [map] in Nh. inversion Nh as [|? ? N1 N2]; subst.
    specialize (IH (fun e' H => Ie e' (or_intror H)) N2). destruct (Z.eqb_spec (target g e) s) as [Es|Es].
    + destruct (IH true bs bm (out ++ [stack ++ [s]]) I) as (found' & bs' & bm' & L & E' & I' & F' & D' & NL & HL). exists true, bs', bm', ([hop_of g e] :: L). rewrite E'. rewrite orb_true_r. cbn [orb]. split.
      { f_equal. f_equal. f_equal. rewrite <- app_assoc. cbn [map app]. unfold hop_of. cbn [snd]. rewrite Es. reflexivity. }
      split; [exact I'|]. split; [split; [discriminate|reflexivity]|]. split; [discriminate|]. split.
      * constructor; [|exact NL]. intros H. apply HL in H. destruct H as (k & n & q' & H & J & _). assert (H1 : hop_of g e = (k, n)) by congruence. apply N1. rewrite H1. exact J.
      * intros q. cbn [In map]. rewrite HL. unfold hop_of at 3. split.
        -- intros [<-|(k & n & q' & -> & J & H)]; [exists (e_id e), (target g e), []; split; [reflexivity|]; split; [left; reflexivity|left; split; [exact Es|reflexivity]]|exists k, n, q'; auto].
        -- intros (k & n & q' & -> & [Ek|J] & H); [injection Ek as Ek En; subst k n; destruct H as [[_ ->]|[H _]]; [left; reflexivity|contradiction]|right; exists k, n, q'; auto].
    + destruct (visited bs (target g e)) eqn:Vt; cbn [negb]; [apply visited_spec in Vt|apply visited_false in Vt].
      * destruct (IH found bs bm out I) as (found' & bs' & bm' & L & E' & I' & F' & D' & NL & HL). exists found', bs', bm', L. split; [exact E'|]. split; [exact I'|]. split; [exact F'|]. split; [|split; [exact NL|]].
        -- intros Ff. destruct (D' Ff) as [D1 D2]. split; [exact D1|]. intros k n [Ek|J]; [injection Ek as Ek En; subst k n; split; [exact Es|apply D1, Vt]|exact (D2 k n J)].
        -- intros q. rewrite HL. cbn [map In]. unfold hop_of at 2. split; [intros (k & n & q' & A & J & H); exists k, n, q'; auto|]. intros (k & n & q' & A & [Ek|J] & H); [|exists k, n, q'; auto]. injection Ek as Ek En; subst k n. exfalso. destruct H as [[H _]|(_ & O & (Q & R & _ & D))]; [contradiction|].
           apply (blocked_dead _ _ _ I q' (target g e) Vt O Es R). intros y Hy. destruct (D y Hy) as [->|D1]; [left; reflexivity|right]. intros J. apply D1, in_app_iff. left; exact J.
      * destruct (Rec (target g e) bs bm out I Te Vt) as (f1 & bs1 & bm1 & L1 & E1 & I1 & F1 & D1 & NL1 & HL1); [apply in_app_iff; left; exact Ss|]. rewrite E1. cbn [bind fst snd].
        destruct (IH (found || f1) bs1 bm1 (out ++ map (fun q => stack ++ target g e :: map snd q) L1) I1) as (f2 & bs2 & bm2 & L2 & E2 & I2 & F2 & D2 & NL2 & HL2).
        exists (f1 || f2), bs2, bm2, (map (cons (hop_of g e)) L1 ++ L2). split; [|split; [exact I2|split; [|split; [|split]]]].
        -- rewrite E2, orb_assoc. f_equal. f_equal. f_equal. rewrite map_app, map_map, app_assoc. reflexivity.
        -- rewrite orb_true_iff, F1, F2. destruct L1 as [|q1 L1]; cbn [map app]; [intuition congruence|split; [discriminate|intros _; left; discriminate]].
        -- intros Ff. apply orb_false_elim in Ff. destruct Ff as [-> ->]. destruct (D1 eq_refl) as [A1 A2]. destruct (D2 eq_refl) as [B1 B2]. split; [auto|]. intros k n [Ek|J]; [injection Ek as Ek En; subst k n; split; [exact Es|apply B1, A2]|exact (B2 k n J)].
        -- apply NoDup_app_intro; [|exact NL2|].
           ++ clear - NL1. induction NL1 as [|q L H N IH]; cbn [map]; constructor; [|exact IH]. intros J. apply in_map_iff in J. destruct J as (q' & [= ->] & J). contradiction.
           ++ intros q H J. apply in_map_iff in H. destruct H as (q1 & <- & _). apply HL2 in J. destruct J as (k & n & q' & H & J & _). assert (H1 : hop_of g e = (k, n)) by congruence. apply N1. rewrite H1. exact J.
        -- intros q. rewrite in_app_iff, in_map_iff, HL2. cbn [map In]. unfold hop_of at 3. split.
           ++ intros [(q1 & <- & H)|(k & n & q' & A & J & H)]; [|exists k, n, q'; auto]. exists (e_id e), (target g e), q1. split; [reflexivity|]. split; [left; reflexivity|]. right. split; [exact Es|]. split; [intros J; apply Vt, (i_blocked _ _ _ I), J|]. apply HL1, H.
           ++ intros (k & n & q' & -> & [Ek|J] & H); [|right; exists k, n, q'; auto]. injection Ek as Ek En; subst k n. left. exists q'. split; [reflexivity|]. destruct H as [[H _]|(_ & _ & H)]; [contradiction|]. apply HL1, H.
Qed.

Lemma visit_ok : forall depth stack, (length V <= depth + length stack)%nat -> searches (visit fuel g s depth) stack.
Proof.
  induction depth as [|depth IH]; intros stack LD v bs bm out I Iv Nv Ss.
  - exfalso. assert (N : NoDup (v :: stack)) by (constructor; [intros H; apply Nv, (i_blocked _ _ _ I), H|exact (i_stack _ _ _ I)]).
    assert (J : incl (v :: stack) V) by (intros x [<-|H]; [exact Iv|apply (i_tasks _ _ _ I), (i_blocked _ _ _ I), H]). pose proof (NoDup_incl_length N J) as L. cbn [length] in L. lia.
  - cbn [visit sr_stack sr_blocked sr_waiting sr_cycles]. unfold vertex_by_id. destruct (position_some _ _ Iv) as (i & P). rewrite P. cbn [bind]. set (es := filter _ _).
    assert (Ie : forall e, In e es -> In e (edges g)) by (intros e H; apply filter_In in H; tauto). pose proof (leaving g v i G P) as Hop. fold es in Hop.
    assert (LS : (length V <= depth + length (stack ++ [v]))%nat) by (rewrite app_length; cbn [length]; lia).
    destruct (each_output_ok _ _ (IH (stack ++ [v]) LS) Ss es Ie (leaving_nodup g i NE) false (insert_key v bs) bm out (inv_push _ _ _ _ I Iv Nv)) as (found & bs1 & bm1 & L & E & I1 & F1 & D1 & NL & HL).
    rewrite E. cbn [bind fst snd orb sr_stack sr_blocked sr_waiting sr_cycles]. rewrite removelast_last.
    assert (HC : forall q, In q L <-> completes stack v q).
    { intros q. rewrite HL. destruct q as [|[k n] q]; [split; [intros (k & n & q' & [= ] & _)|intros [H _]; congruence]|]. rewrite completes_cons, Hop. split.
      - intros (k' & n' & q' & [= <- <- <-] & J & H). auto.
      - intros [J H]. exists k, n, q. auto. }
    assert (MO : map (fun q => (stack ++ [v]) ++ map snd q) L = map (fun q => stack ++ v :: map snd q) L) by (apply map_ext; intros q; rewrite <- app_assoc; reflexivity). rewrite MO.
    assert (Bv : In v bs1) by (apply (i_blocked _ _ _ I1), in_app_iff; right; left; reflexivity).
    destruct found.
    + assert (LB : (length bs1 <= fuel)%nat) by (pose proof (NoDup_incl_length (i_set _ _ _ I1) (i_tasks _ _ _ I1)); lia).
      destruct (unblock_ok fuel v bs1 bm1 (i_set _ _ _ I1) Bv LB) as (bs2 & bm2 & E2 & F2 & V2 & C2). rewrite E2. cbn [bind fst snd]. exists true, bs2, bm2, L. split; [reflexivity|]. split; [exact (inv_pop_cycle _ _ _ _ _ _ I1 F2 V2 C2)|].
      split; [exact F1|]. split; [discriminate|]. split; [exact NL|exact HC].
    + destruct (D1 eq_refl) as [A1 A2]. destruct (wait_all_ok v es bm1 Ie) as (bm2 & E2 & W2). rewrite E2. cbn [bind]. exists false, bs1, bm2, L. split; [reflexivity|]. split.
      * apply (inv_pop_dead _ _ _ _ _ I1); [intros x y; rewrite W2; split; (intros [H|[-> (k & H)]]; [left; exact H|right; split; [reflexivity|exists k; apply Hop; exact H]])|]. intros k y H. apply (A2 k y), Hop, H.
      * split; [exact F1|]. split; [intros _; split; [intros x H; apply A1, insert_key_in; right; exact H|exact Bv]|]. split; [exact NL|exact HC].
Qed.

(** The search from [s] on an empty state. *)
Lemma search_all out : In s V -> exists found bs bm L, visit fuel g s fuel s (mkSearch [] [] [] out) = Ok (found, mkSearch [] bs bm (out ++ map (fun q => s :: map snd q) L)) /\
  NoDup L /\ forall q, In q L <-> elementary g s q.
Proof.
  intros Is. assert (I0 : inv [] [] []).
  { constructor; try (intros; contradiction); try constructor; try (intros x y (l & H & _); discriminate). intros a y b x E. destruct a; discriminate. }
  destruct (visit_ok fuel [] ltac:(cbn [length]; lia) s [] [] out I0 Is (fun H => H) (or_introl eq_refl)) as (found & bs & bm & L & E & _ & _ & _ & NL & HL). exists found, bs, bm, L. split; [exact E|]. split; [exact NL|].
  intros q. rewrite HL. unfold completes, elementary. split; [intros (A & B & C & _); auto|]. intros (A & B & C). split; [exact A|]. split; [exact B|]. split; [exact C|]. intros y _. cbn [app]. destruct (Z.eq_dec y s) as [->|E']; [left; reflexivity|right]. intros [H|[]]. congruence.
Qed.
End Search.
