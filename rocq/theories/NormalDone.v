(** Normalisation succeeds on consistent graphs. *)
From Coq Require Import QArith Qreduction Lqa Lia Field.
From Verif Require Import Base Graph ScheduleSpec RepVec RepVecSpec RepVecProofs Normal NormalSpec NormalProofs.
From Verif Require KPeriodicChannel.
Open Scope Z_scope.

Lemma link_trans g i j : linked g i j -> forall k, linked g j k -> linked g i k.
Proof. intros H k Hk. induction Hk as [|i' c Hc _ IH|i' c Hc _ IH]; [exact H|apply linked_fwd; auto|apply linked_bwd; auto]. Qed.
Lemma link_sym g i j : linked g i j -> linked g j i.
Proof.
  induction 1 as [|i c Hc _ IH|i c Hc _ IH]; [apply linked_refl| |].
  - apply (link_trans _ _ (e_src c)); [|exact IH]. apply linked_bwd; [exact Hc|apply linked_refl].
  - apply (link_trans _ _ (e_dst c)); [|exact IH]. apply linked_fwd; [exact Hc|apply linked_refl].
Qed.

Lemma filter_short {A} (p : A -> bool) l : (length (filter p l) <= length l)%nat.
Proof. induction l as [|x l IH]; cbn; [lia|]. destruct (p x); cbn; lia. Qed.

Section Done.
Variable g : graph.
Variable M : nat -> Z.
Hypothesis WF : rates_wf g.
Hypothesis MV : moves_tokens g.
Hypothesis SOL : solution g M.

Let n := length (vertices g).
Let phases (i : nat) : Z := match nth_error (vertices g) i with Some v => Z.of_nat (v_phases v) | None => 1 end.
Let cyc (i : nat) : Q := (inject_Z (M i) / inject_Z (phases i))%Q.
Let chan (k : nat) (c : edge) : Prop := nth_error (edges g) k = Some c.
Let touch (c : edge) (t : nat) : Prop := e_src c = t \/ e_dst c = t.

Lemma chan_in k c : chan k c -> In c (edges g). Proof. apply nth_error_In. Qed.
Lemma ends k c : chan k c -> (e_src c < n)%nat /\ (e_dst c < n)%nat.
Proof. intros H. destruct (proj2 WF c (chan_in _ _ H)) as (vs & vd & Es & Ed & _). split; apply nth_error_Some; congruence. Qed.
Lemma touch_lt k c t : chan k c -> touch c t -> (t < n)%nat.
Proof. intros H [<-|<-]; apply (ends _ _ H). Qed.
Lemma phases_pos' i : (i < n)%nat -> 0 < phases i.
Proof.
  intros H. unfold phases. destruct (nth_error (vertices g) i) as [v|] eqn:E; [|lia]. pose proof (proj1 WF v (nth_error_In _ _ E)). lia.
Qed.
Lemma cyc_pos i : (i < n)%nat -> (0 < cyc i)%Q.
Proof.
  intros H. unfold cyc. apply Qlt_shift_div_l; [apply inj_pos, phases_pos', H|]. rewrite Qmult_0_l. apply inj_pos, (proj1 SOL), H.
Qed.
Lemma totals k c : chan k c -> 0 < edge_in_total c /\ 0 < edge_out_total c.
Proof. intros H. apply (MV c), (chan_in _ _ H). Qed.
Lemma balance k c : chan k c -> (inject_Z (edge_in_total c) * cyc (e_src c) == inject_Z (edge_out_total c) * cyc (e_dst c))%Q.
Proof.
  intros H. pose proof (proj2 SOL c (chan_in _ _ H)) as B. destruct (ends _ _ H) as [Hs Hd]. pose proof (inj_pos _ (phases_pos' _ Hs)) as P1. pose proof (inj_pos _ (phases_pos' _ Hd)) as P2.
  destruct (proj2 WF c (chan_in _ _ H)) as (vs & vd & Es & Ed & Li & Lo & _).
  assert (E1 : phases (e_src c) = Z.of_nat (length (e_in c))) by (unfold phases; rewrite Es, Li; reflexivity).
  assert (E2 : phases (e_dst c) = Z.of_nat (length (e_out c))) by (unfold phases; rewrite Ed, Lo; reflexivity).
  rewrite <- E1, <- E2 in B. fold (edge_in_total c) in B. fold (edge_out_total c) in B.
  apply (f_equal inject_Z) in B. rewrite !inject_Z_mult in B. unfold cyc.
  setoid_replace (inject_Z (edge_in_total c) * (inject_Z (M (e_src c)) / inject_Z (phases (e_src c))))%Q
    with ((inject_Z (edge_in_total c) * inject_Z (M (e_src c)) * inject_Z (phases (e_dst c))) / (inject_Z (phases (e_src c)) * inject_Z (phases (e_dst c))))%Q by (field; split; lra).
  rewrite B. field. split; lra.
Qed.
Lemma side_pos k c t : chan k c -> 0 < side t c.
Proof. intros H. unfold side. destruct (totals _ _ H). destruct (_ =? _)%nat; assumption. Qed.

(** The flow of a channel per iteration, once weighted. *)
Definition flow (c : edge) (a : Q) : Q := (a * inject_Z (edge_in_total c) * cyc (e_src c))%Q.
Lemma flow_side k c a t : chan k c -> touch c t -> (flow c a == a * inject_Z (side t c) * cyc t)%Q.
Proof.
  intros H T. unfold flow, side. destruct (Nat.eqb_spec (e_src c) t) as [->|Hne]; [reflexivity|]. destruct T as [T|T]; [contradiction|].
  rewrite <- T, <- !Qmult_assoc, (balance _ _ H). reflexivity.
Qed.

Lemma reference_spec al t r es : (0 < r)%Q -> (forall k c a, In (k, c) es -> al k = Some a -> (a * inject_Z (side t c) == r)%Q) ->
  forall ref, (ref == 0 \/ ref == r)%Q -> exists ref', reference al t es ref = Some ref' /\ (ref == r -> ref' == r)%Q /\
    ((exists k c, In (k, c) es /\ al k <> None) -> (ref' == r)%Q).
Proof.
  intros Hr. induction es as [|[k c] es IH]; intros Hes ref Href; cbn [reference].
  - exists ref. split; [reflexivity|]. split; [auto|]. intros (k & c & [] & _).
  - assert (Hes' : forall k' c' a, In (k', c') es -> al k' = Some a -> (a * inject_Z (side t c') == r)%Q) by (intros; eapply Hes; [right; eassumption|assumption]).
    destruct (al k) as [a|] eqn:Ha.
    + pose proof (Hes k c a (or_introl eq_refl) Ha) as Hcur. cbn zeta.
      set (ref1 := if Qeq_bool ref 0 then _ else ref).
      assert (H1 : (ref1 == r)%Q). { unfold ref1. destruct (Qeq_bool ref 0) eqn:E; [exact Hcur|]. destruct Href as [Z|Z]; [apply Qeq_bool_iff in Z; congruence|exact Z]. }
      assert (Qeq_bool ref1 (a * inject_Z (side t c)) = true) as -> by (apply Qeq_bool_iff; rewrite H1, Hcur; reflexivity).
      destruct (IH Hes' ref1 (or_intror H1)) as (ref' & E & K & _). exists ref'. split; [exact E|]. split; intros _; apply K, H1.
    + destruct (IH Hes' ref Href) as (ref' & E & K1 & K2). exists ref'. split; [exact E|]. split; [exact K1|].
      intros (k' & c' & [E'|Hin] & Hk); [injection E' as <- <-; contradiction|]. apply K2. eauto.
Qed.

Lemma propagate_spec t ref es : (forall k c, In (k, c) es -> chan k c) -> forall al, exists al1, propagate t ref es al = Ok al1 /\
  (forall k a, al k = Some a -> al1 k = Some a) /\
  (forall k a, al1 k = Some a -> al k = None -> exists c, In (k, c) es /\ a = (ref / inject_Z (side t c))%Q) /\
  (forall k c, In (k, c) es -> al1 k <> None).
Proof.
  induction es as [|[k c] es IH]; intros Hes al; cbn [propagate].
  - exists al. split; [reflexivity|]. split; [auto|]. split; [congruence|intros ? ? []].
  - assert (Hes' : forall k' c', In (k', c') es -> chan k' c') by (intros; apply Hes; right; assumption).
    destruct (al k) as [a0|] eqn:Ha.
    + destruct (IH Hes' al) as (al1 & E & K1 & K2 & K3). exists al1. split; [exact E|]. split; [exact K1|]. split.
      * intros k' a H1 H2. destruct (K2 k' a H1 H2) as (c' & Hin & Ea). exists c'. split; [right; exact Hin|exact Ea].
      * intros k' c' [E'|Hin]; [injection E' as <- <-; rewrite (K1 _ _ Ha); discriminate|eauto].
    + pose proof (side_pos k c t (Hes k c (or_introl eq_refl))) as Sp. destruct (Z.eqb_spec (side t c) 0); [lia|]. cbn [negb cassert bind].
      destruct (IH Hes' (set_alpha al k (ref / inject_Z (side t c)))) as (al1 & E & K1 & K2 & K3). exists al1. split; [exact E|]. split.
      * intros k' a H. apply K1. rewrite set_alpha_other by congruence. exact H.
      * split.
        -- intros k' a H1 H2. destruct (Nat.eq_dec k' k) as [->|Hne].
           ++ exists c. split; [left; reflexivity|]. pose proof (K1 k _ (set_alpha_same al k _)). congruence.
           ++ destruct (K2 k' a H1) as (c' & Hin & Ea); [rewrite set_alpha_other by exact Hne; exact H2|]. exists c'. split; [right; exact Hin|exact Ea].
        -- intros k' c' [E'|Hin]; [injection E' as <- <-; rewrite (K1 k _ (set_alpha_same al k _)); discriminate|eauto].
Qed.

Definition scaled (al al' : alphas) (K : Z) : Prop :=
  forall k, match al k, al' k with Some a, Some a' => (a' == a * inject_Z K)%Q | None, None => True | _, _ => False end.
Lemma scaled_refl al : scaled al al 1.
Proof. intros k. destruct (al k); [|exact I]. change (inject_Z 1) with 1%Q. ring. Qed.
Lemma scaled_all al K : scaled al (scale_all al K) K.
Proof. intros k. unfold scale_all. destruct (al k); cbn; [reflexivity|exact I]. Qed.
Lemma scaled_trans a b c K L : scaled a b K -> scaled b c L -> scaled a c (K * L).
Proof.
  intros H1 H2 k. specialize (H1 k). specialize (H2 k). destruct (a k), (b k), (c k); try contradiction; [|exact I]. rewrite H2, H1, inject_Z_mult. ring.
Qed.

Definition fine_ok (c : edge) (a : Q) : Prop := exists f y, fine_gcd c = Ok f /\ (a * inject_Z f == inject_Z y)%Q.
Lemma fine_ok_scale c a a' K : fine_ok c a -> (a' == a * inject_Z K)%Q -> fine_ok c a'.
Proof. intros (f & y & Ef & E) H. exists f, (y * K)%Z. split; [exact Ef|]. rewrite H, inject_Z_mult, <- E. ring. Qed.
Lemma fine_some k c : chan k c -> exists f, fine_gcd c = Ok f /\ 0 < f /\ forall x, In x (e_in c ++ e_out c) -> (f | x).
Proof.
  intros H. destruct (proj2 WF c (chan_in _ _ H)) as (vs & vd & Es & Ed & Li & Lo & Hr). destruct (totals _ _ H) as [T1 T2].
  destruct (KPeriodicChannel.fine_gcd_spec c) as (f & Hf); [|exact Hr| |exists f; exact Hf].
  - rewrite Li. exact (proj1 WF _ (nth_error_In _ _ Es)).
  - unfold edge_in_total, edge_out_total in *. lia.
Qed.

Lemma integerise_spec es : (forall k c, In (k, c) es -> chan k c) -> forall al ref, (0 < ref)%Q ->
  (forall k c, In (k, c) es -> exists a, al k = Some a /\ (0 < a)%Q) ->
  exists al' ref' K, integerise es al ref = Ok (Some (al', ref')) /\ 0 < K /\ scaled al al' K /\
    (forall k c a, In (k, c) es -> al' k = Some a -> fine_ok c a).
Proof.
  induction es as [|[k c] es IH]; intros Hes al ref Hr Hal; cbn [integerise].
  - exists al, ref, 1. split; [reflexivity|]. split; [lia|]. split; [apply scaled_refl|intros ? ? ? []].
  - assert (Hes' : forall k' c', In (k', c') es -> chan k' c') by (intros; apply Hes; right; assumption).
    destruct (fine_some k c (Hes k c (or_introl eq_refl))) as (f & Ef & Fp & _). rewrite Ef. cbn [bind]. cbn zeta.
    destruct (Hal k c (or_introl eq_refl)) as (a & Ea & Ap). rewrite Ea.
    destruct (Z.eqb_spec (lowest_den (a * inject_Z f)) 1) as [E1|E1]; cbn [negb].
    + destruct (IH Hes' al ref Hr) as (al' & ref' & K & E & Kp & SC & FI). { intros; apply (Hal k0 c0); right; assumption. }
      exists al', ref', K. split; [exact E|]. split; [exact Kp|]. split; [exact SC|].
      intros k' c' a' [E'|Hin] Ha'; [|eauto]. injection E' as <- <-. pose proof (SC k) as S. rewrite Ea, Ha' in S.
      apply (fine_ok_scale c a a' K); [|exact S]. exists f, (as_integer (a * inject_Z f)). split; [exact Ef|apply lowest_den_one, E1].
    + set (D := lowest_den (a * inject_Z f)) in *. assert (Dp : 0 < D) by apply lowest_den_pos.
      assert (R' : (0 < ref * inject_Z D)%Q) by (apply Qmult_lt_0_compat; [exact Hr|apply inj_pos, Dp]).
      destruct (Qle_bool (ref * inject_Z D) 0) eqn:Q; [apply Qle_bool_iff in Q; lra|].
      destruct (IH Hes' (scale_all al D) _ R') as (al' & ref' & K & E & Kp & SC & FI).
      { intros k' c' Hin. destruct (Hal k' c' (or_intror Hin)) as (b & Eb & Bp). exists (b * inject_Z D)%Q. unfold scale_all. rewrite Eb. split; [reflexivity|].
        apply Qmult_lt_0_compat; [exact Bp|apply inj_pos, Dp]. }
      exists al', ref', (D * K). split; [exact E|]. split; [apply Z.mul_pos_pos; assumption|]. split; [apply (scaled_trans _ (scale_all al D)); [apply scaled_all|exact SC]|].
      intros k' c' a' [E'|Hin] Ha'; [|eauto]. injection E' as <- <-. pose proof (SC k) as S. unfold scale_all in S. rewrite Ea, Ha' in S. cbn [option_map] in S.
      apply (fine_ok_scale c (a * inject_Z D) a' K); [|exact S]. destruct (lowest_den_clears (a * inject_Z f)) as [y Hy]. fold D in Hy.
      exists f, y. split; [exact Ef|]. rewrite <- Hy. ring.
Qed.

Lemma neighbours_spec es : forall unseen next unseen' next', neighbours es unseen next = (unseen', next') ->
  (forall x, unseen' x = true <-> unseen x = true /\ forall k c, In (k, c) es -> ~ touch c x) /\
  (forall x, next' x = true <-> next x = true \/ unseen x = true /\ exists k c, In (k, c) es /\ touch c x).
Proof.
  induction es as [|[k c] es IH]; intros unseen next unseen' next' H; cbn [neighbours] in H.
  - injection H as <- <-. split; intros x; [split; [intros U; split; [exact U|intros ? ? []]|tauto]|]. split; [auto|]. intros [A|(_ & ? & ? & [] & _)]. exact A.
  - destruct (IH _ _ _ _ H) as [U N]. split; intros x.
    + rewrite U. unfold tdel. destruct (Nat.eqb_spec x (e_dst c)) as [E|Hd]; [|destruct (Nat.eqb_spec x (e_src c)) as [E|Hs]].
      * split; [intros [F _]; discriminate|]. intros [_ F]. exfalso. apply (F k c (or_introl eq_refl)). right. auto.
      * split; [intros [F _]; discriminate|]. intros [_ F]. exfalso. apply (F k c (or_introl eq_refl)). left. auto.
      * split; intros [A B]; (split; [exact A|]); [|intros k' c' Hin; apply (B k' c'); right; exact Hin].
        intros k' c' [E|Hin]; [injection E as <- <-; intros [T|T]; congruence|eauto].
    + rewrite N. unfold tdel.
      assert (NX : (if unseen (e_dst c) then tadd (if unseen (e_src c) then tadd next (e_src c) else next) (e_dst c) else if unseen (e_src c) then tadd next (e_src c) else next) x = true
                   <-> next x = true \/ unseen x = true /\ touch c x).
      { unfold tadd, touch. destruct (unseen (e_src c)) eqn:Us, (unseen (e_dst c)) eqn:Ud;
          repeat match goal with |- context [(x =? ?y)%nat] => destruct (Nat.eqb_spec x y) end; subst;
          split; intros HH; auto; intuition (try congruence); subst; try congruence; auto. }
      rewrite NX. split.
      * intros [[A|[A B]]|(A & k' & c' & Hin & T)]; [left; exact A|right; split; [exact A|exists k, c; split; [left; reflexivity|exact B]]|].
        right. destruct (x =? e_dst c)%nat; [discriminate|]. destruct (x =? e_src c)%nat; [discriminate|]. split; [exact A|]. exists k', c'. split; [right; exact Hin|exact T].
      * intros [A|(A & k' & c' & [E|Hin] & T)]; [auto|injection E as <- <-; auto|].
        destruct (Nat.eqb_spec x (e_dst c)) as [E|Hd]; [left; right; split; [exact A|right; auto]|].
        destruct (Nat.eqb_spec x (e_src c)) as [E|Hs]; [left; right; split; [exact A|left; auto]|].
        right. split; [exact A|eauto].
Qed.

(** * The invariant of the traversal *)
Record inv (al : alphas) (unseen next : tset) : Prop := {
  i_pos : forall k c a, chan k c -> al k = Some a -> (0 < a)%Q;
  i_flow : forall k c a k' c' a', chan k c -> chan k' c' -> al k = Some a -> al k' = Some a' -> linked g (e_src c) (e_src c') -> (flow c a == flow c' a')%Q;
  i_next : forall t, next t = true -> (t < n)%nat /\ unseen t = false /\ exists k c a, chan k c /\ touch c t /\ al k = Some a;
  i_seen : forall k c a x, chan k c -> al k = Some a -> touch c x -> unseen x = false;
  i_done : forall t k c, (t < n)%nat -> unseen t = false -> next t = false -> chan k c -> touch c t -> exists a, al k = Some a /\ fine_ok c a;
  i_range : forall t, unseen t = true -> (t < n)%nat
}.

Lemma link_touch k c t : chan k c -> touch c t -> linked g (e_src c) t.
Proof. intros H [<-|<-]; [apply linked_refl|]. apply linked_fwd; [apply (chan_in _ _ H)|apply linked_refl]. Qed.

Lemma step_inv al unseen next t : inv al unseen next -> next t = true ->
  exists ref al1 al2 ref2, reference al t (connected_edges g t) 0 = Some ref /\ propagate t ref (connected_edges g t) al = Ok al1 /\
    integerise (connected_edges g t) al1 ref = Ok (Some (al2, ref2)) /\
    forall unseen' next', neighbours (connected_edges g t) unseen (tdel next t) = (unseen', next') -> inv al2 unseen' next' /\
      (forall x, unseen' x || next' x = true <-> (unseen x || next x = true /\ x <> t)).
Proof.
  intros I Ht. destruct (i_next _ _ _ I t Ht) as (Htn & Hun & k0 & c0 & a0 & C0 & T0 & A0).
  pose proof (cyc_pos t Htn) as Cp.
  set (r := (a0 * inject_Z (side t c0))%Q).
  assert (Rp : (0 < r)%Q) by (apply Qmult_lt_0_compat; [exact (i_pos _ _ _ I k0 c0 a0 C0 A0)|apply inj_pos, (side_pos k0), C0]).
  assert (ES : forall k c, In (k, c) (connected_edges g t) -> chan k c /\ touch c t) by (intros k c; apply connected_in).
  assert (RF : forall k c a, In (k, c) (connected_edges g t) -> al k = Some a -> (a * inject_Z (side t c) == r)%Q).
  { intros k c a Hin Ha. destruct (ES k c Hin) as [C T].
    assert (L : linked g (e_src c) (e_src c0)) by (apply (link_trans _ _ t); [apply (link_touch k); assumption|apply link_sym, (link_touch k0); assumption]).
    pose proof (i_flow _ _ _ I _ _ _ _ _ _ C C0 Ha A0 L) as F. rewrite (flow_side k c a t C T), (flow_side k0 c0 a0 t C0 T0) in F. fold r in F.
    apply Qmult_inj_r in F; [exact F|]. lra. }
  destruct (reference_spec al t r (connected_edges g t) Rp RF 0 (or_introl (Qeq_refl 0))) as (ref & E1 & _ & K1).
  assert (Eref : (ref == r)%Q). { apply K1. exists k0, c0. split; [apply connected_in; split; assumption|congruence]. }
  assert (Refp : (0 < ref)%Q) by (rewrite Eref; exact Rp).
  destruct (propagate_spec t ref (connected_edges g t) (fun k c Hin => proj1 (ES k c Hin)) al) as (al1 & E2 & P1 & P2 & P3).
  assert (POS1 : forall k c a, chan k c -> al1 k = Some a -> (0 < a)%Q).
  { intros k c a C Ha. destruct (al k) as [b|] eqn:Hb; [rewrite (P1 k b Hb) in Ha; injection Ha as <-; exact (i_pos _ _ _ I k c b C Hb)|].
    destruct (P2 k a Ha Hb) as (c' & Hin & ->). apply Qlt_shift_div_l; [apply inj_pos, (side_pos k), (ES k c' Hin)|]. rewrite Qmult_0_l. exact Refp. }
  assert (TF : forall k c a, chan k c -> al1 k = Some a -> linked g t (e_src c) -> (flow c a == ref * cyc t)%Q).
  { intros k c a C Ha L. destruct (al k) as [b|] eqn:Hb.
    - rewrite (P1 k b Hb) in Ha. injection Ha as <-. rewrite Eref. unfold r. rewrite <- (flow_side k0 c0 a0 t C0 T0).
      apply (i_flow _ _ _ I k c b k0 c0 a0 C C0 Hb A0). apply (link_trans _ _ t); [apply link_sym, L|apply link_sym, (link_touch k0); assumption].
    - destruct (P2 k a Ha Hb) as (c' & Hin & ->). destruct (ES k c' Hin) as [C' T']. assert (c' = c) as -> by (unfold chan in *; congruence).
      rewrite (flow_side k c _ t C T'). pose proof (inj_pos _ (side_pos k c t C)). field. lra. }
  assert (FLOW1 : forall k c a k' c' a', chan k c -> chan k' c' -> al1 k = Some a -> al1 k' = Some a' -> linked g (e_src c) (e_src c') -> (flow c a == flow c' a')%Q).
  { intros k c a k' c' a' C C' Ha Ha' L.
    assert (D : (linked g t (e_src c)) \/ (al k = Some a /\ al k' = Some a')).
    { destruct (al k) as [b|] eqn:Hb.
      - destruct (al k') as [b'|] eqn:Hb'.
        + right. rewrite (P1 k b Hb) in Ha. rewrite (P1 k' b' Hb') in Ha'. split; congruence.
        + left. destruct (P2 k' a' Ha' Hb') as (c'' & Hin & _). destruct (ES k' c'' Hin) as [C'' T'']. assert (c'' = c') as -> by (unfold chan in *; congruence).
          apply (link_trans _ _ (e_src c')); [apply link_sym, (link_touch k'); assumption|apply link_sym, L].
      - left. destruct (P2 k a Ha Hb) as (c'' & Hin & _). destruct (ES k c'' Hin) as [C'' T'']. assert (c'' = c) as -> by (unfold chan in *; congruence).
        apply link_sym, (link_touch k); assumption. }
    destruct D as [D|[D1 D2]]; [|exact (i_flow _ _ _ I _ _ _ _ _ _ C C' D1 D2 L)].
    rewrite (TF k c a C Ha D), (TF k' c' a' C' Ha' (link_trans _ _ _ D _ L)). reflexivity. }
  destruct (integerise_spec (connected_edges g t) (fun k c Hin => proj1 (ES k c Hin)) al1 ref Refp) as (al2 & ref2 & K & E3 & Kp & SC & FI).
  { intros k c Hin. destruct (al1 k) as [a|] eqn:Ha; [|exfalso; exact (P3 k c Hin Ha)]. exists a. split; [reflexivity|]. exact (POS1 k c a (proj1 (ES k c Hin)) Ha). }
  exists ref, al1, al2, ref2. split; [exact E1|]. split; [exact E2|]. split; [exact E3|].
  intros unseen' next' NB. destruct (neighbours_spec _ _ _ _ _ NB) as [U' N'].
  assert (BACK : forall k a2, al2 k = Some a2 -> exists a1, al1 k = Some a1 /\ (a2 == a1 * inject_Z K)%Q).
  { intros k a2 H. specialize (SC k). rewrite H in SC. destruct (al1 k) as [a1|]; [|contradiction]. exists a1. auto. }
  assert (FORW : forall k a, al k = Some a -> exists a2, al2 k = Some a2 /\ (a2 == a * inject_Z K)%Q).
  { intros k a H. specialize (SC k). rewrite (P1 k a H) in SC. destruct (al2 k) as [a2|]; [|contradiction]. exists a2. auto. }
  assert (KN : forall k c, In (k, c) (connected_edges g t) -> exists a2, al2 k = Some a2).
  { intros k c Hin. specialize (SC k). destruct (al1 k) as [a1|] eqn:Ha; [|exfalso; exact (P3 k c Hin Ha)]. destruct (al2 k) as [a2|]; [eauto|contradiction]. }
  assert (USUB : forall x, unseen x = false -> unseen' x = false).
  { intros x H. destruct (unseen' x) eqn:E; [|reflexivity]. apply U' in E as [E _]. congruence. }
  assert (UTOUCH : forall k c x, In (k, c) (connected_edges g t) -> touch c x -> unseen' x = false).
  { intros k c x Hin T. destruct (unseen' x) eqn:E; [|reflexivity]. apply U' in E as [_ E]. exfalso. exact (E k c Hin T). }
  split; [constructor|].
  - intros k c a C Ha. destruct (BACK k a Ha) as (a1 & H1 & ->). apply Qmult_lt_0_compat; [exact (POS1 k c a1 C H1)|apply inj_pos, Kp].
  - intros k c a k' c' a' C C' Ha Ha' L. destruct (BACK k a Ha) as (a1 & H1 & Q1). destruct (BACK k' a' Ha') as (a1' & H1' & Q1').
    pose proof (FLOW1 k c a1 k' c' a1' C C' H1 H1' L) as F. unfold flow in *. rewrite Q1, Q1'.
    transitivity (inject_Z K * (a1 * inject_Z (edge_in_total c) * cyc (e_src c)))%Q; [ring|]. rewrite F. ring.
  - intros x Hx. apply N' in Hx as [Hx|(Hx & k & c & Hin & T)].
    + unfold tdel in Hx. destruct (x =? t)%nat; [discriminate|]. destruct (i_next _ _ _ I x Hx) as (X1 & X2 & k & c & a & X3 & X4 & X5).
      split; [exact X1|]. split; [apply USUB, X2|]. destruct (FORW k a X5) as (a2 & X6 & _). exists k, c, a2. auto.
    + split; [apply (i_range _ _ _ I), Hx|]. split; [apply (UTOUCH k c); assumption|]. destruct (KN k c Hin) as [a2 Ha2]. exists k, c, a2. split; [apply (ES k c Hin)|auto].
  - intros k c a x C Ha T. destruct (BACK k a Ha) as (a1 & H1 & _). destruct (al k) as [b|] eqn:Hb; [apply USUB, (i_seen _ _ _ I k c b x C Hb T)|].
    destruct (P2 k a1 H1 Hb) as (c' & Hin & _). assert (c' = c) as -> by (pose proof (proj1 (ES k c' Hin)); unfold chan in *; congruence). apply (UTOUCH k c); assumption.
  - intros x k c Hx Ux Nx C T. destruct (Nat.eq_dec x t) as [->|Hne].
    + assert (Hin : In (k, c) (connected_edges g t)) by (apply connected_in; split; assumption). destruct (KN k c Hin) as [a2 Ha2]. exists a2. split; [exact Ha2|exact (FI k c a2 Hin Ha2)].
    + assert (Nx0 : next x = false).
      { destruct (next x) eqn:E; [|reflexivity]. enough (next' x = true) by congruence. apply N'. left. unfold tdel. apply Nat.eqb_neq in Hne. rewrite Hne. exact E. }
      assert (Ux0 : unseen x = false).
      { destruct (unseen x) eqn:E; [|reflexivity]. exfalso. assert (F : ~ unseen' x = true) by congruence. apply F, U'. split; [exact E|].
        intros k' c' Hin T'. enough (next' x = true) by congruence. apply N'. right. split; [exact E|eauto]. }
      destruct (i_done _ _ _ I x k c Hx Ux0 Nx0 C T) as (a & Ha & Fa). destruct (FORW k a Ha) as (a2 & Ha2 & Q2). exists a2. split; [exact Ha2|]. exact (fine_ok_scale c a a2 K Fa Q2).
  - intros x Hx. apply U' in Hx as [Hx _]. exact (i_range _ _ _ I x Hx).
  - intros x. rewrite !orb_true_iff, U', N'. unfold tdel. split.
    + intros [[A _]|[A|(A & _)]].
      * split; [auto|]. intros ->. congruence.
      * destruct (Nat.eqb_spec x t) as [|Hne]; [discriminate|]. auto.
      * split; [auto|]. intros ->. congruence.
    + intros [A Hne]. apply Nat.eqb_neq in Hne. rewrite Hne. destruct A as [A|A]; [|auto].
      destruct (existsb (fun kc => (e_src (snd kc) =? x)%nat || (e_dst (snd kc) =? x)%nat) (connected_edges g t)) eqn:X.
      * apply existsb_exists in X as ([k c] & Hin & X). cbn [snd] in X. apply orb_true_iff in X. rewrite !Nat.eqb_eq in X. right. right. split; [exact A|]. exists k, c. auto.
      * left. split; [exact A|]. intros k c Hin T. enough (existsb (fun kc => (e_src (snd kc) =? x)%nat || (e_dst (snd kc) =? x)%nat) (connected_edges g t) = true) by congruence.
        apply existsb_exists. exists (k, c). split; [exact Hin|]. cbn [snd]. apply orb_true_iff. rewrite !Nat.eqb_eq. exact T.
Qed.

(** * Starting a new part *)
Lemma seen_closed al unseen next i j : inv al unseen next -> (forall t, next t = false) -> (i < n)%nat -> unseen i = false -> linked g i j -> unseen j = false /\ (j < n)%nat.
Proof.
  intros I NX Hi Ui L. induction L as [|i c Hc _ IH|i c Hc _ IH]; [auto| |].
  - destruct (IH Hi Ui) as [U1 U2]. apply In_nth_error in Hc as [k Hk]. destruct (i_done _ _ _ I _ k c U2 U1 (NX _) Hk (or_introl eq_refl)) as (a & Ha & _).
    split; [exact (i_seen _ _ _ I k c a _ Hk Ha (or_intror eq_refl))|apply (ends k c Hk)].
  - destruct (IH Hi Ui) as [U1 U2]. apply In_nth_error in Hc as [k Hk]. destruct (i_done _ _ _ I _ k c U2 U1 (NX _) Hk (or_intror eq_refl)) as (a & Ha & _).
    split; [exact (i_seen _ _ _ I k c a _ Hk Ha (or_introl eq_refl))|apply (ends k c Hk)].
Qed.

Lemma first_alpha_ok k c : chan k c -> exists q, first_alpha c = Ok q /\ (0 < q)%Q.
Proof.
  intros H. destruct (totals _ _ H) as [T1 T2]. unfold first_alpha. cbn zeta.
  assert (P : 0 < Z.gcd (edge_in_total c) (edge_out_total c)).
  { pose proof (Z.gcd_nonneg (edge_in_total c) (edge_out_total c)). destruct (Z.eq_dec (Z.gcd (edge_in_total c) (edge_out_total c)) 0) as [E|]; [|lia].
    apply Z.gcd_eq_0_l in E. lia. }
  destruct (Z.eqb_spec (Z.gcd (edge_in_total c) (edge_out_total c)) 0); [lia|]. eexists. split; [reflexivity|].
  apply Qlt_shift_div_l; [apply inj_pos, P|]. rewrite Qmult_0_l. reflexivity.
Qed.

Lemma start_inv al unseen k c q : inv al unseen (fun _ => false) -> chan k c -> unseen (e_src c) = true -> unseen (e_dst c) = true -> (0 < q)%Q ->
  inv (set_alpha al k q) (tdel (tdel unseen (e_src c)) (e_dst c)) (tadd (tadd (fun _ => false) (e_src c)) (e_dst c)).
Proof.
  intros I C Us Ud Qp.
  assert (NK : al k = None). { destruct (al k) as [a|] eqn:Ha; [|reflexivity]. pose proof (i_seen _ _ _ I k c a _ C Ha (or_introl eq_refl)). congruence. }
  assert (SEP : forall k' c' a, chan k' c' -> al k' = Some a -> linked g (e_src c') (e_src c) -> False).
  { intros k' c' a C' Ha L. pose proof (i_seen _ _ _ I k' c' a _ C' Ha (or_introl eq_refl)) as U.
    destruct (seen_closed al unseen _ _ _ I (fun _ => eq_refl) (proj1 (ends _ _ C')) U L). congruence. }
  assert (TD : forall x, tdel (tdel unseen (e_src c)) (e_dst c) x = unseen x && negb ((x =? e_src c)%nat || (x =? e_dst c)%nat)).
  { intros x. unfold tdel. destruct (x =? e_dst c)%nat, (x =? e_src c)%nat, (unseen x); reflexivity. }
  assert (TA : forall x, tadd (tadd (fun _ => false) (e_src c)) (e_dst c) x = (x =? e_src c)%nat || (x =? e_dst c)%nat).
  { intros x. unfold tadd. destruct (x =? e_dst c)%nat, (x =? e_src c)%nat; reflexivity. }
  constructor.
  - intros k' c' a C' Ha. unfold set_alpha in Ha. destruct (k' =? k)%nat; [injection Ha as <-; exact Qp|exact (i_pos _ _ _ I k' c' a C' Ha)].
  - intros k1 c1 a1 k2 c2 a2 C1 C2 H1 H2 L. unfold set_alpha in H1, H2. destruct (Nat.eqb_spec k1 k) as [->|N1], (Nat.eqb_spec k2 k) as [->|N2].
    + assert (c1 = c2) as -> by (unfold chan in *; congruence). assert (a1 = a2) as -> by congruence. reflexivity.
    + exfalso. assert (c1 = c) as -> by (unfold chan in *; congruence). apply (SEP k2 c2 a2 C2 H2). apply link_sym, L.
    + exfalso. assert (c2 = c) as -> by (unfold chan in *; congruence). exact (SEP k1 c1 a1 C1 H1 L).
    + exact (i_flow _ _ _ I _ _ _ _ _ _ C1 C2 H1 H2 L).
  - intros x Hx. rewrite TA in Hx. rewrite TD, Hx. split; [apply orb_true_iff in Hx as [Hx|Hx]; apply Nat.eqb_eq in Hx; subst x; apply (ends _ _ C)|].
    split; [apply andb_false_r|]. exists k, c, q. split; [exact C|]. split; [|apply set_alpha_same].
    apply orb_true_iff in Hx as [Hx|Hx]; apply Nat.eqb_eq in Hx; [left|right]; auto.
  - intros k' c' a x C' Ha T. rewrite TD. unfold set_alpha in Ha. destruct (Nat.eqb_spec k' k) as [->|Hne].
    + assert (c' = c) as -> by (unfold chan in *; congruence). destruct T as [<-|<-]; rewrite Nat.eqb_refl; [|rewrite orb_true_r]; apply andb_false_r.
    + rewrite (i_seen _ _ _ I k' c' a x C' Ha T). reflexivity.
  - intros x k' c' Hx Ux Nx C' T. rewrite TD in Ux. rewrite TA in Nx. rewrite Nx in Ux. cbn [negb] in Ux. rewrite andb_true_r in Ux.
    destruct (i_done _ _ _ I x k' c' Hx Ux eq_refl C' T) as (a & Ha & Fa). exists a. split; [|exact Fa]. rewrite set_alpha_other; [exact Ha|]. intros ->. congruence.
  - intros x Hx. rewrite TD in Hx. apply andb_true_iff in Hx as [Hx _]. exact (i_range _ _ _ I x Hx).
Qed.

(** * The whole traversal *)
Definition pending (unseen next : tset) : nat := length (filter (fun x => unseen x || next x) (tasks g)).
Lemma empty_spec s : is_empty g s = true <-> forall x, (x < n)%nat -> s x = false.
Proof.
  unfold is_empty. rewrite negb_true_iff. split.
  - intros H x Hx. destruct (s x) eqn:E; [|reflexivity]. enough (existsb s (tasks g) = true) by congruence. apply existsb_exists. exists x. split; [apply in_seq; unfold n in *; lia|exact E].
  - intros H. destruct (existsb s (tasks g)) eqn:E; [|reflexivity]. apply existsb_exists in E as (x & Hx & Sx). apply in_seq in Hx. rewrite H in Sx by (unfold n; lia). discriminate.
Qed.
Lemma empty_next al unseen next : inv al unseen next -> (forall x, (x < n)%nat -> next x = false) -> forall x, next x = false.
Proof. intros I H x. destruct (next x) eqn:E; [|reflexivity]. rewrite (H x (proj1 (i_next _ _ _ I x E))) in E. discriminate. Qed.
Lemma inv_ext al u v u' v' : (forall x, u x = u' x) -> (forall x, v x = v' x) -> inv al u v -> inv al u' v'.
Proof.
  intros EU EV [A B C D E F]. constructor; intros; rewrite <- ?EU, <- ?EV in *; eauto.
Qed.

Lemma spread_ok fuel : forall al unseen next, (pending unseen next <= fuel)%nat -> inv al unseen next ->
  (forall x, (x < n)%nat -> has_channel g x) -> ((exists x, next x = true) \/ forall x, (x < n)%nat -> unseen x = false) ->
  exists al', spread fuel g al unseen next = Ok (Some al') /\
    (forall k c, chan k c -> exists a, al' k = Some a /\ (0 < a)%Q /\ fine_ok c a) /\
    (forall k c a k' c' a', chan k c -> chan k' c' -> al' k = Some a -> al' k' = Some a' -> linked g (e_src c) (e_src c') -> (flow c a == flow c' a')%Q).
Proof.
  induction fuel as [|f IH]; intros al unseen next PF I HC GO.
  all: cbn [spread]; destruct (find next (tasks g)) as [t|] eqn:FN.
  1: { exfalso. apply find_some in FN as [Hin Ht]. assert (E : In t (filter (fun x => unseen x || next x) (tasks g))) by (apply filter_In; split; [exact Hin|rewrite Ht; apply orb_true_r]).
       unfold pending in PF. destruct (filter _ (tasks g)); [destruct E|cbn in PF; lia]. }
  2: { apply find_some in FN as [Hin Ht]. destruct (step_inv _ _ _ t I Ht) as (ref & al1 & al2 & ref2 & E1 & E2 & E3 & NB).
    rewrite E1, E2. cbn [bind]. rewrite E3. cbn [bind]. destruct (neighbours (connected_edges g t) unseen (tdel next t)) as [unseen' next'] eqn:EN.
    destruct (NB _ _ eq_refl) as [I' UN].
    assert (PD : (pending unseen' next' <= f)%nat).
    { enough (pending unseen' next' < pending unseen next)%nat by lia. unfold pending. apply (filter_lt g _ _ _ t).
      - intros x _ Hx. apply UN in Hx as [Hx _]. exact Hx.
      - exact Hin.
      - rewrite Ht. apply orb_true_r.
      - destruct (unseen' t || next' t) eqn:E; [|reflexivity]. apply UN in E as [_ E]. contradiction. }
    destruct (is_empty g next' && negb (is_empty g unseen')) eqn:EM.
    - apply andb_true_iff in EM as [M1 M2]. pose proof (proj1 (empty_spec _) M1) as M1'. pose proof (empty_next _ _ _ I' M1') as NX.
      destruct (find _ (listed g)) as [[k c]|] eqn:FE.
      + apply find_some in FE as [Hl U]. apply listed_in in Hl. cbn [snd] in U. apply andb_true_iff in U as [Us Ud].
        destruct (first_alpha_ok k c Hl) as (q & Eq & Qp). rewrite Eq. cbn [bind].
        assert (I'' : inv al2 unseen' (fun _ => false)) by (apply (inv_ext _ unseen' next'); auto).
        apply IH.
        * etransitivity; [|exact PD]. unfold pending. apply (filter_le g). intros x _ Hx. apply orb_true_iff in Hx. unfold tadd, tdel in Hx. rewrite NX in *.
          destruct (Nat.eqb_spec x (e_dst c)) as [Ex|]; [rewrite Ex, Ud; reflexivity|]. destruct (Nat.eqb_spec x (e_src c)) as [Ex|]; [rewrite Ex, Us; reflexivity|].
          destruct Hx as [Hx|Hx]; [rewrite Hx; reflexivity|discriminate].
        * apply (inv_ext _ (tdel (tdel unseen' (e_src c)) (e_dst c)) (tadd (tadd (fun _ => false) (e_src c)) (e_dst c))); [auto| |apply start_inv; auto].
          intros x. unfold tadd. rewrite NX. reflexivity.
        * exact HC.
        * left. exists (e_dst c). unfold tadd. rewrite Nat.eqb_refl. reflexivity.
      + exfalso. apply negb_true_iff in M2. enough (is_empty g unseen' = true) by congruence. apply empty_spec. intros x Hx. destruct (unseen' x) eqn:Ux; [|reflexivity]. exfalso.
        destruct (HC x Hx) as (c & Hc & T). apply In_nth_error in Hc as [k Hk].
        pose proof (find_none _ _ FE (k, c) (proj2 (listed_in g k c) Hk)) as FF. cbn [snd] in FF.
        destruct (unseen' (e_src c)) eqn:U1.
        * destruct (unseen' (e_dst c)) eqn:U2; [discriminate|]. destruct (seen_closed _ _ _ (e_dst c) (e_src c) I' NX (proj2 (ends _ _ Hk)) U2); [|congruence].
          apply linked_bwd; [apply (chan_in _ _ Hk)|apply linked_refl].
        * destruct (seen_closed _ _ _ (e_src c) (e_dst c) I' NX (proj1 (ends _ _ Hk)) U1) as [U2 _]; [apply linked_fwd; [apply (chan_in _ _ Hk)|apply linked_refl]|].
          destruct T as [T|T]; congruence.
    - apply IH; [exact PD|exact I'|exact HC|]. apply andb_false_iff in EM as [EM|EM].
      + left. destruct (existsb next' (tasks g)) eqn:X; [apply existsb_exists in X as (x & _ & X); eauto|]. unfold is_empty in EM. rewrite X in EM. discriminate.
      + right. apply negb_false_iff in EM. apply empty_spec, EM. }
  (* nothing left to see *)
  all: exists al; split; [reflexivity|]; assert (NX : forall x, next x = false) by (apply (empty_next _ _ _ I); intros x Hx; apply (find_none _ _ FN); apply in_seq; unfold n in *; lia).
  all: assert (US : forall x, (x < n)%nat -> unseen x = false) by (destruct GO as [[x Hx]|GO]; [rewrite NX in Hx; discriminate|exact GO]).
  all: split; [|exact (i_flow _ _ _ I)]; intros k c C; destruct (i_done _ _ _ I (e_src c) k c (proj1 (ends _ _ C)) (US _ (proj1 (ends _ _ C))) (NX _) C (or_introl eq_refl)) as (a & Ha & Fa).
  all: exists a; split; [exact Ha|]; split; [exact (i_pos _ _ _ I k c a C Ha)|exact Fa].
Qed.

(** * The weights *)
Definition full (al : alphas) : Prop :=
  (forall k c, chan k c -> exists a, al k = Some a /\ (0 < a)%Q /\ fine_ok c a) /\
  (forall k c a k' c' a', chan k c -> chan k' c' -> al k = Some a -> al k' = Some a' -> linked g (e_src c) (e_src c') -> (flow c a == flow c' a')%Q).

Lemma fine_sum c f l : fine_gcd c = Ok f -> (forall x, In x l -> (f | x)) -> (f | sumZ l).
Proof. intros _. induction l as [|x l IH]; intros H; cbn; [apply Z.divide_0_r|]. apply Z.divide_add_r; [apply H; left; reflexivity|apply IH; intros; apply H; right; assumption]. Qed.
Lemma fine_integer k c a x : chan k c -> fine_ok c a -> In x (e_in c ++ e_out c) \/ x = edge_in_total c \/ x = edge_out_total c -> exists y, (a * inject_Z x == inject_Z y)%Q.
Proof.
  intros C (f & y & Ef & E) Hx. destruct (fine_some k c C) as (f' & Ef' & _ & D). assert (f' = f) as -> by congruence.
  assert (Dx : (f | x)).
  { destruct Hx as [Hx|[->| ->]]; [apply D, Hx| |]; apply (fine_sum c); auto; intros; apply D, in_or_app; auto. }
  destruct Dx as [m ->]. exists (m * y). rewrite !inject_Z_mult, <- E. ring.
Qed.

(** The weight every channel gives to a task it touches. *)
Lemma weight_unique al k c a k' c' a' t : full al -> chan k c -> chan k' c' -> al k = Some a -> al k' = Some a' -> touch c t -> touch c' t ->
  (a * inject_Z (side t c) == a' * inject_Z (side t c'))%Q.
Proof.
  intros [_ F] C C' Ha Ha' T T'.
  assert (L : linked g (e_src c) (e_src c')) by (apply (link_trans _ _ t); [apply (link_touch k); assumption|apply link_sym, (link_touch k'); assumption]).
  pose proof (F _ _ _ _ _ _ C C' Ha Ha' L) as E. rewrite (flow_side k c a t C T), (flow_side k' c' a' t C' T') in E.
  apply Qmult_inj_r in E; [exact E|]. pose proof (cyc_pos t (touch_lt _ _ _ C T)). lra.
Qed.
Lemma weight_both al k c a k' c' a' t : full al -> chan k c -> chan k' c' -> al k = Some a -> al k' = Some a' -> touch c t ->
  (e_src c' = t -> (a' * inject_Z (edge_in_total c') == a * inject_Z (side t c))%Q) /\ (e_dst c' = t -> (a' * inject_Z (edge_out_total c') == a * inject_Z (side t c))%Q).
Proof.
  intros F C C' Ha Ha' T. split; intros E.
  - rewrite (weight_unique al k c a k' c' a' t F C C' Ha Ha' T (or_introl E)). unfold side. rewrite E, Nat.eqb_refl. reflexivity.
  - rewrite (weight_unique al k c a k' c' a' t F C C' Ha Ha' T (or_intror E)). unfold side. destruct (Nat.eqb_spec (e_src c') t) as [E'|]; [|reflexivity].
    pose proof (balance _ _ C') as B. rewrite E', E in B. apply Qmult_inj_r in B; [|pose proof (cyc_pos t (touch_lt _ _ _ C T)); lra]. rewrite B. reflexivity.
Qed.

Definition weighs (al : alphas) (z : weights) : Prop :=
  forall t x, z t = Some x -> (0 < x /\ exists k c a, chan k c /\ al k = Some a /\ touch c t /\ (a * inject_Z (side t c) == inject_Z x)%Q).
Lemma insert_known z t x t' : z t' <> None -> insert_weight z t x t' = z t'.
Proof. intros H. unfold insert_weight. destruct (Nat.eqb_spec t' t) as [->|]; [|reflexivity]. destruct (z t); [reflexivity|contradiction]. Qed.
Lemma insert_weighs al z t x k c a : weighs al z -> chan k c -> al k = Some a -> touch c t -> (a * inject_Z (side t c) == inject_Z x)%Q -> 0 < x -> weighs al (insert_weight z t x).
Proof.
  intros W C Ha T E P t' y H. unfold insert_weight in H. destruct (Nat.eqb_spec t' t) as [->|Hne]; [|exact (W t' y H)].
  destruct (z t) as [w|] eqn:Zt; injection H as <-; [exact (W t w Zt)|]. split; [exact P|]. exists k, c, a. auto.
Qed.
Lemma insert_some z t x : insert_weight z t x t <> None.
Proof. unfold insert_weight. rewrite Nat.eqb_refl. destruct (z t); discriminate. Qed.

Lemma pos_integer q y : (0 < q)%Q -> (q == inject_Z y)%Q -> 0 < y.
Proof. intros P E. rewrite E in P. change 0%Q with (inject_Z 0) in P. rewrite <- Zlt_Qlt in P. exact P. Qed.

Lemma collect_ok al es : full al -> (forall k c, In (k, c) es -> chan k c) -> forall z, weighs al z ->
  exists z', collect es al z = Ok (Some z') /\ weighs al z' /\ (forall t, z t <> None -> z' t <> None) /\
    (forall k c t, In (k, c) es -> touch c t -> z' t <> None).
Proof.
  intros F. induction es as [|[k c] es IH]; intros Hes z W; cbn [collect].
  - exists z. split; [reflexivity|]. split; [exact W|]. split; [auto|intros ? ? ? []].
  - pose proof (Hes k c (or_introl eq_refl)) as C. destruct (totals _ _ C) as [T1 T2]. destruct (proj1 F k c C) as (a & Ha & Ap & Fa). rewrite Ha. cbn zeta.
    apply Z.ltb_lt in T1 as B1. apply Z.ltb_lt in T2 as B2. rewrite B1, B2. cbn [cassert bind].
    destruct (Qle_bool a 0) eqn:Q; [apply Qle_bool_iff in Q; lra|].
    destruct (fine_integer k c a (edge_in_total c) C Fa) as [yi Ei]; [auto|]. destruct (fine_integer k c a (edge_out_total c) C Fa) as [yj Ej]; [auto|].
    assert (is_integer (a * inject_Z (edge_in_total c)) = true) as -> by (apply is_integer_iff; eauto).
    assert (is_integer (a * inject_Z (edge_out_total c)) = true) as -> by (apply is_integer_iff; eauto). cbn [cassert bind].
    rewrite (proj2 (integer_lowest_den _ _ Ei)), (proj2 (integer_lowest_den _ _ Ej)).
    assert (Pi : 0 < yi) by (apply (pos_integer (a * inject_Z (edge_in_total c))); [apply Qmult_lt_0_compat; [exact Ap|apply inj_pos, T1]|exact Ei]).
    assert (Pj : 0 < yj) by (apply (pos_integer (a * inject_Z (edge_out_total c))); [apply Qmult_lt_0_compat; [exact Ap|apply inj_pos, T2]|exact Ej]).
    destruct (Z.leb_spec yi 0); [lia|]. destruct (Z.leb_spec yj 0); [lia|]. cbn [orb].
    destruct (weight_both al k c a k c a (e_src c) F C C Ha Ha (or_introl eq_refl)) as [S1 _]. destruct (weight_both al k c a k c a (e_dst c) F C C Ha Ha (or_intror eq_refl)) as [_ S2].
    destruct (IH (fun k' c' Hin => Hes k' c' (or_intror Hin)) (insert_weight (insert_weight z (e_src c) yi) (e_dst c) yj)) as (z' & E & W' & K1 & K2).
    { apply (insert_weighs al _ _ _ k c a); auto; [|right; reflexivity|rewrite <- Ej; symmetry; apply S2; reflexivity].
      apply (insert_weighs al _ _ _ k c a); auto; [left; reflexivity|rewrite <- Ei; symmetry; apply S1; reflexivity]. }
    exists z'. split; [exact E|]. split; [exact W'|].
    assert (KI : forall t u x w, w t <> None -> insert_weight w u x t <> None) by (intros t u x w Hw; rewrite insert_known; exact Hw).
    split; [intros t Ht; apply K1, KI, KI, Ht|].
    intros k' c' t [E'|Hin] T; [|eapply K2; eassumption]. injection E' as <- <-. apply K1. destruct T as [<-|<-]; [apply KI, insert_some|apply insert_some].
Qed.

Lemma weigh_edge al z k c : full al -> weighs al z -> (forall t, (t < n)%nat -> z t <> None) -> chan k c ->
  exists a zi zj, al k = Some a /\ (0 < a)%Q /\ fine_ok c a /\ z (e_src c) = Some zi /\ z (e_dst c) = Some zj /\ 0 < zi /\ 0 < zj /\
    (a * inject_Z (edge_in_total c) == inject_Z zi)%Q /\ (a * inject_Z (edge_out_total c) == inject_Z zj)%Q.
Proof.
  intros F W A C. destruct (ends _ _ C) as [Hs Hd]. destruct (proj1 F k c C) as (a & Ha & Ap & Fa).
  destruct (z (e_src c)) as [zi|] eqn:Zi; [|exfalso; exact (A _ Hs Zi)]. destruct (z (e_dst c)) as [zj|] eqn:Zj; [|exfalso; exact (A _ Hd Zj)].
  destruct (W _ _ Zi) as (Pi & k1 & c1 & a1 & C1 & A1 & T1 & E1). destruct (W _ _ Zj) as (Pj & k2 & c2 & a2 & C2 & A2 & T2 & E2).
  exists a, zi, zj. repeat (split; [assumption || reflexivity|]). split.
  - rewrite <- E1. apply (weight_both al k1 c1 a1 k c a (e_src c) F C1 C A1 Ha T1). reflexivity.
  - rewrite <- E2. apply (weight_both al k2 c2 a2 k c a (e_dst c) F C2 C A2 Ha T2). reflexivity.
Qed.

Lemma mul_div_z a z u : 0 < u -> (a * inject_Z u == inject_Z z)%Q -> (inject_Z z / inject_Z u == a)%Q.
Proof. intros Hu <-. field. pose proof (inj_pos u Hu). lra. Qed.
Lemma value_good old a y zi ui zj uj : 0 < ui -> 0 < uj -> (a * inject_Z ui == inject_Z zi)%Q -> (a * inject_Z uj == inject_Z zj)%Q -> (a * inject_Z old == inject_Z y)%Q ->
  value_ok old zi ui zj uj = true.
Proof.
  intros Ui Uj Ei Ej Ey. unfold value_ok. cbn zeta.
  assert (G : forall z u, 0 < u -> (a * inject_Z u == inject_Z z)%Q -> (inject_Z old * (inject_Z z / inject_Z u) == inject_Z y)%Q /\ Z.quot (old * z) u = y).
  { intros z u Hu E. split; [rewrite (mul_div_z a z u Hu E), <- Ey; ring|].
    assert (old * z = y * u). { assert (H : (inject_Z (old * z) == inject_Z (y * u))%Q) by (rewrite !inject_Z_mult, <- E, <- Ey; ring). unfold Qeq, inject_Z in H. cbn in H. lia. }
    rewrite H. apply Z.quot_mul. lia. }
  destruct (G zi ui Ui Ei) as [G1 G2]. destruct (G zj uj Uj Ej) as [G3 G4]. rewrite G2, G4.
  rewrite (proj2 (is_integer_iff _) (ex_intro _ y G1)), (proj2 (is_integer_iff _) (ex_intro _ y G3)).
  rewrite (proj2 (Qeq_bool_iff _ _) G1), (proj2 (Qeq_bool_iff _ _) G3), Z.eqb_refl. rewrite (proj2 (integer_lowest_den _ _ G1)), (proj2 (integer_lowest_den _ _ G3)). apply Z.eqb_refl.
Qed.
Lemma rates_good get zi ui zj uj m : forall phase, (forall i, (i < m)%nat -> exists old, get (phase + Z.of_nat i) = Ok old /\ value_ok old zi ui zj uj = true) ->
  rates_ok get zi ui zj uj m phase = Ok true.
Proof.
  induction m as [|m IH]; intros phase H; [reflexivity|]. cbn [rates_ok]. destruct (H 0%nat ltac:(lia)) as (old & E & V). rewrite Z.add_0_r in E. rewrite E. cbn [bind]. rewrite V.
  apply IH. intros i Hi. destruct (H (S i) ltac:(lia)) as (o & Eo & Vo). exists o. split; [|exact Vo]. rewrite <- Eo. f_equal. lia.
Qed.

Lemma channel_good al z k c : full al -> weighs al z -> (forall t, (t < n)%nat -> z t <> None) -> chan k c -> channel_ok g z c = Ok true.
Proof.
  intros F W A C. destruct (weigh_edge al z k c F W A C) as (a & zi & zj & Ha & Ap & Fa & Zi & Zj & Pi & Pj & Ei & Ej). destruct (totals _ _ C) as [T1 T2].
  destruct (proj2 WF c (chan_in _ _ C)) as (vs & vd & Es & Ed & Li & Lo & Hr). unfold channel_ok. rewrite Zi, Zj, Es, Ed. cbn zeta.
  destruct (fine_some k c C) as (f & Ef & Fp & _). rewrite Ef. cbn [bind]. destruct (Z.eqb_spec f 0); [lia|]. destruct (Z.eqb_spec (edge_in_total c) 0); [lia|]. destruct (Z.eqb_spec (edge_out_total c) 0); [lia|]. cbn [orb].
  assert (V0 : value_ok (e_preload c / f * f) zi (edge_in_total c) zj (edge_out_total c) = true).
  { destruct Fa as (f' & y & Ef' & Ey). assert (f' = f) as -> by congruence.
    apply (value_good _ a (e_preload c / f * y)); auto. rewrite !inject_Z_mult, <- Ey. ring. }
  assert (VR : forall x, In x (e_in c ++ e_out c) -> value_ok x zi (edge_in_total c) zj (edge_out_total c) = true).
  { intros x Hx. destruct (fine_integer k c a x C Fa (or_introl Hx)) as [y Ey]. apply (value_good _ a y); auto. }
  rewrite V0. cbn [negb]. rewrite (rates_good (edge_in_phase c)).
  - cbn [bind negb]. apply rates_good. intros i Hi. exists (nth i (e_out c) 0). rewrite edge_out_phase_nth by lia. split; [reflexivity|]. apply VR, in_or_app. right. apply nth_In. lia.
  - intros i Hi. exists (nth i (e_in c) 0). rewrite edge_in_phase_nth by lia. split; [reflexivity|]. apply VR, in_or_app. left. apply nth_In. lia.
Qed.
Lemma check_good z es : (forall k c, In (k, c) es -> channel_ok g z c = Ok true) -> check_validity g z es = Ok true.
Proof.
  induction es as [|[k c] es IH]; intros H; [reflexivity|]. cbn [check_validity]. rewrite (H k c (or_introl eq_refl)). cbn [bind]. apply IH. intros; eapply H; right; eassumption.
Qed.

Lemma set_coefficients_good al z es : full al -> weighs al z -> (forall t, (t < n)%nat -> z t <> None) -> (forall k c, In (k, c) es -> chan k c) ->
  forall b, exists b', set_coefficients z es b = Ok b'.
Proof.
  intros F W A. induction es as [|[k c] es IH]; intros Hes b; cbn [set_coefficients]; [eauto|].
  pose proof (Hes k c (or_introl eq_refl)) as C. destruct (weigh_edge al z k c F W A C) as (a & zi & zj & Ha & Ap & Fa & Zi & Zj & Pi & Pj & Ei & Ej). destruct (totals _ _ C) as [T1 T2].
  rewrite Zi, Zj. cbn zeta. apply Z.ltb_lt in T1 as B1. apply Z.ltb_lt in T2 as B2. apply Z.ltb_lt in Pi as B3. apply Z.ltb_lt in Pj as B4. rewrite B1, B2, B3, B4. cbn [andb cassert bind].
  assert (Qeq_bool (inject_Z zi / inject_Z (edge_in_total c)) (inject_Z zj / inject_Z (edge_out_total c)) = true) as ->.
  { apply Qeq_bool_iff. rewrite (mul_div_z a _ _ T1 Ei), (mul_div_z a _ _ T2 Ej). reflexivity. }
  cbn [cassert bind]. apply IH. intros; apply Hes; right; assumption.
Qed.
Lemma set_normalization_good al z ts : full al -> weighs al z -> (forall t, (t < n)%nat -> z t <> None) -> (forall t, In t ts -> (t < n)%nat) ->
  forall zs b, exists r, set_normalization g z ts zs b = Ok (Some r).
Proof.
  intros F W A. induction ts as [|t ts IH]; intros Hts zs b; cbn [set_normalization]; [eauto|].
  destruct (z t) as [x|] eqn:Zt; [|exfalso; exact (A t (Hts t (or_introl eq_refl)) Zt)]. destruct (W t x Zt) as [P _]. apply Z.ltb_lt in P. rewrite P. cbn [cassert bind].
  destruct (set_coefficients_good al z (connected_edges g t) F W A (fun k c Hin => proj1 (proj1 (connected_in g t k c) Hin)) b) as [b' ->]. cbn [bind].
  apply IH. intros; apply Hts; right; assumption.
Qed.

Lemma normalize_complete fuel : no_lone_task g -> (n <= fuel)%nat -> exists zs al, normalize fuel g = Ok (Some (zs, al)).
Proof.
  intros NL HF. unfold normalize, rational_normalize. destruct (listed g) as [|[k c] rest] eqn:EL.
  - cbn [bind check_validity]. assert (NE : forall t, connected_edges g t = []) by (intros t; unfold connected_edges; rewrite EL; reflexivity).
    assert (G : forall ts zs b, (forall t, In t ts -> (t < length (vertices g))%nat) -> exists r, set_normalization g (fun t => if (t <? length (vertices g))%nat then Some 1 else None) ts zs b = Ok (Some r)).
    { induction ts as [|t ts IH]; intros zs b H; cbn [set_normalization]; [eauto|]. destruct (Nat.ltb_spec t (length (vertices g))) as [|X]; [|specialize (H t (or_introl eq_refl)); lia].
      cbn [Z.ltb Z.compare cassert bind]. rewrite NE. cbn [set_coefficients bind]. apply IH. intros; apply H; right; assumption. }
    destruct (G (tasks g) [] no_alpha) as [[zs al] E]; [intros t Ht; apply in_seq in Ht; lia|]. eauto.
  - assert (C : chan k c) by (apply listed_in; rewrite EL; left; reflexivity).
    assert (HC : forall x, (x < n)%nat -> has_channel g x). { destruct NL as [E|H]; [|exact H]. apply chan_in in C. rewrite E in C. destruct C. }
    destruct (first_alpha_ok k c C) as (q & Eq & Qp). rewrite Eq. cbn [bind]. cbn zeta. rewrite <- EL.
    destruct (ends _ _ C) as [Hs Hd].
    set (all := fun t : nat => (t <? length (vertices g))%nat).
    assert (I0 : inv no_alpha all (fun _ => false)).
    { constructor; unfold no_alpha; try discriminate; [|intros t Ht; apply Nat.ltb_lt, Ht].
      intros t k' c' Ht Ut. exfalso. unfold all in Ut. apply Nat.ltb_ge in Ut. unfold n in Ht. lia. }
    pose proof (start_inv no_alpha all k c q I0 C (proj2 (Nat.ltb_lt _ _) Hs) (proj2 (Nat.ltb_lt _ _) Hd) Qp) as I1.
    destruct (spread_ok fuel _ _ _ ltac:(etransitivity; [|exact HF]; unfold pending; etransitivity; [apply filter_short|unfold tasks; rewrite seq_length; apply le_n]) I1 HC) as (al & ES & FU).
    { left. exists (e_dst c). unfold tadd. rewrite Nat.eqb_refl. reflexivity. }
    rewrite ES. cbn [bind].
    destruct (collect_ok al (listed g) FU (fun k' c' Hin => proj1 (listed_in g k' c') Hin) (fun _ => None)) as (z & EC & W & _ & K); [intros ? ? [=]|].
    rewrite EC. cbn [bind].
    assert (A : forall t, (t < n)%nat -> z t <> None).
    { intros t Ht. destruct (HC t Ht) as (c' & Hc' & T). apply In_nth_error in Hc' as [k' Hk']. apply (K k' c' t); [apply listed_in, Hk'|exact T]. }
    assert (forallb (fun t => match z t with Some _ => true | None => false end) (tasks g) = true) as ->.
    { apply forallb_forall. intros t Ht. apply in_seq in Ht. destruct (z t) eqn:Zt; [reflexivity|]. exfalso. apply (A t); [unfold n; lia|exact Zt]. }
    cbn [cassert bind].
    rewrite (check_good z (listed g)); [|intros k' c' Hin; apply (channel_good al z k'); auto; apply listed_in, Hin]. cbn [bind].
    destruct (set_normalization_good al z (tasks g) FU W A ltac:(intros t Ht; apply in_seq in Ht; unfold n; lia) [] no_alpha) as [[zs b] E]. eauto.
Qed.
End Done.
