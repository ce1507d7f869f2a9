(** Proofs about joining the outputs of a task: the loop. *)
From Coq Require Import QArith Ascii String Permutation Relations.
From Verif Require Import Base Graph Builder BuilderProofs SingleOutput SingleOutputSpec SingleOutputProofs.
Open Scope Z_scope.

(** The names given to the new tasks differ. *)
Fixpoint number (i : nat) (x : string) : nat :=
  match x with EmptyString => i | String c x' => number (10 * i + (nat_of_ascii c - 48)) x' end.
Lemma digit_value k : (k < 10)%nat -> (nat_of_ascii (ascii_of_nat (48 + k)) - 48 = k)%nat.
Proof. intros H. rewrite nat_ascii_embedding by lia. lia. Qed.
Lemma digits_number : forall f n acc, (n <= f)%nat -> number 0 (digits f n acc) = number n acc.
Proof.
  induction f as [|f IH]; intros n acc H.
  - assert (n = 0)%nat by lia. subst. reflexivity.
  - cbn [digits]. destruct (Nat.ltb_spec n 10) as [L|L].
    + cbn [number]. rewrite Nat.mod_small, digit_value by exact L. f_equal.
    + assert (M : (n mod 10 < 10)%nat) by (apply Nat.mod_upper_bound; lia). pose proof (Nat.div_mod n 10 ltac:(lia)) as DM. rewrite IH by (assert (n / 10 < n)%nat by (apply Nat.div_lt; lia); lia).
      cbn [number]. rewrite digit_value by exact M. f_equal. lia.
Qed.
Lemma append_inj a : forall x y, (a ++ x)%string = (a ++ y)%string -> x = y.
Proof. induction a as [|c a IH]; intros x y E; [exact E|]. injection E as E. apply IH, E. Qed.
Lemma dup_name_inj n k k' : dup_name n k = dup_name n k' -> k = k'.
Proof.
  unfold dup_name. intros E. apply append_inj in E. apply (append_inj "_Dup"%string) in E. apply (f_equal (number 0)) in E. rewrite !digits_number in E by lia. exact E.
Qed.

(** Removing two channels. *)
Lemma remove_perm es c : NoDup (map be_handle es) -> In c es -> Permutation es (c :: filter (fun e => negb (be_handle e =? be_handle c)%nat) es).
Proof.
  intros ND Hc. apply in_split in Hc as (l1 & l2 & ->). rewrite map_app in ND. cbn in ND. apply NoDup_remove_2 in ND. rewrite <- map_app in ND.
  rewrite filter_app. cbn. rewrite Nat.eqb_refl. cbn. rewrite <- filter_app, filter_all; [symmetry; apply Permutation_middle|].
  intros x Hx. apply negb_true_iff, Nat.eqb_neq. intros Q. apply ND. rewrite <- Q. apply in_map, Hx.
Qed.
Lemma filter_comm {A} (f g : A -> bool) l : filter f (filter g l) = filter g (filter f l).
Proof. induction l as [|x l IH]; [reflexivity|]. cbn. destruct (f x) eqn:F, (g x) eqn:G; cbn; rewrite ?F, ?G; congruence. Qed.
Lemma filter_handles f es : NoDup (map be_handle es) -> NoDup (map be_handle (filter f es)).
Proof.
  induction es as [|e l IH]; intros ND; cbn in *; [constructor|]. inversion ND as [|? ? A B]; subst. destruct (f e); [|auto]. cbn. constructor; [|auto]. intros J. apply A. apply in_map_iff in J as (x & <- & Jx). apply in_map. apply filter_In in Jx. tauto.
Qed.
Lemma cut_perm es c1 c2 : NoDup (map be_handle es) -> In c1 es -> In c2 es -> be_handle c1 <> be_handle c2 -> Permutation es (c1 :: c2 :: cut c1 c2 es).
Proof.
  intros ND H1 H2 Ne. rewrite (remove_perm es c1 ND H1) at 1. apply Permutation_cons; [reflexivity|]. apply remove_perm; [apply filter_handles, ND|]. apply filter_In. split; [exact H2|]. apply negb_true_iff, Nat.eqb_neq. auto.
Qed.
Lemma handle_inj es x y : NoDup (map be_handle es) -> In x es -> In y es -> be_handle x = be_handle y -> x = y.
Proof.
  induction es as [|e l IH]; intros ND Hx Hy E; [destruct Hx|]. cbn in ND. inversion ND as [|? ? A B]; subst. destruct Hx as [->|Hx], Hy as [->|Hy]; auto.
  - exfalso. apply A. rewrite E. apply in_map, Hy.
  - exfalso. apply A. rewrite <- E. apply in_map, Hx.
Qed.
Lemma remove_filter f es c : NoDup (map be_handle es) -> In c es -> f c = false -> filter f (filter (fun e => negb (be_handle e =? be_handle c)%nat) es) = filter f es.
Proof.
  intros ND Hc Fc. rewrite filter_comm. apply filter_all. intros x Hx. apply filter_In in Hx as [Ix Fx]. apply negb_true_iff, Nat.eqb_neq. intros Q. rewrite (handle_inj es x c) in Fx; auto. congruence.
Qed.
Lemma cut_filter f es c1 c2 : NoDup (map be_handle es) -> In c1 es -> In c2 es -> be_handle c1 <> be_handle c2 -> f c1 = false -> f c2 = false -> filter f (cut c1 c2 es) = filter f es.
Proof.
  intros ND H1 H2 Ne F1 F2. unfold cut. rewrite remove_filter; [apply remove_filter; auto|apply filter_handles, ND| |exact F2].
  apply filter_In. split; [exact H2|]. apply negb_true_iff, Nat.eqb_neq. auto.
Qed.
Lemma cut_head c1 c2 r : NoDup (map be_handle (c1 :: c2 :: r)) -> cut c1 c2 (c1 :: c2 :: r) = r.
Proof.
  intros ND. unfold cut. cbn [filter]. rewrite Nat.eqb_refl. cbn [negb]. cbn [map] in ND. inversion ND as [|? ? A B]; subst. inversion B as [|? ? C D]; subst.
  destruct (Nat.eqb_spec (be_handle c2) (be_handle c1)) as [Q|Q]; [exfalso; apply A; left; auto|]. cbn [negb filter]. rewrite Nat.eqb_refl. cbn [negb].
  assert (E1 : filter (fun e => negb (be_handle e =? be_handle c1)%nat) r = r) by (apply filter_all; intros x Hx; apply negb_true_iff, Nat.eqb_neq; intros E; apply A; right; rewrite <- E; apply in_map, Hx).
  rewrite E1. apply filter_all. intros x Hx. apply negb_true_iff, Nat.eqb_neq. intros E. apply C. rewrite <- E. apply in_map, Hx.
Qed.
Lemma cut_outputs t s c1 c2 r : inv s -> outputs t s = c1 :: c2 :: r -> filter (fun e => (be_src e =? t)%nat) (cut c1 c2 (s_es s)) = r.
Proof.
  intros I E. unfold cut. rewrite filter_comm, (filter_comm _ _ (s_es s)). fold (outputs t s). rewrite E. apply cut_head. rewrite <- E. apply filter_handles, (inv_handles s I).
Qed.
Lemma filter_perm {A} (f : A -> bool) l l' : Permutation l l' -> Permutation (filter f l) (filter f l').
Proof.
  induction 1 as [|x l l' P IH|x y l|l l' l'' P1 IH1 P2 IH2]; cbn.
  - constructor.
  - destruct (f x); [constructor|]; exact IH.
  - destruct (f x), (f y); try apply perm_swap; reflexivity.
  - etransitivity; eauto.
Qed.

Section Loop.
Variable s0 : state.
Variable t : nat.
Let n0 := length (s_vs s0).
Hypothesis Ht : (t < n0)%nat.
Hypothesis I0 : inv s0.
Definition from_t (e : bedge) : bool := (be_src e =? t)%nat || (n0 <=? be_src e)%nat.
Definition old (e : bedge) : bool := (be_dst e <? n0)%nat.

Record prog (s : state) : Prop := mkProg {
  p_inv : inv s;
  p_tasks : exists vs cs, s_vs s = vs ++ cs /\ Forall2 kept (s_vs s0) vs /\ (forall b, In b cs -> copier b) /\ (length cs + length (outputs t s) = length (outputs t s0))%nat /\
     exists o d, outputs t s = o ++ d /\ (forall e, In e d -> plain e) /\ (cs <> [] -> d <> []);
  p_others : filter (fun e => negb (from_t e)) (s_es s) = filter (fun e => negb (be_src e =? t)%nat) (s_es s0);
  p_copy : forall d, (n0 <= d < length (s_vs s))%nat -> length (filter (fun e => (be_dst e =? d)%nat) (s_es s)) = 1%nat /\ length (outputs d s) = 2%nat;
  p_plain : forall e, In e (s_es s) -> (n0 <= be_src e)%nat -> plain e;
  p_from : forall e, In e (s_es s) -> (n0 <= be_dst e)%nat -> be_src e = t \/ (be_dst e < be_src e)%nat;
  p_targets : Permutation (map be_dst (outputs t s0)) (map be_dst (filter old (filter from_t (s_es s)))) }.

Lemma outputs_in u s e : In e (outputs u s) <-> In e (s_es s) /\ be_src e = u.
Proof. unfold outputs. rewrite filter_In, Nat.eqb_eq. tauto. Qed.
Lemma prog_start : prog s0.
Proof.
  constructor.
  - exact I0.
  - exists (s_vs s0), []. split; [rewrite app_nil_r; reflexivity|]. split; [apply kepts_refl|]. split; [intros b []|]. split; [reflexivity|]. exists (outputs t s0), []. split; [rewrite app_nil_r; reflexivity|]. split; [intros e []|auto].
  - apply filter_ext_in. intros e He. unfold from_t. pose proof (proj1 (inv_ends s0 I0 e He)) as Q. fold n0 in Q. rewrite (proj2 (Nat.leb_gt _ _) Q). rewrite orb_false_r. reflexivity.
  - fold n0. intros d Hd. lia.
  - intros e He Q. pose proof (proj1 (inv_ends s0 I0 e He)). unfold n0 in Q. lia.
  - intros e He Q. pose proof (proj2 (inv_ends s0 I0 e He)). unfold n0 in Q. lia.
  - rewrite (filter_all old).
    + unfold outputs. erewrite filter_ext_in; [reflexivity|]. intros e He. unfold from_t. pose proof (proj1 (inv_ends s0 I0 e He)) as Q. fold n0 in Q. rewrite (proj2 (Nat.leb_gt _ _) Q). rewrite orb_false_r. reflexivity.
    + intros e He. apply filter_In in He as [He _]. apply Nat.ltb_lt. apply (proj2 (inv_ends s0 I0 e He)).
Qed.

Lemma prog_size s : prog s -> (n0 <= length (s_vs s))%nat.
Proof. intros P. destruct (p_tasks s P) as (vs & cs & -> & K & _). rewrite app_length, (kepts_length _ _ K). unfold n0. lia. Qed.
Lemma prog_step s s' c1 c2 r b id id1 id2 : prog s -> outputs t s = c1 :: c2 :: r -> copier b -> Forall2 kept (s_vs s ++ [b]) (s_vs s') ->
  s_es s' = cut c1 c2 (s_es s) ++ [unit_edge (s_next s) t (length (s_vs s)) id; unit_edge (S (s_next s)) (length (s_vs s)) (be_dst c1) id1; unit_edge (S (S (s_next s))) (length (s_vs s)) (be_dst c2) id2] ->
  inv s' -> prog s'.
Proof.
  intros P Eo Cb K E I'. pose proof (prog_size s P) as Hn. set (n := length (s_vs s)) in *.
  pose proof (p_inv s P) as I.
  assert (J1 : In c1 (s_es s) /\ be_src c1 = t) by (apply outputs_in; rewrite Eo; left; reflexivity). assert (J2 : In c2 (s_es s) /\ be_src c2 = t) by (apply outputs_in; rewrite Eo; right; left; reflexivity).
  destruct J1 as [J1 S1], J2 as [J2 S2]. pose proof (inv_handles s I) as ND. pose proof (inv_ends s I) as Ends. fold n in Ends.
  assert (NDo : NoDup (map be_handle (outputs t s))) by apply filter_handles, ND.
  assert (Ne : be_handle c1 <> be_handle c2) by (rewrite Eo in NDo; cbn in NDo; inversion NDo as [|? ? A _]; subst; intros Q; apply A; left; auto).
  pose proof (cut_perm _ _ _ ND J1 J2 Ne) as Pm. assert (Inc : forall e, In e (cut c1 c2 (s_es s)) -> In e (s_es s)) by (intros e He; unfold cut in He; apply filter_In in He as [He _]; apply filter_In in He; tauto).
  assert (Eo' : outputs t s' = r ++ [unit_edge (s_next s) t n id]).
  { unfold outputs. rewrite E, filter_app, (cut_outputs t s c1 c2 r I Eo). cbn. rewrite Nat.eqb_refl. destruct (Nat.eqb_spec n t); [lia|]. reflexivity. }
  assert (Fc : forall c, be_src c = t -> from_t c = true) by (intros c Q; unfold from_t; rewrite Q, Nat.eqb_refl; reflexivity).
  assert (Fn : forall c, be_src c = n -> from_t c = true) by (intros c Q; unfold from_t; rewrite Q, (proj2 (Nat.leb_le n0 n) Hn); apply orb_true_r).
  assert (Lv : length (s_vs s') = S n) by (rewrite (kepts_length _ _ K), app_length; cbn; unfold n; lia).
  constructor.
  - exact I'.
  - destruct (p_tasks s P) as (vs & cs & Ev & Kv & Cc & Len & o & d & Eod & Pd & Dn). apply kepts_app_split in K as (w & b' & Ew & Kw & Kb). rewrite Ev in Kw. apply kepts_app_split in Kw as (vs' & cs' & -> & Kv' & Kc).
    assert (b' = [b]) by (inversion Kb as [|? ? ? ? Kb1 Kb2]; subst; inversion Kb2; subst; f_equal; apply kept_copier; assumption). subst b'.
    assert (cs' = cs). { clear - Kc Cc. induction Kc as [|x y l l' Kx Kl IH]; [reflexivity|]. f_equal; [apply kept_copier; [apply Cc; left; reflexivity|exact Kx]|apply IH; intros z Hz; apply Cc; right; exact Hz]. }
    subst cs'. exists vs', (cs ++ [b]). split; [rewrite Ew, app_assoc; reflexivity|]. split; [eapply kepts_trans; eauto|]. split; [intros x Hx; apply in_app_iff in Hx as [Hx|[<-|[]]]; auto|].
    split; [rewrite Eo', !app_length; rewrite Eo in Len; cbn in *; lia|].
    rewrite Eo in Eod. assert (Sp : exists o' d', r = o' ++ d' /\ forall e, In e d' -> In e d).
    { destruct o as [|x [|y o]]; cbn in Eod.
      - destruct d as [|x [|y d]]; try discriminate. injection Eod as -> -> ->. exists [], d. split; [reflexivity|]. intros e He. right. right. exact He.
      - destruct d as [|y d]; try discriminate. injection Eod as -> -> ->. exists [], d. split; [reflexivity|]. intros e He. right. exact He.
      - injection Eod as -> -> ->. exists o, d. auto. }
    destruct Sp as (o' & d' & -> & Sub). exists o', (d' ++ [unit_edge (s_next s) t n id]). split; [rewrite Eo', app_assoc; reflexivity|]. split.
    + intros e He. apply in_app_iff in He as [He|[<-|[]]]; [auto|]. repeat split.
    + intros _. destruct d'; discriminate.
  - rewrite <- (p_others s P), E, filter_app, cut_filter; auto; try (rewrite Fc; auto).
    cbn [filter]. rewrite (Fc (unit_edge _ t n id)), !Fn by reflexivity. cbn. rewrite app_nil_r. reflexivity.
  - intros d Hd. rewrite Lv in Hd. unfold outputs. rewrite E, !filter_app, !app_length.
    assert (Pi : Permutation (filter (fun e => (be_dst e =? d)%nat) (s_es s)) (filter (fun e => (be_dst e =? d)%nat) (c1 :: c2 :: cut c1 c2 (s_es s)))) by apply filter_perm, Pm. apply Permutation_length in Pi. cbn [filter] in *. cbn [unit_edge be_src be_dst].
    rewrite (cut_filter (fun e => (be_src e =? d)%nat)); auto; try (apply Nat.eqb_neq; lia). fold (outputs d s).
    destruct (Nat.eq_dec d n) as [->|Ned].
    + assert (Z1 : filter (fun e => (be_dst e =? n)%nat) (cut c1 c2 (s_es s)) = []). { destruct (filter _ (cut _ _ _)) as [|x l] eqn:F; [reflexivity|]. assert (Jx : In x (filter (fun e => (be_dst e =? n)%nat) (cut c1 c2 (s_es s)))) by (rewrite F; left; reflexivity). apply filter_In in Jx as [Jx Q]. apply Nat.eqb_eq in Q. destruct (Ends x (Inc x Jx)). lia. }
      assert (Z2 : outputs n s = []). { destruct (outputs n s) as [|x l] eqn:F; [reflexivity|]. assert (Jx : In x (outputs n s)) by (rewrite F; left; reflexivity). apply outputs_in in Jx as [Jx Q]. destruct (Ends x Jx). lia. }
      rewrite Z1, Z2, Nat.eqb_refl. destruct (Ends c1 J1), (Ends c2 J2). rewrite (proj2 (Nat.eqb_neq t n)) by lia. rewrite (proj2 (Nat.eqb_neq (be_dst c1) n)), (proj2 (Nat.eqb_neq (be_dst c2) n)) by lia. cbn. auto.
    + destruct (p_copy s P d ltac:(unfold n in *; lia)) as [Q1 Q2]. rewrite Q1 in Pi. rewrite Q2. rewrite (proj2 (Nat.eqb_neq t d)), (proj2 (Nat.eqb_neq n d)) by lia.
      destruct (be_dst c1 =? d)%nat, (be_dst c2 =? d)%nat; cbn in *; lia.
  - intros e He Q. rewrite E in He. apply in_app_iff in He as [He|[<-|[<-|[<-|[]]]]]; [apply (p_plain s P e); auto| | |]; repeat split.
  - intros e He Q. rewrite E in He. apply in_app_iff in He as [He|[<-|[<-|[<-|[]]]]]; [apply (p_from s P e); auto| | |]; cbn; [left; reflexivity|right; apply (Ends c1 J1)|right; apply (Ends c2 J2)].
  - etransitivity; [apply (p_targets s P)|]. rewrite E, !filter_app, map_app. cbn [filter]. rewrite (Fc (unit_edge _ t n id)), !Fn by reflexivity.
    etransitivity; [apply Permutation_map, filter_perm, filter_perm, Pm|]. cbn [filter]. rewrite !Fc by assumption. 
    assert (O1 : old (unit_edge (s_next s) t n id) = false) by (unfold old; cbn [unit_edge be_dst]; apply Nat.ltb_ge, Hn).
    assert (O2 : forall h i0, old (unit_edge h n (be_dst c1) i0) = old c1) by reflexivity. assert (O3 : forall h i0, old (unit_edge h n (be_dst c2) i0) = old c2) by reflexivity.
    cbn [filter]. rewrite O1, O2, O3. rewrite Permutation_app_comm. destruct (old c1), (old c2); reflexivity.
Qed.

(** When there is at most one output left. *)
Lemma prog_end s : prog s -> (2 <= length (outputs t s0))%nat -> (length (outputs t s) <= 1)%nat -> forked s0 t s.
Proof.
  intros P H2 H1. destruct (p_tasks s P) as (vs & cs & Ev & Kv & Cc & Len & o & d & Eod & Pd & Dn).
  assert (Hc : cs <> []) by (intros ->; cbn in Len; lia). specialize (Dn Hc). assert (Ed : exists x, outputs t s = [x] /\ plain x).
  { rewrite Eod in *. rewrite app_length in H1. destruct d as [|x [|y d]]; [contradiction| |cbn in H1; lia]. destruct o; [|cbn in H1; lia]. exists x. split; [reflexivity|apply Pd; left; reflexivity]. }
  destruct Ed as (x & Ex & Px). constructor.
  - exists vs, cs. split; [exact Ev|]. split; [exact Kv|]. split; [rewrite Ex in Len; cbn in Len; lia|exact Cc].
  - apply (p_others s P).
  - rewrite Ex. reflexivity.
  - apply (p_copy s P).
  - fold n0. intros y Hy. remember (length (s_vs s) - y)%nat as k eqn:Ek. revert y Hy Ek. induction k as [k IH] using lt_wf_ind. intros y Hy ->.
    destruct (p_copy s P y Hy) as [Q _]. destruct (filter _ _) as [|e l] eqn:F in Q; [discriminate|]. assert (Je : In e (s_es s) /\ be_dst e = y). { rewrite <- Nat.eqb_eq. apply (filter_In (fun e => (be_dst e =? y)%nat)). rewrite F. left. reflexivity. }
    destruct Je as [Je De]. destruct (p_from s P e Je ltac:(lia)) as [S|S].
    + apply t_step. split; [lia|]. exists e. auto.
    + pose proof (proj1 (inv_ends s (p_inv s P) e Je)) as L. eapply t_trans.
      * apply (IH (length (s_vs s) - be_src e)%nat) with (y := be_src e); [lia|lia|reflexivity].
      * apply t_step. split; [lia|]. exists e. auto.
  - intros e He. unfold beyond in He. apply filter_In in He as [He Q]. fold n0 in Q. apply orb_true_iff in Q as [Q|Q].
    + apply Nat.eqb_eq in Q. assert (J : In e (outputs t s)) by (apply outputs_in; auto). rewrite Ex in J. destruct J as [<-|[]]. exact Px.
    + apply Nat.leb_le in Q. apply (p_plain s P e He Q).
  - apply (p_targets s P).
Qed.

Variable bt : bvertex.
Hypothesis Et : nth_error (s_vs s0) t = Some bt.
Definition refused : Prop := s_readonly s0 = true \/ (exists k, ~ fresh s0 (dup_name (bv_name bt) k)) \/ ~ fits s0 t \/ exists e, In e (outputs t s0) /\ ~ fits s0 (be_dst e).
Lemma fits_old s v : prog s -> fits s0 v -> (v < n0)%nat -> fits s v.
Proof.
  intros P F Hv b Hb. destruct (p_tasks s P) as (vs & cs & Ev & Kv & _). rewrite Ev, nth_error_app1 in Hb by (rewrite (kepts_length _ _ Kv); exact Hv).
  destruct (kepts_nth _ _ Kv v b Hb) as (a & Ea & [->|[_ ->]]); [apply F, Ea|cbn; lia].
Qed.
Lemma fits_new s v : prog s -> (n0 <= v)%nat -> fits s v.
Proof.
  intros P Hv b Hb. destruct (p_tasks s P) as (vs & cs & Ev & Kv & Cc & _). rewrite Ev, nth_error_app2 in Hb by (rewrite (kepts_length _ _ Kv); exact Hv). apply nth_error_In in Hb. destruct (Cc b Hb) as (Q & _). lia.
Qed.
Lemma loop_run : forall fuel cnt s, prog s -> map bv_name (s_vs s) = map bv_name (s_vs s0) ++ map (dup_name (bv_name bt)) (seq 0 cnt) -> (s_readonly s = true -> s_readonly s0 = true) ->
  (length (outputs t s) <= S fuel)%nat -> outcome_of (dup_loop fuel t cnt) s (fun _ s' => prog s' /\ (length (outputs t s') <= 1)%nat) refused.
Proof.
  induction fuel as [|fuel IH]; intros cnt s P Nm Ro L.
  - cbn [dup_loop]. eapply oc_bind with (post := fun x s' => x = s /\ s' = s) (failure := False); [unfold outcome_of; cbn; auto|intros []|]. intros ? ? [-> ->]. rewrite (proj2 (Nat.ltb_ge _ _) L). unfold outcome_of, ret. auto.
  - cbn [dup_loop]. eapply oc_bind with (post := fun x s' => x = s /\ s' = s) (failure := False); [unfold outcome_of; cbn; auto|intros []|]. intros ? ? [-> ->].
    destruct (Nat.ltb_spec 1 (length (outputs t s))) as [Q|Q]; [|unfold outcome_of, ret; auto].
    destruct (outputs t s) as [|c1 [|c2 r]] eqn:Eo; try (cbn in Q; lia).
    assert (Eb : exists b, nth_error (s_vs s) t = Some b /\ bv_name b = bv_name bt).
    { destruct (p_tasks s P) as (vs & cs & Ev & Kv & _). assert (L1 : (t < length vs)%nat) by (rewrite (kepts_length _ _ Kv); exact Ht). destruct (nth_error vs t) as [b|] eqn:E; [|apply nth_error_None in E; lia].
      exists b. split; [rewrite Ev, nth_error_app1 by exact L1; exact E|]. destruct (kepts_nth _ _ Kv t b E) as (a & Ea & Kab). rewrite Et in Ea. injection Ea as <-. destruct Kab as [->|[_ ->]]; reflexivity. }
    destruct Eb as (b & Eb & Nb).
    assert (Tg : forall c, In c (outputs t s) -> ~ fits s (be_dst c) -> exists e, In e (outputs t s0) /\ ~ fits s0 (be_dst e)).
    { intros c Hc F. destruct (Nat.lt_ge_cases (be_dst c) n0) as [Lc|Lc]; [|destruct F; apply fits_new; auto].
      assert (J : In (be_dst c) (map be_dst (outputs t s0))).
      { eapply Permutation_in; [symmetry; apply (p_targets s P)|]. apply in_map. apply outputs_in in Hc as [Hc Sc]. apply filter_In. split; [apply filter_In; split; [exact Hc|unfold from_t; rewrite Sc, Nat.eqb_refl; reflexivity]|apply Nat.ltb_lt, Lc]. }
      apply in_map_iff in J as (e & Ee & Je). exists e. split; [exact Je|]. rewrite Ee. intros F0. apply F, fits_old; auto. }
    eapply oc_bind; [apply (oc_step t cnt s c1 c2 r b); [apply (p_inv s P)|exact Eb|exact Eo]| |].
    + rewrite Nb. intros [F|[F|[F|[F|F]]]].
      * left. auto.
      * right. left. exists cnt. intros Fr. apply F. intros x Hx Ex. assert (J : In (bv_name x) (map bv_name (s_vs s))) by apply in_map, Hx. rewrite Nm, Ex in J. apply in_app_iff in J as [J|J].
        -- apply in_map_iff in J as (y & Ey & Jy). apply (Fr y Jy Ey).
        -- apply in_map_iff in J as (k & Ek & Jk). apply dup_name_inj in Ek. apply in_seq in Jk. lia.
      * right. right. left. intros F0. apply F, fits_old; auto.
      * right. right. right. apply (Tg c1); [rewrite Eo; left; reflexivity|exact F].
      * right. right. right. apply (Tg c2); [rewrite Eo; right; left; reflexivity|exact F].
    + intros _ s' ((b' & Cb & Nb' & K) & (id & id1 & id2 & E) & R' & I'). pose proof (prog_step s s' c1 c2 r b' id id1 id2 P Eo Cb K E I') as P'.
      apply IH; [exact P'| |congruence|].
      * rewrite (kepts_names _ _ K), map_app, Nm. cbn [map]. rewrite Nb', Nb, <- app_assoc. f_equal. rewrite seq_S, map_app. reflexivity.
      * destruct (p_tasks s P) as (vs & cs & Ev & Kv & _ & Len & _). destruct (p_tasks s' P') as (vs' & cs' & Ev' & Kv' & _ & Len' & _).
        assert (length (s_vs s') = S (length (s_vs s))) by (rewrite (kepts_length _ _ K), app_length; cbn; lia). rewrite Ev, Ev', !app_length, (kepts_length _ _ Kv), (kepts_length _ _ Kv') in H. rewrite Eo in *. cbn in *. lia.
Qed.
End Loop.
