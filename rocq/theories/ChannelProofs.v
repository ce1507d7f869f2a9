(** Proofs about the step size and the least size of a channel. *)
From Coq Require Import QArith.
From Verif Require Import Base Graph Storage ScheduleSpec ChannelSpec.
Open Scope Z_scope.

(** ** The step *)
Lemma fold_gcd_divides : forall l a, (fold_left Z.gcd l a | a) /\ forall r, In r l -> (fold_left Z.gcd l a | r).
Proof.
  induction l as [|x l IH]; intros a; cbn [fold_left]; [split; [exists 1; ring|intros ? []]|]. destruct (IH (Z.gcd a x)) as [A B]. split.
  - etransitivity; [exact A|apply Z.gcd_divide_l].
  - intros r [<-|Hr]; [etransitivity; [exact A|apply Z.gcd_divide_r]|auto].
Qed.
Lemma fold_gcd_greatest h : forall l a, (h | a) -> (forall r, In r l -> (h | r)) -> (h | fold_left Z.gcd l a).
Proof. induction l as [|x l IH]; intros a A B; [exact A|]. cbn. apply IH; [apply Z.gcd_greatest; [exact A|apply B; left; reflexivity]|intros; apply B; right; auto]. Qed.
Lemma fold_gcd_nonneg : forall l a, 0 <= a \/ l <> [] -> 0 <= fold_left Z.gcd l a.
Proof. induction l as [|x l IH]; intros a [H|H]; cbn; try exact H; try congruence; apply IH; left; apply Z.gcd_nonneg. Qed.
Lemma min_step_gcd c g : min_step c = Ok g -> 0 <= g /\ (forall r, In r (e_in c ++ e_out c) -> (g | r)) /\ (forall h, (forall r, In r (e_in c ++ e_out c) -> (h | r)) -> (h | g)).
Proof.
  unfold min_step. destruct (e_in c) as [|r0 l] eqn:E; [discriminate|]. intros H. injection H as <-. set (a := fold_left Z.gcd (r0 :: l) r0). 
  assert (A0 : 0 <= a) by (apply fold_gcd_nonneg; right; discriminate). destruct (fold_gcd_divides (e_out c) a) as [D1 D2]. destruct (fold_gcd_divides (r0 :: l) r0) as [_ D3]. fold a in D3.
  change (fold_left Z.gcd l (Z.gcd r0 r0)) with a. split; [|split].
  - apply fold_gcd_nonneg. left. exact A0.
  - intros r Hr. apply in_app_iff in Hr as [Hr|Hr]; [etransitivity; [exact D1|auto]|auto].
  - intros h H. apply fold_gcd_greatest; [|intros; apply H, in_app_iff; auto]. apply fold_gcd_greatest; [apply H; left; reflexivity|]. intros r Hr. apply H, in_app_iff. auto.
Qed.
Lemma cyclic_in l m : l <> [] -> In (cyclic 0 [] l m) l.
Proof.
  intros N. unfold cyclic. cbn [length]. replace (m <? 0)%nat with false by (destruct m; reflexivity). apply nth_In. apply Nat.mod_upper_bound. destruct l; [congruence|discriminate].
Qed.
Lemma rates_multiple c g : periodic_channel c -> e_in c <> [] -> e_out c <> [] -> (forall r, In r (e_in c ++ e_out c) -> (g | r)) ->
  forall m, (g | prod_rate c m) /\ (g | cons_rate c m).
Proof.
  intros [P1 P2] N1 N2 D m. unfold prod_rate, cons_rate. rewrite P1, P2. split; apply D, in_app_iff; [left|right]; apply cyclic_in; assumption.
Qed.
Lemma firings_multiple c g cap : (forall m, (g | prod_rate c m) /\ (g | cons_rate c m)) -> forall n s s', firings c cap n s s' -> (g | tokens s' - tokens s).
Proof.
  intros D n s s' F. induction F as [s|n s s' s'' F IH H]; [exists 0; ring|]. destruct H as [[_ ->]|[_ ->]]; cbn [tokens].
  - replace (tokens s' + prod_rate c (produced s') - tokens s) with (tokens s' - tokens s + prod_rate c (produced s')) by ring. apply Z.divide_add_r; [exact IH|apply D].
  - replace (tokens s' - cons_rate c (consumed s') - tokens s) with (tokens s' - tokens s - cons_rate c (consumed s')) by ring. apply Z.divide_sub_r; [exact IH|apply D].
Qed.
Lemma same_step_le g t0 x cap cap' : 0 < g -> (g | x - t0) -> (cap - t0) / g = (cap' - t0) / g -> x <= cap -> x <= cap'.
Proof.
  intros G [m E] Q L. assert (m <= (cap - t0) / g) by (apply Z.div_le_lower_bound; lia). rewrite Q in H. pose proof (Z.mul_div_le (cap' - t0) g G). nia.
Qed.
Lemma firings_same_step c g cap cap' : 0 < g -> (forall m, (g | prod_rate c m) /\ (g | cons_rate c m)) -> forall n s s',
  (cap - tokens s) / g = (cap' - tokens s) / g -> firings c cap n s s' -> firings c cap' n s s'.
Proof.
  intros G D n s s' Q F. induction F as [s|n s s' s'' F IH H]; [constructor|]. specialize (IH Q). econstructor; [exact IH|]. pose proof (firings_multiple c g cap D n s s' F) as M.
  destruct H as [[L E]|[L E]]; [left|right]; (split; [|exact E]); [|exact L]. eapply (same_step_le g (tokens s)); eauto.
  replace (tokens s' + prod_rate c (produced s') - tokens s) with (tokens s' - tokens s + prod_rate c (produced s')) by ring. apply Z.divide_add_r; [exact M|apply D].
Qed.

(** ** The least size of a channel with one rate on each side *)
Lemma sdf_rates c p q : sdf_channel c p q -> forall m, prod_rate c m = p /\ cons_rate c m = q.
Proof.
  intros ((A & B) & C & D & _) m. unfold prod_rate, cons_rate. rewrite A, B, C, D. unfold cyclic. cbn [length]. replace (m <? 0)%nat with false by (destruct m; reflexivity). rewrite Nat.mod_1_r. split; reflexivity.
Qed.
Lemma min_channel_sdf c p q : sdf_channel c p q -> 0 <= e_preload c -> p + q <= int_max -> e_preload c <= int_max ->
  min_channel c = Ok (e_preload c, Z.max (p + q - Z.gcd p q + e_preload c mod Z.gcd p q) (e_preload c)) \/
  (p + q - Z.gcd p q + e_preload c mod Z.gcd p q >= int_max \/ e_preload c >= int_max) /\ min_channel c = Ok (e_preload c, int_max).
Proof.
  intros (_ & C & D & P & Q) T L1 L2. unfold min_channel. rewrite C, D. cbn [length Nat.gcd]. cbn. unfold channel_bound.
  assert (G : 0 < Z.gcd p q) by (pose proof (Z.gcd_nonneg p q); pose proof (Z.gcd_eq_0_l p q); lia). destruct (Z.eqb_spec (Z.gcd p q) 0) as [|_]; [lia|]. cbn [negb].
  rewrite Z.rem_mod_nonneg by lia. set (lower := p + q - Z.gcd p q + e_preload c mod Z.gcd p q). rewrite Z.gtb_ltb. destruct (Z.ltb_spec (e_preload c) lower) as [L|L].
  - rewrite Z.max_l by lia. destruct (Z.ltb_spec lower int_max); [left; reflexivity|right; split; [lia|reflexivity]].
  - rewrite Z.max_r by lia. destruct (Z.ltb_spec (e_preload c) int_max); [left; reflexivity|right; split; [lia|reflexivity]].
Qed.
(** Enough room: a firing is always possible. *)
Lemma sdf_live c p q cap : sdf_channel c p q -> p + q - Z.gcd p q + e_preload c mod Z.gcd p q <= cap -> forall n s, firings c cap n (start c) s -> exists s', fires c cap s s'.
Proof.
  intros S L n s F. pose proof (sdf_rates c p q S) as R. destruct S as (_ & _ & _ & P & Q). set (g := Z.gcd p q) in *.
  assert (G : 0 < g) by (pose proof (Z.gcd_nonneg p q); pose proof (Z.gcd_eq_0_l p q); unfold g in *; lia).
  destruct (Z.gcd_divide_l p q) as [a Ea]. destruct (Z.gcd_divide_r p q) as [b Eb]. fold g in Ea, Eb.
  assert (D : (g | tokens s - e_preload c)). { apply (firings_multiple c g cap) with (n := n) (s := start c); [|exact F]. intros m. destruct (R m) as [-> ->]. split; [exists a|exists b]; assumption. }
  unfold fires. destruct (R (produced s)) as [-> _]. destruct (R (consumed s)) as [_ ->].
  destruct (Z_le_gt_dec (tokens s + p) cap) as [A|A]; [eexists; left; split; [exact A|reflexivity]|].
  destruct (Z_le_gt_dec q (tokens s)) as [B|B]; [eexists; right; split; [exact B|reflexivity]|]. exfalso.
  destruct D as [m Em]. pose proof (Z.div_mod (e_preload c) g ltac:(lia)) as DM. pose proof (Z.mod_pos_bound (e_preload c) g G) as MB. set (r := e_preload c mod g) in *. set (k := e_preload c / g) in *. clearbody r k g.
  assert (tokens s = g * (m + k) + r) by lia. assert (m + k < b) by nia. nia.
Qed.
(** Not enough room: only finitely many firings. *)
Lemma sdf_residue c p q cap : sdf_channel c p q -> forall n s s', firings c cap n s s' -> tokens s' mod (p + q) = (tokens s + Z.of_nat n * p) mod (p + q).
Proof.
  intros S n s s' F. pose proof (sdf_rates c p q S) as R. destruct S as (_ & _ & _ & P & Q). induction F as [s|n s s' s'' F IH H]; [f_equal; lia|].
  assert (E : tokens s'' mod (p + q) = (tokens s' + p) mod (p + q)).
  { destruct H as [[_ ->]|[_ ->]]; cbn [tokens]; [destruct (R (produced s')) as [-> _]; reflexivity|]. destruct (R (consumed s')) as [_ ->].
    replace (tokens s' + p) with (tokens s' - q + 1 * (p + q)) by ring. rewrite Z_mod_plus_full. reflexivity. }
  rewrite E, <- Zplus_mod_idemp_l, IH, Zplus_mod_idemp_l. f_equal. rewrite Nat2Z.inj_succ. ring.
Qed.
Lemma sdf_range c p q cap : sdf_channel c p q -> forall n s s', 0 <= tokens s <= cap -> firings c cap n s s' -> 0 <= tokens s' <= cap.
Proof.
  intros S n s s' B F. pose proof (sdf_rates c p q S) as R. destruct S as (_ & _ & _ & P & Q). induction F as [s|n s s' s'' F IH H]; [exact B|]. specialize (IH B).
  destruct H as [[L ->]|[L ->]]; cbn [tokens]; [destruct (R (produced s')) as [E _]|destruct (R (consumed s')) as [_ E]]; rewrite E in *; lia.
Qed.
Lemma firings_prefix c cap n : forall k s s', firings c cap (k + n) s s' -> exists s1, firings c cap n s s1.
Proof.
  induction k as [|k IH]; intros s s' F; [exists s'; exact F|]. cbn in F. inversion F as [|? ? s1 ? F1 _]; subst. apply (IH s s1 F1).
Qed.
Lemma sdf_dead c p q cap : sdf_channel c p q -> 0 <= e_preload c <= cap -> cap < p + q - Z.gcd p q + e_preload c mod Z.gcd p q -> forall n s, (Z.to_nat (p + q) <= n)%nat -> ~ firings c cap n (start c) s.
Proof.
  intros S B L n s Hn F. pose proof S as (_ & _ & _ & P & Q). set (g := Z.gcd p q) in *.
  assert (G : 0 < g) by (pose proof (Z.gcd_nonneg p q); pose proof (Z.gcd_eq_0_l p q); unfold g in *; lia).
  pose proof (Z.mod_pos_bound (e_preload c) g G) as MB. set (t0 := e_preload c) in *. set (N := p + q) in *.
  destruct (Z.gcd_bezout p q g eq_refl) as (u & v & Bz).
  (* g = u p + v q, so (u - v) p = g modulo p + q *)
  destruct (Z.gcd_divide_r p q) as [b Eb]. fold g in Eb. destruct (Z.gcd_divide_l p q) as [a Ea]. fold g in Ea.
  set (m := a + b - 1 - t0 / g). assert (Em : N - g + t0 mod g - t0 = g * m). { pose proof (Z.div_mod t0 g ltac:(lia)). unfold N, m. nia. }
  set (k := ((u - v) * m) mod N). assert (Kb : 0 <= k < N) by (apply Z.mod_pos_bound; unfold N; lia).
  assert (Kr : (t0 + k * p) mod N = N - g + t0 mod g).
  { assert (E : exists w, (u - v) * m = N * w + k) by (exists ((u - v) * m / N); unfold k; apply Z.div_mod; unfold N; lia). destruct E as (w & E).
    replace (t0 + k * p) with (N - g + t0 mod g + (- m * v - w * p) * N).
    - rewrite Z_mod_plus_full. apply Z.mod_small. unfold N. assert (g <= q). { apply Z.divide_pos_le; [lia|]. exists b. exact Eb. } lia.
    - assert (k = (u - v) * m - N * w) by lia. rewrite H. assert (g * m = (u * p + v * q) * m) by (rewrite Bz; reflexivity). unfold N in *. nia. }
  assert (Hk : (Z.to_nat k <= n)%nat) by lia.
  destruct (firings_prefix c cap (Z.to_nat k) (n - Z.to_nat k) (start c) s) as (s1 & F1); [replace (n - Z.to_nat k + Z.to_nat k)%nat with n by lia; exact F|].
  pose proof (sdf_residue c p q cap S _ _ _ F1) as R. pose proof (sdf_range c p q cap S _ (start c) _ B F1) as Rg. cbn [tokens start] in R. fold t0 in R. fold N in R. rewrite Z2Nat.id in R by lia. rewrite Kr in R.
  rewrite Z.mod_small in R by (split; [lia|]; unfold N in *; lia). lia.
Qed.
