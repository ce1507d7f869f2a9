(** Proofs about the helpers of commons/. *)
From Coq Require Import Ascii String Znumtheory.
From Verif Require Import Base FractionProofs Commons.
Require Import ZifyBool ZifyNat.
Open Scope Z_scope.

(** * modulo and rounding *)

Lemma modulo_correct a b : 0 < b ->
  exists r, modulo a b = Ok r /\ 0 <= r < b /\ (b | a - r).
Proof.
  intros Hb. unfold modulo. rewrite cmod_ok by lia. cbn [bind].
  pose proof (Z.quot_rem a b ltac:(lia)) as E.
  pose proof (Z.rem_bound_abs a b ltac:(lia)) as B.
  eexists. split; [reflexivity|].
  destruct (Z.leb_spec 0 (Z.rem a b)).
  - split; [lia|]. exists (Z.quot a b). lia.
  - split; [lia|]. exists (Z.quot a b - 1). lia.
Qed.

Lemma modulo_is_Zmod a b : 0 < b -> modulo a b = Ok (a mod b).
Proof.
  intros Hb. destruct (modulo_correct a b Hb) as (r & -> & Hr & k & Hk). f_equal.
  apply Z.mod_unique with (q := k); lia.
Qed.

(** Specification: [m] is the greatest multiple of [c] not above [v], etc. *)
Definition greatest_multiple_le (c v m : Z) : Prop :=
  (c | m) /\ m <= v /\ forall m', (c | m') -> m' <= v -> m' <= m.
Definition least_multiple_ge (c v m : Z) : Prop :=
  (c | m) /\ v <= m /\ forall m', (c | m') -> v <= m' -> m <= m'.
Definition greatest_multiple_lt (c v m : Z) : Prop :=
  (c | m) /\ m < v /\ forall m', (c | m') -> m' < v -> m' <= m.
Definition least_multiple_gt (c v m : Z) : Prop :=
  (c | m) /\ v < m /\ forall m', (c | m') -> v < m' -> m <= m'.

Lemma floor_to_correct v c : 0 < c -> exists m, floor_to v c = Ok m /\ greatest_multiple_le c v m.
Proof.
  intros Hc. unfold floor_to. destruct (Z.eqb_spec c 0); [lia|].
  eexists; split; [reflexivity|].
  pose proof (Z.div_mod v c ltac:(lia)). pose proof (Z.mod_pos_bound v c Hc).
  split; [exists (v / c); lia|]. split; [lia|]. intros m' [k ->] Hm.
  apply Z.mul_le_mono_nonneg_r; [lia|]. apply Z.div_le_lower_bound; lia.
Qed.

Lemma ceil_to_correct v c : 0 < c -> exists m, ceil_to v c = Ok m /\ least_multiple_ge c v m.
Proof.
  intros Hc. unfold ceil_to. destruct (Z.eqb_spec c 0); [lia|].
  eexists; split; [reflexivity|].
  pose proof (Z.div_mod (-v) c ltac:(lia)). pose proof (Z.mod_pos_bound (-v) c Hc).
  split; [exists (- (- v / c)); lia|]. split; [lia|]. intros m' [k ->] Hm.
  apply Z.mul_le_mono_nonneg_r; [lia|].
  assert (- k <= - v / c) by (apply Z.div_le_lower_bound; lia). lia.
Qed.

Lemma rem0_divide v c : c <> 0 -> (Z.rem v c = 0 <-> (c | v)).
Proof. intros Hc. symmetry. rewrite <- Z.rem_divide by assumption. reflexivity. Qed.

Lemma floord_correct v c : 0 < c -> exists m, floord v c = Ok m /\ greatest_multiple_lt c v m.
Proof.
  intros Hc. unfold floord. rewrite cmod_ok by lia. cbn [bind].
  destruct (Z.eqb_spec (Z.rem v c) 0) as [E|E].
  - apply rem0_divide in E; [|lia]. destruct E as [k ->].
    eexists; split; [reflexivity|]. split; [exists (k - 1); lia|]. split; [lia|].
    intros m' [k' ->] Hm. assert (k' < k) by (apply Z.mul_lt_mono_pos_r with c; lia).
    replace (k * c - c) with ((k - 1) * c) by ring. apply Z.mul_le_mono_nonneg_r; lia.
  - destruct (floor_to_correct v c Hc) as (m & -> & D & L & G).
    eexists; split; [reflexivity|]. split; [exact D|].
    assert (m <> v). { intros ->. apply E. apply rem0_divide; [lia|exact D]. }
    split; [lia|]. intros m' D' L'. apply G; [exact D'|lia].
Qed.

Lemma ceild_correct v c : 0 < c -> exists m, ceild v c = Ok m /\ least_multiple_gt c v m.
Proof.
  intros Hc. unfold ceild. rewrite cmod_ok by lia. cbn [bind].
  destruct (Z.eqb_spec (Z.rem v c) 0) as [E|E].
  - apply rem0_divide in E; [|lia]. destruct E as [k ->].
    eexists; split; [reflexivity|]. split; [exists (k + 1); lia|]. split; [lia|].
    intros m' [k' ->] Hm. assert (k < k') by (apply Z.mul_lt_mono_pos_r with c; lia).
    replace (k * c + c) with ((k + 1) * c) by ring. apply Z.mul_le_mono_nonneg_r; lia.
  - destruct (ceil_to_correct v c Hc) as (m & -> & D & L & G).
    eexists; split; [reflexivity|]. split; [exact D|].
    assert (m <> v). { intros ->. apply E. apply rem0_divide; [lia|exact D]. }
    split; [lia|]. intros m' D' L'. apply G; [exact D'|lia].
Qed.

(** * extended Euclid *)

Lemma euclide_loop_spec a b : forall fuel r0 r1 s0 s1 t0 t1,
  (Z.to_nat (Z.abs r1) <= fuel)%nat ->
  r0 = a * s0 + b * t0 -> r1 = a * s1 + b * t1 ->
  exists r' s' t', euclide_loop fuel (r0, r1) (s0, s1) (t0, t1) = Ok (r', s', t') /\
    snd r' = 0 /\ fst r' = a * fst s' + b * fst t' /\
    Z.abs (fst r') = Z.gcd r0 r1 /\ (0 <= r0 -> 0 <= r1 -> 0 <= fst r').
Proof.
  induction fuel as [|fuel IH]; intros r0 r1 s0 s1 t0 t1 Hf E0 E1; cbn [euclide_loop fst snd].
  - assert (r1 = 0) by lia. destruct (Z.eqb_spec r1 0); [|contradiction].
    exists (r0, r1), (s0, s1), (t0, t1). cbn [fst snd]. repeat split; try assumption; try lia.
    subst r1. rewrite e, Z.gcd_0_r. reflexivity.
  - destruct (Z.eqb_spec r1 0) as [->|Hr1].
    + exists (r0, 0), (s0, s1), (t0, t1). cbn [fst snd]. repeat split; try assumption; try lia.
      rewrite Z.gcd_0_r. reflexivity.
    + rewrite cdiv_ok by assumption. cbn [bind].
      pose proof (Z.quot_rem r0 r1 Hr1) as Q.
      pose proof (Z.rem_bound_abs r0 r1 Hr1) as B.
      assert (R : r0 - r0 ÷ r1 * r1 = Z.rem r0 r1) by lia.
      destruct (IH r1 (r0 - r0 ÷ r1 * r1) s1 (s0 - r0 ÷ r1 * s1) t1 (t0 - r0 ÷ r1 * t1))
        as (r' & s' & t' & -> & Z0 & L & G & P); [lia|assumption| |].
      { rewrite E0 at 1. rewrite E1 at 2. ring. }
      exists r', s', t'. repeat split; try assumption.
      * rewrite G. replace (r0 - r0 ÷ r1 * r1) with (r0 + (- (r0 ÷ r1)) * r1) by ring.
        rewrite Z.gcd_add_mult_diag_r. apply Z.gcd_comm.
      * intros H0 H1. apply P; [assumption|]. rewrite R.
        apply Z.rem_nonneg; assumption.
Qed.

Lemma extended_euclide_solves a b c fuel :
  0 <= a -> 0 <= b -> (a <> 0 \/ b <> 0) -> (Z.gcd a b | c) -> b <= Z.of_nat fuel ->
  exists x y, extended_euclide fuel a b c = Ok (x, y) /\ a * x + b * y = c.
Proof.
  intros Ha Hb Hnz Hd Hf. unfold extended_euclide.
  assert (Hg : 0 < Z.gcd a b).
  { pose proof (Z.gcd_nonneg a b). assert (Z.gcd a b <> 0) by (rewrite Z.gcd_eq_0; lia). lia. }
  destruct (gcd_split a b Hg) as (a' & b' & Ea & Eb & C).
  rewrite cmod_ok by lia. cbn [bind].
  assert (Hrem : Z.rem c (Z.gcd a b) = 0) by (apply rem0_divide; [lia|assumption]).
  rewrite Hrem. cbn [Z.eqb cassert bind].
  destruct Hd as [c' Ec].
  set (g := Z.gcd a b) in *.
  rewrite !cdiv_ok by lia. cbn [bind].
  rewrite (quot_exact a g a'), (quot_exact b g b'), (quot_exact c g c') by lia.
  assert (0 <= a') by nia. assert (0 <= b') by nia. assert (b' <= b) by nia.
  destruct (euclide_loop_spec a' b' fuel a' b' 1 0 0 1) as (r' & s' & t' & -> & Z0 & L & G & P); try lia.
  cbn [bind]. eexists _, _. split; [reflexivity|].
  rewrite C in G. specialize (P ltac:(lia) ltac:(lia)).
  assert (fst r' = 1) by lia.
  rewrite Ea, Eb, Ec.
  replace (a' * g * (c' * fst s') + b' * g * (c' * fst t')) with (c' * g * (a' * fst s' + b' * fst t')) by ring.
  rewrite <- L. nia.
Qed.

(** Whatever the signs, the result solves the equation up to a global sign. *)
Lemma extended_euclide_solves_up_to_sign a b c fuel :
  (a <> 0 \/ b <> 0) -> (Z.gcd a b | c) -> Z.abs b <= Z.of_nat fuel ->
  exists x y, extended_euclide fuel a b c = Ok (x, y) /\
    (a * x + b * y = c \/ a * x + b * y = - c).
Proof.
  intros Hnz Hd Hf. unfold extended_euclide.
  assert (Hg : 0 < Z.gcd a b).
  { pose proof (Z.gcd_nonneg a b). assert (Z.gcd a b <> 0) by (rewrite Z.gcd_eq_0; lia). lia. }
  destruct (gcd_split a b Hg) as (a' & b' & Ea & Eb & C).
  rewrite cmod_ok by lia. cbn [bind].
  assert (Hrem : Z.rem c (Z.gcd a b) = 0) by (apply rem0_divide; [lia|assumption]).
  rewrite Hrem. cbn [Z.eqb cassert bind].
  destruct Hd as [c' Ec].
  set (g := Z.gcd a b) in *.
  rewrite !cdiv_ok by lia. cbn [bind].
  rewrite (quot_exact a g a'), (quot_exact b g b'), (quot_exact c g c') by lia.
  assert (Z.abs b' <= Z.abs b) by nia.
  destruct (euclide_loop_spec a' b' fuel a' b' 1 0 0 1) as (r' & s' & t' & -> & Z0 & L & G & P); try lia.
  cbn [bind]. eexists _, _. split; [reflexivity|].
  rewrite C in G.
  rewrite Ea, Eb, Ec.
  replace (a' * g * (c' * fst s') + b' * g * (c' * fst t')) with (c' * g * (a' * fst s' + b' * fst t')) by ring.
  rewrite <- L. assert (fst r' = 1 \/ fst r' = -1) as [->| ->] by lia; lia.
Qed.

Lemma extended_euclide_rejects a b c fuel :
  (a <> 0 \/ b <> 0) -> ~ (Z.gcd a b | c) -> extended_euclide fuel a b c = Rejected.
Proof.
  intros Hnz Hd. unfold extended_euclide.
  assert (Hg : Z.gcd a b <> 0) by (rewrite Z.gcd_eq_0; lia).
  rewrite cmod_ok by lia. cbn [bind].
  destruct (Z.eqb_spec (Z.rem c (Z.gcd a b)) 0) as [E|E]; [|reflexivity].
  exfalso. apply Hd. apply rem0_divide; assumption.
Qed.

(** * fibo *)

(** Specification: the Fibonacci sequence. *)
Fixpoint fib (n : nat) : Z :=
  match n with O => 0 | S m => match m with O => 1 | S k => fib m + fib k end end.

Lemma fibo_loop_pow n y p : fibo_loop (S n) y p = (2 ^ Z.of_nat n * p, 2 ^ Z.of_nat (S n) * p).
Proof.
  revert y p. induction n as [|n IH]; intros y p.
  - change (2 ^ Z.of_nat 0) with 1. change (2 ^ Z.of_nat 1) with 2. cbn [fibo_loop]. f_equal; ring.
  - change (fibo_loop (S (S n)) y p) with (fibo_loop (S n) p (p + p)).
    rewrite IH. rewrite !Nat2Z.inj_succ, !Z.pow_succ_r by lia. f_equal; ring.
Qed.

Lemma fibo_is_power_of_two n : fibo (S n) = 2 ^ Z.of_nat n.
Proof. unfold fibo. rewrite fibo_loop_pow. cbn [fst]. ring. Qed.

(** * latexize *)

(** Specification: every underscore escaped, everything else kept. *)
Definition escape_underscores (s : chars) : chars :=
  flat_map (fun c => if Ascii.eqb c c_under then [c_back; c_under] else [c]) s.

Lemma find_char_none c s : find_char c s = None -> forall x, In x s -> x <> c.
Proof.
  induction s as [|y s IH]; cbn; [tauto|].
  destruct (Ascii.eqb_spec y c); [discriminate|].
  destruct (find_char c s); [discriminate|]. intros _ x [<-|H]; auto.
Qed.

Lemma find_char_some c s n : find_char c s = Some n ->
  exists pre post, s = pre ++ c :: post /\ length pre = n /\ forall x, In x pre -> x <> c.
Proof.
  revert n. induction s as [|y s IH]; cbn; [discriminate|]. intros n.
  destruct (Ascii.eqb_spec y c) as [->|Hy].
  - intros [= <-]. exists [], s. repeat split; cbn; tauto.
  - destruct (find_char c s) as [k|] eqn:E; [|discriminate]. intros [= <-].
    destruct (IH k eq_refl) as (pre & post & -> & L & N).
    exists (y :: pre), post. cbn. repeat split; [lia|]. intros x [<-|H]; auto.
Qed.

Lemma escape_no_under s : (forall x, In x s -> x <> c_under) -> escape_underscores s = s.
Proof.
  induction s as [|y s IH]; intros H; [reflexivity|]. cbn.
  destruct (Ascii.eqb_spec y c_under) as [E|_]; [exfalso; apply (H y); [left; reflexivity|exact E]|].
  cbn. f_equal. apply IH. intros x Hx. apply H. right; exact Hx.
Qed.

Lemma latexize_loop_spec : forall fuel done rest,
  (length rest <= fuel)%nat ->
  latexize_loop fuel (done ++ rest) (find_from c_under (done ++ rest) (length done))
  = Ok (done ++ escape_underscores rest).
Proof.
  induction fuel as [|fuel IH]; intros done rest Hf.
  - destruct rest; [|cbn in Hf; lia].
    unfold find_from. rewrite skipn_app, skipn_all, Nat.sub_diag. cbn. reflexivity.
  - unfold find_from at 1. rewrite skipn_app, skipn_all, Nat.sub_diag. cbn [skipn app].
    destruct (find_char c_under rest) as [k|] eqn:E.
    + destruct (find_char_some _ _ _ E) as (pre & post & -> & L & N).
      cbn [latexize_loop].
      assert (R : replace1 (done ++ pre ++ c_under :: post) (length done + k) [c_back; c_under]
                = (done ++ pre ++ [c_back; c_under]) ++ post).
      { unfold replace1. subst k.
        replace (length done + length pre)%nat with (length (done ++ pre)) by (rewrite app_length; lia).
        rewrite !app_assoc.
        rewrite firstn_app, firstn_all, Nat.sub_diag. cbn [firstn]. rewrite app_nil_r.
        replace (skipn (S (length (done ++ pre))) ((done ++ pre) ++ c_under :: post)) with post.
        - rewrite <- !app_assoc. reflexivity.
        - rewrite skipn_app. rewrite skipn_all2 by lia.
          replace (S (length (done ++ pre)) - length (done ++ pre))%nat with 1%nat by lia. reflexivity. }
      rewrite R.
      replace (length done + k + 2)%nat with (length (done ++ pre ++ [c_back; c_under]))
        by (rewrite !app_length; cbn; lia).
      rewrite IH.
      * f_equal. unfold escape_underscores at 2. rewrite flat_map_app. cbn [flat_map].
        rewrite Ascii.eqb_refl.
        change (flat_map (fun c => if Ascii.eqb c c_under then [c_back; c_under] else [c]) pre)
          with (escape_underscores pre).
        rewrite (escape_no_under pre N). unfold escape_underscores. rewrite <- !app_assoc. reflexivity.
      * rewrite app_length in Hf. cbn in Hf. lia.
    + rewrite (escape_no_under rest (find_char_none _ _ E)). reflexivity.
Qed.

Lemma latexize_correct s fuel : (length s <= fuel)%nat -> latexize fuel s = Ok (escape_underscores s).
Proof. intros H. apply (latexize_loop_spec fuel [] s H). Qed.

(** * splitSDF3List *)

(** Characters that may appear in a number or a word of an SDF3 list. *)
Definition plain (c : ascii) : bool :=
  negb (is_space c) && negb (Ascii.eqb c c_comma) && negb (Ascii.eqb c c_star).
Definition word (w : chars) : Prop := w <> [] /\ forall c, In c w -> plain c = true.
Definition digits (w : chars) : Prop := w <> [] /\ forall c, In c w -> digit_value c <> None.

(** Specification: the number written by a digit string, most significant first. *)
Definition number (w : chars) : Z :=
  fold_left (fun acc c => 10 * acc + match digit_value c with Some d => d | None => 0 end) w 0.

(** Specification: items of an SDF3 list and what they stand for. *)
Inductive sdf3_item := Single (w : chars) | Run (ds w : chars).
Definition item_ok (i : sdf3_item) : Prop :=
  match i with Single w => word w | Run ds w => digits ds /\ word w end.
Definition item_text (i : sdf3_item) : chars :=
  match i with Single w => w | Run ds w => ds ++ c_star :: w end.
Definition item_meaning (i : sdf3_item) : list chars :=
  match i with Single w => [w] | Run ds w => repeat w (Z.to_nat (number ds)) end.
Fixpoint join_commas (l : list chars) : chars :=
  match l with [] => [] | [x] => x | x :: l' => x ++ c_comma :: join_commas l' end.

Lemma getlines_nodelim d s acc : (forall c, In c s -> c <> d) -> (s <> [] \/ acc <> []) ->
  getlines d s acc = [rev acc ++ s].
Proof.
  revert acc. induction s as [|x s IH]; intros acc H Hne; cbn [getlines].
  - destruct acc; [destruct Hne; contradiction|]. rewrite app_nil_r. reflexivity.
  - destruct (Ascii.eqb_spec x d) as [E|_]; [exfalso; apply (H x); [left; reflexivity|exact E]|].
    rewrite IH.
    + cbn [rev]. rewrite <- app_assoc. reflexivity.
    + intros c Hc. apply H. right; exact Hc.
    + right; discriminate.
Qed.

Lemma getlines_app d s rest acc : (forall c, In c s -> c <> d) ->
  getlines d (s ++ d :: rest) acc = (rev acc ++ s) :: getlines d rest [].
Proof.
  revert acc. induction s as [|x s IH]; intros acc H; cbn [getlines app].
  - rewrite Ascii.eqb_refl, app_nil_r. reflexivity.
  - destruct (Ascii.eqb_spec x d) as [E|_]; [exfalso; apply (H x); [left; reflexivity|exact E]|].
    rewrite IH.
    + cbn [rev]. rewrite <- app_assoc. reflexivity.
    + intros c Hc. apply H. right; exact Hc.
Qed.

Lemma take_word_plain w : (forall c, In c w -> is_space c = false) -> take_word w = w.
Proof.
  induction w as [|x w IH]; intros H; [reflexivity|]. cbn.
  rewrite (H x (or_introl eq_refl)). f_equal. apply IH. intros c Hc; apply H; right; exact Hc.
Qed.

Lemma from_string_plain w : (forall c, In c w -> is_space c = false) -> from_string_string w = w.
Proof.
  intros H. unfold from_string_string. destruct w as [|x w]; [reflexivity|]. cbn [skip_spaces].
  rewrite (H x (or_introl eq_refl)). apply take_word_plain. exact H.
Qed.

Lemma digit_plain c : digit_value c <> None -> plain c = true.
Proof.
  destruct c as [b0 b1 b2 b3 b4 b5 b6 b7].
  destruct b0, b1, b2, b3, b4, b5, b6, b7; vm_compute; intros H; try reflexivity; exfalso; apply H; reflexivity.
Qed.

Lemma digit_not_sign c : digit_value c <> None -> Ascii.eqb c "-" = false /\ Ascii.eqb c "+" = false.
Proof.
  destruct c as [b0 b1 b2 b3 b4 b5 b6 b7].
  destruct b0, b1, b2, b3, b4, b5, b6, b7; vm_compute; intros H; try (split; reflexivity); exfalso; apply H; reflexivity.
Qed.

Lemma plain_facts c : plain c = true -> is_space c = false /\ c <> c_comma /\ c <> c_star.
Proof.
  unfold plain. destruct (is_space c); [discriminate|].
  destruct (Ascii.eqb_spec c c_comma); [discriminate|].
  destruct (Ascii.eqb_spec c c_star); [discriminate|]. auto.
Qed.

Lemma read_digits_number w acc : (forall c, In c w -> digit_value c <> None) ->
  read_digits w acc = fold_left (fun acc c => 10 * acc + match digit_value c with Some d => d | None => 0 end) w acc.
Proof.
  revert acc. induction w as [|x w IH]; intros acc H; [reflexivity|]. cbn [read_digits fold_left].
  destruct (digit_value x) eqn:E; [|exfalso; apply (H x); [left; reflexivity|exact E]].
  apply IH. intros c Hc; apply H; right; exact Hc.
Qed.

Lemma from_string_int_digits ds : digits ds -> from_string_int ds = number ds.
Proof.
  intros [Hne H]. destruct ds as [|x ds]; [contradiction|].
  unfold from_string_int. cbn [skip_spaces].
  assert (Hx : digit_value x <> None) by (apply H; left; reflexivity).
  pose proof (digit_plain x Hx) as Px. apply plain_facts in Px. destruct Px as (-> & _ & _).
  destruct (digit_not_sign x Hx) as [-> ->].
  apply read_digits_number. exact H.
Qed.

Lemma item_text_no_comma i : item_ok i -> forall c, In c (item_text i) -> c <> c_comma.
Proof.
  destruct i as [w|ds w]; cbn.
  - intros [_ H] c Hc. apply plain_facts. apply H; exact Hc.
  - intros [[_ Hd] [_ Hw]] c Hc. apply in_app_or in Hc. destruct Hc as [Hc|[<-|Hc]].
    + apply plain_facts. apply digit_plain. apply Hd; exact Hc.
    + discriminate.
    + apply plain_facts. apply Hw; exact Hc.
Qed.

Lemma item_text_no_space i : item_ok i -> forall c, In c (item_text i) -> is_space c = false.
Proof.
  destruct i as [w|ds w]; cbn.
  - intros [_ H] c Hc. apply plain_facts. apply H; exact Hc.
  - intros [[_ Hd] [_ Hw]] c Hc. apply in_app_or in Hc. destruct Hc as [Hc|[<-|Hc]].
    + apply plain_facts. apply digit_plain. apply Hd; exact Hc.
    + reflexivity.
    + apply plain_facts. apply Hw; exact Hc.
Qed.

Lemma item_text_nonempty i : item_ok i -> item_text i <> [].
Proof. destruct i as [w|ds w]; cbn; [intros [H _]; exact H|intros _ C; destruct ds; discriminate]. Qed.

Lemma expand_item_ok i : item_ok i -> expand_item (item_text i) = Ok (item_meaning i).
Proof.
  intros H. unfold expand_item, split. destruct i as [w|ds w]; cbn in *.
  - destruct H as [Hne Hw].
    rewrite getlines_nodelim by (try (left; exact Hne); intros c Hc; apply plain_facts; apply Hw; exact Hc).
    cbn [rev app map]. rewrite from_string_plain; [reflexivity|]. intros c Hc; apply plain_facts; apply Hw; exact Hc.
  - destruct H as [Hds [Hne Hw]].
    rewrite getlines_app by (intros c Hc; apply plain_facts; apply digit_plain; apply Hds; exact Hc).
    rewrite getlines_nodelim by (try (left; exact Hne); intros c Hc; apply plain_facts; apply Hw; exact Hc).
    cbn [rev app map].
    rewrite (from_string_plain w) by (intros c Hc; apply plain_facts; apply Hw; exact Hc).
    rewrite (from_string_plain ds) by (intros c Hc; apply plain_facts; apply digit_plain; apply Hds; exact Hc).
    rewrite from_string_int_digits by exact Hds. reflexivity.
Qed.

Lemma getlines_join l : Forall item_ok l ->
  getlines c_comma (join_commas (map item_text l)) [] = map item_text l.
Proof.
  induction l as [|i l IH]; intros H; [reflexivity|].
  inversion H as [|? ? Hi Hl]; subst.
  destruct l as [|j l].
  - cbn. rewrite getlines_nodelim; [reflexivity|apply item_text_no_comma; exact Hi|].
    left. apply item_text_nonempty; exact Hi.
  - cbn [map join_commas]. rewrite getlines_app by (apply item_text_no_comma; exact Hi).
    cbn [rev app]. f_equal. apply IH. exact Hl.
Qed.

Lemma splitSDF3List_correct l : Forall item_ok l ->
  splitSDF3List (join_commas (map item_text l)) = Ok (flat_map item_meaning l).
Proof.
  intros H. unfold splitSDF3List, split. rewrite getlines_join by exact H.
  induction H as [|i l Hi Hl IH]; [reflexivity|].
  cbn [map expand_items flat_map].
  rewrite (from_string_plain _ (item_text_no_space i Hi)).
  rewrite expand_item_ok by exact Hi. cbn [bind]. rewrite IH. reflexivity.
Qed.

(** * hex *)

(** Specification: value of a string of upper-case hex digits. *)
Definition hex_value (c : ascii) : option Z :=
  let n := Z.of_nat (nat_of_ascii c) in
  if (48 <=? n) && (n <=? 57) then Some (n - 48)
  else if (65 <=? n) && (n <=? 70) then Some (n - 55) else None.
Fixpoint read_hex (s : chars) (acc : Z) : option Z :=
  match s with
  | [] => Some acc
  | c :: s' => match hex_value c with Some d => read_hex s' (16 * acc + d) | None => None end
  end.

Lemma hex_digit_value v : 0 <= v < 16 -> hex_value (hex_digit v) = Some v.
Proof.
  intros H.
  assert (A : v = 0 \/ v = 1 \/ v = 2 \/ v = 3 \/ v = 4 \/ v = 5 \/ v = 6 \/ v = 7 \/ v = 8 \/ v = 9 \/
          v = 10 \/ v = 11 \/ v = 12 \/ v = 13 \/ v = 14 \/ v = 15) by lia.
  repeat (destruct A as [->|A]; [reflexivity|]). subst; reflexivity.
Qed.

Lemma nibble num i : 0 <= i -> Z.land (Z.shiftr num i) 15 = num / 2 ^ i mod 16.
Proof.
  intros Hi. change 15 with (Z.ones 4). rewrite Z.land_ones by lia.
  rewrite Z.shiftr_div_pow2 by lia. reflexivity.
Qed.

Lemma convert_num_value num : 0 <= num < 2 ^ 24 -> read_hex (convert_num_to_hex num) 0 = Some num.
Proof.
  intros H. unfold convert_num_to_hex. cbn [map read_hex].
  rewrite !nibble by lia.
  repeat (rewrite hex_digit_value by (apply Z.mod_pos_bound; lia)).
  f_equal. change (5 * 4) with 20. change (4 * 4) with 16. change (3 * 4) with 12.
  change (2 * 4) with 8. change (1 * 4) with 4. change (0 * 4) with 0.
  change (2 ^ 20) with 1048576. change (2 ^ 16) with 65536. change (2 ^ 12) with 4096.
  change (2 ^ 8) with 256. change (2 ^ 4) with 16. change (2 ^ 0) with 1. change (2 ^ 24) with 16777216 in H.
  Z.div_mod_to_equations. lia.
Qed.

Lemma lor_add_disjoint a b k : 0 <= k -> 0 <= b < 2 ^ k -> Z.lor (Z.shiftl a k) b = a * 2 ^ k + b.
Proof.
  intros Hk Hb.
  rewrite <- Z.shiftl_mul_pow2 by exact Hk.
  apply Z.bits_inj'. intros n Hn.
  rewrite Z.lor_spec.
  rewrite Z.add_nocarry_lxor.
  - rewrite Z.lxor_spec. destruct (Z.testbit (Z.shiftl a k) n) eqn:E1, (Z.testbit b n) eqn:E2; try reflexivity.
    exfalso. destruct (Z_lt_le_dec n k) as [L|L].
    + rewrite Z.shiftl_spec_low in E1 by exact L. discriminate.
    + rewrite Z.bits_above_log2 in E2; [discriminate|lia|].
      destruct (Z.eq_dec b 0) as [->|]; [rewrite Z.bits_0 in E2; discriminate|].
      apply Z.lt_le_trans with k; [|exact L]. apply Z.log2_lt_pow2; lia.
  - apply Z.bits_inj'. intros m Hm. rewrite Z.land_spec, Z.bits_0.
    destruct (Z_lt_le_dec m k) as [L|L].
    + rewrite Z.shiftl_spec_low by exact L. reflexivity.
    + destruct (Z.eq_dec b 0) as [->|]; [rewrite Z.bits_0, andb_false_r; reflexivity|].
      rewrite (Z.bits_above_log2 b m), andb_false_r; [reflexivity|lia|].
      apply Z.lt_le_trans with k; [|exact L]. apply Z.log2_lt_pow2; lia.
Qed.

Lemma convert_rgb_correct r g b : 0 <= r < 256 -> 0 <= g < 256 -> 0 <= b < 256 ->
  length (convert_rgb_to_hex r g b) = 6%nat /\
  read_hex (convert_rgb_to_hex r g b) 0 = Some (r * 65536 + g * 256 + b).
Proof.
  intros Hr Hg Hb. split; [reflexivity|].
  unfold convert_rgb_to_hex.
  change 255 with (Z.ones 8). rewrite !Z.land_ones by lia.
  rewrite !Z.mod_small by (change (2 ^ 8) with 256; lia).
  rewrite <- Z.lor_assoc.
  rewrite (lor_add_disjoint g b 8) by (change (2 ^ 8) with 256; lia).
  rewrite (lor_add_disjoint r _ 16) by (change (2 ^ 8) with 256; change (2 ^ 16) with 65536; lia).
  change (2 ^ 8) with 256. change (2 ^ 16) with 65536.
  rewrite convert_num_value by (change (2 ^ 24) with 16777216; lia). f_equal. lia.
Qed.
