(** Texts written by the SDF3 writer and read by its reader. *)
From Coq Require Import QArith Ascii String.
From Verif Require Import Base Commons CommonsProofs Builder Sdf3.
Open Scope Z_scope.

Lemma txt_str c : txt (str c) = c.
Proof. apply list_ascii_of_string_of_list_ascii. Qed.
Lemma str_inj a b : str a = str b -> a = b.
Proof. intros H. rewrite <- (txt_str a), <- (txt_str b), H. reflexivity. Qed.

(** * Decimal numbers *)
Lemma digit_value_digit n : 0 <= n < 10 -> digit_value (digit n) = Some n.
Proof.
  intros H. assert (A : n = 0 \/ n = 1 \/ n = 2 \/ n = 3 \/ n = 4 \/ n = 5 \/ n = 6 \/ n = 7 \/ n = 8 \/ n = 9) by lia.
  repeat destruct A as [-> | A]; try reflexivity. subst; reflexivity.
Qed.
Lemma number_snoc ds d : number (ds ++ [d]) = 10 * number ds + match digit_value d with Some x => x | None => 0 end.
Proof. unfold number. rewrite fold_left_app. reflexivity. Qed.
Lemma show_digits_spec : forall fuel n acc, 0 <= n < 2 ^ Z.of_nat fuel -> (0 < fuel)%nat ->
  exists ds, show_digits fuel n acc = ds ++ acc /\ digits ds /\ number ds = n.
Proof.
  induction fuel as [|fuel IH]; intros n acc H Hf; [lia|]. cbn [show_digits].
  destruct (Z.ltb_spec n 10).
  - exists [digit n]. split; [reflexivity|]. assert (E : digit_value (digit n) = Some n) by (apply digit_value_digit; lia).
    split; [split; [discriminate|intros c [<-|[]]; rewrite E; discriminate]|].
    unfold number. cbn [fold_left]. rewrite E. lia.
  - assert (Hf' : (0 < fuel)%nat) by (destruct fuel; [change (2 ^ Z.of_nat 1) with 2 in H; lia|lia]).
    rewrite Nat2Z.inj_succ, Z.pow_succ_r in H by lia.
    assert (Hd : 0 <= n / 10 < 2 ^ Z.of_nat fuel).
    { split; [apply Z.div_pos; lia|]. apply Z.div_lt_upper_bound; lia. }
    destruct (IH (n / 10) (digit (n mod 10) :: acc) Hd Hf') as (ds & -> & [Hne Hds] & Hn).
    pose proof (Z.mod_pos_bound n 10 ltac:(lia)) as Hm.
    assert (E : digit_value (digit (n mod 10)) = Some (n mod 10)) by (apply digit_value_digit; lia).
    exists (ds ++ [digit (n mod 10)]). split; [rewrite <- app_assoc; reflexivity|]. split.
    + split; [destruct ds; discriminate|]. intros c Hc. apply in_app_or in Hc. destruct Hc as [Hc|[<-|[]]]; [auto|rewrite E; discriminate].
    + rewrite number_snoc, E, Hn. pose proof (Z.div_mod n 10 ltac:(lia)). lia.
Qed.
Lemma show_nonneg_spec n : 0 <= n -> digits (show_nonneg n) /\ number (show_nonneg n) = n.
Proof.
  intros H. unfold show_nonneg. destruct (show_digits_spec (S (Z.to_nat (Z.log2 n))) n []) as (ds & -> & Hd & Hn).
  - split; [exact H|]. rewrite Nat2Z.inj_succ. pose proof (Z.log2_nonneg n). rewrite Z2Nat.id by lia.
    destruct (Z.eq_dec n 0) as [->|]; [reflexivity|]. apply Z.log2_spec. lia.
  - lia.
  - rewrite app_nil_r. auto.
Qed.
Lemma from_string_show_nonneg n : 0 <= n -> from_string_int (show_nonneg n) = n.
Proof. intros H. destruct (show_nonneg_spec n H). rewrite from_string_int_digits by assumption. assumption. Qed.
Lemma from_string_show n : from_string_int (show_int n) = n.
Proof.
  unfold show_int. destruct (Z.ltb_spec n 0); [|apply from_string_show_nonneg; lia].
  destruct (show_nonneg_spec (- n) ltac:(lia)) as [[_ Hd] Hn]. unfold from_string_int. cbn [skip_spaces is_space].
  change (is_space "-") with false. cbv iota. change (Ascii.eqb "-" "-") with true. cbv iota.
  rewrite read_digits_number by exact Hd. unfold number in Hn. rewrite Hn. lia.
Qed.
Lemma show_int_inj a b : show_int a = show_int b -> a = b.
Proof. intros H. rewrite <- (from_string_show a), H. apply from_string_show. Qed.

(** * Words free of separators *)
Definition clean (w : chars) : Prop := w <> [] /\ forall c, In c w -> plain c = true /\ c <> c_semi.
Lemma digit_not_semi c : digit_value c <> None -> c <> c_semi.
Proof. intros H ->. apply H. reflexivity. Qed.
Lemma clean_digits w : digits w -> clean w.
Proof. intros [Hn H]. split; [exact Hn|]. intros c Hc. split; [apply digit_plain|apply digit_not_semi]; auto. Qed.
Lemma clean_show n : clean (show_int n).
Proof.
  unfold show_int. destruct (Z.ltb_spec n 0); [|apply clean_digits, show_nonneg_spec; lia].
  split; [discriminate|]. destruct (show_nonneg_spec (- n) ltac:(lia)) as [Hd _]. apply clean_digits in Hd.
  intros c [<-|Hc]; [split; [reflexivity|discriminate]|apply Hd; exact Hc].
Qed.
Lemma clean_word w : clean w -> word w.
Proof. intros [Hn H]. split; [exact Hn|]. intros c Hc. apply H; exact Hc. Qed.

Lemma join_text l : join l = join_commas (map item_text (map Single l)).
Proof.
  rewrite map_map. cbn [item_text]. rewrite map_id. induction l as [|x l IH]; [reflexivity|].
  destruct l; [reflexivity|]. cbn [join join_commas] in *. rewrite <- IH. reflexivity.
Qed.
Lemma singles l : Forall word l -> Forall item_ok (map Single l).
Proof. intros H. apply Forall_forall. intros i Hi. apply in_map_iff in Hi. destruct Hi as (w & <- & Hw). rewrite Forall_forall in H. apply H, Hw. Qed.
Lemma split_join l : Forall word l -> split (join l) c_comma = l.
Proof.
  intros H. unfold split. rewrite join_text, getlines_join by (apply singles; exact H).
  rewrite map_map. cbn [item_text]. rewrite map_map. rewrite <- (map_id l) at 2. apply map_ext_in.
  intros w Hw. apply from_string_plain. rewrite Forall_forall in H. intros c Hc. apply plain_facts, (H w Hw), Hc.
Qed.
Lemma split_list_join l : Forall word l -> splitSDF3List (join l) = Ok l.
Proof.
  intros H. rewrite join_text, splitSDF3List_correct by (apply singles; exact H). f_equal.
  clear H. induction l as [|x l IH]; [reflexivity|]. cbn. f_equal. exact IH.
Qed.
Lemma join_chars l : Forall clean l -> forall c, In c (join l) -> is_space c = false /\ c <> c_semi.
Proof.
  induction l as [|x l IH]; intros H c Hc; [destruct Hc|]. inversion H as [|? ? [_ Hx] Hl]; subst.
  assert (A : In c x -> is_space c = false /\ c <> c_semi).
  { intros Hi. destruct (Hx c Hi) as [Hp Hs]. split; [apply plain_facts, Hp|exact Hs]. }
  destruct l as [|y l]; [apply A, Hc|]. change (join (x :: y :: l)) with (x ++ c_comma :: join (y :: l)) in Hc.
  apply in_app_or in Hc. destruct Hc as [Hc|[<-|Hc]]; [apply A, Hc|split; [reflexivity|discriminate]|apply IH; assumption].
Qed.
Lemma join_nonempty l : Forall clean l -> l <> [] -> join l <> [].
Proof.
  intros H Hn. destruct l as [|x l]; [contradiction|]. inversion H as [|? ? [Hx _] Hl]; subst.
  destruct l; cbn; [exact Hx|]. destruct x; discriminate.
Qed.
Lemma init_periodic_join i p : Forall clean i -> Forall clean p -> p <> [] ->
  init_periodic (txt (with_init i p)) = Ok (join i, join p).
Proof.
  intros Hi Hp Hn. unfold with_init. rewrite txt_str. unfold init_periodic, split.
  assert (Sp : from_string_string (join p) = join p) by (apply from_string_plain; intros c Hc; apply (join_chars p Hp c Hc)).
  assert (Si : from_string_string (join i) = join i) by (apply from_string_plain; intros c Hc; apply (join_chars i Hi c Hc)).
  assert (Lp : getlines c_semi (join p) [] = [join p]).
  { rewrite getlines_nodelim; [reflexivity|intros c Hc; apply (join_chars p Hp c Hc)|left; apply join_nonempty; assumption]. }
  destruct i as [|x i].
  - cbn [length Nat.eqb]. rewrite Lp. cbn [map]. rewrite Sp. reflexivity.
  - cbn [length Nat.eqb]. rewrite getlines_app by (intros c Hc; apply (join_chars _ Hi c Hc)).
    rewrite Lp. cbn [map rev app]. rewrite Sp, Si. reflexivity.
Qed.

(** * Rates *)
Lemma token_list_words l : Forall word l -> token_list l = Ok (map from_string_int l).
Proof.
  induction 1 as [|w l Hw Hl IH]; [reflexivity|]. cbn [token_list].
  assert (E : split w c_star = [w]).
  { unfold split. destruct Hw as [Hn Hw]. rewrite getlines_nodelim; [|intros c Hc; apply plain_facts, Hw, Hc|left; exact Hn].
    cbn. f_equal. apply from_string_plain. intros c Hc; apply plain_facts, Hw, Hc. }
  rewrite E. cbn [length Nat.eqb last]. rewrite IH. reflexivity.
Qed.
Lemma clean_shows l : Forall clean (map show_int l).
Proof. apply Forall_forall. intros w Hw. apply in_map_iff in Hw. destruct Hw as (n & <- & _). apply clean_show. Qed.
Lemma words_shows l : Forall word (map show_int l).
Proof. eapply Forall_impl; [|apply clean_shows]. intros w. apply clean_word. Qed.
Lemma map_from_show l : map from_string_int (map show_int l) = l.
Proof. rewrite map_map. rewrite <- (map_id l) at 2. apply map_ext. intros n. apply from_string_show. Qed.
Lemma string_rates_text i p : p <> [] -> string_rates (rates_text i p) = Ok (i, p).
Proof.
  intros Hn. unfold string_rates, rates_text.
  rewrite init_periodic_join; [|apply clean_shows|apply clean_shows|intros E; apply map_eq_nil in E; contradiction].
  cbn [bind]. rewrite !split_join by apply words_shows. rewrite !token_list_words by apply words_shows.
  cbn [bind]. rewrite !map_from_show. reflexivity.
Qed.
Definition ones (l : list Z) : bool := forallb (fun x => x =? 1) l.
Lemma only_one_text i p : p <> [] -> only_one_rate (rates_text i p) = Ok (ones i && ones p).
Proof. intros H. unfold only_one_rate. rewrite string_rates_text by exact H. reflexivity. Qed.
Lemma ones_repeat n : ones (repeat 1 n) = true.
Proof. induction n; [reflexivity|assumption]. Qed.

(** * Times *)
Section Numbers.
Variable show_real : Q -> chars.
Variable read_real : chars -> Q.
Definition whole_time (q : Q) : Prop := exists n, 0 <= n < 2 ^ 64 /\ (q == inject_Z n)%Q.
Definition part_time (q : Q) : Prop :=
  (forall n, ~ q == inject_Z n)%Q /\ clean (show_real q) /\ (read_time read_real (show_real q) == q)%Q.
Definition printable (q : Q) : Prop := whole_time q \/ part_time q.

Lemma whole_mod q : Qnum q mod QDen q = 0 <-> exists n, (q == inject_Z n)%Q.
Proof.
  unfold Qeq. cbn [inject_Z Qnum Qden]. split.
  - intros H. exists (Qnum q / QDen q). pose proof (Z.div_mod (Qnum q) (QDen q) ltac:(lia)). lia.
  - intros [n Hn]. rewrite Z.mul_1_r in Hn. rewrite Hn. apply Z.mod_mul. lia.
Qed.
Lemma digits_forallb w : digits w -> forallb is_digit w = true.
Proof. intros [_ H]. apply forallb_forall. intros c Hc. unfold is_digit. specialize (H c Hc). destruct (digit_value c); [reflexivity|contradiction]. Qed.
Lemma read_time_digits w : digits w -> read_time read_real w = inject_Z (number w).
Proof.
  intros H. unfold read_time. rewrite digits_forallb by exact H. rewrite from_string_int_digits by exact H.
  destruct H as [Hn _]. destruct w; [contradiction|reflexivity].
Qed.
Lemma show_time_ok q : printable q ->
  exists w, show_time show_real q = Ok w /\ clean w /\ (read_time read_real w == q)%Q.
Proof.
  intros [(n & Hn & E)|(Hw & Hc & Hr)]; unfold show_time.
  - assert (M : Qnum q mod QDen q = 0) by (apply whole_mod; exists n; exact E). rewrite M. cbn [Z.eqb].
    assert (D : Qnum q / QDen q = n).
    { unfold Qeq in E. cbn [inject_Z Qnum Qden] in E. rewrite Z.mul_1_r in E. rewrite E. apply Z.div_mul. lia. }
    rewrite D. replace (0 <=? n) with true by lia. replace (n <? 2 ^ 64) with true by lia. cbn [andb].
    destruct (show_nonneg_spec n ltac:(lia)) as [Hd Hv]. exists (show_nonneg n). split; [reflexivity|].
    split; [apply clean_digits, Hd|]. rewrite read_time_digits by exact Hd. rewrite Hv. symmetry. exact E.
  - destruct (Z.eqb_spec (Qnum q mod QDen q) 0) as [M|M].
    + apply whole_mod in M. destruct M as [n M]. destruct (Hw n M).
    + exists (show_real q). auto.
Qed.
Lemma show_times_ok l : Forall printable l ->
  exists ws, show_times show_real l = Ok ws /\ Forall clean ws /\ length ws = length l /\ Forall2 Qeq (map (read_time read_real) ws) l.
Proof.
  induction 1 as [|q l Hq Hl IH].
  - exists []. repeat split; constructor.
  - destruct (show_time_ok q Hq) as (w & Ew & Cw & Rw). destruct IH as (ws & Es & Cs & Ls & Rs).
    exists (w :: ws). cbn [show_times]. rewrite Ew, Es. cbn [bind]. split; [reflexivity|].
    split; [constructor; assumption|]. split; [cbn; lia|]. constructor; assumption.
Qed.
End Numbers.
