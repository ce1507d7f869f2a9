(** From the reading proofs to the statements about whole graphs. *)
From Coq Require Import QArith Ascii String Btauto.
From Verif Require Import Base Graph Commons CommonsProofs Builder BuilderSpec BuilderProofs BuilderIds BuilderPhases BuilderFinal Sdf3 Sdf3Spec Sdf3Text Sdf3Core Sdf3Proofs.
Open Scope Z_scope.

Lemma history_weaken (P R : state -> call -> Prop) r s : (forall s c, P s c -> R s c) -> history_of P r s -> history_of R r s.
Proof. intros H. induction 1; [constructor|eapply ho_accepted; eauto|eapply ho_rejected; eauto]. Qed.
Lemma filter_nonempty_all {A} (h : A -> string) l : (forall x, In x l -> h x <> ""%string) -> filter nonempty (map h l) = map h l.
Proof.
  induction l as [|x l IH]; intros H; [reflexivity|]. cbn [map filter]. rewrite IH by (intros; apply H; right; assumption).
  unfold nonempty. destruct (String.eqb_spec (h x) "") as [E|_]; [destruct (H x (or_introl eq_refl) E)|reflexivity].
Qed.
Lemma sumZ_nil l : 0 < sumZ l -> l <> [].
Proof. intros H ->. cbn in H. lia. Qed.
Lemma sized_exact {A} (l : list A) n : sized l n -> (n <> O -> l <> []) -> length l = n.
Proof. intros [->|H] Hn; [|exact H]. destruct n; [reflexivity|destruct (Hn ltac:(discriminate) eq_refl)]. Qed.
Lemma writable_printable show_real read_real q : writable_time show_real read_real q -> printable show_real read_real q.
Proof.
  intros [H|(H1 & H2 & H3 & H4)]; [left; exact H|right]. split; [exact H1|]. split; [|exact H4]. split; [exact H2|].
  intros c Hc. destruct (H3 c Hc) as (A & B & C & D). split; [|exact D]. unfold plain. rewrite A.
  destruct (Ascii.eqb_spec c c_comma) as [E|_]; [destruct (B E)|]. destruct (Ascii.eqb_spec c c_star) as [E|_]; [destruct (C E)|reflexivity].
Qed.
Lemma unit_loop_eq e : unit_loop e = one_token_loop e.
Proof.
  unfold unit_loop, one_token_loop, all_ones, ones. rewrite !forallb_app.
  repeat match goal with |- context [forallb ?f ?l] => generalize (forallb f l); intro end. btauto.
Qed.
Lemma history_readable show_real read_real s : history_of documented_call false s -> complete s -> all_named s -> writable_times show_real read_real s ->
  readable show_real read_real (s_vs s) (s_es s).
Proof.
  intros H [Cv Ce] [Nv Ne] W.
  assert (Hc : history_of checked_call false s) by (eapply history_weaken; [|exact H]; intros ? ? [? _]; assumption).
  assert (Ha : history_of announces_phases false s) by (eapply history_weaken; [|exact H]; intros ? ? [_ ?]; assumption).
  pose proof (any_history_inv s (history_of_any _ _ _ Hc)) as I. destruct (coherent_history s Ha) as [Xe Xv].
  destruct (ids_unique s Hc) as (_ & Ie & _).
  constructor.
  - exact Nv.
  - pose proof (inv_vnames s I) as U. unfold uniq in U. rewrite filter_nonempty_all in U by exact Nv. exact U.
  - exact Ne.
  - pose proof (inv_enames s I) as U. unfold uniq in U. rewrite filter_nonempty_all in U by exact Ne. exact U.
  - exact Ie.
  - intros b Hb. destruct (Cv b Hb) as (P0 & Dn & Din & _). destruct (Xv b Hb) as [S1 S2].
    split; [exact Dn|]. split; [apply sized_exact; auto|]. split; [apply sized_exact; auto|].
    apply Forall_forall. intros q Hq. apply writable_printable. apply (W b q Hb Hq).
  - intros e He. destruct (Xe e He) as (bs & bd & E1 & E2 & S1 & S2 & S3 & S4). exists bs, bd.
    destruct (Ce e bs bd He E1 E2) as (A & B & _ & C & D & _). apply sumZ_nil in C, D.
    repeat split; auto; apply sized_exact; auto.
Qed.

Lemma Forall2_mapi {A B} (R : A -> B -> Prop) (f : nat -> A -> B) l : forall k, (forall i x, In x l -> R x (f i x)) -> Forall2 R l (mapi f k l).
Proof.
  induction l as [|x l IH]; intros k H; [constructor|]. cbn. constructor; [apply H; left; reflexivity|].
  apply IH. intros i y Hy. apply H. right; exact Hy.
Qed.
Lemma mapi_seq {A} (h : nat -> A -> Z) l : forall k, (forall i x, h i x = Z.of_nat i + 1) -> mapi h k l = map (fun i => Z.of_nat i + 1) (seq k (length l)).
Proof. induction l as [|x l IH]; intros k H; [reflexivity|]. cbn. rewrite H, IH by exact H. reflexivity. Qed.
Lemma filter_eq {A} (f g : A -> bool) l : (forall x, f x = g x) -> filter f l = filter g l.
Proof. intros H. induction l as [|x l IH]; [reflexivity|]. cbn. rewrite H, IH. reflexivity. Qed.
Lemma existsb_eq {A} (f g : A -> bool) l : (forall x, f x = g x) -> existsb f l = existsb g l.
Proof. intros H. induction l as [|x l IH]; [reflexivity|]. cbn. rewrite H, IH. reflexivity. Qed.

Lemma round_trip show_real read_real s : history_of documented_call false s -> complete s -> all_named s -> writable_times show_real read_real s ->
  exists doc s', write_sdf3 show_real s = Ok doc /\ read_sdf3 read_real doc empty_state = Done tt s' /\
    length (s_vs s') = length (s_vs s) /\
    (forall v b, nth_error (s_vs s) v = Some b -> exists b', nth_error (s_vs s') v = Some b' /\ same_task b b' /\
       bv_reentrancy b' = if negb (bv_reentrancy b =? 0) || has_one_token_loop s v then 1 else 0) /\
    Forall2 same_data (filter (fun e => negb (one_token_loop e)) (s_es s)) (s_es s') /\
    map bv_id (s_vs s') = map (fun i => Z.of_nat i + 1) (seq 0 (length (s_vs s'))) /\
    map be_id (s_es s') = map (fun i => Z.of_nat i + 1) (seq 0 (length (s_es s'))).
Proof.
  intros H C N W. pose proof (history_readable show_real read_real s H C N W) as HR.
  destruct (read_written show_real read_real _ _ HR s eq_refl eq_refl) as (doc & Hw & Hr).
  exists doc, (full show_real read_real (s_vs s) (s_es s) (single (s_vs s) (s_es s)) yes yes). split; [exact Hw|]. split; [exact Hr|].
  unfold full, st. cbn [mk s_vs s_es]. split; [apply mapi_length|]. split.
  { intros v b Hb. rewrite mapi_nth, Hb. cbn [option_map plus]. eexists. split; [reflexivity|]. unfold rvert, yes. split.
    - assert (Hin : In b (s_vs s)) by (eapply nth_error_In; eauto).
      destruct (rd_tasks _ _ _ _ HR b Hin) as (_ & _ & _ & F). apply Forall_app in F. destruct F as [F1 F2].
      destruct (times_facts show_real read_real _ F1) as (_ & _ & _ & _ & _ & Q1). destruct (times_facts show_real read_real _ F2) as (_ & _ & _ & _ & _ & Q2).
      repeat split; auto.
    - cbn [bv_reentrancy]. unfold single. rewrite Hb, orb_comm.
      replace (loops_of (s_es s) v) with (has_one_token_loop s v); [reflexivity|]. apply existsb_eq. intros e. rewrite unit_loop_eq. reflexivity. }
  split.
  { unfold K. rewrite (filter_eq kept (fun e => negb (one_token_loop e))) by (intros e; unfold kept; rewrite unit_loop_eq; reflexivity).
    apply Forall2_mapi. intros i e _. repeat split. }
  split; rewrite map_mapi, mapi_length; apply mapi_seq; reflexivity.
Qed.

Lemma Forall2_nth {A B} (R : A -> B -> Prop) l : forall l', length l' = length l ->
  (forall i x, nth_error l i = Some x -> exists y, nth_error l' i = Some y /\ R x y) -> Forall2 R l l'.
Proof.
  induction l as [|x l IH]; intros [|y l'] E H; try discriminate; [constructor|].
  destruct (H O x eq_refl) as (y' & E' & R'). injection E' as <-. constructor; [exact R'|]. apply IH; [cbn in E; lia|].
  intros i z Hz. exact (H (S i) z Hz).
Qed.
Lemma filter_true {A} (p : A -> bool) l : (forall x, In x l -> p x = true) -> filter p l = l.
Proof. induction l as [|x l IH]; intros H; [reflexivity|]. cbn. rewrite (H x), IH; [reflexivity|intros; apply H; right; assumption|left; reflexivity]. Qed.
Lemma exact_round_trip show_real read_real s : history_of documented_call false s -> complete s -> all_named s -> writable_times show_real read_real s ->
  (forall b, In b (s_vs s) -> bv_reentrancy b = 0 \/ bv_reentrancy b = 1) -> (forall e, In e (s_es s) -> one_token_loop e = false) ->
  exists doc s', write_sdf3 show_real s = Ok doc /\ read_sdf3 read_real doc empty_state = Done tt s' /\
    Forall2 (fun b b' => same_task b b' /\ bv_reentrancy b' = bv_reentrancy b) (s_vs s) (s_vs s') /\ Forall2 same_data (s_es s) (s_es s').
Proof.
  intros H C N W Re Lo. destruct (round_trip show_real read_real s H C N W) as (doc & s' & Hw & Hr & Hl & Hv & He & _). exists doc, s'.
  split; [exact Hw|]. split; [exact Hr|]. split.
  - apply Forall2_nth; [exact Hl|]. intros v b Hb. destruct (Hv v b Hb) as (b' & E & S & R). exists b'. split; [exact E|]. split; [exact S|].
    rewrite R. replace (has_one_token_loop s v) with false.
    + destruct (Re b (nth_error_In _ _ Hb)) as [-> | ->]; reflexivity.
    + symmetry. unfold has_one_token_loop. apply not_true_is_false. intros X. apply existsb_exists in X. destruct X as (e & Hin & X).
      rewrite (Lo e Hin) in X. discriminate.
  - rewrite filter_true in He by (intros e Hin; rewrite (Lo e Hin); reflexivity). exact He.
Qed.

(** * Rate notation *)
Definition as_item (i : rate_item) : sdf3_item := match i with Once v => Single v | Times k v => Run k v end.
Lemma written_text l : written l = join_commas (map item_text (map as_item l)).
Proof.
  unfold written. rewrite map_map. replace (map (fun x => item_text (as_item x)) l) with (map item_written l) by (apply map_ext; intros []; reflexivity).
  generalize (map item_written l). induction l0 as [|x m IH]; [reflexivity|]. destruct m; [reflexivity|]. cbn [comma_list join_commas] in *. rewrite IH. reflexivity.
Qed.
Lemma item_good_ok i : item_good i -> item_ok (as_item i).
Proof. destruct i; cbn; [intros H; apply clean_word, clean_digits, H|intros [Hk Hv]; split; [exact Hk|apply clean_word, clean_digits, Hv]]. Qed.
Lemma items_ok l : Forall item_good l -> Forall item_ok (map as_item l).
Proof. induction 1; cbn; constructor; [apply item_good_ok; assumption|assumption]. Qed.
Lemma split_written l : Forall item_good l -> split (written l) c_comma = map item_text (map as_item l).
Proof.
  intros H. unfold split. rewrite written_text, getlines_join by (apply items_ok, H). rewrite <- (map_id (map item_text _)) at 2. apply map_ext_in.
  intros w Hw. apply in_map_iff in Hw. destruct Hw as (i & <- & Hi). apply from_string_plain. apply item_text_no_space.
  pose proof (items_ok l H) as F. rewrite Forall_forall in F. apply F, Hi.
Qed.
Lemma token_item i : item_good i -> split (item_text (as_item i)) c_star = match i with Once v => [v] | Times k v => [k; v] end.
Proof.
  destruct i as [v|k v]; cbn [item_good as_item item_text]; intros H.
  - destruct (clean_word v (clean_digits v H)) as [Hn Hp]. unfold split.
    rewrite getlines_nodelim; [|intros c Hc; apply plain_facts, Hp, Hc|left; exact Hn]. cbn. f_equal. apply from_string_plain. intros c Hc; apply plain_facts, Hp, Hc.
  - destruct H as [Hk Hv]. destruct (clean_word k (clean_digits k Hk)) as [Hn Hp]. destruct (clean_word v (clean_digits v Hv)) as [Hn' Hp']. unfold split.
    rewrite getlines_app by (intros c Hc; apply plain_facts, Hp, Hc).
    rewrite getlines_nodelim; [|intros c Hc; apply plain_facts, Hp', Hc|left; exact Hn']. cbn. f_equal; [|f_equal]; apply from_string_plain; intros c Hc; apply plain_facts; auto.
Qed.
Lemma token_written l : Forall item_good l -> token_list (map item_text (map as_item l)) = Ok (rates_of l).
Proof.
  induction 1 as [|i l Hi Hl IH]; [reflexivity|]. cbn [map token_list]. rewrite token_item by exact Hi. rewrite IH.
  unfold rates_of in *. cbn [flat_map]. destruct i as [v|k v]; cbn [length Nat.eqb nth last bind].
  - rewrite (from_string_int_digits v Hi). reflexivity.
  - destruct Hi as [Hk Hv]. rewrite (from_string_int_digits k Hk), (from_string_int_digits v Hv). reflexivity.
Qed.
Lemma written_chars l : Forall item_good l -> forall c, In c (written l) -> is_space c = false /\ c <> c_semi.
Proof.
  intros H c. unfold written. assert (A : forall i, item_good i -> In c (item_written i) -> is_space c = false /\ c <> c_semi).
  { assert (D : forall w, digit_string w -> In c w -> is_space c = false /\ c <> c_semi).
    { intros w Hw Hc. destruct (clean_digits w Hw) as [_ Hp]. destruct (Hp c Hc) as [Hq Hs]. split; [apply plain_facts, Hq|exact Hs]. }
    intros [v|k v] Hi Hc; cbn in *; [apply (D v); assumption|]. apply in_app_or in Hc. destruct Hc as [Hc|[<-|Hc]]; [apply (D k); tauto|split; [reflexivity|discriminate]|apply (D v); tauto]. }
  induction H as [|i l Hi Hl IH]; [intros []|]. cbn [map]. destruct (map item_written l) as [|y m] eqn:E; [apply A, Hi|].
  change (comma_list (item_written i :: y :: m)) with (item_written i ++ ","%char :: comma_list (y :: m)). intros Hc.
  apply in_app_or in Hc. destruct Hc as [Hc|[<-|Hc]]; [apply (A i); assumption|split; [reflexivity|discriminate]|apply IH, Hc].
Qed.
Lemma written_nonempty l : Forall item_good l -> l <> [] -> written l <> [].
Proof.
  intros H Hn. destruct l as [|i l]; [contradiction|]. inversion H as [|? ? Hi _]; subst.
  assert (X : item_written i <> []) by (destruct i as [v|k v]; cbn in *; [apply Hi|destruct k; discriminate]).
  unfold written. cbn [map]. destruct (map item_written l); cbn; [exact X|]. destruct (item_written i); discriminate.
Qed.
Lemma semi_written l : Forall item_good l -> l <> [] -> getlines c_semi (written l) [] = [written l].
Proof. intros H Hn. rewrite getlines_nodelim; [reflexivity|intros c Hc; apply (written_chars l H c Hc)|left; apply written_nonempty; assumption]. Qed.
Lemma rates_written_periodic p : Forall item_good p -> p <> [] -> string_rates (str (written p)) = Ok ([], rates_of p).
Proof.
  intros Hp Hn. unfold string_rates. rewrite txt_str. unfold init_periodic, split at 1. rewrite semi_written by assumption. cbn [map].
  rewrite from_string_plain by (intros c Hc; apply (written_chars p Hp c Hc)). cbn [bind].
  rewrite split_written, token_written by exact Hp. reflexivity.
Qed.
Lemma rates_written_both i p : Forall item_good i -> Forall item_good p -> p <> [] -> string_rates (str (written i ++ ";"%char :: written p)) = Ok (rates_of i, rates_of p).
Proof.
  intros Hi Hp Hn. unfold string_rates. rewrite txt_str. unfold init_periodic, split at 1. change ";"%char with c_semi.
  rewrite getlines_app by (intros c Hc; apply (written_chars i Hi c Hc)). rewrite semi_written by assumption. cbn [map rev app].
  rewrite !from_string_plain by (intros c Hc; eapply written_chars; [|exact Hc]; eassumption). cbn [bind].
  rewrite !split_written, !token_written by assumption. reflexivity.
Qed.
