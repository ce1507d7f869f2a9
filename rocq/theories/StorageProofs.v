(** Proofs about storage distributions and their sets. *)
From Coq Require Import QArith Sorted.
From Verif Require Import Base Graph Storage StorageSpec.
Open Scope Z_scope.

(** ** One distribution *)
Lemma find_channel_quantity d e p : find_channel e (sd_chan d) = Some p -> quantity d e = snd p.
Proof. intros E. unfold quantity, get_quantity. rewrite E. reflexivity. Qed.
Lemma find_channel_in e : forall l, In e (map fst l) -> exists p, find_channel e l = Some p.
Proof.
  induction l as [|[e' p] l IH]; cbn; [tauto|]. intros [<-|H]; [rewrite Z.eqb_refl; eauto|]. destruct (Z.eqb_spec e e'); eauto.
Qed.
Lemma get_quantity_in d e : In e (get_edges d) -> get_quantity d e = Ok (quantity d e).
Proof. intros H. destruct (find_channel_in e _ H) as (p & E). unfold quantity, get_quantity. rewrite E. reflexivity. Qed.

Definition ksorted {B} (l : list (Z * B)) : Prop := StronglySorted Z.lt (map fst l).
Lemma find_channel_below e : forall l, Forall (fun k => e < k) (map fst l) -> find_channel e l = None.
Proof.
  induction l as [|[k p] l IH]; cbn; intros F; [reflexivity|]. inversion F; subst. destruct (Z.eqb_spec e k); [lia|]. auto.
Qed.
Lemma put_quantity_find e q : forall l e', ksorted l -> find_channel e' (put_quantity e q l) =
  if e' =? e then Some (match find_channel e l with Some p => fst p | None => 0 end, q) else find_channel e' l.
Proof.
  unfold ksorted. induction l as [|[k [t q']] l IH]; cbn; intros e' S; [destruct (e' =? e); reflexivity|].
  inversion S as [|? ? S1 F]; subst. destruct (Z.ltb_spec e k) as [L|L]; cbn.
  - destruct (Z.eqb_spec e' e) as [->|N]; [|reflexivity]. destruct (Z.eqb_spec e k); [lia|]. rewrite find_channel_below; [reflexivity|].
    eapply Forall_impl; [|exact F]. cbn. intros; lia.
  - destruct (Z.eqb_spec e k) as [->|N]; cbn.
    + destruct (Z.eqb_spec e' k) as [->|N']; reflexivity.
    + destruct (Z.eqb_spec e' k) as [->|N']; [destruct (Z.eqb_spec k e); [congruence|reflexivity]|]. apply IH, S1.
Qed.
Lemma put_tokens_find e t : forall l e', ksorted l -> find_channel e' (put_tokens e t l) =
  if e' =? e then Some (t, match find_channel e l with Some p => snd p | None => 0 end) else find_channel e' l.
Proof.
  unfold ksorted. induction l as [|[k [t' q']] l IH]; cbn; intros e' S; [destruct (e' =? e); reflexivity|].
  inversion S as [|? ? S1 F]; subst. destruct (Z.ltb_spec e k) as [L|L]; cbn.
  - destruct (Z.eqb_spec e' e) as [->|N]; [|reflexivity]. destruct (Z.eqb_spec e k); [lia|]. rewrite find_channel_below; [reflexivity|].
    eapply Forall_impl; [|exact F]. cbn. intros; lia.
  - destruct (Z.eqb_spec e k) as [->|N]; cbn.
    + destruct (Z.eqb_spec e' k) as [->|N']; reflexivity.
    + destruct (Z.eqb_spec e' k) as [->|N']; [destruct (Z.eqb_spec k e); [congruence|reflexivity]|]. apply IH, S1.
Qed.
Lemma put_quantity_keys e q : forall l x, In x (map fst (put_quantity e q l)) <-> x = e \/ In x (map fst l).
Proof.
  induction l as [|[k [t q']] l IH]; cbn; intros x; [intuition congruence|]. destruct (e <? k); cbn; [intuition congruence|].
  destruct (Z.eqb_spec e k) as [->|N]; cbn; [intuition congruence|]. rewrite IH. intuition congruence.
Qed.
Lemma put_quantity_sorted e q : forall l, ksorted l -> ksorted (put_quantity e q l).
Proof.
  unfold ksorted. induction l as [|[k [t q']] l IH]; cbn; intros S; [repeat constructor|]. inversion S as [|? ? S1 F]; subst.
  destruct (Z.ltb_spec e k) as [L|L]; cbn.
  - constructor; [exact S|]. constructor; [exact L|]. eapply Forall_impl; [|exact F]. cbn. intros; lia.
  - destruct (Z.eqb_spec e k) as [->|N]; cbn; [exact S|]. constructor; [auto|]. apply Forall_forall. intros x Hx. apply put_quantity_keys in Hx.
    destruct Hx as [->|Hx]; [lia|]. rewrite Forall_forall in F. auto.
Qed.
Lemma put_quantity_same_keys e q : forall l, ksorted l -> In e (map fst l) -> map fst (put_quantity e q l) = map fst l.
Proof.
  unfold ksorted. induction l as [|[k [t q']] l IH]; cbn; intros S H; [tauto|]. inversion S as [|? ? S1 F]; subst. rewrite Forall_forall in F.
  destruct (Z.ltb_spec e k) as [L|L]; cbn.
  - destruct H as [<-|H]; [lia|]. apply F in H. lia.
  - destruct (Z.eqb_spec e k) as [->|N]; cbn; [reflexivity|]. destruct H as [H|H]; [congruence|]. f_equal. auto.
Qed.
Lemma put_tokens_keys e t : forall l x, In x (map fst (put_tokens e t l)) <-> x = e \/ In x (map fst l).
Proof.
  induction l as [|[k [t' q']] l IH]; cbn; intros x; [intuition congruence|]. destruct (e <? k); cbn; [intuition congruence|].
  destruct (Z.eqb_spec e k) as [->|N]; cbn; [intuition congruence|]. rewrite IH. intuition congruence.
Qed.
Lemma put_tokens_sorted e t : forall l, ksorted l -> ksorted (put_tokens e t l).
Proof.
  unfold ksorted. induction l as [|[k [t' q']] l IH]; cbn; intros S; [repeat constructor|]. inversion S as [|? ? S1 F]; subst.
  destruct (Z.ltb_spec e k) as [L|L]; cbn.
  - constructor; [exact S|]. constructor; [exact L|]. eapply Forall_impl; [|exact F]. cbn. intros; lia.
  - destruct (Z.eqb_spec e k) as [->|N]; cbn; [exact S|]. constructor; [auto|]. apply Forall_forall. intros x Hx. apply put_tokens_keys in Hx.
    destruct Hx as [->|Hx]; [lia|]. rewrite Forall_forall in F. auto.
Qed.
Lemma put_tokens_sum e t : forall l, fold_right (fun c acc => snd (snd c) + acc) 0 (put_tokens e t l) = fold_right (fun c acc => snd (snd c) + acc) 0 l.
Proof.
  induction l as [|[k [t' q']] l IH]; cbn; [reflexivity|]. destruct (e <? k); cbn; [lia|]. destruct (e =? k); cbn; lia.
Qed.

Lemma fold_left_sum (l : channels) : forall a, fold_left (fun acc c => acc + snd (snd c)) l a = a + fold_right (fun c acc => snd (snd c) + acc) 0 l.
Proof. induction l as [|c l IH]; intros a; cbn; [lia|]. rewrite IH. lia. Qed.
Lemma sum_quantities (l : channels) : NoDup (map fst l) ->
  fold_right (fun c acc => snd (snd c) + acc) 0 l = sumZ (map (fun e => match find_channel e l with Some p => snd p | None => 0 end) (map fst l)).
Proof.
  induction l as [|[k p] l IH]; intros N; [reflexivity|]. inversion N as [|? ? N1 N2]; subst. cbn [map fst fold_right].
  change (sumZ (?x :: ?l)) with (x + sumZ l). cbn [find_channel]. rewrite Z.eqb_refl. cbn [snd]. f_equal. rewrite IH by exact N2. f_equal. apply map_ext_in.
  intros e He. destruct (Z.eqb_spec e k) as [->|]; [contradiction|reflexivity].
Qed.
Lemma sorted_nodup (l : list Z) : StronglySorted Z.lt l -> NoDup l.
Proof.
  induction 1 as [|x l S IH F]; constructor; [|exact IH]. intros H. rewrite Forall_forall in F. apply F in H. lia.
Qed.
Definition chan_sum (d : sd) : Z := fold_right (fun c acc => snd (snd c) + acc) 0 (sd_chan d).
Lemma chan_sum_quantities d : ksorted (sd_chan d) -> chan_sum d = sumZ (map (quantity d) (get_edges d)).
Proof.
  intros S. unfold chan_sum. rewrite sum_quantities by (apply sorted_nodup; exact S). f_equal. apply map_ext_in. intros e He.
  unfold quantity, get_quantity. destruct (find_channel e (sd_chan d)); reflexivity.
Qed.
Lemma update_size_is d : update_size d = set_size (chan_sum d) d.
Proof.
  unfold update_size. rewrite fold_left_sum. fold (chan_sum d). destruct (Z.eqb_spec (0 + chan_sum d) (sd_size d)) as [E|E]; cbn [negb].
  - rewrite Z.add_0_l in E. rewrite E. destruct d; reflexivity.
  - rewrite Z.add_0_l. reflexivity.
Qed.

(** *** C40 *)
Lemma sd_do_inv c d : ksorted (sd_chan d) -> sd_size d = chan_sum d -> ksorted (sd_chan (sd_do c d)) /\ sd_size (sd_do c d) = chan_sum (sd_do c d).
Proof.
  intros S E. destruct c as [e q|e t|t]; cbn [sd_do].
  - unfold set_quantity. rewrite update_size_is. split; [apply put_quantity_sorted, S|reflexivity].
  - split; [apply put_tokens_sorted, S|]. unfold chan_sum. cbn. rewrite put_tokens_sum. exact E.
  - split; [exact S|exact E].
Qed.
Lemma sd_run_inv cs : forall d, ksorted (sd_chan d) -> sd_size d = chan_sum d -> ksorted (sd_chan (sd_run cs d)) /\ sd_size (sd_run cs d) = chan_sum (sd_run cs d).
Proof. induction cs as [|c cs IH]; intros d S E; [auto|]. destruct (sd_do_inv c d S E). apply (IH (sd_do c d)); auto. Qed.
Lemma sd_run_size cs d : channel_list (get_edges d) -> sd_size d = sumZ (map (quantity d) (get_edges d)) ->
  sd_size (sd_run cs d) = sumZ (map (quantity (sd_run cs d)) (get_edges (sd_run cs d))).
Proof.
  intros S E. rewrite <- chan_sum_quantities in E by exact S. destruct (sd_run_inv cs d S E) as [S' E']. rewrite E'. apply chan_sum_quantities, S'.
Qed.
Lemma sd_run_channels cs d : channel_list (get_edges d) -> channel_list (get_edges (sd_run cs d)).
Proof.
  intros S. change (ksorted (sd_chan (sd_run cs d))). assert (G : forall cs d, ksorted (sd_chan d) -> ksorted (sd_chan (sd_run cs d))); [|apply G; exact S]. clear.
  induction cs as [|c cs IH]; intros d S; [exact S|]. change (sd_run (c :: cs) d) with (sd_run cs (sd_do c d)). apply IH. destruct c as [e' q|e' t|t]; cbn [sd_do]; [|apply put_tokens_sorted, S|exact S].
  unfold set_quantity. rewrite update_size_is. apply put_quantity_sorted, S.
Qed.
Lemma sd_do_get c d e : ksorted (sd_chan d) ->
  get_quantity (sd_do c d) e = match c with
                               | SetQuantity e' q => if e =? e' then Ok q else get_quantity d e
                               | SetTokens e' t => if e =? e' then Ok (quantity d e) else get_quantity d e
                               | SetThroughput _ => get_quantity d e end.
Proof.
  intros S. destruct c as [e' q|e' t|t]; cbn [sd_do].
  - unfold set_quantity. rewrite update_size_is. unfold get_quantity. cbn. rewrite put_quantity_find by exact S. destruct (e =? e'); reflexivity.
  - unfold get_quantity, quantity. cbn. rewrite put_tokens_find by exact S. destruct (Z.eqb_spec e e') as [->|]; [|reflexivity].
    cbn. unfold get_quantity. destruct (find_channel e' (sd_chan d)); reflexivity.
  - reflexivity.
Qed.
Lemma sd_run_last e cs : forall d acc, ksorted (sd_chan d) -> 
  match acc with Some q => get_quantity d e = Ok q | None => True end ->
  match fold_left (fun acc c => match c with SetQuantity e' q => if e =? e' then Some q else acc | _ => acc end) cs acc with
  | Some q => get_quantity (sd_run cs d) e = Ok q
  | None => forall q, get_quantity d e = Ok q -> get_quantity (sd_run cs d) e = Ok q
  end.
Proof.
  induction cs as [|c cs IH]; intros d acc S A; [cbn; destruct acc; auto|].
  assert (S' : ksorted (sd_chan (sd_do c d))).
  { destruct c as [e' q|e' t|t]; cbn [sd_do]; [|apply put_tokens_sorted, S|exact S]. unfold set_quantity. rewrite update_size_is. apply put_quantity_sorted, S. }
  pose proof (sd_do_get c d e S) as G.
  assert (Q : forall q, get_quantity d e = Ok q -> quantity d e = q) by (intros q Eq; unfold quantity; rewrite Eq; reflexivity).
  specialize (IH (sd_do c d) (match c with SetQuantity e' q => if e =? e' then Some q else acc | _ => acc end) S').
  change (sd_run (c :: cs) d) with (sd_run cs (sd_do c d)). cbn [fold_left]. set (acc' := match c with SetQuantity _ _ => _ | _ => _ end) in *.
  assert (A' : match acc' with Some q => get_quantity (sd_do c d) e = Ok q | None => True end).
  { subst acc'. rewrite G. destruct c as [e' q|e' t|t]; [destruct (e =? e'); auto| |exact A]. destruct acc as [q|]; [|exact I].
    rewrite (Q q A), A. destruct (e =? e'); reflexivity. }
  specialize (IH A'). destruct (fold_left _ cs acc') eqn:F; [exact IH|]. intros q Eq. apply IH. rewrite G.
  destruct c as [e' q'|e' t|t]; [|destruct (e =? e'); [rewrite (Q q Eq); reflexivity|exact Eq]|exact Eq].
  destruct (Z.eqb_spec e e') as [->|]; [|exact Eq]. exfalso. subst acc'. clear - F. cbn in F.
  revert F. generalize q'. induction cs as [|c cs IH]; intros q0; cbn; [discriminate|]. destruct c as [e q|e t|t]; [|apply IH|apply IH].
  destruct (e' =? e); apply IH.
Qed.

(** ** Distributions over the same channels *)
Section Over.
Context (K : list Z) (HK : channel_list K).
Notation valid := (valid K). Notation same := (same K). Notation below := (below K).

Definition eqb (a b : sd) : bool := forallb (fun e => quantity a e =? quantity b e) K.
Definition leb (a b : sd) : bool := forallb (fun e => quantity a e <=? quantity b e) K.
Lemma eqb_same a b : eqb a b = true <-> same a b.
Proof. unfold eqb, StorageSpec.same. rewrite forallb_forall. setoid_rewrite Z.eqb_eq. reflexivity. Qed.
Lemma leb_below a b : leb a b = true <-> below a b.
Proof. unfold leb, StorageSpec.below. rewrite forallb_forall. setoid_rewrite Z.leb_le. reflexivity. Qed.
Lemma same_refl a : same a a. Proof. intros e _. reflexivity. Qed.
Lemma same_sym a b : same a b -> same b a. Proof. intros H e He. symmetry. auto. Qed.
Lemma same_trans a b c : same a b -> same b c -> same a c. Proof. intros H H' e He. rewrite H, H'; auto. Qed.
Lemma below_refl a : below a a. Proof. intros e _. lia. Qed.
Lemma below_trans a b c : below a b -> below b c -> below a c. Proof. intros H H' e He. specialize (H e He). specialize (H' e He). lia. Qed.
Lemma same_below a b : same a b -> below a b. Proof. intros H e He. rewrite H; auto. lia. Qed.
Lemma below_antisym a b : below a b -> below b a -> same a b. Proof. intros H H' e He. specialize (H e He). specialize (H' e He). lia. Qed.
Lemma same_size a b : valid a -> valid b -> same a b -> sd_size a = sd_size b.
Proof. intros Va Vb H. rewrite (valid_size _ _ Va), (valid_size _ _ Vb). f_equal. apply map_ext_in. exact H. Qed.
Lemma below_size a b : valid a -> valid b -> below a b -> sd_size a <= sd_size b.
Proof.
  intros Va Vb H. rewrite (valid_size _ _ Va), (valid_size _ _ Vb). clear Va Vb HK. revert H. unfold StorageSpec.below. induction K as [|e K' IH]; intros H; cbn [map]; [cbn; lia|].
  change (sumZ (?x :: ?l)) with (x + sumZ l). specialize (H e (or_introl eq_refl)) as H1. assert (sumZ (map (quantity a) K') <= sumZ (map (quantity b) K')); [|lia].
  apply IH. intros; apply H; right; auto.
Qed.

Lemma stop_when_ok r a b v : forall es, incl es K -> valid a -> valid b ->
  stop_when (compare_quantities r a b) v es = Ok (if existsb (fun e => r (quantity a e) (quantity b e)) es then v else negb v).
Proof.
  induction es as [|e es IH]; intros I Va Vb; [reflexivity|]. cbn [stop_when existsb]. unfold compare_quantities at 1.
  rewrite !get_quantity_in by (rewrite ?(valid_edges _ _ Va), ?(valid_edges _ _ Vb); apply I; left; reflexivity). cbn [bind].
  destruct (r (quantity a e) (quantity b e)); [reflexivity|]. apply IH; auto. intros x Hx. apply I; right; exact Hx.
Qed.
Lemma existsb_forallb {A} (p q : A -> bool) l : (forall x, In x l -> p x = negb (q x)) -> existsb p l = negb (forallb q l).
Proof. intros H. induction l as [|x l IH]; [reflexivity|]. cbn. rewrite H by (left; reflexivity). rewrite IH by (intros; apply H; right; auto). destruct (q x); reflexivity. Qed.
Lemma sd_eq_ok a b : valid a -> valid b -> sd_eq a b = Ok (eqb a b).
Proof.
  intros Va Vb. unfold sd_eq. rewrite (valid_count _ _ Va), (valid_count _ _ Vb), Z.eqb_refl. cbn [cassert bind]. rewrite (valid_edges _ _ Va).
  rewrite stop_when_ok by (auto; apply incl_refl). rewrite (existsb_forallb _ (fun e => quantity a e =? quantity b e)) by reflexivity.
  unfold eqb. destruct (forallb _ K); reflexivity.
Qed.
Lemma sd_neq_ok a b : valid a -> valid b -> sd_neq a b = Ok (negb (eqb a b)).
Proof.
  intros Va Vb. unfold sd_neq. rewrite (valid_count _ _ Va), (valid_count _ _ Vb), Z.eqb_refl. cbn [cassert bind]. rewrite (valid_edges _ _ Va).
  rewrite stop_when_ok by (auto; apply incl_refl). rewrite (existsb_forallb _ (fun e => quantity a e =? quantity b e)) by reflexivity.
  unfold eqb. destruct (forallb _ K); reflexivity.
Qed.
Lemma back_ok a b : valid a -> valid b -> in_back_cone_of a b = Ok (leb a b).
Proof.
  intros Va Vb. unfold in_back_cone_of. rewrite (valid_edges _ _ Va). rewrite stop_when_ok by (auto; apply incl_refl).
  rewrite (existsb_forallb _ (fun e => quantity a e <=? quantity b e)). 2: { intros e _. destruct (Z.leb_spec (quantity a e) (quantity b e)); lia. }
  unfold leb. destruct (forallb _ K); reflexivity.
Qed.
Lemma fore_ok a b : valid a -> valid b -> in_for_cone_of a b = Ok (leb b a).
Proof.
  intros Va Vb. unfold in_for_cone_of. rewrite (valid_edges _ _ Va). rewrite stop_when_ok by (auto; apply incl_refl).
  rewrite (existsb_forallb _ (fun e => quantity b e <=? quantity a e)). 2: { intros e _. destruct (Z.leb_spec (quantity b e) (quantity a e)); lia. }
  unfold leb. destruct (forallb _ K); reflexivity.
Qed.
Lemma valid_sorted d : valid d -> ksorted (sd_chan d).
Proof. intros V. unfold ksorted. change (map fst (sd_chan d)) with (get_edges d). rewrite (valid_edges _ _ V). exact HK. Qed.
Lemma set_quantity_quantity d e q e' : valid d -> quantity (set_quantity e q d) e' = if e' =? e then q else quantity d e'.
Proof.
  intros V. unfold quantity. change (set_quantity e q d) with (sd_do (SetQuantity e q) d). rewrite (sd_do_get (SetQuantity e q) d e' (valid_sorted d V)).
  destruct (e' =? e); reflexivity.
Qed.
Lemma set_quantity_valid d e q : valid d -> In e K -> valid (set_quantity e q d).
Proof.
  intros V He. pose proof (valid_sorted d V) as S. destruct (sd_do_inv (SetQuantity e q) d S) as [S' E'].
  { rewrite chan_sum_quantities by exact S. rewrite (valid_edges _ _ V). apply (valid_size _ _ V). }
  cbn [sd_do] in *. assert (E : get_edges (set_quantity e q d) = K).
  { unfold set_quantity. rewrite update_size_is. unfold get_edges. cbn. rewrite put_quantity_same_keys; [apply (valid_edges _ _ V)|exact S|].
    change (map fst (sd_chan d)) with (get_edges d). rewrite (valid_edges _ _ V). exact He. }
  constructor; [exact E| |].
  - unfold set_quantity. rewrite update_size_is. apply (valid_count _ _ V).
  - rewrite E'. rewrite chan_sum_quantities by exact S'. rewrite E. reflexivity.
Qed.

(** *** C45 *)
Lemma minimal_loop_ok a b : valid a -> valid b -> forall es acc, incl es K -> NoDup es -> valid acc ->
  exists d, minimal_loop a b es acc = Ok d /\ valid d /\
    (forall e, quantity d e = if existsb (Z.eqb e) es then Z.min (quantity a e) (quantity b e) else quantity acc e).
Proof.
  intros Va Vb. induction es as [|e es IH]; intros acc I N Vc; cbn [minimal_loop].
  - exists acc. auto.
  - assert (He : In e K) by (apply I; left; reflexivity).
    rewrite !get_quantity_in by (rewrite ?(valid_edges _ _ Va), ?(valid_edges _ _ Vb); exact He). cbn [bind]. inversion N as [|? ? N1 N2]; subst.
    destruct (IH (set_quantity e (Z.min (quantity a e) (quantity b e)) acc)) as (d & E & V & Q); auto.
    { intros x Hx; apply I; right; exact Hx. } { apply set_quantity_valid; auto. }
    exists d. split; [exact E|]. split; [exact V|]. intros e'. rewrite Q. rewrite set_quantity_quantity by exact Vc. cbn [existsb].
    destruct (Z.eqb_spec e' e) as [->|]; cbn [orb]; [|reflexivity]. destruct (existsb (Z.eqb e) es); reflexivity.
Qed.
Lemma make_minimal_ok a b : valid a -> valid b -> exists d, make_minimal a b = Ok d /\ valid d /\ forall e, In e K -> quantity d e = Z.min (quantity a e) (quantity b e).
Proof.
  intros Va Vb. unfold make_minimal. rewrite (valid_edges _ _ Va). destruct (minimal_loop_ok a b Va Vb K a) as (d & E & V & Q); auto using incl_refl, sorted_nodup.
  exists d. split; [exact E|]. split; [exact V|]. intros e He. rewrite Q. replace (existsb (Z.eqb e) K) with true; [reflexivity|].
  symmetry. apply existsb_exists. exists e. rewrite Z.eqb_refl. auto.
Qed.

(** ** Sets *)
Record wf (s : sds) : Prop := {
  wf_sorted : ksorted (ss_map s);
  wf_bucket : forall k l, In (k, l) (ss_map s) -> l <> [] /\ forall d, In d l -> valid d /\ sd_size d = k;
  wf_uniq : ForallOrdPairs (fun a b => ~ same a b) (flat s) }.
Lemma wf_empty : wf sds_empty.
Proof. constructor; cbn; [constructor|intros ? ? []|constructor]. Qed.
Lemma in_flat s x : In x (flat s) <-> exists k l, In (k, l) (ss_map s) /\ In x l.
Proof.
  unfold flat. rewrite in_concat. split.
  - intros (l & Hl & Hx). apply in_map_iff in Hl as ((k & l') & <- & H). eauto.
  - intros (k & l & H & Hx). exists l. split; [|exact Hx]. apply in_map_iff. exists (k, l). auto.
Qed.
Lemma wf_valid s x : wf s -> In x (flat s) -> valid x.
Proof. intros W H. apply in_flat in H as (k & l & H & Hx). apply (wf_bucket s W k l H). exact Hx. Qed.
Lemma wf_at s x : wf s -> In x (flat s) -> exists l, In (sd_size x, l) (ss_map s) /\ In x l.
Proof. intros W H. apply in_flat in H as (k & l & H & Hx). exists l. destruct (wf_bucket s W k l H) as [_ B]. destruct (B x Hx) as [_ ->]. auto. Qed.
Lemma find_bucket_in k : forall (m : buckets) l, find_bucket k m = Some l -> In (k, l) m.
Proof. induction m as [|[k' l'] m IH]; cbn; intros l E; [discriminate|]. destruct (Z.eqb_spec k k') as [->|]; [injection E as ->; auto|auto]. Qed.
Lemma find_bucket_none k : forall (m : buckets), find_bucket k m = None -> forall l, ~ In (k, l) m.
Proof. induction m as [|[k' l'] m IH]; cbn; intros E l; [tauto|]. destruct (Z.eqb_spec k k') as [->|N]; [discriminate|]. intros [H|H]; [congruence|]. apply (IH E l H). Qed.
Lemma in_find_bucket k l : forall (m : buckets), ksorted m -> In (k, l) m -> find_bucket k m = Some l.
Proof.
  unfold ksorted. induction m as [|[k' l'] m IH]; cbn; intros S H; [tauto|]. inversion S as [|? ? S1 F]; subst. rewrite Forall_forall in F.
  destruct H as [H|H]; [injection H as -> ->; rewrite Z.eqb_refl; reflexivity|]. destruct (Z.eqb_spec k k') as [->|]; [|auto].
  specialize (F k'). enough (k' < k') by lia. apply F. apply in_map_iff. exists (k', l). auto.
Qed.
Lemma put_bucket_keys k l : forall m x, In x (map fst (put_bucket k l m)) <-> x = k \/ In x (map fst m).
Proof.
  induction m as [|[k' l'] m IH]; cbn; intros x; [intuition congruence|]. destruct (k <? k'); cbn; [intuition congruence|].
  destruct (Z.eqb_spec k k') as [->|N]; cbn; [intuition congruence|]. rewrite IH. intuition congruence.
Qed.
Lemma put_bucket_sorted k l : forall m, ksorted m -> ksorted (put_bucket k l m).
Proof.
  unfold ksorted. induction m as [|[k' l'] m IH]; cbn; intros S; [repeat constructor|]. inversion S as [|? ? S1 F]; subst.
  destruct (Z.ltb_spec k k') as [L|L]; cbn.
  - constructor; [exact S|]. constructor; [exact L|]. eapply Forall_impl; [|exact F]. cbn. intros; lia.
  - destruct (Z.eqb_spec k k') as [->|N]; cbn; [exact S|]. constructor; [auto|]. apply Forall_forall. intros x Hx. apply put_bucket_keys in Hx.
    destruct Hx as [->|Hx]; [lia|]. rewrite Forall_forall in F. auto.
Qed.
Lemma put_bucket_in k l : forall m, ksorted m -> forall k0 l0, In (k0, l0) (put_bucket k l m) <-> (k0 = k /\ l0 = l) \/ (k0 <> k /\ In (k0, l0) m).
Proof.
  unfold ksorted. induction m as [|[k' l'] m IH]; cbn; intros S k0 l0; [intuition congruence|]. inversion S as [|? ? S1 F]; subst. rewrite Forall_forall in F.
  assert (G : forall l1, In (k0, l1) m -> k' < k0) by (intros l1 H; apply F; apply in_map_iff; exists (k0, l1); auto).
  destruct (Z.ltb_spec k k') as [L|L]; cbn.
  - split; [|intuition congruence]. intros [H|[H|H]]; [left; split; congruence| |]; right; split; auto; [injection H as -> ->; lia|]. apply G in H. lia.
  - destruct (Z.eqb_spec k k') as [->|N]; cbn.
    + split; [|intuition congruence]. intros [H|H]; [left; split; congruence|]. right. split; auto. apply G in H. lia.
    + rewrite IH by exact S1. split; [|intuition congruence]. intros [H|H]; [right; split; [injection H as -> ->; congruence|auto]|]. intuition auto.
Qed.
Lemma erase_bucket_in k : forall m, ksorted m -> forall k0 l0, In (k0, l0) (erase_bucket k m) <-> k0 <> k /\ In (k0, l0) m.
Proof.
  unfold ksorted. induction m as [|[k' l'] m IH]; cbn; intros S k0 l0; [intuition congruence|]. inversion S as [|? ? S1 F]; subst. rewrite Forall_forall in F.
  assert (G : forall l1, In (k0, l1) m -> k' < k0) by (intros l1 H; apply F; apply in_map_iff; exists (k0, l1); auto).
  destruct (Z.eqb_spec k k') as [->|N]; cbn.
  - split; [intros H; split; [apply G in H; lia|auto]|]. intros [N [H|H]]; [congruence|exact H].
  - rewrite IH by exact S1. split; [|intuition congruence]. intros [H|[N' H]]; [split; [injection H as -> ->; congruence|auto]|auto].
Qed.
Lemma erase_bucket_sorted k : forall m, ksorted m -> ksorted (erase_bucket k m).
Proof.
  unfold ksorted. induction m as [|[k' l'] m IH]; cbn; intros S; [exact S|]. inversion S as [|? ? S1 F]; subst. destruct (Z.eqb_spec k k'); [exact S1|]. cbn.
  constructor; [auto|]. apply Forall_forall. intros x Hx. rewrite Forall_forall in F. apply F. apply in_map_iff in Hx as ((x' & l) & <- & H). cbn.
  apply erase_bucket_in in H; [|exact S1]. apply in_map_iff. exists (x', l). tauto.
Qed.

(** Uniqueness of the flattened list, bucket by bucket. *)
Lemma fop_app {A} (R : A -> A -> Prop) l1 l2 : ForallOrdPairs R l1 -> ForallOrdPairs R l2 -> (forall x y, In x l1 -> In y l2 -> R x y) -> ForallOrdPairs R (l1 ++ l2).
Proof.
  induction 1 as [|a l F H IH]; intros H2 X; [exact H2|]. cbn. constructor.
  - apply Forall_app. split; [exact F|]. apply Forall_forall. intros y Hy. apply X; [left; reflexivity|exact Hy].
  - apply IH; auto. intros x y Hx Hy. apply X; [right; exact Hx|exact Hy].
Qed.
Lemma fop_app_inv {A} (R : A -> A -> Prop) l1 l2 : ForallOrdPairs R (l1 ++ l2) -> ForallOrdPairs R l1 /\ ForallOrdPairs R l2 /\ (forall x y, In x l1 -> In y l2 -> R x y).
Proof.
  induction l1 as [|a l1 IH]; cbn; intros H; [repeat split; [constructor|exact H|intros ? ? []]|]. inversion H as [|? ? F H1]; subst. apply Forall_app in F as [F1 F2].
  destruct (IH H1) as (U1 & U2 & X). repeat split; auto; [constructor; auto|]. intros x y [<-|Hx] Hy; [rewrite Forall_forall in F2; auto|auto].
Qed.
Lemma buckets_uniq : forall (m : buckets), ksorted m -> (forall k l, In (k, l) m -> forall d, In d l -> valid d /\ sd_size d = k) ->
  (forall k l, In (k, l) m -> ForallOrdPairs (fun a b => ~ same a b) l) -> ForallOrdPairs (fun a b => ~ same a b) (concat (map snd m)).
Proof.
  unfold ksorted. induction m as [|[k l] m IH]; cbn; intros S B U; [constructor|]. inversion S as [|? ? S1 F]; subst. rewrite Forall_forall in F. apply fop_app.
  - apply (U k l). auto.
  - apply IH; eauto.
  - intros x y Hx Hy Hs. apply in_concat in Hy as (l' & Hl & Hy). apply in_map_iff in Hl as ((k' & l'') & <- & H). cbn in Hy.
    destruct (B k l (or_introl eq_refl) x Hx) as [Vx Ex]. destruct (B k' l'' (or_intror H) y Hy) as [Vy Ey].
    pose proof (same_size x y Vx Vy Hs). specialize (F k'). assert (k < k') by (apply F; apply in_map_iff; exists (k', l''); auto). lia.
Qed.
Lemma bucket_uniq s k l : wf s -> In (k, l) (ss_map s) -> ForallOrdPairs (fun a b => ~ same a b) l.
Proof.
  intros W H. pose proof (wf_uniq s W) as U. unfold flat in U. apply in_split in H as (m1 & m2 & E). rewrite E, map_app, concat_app in U. cbn in U.
  apply fop_app_inv in U as (_ & U & _). apply fop_app_inv in U as (U & _). exact U.
Qed.
Lemma wf_intro m p : ksorted m -> (forall k l, In (k, l) m -> l <> [] /\ (forall d, In d l -> valid d /\ sd_size d = k) /\ ForallOrdPairs (fun a b => ~ same a b) l) -> wf (mkSDS m p).
Proof.
  intros S B. constructor; cbn; [exact S|intros k l H; destruct (B k l H) as (N & V & _); auto|]. apply buckets_uniq; auto; intros k l H; destruct (B k l H) as (N & V & U); auto.
Qed.

Lemma matches_one_ok d : valid d -> forall l, (forall x, In x l -> valid x) -> matches_one d l = Ok (existsb (eqb d) l).
Proof.
  intros V. induction l as [|x l IH]; intros H; [reflexivity|]. cbn. rewrite sd_eq_ok by (auto; apply H; left; reflexivity). cbn.
  destruct (eqb d x); [reflexivity|]. apply IH. intros; apply H; right; auto.
Qed.
Lemma remove_matching_ok d : valid d -> forall l, (forall x, In x l -> valid x) -> remove_matching d l = Ok (filter (fun x => negb (eqb x d)) l).
Proof.
  intros V. induction l as [|x l IH]; intros H; [reflexivity|]. cbn. rewrite sd_eq_ok by (auto; apply H; left; reflexivity). cbn.
  rewrite IH by (intros; apply H; right; auto). cbn. destruct (eqb x d); reflexivity.
Qed.
Lemma fop_filter {A} (R : A -> A -> Prop) f l : ForallOrdPairs R l -> ForallOrdPairs R (filter f l).
Proof.
  induction 1 as [|a l F H IH]; cbn; [constructor|]. destruct (f a); [|exact IH]. constructor; [|exact IH].
  apply Forall_forall. intros x Hx. apply filter_In in Hx as [Hx _]. rewrite Forall_forall in F. auto.
Qed.

(** Up to equal quantities, [add_sd] is insertion and [remove_sd] deletion. *)
Lemma add_sd_ok d s : valid d -> wf s -> exists s', add_sd d s = Ok s' /\ wf s' /\
  (forall x, In x (flat s') <-> In x (flat s) \/ (x = d /\ forall y, In y (flat s) -> ~ same d y)).
Proof.
  intros V W. unfold add_sd. destruct (find_bucket (sd_size d) (ss_map s)) as [l|] eqn:E.
  - pose proof (find_bucket_in _ _ _ E) as Hin. destruct (wf_bucket s W _ _ Hin) as [Nl B]. rewrite matches_one_ok by (auto; intros x Hx; apply B, Hx). cbn [bind].
    assert (X : existsb (eqb d) l = true <-> exists y, In y (flat s) /\ same d y).
    { rewrite existsb_exists. split.
      - intros (y & Hy & Hs). exists y. split; [apply in_flat; eauto|apply eqb_same, Hs].
      - intros (y & Hy & Hs). exists y. split; [|apply eqb_same, Hs]. destruct (wf_at s y W Hy) as (l' & Hl & Hy').
        rewrite <- (same_size d y V (wf_valid s y W Hy) Hs) in Hl. apply (in_find_bucket _ _ _ (wf_sorted s W)) in Hl. congruence. }
    destruct (existsb (eqb d) l) eqn:F.
    + exists s. split; [reflexivity|]. split; [exact W|]. intros x. split; [auto|]. intros [H|[-> H]]; [exact H|]. destruct (proj1 X eq_refl) as (y & Hy & Hs). destruct (H y Hy Hs).
    + assert (NX : forall y, In y (flat s) -> ~ same d y). { intros y Hy Hs. enough (false = true) by discriminate. apply X. eauto. }
      eexists. split; [reflexivity|]. split.
      * apply wf_intro; [apply put_bucket_sorted, (wf_sorted s W)|]. intros k l0 H. apply put_bucket_in in H; [|apply (wf_sorted s W)]. destruct H as [[-> ->]|[N H]].
        -- split; [destruct l; discriminate|]. split; [intros x Hx; apply in_app_or in Hx as [Hx|[<-|[]]]; [apply B, Hx|auto]|].
           apply fop_app; [apply (bucket_uniq s _ _ W Hin)|repeat constructor|]. intros x y Hx [<-|[]] Hs. apply (NX x); [apply in_flat; eauto|apply same_sym, Hs].
        -- destruct (wf_bucket s W _ _ H). split; auto. split; auto. apply (bucket_uniq s _ _ W H).
      * intros x. rewrite in_flat. cbn [ss_map]. split.
        -- intros (k & l0 & H & Hx). apply put_bucket_in in H; [|apply (wf_sorted s W)]. destruct H as [[-> ->]|[N H]].
           ++ apply in_app_or in Hx as [Hx|[<-|[]]]; [left; apply in_flat; eauto|right; auto].
           ++ left. apply in_flat. eauto.
        -- intros [H|[-> H]].
           ++ apply in_flat in H as (k & l0 & H & Hx). destruct (Z.eq_dec k (sd_size d)) as [->|N].
              ** exists (sd_size d), (l ++ [d]). split; [apply put_bucket_in; [apply (wf_sorted s W)|auto]|]. apply (in_find_bucket _ _ _ (wf_sorted s W)) in H.
                 apply in_or_app. left. congruence.
              ** exists k, l0. split; [apply put_bucket_in; [apply (wf_sorted s W)|auto]|exact Hx].
           ++ exists (sd_size d), (l ++ [d]). split; [apply put_bucket_in; [apply (wf_sorted s W)|auto]|]. apply in_or_app. right. left. reflexivity.
  - pose proof (find_bucket_none _ _ E) as Hno.
    assert (NX : forall y, In y (flat s) -> ~ same d y).
    { intros y Hy Hs. destruct (wf_at s y W Hy) as (l' & Hl & _). rewrite <- (same_size d y V (wf_valid s y W Hy) Hs) in Hl. apply (Hno l' Hl). }
    eexists. split; [reflexivity|]. split.
    + apply wf_intro; [apply put_bucket_sorted, (wf_sorted s W)|]. intros k l0 H. apply put_bucket_in in H; [|apply (wf_sorted s W)]. destruct H as [[-> ->]|[N H]].
      * split; [discriminate|]. split; [intros x [<-|[]]; auto|repeat constructor].
      * destruct (wf_bucket s W _ _ H). split; auto. split; auto. apply (bucket_uniq s _ _ W H).
    + intros x. rewrite in_flat. cbn [ss_map]. split.
      * intros (k & l0 & H & Hx). apply put_bucket_in in H; [|apply (wf_sorted s W)]. destruct H as [[-> ->]|[N H]].
        -- destruct Hx as [<-|[]]. auto.
        -- left. apply in_flat. eauto.
      * intros [H|[-> H]].
        -- apply in_flat in H as (k & l0 & H & Hx). exists k, l0. split; [|exact Hx]. apply put_bucket_in; [apply (wf_sorted s W)|]. right. split; [|exact H]. intros ->. apply (Hno l0 H).
        -- exists (sd_size d), [d]. split; [apply put_bucket_in; [apply (wf_sorted s W)|auto]|left; reflexivity].
Qed.
Lemma remove_sd_ok d s : valid d -> wf s -> exists s', remove_sd d s = Ok s' /\ wf s' /\
  (forall x, In x (flat s') <-> In x (flat s) /\ ~ same x d).
Proof.
  intros V W. unfold remove_sd. pose proof (wf_sorted s W) as S.
  assert (B : forall x, In x (bucket_or_new (sd_size d) (ss_map s)) <-> In x (flat s) /\ sd_size x = sd_size d).
  { intros x. unfold bucket_or_new. destruct (find_bucket (sd_size d) (ss_map s)) as [l|] eqn:E.
    - pose proof (find_bucket_in _ _ _ E) as Hin. split.
      + intros Hx. split; [apply in_flat; eauto|]. apply (wf_bucket s W _ _ Hin), Hx.
      + intros [Hx Es]. destruct (wf_at s x W Hx) as (l' & Hl & Hx'). rewrite Es in Hl. apply (in_find_bucket _ _ _ S) in Hl. congruence.
    - split; [intros []|]. intros [Hx Es]. destruct (wf_at s x W Hx) as (l' & Hl & Hx'). rewrite Es in Hl. destruct (find_bucket_none _ _ E l' Hl). }
  assert (U : ForallOrdPairs (fun a b => ~ same a b) (bucket_or_new (sd_size d) (ss_map s))).
  { unfold bucket_or_new. destruct (find_bucket (sd_size d) (ss_map s)) as [l|] eqn:E; [|constructor]. apply (bucket_uniq s _ _ W (find_bucket_in _ _ _ E)). }
  rewrite remove_matching_ok by (auto; intros x Hx; apply B in Hx as [Hx _]; eapply wf_valid; eauto). cbn [bind].
  set (kept := filter _ _). assert (Hk : forall x, In x kept <-> In x (flat s) /\ sd_size x = sd_size d /\ ~ same x d).
  { intros x. unfold kept. rewrite filter_In, B, negb_true_iff, <- not_true_iff_false, eqb_same. tauto. }
  assert (Uk : ForallOrdPairs (fun a b => ~ same a b) kept) by (apply fop_filter, U).
  assert (M : forall k l, In (k, l) (match kept with [] => erase_bucket (sd_size d) (put_bucket (sd_size d) kept (ss_map s)) | _ => put_bucket (sd_size d) kept (ss_map s) end) <->
                          (k = sd_size d /\ l = kept /\ kept <> []) \/ (k <> sd_size d /\ In (k, l) (ss_map s))).
  { intros k l. destruct kept as [|x0 kept']; [rewrite erase_bucket_in by (apply put_bucket_sorted, S)|]; rewrite put_bucket_in by exact S; intuition congruence. }
  assert (S' : ksorted (match kept with [] => erase_bucket (sd_size d) (put_bucket (sd_size d) kept (ss_map s)) | _ => put_bucket (sd_size d) kept (ss_map s) end)).
  { destruct kept; [apply erase_bucket_sorted|]; apply put_bucket_sorted, S. }
  eexists. split; [reflexivity|]. set (m' := match kept with [] => _ | _ => _ end) in *. split.
  - apply wf_intro; [exact S'|]. intros k l H. apply M in H as [(-> & -> & N)|(N & H)].
    + split; [exact N|]. split; [|exact Uk]. intros x Hx. apply Hk in Hx as (Hx & E & _). split; [eapply wf_valid; eauto|exact E].
    + destruct (wf_bucket s W _ _ H). split; auto. split; auto. apply (bucket_uniq s _ _ W H).
  - intros x. rewrite in_flat. cbn [ss_map]. split.
    + intros (k & l & H & Hx). apply M in H as [(-> & -> & N)|(N & H)].
      * apply Hk in Hx. tauto.
      * split; [apply in_flat; eauto|]. destruct (wf_bucket s W _ _ H) as [_ Bx]. destruct (Bx x Hx) as [Vx Ex]. intros Hs. apply (same_size x d Vx V) in Hs. congruence.
    + intros [Hx N]. destruct (Z.eq_dec (sd_size x) (sd_size d)) as [E|E].
      * exists (sd_size d), kept. assert (In x kept) by (apply Hk; auto). split; [|auto]. apply M. left. split; [auto|]. split; [auto|]. intros E0. rewrite E0 in *. contradiction.
      * destruct (wf_at s x W Hx) as (l & Hl & Hx'). exists (sd_size x), l. split; [|exact Hx']. apply M. auto.
Qed.
End Over.
