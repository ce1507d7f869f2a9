(** Proofs about the task order and the removal of the cycles. *)
From Coq Require Import Relations Permutation ZifyBool ZifyNat.
From Verif Require Import Base NocPath Mapper MapperSpec MapperProofs TaskOrder TaskOrderSpec.
Open Scope nat_scope.

Local Notation occ := (count_occ Nat.eq_dec).

(** ** The order of the tasks *)
Lemma add_ids (f : chan -> Z) : forall l b, NoDup (map c_id l) ->
  (forall c, In c l -> fold_left (fun b c => set_at b (c_id c) (b (c_id c) + f c)%Z) l b (c_id c) = (b (c_id c) + f c)%Z) /\
  (forall k, ~ In k (map c_id l) -> fold_left (fun b c => set_at b (c_id c) (b (c_id c) + f c)%Z) l b k = b k).
Proof.
  induction l as [|c l IH]; intros b ND; [split; [intros c []|reflexivity]|]. cbn [map fold_left] in *. inversion ND as [|? ? Nc ND']; subst.
  destruct (IH (set_at b (c_id c) (b (c_id c) + f c)%Z) ND') as [H1 H2]. split.
  - intros c' [->|Hc]; [rewrite (H2 _ Nc); unfold set_at; now rewrite Nat.eqb_refl|]. rewrite (H1 _ Hc). unfold set_at.
    destruct (c_id c' =? c_id c) eqn:B; [|reflexivity]. apply Nat.eqb_eq in B. destruct Nc. rewrite <- B. now apply in_map.
  - intros k Hk. cbn [In] in Hk. rewrite H2 by tauto. unfold set_at. destruct (k =? c_id c) eqn:B; [|reflexivity]. apply Nat.eqb_eq in B. subst. tauto.
Qed.
Lemma put_ids : forall l b, NoDup (map c_id l) -> 
  (forall c, In c l -> fold_left (fun b c => set_at b (c_id c) (c_tokens c)) l b (c_id c) = c_tokens c) /\
  (forall k, ~ In k (map c_id l) -> fold_left (fun b c => set_at b (c_id c) (c_tokens c)) l b k = b k).
Proof.
  induction l as [|c l IH]; intros b ND; [split; [intros c []|reflexivity]|]. cbn [map fold_left] in *. inversion ND as [|? ? Nc ND']; subst.
  destruct (IH (set_at b (c_id c) (c_tokens c)) ND') as [H1 H2]. split.
  - intros c' [->|Hc]; [rewrite (H2 _ Nc); unfold set_at; now rewrite Nat.eqb_refl|]. apply (H1 _ Hc).
  - intros k Hk. cbn [In] in Hk. rewrite H2 by tauto. unfold set_at. destruct (k =? c_id c) eqn:B; [|reflexivity]. apply Nat.eqb_eq in B. subst. tauto.
Qed.
Lemma nodup_ids_filter (P : chan -> bool) : forall l, NoDup (map c_id l) -> NoDup (map c_id (filter P l)).
Proof.
  induction l as [|c l IH]; intros ND; [exact ND|]. cbn [map filter] in *. inversion ND as [|? ? Nc ND']; subst. destruct (P c); [|auto].
  cbn [map]. constructor; [|auto]. intros H. apply Nc. apply in_map_iff in H. destruct H as (x & <- & Hx). apply filter_In in Hx. apply in_map, Hx.
Qed.
Lemma id_inj : forall l c c', NoDup (map c_id l) -> In c l -> In c' l -> c_id c = c_id c' -> c = c'.
Proof.
  induction l as [|x l IH]; intros c c' ND H H' E; [destruct H|]. cbn [map] in ND. inversion ND as [|? ? Nx ND']; subst.
  destruct H as [->|H], H' as [->|H']; [reflexivity| | |eauto]; exfalso; apply Nx; [rewrite E|rewrite <- E]; now apply in_map.
Qed.
(** A loop over some of the channels. *)
Lemma add_filter (P : chan -> bool) (f : chan -> Z) cs b c : NoDup (map c_id cs) -> In c cs ->
  fold_left (fun b c => set_at b (c_id c) (b (c_id c) + f c)%Z) (filter P cs) b (c_id c) = (b (c_id c) + if P c then f c else 0)%Z.
Proof.
  intros ND Hc. destruct (add_ids f (filter P cs) b (nodup_ids_filter P cs ND)) as [H1 H2]. destruct (P c) eqn:B.
  - apply H1, filter_In. tauto.
  - rewrite H2; [lia|]. intros H. apply in_map_iff in H. destruct H as (x & E & Hx). apply filter_In in Hx. destruct Hx as [Hx Bx].
    rewrite (id_inj cs x c ND Hx Hc E) in Bx. congruence.
Qed.

Lemma occ_app a b t : occ (a ++ b) t = occ a t + occ b t.
Proof. apply count_occ_app. Qed.
Lemma occ_one x t : occ [x] t = if x =? t then 1 else 0.
Proof. cbn. destruct (Nat.eq_dec x t), (x =? t) eqn:B; try reflexivity; [apply Nat.eqb_neq in B|apply Nat.eqb_eq in B]; congruence. Qed.

Lemma tokens_snoc c s t :
  tokens_after c (s ++ [t]) = (tokens_after c s + (if (c_src c =? t)%nat then c_in c else 0) - (if (c_dst c =? t)%nat then c_out c else 0))%Z.
Proof. unfold tokens_after. rewrite !occ_app, !occ_one, (Nat.eqb_sym t), (Nat.eqb_sym t). destruct (c_src c =? t), (c_dst c =? t); lia. Qed.

Lemma admissible_snoc cs s t : admissible cs s -> (forall c, In c cs -> c_dst c = t -> (c_out c <= tokens_after c s)%Z) -> admissible cs (s ++ [t]).
Proof.
  intros A H p x q E c Hc D. destruct (exists_last (l := x :: q) ltac:(discriminate)) as (q' & y & Eq). rewrite Eq, app_assoc in E. apply app_inj_tail in E. destruct E as [-> ->].
  destruct q' as [|z q']; [injection Eq as -> _; rewrite app_nil_r in H; exact (H c Hc D)|]. injection Eq as -> _. exact (A p z q' eq_refl c Hc D).
Qed.

Lemma first_order_old l s t : in_first_order l s -> In t s -> in_first_order l (s ++ [t]).
Proof.
  intros (ND & Eq & H) Ht. split; [exact ND|]. split; [intros x; rewrite in_app_iff; cbn [In]; rewrite Eq; split; [auto|intros [X|[<-|[]]]; assumption]|].
  intros a x b E. destruct (H a x b E) as (p & q & -> & Np & Pa). exists p, (q ++ [t]). rewrite <- app_assoc. auto.
Qed.
Lemma first_order_new l s t : in_first_order l s -> ~ In t s -> in_first_order (l ++ [t]) (s ++ [t]).
Proof.
  intros (ND & Eq & H) Ht. split; [|split].
  - apply nodup_app; [exact ND|repeat constructor; intros []|]. intros x Hx [<-|[]]. apply Ht, Eq, Hx.
  - intros x. rewrite !in_app_iff, Eq. reflexivity.
  - intros a x b E. destruct (exists_last (l := x :: b) ltac:(discriminate)) as (b' & y & Eb). rewrite Eb, app_assoc in E. apply app_inj_tail in E. destruct E as [-> ->].
    destruct b' as [|z b']; [injection Eb as -> _; rewrite app_nil_r in *; exists s, []; auto|]. injection Eb as -> _.
    destruct (H a z b' eq_refl) as (p & q & -> & Np & Pa). exists p, (q ++ [y]). rewrite <- app_assoc. auto.
Qed.

(** The first execution of [u] beyond those of [s]. *)
Lemma first_more s : forall u, (exists x, occ s x < occ u x) -> exists p t q, u = p ++ t :: q /\ (forall x, occ p x <= occ s x) /\ occ p t = occ s t.
Proof.
  induction u as [|y u IH] using rev_ind; intros (x & L); [cbn in L; lia|].
  destruct (Forall_dec (fun x => occ u x <= occ s x) (fun x => le_dec _ _) u) as [F|F].
  - assert (All : forall x, occ u x <= occ s x). { intros z. destruct (in_dec Nat.eq_dec z u) as [I|I]; [rewrite Forall_forall in F; auto|]. apply (count_occ_not_In Nat.eq_dec) in I. lia. }
    exists u, y, []. split; [reflexivity|]. split; [exact All|]. rewrite occ_app, occ_one in L. pose proof (All x). pose proof (All y). destruct (y =? x) eqn:B; [apply Nat.eqb_eq in B; subst; lia|lia].
  - assert (E : exists x, occ s x < occ u x). { clear - F. apply neg_Forall_Exists_neg in F; [|intros; apply le_dec]. apply Exists_exists in F. destruct F as (x & _ & H). exists x. lia. }
    destruct (IH E) as (p & t & q & -> & Q1 & Q2). exists p, t, (q ++ [y]). rewrite <- app_assoc. auto.
Qed.

Section Order.
Variables (tasks : list nat) (cs : list chan) (N : nat -> nat).
Hypothesis G : sdf_graph tasks cs.

(** After the executions [s]. *)
Record ran (st : running) (s : list nat) : Prop := {
  n_adm : admissible cs s;
  n_incl : incl s tasks;
  n_left : forall t, In t tasks -> occ s t + r_left st t = N t;
  n_total : r_total st = list_sum (map (r_left st) tasks);
  n_buf : forall c, In c cs -> r_buf st (c_id c) = tokens_after c s;
  n_order : in_first_order (r_order st) s }.

Lemma ran0 : ran (running0 tasks cs N) [].
Proof.
  constructor.
  - intros p t q E. destruct p; discriminate.
  - intros x [].
  - intros t _. reflexivity.
  - reflexivity.
  - intros c Hc. cbn [running0 r_buf]. rewrite (proj1 (put_ids cs (fun _ => 0%Z) (g_ids _ _ G)) c Hc). unfold tokens_after. cbn [count_occ]. lia.
  - split; [constructor|]. split; [reflexivity|]. intros a t b E. destruct a; discriminate.
Qed.

Lemma enough_iff st s t : ran st s -> enough cs (r_buf st) t = true <-> forall c, In c cs -> c_dst c = t -> (c_out c <= tokens_after c s)%Z.
Proof.
  intros R. unfold enough, ins. rewrite forallb_forall. split.
  - intros H c Hc D. rewrite <- (n_buf _ _ R c Hc). apply Z.leb_le, H, filter_In. split; [exact Hc|]. now apply Nat.eqb_eq.
  - intros H c Hc. apply filter_In in Hc. destruct Hc as [Hc D]. apply Nat.eqb_eq in D. apply Z.leb_le. rewrite (n_buf _ _ R c Hc). auto.
Qed.

Lemma sum_less (f : nat -> nat) : forall l t, NoDup l -> In t l -> 0 < f t -> list_sum (map (set_at f t (f t - 1)) l) = list_sum (map f l) - 1 /\ 0 < list_sum (map f l).
Proof.
  induction l as [|x l IH]; intros t ND Ht P; [destruct Ht|]. cbn [map list_sum fold_right]. inversion ND as [|? ? Nx ND']; subst. change (fold_right Nat.add 0) with list_sum.
  destruct Ht as [->|Ht].
  - assert (E : map (set_at f t (f t - 1)) l = map f l). { apply map_ext_in. intros y Hy. unfold set_at. destruct (y =? t) eqn:B; [apply Nat.eqb_eq in B; subst; contradiction|reflexivity]. }
    rewrite E. unfold set_at at 1. rewrite Nat.eqb_refl. lia.
  - destruct (IH t ND' Ht P) as [-> P']. unfold set_at at 1. destruct (x =? t) eqn:B; [apply Nat.eqb_eq in B; subst; contradiction|]. lia.
Qed.

(** One turn: one more execution, or nothing. *)
Lemma turn_ran st s t : ran st s -> In t tasks ->
  (0 < r_left st t /\ enough cs (r_buf st) t = true /\ ran (turn cs st t) (s ++ [t]) /\ r_total st = S (r_total (turn cs st t))) \/
  ((r_left st t = 0 \/ enough cs (r_buf st) t = false) /\ turn cs st t = st).
Proof.
  intros R Ht. unfold turn. destruct (0 <? r_left st t) eqn:B1; cbn [andb]; [|right; split; [left; apply Nat.ltb_ge in B1; lia|reflexivity]]. apply Nat.ltb_lt in B1.
  destruct (enough cs (r_buf st) t) eqn:B2; [|right; split; [now right|reflexivity]]. left. split; [exact B1|]. split; [reflexivity|].
  destruct (sum_less (r_left st) tasks t (g_tasks _ _ G) Ht B1) as [S1 S2]. rewrite <- (n_total _ _ R) in S1, S2. cbn [r_total]. split; [|lia].
  constructor; cbn [r_left r_total r_buf r_order].
  - apply admissible_snoc; [exact (n_adm _ _ R)|]. apply (enough_iff st s t R), B2.
  - intros x Hx. apply in_app_iff in Hx. destruct Hx as [Hx|[<-|[]]]; [exact (n_incl _ _ R x Hx)|exact Ht].
  - intros x Hx. rewrite occ_app, occ_one. pose proof (n_left _ _ R x Hx). unfold set_at. rewrite (Nat.eqb_sym t). destruct (x =? t) eqn:B; [apply Nat.eqb_eq in B; subst|]; lia.
  - rewrite S1. reflexivity.
  - intros c Hc. unfold ins, outs.
    rewrite (add_filter (fun c => c_src c =? t) c_in cs _ c (g_ids _ _ G) Hc).
    pose proof (add_filter (fun c => c_dst c =? t) (fun c => - c_out c)%Z cs (r_buf st) c (g_ids _ _ G) Hc) as E. cbv beta in E. unfold Z.sub. rewrite E.
    rewrite (n_buf _ _ R c Hc), tokens_snoc. destruct (c_src c =? t), (c_dst c =? t); lia.
  - pose proof (n_order _ _ R) as O. destruct (existsb (Nat.eqb t) (r_order st)) eqn:B.
    + apply first_order_old; [exact O|]. apply existsb_exists in B. destruct B as (y & Hy & Ey). apply Nat.eqb_eq in Ey. subst y. apply (proj1 (proj2 O)), Hy.
    + apply first_order_new; [exact O|]. intros X. apply (proj1 (proj2 O)) in X. apply Bool.not_true_iff_false in B. apply B, existsb_exists. exists t. split; [exact X|apply Nat.eqb_refl].
Qed.

(** A pass: more executions; if there was none, no task could be executed. *)
Lemma pass_ran : forall l st s, incl l tasks -> ran st s -> exists s', ran (fold_left (turn cs) l st) (s ++ s') /\
  r_total (fold_left (turn cs) l st) <= r_total st /\
  (r_total (fold_left (turn cs) l st) = r_total st -> fold_left (turn cs) l st = st /\ forall t, In t l -> r_left st t = 0 \/ enough cs (r_buf st) t = false).
Proof.
  induction l as [|t l IH]; intros st s I R; cbn [fold_left]; [exists []; rewrite app_nil_r; split; [exact R|]; split; [lia|]; intros _; split; [reflexivity|intros t []]|].
  assert (Il : incl l tasks) by (intros x Hx; apply I; now right).
  destruct (turn_ran st s t R (I t (or_introl eq_refl))) as [(P & En & R' & T)|[Z E]].
  - destruct (IH (turn cs st t) (s ++ [t]) Il R') as (s' & R2 & L & _). exists (t :: s'). rewrite <- app_assoc in R2. split; [exact R2|]. split; [lia|]. intros X. lia.
  - rewrite E. destruct (IH st s Il R) as (s' & R2 & L & U). exists s'. split; [exact R2|]. split; [exact L|]. intros X. destruct (U X) as [U1 U2]. split; [exact U1|]. intros x [<-|Hx]; auto.
Qed.

(** A complete order of execution shows what can be executed next. *)
Lemma next_one st s w : ran st s -> admissible cs w -> iteration tasks N w -> 0 < r_total st ->
  exists t, In t tasks /\ 0 < r_left st t /\ enough cs (r_buf st) t = true.
Proof.
  intros R Aw [Iw Cw] P.
  assert (Ex : exists x, In x tasks /\ occ s x < occ w x).
  { rewrite (n_total _ _ R) in P. assert (H : exists x, In x tasks /\ 0 < r_left st x).
    { clear - P. induction tasks as [|x l IH]; [cbn in P; lia|]. destruct (Nat.eq_dec (r_left st x) 0) as [Z|Z]; [|exists x; split; [now left|lia]]. cbn [map list_sum fold_right] in P. rewrite Z in P. destruct (IH P) as (y & Hy & Py). exists y. split; [now right|exact Py]. }
    destruct H as (x & Hx & Px). exists x. split; [exact Hx|]. rewrite (Cw x Hx), <- (n_left _ _ R x Hx). lia. }
  destruct (first_more s w (let '(ex_intro _ x (conj _ L)) := Ex in ex_intro _ x L)) as (p & t & q & -> & Q1 & Q2). assert (Tt : In t tasks) by (apply Iw, in_app_iff; right; now left).
  exists t. split; [exact Tt|]. split.
  - pose proof (n_left _ _ R t Tt). pose proof (Cw t Tt) as Ct. rewrite occ_app in Ct. cbn [count_occ] in Ct. destruct (Nat.eq_dec t t); [lia|congruence].
  - apply (enough_iff st s t R). intros c Hc D. pose proof (Aw p t q eq_refl c Hc D) as H. unfold tokens_after in *. rewrite D in *. rewrite Q2 in H. pose proof (Q1 (c_src c)). pose proof (g_rates _ _ G c Hc). nia.
Qed.

(** The loop. *)
Lemma passes_ran : forall fuel st s l, ran st s -> passes fuel tasks cs st = Ok l ->
  exists s', admissible cs s' /\ iteration tasks N s' /\ in_first_order l s'.
Proof.
  induction fuel as [|fuel IH]; intros st s l R H; cbn [passes] in H; destruct (r_total st =? 0) eqn:B; try discriminate; [| |destruct (pass_ran tasks st s (incl_refl _) R) as (s' & R' & _); exact (IH _ _ _ R' H)].
  all: injection H as <-; exists s; split; [exact (n_adm _ _ R)|]; split; [|exact (n_order _ _ R)]; split; [exact (n_incl _ _ R)|]; intros t Ht; pose proof (n_left _ _ R t Ht) as E; apply Nat.eqb_eq in B; rewrite (n_total _ _ R) in B.
  all: assert (Z : r_left st t = 0) by (clear - B Ht; induction tasks as [|x l IH]; [destruct Ht|]; cbn [map list_sum fold_right] in B; change (fold_right Nat.add 0) with list_sum in B; destruct Ht as [->|Ht]; [lia|apply IH; [lia|exact Ht]]); lia.
Qed.
Lemma passes_end w : admissible cs w -> iteration tasks N w -> forall fuel st s, ran st s -> r_total st <= fuel -> exists l, passes fuel tasks cs st = Ok l.
Proof.
  intros Aw Iw. induction fuel as [|fuel IH]; intros st s R L; cbn [passes]; destruct (r_total st =? 0) eqn:B; eauto; [apply Nat.eqb_neq in B; lia|]. apply Nat.eqb_neq in B.
  destruct (pass_ran tasks st s (incl_refl _) R) as (s' & R' & L1 & L2). destruct (Nat.eq_dec (r_total (fold_left (turn cs) tasks st)) (r_total st)) as [E|E].
  - destruct (L2 E) as [_ No]. destruct (next_one st s w R Aw Iw ltac:(lia)) as (t & Ht & P & En). destruct (No t Ht); [lia|congruence].
  - apply (IH _ _ R'). lia.
Qed.
Lemma passes_outcome : forall fuel st, passes fuel tasks cs st = Timeout \/ exists l, passes fuel tasks cs st = Ok l.
Proof. clear. induction fuel as [|fuel IH]; intros st; cbn [passes]; destruct (r_total st =? 0); eauto. Qed.
End Order.

(** ** The removal of the cycles *)
Section Remove.
Variables (tasks : list nat) (cs : list chan) (cyc : nat -> bool).
Hypothesis G : sdf_graph tasks cs.

Definition unseen (vis : nat -> bool) : nat := length (filter (fun t => negb (vis t)) tasks).
Lemma unseen_le vis vis' : (forall x, vis x = true -> vis' x = true) -> unseen vis' <= unseen vis.
Proof.
  clear. intros H. unfold unseen. induction tasks as [|t l IH]; [apply le_n|]. cbn [filter]. pose proof (H t). destruct (vis t) eqn:B, (vis' t) eqn:B'; cbn [negb length]; try lia.
Qed.
Lemma unseen_set vis v : In v tasks -> vis v = false -> unseen (set_at vis v true) < unseen vis.
Proof.
  intros Hv B. pose proof (unseen_le vis (set_at vis v true)) as _.
  assert (M : forall l, length (filter (fun t => negb (set_at vis v true t)) l) <= length (filter (fun t => negb (vis t)) l)).
  { clear. induction l as [|t l IH]; [apply le_n|]. cbn [filter]. unfold set_at at 1. destruct (t =? v), (vis t); cbn [negb length]; lia. }
  unfold unseen. clear G. induction tasks as [|t l IH]; [destruct Hv|]. cbn [filter]. destruct (Nat.eq_dec t v) as [->|Ne].
  - unfold set_at at 1. rewrite Nat.eqb_refl, B. cbn [negb length]. pose proof (M l). lia.
  - destruct Hv as [->|Hv]; [congruence|]. unfold set_at at 1. replace (t =? v) with false by (symmetry; now apply Nat.eqb_neq). specialize (IH Hv). destruct (vis t); cbn [negb length]; lia.
Qed.

Definition follow (f size : nat) (st : (nat -> bool) * list nat) (c : chan) : outcome ((nat -> bool) * list nat) :=
  if c_dst c <? size then
    if negb (fst st (c_dst c)) then dfs_remove f size cs cyc (c_dst c) st
    else Ok (if cyc (c_dst c) then (fst st, snd st ++ [c_id c]) else st)
  else Undefined.
Lemma dfs_unf f size v st : dfs_remove (S f) size cs cyc v st = if v <? size then each (follow f size) (set_at (fst st) v true, snd st) (outs cs v) else Undefined.
Proof. reflexivity. Qed.

(** Whatever the size of the vector: with enough fuel the search succeeds or leaves the vector. *)
Lemma search_ends size : forall f v vis rem, In v tasks -> vis v = false -> unseen vis < S f ->
  dfs_remove (S f) size cs cyc v (vis, rem) = Undefined \/
  exists vis' rem', dfs_remove (S f) size cs cyc v (vis, rem) = Ok (vis', rem') /\ forall x, vis x = true -> vis' x = true.
Proof.
  induction f as [|f IH]; intros v vis rem Hv B L.
  { pose proof (unseen_set vis v Hv B). lia. }
  rewrite dfs_unf. destruct (v <? size); [|now left]. cbn [fst snd].
  assert (L0 : unseen (set_at vis v true) < S f) by (pose proof (unseen_set vis v Hv B); lia).
  assert (M0 : forall x, vis x = true -> set_at vis v true x = true) by (intros x Hx; unfold set_at; destruct (x =? v); [reflexivity|exact Hx]).
  assert (Sub : forall c, In c (outs cs v) -> In (c_dst c) tasks). { intros c Hc. apply filter_In in Hc. apply (g_ends _ _ G c), Hc. }
  revert Sub L0 M0. generalize (set_at vis v true) as vis1, rem as rem1, (outs cs v) as l. clear rem B L.
  intros vis1 rem1 l. revert vis1 rem1. induction l as [|c l IHl]; intros vis1 rem1 Sub L0 M0; cbn [each]; [right; eauto|].
  unfold follow at 1 3. cbn [fst snd]. destruct (c_dst c <? size); [|now left].
  destruct (vis1 (c_dst c)) eqn:Bc; cbn [negb].
  - cbn [bind]. destruct (cyc (c_dst c)); apply IHl; auto; intros; apply Sub; now right.
  - destruct (IH (c_dst c) vis1 rem1 (Sub c (or_introl eq_refl)) Bc L0) as [->|(vis2 & rem2 & -> & M)]; [now left|]. cbn [bind].
    apply IHl; [intros; apply Sub; now right|pose proof (unseen_le vis1 vis2 M); lia|auto].
Qed.

(** A channel whose target is still being searched from lies on a cycle. *)
Hypothesis Long : forall c, In c cs -> on_long_cycle cs c -> cyc (c_dst c) = true.
Hypothesis Self : forall c, In c cs -> c_src c = c_dst c -> cyc (c_dst c) = true.
Variable size : nat.
Hypothesis Big : forall t, In t tasks -> t < size.

(** [path]: the tasks being searched from, the last one first; [fin]: the tasks done with, the last one first. *)
Record searched (path fin : list nat) (vis : nat -> bool) (rem : list nat) : Prop := {
  d_vis : forall x, vis x = true <-> In x path \/ In x fin;
  d_nodup : NoDup (path ++ fin);
  d_tasks : incl (path ++ fin) tasks;
  d_order : forall a x b, fin = a ++ x :: b -> forall c, In c cs -> c_src c = x -> In (c_id c) rem \/ In (c_dst c) b;
  d_once : NoDup rem;
  d_rem : forall id, In id rem -> exists c, In c cs /\ c_id c = id /\ vis (c_src c) = true /\ cyc (c_dst c) = true }.

Lemma nodup_outs v : NoDup (outs cs v).
Proof. apply NoDup_filter. apply (NoDup_map_inv c_id), (g_ids _ _ G). Qed.

Lemma search_ok : forall f v path fin vis rem, In v tasks -> vis v = false -> unseen vis < S f -> searched path fin vis rem -> (forall p, In p path -> reaches cs p v) ->
  exists vis' add new, dfs_remove (S f) size cs cyc v (vis, rem) = Ok (vis', rem ++ add) /\ searched path (new ++ fin) vis' (rem ++ add) /\ In v new /\
    (forall x, In x new -> vis x = false) /\ (forall id, In id add -> exists c, In c cs /\ c_id c = id /\ In (c_src c) new).
Proof using G Long Self Big.
  induction f as [|f IH]; intros v path fin vis rem Hv B L D Pr.
  { pose proof (unseen_set vis v Hv B). lia. }
  rewrite dfs_unf. replace (v <? size) with true by (symmetry; apply Nat.ltb_lt, Big, Hv). cbn [fst snd].
  assert (L0 : unseen (set_at vis v true) < S f) by (pose proof (unseen_set vis v Hv B); lia).
  assert (Nv : ~ In v path /\ ~ In v fin). { split; intros X; pose proof (proj2 (d_vis _ _ _ _ D v)); rewrite B in *; intuition discriminate. }
  assert (Loop : forall todo done vis1 add1 new1, outs cs v = done ++ todo -> searched (v :: path) (new1 ++ fin) vis1 (rem ++ add1) ->
    (forall x, In x new1 -> vis x = false /\ x <> v) -> (forall x, set_at vis v true x = true -> vis1 x = true) ->
    (forall c, In c done -> In (c_id c) (rem ++ add1) \/ In (c_dst c) (new1 ++ fin)) ->
    (forall id, In id add1 -> exists c, In c cs /\ c_id c = id /\ (In (c_src c) new1 \/ In c done)) ->
    exists vis' add new1', each (follow (S f) size) (vis1, rem ++ add1) todo = Ok (vis', rem ++ add) /\ searched (v :: path) (new1' ++ fin) vis' (rem ++ add) /\
      (forall x, In x new1' -> vis x = false /\ x <> v) /\
      (forall c, In c (outs cs v) -> In (c_id c) (rem ++ add) \/ In (c_dst c) (new1' ++ fin)) /\
      (forall id, In id add -> exists c, In c cs /\ c_id c = id /\ (In (c_src c) new1' \/ In c (outs cs v)))).
  { induction todo as [|c todo IHt]; intros done vis1 add1 new1 Eo D1 New1 Mon Done Add1.
    { exists vis1, add1, new1. rewrite app_nil_r in Eo. rewrite Eo. cbn [each]. auto 8. }
    assert (Hc : In c (outs cs v)) by (rewrite Eo; apply in_app_iff; right; now left). apply filter_In in Hc. destruct Hc as [Hc Ec]. apply Nat.eqb_eq in Ec.
    assert (Eo' : outs cs v = (done ++ [c]) ++ todo) by (rewrite Eo, <- app_assoc; reflexivity).
    assert (Tw : In (c_dst c) tasks) by apply (g_ends _ _ G c Hc).
    cbn [each]. unfold follow at 1. cbn [fst snd]. replace (c_dst c <? size) with true by (symmetry; apply Nat.ltb_lt, Big, Tw).
    destruct (vis1 (c_dst c)) eqn:Bw; cbn [negb bind].
    - destruct (cyc (c_dst c)) eqn:Bc.
      + rewrite <- app_assoc. apply (IHt (done ++ [c]) vis1 (add1 ++ [c_id c]) new1 Eo'); auto.
        * assert (Fresh : ~ In (c_id c) (rem ++ add1)).
          { intros X. apply in_app_iff in X. destruct X as [X|X].
            - destruct (d_rem _ _ _ _ D _ X) as (c' & Hc' & Ei & Vs & _). rewrite (id_inj cs c' c (g_ids _ _ G) Hc' Hc Ei), Ec in Vs. congruence.
            - destruct (Add1 _ X) as (c' & Hc' & Ei & [S1|S1]); pose proof (id_inj cs c' c (g_ids _ _ G) Hc' Hc Ei); subst c'; [destruct (New1 _ S1); congruence|].
              pose proof (nodup_outs v) as ND. rewrite Eo in ND. apply NoDup_remove_2 in ND. apply ND, in_app_iff. now left. }
          constructor; try apply D1.
          -- intros a x b E c' Hc' Es. destruct (d_order _ _ _ _ D1 a x b E c' Hc' Es) as [X|X]; [left|right; exact X]. rewrite app_assoc. apply in_app_iff. now left.
          -- rewrite app_assoc. apply nodup_app; [apply D1|repeat constructor; intros []|]. intros x Hx [<-|[]]. contradiction.
          -- intros id Hid. rewrite app_assoc in Hid. apply in_app_iff in Hid. destruct Hid as [Hid|[<-|[]]]; [apply D1, Hid|]. exists c. rewrite Ec. repeat split; auto. apply Mon. unfold set_at. now rewrite Nat.eqb_refl.
        * intros c' Hc'. apply in_app_iff in Hc'. destruct Hc' as [Hc'|[<-|[]]].
          -- destruct (Done c' Hc') as [X|X]; [left|now right]. rewrite app_assoc. apply in_app_iff. now left.
          -- left. rewrite app_assoc. apply in_app_iff. right. now left.
        * intros id Hid. apply in_app_iff in Hid. destruct Hid as [Hid|[<-|[]]].
          -- destruct (Add1 id Hid) as (c' & H1 & H2 & [H3|H3]); exists c'; repeat split; auto. right. apply in_app_iff. now left.
          -- exists c. repeat split; auto. right. apply in_app_iff. right. now left.
      + assert (Fw : In (c_dst c) (new1 ++ fin)).
        { destruct (proj1 (d_vis _ _ _ _ D1 _) Bw) as [[E|Hp]|X]; [| |exact X]; exfalso.
          - rewrite (Self c Hc) in Bc; [discriminate|congruence].
          - destruct (Nat.eq_dec (c_src c) (c_dst c)) as [E|E]; [rewrite (Self c Hc E) in Bc; discriminate|]. rewrite (Long c Hc) in Bc; [discriminate|]. split; [exact E|]. rewrite Ec. apply Pr, Hp. }
        apply (IHt (done ++ [c]) vis1 add1 new1 Eo'); auto.
        * intros c' Hc'. apply in_app_iff in Hc'. destruct Hc' as [Hc'|[<-|[]]]; auto.
        * intros id Hid. destruct (Add1 id Hid) as (c' & H1 & H2 & [H3|H3]); exists c'; repeat split; auto. right. apply in_app_iff. now left.
    - assert (Rw : forall p, In p (v :: path) -> reaches cs p (c_dst c)).
      { assert (St : reaches cs v (c_dst c)) by (apply t_step; exists c; auto). intros p [<-|Hp]; [exact St|]. eapply t_trans; [apply Pr, Hp|exact St]. }
      assert (L1 : unseen vis1 < S f) by (pose proof (unseen_le (set_at vis v true) vis1 Mon); lia).
      destruct (IH (c_dst c) (v :: path) (new1 ++ fin) vis1 (rem ++ add1) Tw Bw L1 D1 Rw) as (vis2 & add2 & new2 & E2 & D2 & W2 & N2 & A2).
      rewrite E2. cbn [bind]. rewrite <- app_assoc in D2 |- *.
      assert (V12 : forall x, vis1 x = true -> vis2 x = true). { intros x Hx. apply (d_vis _ _ _ _ D2). apply (d_vis _ _ _ _ D1) in Hx. rewrite !in_app_iff in *. tauto. }
      assert (Vv : vis1 v = true) by (apply Mon; unfold set_at; now rewrite Nat.eqb_refl).
      apply (IHt (done ++ [c]) vis2 (add1 ++ add2) (new2 ++ new1) Eo').
      + rewrite <- (app_assoc new2). exact D2.
      + intros x Hx. apply in_app_iff in Hx. destruct Hx as [Hx|Hx]; [|auto]. specialize (N2 x Hx). split.
        * destruct (vis x) eqn:Bx; [|reflexivity]. rewrite (Mon x) in N2; [discriminate|]. unfold set_at. destruct (x =? v); [reflexivity|exact Bx].
        * intros ->. congruence.
      + auto.
      + intros c' Hc'. apply in_app_iff in Hc'. destruct Hc' as [Hc'|[<-|[]]].
        * destruct (Done c' Hc') as [X|X]; [left; rewrite app_assoc; apply in_app_iff; now left|right; rewrite <- app_assoc; apply in_app_iff; now right].
        * right. rewrite <- app_assoc. apply in_app_iff. now left.
      + intros id Hid. apply in_app_iff in Hid. destruct Hid as [Hid|Hid].
        * destruct (Add1 id Hid) as (c' & H1 & H2 & [H3|H3]); exists c'; repeat split; auto; [left; apply in_app_iff; now right|right; apply in_app_iff; now left].
        * destruct (A2 id Hid) as (c' & H1 & H2 & H3). exists c'. repeat split; auto. left. apply in_app_iff. now left. }
  destruct (Loop (outs cs v) [] (set_at vis v true) [] []) as (vis' & add & new1 & E & D' & N' & Dn & A'); auto.
  - rewrite app_nil_r. constructor.
    + intros x. cbn [app In]. unfold set_at. destruct (x =? v) eqn:Bx; [apply Nat.eqb_eq in Bx; subst; intuition|]. rewrite (d_vis _ _ _ _ D x). apply Nat.eqb_neq in Bx. intuition congruence.
    + cbn [app]. constructor; [rewrite in_app_iff; tauto|apply D].
    + cbn [app]. intros x [<-|Hx]; [exact Hv|apply (d_tasks _ _ _ _ D), Hx].
    + cbn [app]. apply (d_order _ _ _ _ D).
    + apply D.
    + intros id Hid. destruct (d_rem _ _ _ _ D id Hid) as (c & H1 & H2 & H3 & H4). exists c. repeat split; auto. unfold set_at. destruct (c_src c =? v); auto.
  - intros x [].
  - intros c [].
  - intros id [].
  - rewrite app_nil_r in E. exists vis', add, (v :: new1). split; [exact E|]. split; [|split; [now left|split]].
    + constructor.
      * intros x. rewrite (d_vis _ _ _ _ D' x). cbn [app In]. tauto.
      * cbn [app]. exact (Permutation_NoDup (Permutation_middle path (new1 ++ fin) v) (d_nodup _ _ _ _ D')).
      * intros x Hx. apply (d_tasks _ _ _ _ D'). cbn [app In]. rewrite in_app_iff in *. cbn [app In] in Hx. tauto.
      * intros a x b Ea c Hc Es. destruct a as [|y a]; cbn [app] in Ea; injection Ea as <- Ea.
        -- subst b. destruct (Dn c) as [X|X]; auto. apply filter_In. split; [exact Hc|now apply Nat.eqb_eq].
        -- exact (d_order _ _ _ _ D' a x b Ea c Hc Es).
      * apply D'.
      * apply (d_rem _ _ _ _ D').
    + intros x [<-|Hx]; [exact B|apply N', Hx].
    + intros id Hid. destruct (A' id Hid) as (c & H1 & H2 & [H3|H3]); exists c; repeat split; auto; [now right|]. left. apply filter_In in H3. destruct H3 as [_ H3]. apply Nat.eqb_eq in H3. congruence.
Qed.

Lemma unseen_tasks vis : unseen vis <= length tasks.
Proof. clear. unfold unseen. induction tasks as [|t l IH]; cbn [filter length]; [lia|]. destruct (negb (vis t)); cbn [length]; lia. Qed.
Definition from_task (fuel size : nat) (st : (nat -> bool) * list nat) (v : nat) : outcome ((nat -> bool) * list nat) :=
  if v <? size then if negb (fst st v) then dfs_remove fuel size cs cyc v st else Ok st else Undefined.
Lemma order_ok fuel : length tasks < fuel -> forall order fin vis rem, incl order tasks -> searched [] fin vis rem ->
  exists fin' vis' rem', each (from_task fuel size) (vis, rem) order = Ok (vis', rem') /\ searched [] fin' vis' rem' /\ incl fin fin' /\ incl order fin'.
Proof using G Long Self Big.
  intros Lf. induction order as [|v order IH]; intros fin vis rem I D; cbn [each]; [exists fin, vis, rem; split; [reflexivity|]; split; [exact D|]; split; [apply incl_refl|intros x []]|].
  assert (Hv : In v tasks) by (apply I; now left). assert (I' : incl order tasks) by (intros x Hx; apply I; now right).
  unfold from_task at 1. cbn [fst]. replace (v <? size) with true by (symmetry; apply Nat.ltb_lt, Big, Hv). destruct (vis v) eqn:B; cbn [negb bind].
  - destruct (IH fin vis rem I' D) as (fin' & vis' & rem' & E & D' & In1 & In2). exists fin', vis', rem'. split; [exact E|]. split; [exact D'|]. split; [exact In1|].
    intros x [<-|Hx]; [|auto]. apply In1. destruct (proj1 (d_vis _ _ _ _ D v) B) as [[]|X]. exact X.
  - destruct fuel as [|f]; [lia|]. pose proof (unseen_tasks vis) as U.
    destruct (search_ok f v [] fin vis rem Hv B ltac:(lia) D ltac:(intros p [])) as (vis1 & add & new & E1 & D1 & Vn & _ & _). rewrite E1. cbn [bind].
    destruct (IH (new ++ fin) vis1 (rem ++ add) I' D1) as (fin' & vis' & rem' & E & D' & In1 & In2). exists fin', vis', rem'. split; [exact E|]. split; [exact D'|].
    split; [intros x Hx; apply In1, in_app_iff; now right|]. intros x [<-|Hx]; [apply In1, in_app_iff; now left|auto].
Qed.
Lemma whole_search fuel order : length tasks < fuel -> incl order tasks -> incl tasks order ->
  exists fin vis rem, dfs_order fuel size cs cyc order = Ok (vis, rem) /\ searched [] fin vis rem /\ forall t, In t tasks <-> In t fin.
Proof using G Long Self Big.
  intros Lf I I'. destruct (order_ok fuel Lf order [] (fun _ => false) [] I) as (fin & vis & rem & E & D & _ & In2).
  - constructor; cbn [app]; [intros x; split; [discriminate|intros [[]|[]]]|constructor|intros x []|intros a x b E; destruct a; discriminate|constructor|intros id []].
  - exists fin, vis, rem. split; [exact E|]. split; [exact D|]. intros t. split; [intros Ht; apply In2, I', Ht|]. intros Ht. apply (d_tasks _ _ _ _ D), Ht.
Qed.
End Remove.

(** Removing channels by their identifiers. *)
Definition kept (cs : list chan) (rem : list nat) : list chan := filter (fun c => negb (existsb (Nat.eqb (c_id c)) rem)) cs.
Lemma in_kept cs rem c : In c (kept cs rem) <-> In c cs /\ ~ In (c_id c) rem.
Proof.
  unfold kept. rewrite filter_In, negb_true_iff, <- not_true_iff_false, existsb_exists. split; intros [H1 H2]; (split; [exact H1|]); intros X; apply H2.
  - exists (c_id c). split; [exact X|apply Nat.eqb_refl].
  - destruct X as (y & Hy & E). apply Nat.eqb_eq in E. now subst.
Qed.
Lemma remove_all : forall rem cs, NoDup rem -> (forall id, In id rem -> exists c, In c cs /\ c_id c = id) -> each remove_chan cs rem = Ok (kept cs rem).
Proof.
  induction rem as [|id rem IH]; intros cs ND H; cbn [each].
  - unfold kept. cbn [existsb negb]. f_equal. clear. induction cs as [|c l IH]; [reflexivity|]. cbn [filter]. now rewrite <- IH.
  - inversion ND as [|? ? Ni ND']; subst. unfold remove_chan at 1. destruct (H id (or_introl eq_refl)) as (c & Hc & Ei).
    replace (existsb (fun c => c_id c =? id) cs) with true by (symmetry; apply existsb_exists; exists c; split; [exact Hc|now apply Nat.eqb_eq]). cbn [bind].
    rewrite IH; [|exact ND'|].
    + f_equal. unfold kept. clear. induction cs as [|c l IHl]; [reflexivity|]. cbn [filter existsb]. destruct (c_id c =? id); cbn [negb orb filter]; rewrite ?IHl; reflexivity.
    + intros id' Hid'. destruct (H id' (or_intror Hid')) as (c' & Hc' & Ei'). exists c'. split; [|exact Ei']. apply filter_In. split; [exact Hc'|]. apply negb_true_iff, Nat.eqb_neq. intros X. apply Ni. congruence.
Qed.

(** The position of an element in a list. *)
Fixpoint pos (l : list nat) (x : nat) : nat := match l with [] => 0 | y :: l' => if y =? x then 0 else S (pos l' x) end.
Lemma pos_split : forall a x b, ~ In x a -> pos (a ++ x :: b) x = length a.
Proof. induction a as [|y a IH]; intros x b N; cbn [app pos length]; [now rewrite Nat.eqb_refl|]. replace (y =? x) with false by (symmetry; apply Nat.eqb_neq; intros ->; apply N; now left). f_equal. apply IH. intros X. apply N. now right. Qed.

Section Result.
Variables (tasks : list nat) (cs : list chan) (cyc : nat -> bool) (size fuel : nat) (order : list nat) (start : nat).
Hypothesis G : sdf_graph tasks cs.
Hypothesis Long : forall c, In c cs -> on_long_cycle cs c -> cyc (c_dst c) = true.
Hypothesis Self : forall c, In c cs -> c_src c = c_dst c -> cyc (c_dst c) = true.
Hypothesis Big : forall t, In t tasks -> t < size.
Hypothesis Fuel : length tasks < fuel.
Hypothesis Ord : forall t, In t order <-> In t tasks.
Hypothesis Fresh : ~ In start tasks.

Lemma remove_result : exists cs', remove_with size fuel tasks cs cyc order start = Ok (map (fun c => (c_src c, c_dst c)) cs' ++ map (fun t => (start, t)) (filter (no_input cs') tasks)) /\
  incl cs' cs /\ (forall c, In c cs -> ~ In c cs' -> cyc (c_dst c) = true) /\
  exists rank, (forall c, In c cs' -> rank (c_src c) < rank (c_dst c)) /\ forall t, In t tasks -> rank start < rank t.
Proof.
  destruct (whole_search tasks cs cyc G Long Self size Big fuel order Fuel (fun t => proj1 (Ord t)) (fun t => proj2 (Ord t))) as (fin & vis & rem & E & D & Ef).
  exists (kept cs rem). split; [|split; [|split]].
  - unfold remove_with. rewrite E. cbn [bind snd]. rewrite remove_all; [reflexivity|apply D|]. intros id Hid. destruct (d_rem _ _ _ _ _ _ _ D id Hid) as (c & H1 & H2 & _). eauto.
  - intros c Hc. apply in_kept in Hc. apply Hc.
  - intros c Hc Nc. assert (X : In (c_id c) rem). { destruct (in_dec Nat.eq_dec (c_id c) rem) as [X|X]; [exact X|]. destruct Nc. apply in_kept. auto. }
    destruct (d_rem _ _ _ _ _ _ _ D _ X) as (c' & H1 & H2 & _ & H4). now rewrite (id_inj cs c' c (g_ids _ _ G) H1 Hc H2) in H4.
  - pose proof (d_nodup _ _ _ _ _ _ _ D) as ND. cbn [app] in ND.
    exists (fun x => if x =? start then 0 else S (pos fin x)). split.
    + intros c Hc. apply in_kept in Hc. destruct Hc as [Hc Nr]. destruct (g_ends _ _ G c Hc) as [T1 T2].
      destruct (c_src c =? start) eqn:B1; [apply Nat.eqb_eq in B1; congruence|]. destruct (c_dst c =? start) eqn:B2; [apply Nat.eqb_eq in B2; congruence|].
      apply Ef in T1. destruct (in_split _ _ T1) as (a & b & Es). destruct (d_order _ _ _ _ _ _ _ D a (c_src c) b Es c Hc eq_refl) as [X|X]; [contradiction|].
      destruct (in_split _ _ X) as (a' & b' & Eb). rewrite Es in ND |- *. rewrite (pos_split a); [|intros Y; apply NoDup_remove_2 in ND; apply ND, in_app_iff; now left].
      rewrite Eb in ND |- *. replace (a ++ c_src c :: a' ++ c_dst c :: b') with ((a ++ c_src c :: a') ++ c_dst c :: b') in ND |- * by (rewrite <- app_assoc; reflexivity).
      rewrite pos_split; [rewrite app_length; cbn [length]; lia|]. intros Y. apply NoDup_remove_2 in ND. apply ND, in_app_iff. now left.
    + intros t Ht. rewrite Nat.eqb_refl. destruct (t =? start) eqn:B; [apply Nat.eqb_eq in B; congruence|lia].
Qed.

Lemma ready_graph to : remove_with size fuel tasks cs cyc order start = Ok to ->
  acyclic to /\ (forall a b, In (a, b) to -> a = start \/ exists c, In (c, a) to) /\ forall t, In t tasks <-> exists a, In (a, t) to.
Proof.
  intros H. destruct remove_result as (cs' & E & I & _ & rank & R1 & R2). rewrite E in H. injection H as <-.
  assert (Src : forall t, In t tasks -> exists a, In (a, t) (map (fun c => (c_src c, c_dst c)) cs' ++ map (fun t => (start, t)) (filter (no_input cs') tasks))).
  { intros t Ht. destruct (ins cs' t) as [|c l] eqn:Ei.
    - exists start. apply in_app_iff. right. apply in_map, filter_In. split; [exact Ht|]. unfold no_input. now rewrite Ei.
    - assert (Hc : In c (ins cs' t)) by (rewrite Ei; now left). apply filter_In in Hc. destruct Hc as [Hc Ec]. apply Nat.eqb_eq in Ec. exists (c_src c). apply in_app_iff. left. apply in_map_iff. exists c. rewrite Ec. auto. }
  split; [|split].
  - exists rank. intros a b Hab. apply in_app_iff in Hab. destruct Hab as [Hab|Hab]; apply in_map_iff in Hab.
    + destruct Hab as (c & Ec & Hc). injection Ec as <- <-. auto.
    + destruct Hab as (t & Et & Ht). injection Et as <- <-. apply filter_In in Ht. apply R2, Ht.
  - intros a b Hab. apply in_app_iff in Hab. destruct Hab as [Hab|Hab]; apply in_map_iff in Hab.
    + destruct Hab as (c & Ec & Hc). injection Ec as <- <-. right. apply Src, (g_ends _ _ G c), I, Hc.
    + destruct Hab as (t & Et & Ht). injection Et as <- <-. now left.
  - intros t. split; [apply Src|]. intros (a & Ha). apply in_app_iff in Ha. destruct Ha as [Hab|Hab]; apply in_map_iff in Hab.
    + destruct Hab as (c & Ec & Hc). injection Ec as <- <-. apply (g_ends _ _ G c), I, Hc.
    + destruct Hab as (t' & Et & Ht). injection Et as <- <-. apply filter_In in Ht. apply Ht.
Qed.
End Result.

(** ** The program's own vector *)
Lemma pigeon : forall l, NoDup l -> l <> [] -> (forall x, In x l -> 1 <= x) -> exists x, In x l /\ length l <= x.
Proof.
  intros l ND Ne P. destruct (Exists_dec (fun x => length l <= x) l (fun x => le_dec _ _)) as [X|X]; [apply Exists_exists in X; destruct X as (x & H1 & H2); eauto|exfalso].
  assert (I : incl l (seq 1 (length l - 1))). { intros x Hx. apply in_seq. specialize (P x Hx). destruct (le_lt_dec (length l) x) as [L|L]; [|lia]. destruct X. apply Exists_exists. eauto. }
  pose proof (NoDup_incl_length ND I) as L. rewrite seq_length in L. destruct l; [congruence|]. cbn [length] in L. lia.
Qed.
Lemma too_short tasks cs cyc size fuel order : sdf_graph tasks cs -> length tasks < fuel -> incl order tasks -> (exists v, In v order /\ size <= v) ->
  dfs_order fuel size cs cyc order = Undefined.
Proof.
  intros G Lf I (v & Hv & Lv). unfold dfs_order. generalize (fun _ : nat => false) as vis, (@nil nat) as rem. revert I Hv. induction order as [|x order IH]; intros I Hv vis rem; [destruct Hv|]. cbn [each fst].
  destruct (x <? size) eqn:B; [|reflexivity]. assert (Hx : In x tasks) by (apply I; now left). assert (Hv' : In v order). { destruct Hv as [->|Hv]; [apply Nat.ltb_lt in B; lia|exact Hv]. } assert (I' : incl order tasks) by (intros y Hy; apply I; now right).
  destruct (vis x) eqn:Bx; cbn [negb]; [cbn [bind]; apply IH; assumption|]. destruct fuel as [|f]; [lia|]. pose proof (unseen_tasks tasks vis) as U.
  destruct (search_ends tasks cs cyc G size f x vis rem Hx Bx ltac:(lia)) as [->|(vis' & rem' & -> & _)]; cbn [bind]; [reflexivity|]. apply IH; assumption.
Qed.

(** Only channels to marked tasks are removed. *)
Definition marked_ids (cs : list chan) (cyc : nat -> bool) (rem : list nat) : Prop := forall id, In id rem -> exists c, In c cs /\ c_id c = id /\ cyc (c_dst c) = true.
Lemma each_inv {A B} (P : A -> Prop) (f : A -> B -> outcome A) : forall l, (forall a x a', In x l -> P a -> f a x = Ok a' -> P a') -> forall a a', P a -> each f a l = Ok a' -> P a'.
Proof.
  induction l as [|x l IH]; intros Hf a a' Pa E; cbn [each] in E; [injection E as <-; exact Pa|].
  destruct (f a x) as [a1| | |] eqn:E1; try discriminate. cbn [bind] in E. apply (IH (fun a x a' Hx => Hf a x a' (or_intror Hx)) a1 a'); [|exact E]. exact (Hf a x a1 (or_introl eq_refl) Pa E1).
Qed.
Lemma marked_dfs cs cyc size : forall f v st st', marked_ids cs cyc (snd st) -> dfs_remove f size cs cyc v st = Ok st' -> marked_ids cs cyc (snd st').
Proof.
  induction f as [|f IH]; intros v st st' M E; [discriminate|]. rewrite dfs_unf in E. destruct (v <? size); [|discriminate].
  refine (each_inv (fun st => marked_ids cs cyc (snd st)) (follow cs cyc f size) _ _ _ st' _ E); [|exact M].
  intros a c a' Hc Ma. unfold follow. destruct (c_dst c <? size); [|discriminate]. destruct (fst a (c_dst c)); cbn [negb]; [|apply IH, Ma].
  intros X. injection X as <-. destruct (cyc (c_dst c)) eqn:B; [|exact Ma]. cbn [snd]. intros id Hid. apply in_app_iff in Hid. destruct Hid as [Hid|[<-|[]]]; [apply Ma, Hid|].
  exists c. apply filter_In in Hc. repeat split; [apply Hc|exact B].
Qed.
Lemma marked_order cs cyc size fuel order st : dfs_order fuel size cs cyc order = Ok st -> marked_ids cs cyc (snd st).
Proof.
  intros E. refine (each_inv (fun st => marked_ids cs cyc (snd st)) _ _ _ _ st _ E); [|intros id []].
  intros a v a' _ Ma. destruct (v <? size); [|discriminate]. destruct (fst a v); cbn [negb]; [intros X; injection X as <-; exact Ma|apply marked_dfs, Ma].
Qed.
Lemma unmarked_stays tasks cs cyc size fuel order start to c : NoDup (map c_id cs) -> remove_with size fuel tasks cs cyc order start = Ok to -> In c cs -> cyc (c_dst c) = false -> In (c_src c, c_dst c) to.
Proof.
  intros ND H Hc B. unfold remove_with in H. destruct (dfs_order fuel size cs cyc order) as [st| | |] eqn:E; try discriminate. cbn [bind] in H.
  destruct (each remove_chan cs (snd st)) as [cs'| | |] eqn:E'; try discriminate. cbn [bind] in H. injection H as <-.
  apply in_app_iff. left. apply in_map_iff. exists c. split; [reflexivity|]. pose proof (marked_order cs cyc size fuel order st E) as M.
  refine (each_inv (fun l => In c l) remove_chan (snd st) _ cs cs' Hc E'). intros l id l' Hid Hl. unfold remove_chan. destruct (existsb _ l); [|discriminate]. intros X. injection X as <-.
  apply filter_In. split; [exact Hl|]. apply negb_true_iff, Nat.eqb_neq. intros X. destruct (M id Hid) as (c' & H1 & H2 & H3). rewrite (id_inj cs c' c ND H1 Hc) in H3 by congruence. congruence.
Qed.

(** A task that waits for itself is never placed. *)
Lemma place_others d st x st' t : place d st x = Ok st' -> t <> x -> p_core st' t = p_core st t.
Proof.
  intros E Ne. unfold place in E. destruct (p_free st) as [|c0 l] eqn:F; [discriminate|]. destruct (_ =? _).
  - injection E as <-. cbn [p_core]. unfold set_at. replace (t =? x) with false by (symmetry; now apply Nat.eqb_neq). reflexivity.
  - destruct (each _ _ _) as [b| | |]; try discriminate. cbn [bind] in E. destruct (snd b) as [[core tr]|]; [|discriminate]. injection E as <-. cbn [p_core]. unfold set_at. replace (t =? x) with false by (symmetry; now apply Nat.eqb_neq). reflexivity.
Qed.
Lemma waits_for_itself pick d to start t : In (t, t) to -> t <> start -> forall fuel st vis queue st', ~ In t queue -> p_core st t = None -> place_all fuel pick d to start st vis queue = Ok st' -> p_core st' t = None.
Proof.
  intros Ht Ns. induction fuel as [|fuel IH]; intros st vis queue st' Nq C E; destruct queue as [|q0 queue]; cbn [place_all] in E; try discriminate; try (injection E as <-; exact C).
  set (qs := q0 :: queue) in *. set (i := pick qs mod length qs) in *. set (x := nth i qs 0) in *.
  assert (Ii : i < length qs) by (apply Nat.mod_upper_bound; discriminate). assert (Ix : In x qs) by (apply nth_In, Ii). assert (Nx : t <> x) by (intros ->; contradiction).
  destruct (if x =? start then Ok st else place d st x) as [st1| | |] eqn:E1; try discriminate. cbn [bind] in E. apply (IH st1 _ _ st') in E; [exact E| |].
  - intros X. rewrite !in_app_iff in X. destruct X as [X|[X|X]].
    + apply Nq. rewrite <- (firstn_skipn i qs). apply in_app_iff. now left.
    + apply Nq. rewrite <- (firstn_skipn (S i) qs). apply in_app_iff. now right.
    + apply filter_In in X. destruct X as [_ X]. unfold ready in X. apply andb_true_iff in X. destruct X as [X1 X2]. rewrite forallb_forall in X2.
      rewrite (X2 t) in X1; [discriminate|]. unfold inputs. apply in_map_iff. exists (t, t). split; [reflexivity|]. apply filter_In. split; [exact Ht|apply Nat.eqb_refl].
  - destruct (x =? start); [injection E1 as <-; exact C|]. rewrite (place_others d st x st1 t E1 Nx). exact C.
Qed.
