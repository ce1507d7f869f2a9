(** One channel replaced, then all of them. *)
From Coq Require Import QArith Lqa.
From Verif Require Import Base Graph ScheduleSpec ScheduleCore SymbExecSpec Communications CommunicationsSpec KIterSpec CommunicationsProofs CommunicationsLive.
Open Scope Z_scope.

Lemma find_id es id c : NoDup (map e_id es) -> In c es -> e_id c = id -> find (fun x => e_id x =? id) es = Some c.
Proof.
  intros N I E. induction es as [|x es IH]; [destruct I|]. cbn [find]. inversion N; subst. destruct (Z.eqb_spec (e_id x) (e_id c)) as [E|E].
  - f_equal. destruct I as [|I]; [assumption|]. exfalso. apply H1. rewrite E. apply in_map, I.
  - destruct I as [->|I]; [congruence|]. apply IH; auto.
Qed.
Lemma same_id es c x : NoDup (map e_id es) -> In c es -> In x es -> e_id x = e_id c -> x = c.
Proof. intros N Ic Ix E. pose proof (find_id es (e_id c) c N Ic eq_refl) as A. pose proof (find_id es (e_id c) x N Ix E) as B. congruence. Qed.
Lemma NoDup_filter_map {A B} (f : A -> B) p l : NoDup (map f l) -> NoDup (map f (filter p l)).
Proof.
  induction l as [|x l IH]; cbn; intros N; [constructor|]. inversion N; subst. destruct (p x); cbn; [constructor|]; auto.
  intros I. apply H1. apply in_map_iff in I. destruct I as (y & E & Hy). apply filter_In in Hy. rewrite <- E. apply in_map, Hy.
Qed.

Definition without (st : state) (id : Z) : state :=
  mkState (mkGraph (vertices (st_graph st)) (filter (fun x => negb (e_id x =? id)) (edges (st_graph st)))) (st_vnum st) (st_enum st) (st_links st).
Lemma without_good st id : good st -> good (without st id).
Proof.
  intros ((V & E & N) & NI & (ND & PO) & EN). split; [split; [exact V|split; [|exact N]]|split; [exact NI|split; [split|exact EN]]]; cbn [without st_graph vertices edges].
  - intros c Hc. apply filter_In in Hc. exact (E c (proj1 Hc)).
  - apply NoDup_filter_map, ND.
  - intros c Hc. apply filter_In in Hc. apply PO, Hc.
Qed.
Lemma without_in st c x : good st -> In c (edges (st_graph st)) -> In x (edges (st_graph (without st (e_id c)))) <-> In x (edges (st_graph st)) /\ x <> c.
Proof.
  intros (_ & _ & (ND & _) & _) Hc. cbn [without st_graph edges]. rewrite filter_In. split; intros [I H]; split; try exact I.
  - intros ->. rewrite Z.eqb_refl in H. discriminate.
  - destruct (Z.eqb_spec (e_id x) (e_id c)) as [E|E]; [|reflexivity]. exfalso. apply H. exact (same_id _ _ _ ND Hc I E).
Qed.

(** What a replacement did. *)
Lemma replace_inv route virtual st c st' : good st -> In c (edges (st_graph st)) -> replace_channel route virtual st (e_id c) = Ok st' ->
  (st' = st /\ (e_src c = e_dst c \/ route (e_id c) = [] /\ virtual (e_id c) = true)) \/
  (e_src c <> e_dst c /\ (route (e_id c) = [] -> virtual (e_id c) = false) /\ exists stl last,
     add_links (without st (e_id c)) (e_src c) (edge_in_total c) (route (e_id c)) = Ok (stl, last) /\
     connect stl last (e_dst c) 1 (edge_out_total c) (e_preload c) = Ok st').
Proof.
  intros G Hc H. unfold replace_channel in H. rewrite (find_id _ _ c) in H; [|apply G|exact Hc|reflexivity]. fold (without st (e_id c)) in H.
  assert (X : (if (e_src c =? e_dst c)%nat then Ok st else do p <- add_links (without st (e_id c)) (e_src c) (edge_in_total c) (route (e_id c)); connect (fst p) (snd p) (e_dst c) 1 (edge_out_total c) (e_preload c)) = Ok st' ->
     (route (e_id c) = [] -> virtual (e_id c) = false) ->
     (st' = st /\ (e_src c = e_dst c \/ route (e_id c) = [] /\ virtual (e_id c) = true)) \/
     (e_src c <> e_dst c /\ (route (e_id c) = [] -> virtual (e_id c) = false) /\ exists stl last,
     add_links (without st (e_id c)) (e_src c) (edge_in_total c) (route (e_id c)) = Ok (stl, last) /\
     connect stl last (e_dst c) 1 (edge_out_total c) (e_preload c) = Ok st')).
  { clear H. intros H' Hv. destruct (Nat.eqb_spec (e_src c) (e_dst c)) as [E|E]; [injection H' as <-; auto|]. right. split; [exact E|]. split; [exact Hv|].
    destruct (add_links (without st (e_id c)) (e_src c) (edge_in_total c) (route (e_id c))) as [[stl last]| | |] eqn:A; cbn [bind] in H'; try discriminate. cbn [fst snd] in H'. exists stl, last. split; [reflexivity|exact H']. }
  destruct (route (e_id c)) as [|e r] eqn:Er.
  - destruct (virtual (e_id c)) eqn:Ev; [injection H as <-; auto|]. apply X; auto.
  - apply X; [|congruence]. destruct (virtual (e_id c)); exact H.
Qed.

(** The two ends of a routed channel have one phase. *)
Lemma add_links_src st src rin route st' last : good st -> route <> [] -> add_links st src rin route = Ok (st', last) -> exists a, nth_error (vertices (st_graph st)) src = Some a /\ v_phases a = 1%nat \/ src = length (vertices (st_graph st)).
Proof.
  intros G NE H. destruct route as [|e rest]; [congruence|]. cbn [add_links] in H. unfold add_task in H at 1. cbn [fst snd] in H.
  destruct (connect _ src _ rin 1 0) as [st2| | |] eqn:C; cbn [bind] in H; try discriminate. apply connect_src in C. destruct C as (a & b & A & _ & P & _). exists a. cbn [st_graph vertices] in A.
  destruct (Nat.lt_ge_cases src (length (vertices (st_graph st)))) as [L|L]; [left; rewrite nth_error_app1 in A by exact L; auto|]. right.
  rewrite nth_error_app2 in A by exact L. destruct (src - length (vertices (st_graph st)))%nat eqn:D; [lia|]. cbn in A. destruct n; discriminate.
Qed.

Section Step.
Variables (route : Z -> list Z) (virtual : Z -> bool) (st st' stl : state) (c : edge) (last : nat).
Hypothesis G : good st.
Hypothesis Hc : In c (edges (st_graph st)).
Hypothesis NE : route (e_id c) <> [].
Let links := route (e_id c).
Let st0 := without st (e_id c).
Hypothesis HA : add_links st0 (e_src c) (edge_in_total c) links = Ok (stl, last).
Hypothesis HC : connect stl last (e_dst c) 1 (edge_out_total c) (e_preload c) = Ok st'.

Lemma step_ends : exists a b, nth_error (vertices (st_graph st)) (e_src c) = Some a /\ nth_error (vertices (st_graph st)) (e_dst c) = Some b /\
  (e_src c < length (vertices (st_graph st)))%nat /\ (e_dst c < length (vertices (st_graph st)))%nat /\
  e_in c = [edge_in_total c] /\ e_out c = [edge_out_total c] /\ e_in_init c = [] /\ e_out_init c = [] /\ 0 < edge_in_total c /\ 0 < edge_out_total c /\ 0 <= e_preload c.
Proof.
  pose proof G as ((V & E & N) & NI & _). destruct (E c Hc) as (a & b & A & B & LI & LO & LII & LOI & _ & SI & SO & PL). exists a, b. split; [exact A|]. split; [exact B|].
  assert (La : (e_src c < length (vertices (st_graph st)))%nat) by (apply nth_error_Some; congruence). assert (Lb : (e_dst c < length (vertices (st_graph st)))%nat) by (apply nth_error_Some; congruence).
  split; [exact La|]. split; [exact Lb|].
  destruct (add_links_src st0 _ _ _ _ _ (without_good st (e_id c) G) NE HA) as (a' & [[A' P']|A']).
  2:{ cbn [st0 without st_graph vertices] in A'. lia. }
  cbn [st0 without st_graph vertices] in A'. assert (a' = a) as -> by congruence.
  destruct (add_links_good links st0 (e_src c) _ stl last (without_good st (e_id c) G) SI HA) as (_ & X & _).
  destruct (connect_src _ _ _ _ _ _ _ HC) as (_ & b' & _ & B' & _ & Pb). pose proof (extends_nth _ _ _ b X B) as B2. assert (b' = b) as -> by congruence.
  rewrite (NI a (nth_error_In _ _ A)) in LII. rewrite (NI b (nth_error_In _ _ B)) in LOI. rewrite P' in LI. rewrite Pb in LO.
  unfold edge_in_total, edge_out_total in *. split; [|split; [|split; [|split; [|split; [exact SI|split; [exact SO|exact PL]]]]]].
  - destruct (e_in c) as [|x [|? ?]]; try discriminate. cbn. f_equal. lia.
  - destruct (e_out c) as [|x [|? ?]]; try discriminate. cbn. f_equal. lia.
  - destruct (e_in_init c); [reflexivity|discriminate].
  - destruct (e_out_init c); [reflexivity|discriminate].
Qed.

Lemma step_shape : good st' /\ good stl /\ extends st0 stl /\ vertices (st_graph st') = vertices (st_graph stl) /\ (length (vertices (st_graph st)) <= last < length (vertices (st_graph stl)))%nat /\
  exists id, edges (st_graph st') = edges (st_graph stl) ++ [mkEdge id last (e_dst c) [1] [edge_out_total c] [] [] (e_preload c)].
Proof.
  destruct step_ends as (a & b & A & B & La & Lb & Ei & Eo & Eii & Eoi & Pi & Po & PL).
  destruct (add_links_good links st0 (e_src c) _ stl last (without_good st (e_id c) G) Pi HA) as (Gl & X & L). destruct (L NE) as (v & Hv & Ll & _).
  destruct (connect_good stl last (e_dst c) 1 (edge_out_total c) (e_preload c) st' Gl ltac:(lia) Po PL HC) as (G' & _ & VE & _ & Ed).
  split; [exact G'|]. split; [exact Gl|]. split; [exact X|]. split; [exact VE|]. split; [|exact Ed]. split; [exact Ll|]. apply nth_error_Some. congruence.
Qed.

Lemma step_kept x : In x (edges (st_graph st)) -> x <> c -> In x (edges (st_graph st')).
Proof.
  intros Hx Ne. destruct step_shape as (_ & _ & (_ & _ & _ & I) & _ & _ & id & E). rewrite E. apply in_or_app. left. apply I. apply without_in; auto.
Qed.
Lemma step_vertices : exists vs, vertices (st_graph st') = vertices (st_graph st) ++ vs /\ forall v, In v vs -> new_task v.
Proof. destruct step_shape as (_ & _ & (vs & E & N & _) & VE & _). exists vs. rewrite VE. auto. Qed.

Lemma same_end s i m : (i < length (vertices (st_graph st)))%nat -> end_of s (st_graph st') i m = end_of s (st_graph st) i m.
Proof. intros L. destruct step_vertices as (vs & E & _). unfold end_of. rewrite E, nth_error_app1 by exact L. reflexivity. Qed.

Lemma step_delay s : schedule_valid (st_graph st') s -> delayed_valid (st_graph st) s c (len links).
Proof.
  intros (V & _). destruct step_ends as (a & b & A & B & La & Lb & Ei & Eo & Eii & Eoi & Pi & Po & PL). destruct step_shape as (G' & Gl & X & VE & Ll & id & Ed).
  intros t nc. assert (I : In (mkEdge id last (e_dst c) [1] [edge_out_total c] [] [] (e_preload c)) (edges (st_graph st'))) by (rewrite Ed; apply in_or_app; right; left; reflexivity).
  destruct (V _ I t nc) as (m & L). unfold cons_rate, prod_rate in *. cbn [e_preload e_src e_dst e_in e_out e_in_init e_out_init] in L.
  destruct (add_links_delay links st0 (e_src c) _ stl last (without_good st (e_id c) G) Pi NE HA (st_graph st') s) with (t := t) (n := m) as (n & L').
  - exists []. rewrite app_nil_r. exact VE.
  - rewrite Ed. apply incl_appl, incl_refl.
  - exact V.
  - exists n. rewrite Ei, Eo, Eii, Eoi. rewrite (moved_one (end_of s (st_graph st') last)) in L. rewrite (moved_one (end_of s (st_graph st) (e_src c))).
    rewrite (moved_ext (end_of s (st_graph st) (e_src c)) (end_of s (st_graph st') (e_src c)) (t - len links)%Q (t - len links)%Q); [lia|].
    intros k. rewrite same_end by exact La. reflexivity.
Qed.

Lemma kept_valid s x : In x (edges (st_graph st)) -> channel_valid (st_graph st') s x -> channel_valid (st_graph st) s x.
Proof.
  intros Hx V t nc. destruct (V t nc) as (m & L). exists m. rewrite (moved_ext (end_of s (st_graph st) (e_src x)) (end_of s (st_graph st') (e_src x)) t t); [exact L|].
  intros k. rewrite same_end; [reflexivity|]. pose proof G as ((_ & E & _) & _). destruct (E x Hx) as (a & b & A & _). apply nth_error_Some. congruence.
Qed.
Lemma step_valid s : schedule_valid (st_graph st') s -> schedule_valid (st_graph st) s.
Proof.
  intros V. split.
  - intros x Hx. assert (Dec : x = c \/ x <> c). { destruct (Z.eq_dec (e_id x) (e_id c)) as [E|E]; [left; apply (same_id (edges (st_graph st))); auto; apply G|right; congruence]. }
    destruct Dec as [->|Ne].
    + apply (delayed_is_valid _ s c (len links)); [unfold len; change 0%Q with (inject_Z 0); rewrite <- Zle_Qle; lia| |apply step_delay, V].
      destruct step_ends as (a & b & A & B & La & Lb & Ei & Eo & Eii & Eoi & Pi & Po & PL). intros m. unfold prod_rate. rewrite Ei, Eii, one_rate. lia.
    + apply kept_valid; [exact Hx|]. apply V, step_kept; auto.
  - intros i v Hv. apply V. destruct step_vertices as (vs & E & _). rewrite E, nth_error_app1; [exact Hv|]. apply nth_error_Some. congruence.
Qed.

(** Counts *)
Lemma c_balance N : (sumZ (e_in c) * N (e_src c) * Z.of_nat (length (e_out c)) = sumZ (e_out c) * N (e_dst c) * Z.of_nat (length (e_in c))) <-> edge_in_total c * N (e_src c) = edge_out_total c * N (e_dst c).
Proof. destruct step_ends as (a & b & A & B & La & Lb & Ei & Eo & _). unfold edge_in_total, edge_out_total. assert (length (e_in c) = 1%nat) as -> by (rewrite Ei; reflexivity). assert (length (e_out c) = 1%nat) as -> by (rewrite Eo; reflexivity). change (Z.of_nat 1) with 1. rewrite !Z.mul_1_r. tauto. Qed.
Lemma step_counts N : balanced (st_graph st) N -> exists N', same_counts (st_graph st) N N' /\ balanced (st_graph st') N' /\
  (0 < N (e_src c) -> forall i, (length (vertices (st_graph st)) <= i < length (vertices (st_graph st')))%nat -> 0 < N' i).
Proof.
  intros B. destruct step_ends as (a & b & A & Bb & La & Lb & Ei & Eo & Eii & Eoi & Pi & Po & PL). destruct step_shape as (G' & Gl & X & VE & Ll & id & Ed).
  destruct (add_links_counts links st0 (e_src c) _ stl last (without_good st (e_id c) G) Pi La HA) as [F _].
  assert (B0 : balanced (st_graph st0) N) by (intros x Hx; apply B; apply filter_In in Hx; apply Hx).
  destruct (F N B0) as (N' & S & B' & Lc & Pn). exists N'. split; [exact S|]. split.
  - intros x Hx. rewrite Ed in Hx. apply in_app_or in Hx. destruct Hx as [Hx|[<-|[]]]; [apply B', Hx|]. apply one_balance. pose proof (proj1 (c_balance N) (B c Hc)) as Bc. rewrite (S (e_dst c) Lb), Lc. assert (NE' : links <> []) by exact NE. destruct links; [congruence|]. lia.
  - rewrite VE. exact Pn.
Qed.
Lemma step_back N' : balanced (st_graph st') N' -> balanced (st_graph st) N'.
Proof.
  intros B x Hx. assert (Dec : x = c \/ x <> c). { destruct (Z.eq_dec (e_id x) (e_id c)) as [E|E]; [left; apply (same_id (edges (st_graph st))); auto; apply G|right; congruence]. }
  destruct Dec as [->|Ne]; [|apply B, step_kept; auto]. apply c_balance.
  destruct step_ends as (a & b & A & Bb & La & Lb & Ei & Eo & Eii & Eoi & Pi & Po & PL). destruct step_shape as (G' & Gl & X & VE & Ll & id & Ed).
  destruct (add_links_counts links st0 (e_src c) _ stl last (without_good st (e_id c) G) Pi La HA) as [_ F].
  assert (Bl : balanced (st_graph stl) N') by (intros y Hy; apply B; rewrite Ed; apply in_or_app; left; exact Hy). destruct (F N' Bl) as [_ Lc].
  assert (I : In (mkEdge id last (e_dst c) [1] [edge_out_total c] [] [] (e_preload c)) (edges (st_graph st'))) by (rewrite Ed; apply in_or_app; right; left; reflexivity).
  specialize (B _ I). apply one_balance in B. assert (NE' : links <> []) by exact NE. destruct links; [congruence|]. lia.
Qed.

(** Liveness *)
Lemma step_live N' : balanced (st_graph st') N' -> live (st_graph st) N' -> live (st_graph st') N'.
Proof.
  intros B (w & P & Hw). destruct step_ends as (a & b & A & Bb & La & Lb & Ei & Eo & Eii & Eoi & Pi & Po & PL). destruct step_shape as (G' & Gl & X & VE & Ll & id & Ed).
  assert (L0 : live (pend st0 (e_src c) (e_dst c) (edge_in_total c) (edge_out_total c) (e_preload c)) N').
  { exists w. split; [|exact Hw]. apply (playable_alike (st_graph st)); [reflexivity| |exact P]. intros x Hx. cbn [pend edges] in Hx. apply in_app_or in Hx. destruct Hx as [Hx|[<-|[]]].
    - exists x. split; [apply filter_In in Hx; apply Hx|repeat split].
    - exists c. split; [exact Hc|]. unfold alike. cbn [e_src e_dst e_in e_out e_in_init e_out_init e_preload]. auto 10. }
  assert (Bl : balanced (st_graph stl) N') by (intros y Hy; apply B; rewrite Ed; apply in_or_app; left; exact Hy).
  destruct (add_links_live links st0 (e_src c) (e_dst c) _ _ _ stl last N' (without_good st (e_id c) G) Pi La Lb HA NE Bl L0) as (w' & P' & Hw').
  exists w'. rewrite VE. split; [|exact Hw']. apply (playable_alike (pend stl last (e_dst c) 1 (edge_out_total c) (e_preload c))); [rewrite VE; reflexivity| |exact P'].
  intros x Hx. rewrite Ed in Hx. apply in_app_or in Hx. destruct Hx as [Hx|[<-|[]]].
  - exists x. split; [apply in_or_app; left; exact Hx|repeat split].
  - eexists. split; [apply in_or_app; right; left; reflexivity|]. repeat split.
Qed.
Lemma kept_times n i w : (i < n)%nat -> times i (filter (fun j => j <? n)%nat w) = times i w.
Proof.
  clear. intros L. induction w as [|x w IH]; [reflexivity|]. change (x :: w) with ([x] ++ w). rewrite filter_app, !times_app, IH. f_equal. cbn [filter]. destruct (Nat.ltb_spec x n); [reflexivity|].
  rewrite times_one. destruct (Nat.eqb_spec x i); [lia|reflexivity].
Qed.
Lemma step_unplay w : playable (st_graph st') w -> playable (st_graph st) (filter (fun j => j <? length (vertices (st_graph st)))%nat w).
Proof.
  destruct step_ends as (a & b & A & Bb & La & Lb & Ei & Eo & Eii & Eoi & Pi & Po & PL). destruct step_shape as (G' & Gl & X & VE & Ll & id & Ed).
  pose proof G' as (WF' & NI' & _).
  assert (I : In (mkEdge id last (e_dst c) [1] [edge_out_total c] [] [] (e_preload c)) (edges (st_graph st'))) by (rewrite Ed; apply in_or_app; right; left; reflexivity).
  induction 1 as [|w i P IH (Hi & He)]; [constructor|]. rewrite filter_app. cbn [filter]. destruct (Nat.ltb_spec i (length (vertices (st_graph st)))) as [L|L]; [|rewrite app_nil_r; exact IH].
  constructor; [exact IH|]. split; [exact L|]. intros x Hx D. pose proof G as ((_ & E & _) & _). destruct (E x Hx) as (xa & xb & XA & XB & _).
  assert (Lx : (e_src x < length (vertices (st_graph st)))%nat) by (apply nth_error_Some; congruence).
  rewrite kept_times by exact L. unfold tokens. rewrite !kept_times by (try exact Lx; rewrite D; exact L). fold (tokens x w).
  assert (Dec : x = c \/ x <> c). { destruct (Z.eq_dec (e_id x) (e_id c)) as [E0|E0]; [left; apply (same_id (edges (st_graph st))); auto; apply G|right; congruence]. }
  destruct Dec as [->|Ne]; [|apply He; [apply step_kept; auto|exact D]].
  specialize (He _ I D). rewrite one_cons, one_tokens in He.
  assert (F : Z.of_nat (times last w) <= edge_in_total c * Z.of_nat (times (e_src c) w)).
  { apply (add_links_flow links st0 (e_src c) _ stl last (without_good st (e_id c) G) Pi La NE HA (st_graph st') w WF' NI'); [rewrite Ed; apply incl_appl, incl_refl|exact P]. }
  unfold tokens, cons_rate, prod_rate. rewrite Ei, Eo, Eii, Eoi, !sumf_one, one_rate. cbn [e_dst] in He. lia.
Qed.
Lemma step_unlive N' : live (st_graph st') N' -> live (st_graph st) N'.
Proof.
  intros (w & P & Hw). exists (filter (fun j => j <? length (vertices (st_graph st)))%nat w). split; [apply step_unplay, P|].
  intros i Hi. rewrite kept_times by exact Hi. apply Hw. destruct step_vertices as (vs & E & _). rewrite E, app_length. lia.
Qed.
End Step.
