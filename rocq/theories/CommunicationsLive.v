(** Counts and liveness of graphs whose channels are replaced by chains. *)
From Coq Require Import QArith Lqa.
From Verif Require Import Base Graph ScheduleSpec ScheduleCore SymbExecSpec Communications CommunicationsSpec KIterSpec CommunicationsProofs.
Open Scope Z_scope.

(** ** Repetition counts *)
Lemma one_balance id i j a b p N : (sumZ (e_in (mkEdge id i j [a] [b] [] [] p)) * N (e_src (mkEdge id i j [a] [b] [] [] p)) * Z.of_nat (length (e_out (mkEdge id i j [a] [b] [] [] p))) =
  sumZ (e_out (mkEdge id i j [a] [b] [] [] p)) * N (e_dst (mkEdge id i j [a] [b] [] [] p)) * Z.of_nat (length (e_in (mkEdge id i j [a] [b] [] [] p)))) <-> a * N i = b * N j.
Proof. cbn. rewrite !Z.add_0_r, !Z.mul_1_r. tauto. Qed.
Lemma balanced_ext g N N' : graph_wf g -> same_counts g N N' -> balanced g N -> balanced g N'.
Proof.
  intros (_ & E & _) S B c Hc. destruct (E c Hc) as (a & b & A & A' & _). rewrite !S; [apply B, Hc| |]; apply nth_error_Some; congruence.
Qed.
Lemma same_trans a b N N' N'' : (length (vertices a) <= length (vertices b))%nat -> same_counts a N N' -> same_counts b N' N'' -> same_counts a N N''.
Proof. intros L S1 S2 i Hi. rewrite S2 by lia. apply S1, Hi. Qed.
Lemma connect_src st src dst rin rout p st' : connect st src dst rin rout p = Ok st' ->
  exists a b, nth_error (vertices (st_graph st)) src = Some a /\ nth_error (vertices (st_graph st)) dst = Some b /\ v_phases a = 1%nat /\ v_phases b = 1%nat.
Proof.
  unfold connect. destruct (nth_error (vertices (st_graph st)) src) as [a|] eqn:A; [|discriminate]. destruct (nth_error (vertices (st_graph st)) dst) as [b|] eqn:B; [|discriminate].
  destruct ((v_phases a =? 1) && (v_phases b =? 1))%nat eqn:P; [|discriminate]. apply andb_true_iff in P. destruct P as [P1 P2]. apply Nat.eqb_eq in P1, P2. eauto 10.
Qed.

(** A new task behind [src]. *)
Lemma hop_facts st d l src rin st1 m st2 : good st -> d = 1%Q \/ d = 0%Q -> 0 < rin -> (src < length (vertices (st_graph st)))%nat -> add_task st d l = (st1, m) -> connect st1 src m rin 1 0 = Ok st2 ->
  good st2 /\ extends st st2 /\ m = length (vertices (st_graph st)) /\ length (vertices (st_graph st2)) = S m /\
  nth_error (vertices (st_graph st2)) m = Some (mkVertex (next_vertex_id st) 1 0 [d] [] 1) /\
  (exists id, edges (st_graph st2) = edges (st_graph st) ++ [mkEdge id src m [rin] [1] [] [] 0]) /\
  st_links st2 = st_links st ++ match l with Some e => [(m, e)] | None => [] end.
Proof.
  intros G D R Ls T C. destruct (add_task_good st d l G D) as (G1 & X1 & V1 & P1 & E1 & K1). rewrite T in *. cbn [fst snd] in *.
  destruct (connect_good st1 src m rin 1 0 st2 G1 R ltac:(lia) ltac:(lia) C) as (G2 & X2 & VE2 & K2 & id2 & E2).
  split; [exact G2|]. split; [eapply extends_trans; eauto|]. split; [exact P1|]. split.
  - rewrite VE2. unfold add_task in T. injection T as <- <-. cbn [st_graph vertices]. rewrite app_length. cbn [length]. lia.
  - split; [rewrite VE2; exact V1|]. split; [exists id2; rewrite E2, E1; reflexivity|]. rewrite K2, K1, P1. reflexivity.
Qed.

Lemma add_links_counts : forall route st src rin st' last, good st -> 0 < rin -> (src < length (vertices (st_graph st)))%nat -> add_links st src rin route = Ok (st', last) ->
  (forall N, balanced (st_graph st) N -> exists N', same_counts (st_graph st) N N' /\ balanced (st_graph st') N' /\ N' last = (match route with [] => 1 | _ => rin end) * N src /\
     (0 < N src -> forall i, (length (vertices (st_graph st)) <= i < length (vertices (st_graph st')))%nat -> 0 < N' i)) /\
  (forall N', balanced (st_graph st') N' -> balanced (st_graph st) N' /\ N' last = (match route with [] => 1 | _ => rin end) * N' src).
Proof.
  induction route as [|e rest IH]; intros st src rin st' last G R Ls H; cbn [add_links] in H.
  - injection H as <- <-. split; intros N B; [|split; [exact B|lia]]. exists N. split; [intros i _; reflexivity|]. split; [exact B|]. split; [lia|intros; lia].
  - destruct (add_task st 1 (Some e)) as [st1 middle] eqn:T1.
    destruct (connect st1 src middle rin 1 0) as [st2| | |] eqn:C2; cbn [bind] in H; try discriminate.
    destruct (hop_facts st 1 (Some e) src rin st1 middle st2 G (or_introl eq_refl) R Ls T1 C2) as (G2 & X2 & P1 & L2 & M2 & (id2 & E2) & _).
    assert (F2 : forall N, balanced (st_graph st) N -> let N' := fun i => if (i =? middle)%nat then rin * N src else N i in same_counts (st_graph st) N N' /\ balanced (st_graph st2) N').
    { intros N B N'. assert (S : same_counts (st_graph st) N N') by (intros i Hi; unfold N'; destruct (Nat.eqb_spec i middle); [lia|reflexivity]). split; [exact S|].
      intros c Hc. rewrite E2 in Hc. apply in_app_or in Hc. destruct Hc as [Hc|[<-|[]]].
      - exact (balanced_ext _ _ _ (proj1 G) S B c Hc).
      - apply one_balance. unfold N'. rewrite Nat.eqb_refl. destruct (Nat.eqb_spec src middle); lia. }
    assert (B2 : forall N', balanced (st_graph st2) N' -> balanced (st_graph st) N' /\ N' middle = rin * N' src).
    { intros N' B. split; [intros c Hc; apply B; rewrite E2; apply in_or_app; left; exact Hc|]. assert (Hc : In (mkEdge id2 src middle [rin] [1] [] [] 0) (edges (st_graph st2))) by (rewrite E2; apply in_or_app; right; left; reflexivity). specialize (B _ Hc). apply one_balance in B. lia. }
    destruct rest as [|e' rest'].
    + injection H as <- <-. split.
      * intros N B. destruct (F2 N B) as [S B']. eexists. split; [exact S|]. split; [exact B'|]. split; [rewrite Nat.eqb_refl; reflexivity|]. intros PN i Hi. cbn. assert (i = middle) as -> by lia. rewrite Nat.eqb_refl. nia.
      * exact B2.
    + destruct (add_task st2 0 None) as [st3 router] eqn:T3. destruct (connect st3 middle router 1 1 0) as [st4| | |] eqn:C4; cbn [bind] in H; try discriminate.
      destruct (hop_facts st2 0 None middle 1 st3 router st4 G2 (or_intror eq_refl) ltac:(lia) ltac:(lia) T3 C4) as (G4 & X4 & P3 & L4 & M4 & (id4 & E4) & _).
      destruct (IH st4 router 1 st' last G4 ltac:(lia) ltac:(lia) H) as [I1 I2]. split.
      * intros N B. destruct (F2 N B) as [S B']. cbv zeta in S, B'. set (N1 := fun i => if (i =? middle)%nat then rin * N src else N i) in *.
        set (N2 := fun i => if (i =? router)%nat then N1 middle else N1 i).
        assert (S2 : same_counts (st_graph st2) N1 N2) by (intros i Hi; unfold N2; destruct (Nat.eqb_spec i router); [lia|reflexivity]).
        assert (B4 : balanced (st_graph st4) N2).
        { intros c Hc. rewrite E4 in Hc. apply in_app_or in Hc. destruct Hc as [Hc|[<-|[]]]; [exact (balanced_ext _ _ _ (proj1 G2) S2 B' c Hc)|]. apply one_balance. unfold N2. rewrite Nat.eqb_refl. destruct (Nat.eqb_spec middle router); lia. }
        destruct (I1 N2 B4) as (N' & S' & B'' & Lc & Pn). exists N'. split.
        -- intros i Hi. rewrite S' by lia. unfold N2. destruct (Nat.eqb_spec i router); [lia|]. apply S, Hi.
        -- split; [exact B''|]. assert (V1 : N1 middle = rin * N src) by (unfold N1; rewrite Nat.eqb_refl; reflexivity). assert (V2 : N2 router = rin * N src) by (unfold N2; rewrite Nat.eqb_refl; exact V1). split.
           ++ rewrite Lc, V2. lia.
           ++ intros PN i Hi. destruct (Nat.le_gt_cases (length (vertices (st_graph st4))) i) as [L|L]; [apply Pn; [rewrite V2; nia|lia]|]. rewrite S' by lia. unfold N2. destruct (Nat.eqb_spec i router); [rewrite V1; nia|]. assert (i = middle) as -> by lia. rewrite V1. nia.
      * intros N' B'. destruct (I2 N' B') as [B4 Lc]. assert (B2' : balanced (st_graph st2) N') by (intros c Hc; apply B4; rewrite E4; apply in_or_app; left; exact Hc).
        assert (Hc : In (mkEdge id4 middle router [1] [1] [] [] 0) (edges (st_graph st4))) by (rewrite E4; apply in_or_app; right; left; reflexivity). specialize (B4 _ Hc). apply one_balance in B4. destruct (B2 N' B2') as [B0 Mm]. split; [exact B0|].
        rewrite Lc. lia.
Qed.

(** ** Orders of execution *)
Lemma times_app i a b : times i (a ++ b) = (times i a + times i b)%nat.
Proof. unfold times. apply count_occ_app. Qed.
Lemma times_one i j : times i [j] = if (j =? i)%nat then 1%nat else 0%nat.
Proof. unfold times. cbn. destruct (Nat.eq_dec j i), (Nat.eqb_spec j i); congruence. Qed.
Lemma times_repeat i j n : times i (repeat j n) = if (j =? i)%nat then n else 0%nat.
Proof. induction n as [|n IH]; [destruct (j =? i)%nat; reflexivity|]. change (repeat j (S n)) with ([j] ++ repeat j n). rewrite times_app, times_one, IH. destruct (j =? i)%nat; reflexivity. Qed.

Definition alike (c c' : edge) : Prop :=
  e_src c = e_src c' /\ e_dst c = e_dst c' /\ e_in c = e_in c' /\ e_out c = e_out c' /\ e_in_init c = e_in_init c' /\ e_out_init c = e_out_init c' /\ e_preload c = e_preload c'.
Lemma alike_tokens c c' w : alike c c' -> tokens c w = tokens c' w /\ forall m, cons_rate c m = cons_rate c' m.
Proof. intros (A & B & C & D & E & F & H). unfold tokens, cons_rate, prod_rate. rewrite A, B, C, D, E, F, H. auto. Qed.
Lemma playable_alike g g' w : length (vertices g') = length (vertices g) -> (forall c', In c' (edges g') -> exists c, In c (edges g) /\ alike c c') -> playable g w -> playable g' w.
Proof.
  intros L H P. induction P as [|w i P IH (Hi & He)]; [constructor|]. constructor; [exact IH|]. split; [lia|]. intros c' Hc' D. destruct (H c' Hc') as (c & Hc & Al). destruct (alike_tokens c c' w Al) as [T R]. rewrite <- T, <- R. apply He; [exact Hc|].
  destruct Al as (_ & E & _). congruence.
Qed.
Lemma playable_range g w : playable g w -> forall i, (length (vertices g) <= i)%nat -> times i w = 0%nat.
Proof. induction 1 as [|w i P IH (Hi & _)]; intros j Hj; [reflexivity|]. rewrite times_app, IH, times_one by exact Hj. destruct (Nat.eqb_spec i j); [lia|reflexivity]. Qed.
Lemma playable_repeat g w i n : playable g w -> (forall k, (k < n)%nat -> enabled g (w ++ repeat i k) i) -> playable g (w ++ repeat i n).
Proof.
  intros P. induction n as [|n IH]; intros H; cbn [repeat]; [rewrite app_nil_r; exact P|].
  change (i :: repeat i n) with ([i] ++ repeat i n). assert (E : [i] ++ repeat i n = repeat i n ++ [i]).
  { clear. induction n as [|n IH]; [reflexivity|]. cbn [repeat app]. f_equal. exact IH. }
  rewrite E, app_assoc. constructor; [apply IH; intros k Hk; apply H; lia|apply H; lia].
Qed.
Lemma tokens_nn g w c : graph_wf g -> no_init g -> In c (edges g) -> playable g w -> 0 <= tokens c w.
Proof.
  intros WF NI Hc P. destruct WF as (_ & E & _). destruct (E c Hc) as (a & b & _ & _ & _ & _ & _ & _ & NN & _ & _ & PL).
  assert (PR : forall m, 0 <= prod_rate c m).
  { intros m. unfold prod_rate, cyclic. destruct (m <? length (e_in_init c))%nat eqn:L.
    - destruct (nth_in_or_default m (e_in_init c) 0) as [I|D]; [apply NN; rewrite !in_app_iff; auto|lia].
    - destruct (nth_in_or_default ((m - length (e_in_init c)) mod length (e_in c)) (e_in c) 0) as [I|D]; [apply NN; rewrite !in_app_iff; auto|lia]. }
  induction P as [|w i P IH (Hi & He)]; [unfold tokens; cbn; lia|].
  unfold tokens in *. rewrite !times_app, !times_one. specialize (He c Hc).
  assert (Step : forall f n, sumf f (n + 1) = sumf f n + f n) by (intros f n; rewrite Nat.add_1_r; reflexivity).
  destruct (Nat.eqb_spec i (e_src c)) as [E1|E1], (Nat.eqb_spec i (e_dst c)) as [E2|E2]; rewrite ?Step, ?Nat.add_0_r.
  - specialize (He (eq_sym E2)). unfold tokens in He. subst i. rewrite <- E2 in *. pose proof (PR (times (e_src c) w)). lia.
  - pose proof (PR (times (e_src c) w)). lia.
  - specialize (He (eq_sym E2)). unfold tokens in He. rewrite <- E2 in *. lia.
  - exact IH.
Qed.
Lemma one_tokens id i j a b p w : tokens (mkEdge id i j [a] [b] [] [] p) w = p + a * Z.of_nat (times i w) - b * Z.of_nat (times j w).
Proof. unfold tokens, prod_rate, cons_rate. cbn [e_preload e_src e_dst e_in e_out e_in_init e_out_init]. rewrite !sumf_one. reflexivity. Qed.
Lemma one_cons id i j a b p m : cons_rate (mkEdge id i j [a] [b] [] [] p) m = b.
Proof. unfold cons_rate. apply one_rate. Qed.

(** The state with the channel that remains to be added. *)
Definition pend (st : state) (src dst : nat) (rin rout p : Z) : graph :=
  mkGraph (vertices (st_graph st)) (edges (st_graph st) ++ [mkEdge 0 src dst [rin] [rout] [] [] p]).
Definition stretch (src m : nat) (r : nat) (w : list nat) : list nat := flat_map (fun i => if (i =? src)%nat then src :: repeat m r else [i]) w.
Lemma stretch_snoc src m r w i : stretch src m r (w ++ [i]) = stretch src m r w ++ (if (i =? src)%nat then src :: repeat m r else [i]).
Proof. unfold stretch. rewrite flat_map_app. cbn [flat_map]. rewrite app_nil_r. reflexivity. Qed.
Lemma stretch_times src m r w : src <> m -> times m w = 0%nat -> (forall i, i <> m -> times i (stretch src m r w) = times i w) /\ times m (stretch src m r w) = (r * times src w)%nat.
Proof.
  intros NE. induction w as [|x w IH] using rev_ind; intros Hm; [cbn; split; [reflexivity|lia]|]. rewrite times_app, times_one in Hm. destruct (Nat.eqb_spec x m) as [|Nx]; [lia|]. destruct IH as [I1 I2]; [lia|]. split.
  - intros i Hi. rewrite stretch_snoc, !times_app, I1 by exact Hi. f_equal. destruct (Nat.eqb_spec x src) as [E|E]; [|reflexivity]. change (src :: repeat m r) with ([src] ++ repeat m r). rewrite times_app, times_repeat, E. destruct (Nat.eqb_spec m i); [congruence|lia].
  - rewrite stretch_snoc, !times_app, I2. destruct (Nat.eqb_spec x src) as [E|E].
    + change (src :: repeat m r) with ([src] ++ repeat m r). rewrite times_app, times_repeat, !times_one, Nat.eqb_refl. subst x. rewrite Nat.eqb_refl. destruct (Nat.eqb_spec src m); [congruence|]. lia.
    + rewrite !times_one. destruct (Nat.eqb_spec x m); [congruence|]. destruct (Nat.eqb_spec x src); [congruence|]. lia.
Qed.

Lemma hop_playable st d l src dst rin rout p st1 m st2 w : good st -> d = 1%Q \/ d = 0%Q -> 0 < rin -> (src < length (vertices (st_graph st)))%nat -> (dst < length (vertices (st_graph st)))%nat ->
  add_task st d l = (st1, m) -> connect st1 src m rin 1 0 = Ok st2 -> playable (pend st src dst rin rout p) w -> playable (pend st2 m dst 1 rout p) (stretch src m (Z.to_nat rin) w).
Proof.
  intros G D R Ls Ld T C P. destruct (hop_facts st d l src rin st1 m st2 G D R Ls T C) as (G2 & X2 & Pm & L2 & _ & (id2 & E2) & _).
  assert (Out : forall c, In c (edges (st_graph st)) -> (e_src c < length (vertices (st_graph st)) /\ e_dst c < length (vertices (st_graph st)))%nat).
  { intros c Hc. destruct G as ((_ & E & _) & _). destruct (E c Hc) as (a & b & A & B & _). split; apply nth_error_Some; congruence. }
  assert (Go : forall w i, playable (pend st src dst rin rout p) w -> enabled (pend st src dst rin rout p) w i -> enabled (pend st2 m dst 1 rout p) (stretch src m (Z.to_nat rin) w) i).
  { intros w0 i P0 (Hi & He). cbn [pend vertices edges] in Hi, He. pose proof (playable_range _ _ P0 m) as Zm. cbn [pend vertices] in Zm. destruct (stretch_times src m (Z.to_nat rin) w0 ltac:(lia) (Zm ltac:(lia))) as [S1 S2].
    split; [cbn [pend vertices]; lia|]. cbn [pend edges]. intros c Hc Dc. rewrite E2 in Hc. rewrite !in_app_iff in Hc. destruct Hc as [[Hc|[<-|[]]]|[<-|[]]].
    - destruct (Out c Hc) as [O1 O2]. rewrite S1 by lia. unfold tokens. rewrite !S1 by lia. apply He; [apply in_or_app; left; exact Hc|exact Dc].
    - cbn in Dc. lia.
    - cbn in Dc. rewrite one_cons, one_tokens, S2, S1 by lia. specialize (He (mkEdge 0 src dst [rin] [rout] [] [] p) ltac:(apply in_or_app; right; left; reflexivity) Dc). rewrite one_cons, one_tokens in He. lia. }
  induction P as [|w i P IH En]; [constructor|]. rewrite stretch_snoc. pose proof (Go w i P En) as Gi.
  destruct (Nat.eqb_spec i src) as [E|E]; [|constructor; assumption]. subst i.
  change (src :: repeat m (Z.to_nat rin)) with ([src] ++ repeat m (Z.to_nat rin)). rewrite app_assoc. apply playable_repeat; [constructor; assumption|].
  pose proof (playable_range _ _ P m) as Zm. cbn [pend vertices] in Zm. destruct (stretch_times src m (Z.to_nat rin) w ltac:(lia) (Zm ltac:(lia))) as [S1 S2].
  intros k Hk. split; [cbn [pend vertices]; lia|]. cbn [pend edges]. intros c Hc Dc. rewrite E2 in Hc. rewrite !in_app_iff in Hc. destruct Hc as [[Hc|[<-|[]]]|[<-|[]]].
  - destruct (Out c Hc). lia.
  - rewrite one_cons, one_tokens, !times_app, !times_repeat, !times_one, !Nat.eqb_refl, S2, S1 by lia. destruct (Nat.eqb_spec m src); [lia|]. destruct (Nat.eqb_spec src m); [lia|]. nia.
  - cbn in Dc. lia.
Qed.
Lemma hop_live st d l src dst rin rout p st1 m st2 N : good st -> d = 1%Q \/ d = 0%Q -> 0 < rin -> (src < length (vertices (st_graph st)))%nat -> (dst < length (vertices (st_graph st)))%nat ->
  add_task st d l = (st1, m) -> connect st1 src m rin 1 0 = Ok st2 -> N m = rin * N src -> live (pend st src dst rin rout p) N -> live (pend st2 m dst 1 rout p) N.
Proof.
  intros G D R Ls Ld T C Nm (w & P & Hw). destruct (hop_facts st d l src rin st1 m st2 G D R Ls T C) as (G2 & X2 & Pm & L2 & _ & (id2 & E2) & _).
  exists (stretch src m (Z.to_nat rin) w). split; [exact (hop_playable st d l src dst rin rout p st1 m st2 w G D R Ls Ld T C P)|]. pose proof (playable_range _ _ P m) as Zm. cbn [pend vertices] in *. destruct (stretch_times src m (Z.to_nat rin) w ltac:(lia) (Zm ltac:(lia))) as [S1 S2].
  intros i Hi. destruct (Nat.eq_dec i m) as [->|Ni]; [rewrite S2, Nm, <- (Hw src Ls); nia|]. rewrite S1 by exact Ni. apply Hw. lia.
Qed.

Lemma add_links_live : forall route st src dst rin rout p st' last N, good st -> 0 < rin -> (src < length (vertices (st_graph st)))%nat -> (dst < length (vertices (st_graph st)))%nat ->
  add_links st src rin route = Ok (st', last) -> route <> [] -> balanced (st_graph st') N -> live (pend st src dst rin rout p) N -> live (pend st' last dst 1 rout p) N.
Proof.
  induction route as [|e rest IH]; intros st src dst rin rout p st' last N G R Ls Ld H NE B Lv; [congruence|]. cbn [add_links] in H.
  destruct (add_task st 1 (Some e)) as [st1 middle] eqn:T1.
  destruct (connect st1 src middle rin 1 0) as [st2| | |] eqn:C2; cbn [bind] in H; try discriminate.
  destruct (hop_facts st 1 (Some e) src rin st1 middle st2 G (or_introl eq_refl) R Ls T1 C2) as (G2 & X2 & P1 & L2 & M2 & (id2 & E2) & _).
  destruct rest as [|e' rest'].
  - injection H as <- <-. refine (hop_live st 1 (Some e) src dst rin rout p st1 middle st2 N G (or_introl eq_refl) R Ls Ld T1 C2 _ Lv). assert (Hc : In (mkEdge id2 src middle [rin] [1] [] [] 0) (edges (st_graph st2))) by (rewrite E2; apply in_or_app; right; left; reflexivity). specialize (B _ Hc). apply one_balance in B. lia.
  - destruct (add_task st2 0 None) as [st3 router] eqn:T3. destruct (connect st3 middle router 1 1 0) as [st4| | |] eqn:C4; cbn [bind] in H; try discriminate.
    destruct (hop_facts st2 0 None middle 1 st3 router st4 G2 (or_intror eq_refl) ltac:(lia) ltac:(lia) T3 C4) as (G4 & X4 & P3 & L4 & M4 & (id4 & E4) & _).
    destruct (add_links_good _ st4 router 1 st' last G4 ltac:(lia) H) as (G' & X' & _).
    assert (Bx : forall c, In c (edges (st_graph st4)) -> In c (edges (st_graph st'))) by (destruct X' as (_ & _ & _ & I); exact I).
    assert (Q1 : N middle = rin * N src). { assert (Hc : In (mkEdge id2 src middle [rin] [1] [] [] 0) (edges (st_graph st'))) by (apply Bx; rewrite E4; apply in_or_app; left; rewrite E2; apply in_or_app; right; left; reflexivity). specialize (B _ Hc). apply one_balance in B. lia. }
    assert (Q2 : N router = 1 * N middle). { assert (Hc : In (mkEdge id4 middle router [1] [1] [] [] 0) (edges (st_graph st'))) by (apply Bx; rewrite E4; apply in_or_app; right; left; reflexivity). specialize (B _ Hc). apply one_balance in B. lia. }
    refine (IH st4 router dst 1 rout p st' last N G4 ltac:(lia) ltac:(lia) ltac:(lia) H ltac:(discriminate) B _).
    refine (hop_live st2 0 None middle dst 1 rout p st3 router st4 N G2 (or_intror eq_refl) ltac:(lia) ltac:(lia) ltac:(lia) T3 C4 Q2 _).
    exact (hop_live st 1 (Some e) src dst rin rout p st1 middle st2 N G (or_introl eq_refl) R Ls Ld T1 C2 Q1 Lv).
Qed.

(** The other way: what left the chain entered it. *)
Lemma add_links_flow : forall route st src rin st' last, good st -> 0 < rin -> (src < length (vertices (st_graph st)))%nat -> route <> [] -> add_links st src rin route = Ok (st', last) ->
  forall g w, graph_wf g -> no_init g -> incl (edges (st_graph st')) (edges g) -> playable g w -> Z.of_nat (times last w) <= rin * Z.of_nat (times src w).
Proof.
  induction route as [|e rest IH]; intros st src rin st' last G R Ls NE H g w WF NI I P; [congruence|]. cbn [add_links] in H.
  destruct (add_task st 1 (Some e)) as [st1 middle] eqn:T1.
  destruct (connect st1 src middle rin 1 0) as [st2| | |] eqn:C2; cbn [bind] in H; try discriminate.
  destruct (hop_facts st 1 (Some e) src rin st1 middle st2 G (or_introl eq_refl) R Ls T1 C2) as (G2 & X2 & P1 & L2 & M2 & (id2 & E2) & _).
  assert (I2 : In (mkEdge id2 src middle [rin] [1] [] [] 0) (edges (st_graph st2))) by (rewrite E2; apply in_or_app; right; left; reflexivity).
  destruct rest as [|e' rest'].
  - injection H as <- <-. pose proof (tokens_nn g w _ WF NI (I _ I2) P) as X. rewrite one_tokens in X. lia.
  - destruct (add_task st2 0 None) as [st3 router] eqn:T3. destruct (connect st3 middle router 1 1 0) as [st4| | |] eqn:C4; cbn [bind] in H; try discriminate.
    destruct (hop_facts st2 0 None middle 1 st3 router st4 G2 (or_intror eq_refl) ltac:(lia) ltac:(lia) T3 C4) as (G4 & X4 & P3 & L4 & M4 & (id4 & E4) & _).
    destruct (add_links_good _ st4 router 1 st' last G4 ltac:(lia) H) as (G' & X' & _).
    assert (Bx : forall c, In c (edges (st_graph st4)) -> In c (edges g)) by (destruct X' as (_ & _ & _ & J); intros c Hc; apply I, J, Hc).
    pose proof (IH st4 router 1 st' last G4 ltac:(lia) ltac:(lia) ltac:(discriminate) H g w WF NI I P) as Y.
    assert (H1 : In (mkEdge id4 middle router [1] [1] [] [] 0) (edges g)) by (apply Bx; rewrite E4; apply in_or_app; right; left; reflexivity).
    assert (H2 : In (mkEdge id2 src middle [rin] [1] [] [] 0) (edges g)) by (apply Bx; rewrite E4; apply in_or_app; left; exact I2).
    pose proof (tokens_nn g w _ WF NI H1 P) as T1'. pose proof (tokens_nn g w _ WF NI H2 P) as T2'. rewrite one_tokens in T1', T2'. lia.
Qed.
