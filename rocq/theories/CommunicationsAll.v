(** All the channels replaced, one after the other. *)
From Coq Require Import QArith Lqa.
From Verif Require Import Base Graph ScheduleSpec ScheduleCore SymbExecSpec Communications CommunicationsSpec KIterSpec CommunicationsProofs CommunicationsLive CommunicationsStep.
Open Scope Z_scope.

Lemma add_links_links : forall route st src rin st' last, add_links st src rin route = Ok (st', last) -> map snd (st_links st') = map snd (st_links st) ++ route.
Proof.
  assert (C : forall st a b x y z st', connect st a b x y z = Ok st' -> st_links st' = st_links st).
  { intros st a b x y z st' H. unfold connect in H. destruct (nth_error _ a) as [u|]; [|discriminate]. destruct (nth_error _ b) as [v|]; [|discriminate]. destruct ((_ =? 1) && (_ =? 1))%nat; [|discriminate]. injection H as <-. reflexivity. }
  induction route as [|e rest IH]; intros st src rin st' last H; cbn [add_links] in H; [injection H as <- <-; symmetry; apply app_nil_r|].
  destruct (add_task st 1 (Some e)) as [st1 m] eqn:T1. destruct (connect st1 src m rin 1 0) as [st2| | |] eqn:C2; cbn [bind] in H; try discriminate. apply C in C2.
  unfold add_task in T1. injection T1 as <- <-. cbn [st_links] in C2. destruct rest as [|e' rest'].
  - injection H as <- <-. rewrite C2, map_app. reflexivity.
  - destruct (add_task st2 0 None) as [st3 r] eqn:T3. destruct (connect st3 _ r 1 1 0) as [st4| | |] eqn:C4; cbn [bind] in H; try discriminate. apply C in C4. unfold add_task in T3. injection T3 as <- <-. cbn [st_links] in C4.
    rewrite (IH _ _ _ _ _ H), C4, C2, map_app, <- app_assoc. reflexivity.
Qed.
Lemma connect_links st a b x y z st' : connect st a b x y z = Ok st' -> st_links st' = st_links st.
Proof. intros H. unfold connect in H. destruct (nth_error _ a) as [u|]; [|discriminate]. destruct (nth_error _ b) as [v|]; [|discriminate]. destruct ((_ =? 1) && (_ =? 1))%nat; [|discriminate]. injection H as <-. reflexivity. Qed.

Definition unrouted (route : Z -> list Z) (virtual : Z -> bool) (c : edge) : Prop := e_src c = e_dst c \/ (route (e_id c) = [] /\ virtual (e_id c) = true).
Record outcome_of (route : Z -> list Z) (st st' : state) (ids : list Z) : Prop := mkOutcome {
  o_good : good st';
  o_vertices : exists vs, vertices (st_graph st') = vertices (st_graph st) ++ vs /\ forall v, In v vs -> new_task v;
  o_valid : forall s, schedule_valid (st_graph st') s -> schedule_valid (st_graph st) s /\
     forall c, In c (edges (st_graph st)) -> In (e_id c) ids -> delayed_valid (st_graph st) s c (len (crossed route c));
  o_counts : forall N, balanced (st_graph st) N -> (forall i, (i < length (vertices (st_graph st)))%nat -> 0 < N i) ->
     exists N', same_counts (st_graph st) N N' /\ balanced (st_graph st') N' /\ forall i, (i < length (vertices (st_graph st')))%nat -> 0 < N' i;
  o_back : forall N', balanced (st_graph st') N' -> balanced (st_graph st) N';
  o_live : forall N', balanced (st_graph st') N' -> (live (st_graph st) N' <-> live (st_graph st') N')
}.
Lemma delayed_same g g' s c d : edge_wf g c -> (exists vs, vertices g' = vertices g ++ vs) -> delayed_valid g' s c d -> delayed_valid g s c d.
Proof.
  intros (a & b & A & _) (vs & E) D t nc. destruct (D t nc) as (m & L). exists m. rewrite (moved_ext (end_of s g (e_src c)) (end_of s g' (e_src c)) (t - d)%Q (t - d)%Q); [exact L|].
  intros k. unfold end_of. rewrite E, nth_error_app1 by (apply nth_error_Some; congruence). reflexivity.
Qed.

Section All.
Variables (route : Z -> list Z) (virtual : Z -> bool).
Lemma one_outcome st c st' : good st -> In c (edges (st_graph st)) -> (e_src c <> e_dst c -> route (e_id c) <> [] \/ virtual (e_id c) = true) ->
  replace_channel route virtual st (e_id c) = Ok st' -> outcome_of route st st' [e_id c] /\ (forall x, In x (edges (st_graph st)) -> x <> c -> In x (edges (st_graph st'))) /\
  map snd (st_links st') = map snd (st_links st) ++ crossed route c.
Proof.
  intros G Hc R H. pose proof G as (_ & _ & (ND & _) & _). destruct (replace_inv route virtual st c st' G Hc H) as [[-> U]|(NS & Nv & stl & last & HA & HC)].
  - assert (X : crossed route c = []) by (unfold crossed; destruct U as [->|[-> _]]; [rewrite Nat.eqb_refl; reflexivity|destruct (_ =? _)%nat; reflexivity]).
    split; [|split; [auto|rewrite X; symmetry; apply app_nil_r]]. constructor; try tauto.
    + exists []. split; [symmetry; apply app_nil_r|intros v []].
    + intros s V. split; [exact V|]. intros x Hx [E|[]]. assert (x = c) as -> by (apply (same_id (edges (st_graph st))); auto). rewrite X. apply valid_is_delayed, V, Hc.
    + intros N B P. exists N. split; [intros i _; reflexivity|]. split; [exact B|exact P].
  - assert (NE : route (e_id c) <> []). { destruct (R NS) as [|V]; [assumption|]. intros E. rewrite (Nv E) in V. discriminate. }
    assert (X : crossed route c = route (e_id c)) by (unfold crossed; destruct (Nat.eqb_spec (e_src c) (e_dst c)); [congruence|reflexivity]).
    split; [|split].
    + constructor.
      * exact (proj1 (step_shape route st st' stl c last G Hc NE HA HC)).
      * exact (step_vertices route st st' stl c last G Hc NE HA HC).
      * intros s V. split; [exact (step_valid route st st' stl c last G Hc NE HA HC s V)|]. intros x Hx [E|[]]. assert (x = c) as -> by (apply (same_id (edges (st_graph st))); auto). rewrite X. exact (step_delay route st st' stl c last G Hc NE HA HC s V).
      * intros N B P. destruct (step_counts route st st' stl c last G Hc NE HA HC N B) as (N' & S & B' & Pn). exists N'. split; [exact S|]. split; [exact B'|].
        intros i Hi. destruct (Nat.lt_ge_cases i (length (vertices (st_graph st)))) as [L|L]; [rewrite S by exact L; apply P, L|]. apply Pn; [|lia]. apply P. pose proof G as ((_ & E & _) & _). destruct (E c Hc) as (a & b & A & _). apply nth_error_Some. congruence.
      * intros N'. exact (step_back route st st' stl c last G Hc NE HA HC N').
      * intros N' B. split; [exact (step_live route st st' stl c last G Hc NE HA HC N' B)|exact (step_unlive route st st' stl c last G Hc NE HA HC N')].
    + intros x. exact (step_kept route st st' stl c last G Hc NE HA HC x).
    + rewrite (connect_links _ _ _ _ _ _ _ HC), (add_links_links _ _ _ _ _ _ HA), X. reflexivity.
Qed.

Lemma all_outcome : forall cs st st', good st -> NoDup (map e_id cs) -> incl cs (edges (st_graph st)) -> (forall c, In c cs -> e_src c <> e_dst c -> route (e_id c) <> [] \/ virtual (e_id c) = true) ->
  replace_all route virtual st (map e_id cs) = Ok st' -> outcome_of route st st' (map e_id cs) /\ map snd (st_links st') = map snd (st_links st) ++ flat_map (crossed route) cs.
Proof.
  induction cs as [|c cs IH]; intros st st' G ND I R H; cbn [map replace_all] in H.
  - injection H as <-. split; [|symmetry; apply app_nil_r]. constructor; try tauto.
    + exists []. split; [symmetry; apply app_nil_r|intros v []].
    + intros s V. split; [exact V|intros c _ []].
    + intros N B P. exists N. split; [intros i _; reflexivity|]. split; [exact B|exact P].
  - destruct (replace_channel route virtual st (e_id c)) as [st1| | |] eqn:C; cbn [bind] in H; try discriminate. inversion ND as [|? ? Ni ND']; subst.
    assert (Hc : In c (edges (st_graph st))) by (apply I; left; reflexivity).
    destruct (one_outcome st c st1 G Hc (R c (or_introl eq_refl)) C) as (O1 & K1 & L1).
    assert (I1 : incl cs (edges (st_graph st1))). { intros x Hx. apply K1; [apply I; right; exact Hx|]. intros ->. apply Ni, in_map, Hx. }
    destruct (IH st1 st' (o_good _ _ _ _ O1) ND' I1 (fun x Hx => R x (or_intror Hx)) H) as (O2 & L2).
    split; [|rewrite L2, L1, <- app_assoc; reflexivity].
    destruct (o_vertices _ _ _ _ O1) as (v1 & E1 & N1). destruct (o_vertices _ _ _ _ O2) as (v2 & E2 & N2).
    constructor.
    + apply O2.
    + exists (v1 ++ v2). split; [rewrite E2, E1, app_assoc; reflexivity|]. intros v Hv. apply in_app_or in Hv. destruct Hv; auto.
    + intros s V. destruct (o_valid _ _ _ _ O2 s V) as [V1 D2]. destruct (o_valid _ _ _ _ O1 s V1) as [V0 D1]. split; [exact V0|]. intros x Hx [E|E].
      * apply D1; [exact Hx|left; exact E].
      * apply (delayed_same _ (st_graph st1)); [apply G, Hx|exists v1; exact E1|]. apply D2; [|exact E]. apply K1; [exact Hx|]. intros ->. exact (Ni E).
    + intros N B P. destruct (o_counts _ _ _ _ O1 N B P) as (N1' & S1 & B1 & P1). destruct (o_counts _ _ _ _ O2 N1' B1 P1) as (N2' & S2 & B2 & P2).
      exists N2'. split; [|split; assumption]. apply (same_trans _ (st_graph st1) N N1'); auto. rewrite E1, app_length. lia.
    + intros N' B. apply (o_back _ _ _ _ O1), (o_back _ _ _ _ O2), B.
    + intros N' B. rewrite (o_live _ _ _ _ O1 N' (o_back _ _ _ _ O2 N' B)). apply (o_live _ _ _ _ O2 N' B).
Qed.

(** ** When it succeeds *)
Lemma add_links_ok : forall links st src rin a, nth_error (vertices (st_graph st)) src = Some a -> v_phases a = 1%nat -> exists st' last v, add_links st src rin links = Ok (st', last) /\
  nth_error (vertices (st_graph st')) last = Some v /\ v_phases v = 1%nat /\ exists vs, vertices (st_graph st') = vertices (st_graph st) ++ vs.
Proof.
  induction links as [|e rest IH]; intros st src rin a A P; cbn [add_links]; [exists st, src, a; repeat split; auto; exists []; symmetry; apply app_nil_r|].
  unfold add_task at 1. cbn [fst snd].
  assert (Mid : forall x d, nth_error (vertices (st_graph x) ++ [mkVertex (next_vertex_id x) 1 0 [d] [] 1]) (length (vertices (st_graph x))) = Some (mkVertex (next_vertex_id x) 1 0 [d] [] 1)) by (intros; rewrite nth_error_app2, Nat.sub_diag by lia; reflexivity).
  assert (Low : forall x d i v, nth_error (vertices (st_graph x)) i = Some v -> nth_error (vertices (st_graph x) ++ [mkVertex (next_vertex_id x) 1 0 [d] [] 1]) i = Some v) by (intros x d i v Hi; rewrite nth_error_app1; [exact Hi|apply nth_error_Some; congruence]).
  unfold connect at 1. cbn [st_graph vertices]. rewrite (Low _ _ _ _ A), Mid, P. cbn [v_phases Nat.eqb andb bind]. destruct rest as [|e' rest'].
  - do 3 eexists. split; [reflexivity|]. cbn [st_graph vertices]. split; [apply Mid|]. split; [reflexivity|]. eexists. reflexivity.
  - set (st2 := mkState _ _ _ _). assert (M2 : nth_error (vertices (st_graph st2)) (length (vertices (st_graph st))) = Some (mkVertex (next_vertex_id st) 1 0 [1%Q] [] 1)) by apply Mid.
    assert (V2 : exists vs, vertices (st_graph st2) = vertices (st_graph st) ++ vs) by (eexists; reflexivity). clearbody st2.
    unfold add_task at 1. cbn [fst snd]. unfold connect at 1. cbn [st_graph vertices]. rewrite (Low st2 0%Q _ _ M2), Mid. cbn [v_phases Nat.eqb andb bind].
    match goal with |- context [add_links ?x _ _ _] => set (st4 := x) end.
    destruct (IH st4 (length (vertices (st_graph st2))) 1 _ (Mid st2 0%Q) eq_refl) as (st' & last & v & Q1 & Q2 & Q3 & vs & Q4).
    exists st', last, v. split; [exact Q1|]. split; [exact Q2|]. split; [exact Q3|]. destruct V2 as (w & V2). unfold st4 in Q4. cbn [st_graph vertices] in Q4. rewrite V2, <- !app_assoc in Q4. eexists. exact Q4.
Qed.
Lemma all_succeed : forall cs st, good st -> NoDup (map e_id cs) -> incl cs (edges (st_graph st)) -> (forall c, In c cs -> e_src c <> e_dst c -> route (e_id c) <> [] \/ virtual (e_id c) = true) ->
  (forall c, In c cs -> e_src c <> e_dst c -> route (e_id c) <> [] -> length (e_in c) = 1%nat /\ length (e_out c) = 1%nat) -> exists st', replace_all route virtual st (map e_id cs) = Ok st'.
Proof.
  induction cs as [|c cs IH]; intros st G ND I R P; cbn [map replace_all]; [eauto|].
  assert (Hc : In c (edges (st_graph st))) by (apply I; left; reflexivity). inversion ND as [|? ? Ni ND']; subst.
  assert (C : exists st1, replace_channel route virtual st (e_id c) = Ok st1).
  { unfold replace_channel. rewrite (find_id _ _ c); [|apply G|exact Hc|reflexivity]. fold (without st (e_id c)).
    assert (K : e_src c <> e_dst c -> route (e_id c) <> [] -> exists st1, (do p <- add_links (without st (e_id c)) (e_src c) (edge_in_total c) (route (e_id c)); connect (fst p) (snd p) (e_dst c) 1 (edge_out_total c) (e_preload c)) = Ok st1).
    { intros NS NE. destruct (P c (or_introl eq_refl) NS NE) as [P1 P2]. pose proof G as ((_ & E & _) & _). destruct (E c Hc) as (a & b & A & B & LI & LO & _).
      destruct (add_links_ok (route (e_id c)) (without st (e_id c)) (e_src c) (edge_in_total c) a A ltac:(congruence)) as (stl & last & v & Q1 & Q2 & Q3 & vs & Q4). rewrite Q1. cbn [bind fst snd].
      unfold connect. rewrite Q2, Q4, nth_error_app1 by (cbn [without st_graph vertices]; apply nth_error_Some; congruence). cbn [without st_graph vertices]. rewrite B, Q3. assert (v_phases b = 1%nat) as -> by congruence. cbn [Nat.eqb andb]. eauto. }
    destruct (route (e_id c)) as [|e r] eqn:Er.
    - destruct (virtual (e_id c)) eqn:Ev; [eauto|]. destruct (Nat.eqb_spec (e_src c) (e_dst c)) as [E|E]; [eauto|]. destruct (R c (or_introl eq_refl) E) as [X|X]; congruence.
    - destruct (Nat.eqb_spec (e_src c) (e_dst c)) as [E|E]; [destruct (virtual (e_id c)); eauto|]. destruct (K E ltac:(discriminate)) as (st1 & X). exists st1. destruct (virtual (e_id c)); exact X. }
  destruct C as (st1 & C). rewrite C. cbn [bind]. destruct (one_outcome st c st1 G Hc (R c (or_introl eq_refl)) C) as (O1 & K1 & _).
  apply IH; auto; [apply O1| |intros x Hx; apply R; right; exact Hx|intros x Hx; apply P; right; exact Hx].
  intros x Hx. apply K1; [apply I; right; exact Hx|]. intros ->. apply Ni, in_map, Hx.
Qed.
End All.
