(** Channels replaced by chains of tasks. *)
From Coq Require Import QArith Lqa.
From Verif Require Import Base Graph ScheduleSpec ScheduleCore Communications CommunicationsSpec KIterSpec.
Open Scope Z_scope.

(** ** Identifiers *)
Lemma fold_above {A} (f : A -> Z) l : forall a, let r := fold_left (fun a x => if a <=? f x then f x + 1 else a) l a in
  a <= r /\ forall x, In x l -> f x < r.
Proof.
  induction l as [|x l IH]; intros a; cbn [fold_left].
  - split; [lia|intros x []].
  - destruct (IH (if a <=? f x then f x + 1 else a)) as [A1 A2]. split; [destruct (Z.leb_spec a (f x)); lia|]. intros y [<-|Hy]; [|auto]. destruct (Z.leb_spec a (f x)); lia.
Qed.
Lemma NoDup_snoc {A} (l : list A) x : NoDup l -> ~ In x l -> NoDup (l ++ [x]).
Proof.
  intros N I. induction l as [|y l IH]; cbn; [repeat constructor; auto|]. inversion N; subst. constructor.
  - rewrite in_app_iff. intros [|[<-|[]]]; [contradiction|]. apply I. left. reflexivity.
  - apply IH; auto. intros J. apply I. right. exact J.
Qed.

(** ** States that keep the graph well formed *)
Definition new_task (v : vertex) : Prop :=
  v_phases v = 1%nat /\ v_init_phases v = 0%nat /\ v_init_durations v = [] /\ v_reentrancy v = 1 /\ (v_durations v = [1%Q] \/ v_durations v = [0%Q]).
Definition good (st : state) : Prop :=
  graph_wf (st_graph st) /\ no_init (st_graph st) /\ edge_ids_ok (st_graph st) /\ 0 < st_enum st.
(** [st'] extends [st]: new tasks at the end, the channels still there. *)
Definition extends (st st' : state) : Prop :=
  exists vs, vertices (st_graph st') = vertices (st_graph st) ++ vs /\ (forall v, In v vs -> new_task v) /\ incl (edges (st_graph st)) (edges (st_graph st')).
Lemma extends_refl st : extends st st.
Proof. exists []. split; [symmetry; apply app_nil_r|]. split; [intros v []|apply incl_refl]. Qed.
Lemma extends_trans a b c : extends a b -> extends b c -> extends a c.
Proof.
  intros (v1 & E1 & N1 & I1) (v2 & E2 & N2 & I2). exists (v1 ++ v2). split; [rewrite E2, E1, app_assoc; reflexivity|].
  split; [intros v Hv; apply in_app_or in Hv; destruct Hv; auto|eapply incl_tran; eauto].
Qed.
Lemma extends_nth a b i v : extends a b -> nth_error (vertices (st_graph a)) i = Some v -> nth_error (vertices (st_graph b)) i = Some v.
Proof. intros (vs & E & _) H. rewrite E, nth_error_app1; [exact H|]. apply nth_error_Some. congruence. Qed.
Lemma extends_length a b : extends a b -> (length (vertices (st_graph a)) <= length (vertices (st_graph b)))%nat.
Proof. intros (vs & E & _). rewrite E, app_length. lia. Qed.

Lemma new_vertex_ok id d : d = 1%Q \/ d = 0%Q -> new_task (mkVertex id 1 0 [d] [] 1).
Proof. intros [->| ->]; repeat split; auto. Qed.
Lemma add_task_good st d l : good st -> d = 1%Q \/ d = 0%Q -> good (fst (add_task st d l)) /\ extends st (fst (add_task st d l)) /\
  nth_error (vertices (st_graph (fst (add_task st d l)))) (snd (add_task st d l)) = Some (mkVertex (next_vertex_id st) 1 0 [d] [] 1) /\
  snd (add_task st d l) = length (vertices (st_graph st)) /\ edges (st_graph (fst (add_task st d l))) = edges (st_graph st) /\
  st_links (fst (add_task st d l)) = st_links st ++ match l with Some e => [(length (vertices (st_graph st)), e)] | None => [] end.
Proof.
  intros ((V & E & N) & NI & ID & EN) Hd. unfold add_task. cbn [fst snd st_graph vertices edges st_links].
  assert (X : forall c, edge_wf (st_graph st) c -> edge_wf (mkGraph (vertices (st_graph st) ++ [mkVertex (next_vertex_id st) 1 0 [d] [] 1]) (edges (st_graph st))) c).
  { intros c (a & b & A & B & R). exists a, b. cbn [vertices]. split; [rewrite nth_error_app1; [exact A|apply nth_error_Some; congruence]|]. split; [rewrite nth_error_app1; [exact B|apply nth_error_Some; congruence]|exact R]. }
  split; [|split; [|split; [|split; [reflexivity|split; [reflexivity|destruct l; [reflexivity|symmetry; apply app_nil_r]]]]]].
  - split; [split; [|split]|split; [|split; [exact ID|exact EN]]]; cbn [vertices edges st_graph].
    + intros v Hv. apply in_app_or in Hv. destruct Hv as [Hv|[<-|[]]]; [auto|]. split; [cbn; lia|]. split; [reflexivity|]. split; [reflexivity|].
      cbn. intros x [<-|[]]. destruct Hd as [->| ->]; vm_compute; discriminate.
    + intros c Hc. apply X, E, Hc.
    + rewrite map_app. cbn [map v_id]. apply NoDup_snoc; [exact N|]. rewrite in_map_iff. intros (v & Ev & Hv). pose proof (proj2 (fold_above v_id (vertices (st_graph st)) (st_vnum st)) v Hv) as L. unfold next_vertex_id in Ev. lia.
    + intros v Hv. apply in_app_or in Hv. destruct Hv as [Hv|[<-|[]]]; [apply NI, Hv|reflexivity].
  - exists [mkVertex (next_vertex_id st) 1 0 [d] [] 1]. split; [reflexivity|]. split; [|apply incl_refl]. intros v [<-|[]]. apply new_vertex_ok, Hd.
  - rewrite nth_error_app2, Nat.sub_diag by lia. reflexivity.
Qed.
Lemma connect_good st src dst rin rout p st' : good st -> 0 < rin -> 0 < rout -> 0 <= p -> connect st src dst rin rout p = Ok st' ->
  good st' /\ extends st st' /\ vertices (st_graph st') = vertices (st_graph st) /\ st_links st' = st_links st /\
  exists id, edges (st_graph st') = edges (st_graph st) ++ [mkEdge id src dst [rin] [rout] [] [] p].
Proof.
  intros ((V & E & N) & NI & (ND & PO) & EN) Hi Ho Hp H. unfold connect in H.
  destruct (nth_error (vertices (st_graph st)) src) as [a|] eqn:A; [|discriminate]. destruct (nth_error (vertices (st_graph st)) dst) as [b|] eqn:B; [|discriminate].
  destruct ((v_phases a =? 1) && (v_phases b =? 1))%nat eqn:P; [|discriminate]. apply andb_true_iff in P. destruct P as [P1 P2]. apply Nat.eqb_eq in P1, P2.
  injection H as <-. cbn [st_graph vertices edges st_links]. pose proof (fold_above e_id (edges (st_graph st)) (st_enum st)) as [L1 L2]. fold (next_edge_id st) in L1, L2.
  split; [|split; [|split; [reflexivity|split; [reflexivity|eauto]]]].
  - split; [split; [exact V|split; [|exact N]]|split; [exact NI|split; [split|cbn; lia]]]; cbn [vertices edges st_graph].
    + intros c Hc. apply in_app_or in Hc. destruct Hc as [Hc|[<-|[]]]; [apply E, Hc|]. exists a, b. cbn. split; [exact A|]. split; [exact B|]. rewrite P1, P2.
      rewrite (NI a (nth_error_In _ _ A)), (NI b (nth_error_In _ _ B)). do 4 (split; [reflexivity|]). split; [|lia]. intros x [<-|[<-|[]]]; lia.
    + rewrite map_app. apply NoDup_snoc; [exact ND|]. cbn. rewrite in_map_iff. intros (c & Ec & Hc). specialize (L2 c Hc). lia.
    + intros c Hc. apply in_app_or in Hc. destruct Hc as [Hc|[<-|[]]]; [apply PO, Hc|]. cbn. lia.
  - exists []. split; [symmetry; apply app_nil_r|]. split; [intros v []|]. cbn. intros c Hc. apply in_or_app. left. exact Hc.
Qed.
Lemma connect_ok st src dst rin rout p a b : nth_error (vertices (st_graph st)) src = Some a -> nth_error (vertices (st_graph st)) dst = Some b ->
  v_phases a = 1%nat -> v_phases b = 1%nat -> exists st', connect st src dst rin rout p = Ok st'.
Proof. intros A B P1 P2. unfold connect. rewrite A, B, P1, P2. cbn. eauto. Qed.

(** ** Rates of one value *)
Lemma one_rate r m : cyclic 0 [] [r] m = r.
Proof. unfold cyclic. cbn [length Nat.ltb Nat.leb]. rewrite Nat.mod_1_r. reflexivity. Qed.
Lemma sumf_one r n : sumf (fun m => cyclic 0 [] [r] m) n = r * Z.of_nat n.
Proof. induction n as [|n IH]; cbn [sumf]; [lia|]. rewrite IH, one_rate. lia. Qed.
Lemma moved_one a r n t : moved_by a (cyclic 0 [] [r]) n t = r * moved_by a (fun _ => 1) n t.
Proof. unfold moved_by. induction n as [|n IH]; cbn [sumf]; [lia|]. rewrite IH, one_rate. destruct (Qle_bool (a n) t); lia. Qed.
Lemma moved_ext a b t t' : (forall m, Qle_bool (a m) t = Qle_bool (b m) t') -> forall r n, moved_by a r n t = moved_by b r n t'.
Proof. intros H r n. unfold moved_by. induction n as [|n IH]; cbn [sumf]; [reflexivity|]. rewrite IH, H. reflexivity. Qed.
Lemma moved_shift a b t t' : (forall m, (b m == a m + (t' - t))%Q) -> forall r n, moved_by a r n t = moved_by b r n t'.
Proof. intros H. apply moved_ext. intros m. apply eq_true_iff_eq. rewrite !Qle_bool_iff. specialize (H m). split; intros L; lra. Qed.
Lemma moved_later a r t t' n : (t <= t')%Q -> (forall m, 0 <= r m) -> moved_by a r n t <= moved_by a r n t'.
Proof.
  intros L P. unfold moved_by. induction n as [|n IH]; cbn [sumf]; [lia|]. specialize (P n). destruct (Qle_bool (a n) t) eqn:E.
  - apply Qle_bool_iff in E. assert (Qle_bool (a n) t' = true) as -> by (apply Qle_bool_iff; lra). lia.
  - destruct (Qle_bool (a n) t'); lia.
Qed.
Lemma delayed_is_valid g s c d : (0 <= d)%Q -> (forall m, 0 <= prod_rate c m) -> delayed_valid g s c d -> channel_valid g s c.
Proof.
  intros D P H t nc. destruct (H t nc) as (np & L). exists np. eapply Z.le_trans; [exact L|]. apply Z.add_le_mono_l. apply moved_later; [lra|exact P].
Qed.
Lemma valid_is_delayed g s c : channel_valid g s c -> delayed_valid g s c 0.
Proof. intros H t nc. destruct (H t nc) as (np & L). exists np. rewrite (moved_shift _ (end_of s g (e_src c)) (t - 0) t); [exact L|]. intros m. lra. Qed.
Lemma one_duration v d m : v_durations v = [d] -> v_init_durations v = [] -> exec_duration v m = d.
Proof. intros E I. unfold exec_duration, cyclic. rewrite E, I. cbn [length Nat.ltb Nat.leb]. rewrite Nat.mod_1_r. reflexivity. Qed.

(** ** Schedules: what leaves a chain entered it [length route] earlier *)
Section Chain.
Variables (g : graph) (s : schedule).
Hypothesis V : forall c, In c (edges g) -> channel_valid g s c.
Notation ended i := (moved_by (end_of s g i) (fun _ => 1)).

Lemma hop id i j v d rin : nth_error (vertices g) j = Some v -> v_durations v = [d] -> v_init_durations v = [] -> In (mkEdge id i j [rin] [1] [] [] 0) (edges g) ->
  forall t n, exists m, ended j n t <= rin * ended i m (t - d)%Q.
Proof.
  intros Ev Ed Ei Hc t n. destruct (V _ Hc (t - d)%Q n) as (m & L). exists m. unfold cons_rate, prod_rate in L. cbn [e_preload e_src e_dst e_in e_out e_in_init e_out_init] in L. rewrite !moved_one in L.
  rewrite (moved_shift (start_of s j) (end_of s g j) (t - d) t) in L; [lia|]. intros k. unfold end_of, start_of. rewrite Ev, (one_duration v d k Ed Ei). lra.
Qed.
End Chain.

Definition len (route : list Z) : Q := inject_Z (Z.of_nat (length route)).
Lemma len_cons e l : (len (e :: l) == 1 + len l)%Q.
Proof. unfold len. cbn [length]. rewrite Nat2Z.inj_succ. unfold Z.succ. rewrite inject_Z_plus. change (inject_Z 1) with 1%Q. lra. Qed.

Lemma add_links_good : forall route st src rin st' last, good st -> 0 < rin -> add_links st src rin route = Ok (st', last) ->
  good st' /\ extends st st' /\ (route <> [] -> exists v, nth_error (vertices (st_graph st')) last = Some v /\ (length (vertices (st_graph st)) <= last)%nat /\ v_phases v = 1%nat).
Proof.
  induction route as [|e rest IH]; intros st src rin st' last G R H; cbn [add_links] in H.
  - injection H as <- <-. split; [exact G|]. split; [apply extends_refl|congruence].
  - destruct (add_task st 1 (Some e)) as [st1 middle] eqn:T1. destruct (add_task_good st 1 (Some e) G (or_introl eq_refl)) as (G1 & X1 & V1 & P1 & E1 & _). rewrite T1 in *. cbn [fst snd] in *.
    destruct (connect st1 src middle rin 1 0) as [st2| | |] eqn:C2; cbn [bind] in H; try discriminate.
    destruct (connect_good st1 src middle rin 1 0 st2 G1 R ltac:(lia) ltac:(lia) C2) as (G2 & X2 & VE2 & _ & id2 & E2).
    assert (M2 : nth_error (vertices (st_graph st2)) middle = Some (mkVertex (next_vertex_id st) 1 0 [1%Q] [] 1)) by (rewrite VE2; exact V1).
    destruct rest as [|e' rest'].
    + injection H as <- <-. split; [exact G2|]. split; [eapply extends_trans; eauto|]. intros _. eexists. split; [exact M2|]. split; [lia|reflexivity].
    + destruct (add_task st2 0 None) as [st3 router] eqn:T3. destruct (add_task_good st2 0 None G2 (or_intror eq_refl)) as (G3 & X3 & V3 & P3 & E3 & _). rewrite T3 in *. cbn [fst snd] in *.
      destruct (connect st3 middle router 1 1 0) as [st4| | |] eqn:C4; cbn [bind] in H; try discriminate.
      destruct (connect_good st3 middle router 1 1 0 st4 G3 ltac:(lia) ltac:(lia) ltac:(lia) C4) as (G4 & X4 & VE4 & _ & id4 & E4).
      destruct (IH st4 router 1 st' last G4 ltac:(lia) H) as (G' & X' & L').
      assert (X : extends st st4) by (eapply extends_trans; [eapply extends_trans; [eapply extends_trans|]|]; eauto).
      split; [exact G'|]. split; [eapply extends_trans; eauto|]. intros _. destruct L' as (v & A & B & C); [discriminate|]. exists v. split; [exact A|]. split; [|exact C]. apply extends_length in X. lia.
Qed.

(** The last task of the chain and its first one, in any valid schedule of a graph that contains the chain. *)
Lemma add_links_delay : forall route st src rin st' last, good st -> 0 < rin -> route <> [] -> add_links st src rin route = Ok (st', last) ->
  forall g s, (exists vs, vertices g = vertices (st_graph st') ++ vs) -> incl (edges (st_graph st')) (edges g) -> (forall c, In c (edges g) -> channel_valid g s c) ->
  forall t n, exists m, moved_by (end_of s g last) (fun _ => 1) n t <= rin * moved_by (end_of s g src) (fun _ => 1) m (t - len route)%Q.
Proof.
  induction route as [|e rest IH]; intros st src rin st' last G R NE H g s (vs & EV) EE V; [congruence|]. cbn [add_links] in H.
  destruct (add_task st 1 (Some e)) as [st1 middle] eqn:T1. destruct (add_task_good st 1 (Some e) G (or_introl eq_refl)) as (G1 & X1 & V1 & P1 & E1 & _). rewrite T1 in *. cbn [fst snd] in *.
  destruct (connect st1 src middle rin 1 0) as [st2| | |] eqn:C2; cbn [bind] in H; try discriminate.
  destruct (connect_good st1 src middle rin 1 0 st2 G1 R ltac:(lia) ltac:(lia) C2) as (G2 & X2 & VE2 & _ & id2 & E2).
  assert (M2 : nth_error (vertices (st_graph st2)) middle = Some (mkVertex (next_vertex_id st) 1 0 [1%Q] [] 1)) by (rewrite VE2; exact V1).
  assert (I2 : In (mkEdge id2 src middle [rin] [1] [] [] 0) (edges (st_graph st2))) by (rewrite E2; apply in_or_app; right; left; reflexivity).
  assert (Low : forall X Y, extends X Y -> forall (Z : exists vs, vertices g = vertices (st_graph Y) ++ vs) i v, nth_error (vertices (st_graph X)) i = Some v -> nth_error (vertices g) i = Some v).
  { intros X Y (w & Ew & _) (w' & Ew') i v Hi. rewrite Ew', Ew, <- app_assoc, nth_error_app1; [exact Hi|]. apply nth_error_Some. congruence. }
  destruct rest as [|e' rest'].
  - injection H as <- <-. intros t n.
    destruct (hop g s V id2 src middle _ 1 rin (Low st2 st2 (extends_refl _) (ex_intro _ vs EV) _ _ M2) eq_refl eq_refl (EE _ I2) t n) as (m & L). exists m.
    rewrite (moved_shift _ (end_of s g src) (t - len [e]) (t - 1)); [exact L|]. intros k. rewrite len_cons. change (len []) with 0%Q. lra.
  - destruct (add_task st2 0 None) as [st3 router] eqn:T3. destruct (add_task_good st2 0 None G2 (or_intror eq_refl)) as (G3 & X3 & V3 & P3 & E3 & _). rewrite T3 in *. cbn [fst snd] in *.
    destruct (connect st3 middle router 1 1 0) as [st4| | |] eqn:C4; cbn [bind] in H; try discriminate.
    destruct (connect_good st3 middle router 1 1 0 st4 G3 ltac:(lia) ltac:(lia) ltac:(lia) C4) as (G4 & X4 & VE4 & _ & id4 & E4).
    destruct (add_links_good _ st4 router 1 st' last G4 ltac:(lia) H) as (G' & X' & _).
    assert (X24 : extends st2 st4) by (eapply extends_trans; eauto). assert (X2' : extends st2 st') by (eapply extends_trans; eauto).
    assert (Z : exists vs, vertices g = vertices (st_graph st') ++ vs) by eauto.
    intros t n. destruct (IH st4 router 1 st' last G4 ltac:(lia) ltac:(discriminate) H g s Z EE V t n) as (m1 & L1).
    assert (R4 : nth_error (vertices (st_graph st4)) router = Some (mkVertex (next_vertex_id st2) 1 0 [0%Q] [] 1)) by (rewrite VE4; exact V3).
    assert (I4 : In (mkEdge id4 middle router [1] [1] [] [] 0) (edges g)). { apply EE. destruct X' as (_ & _ & _ & I). apply I. rewrite E4. apply in_or_app. right. left. reflexivity. }
    destruct (hop g s V id4 middle router _ 0 1 (Low st4 st' X' Z _ _ R4) eq_refl eq_refl I4 (t - len (e' :: rest'))%Q m1) as (m2 & L2).
    assert (I2' : In (mkEdge id2 src middle [rin] [1] [] [] 0) (edges g)). { apply EE. destruct X2' as (_ & _ & _ & I). apply I, I2. }
    destruct (hop g s V id2 src middle _ 1 rin (Low st2 st' X2' Z _ _ M2) eq_refl eq_refl I2' (t - len (e' :: rest') - 0)%Q m2) as (m3 & L3).
    exists m3. rewrite (moved_shift _ (end_of s g src) (t - len (e :: e' :: rest')) (t - len (e' :: rest') - 0 - 1)); [lia|]. intros k. rewrite (len_cons e). lra.
Qed.
