(** Proofs about the placement of the tasks. *)
From Coq Require Import QArith ZifyBool ZifyNat.
From Verif Require Import Base Noc NocSpec NocProofs NocProps NocPath NocPathSpec NocPathProofs NocPathMesh NocPathProps Mapper MapperSpec.
Open Scope nat_scope.

(** * The network *)
Section NET.
Variables (xs ys : Z) (n : noc).
Hypothesis Hxs : (0 <= xs)%Z.
Hypothesis Hys : (0 <= ys)%Z.
Hypothesis Hn : make_noc xs ys = Ok n.
Let G := make_graph n.
Let N := mesh_size G.
Let V := g_v G.

Lemma in_use_v g : in_use n g -> g_v g = V /\ mesh_size g = N.
Proof. intros [E _]. rewrite E. split; reflexivity. Qed.
Lemma v_two : V = 2 * N.
Proof. unfold V, N, G. rewrite (g_v_eq xs ys n Hxs Hys Hn), (mesh_eq xs ys n Hxs Hys Hn). reflexivity. Qed.

Lemma route_between g a b uses : in_use n g -> a < N -> b < N -> a <> b -> length uses = V * V ->
  S a = N /\ dijkstra_find_paths g a b uses = Undefined \/
  S a < N /\ exists l r uses', find_path_dijkstra g a b = Ok l /\ fewest_links (has_link g) (a + N) l (b + N) /\
    dijkstra_find_paths g a b uses = Ok (contention g l, r, uses') /\ map (map_index_pair V) r = path_links l /\ length uses' = V * V.
Proof.
  intros I Ha Hb Ne Lu. pose proof (in_use_v g I) as [Ev En]. destruct I as [E L]. rewrite Ev in L.
  destruct (Nat.eq_dec (S a) N) as [Ea|Na].
  - left. split; [exact Ea|]. unfold dijkstra_find_paths. rewrite E.
    rewrite (C124_last_core_refuted xs ys n (g_util g) a b Hxs Hys Hn); [reflexivity|exact L|exact Ea|exact Hb|exact Ne].
  - right. split; [lia|]. pose proof (C124_mesh_partial xs ys n (g_util g) a b Hxs Hys Hn L ltac:(change (S a < N); lia) Hb Ne) as (l & El & Few).
    rewrite <- E in El, Few. rewrite En in Few. destruct (route_of g a b uses l) as (r & uses' & H1 & H2 & H3 & _).
    + rewrite E. exact (uses_closed xs ys n (g_util g) Hxs Hys Hn).
    + rewrite En, Ev, v_two. lia.
    + exact Ne.
    + rewrite E. apply (mesh_read_safe xs ys n (g_util g)); try assumption. change (S (a + N) <> V). rewrite v_two. lia.
    + congruence.
    + exact El.
    + rewrite En. exact Few.
    + exists l, r, uses'. rewrite Ev in H2. repeat split; try assumption; try apply Few; congruence.
Qed.
End NET.

(** * Maps *)
Lemma get_put_eq m k r : get (put m k r) k = Some r.
Proof. unfold get, put. cbn. rewrite Nat.eqb_refl. reflexivity. Qed.
Lemma find_filter k k' (m : list (nat * list nat)) : k' <> k -> find (fun e => fst e =? k) (filter (fun e => negb (fst e =? k')) m) = find (fun e => fst e =? k) m.
Proof.
  intros Ne. induction m as [|[a r] m IH]; [reflexivity|]. cbn [filter find fst]. destruct (a =? k') eqn:A; cbn [negb find fst].
  - apply Nat.eqb_eq in A. subst a. replace (k' =? k) with false by (symmetry; apply Nat.eqb_neq; exact Ne). exact IH.
  - destruct (a =? k); [reflexivity|exact IH].
Qed.
Lemma get_put_neq m k k' r : k' <> k -> get (put m k' r) k = get m k.
Proof. intros Ne. unfold get, put. cbn [find fst]. replace (k' =? k) with false by (symmetry; apply Nat.eqb_neq; exact Ne). rewrite find_filter by exact Ne. reflexivity. Qed.
Definition keyed (m : list (nat * list nat)) := NoDup (map fst m).
Lemma put_keyed m k r : keyed m -> keyed (put m k r).
Proof.
  intros K. unfold keyed, put. cbn [map fst]. constructor.
  - intros H. apply in_map_iff in H. destruct H as ([a r'] & E & H). cbn in E. subst a. apply filter_In in H. cbn in H. rewrite Nat.eqb_refl in H. destruct H; discriminate.
  - clear r. induction m as [|[a r'] m IH]; [constructor|]. inversion K as [|? ? K1 K2]; subst. cbn [filter fst]. destruct (negb (a =? k)); [|exact (IH K2)]. cbn [map fst]. constructor; [|exact (IH K2)].
    intros H. apply K1. apply in_map_iff in H. destruct H as (e & E & H). apply filter_In in H. cbn in *. rewrite <- E. apply in_map, H.
Qed.
(** Merging a map into another one. *)
Lemma merged b m k : keyed b -> get (fold_left (fun m e => put m (fst e) (snd e)) b m) k = match get b k with Some r => Some r | None => get m k end.
Proof.
  revert m. induction b as [|[a r] b IH]; intros m K; [reflexivity|]. inversion K as [|? ? K1 K2]; subst. cbn [fold_left fst snd]. rewrite (IH _ K2).
  change (get ((a, r) :: b) k) with (option_map snd (if a =? k then Some (a, r) else find (fun e => fst e =? k) b)). destruct (a =? k) eqn:A; cbn [option_map snd].
  - apply Nat.eqb_eq in A. subst a. replace (get b k) with (@None (list nat)); [apply get_put_eq|]. unfold get. destruct (find _ b) as [e|] eqn:F; [|reflexivity].
    apply find_some in F. destruct F as [F1 F2]. apply Nat.eqb_eq in F2. destruct K1. cbn. rewrite <- F2. apply in_map, F1.
  - rewrite get_put_neq by (apply Nat.eqb_neq; exact A). unfold get. reflexivity.
Qed.

(** * Removing a core *)
Lemma filter_all (l : list nat) c : ~ In c l -> filter (fun x => negb (x =? c)) l = l.
Proof.
  induction l as [|a l IH]; intros H; [reflexivity|]. cbn [filter]. replace (a =? c) with false by (symmetry; apply Nat.eqb_neq; intros ->; apply H; left; reflexivity).
  cbn [negb]. f_equal. apply IH. intros K. apply H. right. exact K.
Qed.
Lemma filter_one (l : list nat) c : NoDup l -> In c l -> S (length (filter (fun x => negb (x =? c)) l)) = length l.
Proof.
  induction l as [|a l IH]; intros ND H; [destruct H|]. inversion ND as [|? ? N1 N2]; subst. cbn [filter]. destruct (Nat.eq_dec a c) as [->|Ne].
  - rewrite Nat.eqb_refl. cbn [negb]. rewrite filter_all by exact N1. reflexivity.
  - replace (a =? c) with false by (symmetry; apply Nat.eqb_neq; exact Ne). cbn [negb length]. destruct H as [H|H]; [congruence|]. rewrite (IH N2 H). reflexivity.
Qed.
Lemma without_eq c l : NoDup l -> In c l -> without c l = filter (fun x => negb (x =? c)) l.
Proof.
  intros ND H. unfold without. pose proof (filter_one l c ND H) as L. rewrite firstn_app. replace (length l - 1) with (length (filter (fun x => negb (x =? c)) l)) by lia.
  rewrite firstn_all, Nat.sub_diag. cbn. apply app_nil_r.
Qed.
Lemma without_in c l x : NoDup l -> In c l -> (In x (without c l) <-> In x l /\ x <> c).
Proof. intros ND H. rewrite (without_eq c l ND H), filter_In. rewrite negb_true_iff, Nat.eqb_neq. reflexivity. Qed.
Lemma without_length c l : NoDup l -> In c l -> S (length (without c l)) = length l.
Proof. intros ND H. rewrite (without_eq c l ND H). apply filter_one; assumption. Qed.
Lemma without_nodup c l : NoDup l -> In c l -> NoDup (without c l).
Proof. intros ND H. rewrite (without_eq c l ND H). apply NoDup_filter, ND. Qed.

(** * One trial *)
Lemma each_app {A B} (f : A -> B -> outcome A) a l l' : each f a (l ++ l') = do b <- each f a l; each f b l'.
Proof. revert a. induction l as [|x l IH]; intros a; [reflexivity|]. cbn. destruct (f a x); [apply IH| | |]; reflexivity. Qed.
(** The connections with the key of their route. *)
Definition jobs (d : list (nat * nat)) (core : nat -> option nat) (v x c : nat) : list (nat * nat * nat) :=
  flat_map (fun e => if snd e =? x then match core (fst e) with Some a => [(a, c, map_index v (fst e) x)] | None => [] end else []) d ++
  flat_map (fun e => if fst e =? x then match core (snd e) with Some b => [(c, b, map_index v x (snd e))] | None => [] end else []) d.
Lemma jobs_connections d core v x c : map fst (jobs d core v x c) = connections d core x c.
Proof.
  unfold jobs, connections. rewrite map_app. f_equal; induction d as [|e d IH]; try reflexivity; cbn [flat_map]; rewrite map_app, IH; f_equal.
  - destruct (snd e =? x); [|reflexivity]. destruct (core (fst e)); reflexivity.
  - destruct (fst e =? x); [|reflexivity]. destruct (core (snd e)); reflexivity.
Qed.
Lemma each_in {A} (d : list (nat * nat)) (core : nat -> option nat) x (f : nat -> nat -> A -> outcome A) (h : nat -> nat -> nat * nat * nat) (step : A -> nat * nat * nat -> outcome A) a :
  (forall s c t, step t (h s c) = f s c t) ->
  each (fun t s => match core s with None => Ok t | Some c => f s c t end) a (inputs d x) =
  each step a (flat_map (fun e => if snd e =? x then match core (fst e) with Some c => [h (fst e) c] | None => [] end else []) d).
Proof.
  intros Hs. revert a. unfold inputs. induction d as [|e d IH]; intros a; [reflexivity|]. cbn [filter flat_map]. destruct (snd e =? x); [|exact (IH a)]. cbn [map each].
  destruct (core (fst e)) as [c|]; [|exact (IH a)]. cbn [app each]. rewrite Hs. destruct (f (fst e) c a); [apply IH| | |]; reflexivity.
Qed.
Lemma each_out {A} (d : list (nat * nat)) (core : nat -> option nat) x (f : nat -> nat -> A -> outcome A) (h : nat -> nat -> nat * nat * nat) (step : A -> nat * nat * nat -> outcome A) a :
  (forall s c t, step t (h s c) = f s c t) ->
  each (fun t s => match core s with None => Ok t | Some c => f s c t end) a (outputs d x) =
  each step a (flat_map (fun e => if fst e =? x then match core (snd e) with Some c => [h (snd e) c] | None => [] end else []) d).
Proof.
  intros Hs. revert a. unfold outputs. induction d as [|e d IH]; intros a; [reflexivity|]. cbn [filter flat_map]. destruct (fst e =? x); [|exact (IH a)]. cbn [map each].
  destruct (core (snd e)) as [c|]; [|exact (IH a)]. cbn [app each]. rewrite Hs. destruct (f (snd e) c a); [apply IH| | |]; reflexivity.
Qed.
Definition job_step (g : graph) (t : trial) (j : nat * nat * nat) : outcome trial := connect g (fst (fst j)) (snd (fst j)) (snd j) t.
Lemma tried_jobs d st x c : tried d st x c = each (job_step (p_net st)) (mkTrial (-1) (g_util (p_net st)) [] 0) (jobs d (p_core st) (g_v (p_net st)) x c).
Proof.
  unfold tried, jobs. rewrite each_app.
  rewrite <- (each_in d (p_core st) x (fun s a t => connect (p_net st) a c (map_index (g_v (p_net st)) s x) t) (fun s a => (a, c, map_index (g_v (p_net st)) s x))) by reflexivity.
  destruct (each _ _ (inputs d x)) as [t| | |]; cbn [bind]; try reflexivity.
  rewrite <- (each_out d (p_core st) x (fun s b t => connect (p_net st) c b (map_index (g_v (p_net st)) x s) t) (fun s b => (c, b, map_index (g_v (p_net st)) x s))) by reflexivity.
  reflexivity.
Qed.
Definition len_step (g : graph) (a : nat) (j : nat * nat * nat) : outcome nat := do k <- path_length g (fst (fst j)) (snd (fst j)); Ok (a + k).
Lemma lengths_jobs d st x c : lengths d st x c = each (len_step (p_net st)) 0 (jobs d (p_core st) (g_v (p_net st)) x c).
Proof.
  unfold lengths, jobs. rewrite each_app.
  rewrite <- (each_in d (p_core st) x (fun s a t => do k <- path_length (p_net st) a c; Ok (t + k)) (fun s a => (a, c, map_index (g_v (p_net st)) s x))) by reflexivity.
  destruct (each _ _ (inputs d x)) as [t| | |]; cbn [bind]; try reflexivity.
  rewrite <- (each_out d (p_core st) x (fun s b t => do k <- path_length (p_net st) c b; Ok (t + k)) (fun s b => (c, b, map_index (g_v (p_net st)) x s))) by reflexivity.
  reflexivity.
Qed.
Lemma jobs_in d core v x c j : In j (jobs d core v x c) <->
  (exists s a, In (s, x) d /\ core s = Some a /\ j = (a, c, map_index v s x)) \/ (exists s b, In (x, s) d /\ core s = Some b /\ j = (c, b, map_index v x s)).
Proof.
  unfold jobs. rewrite in_app_iff, !in_flat_map. split.
  - intros [(e & H & J)|(e & H & J)].
    + left. destruct (snd e =? x) eqn:E; [|destruct J]. apply Nat.eqb_eq in E. destruct (core (fst e)) as [a|] eqn:C; [|destruct J]. destruct J as [<-|[]]. exists (fst e), a. split; [rewrite <- E; destruct e; exact H|]. split; [exact C|reflexivity].
    + right. destruct (fst e =? x) eqn:E; [|destruct J]. apply Nat.eqb_eq in E. destruct (core (snd e)) as [a|] eqn:C; [|destruct J]. destruct J as [<-|[]]. exists (snd e), a. split; [rewrite <- E; destruct e; exact H|]. split; [exact C|reflexivity].
  - intros [(s & a & H & C & ->)|(s & a & H & C & ->)].
    + left. exists (s, x). split; [exact H|]. cbn. rewrite Nat.eqb_refl, C. left. reflexivity.
    + right. exists (x, s). split; [exact H|]. cbn. rewrite Nat.eqb_refl, C. left. reflexivity.
Qed.

Section PLACE.
Variables (xs ys : Z) (n : noc).
Hypothesis Hxs : (0 <= xs)%Z.
Hypothesis Hys : (0 <= ys)%Z.
Hypothesis Hn : make_noc xs ys = Ok n.
Let G := make_graph n.
Let N := mesh_size G.
Let V := g_v G.

Definition job_fits (j : nat * nat * nat) : Prop := fst (fst j) < N /\ snd (fst j) < N /\ fst (fst j) <> snd (fst j).
Definition from_last (j : nat * nat * nat) : Prop := S (fst (fst j)) = N.
Lemma trial_undefined g js t0 : in_use n g -> Forall job_fits js -> length (t_uses t0) = V * V -> Exists from_last js -> each (job_step g) t0 js = Undefined.
Proof.
  intros I. revert t0. induction js as [|[[a b] k] js IH]; intros t0 F L E; [inversion E|]. inversion F as [|? ? (Fa & Fb & Fab) F2]; subst. cbn in Fa, Fb, Fab. cbn [each]. unfold job_step at 1, connect. cbn [fst snd].
  destruct (route_between xs ys n Hxs Hys Hn g a b (t_uses t0) I Fa Fb Fab L) as [[Ea Eu]|(La & l & r & uses' & _ & _ & Er & _ & Lu)].
  - rewrite Eu. reflexivity.
  - rewrite Er. cbn [bind]. apply (IH _ F2); [exact Lu|]. inversion E as [? ? H|? ? H]; subst; [|exact H]. unfold from_last in H. cbn [fst snd] in H. fold G N in La. lia.
Qed.
Lemma trial_defined g js t0 : in_use n g -> Forall job_fits js -> length (t_uses t0) = V * V -> keyed (t_paths t0) -> ~ Exists from_last js ->
  exists t ls, each (job_step g) t0 js = Ok t /\ t_count t = t_count t0 + length js /\ length (t_uses t) = V * V /\ keyed (t_paths t) /\
    Forall2 (fun p l => find_path_dijkstra g (fst p) (snd p) = Ok l /\ fewest_links (has_link G) (fst p + N) l (snd p + N)) (map fst js) ls /\
    t_cont t = fold_right Z.max (t_cont t0) (map (contention g) ls) /\
    (forall k r, get (t_paths t) k = Some r -> get (t_paths t0) k = Some r \/ exists j, In j js /\ snd j = k /\ leads G r (fst (fst j)) (snd (fst j))) /\
    (forall k, get (t_paths t0) k <> None -> get (t_paths t) k <> None) /\ (forall j, In j js -> get (t_paths t) (snd j) <> None).
Proof.
  intros I. revert t0. induction js as [|[[a b] k] js IH]; intros t0 F L K E.
  - exists t0, []. cbn. repeat split; try assumption; try constructor; try lia; tauto.
  - inversion F as [|? ? (Fa & Fb & Fab) F2]; subst. cbn in Fa, Fb, Fab. cbn [each]. unfold job_step at 1, connect. cbn [fst snd].
    destruct (route_between xs ys n Hxs Hys Hn g a b (t_uses t0) I Fa Fb Fab L) as [[Ea Eu]|(La & l & r & uses' & El & Few & Er & Lr & Lu)].
    { destruct E. left. exact Ea. }
    rewrite Er. cbn [bind fst snd]. set (t1 := mkTrial _ _ _ _).
    destruct (IH t1 F2 Lu (put_keyed _ _ _ K) ltac:(intros X; apply E; right; exact X)) as (t & ls & Et & Ec & Elu & Ek & F2l & Em & P1 & P2 & P3). rewrite Et.
    assert (Lead : leads G r a b). { exists l. fold N V. split; [|exact Lr]. destruct I as [I _]. rewrite I in Few. exact Few. }
    exists t, (l :: ls). split; [reflexivity|]. split; [rewrite Ec; cbn; lia|]. split; [exact Elu|]. split; [exact Ek|]. split; [|split; [|split; [|split]]].
    + cbn [map fst]. constructor; [|exact F2l]. cbn [fst snd]. split; [exact El|]. destruct I as [I _]. rewrite I in Few. exact Few.
    + cbn [map fold_right]. rewrite Em. cbn [t_cont t1]. clear. induction (map (contention g) ls) as [|z zs IHz]; cbn [fold_right]; [reflexivity|]. rewrite IHz. lia.
    + intros k' r' H. destruct (P1 k' r' H) as [H1|(j & Hj & H1)].
      * cbn [t_paths t1] in H1. destruct (Nat.eq_dec k k') as [<-|Ne].
        -- rewrite get_put_eq in H1. injection H1 as <-. right. exists (a, b, k). split; [left; reflexivity|]. split; [reflexivity|exact Lead].
        -- rewrite get_put_neq in H1 by exact Ne. left. exact H1.
      * right. exists j. split; [right; exact Hj|exact H1].
    + intros k' H. apply P2. cbn [t_paths t1]. destruct (Nat.eq_dec k k') as [<-|Ne]; [rewrite get_put_eq; discriminate|rewrite get_put_neq by exact Ne; exact H].
    + intros j [<-|Hj]; [|exact (P3 j Hj)]. cbn [snd]. apply P2. cbn [t_paths t1]. rewrite get_put_eq. discriminate.
Qed.

Lemma length_defined g a b : in_use n g -> a < N -> exists k, path_length g a b = Ok k.
Proof.
  intros I Ha. unfold path_length. destruct (a =? b); [eexists; reflexivity|]. destruct (in_use_v n g I) as [Ev _]. rewrite Ev. fold G V. change (V / 2) with N.
  destruct (Nat.sqrt N =? 0) eqn:S0; [|eexists; reflexivity]. apply Nat.eqb_eq in S0. pose proof (Nat.sqrt_spec N ltac:(lia)) as [_ H]. rewrite S0 in H. lia.
Qed.
Lemma lens_defined g js a : in_use n g -> Forall job_fits js -> exists k, each (len_step g) a js = Ok k.
Proof.
  intros I. revert a. induction js as [|[[x y] k] js IH]; intros a F; [eexists; reflexivity|]. inversion F as [|? ? (Fa & Fb & Fab) F2]; subst. cbn in Fa. cbn [each]. unfold len_step at 1. cbn [fst snd].
  destruct (length_defined g x y I Fa) as (q & Eq). rewrite Eq. cbn [bind]. apply (IH _ F2).
Qed.

(** * Choosing a core *)
Variable d : list (nat * nat).
Lemma jobs_fit st x c : consistent n st -> In c (p_free st) -> Forall job_fits (jobs d (p_core st) (g_v (p_net st)) x c).
Proof.
  intros K Hc. apply Forall_forall. intros j Hj. apply jobs_in in Hj. pose proof (k_range n st K c Hc) as Rc. pose proof (in_use_v n _ (k_net n st K)) as [_ En]. rewrite En in Rc. fold G N in Rc.
  destruct Hj as [(s & a & _ & C & ->)|(s & a & _ & C & ->)]; destruct (k_core n st K s a C) as [Ra Na]; rewrite En in Ra; fold G N in Ra; unfold job_fits; cbn; repeat split; try assumption; intros ->; contradiction.
Qed.
(** No channel would have to leave from the last core. *)
Definition leaves_last (st : placing) (x c : nat) : Prop :=
  (exists s a, In (s, x) d /\ p_core st s = Some a /\ S a = N) \/ (S c = N /\ exists s b, In (x, s) d /\ p_core st s = Some b).
Lemma leaves_last_jobs st x c : Exists from_last (jobs d (p_core st) (g_v (p_net st)) x c) <-> leaves_last st x c.
Proof.
  rewrite Exists_exists. unfold leaves_last, from_last. split.
  - intros (j & Hj & L). apply jobs_in in Hj. destruct Hj as [(s & a & H & C & ->)|(s & a & H & C & ->)]; cbn in L; [left|right]; eauto 8.
  - intros [(s & a & H & C & L)|(L & s & b & H & C)].
    + exists (a, c, map_index (g_v (p_net st)) s x). split; [apply jobs_in; left; eauto|exact L].
    + exists (c, b, map_index (g_v (p_net st)) x s). split; [apply jobs_in; right; eauto|exact L].
Qed.
(** What is kept of the trial of core [c]. *)
Definition trial_of (st : placing) (x c : nat) (t : trial) (q : Q) : Prop :=
  exists len ls, lengths d st x c = Ok len /\ tried d st x c = Ok t /\ q = cost len t /\
    t_count t = length (jobs d (p_core st) (g_v (p_net st)) x c) /\ length (t_uses t) = V * V /\ keyed (t_paths t) /\
    Forall2 (fun p l => find_path_dijkstra (p_net st) (fst p) (snd p) = Ok l /\ fewest_links (has_link G) (fst p + N) l (snd p + N)) (connections d (p_core st) x c) ls /\
    t_cont t = fold_right Z.max (-1)%Z (map (contention (p_net st)) ls) /\
    (forall k r, get (t_paths t) k = Some r -> exists j, In j (jobs d (p_core st) (g_v (p_net st)) x c) /\ snd j = k /\ leads G r (fst (fst j)) (snd (fst j))) /\
    (forall j, In j (jobs d (p_core st) (g_v (p_net st)) x c) -> get (t_paths t) (snd j) <> None).
Lemma better_undefined st x best c : consistent n st -> In c (p_free st) -> leaves_last st x c -> better d st x best c = Undefined.
Proof.
  intros K Hc L. unfold better. pose proof (jobs_fit st x c K Hc) as F. pose proof (k_net n st K) as I. rewrite lengths_jobs. destruct (lens_defined (p_net st) _ 0 I F) as (len & ->). cbn [bind]. rewrite tried_jobs.
  rewrite trial_undefined; [reflexivity|exact I|exact F| |apply leaves_last_jobs, L]. cbn. destruct I as [E L']. rewrite L'. destruct (in_use_v n _ (k_net n st K)) as [-> _]. reflexivity.
Qed.
Lemma better_defined st x best c : consistent n st -> In c (p_free st) -> ~ leaves_last st x c -> exists t q, trial_of st x c t q /\
  better d st x best c = Ok (if Qeq_bool (fst best) (-1) || negb (Qle_bool (fst best) q) then (q, Some (c, t)) else best).
Proof.
  intros K Hc L. unfold better, trial_of. pose proof (jobs_fit st x c K Hc) as F. pose proof (k_net n st K) as I. rewrite lengths_jobs. destruct (lens_defined (p_net st) _ 0 I F) as (len & ->). rewrite tried_jobs.
  destruct (trial_defined (p_net st) (jobs d (p_core st) (g_v (p_net st)) x c) (mkTrial (-1) (g_util (p_net st)) [] 0) I F) as (t & ls & Et & Ec & Elu & Ek & F2l & Em & P1 & _ & P3).
  - cbn. destruct I as [E L']. rewrite L'. destruct (in_use_v n _ (k_net n st K)) as [-> _]. reflexivity.
  - constructor.
  - intros X. apply L. apply leaves_last_jobs, X.
  - exists t, (cost len t). split; [|rewrite Et; reflexivity]. exists len, ls. rewrite jobs_connections in F2l. repeat split; try assumption.
    intros k r H. destruct (P1 k r H) as [H1|H1]; [discriminate|exact H1].
Qed.
Lemma connections_length core x c c' : length (connections d core x c) = length (connections d core x c').
Proof.
  unfold connections. rewrite !app_length. f_equal; induction d as [|e d' IH]; try reflexivity; cbn [flat_map]; rewrite !app_length, IH; f_equal.
  - destruct (snd e =? x); [|reflexivity]. destruct (core (fst e)); reflexivity.
  - destruct (fst e =? x); [|reflexivity]. destruct (core (snd e)); reflexivity.
Qed.
Lemma jobs_count core v x c : length (jobs d core v x c) = length (connections d core x c).
Proof. rewrite <- (jobs_connections d core v x c), map_length. reflexivity. Qed.
Lemma trial_fun st x c t q t' q' : trial_of st x c t q -> trial_of st x c t' q' -> t = t' /\ q = q'.
Proof. intros (len & ls & L & T & Q0 & _) (len' & ls' & L' & T' & Q' & _). rewrite L in L'. rewrite T in T'. injection L' as <-. injection T' as <-. split; congruence. Qed.
Lemma max_low z zs : (z <= fold_right Z.max z zs)%Z.
Proof. induction zs as [|a zs IH]; cbn; lia. Qed.
Lemma cost_alone st x c t q : trial_of st x c t q -> connections d (p_core st) x c = [] -> q = (-1)%Q.
Proof.
  intros (len & ls & _ & _ & -> & Ec & _ & _ & F & Em & _) E. rewrite jobs_count, E in Ec. rewrite E in F. inversion F; subst. unfold cost. rewrite Ec. cbn in *. rewrite Em. reflexivity.
Qed.
Lemma cost_joined st x c t q : trial_of st x c t q -> connections d (p_core st) x c <> [] -> (0 <= q)%Q.
Proof.
  intros (len & ls & _ & _ & -> & Ec & _ & _ & F & Em & _) E. rewrite jobs_count in Ec. destruct (connections d (p_core st) x c) as [|p ps]; [congruence|]. inversion F as [|? l ? ls' _ _]; subst. cbn in Ec. unfold cost. rewrite Ec. cbn [Nat.eqb].
  assert (P : (0 <= t_cont t)%Z). { rewrite Em. cbn [map fold_right]. pose proof (contention_pos (p_net st) l). lia. }
  setoid_replace 0%Q with (0 + 0)%Q by reflexivity. apply Qplus_le_compat; [unfold Qle; cbn; lia|unfold Qle; cbn; lia].
Qed.
Lemma choose_undefined st x cs best : consistent n st -> (forall c, In c cs -> In c (p_free st)) -> (exists c, In c cs /\ leaves_last st x c) -> each (better d st x) best cs = Undefined.
Proof.
  intros K. revert best. induction cs as [|c cs IH]; intros best Sub (c1 & H1 & L); [destruct H1|]. cbn [each].
  assert (D : leaves_last st x c \/ ~ leaves_last st x c). { pose proof (Exists_dec from_last (jobs d (p_core st) (g_v (p_net st)) x c) (fun j => Nat.eq_dec (S (fst (fst j))) N)) as D. destruct D as [D|D]; [left; apply leaves_last_jobs, D|right; intros X; apply D, leaves_last_jobs, X]. }
  destruct D as [D|D].
  - rewrite (better_undefined st x best c K (Sub c (or_introl eq_refl)) D). reflexivity.
  - destruct (better_defined st x best c K (Sub c (or_introl eq_refl)) D) as (t & q & _ & ->). cbn [bind]. apply IH; [intros c' H; apply Sub; right; exact H|]. destruct H1 as [->|H1]; [contradiction|eauto].
Qed.
Definition alone (st : placing) (x : nat) : Prop := forall c, connections d (p_core st) x c = [].
Definition joined (st : placing) (x : nat) : Prop := forall c, connections d (p_core st) x c <> [].
Lemma alone_or_joined st x : alone st x \/ joined st x.
Proof.
  destruct (connections d (p_core st) x 0) eqn:E.
  - left. intros c. pose proof (connections_length (p_core st) x c 0) as L. rewrite E in L. destruct (connections d (p_core st) x c); [reflexivity|discriminate].
  - right. intros c. pose proof (connections_length (p_core st) x c 0) as L. rewrite E in L. destruct (connections d (p_core st) x c); [discriminate|discriminate].
Qed.
Definition chosen (st : placing) (x : nat) (cs : list nat) (best : Q * option (nat * trial)) : Prop :=
  exists q c t p r, best = (q, Some (c, t)) /\ trial_of st x c t q /\ cs = p ++ c :: r /\ (alone st x -> r = []) /\
    (joined st x -> (forall c' t' q', In c' p -> trial_of st x c' t' q' -> (q < q')%Q) /\ (forall c' t' q', In c' r -> trial_of st x c' t' q' -> (q <= q')%Q)).
Lemma choose_defined st x cs : consistent n st -> (forall c, In c cs -> In c (p_free st)) -> (forall c, In c cs -> ~ leaves_last st x c) ->
  exists best, each (better d st x) ((-1)%Q, None) cs = Ok best /\ (cs = [] /\ best = ((-1)%Q, None) \/ chosen st x cs best).
Proof.
  intros K. induction cs as [|c cs IH] using rev_ind; intros Sub No; [eexists; split; [reflexivity|left; split; reflexivity]|].
  destruct IH as (best & E & C); [intros c' H; apply Sub, in_or_app; left; exact H|intros c' H; apply No, in_or_app; left; exact H|].
  rewrite each_app, E. cbn [bind each]. assert (Hc : In c (cs ++ [c])) by (apply in_or_app; right; left; reflexivity).
  destruct (better_defined st x best c K (Sub c Hc) (No c Hc)) as (t & q & T & ->). cbn [bind]. eexists. split; [reflexivity|]. right.
  destruct C as [[-> ->]|(q0 & c0 & t0 & p & r & -> & T0 & -> & Al & Jo)].
  - cbn [fst]. replace (Qeq_bool (-1) (-1)) with true by reflexivity. cbn [orb app]. exists q, c, t, [], []. repeat split; try assumption; intros ? ? ? [].
  - cbn [fst]. destruct (alone_or_joined st x) as [A|J].
    + pose proof (cost_alone st x c0 t0 q0 T0 (A c0)) as ->. replace (Qeq_bool (-1) (-1)) with true by reflexivity. cbn [orb]. exists q, c, t, (p ++ c0 :: r), []. split; [reflexivity|]. split; [exact T|]. split; [reflexivity|]. split; [reflexivity|]. intros X; destruct (X 0 (A 0)).
    + pose proof (cost_joined st x c0 t0 q0 T0 (J c0)) as Pq. replace (Qeq_bool q0 (-1)) with false.
      2:{ symmetry. destruct (Qeq_bool q0 (-1)) eqn:B; [|reflexivity]. apply Qeq_bool_iff in B. rewrite B in Pq. destruct (Qlt_not_le (-1) 0); [reflexivity|exact Pq]. }
      cbn [orb]. destruct (Jo J) as [J1 J2]. destruct (Qle_bool q0 q) eqn:B; cbn [negb].
      * apply Qle_bool_iff in B. exists q0, c0, t0, p, (r ++ [c]). split; [reflexivity|]. split; [exact T0|]. split; [rewrite <- app_assoc; reflexivity|]. split; [intros A; destruct (J 0 (A 0))|]. intros _. split; [exact J1|].
        intros c' t' q' H T'. apply in_app_iff in H. destruct H as [H|[<-|[]]]; [exact (J2 c' t' q' H T')|]. destruct (trial_fun _ _ _ _ _ _ _ T T') as [_ <-]. exact B.
      * assert (B' : (q < q0)%Q). { apply Qnot_le_lt. intros X. apply Qle_bool_iff in X. congruence. }
        exists q, c, t, (p ++ c0 :: r), []. split; [reflexivity|]. split; [exact T|]. split; [reflexivity|]. split; [intros A; destruct (J 0 (A 0))|]. intros _. split; [|intros ? ? ? []].
        intros c' t' q' H T'. apply in_app_iff in H. destruct H as [H|[<-|H]].
        -- apply (Qlt_trans _ q0); [exact B'|exact (J1 c' t' q' H T')].
        -- destruct (trial_fun _ _ _ _ _ _ _ T0 T') as [_ <-]. exact B'.
        -- apply (Qlt_le_trans _ q0); [exact B'|exact (J2 c' t' q' H T')].
Qed.

(** * Placing one task *)
(** Every channel between two placed tasks has its route, and the other way round. *)
Definition routed (st : placing) : Prop :=
  (forall k r, get (p_routes st) k = Some r -> exists s t a b, In (s, t) d /\ k = map_index V s t /\ p_core st s = Some a /\ p_core st t = Some b /\ (s <> t -> leads G r a b)) /\
  (forall s t, In (s, t) d -> s <> t -> p_core st s <> None -> p_core st t <> None -> get (p_routes st) (map_index V s t) <> None).
Lemma set_at_cases {A} (f : nat -> A) k x j : (j = k /\ set_at f k x j = x) \/ (j <> k /\ set_at f k x j = f j).
Proof. destruct (Nat.eq_dec j k) as [->|Ne]; [left; split; [reflexivity|apply set_at_eq]|right; split; [exact Ne|apply set_at_neq, Ne]]. Qed.
Lemma consistent_step st x c g r : consistent n st -> In c (p_free st) -> in_use n g -> consistent n (mkPlacing (set_at (p_core st) x (Some c)) (without c (p_free st)) g r).
Proof.
  intros K Hc I. pose proof (k_free n st K) as ND. pose proof (in_use_v n _ (k_net n st K)) as [_ E1]. pose proof (in_use_v n _ I) as [_ E2].
  assert (Em : mesh_size g = mesh_size (p_net st)) by congruence. constructor; cbn [p_net p_free p_core].
  - exact I.
  - apply without_nodup; assumption.
  - intros c' H. apply without_in in H; try assumption. rewrite Em. apply (k_range n st K), H.
  - intros t c' H. rewrite Em. destruct (set_at_cases (p_core st) x (Some c) t) as [[_ E]|[_ E]]; rewrite E in H.
    + injection H as <-. split; [apply (k_range n st K), Hc|]. rewrite without_in by assumption. tauto.
    + destruct (k_core n st K t c' H) as [R F]. split; [exact R|]. rewrite without_in by assumption. tauto.
  - intros t t' c' H H'. destruct (set_at_cases (p_core st) x (Some c) t) as [[-> E]|[_ E]]; rewrite E in H; destruct (set_at_cases (p_core st) x (Some c) t') as [[-> E']|[_ E']]; rewrite E' in H'.
    + reflexivity.
    + injection H as <-. destruct (k_core n st K t' c H') as [_ F]. contradiction.
    + injection H' as <-. destruct (k_core n st K t c H) as [_ F]. contradiction.
    + exact (k_one n st K t t' c' H H').
  - intros L. pose proof (without_length c (p_free st) ND Hc) as L1. pose proof (NoDup_incl_length ND (l' := seq 0 (mesh_size (p_net st))) ltac:(intros y Hy; apply in_seq; pose proof (k_range n st K y Hy); lia)) as L2. rewrite seq_length in L2. lia.
Qed.
Lemma last_dec st x c : leaves_last st x c \/ ~ leaves_last st x c.
Proof.
  pose proof (Exists_dec from_last (jobs d (p_core st) (g_v (p_net st)) x c) (fun j => Nat.eq_dec (S (fst (fst j))) N)) as D.
  destruct D as [D|D]; [left; apply leaves_last_jobs, D|right; intros X; apply D, leaves_last_jobs, X].
Qed.
Lemma some_last st x cs : (exists c, In c cs /\ leaves_last st x c) \/ (forall c, In c cs -> ~ leaves_last st x c).
Proof.
  induction cs as [|c cs IH]; [right; intros c []|]. destruct (last_dec st x c) as [D|D]; [left; exists c; split; [left; reflexivity|exact D]|].
  destruct IH as [(c' & H & L)|H]; [left; exists c'; split; [right; exact H|exact L]|]. right. intros c' [<-|H']; [exact D|exact (H c' H')].
Qed.
Definition first_step (st : placing) (x : nat) (st' : placing) : Prop :=
  exists c cs, p_free st = c :: cs /\ st' = mkPlacing (set_at (p_core st) x (Some c)) (without c (p_free st)) (p_net st) (p_routes st).
Definition next_step (st : placing) (x : nat) (st' : placing) : Prop :=
  exists q c t, chosen st x (p_free st) (q, Some (c, t)) /\
    st' = mkPlacing (set_at (p_core st) x (Some c)) (without c (p_free st)) (mkGraph (g_v (p_net st)) (g_adj (p_net st)) (t_uses t))
                    (fold_left (fun m e => put m (fst e) (snd e)) (t_paths t) (p_routes st)).
Lemma place_first st x : p_free st <> [] -> length (p_free st) = mesh_size (p_net st) -> exists st', place d st x = Ok st' /\ first_step st x st'.
Proof. intros E L. unfold place. destruct (p_free st) as [|c cs] eqn:F; [congruence|]. rewrite L, Nat.eqb_refl. eexists. split; [reflexivity|]. exists c, cs. rewrite F. split; reflexivity. Qed.
Lemma place_next st x : consistent n st -> p_free st <> [] -> length (p_free st) <> mesh_size (p_net st) ->
  (exists c, In c (p_free st) /\ leaves_last st x c) /\ place d st x = Undefined \/
  (forall c, In c (p_free st) -> ~ leaves_last st x c) /\ exists st', place d st x = Ok st' /\ next_step st x st'.
Proof.
  intros K E L. unfold place. destruct (p_free st) as [|c0 cs0] eqn:F; [congruence|]. rewrite <- F in *. replace (length (p_free st) =? mesh_size (p_net st)) with false by (symmetry; apply Nat.eqb_neq, L).
  destruct (some_last st x (p_free st)) as [S1|S1]; [left|right]; (split; [exact S1|]).
  - rewrite (choose_undefined st x (p_free st) _ K (fun c H => H) S1). reflexivity.
  - destruct (choose_defined st x (p_free st) K (fun c H => H) S1) as (best & -> & [[E0 _]|C]); [congruence|]. pose proof C as (q & c & t & p & r & -> & _). cbn [bind snd]. eexists. split; [reflexivity|]. exists q, c, t. split; [exact C|reflexivity].
Qed.
(** Either way the task gets a free core. *)
Lemma step_core st x st' : consistent n st -> first_step st x st' \/ next_step st x st' ->
  exists c, In c (p_free st) /\ consistent n st' /\ p_core st' = set_at (p_core st) x (Some c) /\ p_free st' = without c (p_free st).
Proof.
  intros K [(c & cs & F & ->)|(q & c & t & (q' & c' & t' & p & r & E & T & F & _) & ->)].
  - exists c. assert (Hc : In c (p_free st)) by (rewrite F; left; reflexivity). split; [exact Hc|]. split; [apply consistent_step; [exact K|exact Hc|apply (k_net n st K)]|split; reflexivity].
  - injection E as <- <- <-. exists c. assert (Hc : In c (p_free st)) by (rewrite F; apply in_or_app; right; left; reflexivity). split; [exact Hc|]. split; [|split; reflexivity].
    apply consistent_step; [exact K|exact Hc|]. destruct (in_use_v n _ (k_net n st K)) as [Ev _]. destruct (k_net n st K) as [I _]. split; cbn [g_util g_v].
    + rewrite I. reflexivity.
    + destruct T as (_ & _ & _ & _ & _ & _ & L & _). rewrite Ev. exact L.
Qed.
Lemma place_cases st x : consistent n st ->
  (p_free st = [] /\ place d st x = Undefined) \/
  (exists st', place d st x = Ok st' /\ length (p_free st) = N /\ first_step st x st') \/
  (length (p_free st) <> N /\ (exists c, In c (p_free st) /\ leaves_last st x c) /\ place d st x = Undefined) \/
  (length (p_free st) <> N /\ (forall c, In c (p_free st) -> ~ leaves_last st x c) /\ p_free st <> [] /\ exists st', place d st x = Ok st' /\ next_step st x st').
Proof.
  intros K. destruct (in_use_v n _ (k_net n st K)) as [_ En]. fold G N in En.
  destruct (p_free st) as [|c0 cs0] eqn:F; [left; split; [reflexivity|unfold place; rewrite F; reflexivity]|right]. rewrite <- F.
  assert (Ne : p_free st <> []) by (rewrite F; discriminate).
  destruct (Nat.eq_dec (length (p_free st)) N) as [L|L].
  - left. destruct (place_first st x Ne ltac:(congruence)) as (st' & E & H). eauto.
  - right. destruct (place_next st x K Ne ltac:(congruence)) as [[H E]|[H E]]; [left|right]; auto.
Qed.

(** * Routes *)
Lemma step_routed st x st' : consistent n st -> routed st -> (length (p_free st) = N /\ first_step st x st') \/ next_step st x st' -> routed st'.
Proof.
  intros K [R1 R2] S1. destruct (in_use_v n _ (k_net n st K)) as [Ev En]. fold G V in Ev. fold G N in En. destruct S1 as [[L (c & cs & F & ->)]|(q & c & t & (q' & c' & t' & p & rr & E & T & F & _) & ->)].
  - assert (No : forall t, p_core st t = None) by (apply (k_first n st K); congruence). split; cbn [p_routes p_core].
    + intros k r H. destruct (R1 k r H) as (s & t & a & b & _ & _ & C & _). rewrite No in C. discriminate.
    + intros s t H Ne Cs Ct. destruct (set_at_cases (p_core st) x (Some c) s) as [[-> E]|[_ E]]; rewrite E in Cs; [|rewrite No in Cs; congruence].
      destruct (set_at_cases (p_core st) x (Some c) t) as [[-> E']|[_ E']]; rewrite E' in Ct; [congruence|rewrite No in Ct; congruence].
  - injection E as <- <- <-. destruct T as (len & ls & _ & _ & _ & _ & _ & Ky & _ & _ & P1 & P2). rewrite Ev in *. split; cbn [p_routes p_core].
    + intros k r H. rewrite merged in H by exact Ky. destruct (get (t_paths t) k) as [r0|] eqn:Gk.
      * injection H as ->. destruct (P1 k r Gk) as (j & Hj & <- & Lj). apply jobs_in in Hj. destruct Hj as [(s & a & Hd & C & ->)|(s & b & Hd & C & ->)]; cbn [fst snd] in *.
        -- exists s, x. destruct (Nat.eq_dec s x) as [->|Ne].
           ++ exists c, c. rewrite set_at_eq. repeat split; try assumption; congruence.
           ++ exists a, c. rewrite set_at_eq, set_at_neq by exact Ne. repeat split; try assumption. intros _. exact Lj.
        -- exists x, s. destruct (Nat.eq_dec s x) as [->|Ne].
           ++ exists c, c. rewrite set_at_eq. repeat split; try assumption; congruence.
           ++ exists c, b. rewrite set_at_eq, set_at_neq by exact Ne. repeat split; try assumption. intros _. exact Lj.
      * destruct (R1 k r H) as (s & t0 & a & b & Hd & -> & Ca & Cb & Le). exists s, t0.
        destruct (Nat.eq_dec s t0) as [->|Ns].
        { destruct (set_at_cases (p_core st) x (Some c) t0) as [[-> E]|[_ E]]; [exists c, c|exists a, b]; rewrite E; repeat split; try assumption; congruence. }
        destruct (Nat.eq_dec s x) as [->|N1].
        { exfalso. apply (P2 (c, b, map_index V x t0)); [apply jobs_in; right; exists t0, b; auto|exact Gk]. }
        destruct (Nat.eq_dec t0 x) as [->|N2].
        { exfalso. apply (P2 (a, c, map_index V s x)); [apply jobs_in; left; exists s, a; auto|exact Gk]. }
        exists a, b. rewrite !set_at_neq by assumption. repeat split; assumption.
    + intros s t0 Hd Ns Cs Ct. rewrite merged by exact Ky. destruct (get (t_paths t) (map_index V s t0)) as [r0|] eqn:Gk; [discriminate|].
      destruct (Nat.eq_dec s x) as [->|N1].
      { rewrite set_at_neq in Ct by congruence. destruct (p_core st t0) as [b|] eqn:Cb; [|congruence]. exfalso. apply (P2 (c, b, map_index V x t0)); [apply jobs_in; right; exists t0, b; auto|exact Gk]. }
      rewrite set_at_neq in Cs by exact N1. destruct (Nat.eq_dec t0 x) as [->|N2].
      { destruct (p_core st s) as [a|] eqn:Ca; [|congruence]. exfalso. apply (P2 (a, c, map_index V s x)); [apply jobs_in; left; exists s, a; auto|exact Gk]. }
      rewrite set_at_neq in Ct by exact N2. apply R2; assumption.
Qed.

(** * The whole placement *)
Lemma pick_in (pick : list nat -> nat) (q : list nat) : q <> [] -> pick q mod length q < length q /\ In (nth (pick q mod length q) q 0) q.
Proof. intros H. assert (L : pick q mod length q < length q) by (apply Nat.mod_upper_bound; destruct q; [congruence|discriminate]). split; [exact L|apply nth_In, L]. Qed.
Lemma pick_split i (q : list nat) : i < length q -> q = firstn i q ++ nth i q 0 :: skipn (S i) q.
Proof. revert i. induction q as [|a q IH]; intros i L; [cbn in L; lia|]. destruct i as [|i]; [reflexivity|]. cbn [firstn nth skipn app]. f_equal. apply IH. cbn in L. lia. Qed.
Lemma inputs_in t a l : In a (inputs l t) <-> In (a, t) l.
Proof.
  unfold inputs. rewrite in_map_iff. split.
  - intros ([a' t'] & <- & H). apply filter_In in H. destruct H as [H E]. apply Nat.eqb_eq in E. cbn in *. subst. exact H.
  - intros H. exists (a, t). split; [reflexivity|]. apply filter_In. split; [exact H|apply Nat.eqb_refl].
Qed.
Lemma outputs_in t b l : In b (outputs l t) <-> In (t, b) l.
Proof.
  unfold outputs. rewrite in_map_iff. split.
  - intros ([t' b'] & <- & H). apply filter_In in H. destruct H as [H E]. apply Nat.eqb_eq in E. cbn in *. subst. exact H.
  - intros H. exists (t, b). split; [reflexivity|]. apply filter_In. split; [exact H|apply Nat.eqb_refl].
Qed.
Lemma ready_iff to vis t : ready to vis t = true <-> vis t = false /\ forall a, In (a, t) to -> vis a = true.
Proof.
  unfold ready. rewrite andb_true_iff, negb_true_iff, forallb_forall. split; intros [H1 H2]; (split; [exact H1|]).
  - intros a H. apply H2, inputs_in, H.
  - intros a H. apply H2, inputs_in, H.
Qed.
Lemma ready_ext to v v' t : (forall a, v a = v' a) -> ready to v t = ready to v' t.
Proof. intros H. unfold ready. rewrite H. f_equal. induction (inputs to t) as [|a l IH]; [reflexivity|]. cbn [forallb]. rewrite H, IH. reflexivity. Qed.
(** One task placed. *)
Lemma place_step st x st' : consistent n st -> routed st -> place d st x = Ok st' ->
  consistent n st' /\ routed st' /\ S (length (p_free st')) = length (p_free st) /\ forall t, p_core st' t <> None <-> t = x \/ p_core st t <> None.
Proof.
  intros K R E. destruct (place_cases st x K) as [[_ H]|[(s1 & H & L & F)|[(_ & _ & H)|(_ & _ & _ & s1 & H & F)]]]; try congruence; rewrite H in E; injection E as <-.
  - destruct (step_core st x s1 K (or_introl F)) as (c & Hc & K' & Ec & Ef). split; [exact K'|]. split; [apply (step_routed st x s1 K R); left; split; assumption|]. split; [rewrite Ef; apply without_length; [apply (k_free n st K)|exact Hc]|].
    intros t. rewrite Ec. destruct (set_at_cases (p_core st) x (Some c) t) as [[-> E]|[Ne E]]; rewrite E; [split; [left; reflexivity|discriminate]|tauto].
  - destruct (step_core st x s1 K (or_intror F)) as (c & Hc & K' & Ec & Ef). split; [exact K'|]. split; [apply (step_routed st x s1 K R); right; assumption|]. split; [rewrite Ef; apply without_length; [apply (k_free n st K)|exact Hc]|].
    intros t. rewrite Ec. destruct (set_at_cases (p_core st) x (Some c) t) as [[-> E]|[Ne E]]; rewrite E; [split; [left; reflexivity|discriminate]|tauto].
Qed.
Lemma place_total st x : consistent n st -> place d st x = Undefined \/ exists st', place d st x = Ok st'.
Proof. intros K. destruct (place_cases st x K) as [[_ H]|[(s1 & H & _)|[(_ & _ & H)|(_ & _ & _ & s1 & H & _)]]]; eauto. Qed.

Section LOOP.
Variables (pick : list nat -> nat) (to : list (nat * nat)) (start : nat).
Lemma loop_ends fuel st vis q : consistent n st -> routed st -> vis start = true -> ~ In start q -> length (p_free st) < fuel ->
  place_all fuel pick d to start st vis q = Undefined \/ exists st', place_all fuel pick d to start st vis q = Ok st'.
Proof.
  revert st vis q. induction fuel as [|f IH]; intros st vis q K R Vs Nq L; [lia|]. destruct q as [|y q]; [right; eexists; reflexivity|]. cbn [place_all]. set (Q0 := y :: q) in *.
  destruct (pick_in pick Q0 ltac:(discriminate)) as [Li Hx]. set (i := pick Q0 mod length Q0) in *. set (x := nth i Q0 0) in *.
  assert (Nx : x <> start) by (intros X; apply Nq; rewrite <- X; exact Hx). replace (x =? start) with false by (symmetry; apply Nat.eqb_neq, Nx).
  destruct (place_total st x K) as [->|(s1 & E)]; [left; reflexivity|]. rewrite E. cbn [bind]. destruct (place_step st x s1 K R E) as (K1 & R1 & L1 & _).
  apply IH; try assumption; [rewrite set_at_neq by congruence; exact Vs| |lia]. intros H. pose proof (pick_split i Q0 Li) as Sp. rewrite in_app_iff, in_app_iff in H. destruct H as [H|[H|H]].
  - apply Nq. rewrite Sp. apply in_or_app. left. exact H.
  - apply Nq. rewrite Sp. apply in_or_app. right. right. exact H.
  - apply filter_In in H. destruct H as [_ H]. apply ready_iff in H. destruct H as [H _]. rewrite set_at_neq in H by congruence. congruence.
Qed.

Record loop_inv (st : placing) (vis : nat -> bool) (q : list nat) : Prop := {
  v_cons : consistent n st;
  v_routed : routed st;
  v_start : vis start = true;
  v_queue : forall t, In t q -> t <> start /\ exists a, In (a, t) to;
  v_placed : forall t, p_core st t <> None -> t <> start /\ exists a, In (a, t) to;
  v_visited : forall t, vis t = true -> t = start \/ p_core st t <> None;
  v_core : forall t, p_core st t <> None -> vis t = true;
  v_next : forall t, vis t = false -> (exists a, In (a, t) to) -> (forall a, In (a, t) to -> vis a = true) -> In t q }.
Lemma loop_kept st vis q x i st' : loop_inv st vis q -> i < length q -> x = nth i q 0 -> place d st x = Ok st' ->
  loop_inv st' (set_at vis x true) (firstn i q ++ skipn (S i) q ++ filter (ready to (set_at vis x true)) (outputs to x)).
Proof.
  intros I Li -> E. pose proof (pick_split i q Li) as Sp. set (x := nth i q 0) in *. assert (Hx : In x q) by (apply nth_In, Li). destruct I as [K R Vs Vq Vp Vv Vc Vn].
  destruct (place_step st x st' K R E) as (K1 & R1 & _ & C1). destruct (Vq x Hx) as [Nx Px].
  constructor; try assumption.
  - rewrite set_at_neq by congruence. exact Vs.
  - intros t H. rewrite in_app_iff, in_app_iff in H. destruct H as [H|[H|H]].
    + apply Vq. rewrite Sp. apply in_or_app. left. exact H.
    + apply Vq. rewrite Sp. apply in_or_app. right. right. exact H.
    + apply filter_In in H. destruct H as [H1 H2]. apply ready_iff in H2. destruct H2 as [H2 _]. split; [|exists x; apply outputs_in, H1]. intros ->. rewrite set_at_neq in H2 by congruence. congruence.
  - intros t H. apply C1 in H. destruct H as [->|H]; [split; assumption|exact (Vp t H)].
  - intros t H. destruct (set_at_cases vis x true t) as [[-> E']|[Ne E']]; rewrite E' in H; [right; apply C1; left; reflexivity|]. destruct (Vv t H) as [H1|H1]; [left; exact H1|right; apply C1; right; exact H1].
  - intros t H. apply C1 in H. destruct (set_at_cases vis x true t) as [[-> E']|[Ne E']]; rewrite E'; [reflexivity|]. destruct H as [H|H]; [congruence|exact (Vc t H)].
  - intros t H1 H2 H3. destruct (set_at_cases vis x true t) as [[-> E']|[Ne E']]; rewrite E' in H1; [discriminate|].
    destruct (in_dec Nat.eq_dec x (inputs to t)) as [Dx|Dx].
    + apply in_or_app. right. apply in_or_app. right. apply filter_In. split; [apply outputs_in, inputs_in, Dx|]. apply ready_iff. split; [rewrite E'; exact H1|exact H3].
    + assert (Ht : In t q). { apply Vn; [exact H1|exact H2|]. intros a Ha. specialize (H3 a Ha). destruct (set_at_cases vis x true a) as [[-> E2]|[_ E2]]; [destruct Dx; apply inputs_in, Ha|congruence]. }
      rewrite Sp in Ht. apply in_app_iff in Ht. apply in_or_app. destruct Ht as [Ht|[Ht|Ht]]; [left; exact Ht|congruence|right; apply in_or_app; left; exact Ht].
Qed.
Lemma loop_ok fuel st vis q st' : loop_inv st vis q -> place_all fuel pick d to start st vis q = Ok st' -> exists vis', loop_inv st' vis' [].
Proof.
  revert st vis q. induction fuel as [|f IH]; intros st vis q I E; destruct q as [|y q]; cbn [place_all] in E; try (injection E as <-; exists vis; exact I); try discriminate. set (Q0 := y :: q) in *.
  destruct (pick_in pick Q0 ltac:(discriminate)) as [Li Hx]. set (i := pick Q0 mod length Q0) in *.
  assert (Nx : nth i Q0 0 <> start) by (apply (v_queue _ _ _ I), Hx). replace (nth i Q0 0 =? start) with false in E by (symmetry; apply Nat.eqb_neq, Nx).
  destruct (place d st (nth i Q0 0)) as [s1| | |] eqn:E1; cbn [bind] in E; try discriminate. apply (IH _ _ _ (loop_kept st vis Q0 _ i s1 I Li eq_refl E1) E).
Qed.
(** The first turn, for [start] itself. *)
Definition st0 (g : graph) : placing := mkPlacing (fun _ => None) (seq 0 (mesh_size g)) (clear g) [].
Definition vis0 : nat -> bool := set_at (fun _ => false) start true.
Lemma first_turn fuel : map_tasks (S fuel) pick d to start G = place_all fuel pick d to start (st0 G) vis0 (filter (ready to vis0) (outputs to start)).
Proof.
  unfold map_tasks. cbn [place_all]. change (length [start]) with 1. rewrite (Nat.mod_1_r (pick [start])). cbn [nth firstn skipn app]. rewrite Nat.eqb_refl. cbn [bind].
  assert (X : forall t, set_at vis0 start true t = vis0 t). { intros t. unfold vis0. destruct (set_at_cases (set_at (fun _ => false) start true) start true t) as [[-> ->]|[_ ->]]; [rewrite set_at_eq; reflexivity|reflexivity]. }
  assert (Y : filter (ready to (set_at vis0 start true)) (outputs to start) = filter (ready to vis0) (outputs to start)).
  { apply filter_ext. intros t. apply ready_ext, X. }
  fold vis0. rewrite Y. change (mkPlacing (fun _ => None) (seq 0 (mesh_size G)) (clear G) []) with (st0 G).
  generalize (filter (ready to vis0) (outputs to start)) (st0 G). assert (Z0 : forall f s v v' q, (forall t, v t = v' t) -> place_all f pick d to start s v q = place_all f pick d to start s v' q).
  { intros f. induction f as [|f IH]; intros s v v' q Ev; destruct q as [|y q]; try reflexivity. cbn [place_all]. destruct (if nth _ _ 0 =? start then _ else _) as [s1| | |]; try reflexivity. cbn [bind].
    set (x := nth _ (y :: q) 0). assert (Ev' : forall t, set_at v x true t = set_at v' x true t) by (intros t; unfold set_at; destruct (t =? x); [reflexivity|apply Ev]).
    rewrite (filter_ext (ready to (set_at v x true)) (ready to (set_at v' x true))); [apply IH, Ev'|]. intros t. apply ready_ext, Ev'. }
  intros q s. apply Z0, X.
Qed.
Lemma start_use : in_use n (clear G).
Proof.
  split; [reflexivity|]. unfold clear. cbn [g_util g_v]. unfold resized. rewrite app_length, firstn_length, repeat_length. change (length (g_util G)) with 0. lia.
Qed.
Lemma start_consistent : consistent n (st0 G) /\ routed (st0 G).
Proof.
  split; [constructor; cbn [st0 p_net p_free p_core]; try discriminate|split; cbn [st0 p_routes p_core]; try discriminate; congruence].
  - exact start_use.
  - apply seq_NoDup.
  - intros c H. apply in_seq in H. change (mesh_size (clear G)) with (mesh_size G). lia.
  - reflexivity.
Qed.
Lemma start_inv : loop_inv (st0 G) vis0 (filter (ready to vis0) (outputs to start)).
Proof.
  destruct start_consistent as [K R]. constructor; try assumption.
  - unfold vis0. apply set_at_eq.
  - intros t H. apply filter_In in H. destruct H as [H1 H2]. apply ready_iff in H2. destruct H2 as [H2 _]. split; [|exists start; apply outputs_in, H1]. intros ->. unfold vis0 in H2. rewrite set_at_eq in H2. discriminate.
  - intros t H. cbn in H. congruence.
  - intros t H. left. unfold vis0 in H. destruct (set_at_cases (fun _ => false) start true t) as [[-> E]|[_ E]]; [reflexivity|rewrite E in H; discriminate].
  - intros t H. cbn in H. congruence.
  - intros t H1 (a & H2) H3. pose proof (H3 a H2) as Ha. assert (a = start). { unfold vis0 in Ha. destruct (set_at_cases (fun _ => false) start true a) as [[-> E]|[_ E]]; [reflexivity|rewrite E in Ha; discriminate]. }
    subst a. apply filter_In. split; [apply outputs_in, H2|]. apply ready_iff. split; assumption.
Qed.
Lemma whole_ok fuel st : map_tasks fuel pick d to start G = Ok st -> exists vis, loop_inv st vis [].
Proof. destruct fuel as [|f]; [discriminate|]. rewrite first_turn. apply loop_ok, start_inv. Qed.
Lemma whole_ends : map_tasks (N + 2) pick d to start G = Undefined \/ exists st, map_tasks (N + 2) pick d to start G = Ok st.
Proof.
  rewrite Nat.add_comm. cbn [Nat.add]. rewrite first_turn. destruct start_consistent as [K R]. apply loop_ends; try assumption.
  - unfold vis0. apply set_at_eq.
  - intros H. apply (v_queue _ _ _ start_inv) in H. destruct H as [H _]. congruence.
  - cbn [st0 p_free]. rewrite seq_length. fold N. lia.
Qed.
Lemma whole_all fuel st : map_tasks fuel pick d to start G = Ok st -> acyclic to -> (forall a b, In (a, b) to -> a = start \/ exists c, In (c, a) to) ->
  forall t, p_core st t <> None <-> t <> start /\ exists a, In (a, t) to.
Proof.
  intros E (rank & Ac) Src t. destruct (whole_ok fuel st E) as (vis & I). split; [apply (v_placed _ _ _ I)|]. intros [Nt Ex].
  assert (All : forall k t, rank t < k -> (exists a, In (a, t) to) -> vis t = true).
  { intros k. induction k as [|k IH]; intros u Lu Eu; [lia|]. destruct (vis u) eqn:Vu; [reflexivity|]. destruct (v_next _ _ _ I u Vu Eu). intros a Ha. destruct (Src a u Ha) as [->|Ea]; [apply (v_start _ _ _ I)|]. apply IH; [|exact Ea]. specialize (Ac a u Ha). lia. }
  destruct (v_visited _ _ _ I t (All (S (rank t)) t ltac:(lia) Ex)) as [->|H]; [congruence|exact H].
Qed.

(** Without parallel channels every task is placed once. *)
Hypothesis Single : NoDup to.
Lemma outputs_nodup x : NoDup (outputs to x).
Proof.
  clear - Single. unfold outputs. induction to as [|e l IH]; [constructor|]. inversion Single as [|? ? H1 H2]; subst. cbn [filter]. destruct (fst e =? x) eqn:E; [|exact (IH H2)]. cbn [map]. constructor; [|exact (IH H2)].
  intros H. apply H1. apply outputs_in in H. apply Nat.eqb_eq in E. rewrite <- E in H. destruct e. exact H.
Qed.
Definition counted (st : placing) : Prop := exists l, NoDup l /\ (forall t, In t l <-> p_core st t <> None) /\ length l + length (p_free st) = N.
Definition once_inv (st : placing) (vis : nat -> bool) (q : list nat) : Prop :=
  loop_inv st vis q /\ NoDup q /\ (forall t, In t q -> vis t = false /\ forall a, In (a, t) to -> vis a = true) /\ counted st.
Lemma nodup_app {A} (l l' : list A) : NoDup l -> NoDup l' -> (forall x, In x l -> ~ In x l') -> NoDup (l ++ l').
Proof.
  clear. intros H H' D. induction l as [|a l IH]; [exact H'|]. inversion H as [|? ? H1 H2]; subst. cbn. constructor.
  - rewrite in_app_iff. intros [X|X]; [exact (H1 X)|exact (D a (or_introl eq_refl) X)].
  - apply IH; [exact H2|]. intros x Hx. apply D. right. exact Hx.
Qed.
Lemma once_kept st vis q x i st' : once_inv st vis q -> i < length q -> x = nth i q 0 -> place d st x = Ok st' ->
  once_inv st' (set_at vis x true) (firstn i q ++ skipn (S i) q ++ filter (ready to (set_at vis x true)) (outputs to x)).
Proof.
  intros (I & Nq & Rq & l & Nl & Il & Ll) Li Ex E. split; [exact (loop_kept st vis q x i st' I Li Ex E)|]. pose proof (pick_split i q Li) as Sp. rewrite <- Ex in Sp. assert (Hx : In x q) by (rewrite Ex; apply nth_In, Li).
  destruct (place_step st x st' (v_cons _ _ _ I) (v_routed _ _ _ I) E) as (_ & _ & Lf & C1). destruct (Rq x Hx) as [Vx Px].
  assert (Nx : ~ In x (firstn i q ++ skipn (S i) q)) by (rewrite Sp in Nq; apply NoDup_remove_2, Nq).
  assert (Nr : NoDup (firstn i q ++ skipn (S i) q)) by (rewrite Sp in Nq; apply NoDup_remove_1 in Nq; exact Nq).
  assert (Sub : forall t, In t (firstn i q ++ skipn (S i) q) -> In t q). { intros t H. rewrite Sp. apply in_app_iff in H. apply in_or_app. destruct H as [H|H]; [left; exact H|right; right; exact H]. }
  split; [|split].
  - rewrite app_assoc. apply nodup_app; [exact Nr|apply NoDup_filter, outputs_nodup|]. intros t H H'. apply filter_In in H'. destruct H' as [H' _]. apply outputs_in in H'. destruct (Rq t (Sub t H)) as [_ P]. specialize (P x H'). congruence.
  - intros t H. rewrite app_assoc, in_app_iff in H. destruct H as [H|H].
    + destruct (Rq t (Sub t H)) as [P1 P2]. assert (t <> x) by (intros ->; exact (Nx H)). rewrite set_at_neq by assumption. split; [exact P1|]. intros a Ha. destruct (set_at_cases vis x true a) as [[_ ->]|[_ ->]]; [reflexivity|exact (P2 a Ha)].
    + apply filter_In in H. destruct H as [_ H]. apply ready_iff in H. exact H.
  - exists (x :: l). split; [constructor; [|exact Nl]|split].
    + intros H. apply Il in H. apply (v_core _ _ _ I) in H. congruence.
    + intros t. rewrite C1, <- Il. cbn. split; intros [H|H]; auto.
    + cbn [length]. lia.
Qed.
Lemma once_ok fuel st vis q st' : once_inv st vis q -> place_all fuel pick d to start st vis q = Ok st' -> counted st'.
Proof.
  revert st vis q. induction fuel as [|f IH]; intros st vis q I E; destruct q as [|y q]; cbn [place_all] in E; try (injection E as <-; apply I); try discriminate. set (Q0 := y :: q) in *.
  destruct (pick_in pick Q0 ltac:(discriminate)) as [Li Hx]. set (i := pick Q0 mod length Q0) in *.
  assert (Nx : nth i Q0 0 <> start) by (apply (v_queue _ _ _ (proj1 I)), Hx). replace (nth i Q0 0 =? start) with false in E by (symmetry; apply Nat.eqb_neq, Nx).
  destruct (place d st (nth i Q0 0)) as [s1| | |] eqn:E1; cbn [bind] in E; try discriminate. apply (IH _ _ _ (once_kept st vis Q0 _ i s1 I Li eq_refl E1) E).
Qed.
Lemma whole_once fuel st : map_tasks fuel pick d to start G = Ok st -> counted st.
Proof.
  destruct fuel as [|f]; [discriminate|]. rewrite first_turn. apply once_ok. split; [apply start_inv|]. split; [apply NoDup_filter, outputs_nodup|]. split.
  - intros t H. apply filter_In in H. destruct H as [_ H]. apply ready_iff in H. exact H.
  - exists []. split; [constructor|]. split; [intros t; cbn; split; [intros []|congruence]|]. cbn [st0 p_free length]. rewrite seq_length. reflexivity.
Qed.
End LOOP.

(** * Runs that cannot succeed *)
Lemma repeat_cut (t : nat) m i : i < m -> firstn i (repeat t m) ++ skipn (S i) (repeat t m) = repeat t (m - 1).
Proof.
  clear. revert i. induction m as [|m IH]; intros i L; [lia|]. destruct i as [|i]; [cbn; rewrite Nat.sub_0_r; reflexivity|]. cbn [repeat firstn app]. change (skipn (S (S i)) (t :: repeat t m)) with (skipn (S i) (repeat t m)).
  rewrite IH by lia. destruct m; [lia|]. cbn. rewrite Nat.sub_0_r. reflexivity.
Qed.
Lemma crowded pick to start t fuel m st vis st' : consistent n st -> routed st -> t <> start -> outputs to t = [] -> length (p_free st) < m -> place_all fuel pick d to start st vis (repeat t m) <> Ok st'.
Proof.
  intros K R Nt Out. revert m st vis K R. induction fuel as [|f IH]; intros m st vis K R L; (destruct m as [|m]; [lia|]); [discriminate|]. cbn [repeat]. cbn [place_all].
  set (q := t :: repeat t m). set (i := pick q mod length q). assert (Li : i < S m). { replace (S m) with (length q) by (cbn; rewrite repeat_length; reflexivity). apply (pick_in pick q). discriminate. }
  assert (Et : nth i q 0 = t) by (unfold q; change (t :: repeat t m) with (repeat t (S m)); apply (repeat_spec (S m)), nth_In; rewrite repeat_length; exact Li).
  rewrite Et. replace (t =? start) with false by (symmetry; apply Nat.eqb_neq, Nt). destruct (place d st t) as [s1| | |] eqn:E1; cbn [bind]; try discriminate. rewrite Out. cbn [filter]. rewrite app_nil_r.
  unfold q. change (t :: repeat t m) with (repeat t (S m)). rewrite (repeat_cut t (S m) i Li). cbn [Nat.sub]. rewrite Nat.sub_0_r. destruct (place_step st t s1 K R E1) as (K1 & R1 & L1 & _). apply IH; try assumption. lia.
Qed.
(** The first task goes to the first core. *)
Lemma first_placed x st' : place d (st0 G) x = Ok st' -> 0 < N /\ consistent n st' /\ routed st' /\ p_core st' = set_at (fun _ => None) x (Some 0) /\ p_free st' = seq 1 (N - 1).
Proof.
  intros E. destruct start_consistent as [K R]. destruct (place_step (st0 G) x st' K R E) as (K1 & R1 & _).
  destruct (place_cases (st0 G) x K) as [[_ H]|[(s1 & H & L & F)|[(_ & _ & H)|(Ne & _)]]]; try congruence.
  2:{ destruct Ne. cbn [st0 p_free]. apply seq_length. }
  rewrite H in E. injection E as ->. destruct F as (c & cs & F & ES). subst st'. cbn [st0 p_free] in F. change (mesh_size G) with N in F.
  assert (X : 0 < N /\ c = 0). { destruct N as [|m]; [discriminate|]. cbn [seq] in F. injection F as <- _. split; [lia|reflexivity]. }
  destruct X as [Pos ->]. split; [exact Pos|]. split; [exact K1|]. split; [exact R1|]. split; [reflexivity|]. cbn [st0 p_free]. change (mesh_size G) with N.
  rewrite without_eq; [|apply seq_NoDup|apply in_seq; lia]. replace (seq 0 N) with (0 :: seq 1 (N - 1)) by (destruct N as [|m]; [lia|]; cbn [seq]; cbn [Nat.sub]; rewrite Nat.sub_0_r; reflexivity).
  cbn [filter]. change (0 =? 0) with true. cbn [negb]. apply filter_all. rewrite in_seq. lia.
Qed.
(** With one task placed, a task without placed neighbours gets the last core. *)
Lemma second_placed x y st st' : x <> y -> p_core st = set_at (fun _ => None) x (Some 0) -> p_free st = seq 1 (N - 1) -> consistent n st -> alone st y -> place d st y = Ok st' ->
  p_core st' y = Some (N - 1).
Proof.
  intros Ne C F K A E. destruct (place_cases st y K) as [[_ H]|[(s1 & H & L & _)|[(_ & _ & H)|(_ & _ & Nf & s1 & H & X)]]]; try congruence.
  - rewrite F, seq_length in L. pose proof (k_first n st K) as Kf. destruct (in_use_v n _ (k_net n st K)) as [_ En]. fold G N in En. rewrite En, F, seq_length in Kf. specialize (Kf L x). rewrite C, set_at_eq in Kf. discriminate.
  - rewrite H in E. injection E as ->. destruct X as (q & c & t & (q' & c' & t' & p & r & E & _ & S1 & Al & _) & ->). injection E as <- <- <-. rewrite (Al A) in S1. cbn [p_core]. rewrite set_at_eq. f_equal. rewrite F in S1, Nf.
    destruct (N - 1) as [|m] eqn:EN; [destruct Nf; reflexivity|]. rewrite seq_S in S1. apply app_inj_tail in S1. destruct S1 as [_ <-]. reflexivity.
Qed.
(** A channel that has to leave from the last core cannot be routed. *)
Lemma no_exit st x st' : consistent n st -> (exists t, p_core st t <> None) -> (exists s, In (s, x) d /\ p_core st s = Some (N - 1)) -> 0 < N -> place d st x <> Ok st'.
Proof.
  intros K (t & Ct) (s & Hs & Cs) Pos E. destruct (place_cases st x K) as [[_ H]|[(s1 & H & L & _)|[(_ & _ & H)|(_ & No & Nf & _)]]]; try congruence.
  - apply Ct, (k_first n st K). destruct (in_use_v n _ (k_net n st K)) as [_ En]. fold G N in En. congruence.
  - destruct (p_free st) as [|c cs]; [congruence|]. apply (No c (or_introl eq_refl)). left. exists s, (N - 1). repeat split; try assumption. lia.
Qed.
Lemma no_return st x st' : consistent n st -> (exists t, In (x, t) d /\ p_core st t <> None) -> In (N - 1) (p_free st) -> place d st x <> Ok st'.
Proof.
  intros K (t & Ht & Ct) Hl E. destruct (place_cases st x K) as [[_ H]|[(s1 & H & L & _)|[(_ & _ & H)|(_ & No & Nf & _)]]]; try congruence.
  - apply Ct, (k_first n st K). destruct (in_use_v n _ (k_net n st K)) as [_ En]. fold G N in En. congruence.
  - apply (No _ Hl). right. split; [|destruct (p_core st t) as [b|] eqn:Cb; [|congruence]; eauto]. pose proof (k_range n st K _ Hl) as X. destruct (in_use_v n _ (k_net n st K)) as [_ En]. fold G N in En. rewrite En in X. lia.
Qed.
End PLACE.

Lemma filter_repeat (f : nat -> bool) a m : f a = true -> filter f (repeat a m) = repeat a m.
Proof. intros H. induction m as [|m IH]; [reflexivity|]. cbn [repeat filter]. rewrite H, IH. reflexivity. Qed.

Lemma Forall2_length' {A B} {R : A -> B -> Prop} {l l'} : Forall2 R l l' -> length l = length l'.
Proof. intros H. induction H; [reflexivity|]. cbn. f_equal. assumption. Qed.
(** * Square networks *)
Section SQUARE.
Variables (side : Z) (n : noc).
Hypothesis Hs : (0 <= side)%Z.
Hypothesis Hn : make_noc side side = Ok n.
Let G := make_graph n.
Let N := mesh_size G.
Lemma square_length g a b l : in_use n g -> a < N -> b < N -> a <> b -> fewest_links (has_link G) (a + N) l (b + N) -> path_length g a b = Ok (length l - 1).
Proof.
  intros [I _] Ha Hb Ne [F Min]. rewrite I. rewrite (mesh_path_length side n (g_util g) a b Hs Hn Ha Hb Ne). f_equal.
  pose proof (mesh_eq side side n Hs Hs Hn) as Em. fold G N in Em.
  pose proof (mesh_far side side n Hs Hs Hn a b l ltac:(lia) ltac:(lia) Ne F) as Far. destruct (mesh_near side side n Hs Hs Hn a b ltac:(lia) ltac:(lia)) as (l0 & F0 & L0). specialize (Min l0 F0). lia.
Qed.
Lemma lens_sum g js ls a : in_use n g -> Forall (job_fits n) js -> Forall2 (fun p l => find_path_dijkstra g (fst p) (snd p) = Ok l /\ fewest_links (has_link G) (fst p + N) l (snd p + N)) (map fst js) ls ->
  each (len_step g) a js = Ok (a + list_sum (map (fun l => length l - 1) ls)).
Proof.
  intros I. revert ls a. induction js as [|[[x y] k] js IH]; intros ls a F F2; inversion F2 as [|? l ? ls' [_ Few] F2']; subst; [cbn; f_equal; lia|]. inversion F as [|? ? (Fa & Fb & Fab) F']; subst. cbn [fst snd] in *.
  cbn [each]. unfold len_step at 1. cbn [fst snd]. rewrite (square_length g x y l I Fa Fb Fab Few). cbn [bind]. rewrite (IH ls' _ F' F2'). f_equal. cbn [map]. change (list_sum (length l - 1 :: map (fun l0 => length l0 - 1) ls')) with ((length l - 1) + list_sum (map (fun l0 => length l0 - 1) ls')). lia.
Qed.
Lemma max_zero zs : zs <> [] -> (forall z, In z zs -> (0 <= z)%Z) -> fold_right Z.max (-1)%Z zs = fold_right Z.max 0%Z zs.
Proof.
  clear. intros Ne Pos. destruct zs as [|z zs]; [congruence|]. clear Ne. revert z Pos. induction zs as [|z' zs IH]; intros z Pos; [cbn; specialize (Pos z (or_introl eq_refl)); lia|].
  change (Z.max z (fold_right Z.max (-1) (z' :: zs)) = Z.max z (fold_right Z.max 0 (z' :: zs)))%Z. rewrite IH; [reflexivity|]. intros y Hy. apply Pos. right. exact Hy.
Qed.
Lemma trial_costs d st x c t q : consistent n st -> In c (p_free st) -> trial_of n d st x c t q -> connections d (p_core st) x c <> [] -> costs (p_net st) d (p_core st) x c q.
Proof.
  intros K Hc (len & ls & El & _ & -> & Ec & _ & _ & F2 & Em & _) Ne. exists ls. split.
  - revert F2. generalize (connections d (p_core st) x c). intros cs F2. clear - F2. induction F2 as [|p l ps ls' [H _] _ IH]; [constructor|constructor; assumption].
  - rewrite lengths_jobs in El. rewrite <- (jobs_connections d (p_core st) (g_v (p_net st)) x c) in F2. rewrite (lens_sum (p_net st) _ ls 0 (k_net n st K) (jobs_fit n d st x c K Hc) F2) in El. injection El as <-.
    pose proof (Forall2_length' F2) as Ll. rewrite map_length, <- Ec in Ll.
    assert (Pos : t_count t <> 0). { rewrite Ec, (jobs_count d). destruct (connections d (p_core st) x c); [congruence|discriminate]. }
    unfold cost. replace (t_count t =? 0) with false by (symmetry; apply Nat.eqb_neq, Pos). rewrite Em, max_zero.
    2:{ destruct ls; [cbn in Ll; congruence|discriminate]. } 2:{ intros z Hz. apply in_map_iff in Hz. destruct Hz as (l & <- & _). apply contention_pos. }
    apply Qplus_comp; [reflexivity|]. cbn [Nat.add]. rewrite <- Ll. generalize (list_sum (map (fun l => length l - 1) ls)). intros k. rewrite Qmake_Qdiv. replace (Z.pos (Pos.of_nat (t_count t))) with (Z.of_nat (t_count t)) by lia. reflexivity.
Qed.
End SQUARE.
