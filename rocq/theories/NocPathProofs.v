(** The path searches: breadth of the search, shortest paths, enumeration of the paths. *)
From Coq Require Import ZifyBool ZifyNat FinFun.
From Verif Require Import Base Noc NocPath NocPathSpec.
Open Scope nat_scope.

Lemma set_at_eq {A} (f : nat -> A) k x : set_at f k x k = x.
Proof. unfold set_at. rewrite Nat.eqb_refl. reflexivity. Qed.
Lemma set_at_neq {A} (f : nat -> A) k x j : j <> k -> set_at f k x j = f j.
Proof. unfold set_at. intros H. destruct (Nat.eqb_spec j k); [contradiction|reflexivity]. Qed.

(** * The least unvisited vertex *)
Definition open_at (s : search) j c := s_vis s j = false /\ s_cost s j = Some c.
Lemma closer_spec s l best :
  match fold_left (closer s) l best with
  | None => best = None /\ forall j c, In j l -> ~ open_at s j c
  | Some (v, c) => (best = Some (v, c) \/ In v l /\ open_at s v c) /\ (forall j cj, In j l -> open_at s j cj -> c <= cj) /\
                   (forall b, best = Some b -> c <= snd b)
  end.
Proof.
  revert best. induction l as [|x l IH]; intros best; cbn [fold_left].
  - destruct best as [[v c]|].
    + split; [left; reflexivity|]. split; [intros j cj []|]. intros b [= <-]. cbn. lia.
    + split; [reflexivity|]. intros j c [].
  - specialize (IH (closer s best x)). destruct (fold_left (closer s) l (closer s best x)) as [[v c]|] eqn:E.
    + destruct IH as (A & B & C). unfold closer in A, C. destruct (s_vis s x) eqn:Vx.
      * split; [destruct A as [A|[A1 A2]]; [left; exact A|right; split; [right; exact A1|exact A2]]|]. split; [|exact C].
        intros j cj [<-|H] O; [|apply (B j); assumption]. destruct O as [O _]. congruence.
      * destruct (s_cost s x) as [cx|] eqn:Cx.
        2:{ split; [destruct A as [A|[A1 A2]]; [left; exact A|right; split; [right; exact A1|exact A2]]|]. split; [|exact C].
            intros j cj [<-|H] O; [|apply (B j); assumption]. destruct O as [_ O]. congruence. }
        destruct best as [[v0 c0]|]; cbn [snd] in *.
        -- destruct (Nat.ltb_spec cx c0) as [L|L].
           ++ split; [|split].
              ** destruct A as [A|[A1 A2]]; [|right; split; [right; exact A1|exact A2]]. injection A as <- <-. right. split; [left; reflexivity|split; assumption].
              ** intros j cj [<-|H] O; [|apply (B j); assumption]. destruct O as [_ O]. rewrite Cx in O. injection O as <-. specialize (C _ eq_refl). cbn in C. exact C.
              ** intros b [= <-]. specialize (C _ eq_refl). cbn in C |- *. lia.
           ++ split; [|split].
              ** destruct A as [A|[A1 A2]]; [left; exact A|right; split; [right; exact A1|exact A2]].
              ** intros j cj [<-|H] O; [|apply (B j); assumption]. destruct O as [_ O]. rewrite Cx in O. injection O as <-. specialize (C _ eq_refl). cbn in C. lia.
              ** exact C.
        -- split; [|split].
           ++ destruct A as [A|[A1 A2]]; [|right; split; [right; exact A1|exact A2]]. injection A as <- <-. right. split; [left; reflexivity|split; assumption].
           ++ intros j cj [<-|H] O; [|apply (B j); assumption]. destruct O as [_ O]. rewrite Cx in O. injection O as <-. specialize (C _ eq_refl). cbn in C. exact C.
           ++ intros b [=].
    + destruct IH as [A B]. unfold closer in A. destruct (s_vis s x) eqn:Vx.
      * split; [exact A|]. intros j c [<-|H] O; [|apply (B j c); assumption]. destruct O as [O _]. congruence.
      * destruct (s_cost s x) as [cx|] eqn:Cx.
        -- destruct best as [b|]; [destruct (cx <? snd b); discriminate A|discriminate A].
        -- split; [exact A|]. intros j c [<-|H] O; [|apply (B j c); assumption]. destruct O as [_ O]. congruence.
Qed.
Lemma nearest_some v s x : nearest v s = Some x -> x < v /\ exists c, open_at s x c /\ forall j cj, j < v -> open_at s j cj -> c <= cj.
Proof.
  unfold nearest. pose proof (closer_spec s (seq 0 v) None) as H. destruct (fold_left _ _ _) as [[y c]|]; [|discriminate]. intros [= <-].
  destruct H as ([H|[H O]] & B & _); [discriminate|]. apply in_seq in H. split; [lia|]. exists c. split; [exact O|]. intros j cj Hj. apply B. apply in_seq. lia.
Qed.
Lemma nearest_none v s : nearest v s = None -> forall j c, j < v -> ~ open_at s j c.
Proof.
  unfold nearest. pose proof (closer_spec s (seq 0 v) None) as H. destruct (fold_left _ _ _) as [[y c]|]; [discriminate|]. intros _.
  destruct H as [_ H]. intros j c Hj. apply H. apply in_seq. lia.
Qed.

(** * The search over the links accepted by [ok] *)
Section SEARCH.
Variable g : graph.
Variable ok : nat -> nat -> bool.
Variable u : nat.
Hypothesis Hcl : closed_links g.
Hypothesis Hu : u < g_v g.
Definition link x y := In y (g_adj g x) /\ ok x y = true.
Definition relax_gen (vid : nat) (s : search) (dst : nat) : outcome search :=
  if ok vid dst then if s_vis s dst then Ok s else improve vid dst (use_of g vid dst) s else Ok s.

Record common (s : search) : Prop := {
  c_start : s_cost s u = Some 0;
  c_range : forall j c, s_cost s j = Some c -> j < g_v g;
  c_prev : forall j c, s_cost s j = Some c -> j = u /\ c = 0 \/
             j <> u /\ exists i ci, s_prev s j = Some i /\ s_vis s i = true /\ s_cost s i = Some ci /\ c = S ci /\ link i j /\ s_util s j = use_of g i j;
  c_none : forall j, s_cost s j = None \/ j = u -> s_prev s j = None;
  c_vis : forall j, s_vis s j = true -> exists c, s_cost s j = Some c;
}.
(** A link out of a visited vertex has been taken into account. *)
Definition done (s : search) i j := forall ci, s_cost s i = Some ci -> exists cj, s_cost s j = Some cj /\ cj <= S ci /\ (cj = S ci -> (s_util s j <= use_of g i j)%Z).
Record inv (s : search) : Prop := {
  i_common : common s;
  i_order : forall i j ci cj, s_vis s i = true -> s_vis s j = false -> s_cost s i = Some ci -> s_cost s j = Some cj -> ci <= cj;
  i_done : forall i j, s_vis s i = true -> link i j -> done s i j;
}.
(** While the neighbours [rest] of [v] remain to be looked at. *)
Record mid (v c : nat) (rest : list nat) (s : search) : Prop := {
  m_common : common s;
  m_vis : s_vis s v = true;
  m_cost : s_cost s v = Some c;
  m_low : forall i ci, s_vis s i = true -> s_cost s i = Some ci -> ci <= c;
  m_high : forall j cj, s_vis s j = false -> s_cost s j = Some cj -> c <= cj;
  m_done : forall i j, s_vis s i = true -> link i j -> (i = v -> ~ In j rest) -> done s i j;
}.
Lemma relax_gen_ok v c x rest s : v < g_v g -> In x (g_adj g v) -> (forall y, In y (x :: rest) -> In y (g_adj g v)) -> mid v c (x :: rest) s ->
  exists s', relax_gen v s x = Ok s' /\ mid v c rest s' /\ s_vis s' = s_vis s.
Proof.
  intros Hv Hx Hsub [Hc Hvis Hcost Hlow Hhigh Hdone]. unfold relax_gen. destruct (ok v x) eqn:Ok1.
  2:{ exists s. split; [reflexivity|]. split; [|reflexivity]. constructor; try assumption. intros i j Vi L Ne. apply Hdone; [assumption..|].
      intros -> [<-|H]; [|exact (Ne eq_refl H)]. destruct L as [_ L]. congruence. }
  destruct (s_vis s x) eqn:Vx.
  { exists s. split; [reflexivity|]. split; [|reflexivity]. constructor; try assumption. intros i j Vi L Ne.
    destruct (Nat.eq_dec i v) as [->|Nv]; [|apply Hdone; [assumption..|contradiction]].
    destruct (Nat.eq_dec j x) as [->|Nx]; [|apply Hdone; [assumption..|]; intros _ [H|H]; [congruence|exact (Ne eq_refl H)]].
    intros ci E. rewrite Hcost in E. injection E as <-. destruct (c_vis _ Hc x Vx) as [cx Cx]. exists cx. split; [exact Cx|].
    pose proof (Hlow x cx Vx Cx). split; [lia|]. intros ->. lia. }
  assert (Nxv : x <> v) by congruence.
  unfold improve. rewrite Hcost.
  assert (Xr : x < g_v g) by (apply (Hcl v); assumption).
  (* whatever the case, the new state *)
  set (s1 := mkSearch (s_vis s) (set_at (s_cost s) x (Some (S c))) (set_at (s_prev s) x (Some v)) (set_at (s_util s) x (use_of g v x))).
  assert (Upd : (s_cost s x = None \/ exists cx, s_cost s x = Some cx /\ (cx = S c /\ (use_of g v x < s_util s x)%Z \/ S c < cx)) -> mid v c rest s1).
  { intros Better.
    assert (Nu : x <> u). { intros ->. rewrite (c_start _ Hc) in Better. destruct Better as [B|(cx & B & D)]; [discriminate|]. injection B as <-. lia. }
    assert (Vn : forall i, s_vis s i = true -> i <> x) by congruence.
    constructor.
    - constructor; cbn.
      + rewrite set_at_neq by congruence. apply (c_start _ Hc).
      + intros j cj. destruct (Nat.eq_dec j x) as [->|N]; [intros _; exact Xr|]. rewrite set_at_neq by exact N. apply (c_range _ Hc).
      + intros j cj. destruct (Nat.eq_dec j x) as [->|N].
        * rewrite !set_at_eq. intros [= <-]. right. split; [exact Nu|]. exists v, c. rewrite set_at_neq by congruence.
          split; [reflexivity|]. split; [exact Hvis|]. split; [exact Hcost|]. split; [reflexivity|]. split; [split; assumption|reflexivity].
        * rewrite !(set_at_neq _ _ _ j) by exact N. intros E. destruct (c_prev _ Hc j cj E) as [H|(Nj & i & ci & P & Vi & Ci & Es & L & U)]; [left; exact H|right].
          split; [exact Nj|]. exists i, ci. rewrite (set_at_neq _ _ _ i) by (apply Vn; exact Vi). split; [exact P|]. split; [exact Vi|]. split; [exact Ci|]. split; [exact Es|]. split; assumption.
      + intros j. destruct (Nat.eq_dec j x) as [->|N].
        * rewrite !set_at_eq. intros [H|H]; [discriminate|contradiction].
        * rewrite !set_at_neq by exact N. apply (c_none _ Hc).
      + intros j Vj. rewrite set_at_neq by (apply Vn; exact Vj). apply (c_vis _ Hc j Vj).
    - exact Hvis.
    - cbn. rewrite set_at_neq by congruence. exact Hcost.
    - cbn. intros i ci Vi. rewrite set_at_neq by (apply Vn; exact Vi). apply Hlow, Vi.
    - cbn. intros j cj Vj. destruct (Nat.eq_dec j x) as [->|N]; [rewrite set_at_eq; intros [= <-]; lia|]. rewrite set_at_neq by exact N. apply Hhigh, Vj.
    - cbn. intros i j Vi L Ne ci. cbn. rewrite (set_at_neq _ _ _ i) by (apply Vn; exact Vi). intros Ci.
      destruct (Nat.eq_dec j x) as [->|Nj].
      + rewrite !set_at_eq. exists (S c). split; [reflexivity|].
        destruct (Nat.eq_dec i v) as [->|Nv].
        * rewrite Hcost in Ci. injection Ci as <-. split; [lia|]. intros _. lia.
        * destruct (Hdone i x Vi L ltac:(contradiction) ci Ci) as (cx & Cx & Le & Us). pose proof (Hlow i ci Vi Ci) as Lo.
          destruct Better as [B|(cx' & B & D)]; [congruence|]. rewrite Cx in B. injection B as <-.
          destruct D as [[-> D]|D]; [|lia]. split; [lia|]. intros E. specialize (Us E). lia.
      + rewrite !(set_at_neq _ _ _ j) by exact Nj. apply (Hdone i j Vi L); [|exact Ci]. intros -> [H|H]; [congruence|exact (Ne eq_refl H)]. }
  assert (Keep : (exists cx, s_cost s x = Some cx /\ (cx < S c \/ cx = S c /\ (s_util s x <= use_of g v x)%Z)) -> mid v c rest s).
  { intros (cx & Cx & D). constructor; try assumption. intros i j Vi L Ne.
    destruct (Nat.eq_dec i v) as [->|Nv]; [|apply Hdone; [assumption..|contradiction]].
    destruct (Nat.eq_dec j x) as [->|Nx]; [|apply Hdone; [assumption..|]; intros _ [H|H]; [congruence|exact (Ne eq_refl H)]].
    intros ci E. rewrite Hcost in E. injection E as <-. exists cx. split; [exact Cx|]. split; [lia|]. lia. }
  destruct (s_cost s x) as [cx|] eqn:Cx.
  - destruct ((S c =? cx) && (use_of g v x <? s_util s x)%Z || (S c <? cx)) eqn:T.
    + exists s1. split; [reflexivity|]. split; [|reflexivity]. apply Upd. right. exists cx. split; [reflexivity|]. lia.
    + exists s. split; [reflexivity|]. split; [|reflexivity]. apply Keep. exists cx. split; [reflexivity|]. lia.
  - exists s1. split; [reflexivity|]. split; [|reflexivity]. apply Upd. left. reflexivity.
Qed.
Lemma relax_all_gen v c rest s : v < g_v g -> (forall y, In y rest -> In y (g_adj g v)) -> mid v c rest s ->
  exists s', relax_all (relax_gen v) s rest = Ok s' /\ mid v c [] s' /\ s_vis s' = s_vis s.
Proof.
  intros Hv. revert s. induction rest as [|x rest IH]; intros s Sub M.
  - exists s. split; [reflexivity|]. split; [exact M|reflexivity].
  - destruct (relax_gen_ok v c x rest s Hv (Sub x (or_introl eq_refl)) Sub M) as (s1 & E1 & M1 & V1).
    destruct (IH s1 (fun y H => Sub y (or_intror H)) M1) as (s2 & E2 & M2 & V2). exists s2. cbn. rewrite E1. cbn. rewrite E2. split; [reflexivity|]. split; [exact M2|congruence].
Qed.
Definition all_seen (s : search) := forall j c, j < g_v g -> ~ open_at s j c.
Definition unseen (s : search) := length (filter (fun j => negb (s_vis s j)) (seq 0 (g_v g))).
Lemma filter_less (f h : nat -> bool) l x : In x l -> (forall j, In j l -> h j = true -> f j = true) -> f x = true -> h x = false -> length (filter h l) < length (filter f l).
Proof.
  assert (G : forall l', (forall j, In j l' -> h j = true -> f j = true) -> length (filter h l') <= length (filter f l')).
  { intros l'. induction l' as [|a l' IH]; intros H; [cbn; lia|]. cbn. specialize (IH (fun j I => H j (or_intror I))). pose proof (H a (or_introl eq_refl)).
    destruct (h a); [rewrite H0 by reflexivity; cbn; lia|]. destruct (f a); cbn; lia. }
  induction l as [|a l IH]; intros I H Fx Hx; [destruct I|]. cbn. destruct I as [->|I].
  - rewrite Fx, Hx. cbn. pose proof (G l (fun j I => H j (or_intror I))). lia.
  - specialize (IH I (fun j I => H j (or_intror I)) Fx Hx). pose proof (H a (or_introl eq_refl)) as Ha. destruct (h a); [rewrite Ha by reflexivity; cbn; lia|]. destruct (f a); cbn; lia.
Qed.
Lemma turn_gen s : inv s -> exists s', turn relax_gen g s = Ok s' /\ inv s' /\ (all_seen s /\ s' = s \/ unseen s' < unseen s).
Proof.
  intros [Hc Ho Hd]. unfold turn. destruct (nearest (g_v g) s) as [v|] eqn:N.
  2:{ exists s. split; [reflexivity|]. split; [constructor; assumption|]. left. split; [|reflexivity]. exact (nearest_none _ _ N). }
  apply nearest_some in N. destruct N as (Hv & c & [Vv Cv] & Min). set (s0 := mkSearch _ _ _ _).
  assert (Vs : forall j, s_vis s j = true -> s_vis s0 j = true). { intros j H. cbn. destruct (Nat.eq_dec j v) as [->|N]; [apply set_at_eq|rewrite set_at_neq by exact N; exact H]. }
  assert (Vo : forall j, s_vis s0 j = true -> j = v \/ s_vis s j = true). { intros j. cbn. destruct (Nat.eq_dec j v) as [->|N]; [left; reflexivity|rewrite set_at_neq by exact N; right; assumption]. }
  assert (M : mid v c (g_adj g v) s0).
  { constructor.
    - constructor.
      + apply (c_start _ Hc).
      + apply (c_range _ Hc).
      + intros j cj E. destruct (c_prev _ Hc j cj E) as [H|(Nj & i & ci & P & Vi & R)]; [left; exact H|right]. split; [exact Nj|]. exists i, ci. split; [exact P|]. split; [apply Vs, Vi|exact R].
      + apply (c_none _ Hc).
      + intros j Vj. destruct (Vo j Vj) as [->|H]; [exists c; exact Cv|apply (c_vis _ Hc j H)].
    - apply set_at_eq.
    - exact Cv.
    - intros i ci Vi Ci. destruct (Vo i Vi) as [->|H]; [cbn in Ci; rewrite Cv in Ci; injection Ci as <-; lia|]. apply (Ho i v ci c H Vv Ci Cv).
    - intros j cj Vj Cj. cbn in Vj, Cj. destruct (Nat.eq_dec j v) as [->|N]; [rewrite set_at_eq in Vj; discriminate|]. rewrite set_at_neq in Vj by exact N.
      apply (Min j cj); [apply (c_range _ Hc j cj Cj)|split; assumption].
    - intros i j Vi L Ne. destruct (Vo i Vi) as [->|H]; [destruct L as [L _]; destruct (Ne eq_refl L)|]. exact (Hd i j H L). }
  destruct (relax_all_gen v c (g_adj g v) s0 Hv (fun y H => H) M) as (s' & E & [Mc Mv Mco Ml Mh Md] & V'). exists s'. split; [exact E|].
  split.
  - constructor; [exact Mc| |].
    + intros i j ci cj Vi Vj Ci Cj. pose proof (Ml i ci Vi Ci). pose proof (Mh j cj Vj Cj). lia.
    + intros i j Vi L. apply (Md i j Vi L). intros _ [].
  - right. unfold unseen. rewrite V'. apply (filter_less _ _ _ v).
    + apply in_seq. lia.
    + intros j _ H. cbn in H. destruct (s_vis s j) eqn:Vj; [|reflexivity]. rewrite (Vs j Vj : set_at (s_vis s) v true j = true) in H. discriminate.
    + rewrite Vv. reflexivity.
    + cbn. rewrite set_at_eq. reflexivity.
Qed.
Lemma turns_gen k s : inv s -> exists s', turns k relax_gen g s = Ok s' /\ inv s' /\ (all_seen s' \/ unseen s' + k <= unseen s).
Proof.
  revert s. induction k as [|k IH]; intros s I.
  - exists s. split; [reflexivity|]. split; [exact I|right; lia].
  - destruct (turn_gen s I) as (s1 & E1 & I1 & D1). destruct (IH s1 I1) as (s2 & E2 & I2 & D2). exists s2. cbn. rewrite E1. cbn. split; [exact E2|]. split; [exact I2|].
    destruct D2 as [D2|D2]; [left; exact D2|]. destruct D1 as [[D1 ->]|D1]; [|right; lia].
    (* nothing left to visit: every turn does nothing *)
    left. assert (T : forall m, turns m relax_gen g s = Ok s).
    { clear - D1. intros m. induction m as [|m IHm]; [reflexivity|]. cbn. replace (turn relax_gen g s) with (Ok s); [exact IHm|].
      unfold turn. destruct (nearest (g_v g) s) as [v|] eqn:N; [|reflexivity]. apply nearest_some in N. destruct N as (Hv & c & O & _). destruct (D1 v c Hv O). }
    rewrite T in E2. injection E2 as <-. exact D1.
Qed.
Lemma start_inv : inv (start u).
Proof.
  constructor; [constructor|..]; cbn.
  - apply set_at_eq.
  - intros j c. destruct (Nat.eq_dec j u) as [->|N]; [intros _; exact Hu|rewrite set_at_neq by exact N; discriminate].
  - intros j c. destruct (Nat.eq_dec j u) as [->|N]; [rewrite set_at_eq; intros [= <-]; left; split; reflexivity|rewrite set_at_neq by exact N; discriminate].
  - reflexivity.
  - discriminate.
  - discriminate.
  - discriminate.
Qed.
Lemma search_done : exists s, turns (g_v g) relax_gen g (start u) = Ok s /\ inv s /\ all_seen s.
Proof.
  destruct (turns_gen (g_v g) (start u) start_inv) as (s & E & I & D). exists s. split; [exact E|]. split; [exact I|].
  destruct D as [D|D]; [exact D|]. intros j c Hj [Vj _]. unfold unseen in D.
  assert (L : length (filter (fun j => negb (s_vis (start u) j)) (seq 0 (g_v g))) <= g_v g).
  { rewrite <- (seq_length (g_v g) 0) at 2. clear. induction (seq 0 (g_v g)) as [|a l IH]; [cbn; lia|]. cbn in *. lia. }
  assert (Z : length (filter (fun j => negb (s_vis s j)) (seq 0 (g_v g))) = 0) by lia.
  apply length_zero_iff_nil in Z. assert (I2 : In j (filter (fun j => negb (s_vis s j)) (seq 0 (g_v g)))) by (apply filter_In; split; [apply in_seq; lia|rewrite Vj; reflexivity]).
  rewrite Z in I2. destruct I2.
Qed.

(** * What the finished search knows *)
Section FINAL.
Variable s : search.
Hypothesis Hi : inv s.
Hypothesis Ha : all_seen s.
Lemma final_step i j ci : s_cost s i = Some ci -> link i j -> exists cj, s_cost s j = Some cj /\ cj <= S ci /\ (cj = S ci -> (s_util s j <= use_of g i j)%Z).
Proof.
  intros Ci L. assert (Vi : s_vis s i = true). { destruct (s_vis s i) eqn:Vi; [reflexivity|]. destruct (Ha i ci); [apply (c_range _ (i_common _ Hi) i ci Ci)|split; assumption]. }
  exact (i_done _ Hi i j Vi L ci Ci).
Qed.
Lemma final_le d l x cx : s_cost s x = Some cx -> follows link x l d -> exists cd, s_cost s d = Some cd /\ S cd <= cx + length l.
Proof.
  revert x cx. induction l as [|a l IH]; intros x cx Cx F; [destruct F|]. destruct F as [-> F]. destruct l as [|y l].
  - subst. exists cx. split; [exact Cx|cbn; lia].
  - destruct F as [L F]. destruct (final_step x y cx Cx L) as (cy & Cy & Le & _). destruct (IH y cy Cy F) as (cd & Cd & Ld). exists cd. split; [exact Cd|]. cbn in *. lia.
Qed.
(** Reading a path backwards. *)
Lemma follows_cons x y l d : link x y -> follows link y l d -> follows link x (x :: l) d.
Proof. intros L F. split; [reflexivity|]. destruct l as [|z l]; [destruct F|]. destruct F as [-> F]. split; [exact L|]. split; [reflexivity|exact F]. Qed.
Lemma final_path lost d c j acc l : s_cost s j = Some c -> j <> u -> 
  follows link j (j :: acc) d -> l = j :: acc ->
  exists p, (forall fuel, c <= S fuel -> backwards fuel lost (s_prev s) u (s_prev s j) l = Ok (p ++ l)) /\ length p = c /\ follows link u (p ++ l) d /\
    map (s_cost s) (p ++ [j]) = map Some (seq 0 (S c)) /\ exists p0 i, p = p0 ++ [i] /\ s_prev s j = Some i.
Proof.
  revert j acc l. induction c as [|c IH]; intros j acc l Cj Nj F ->.
  - destruct (c_prev _ (i_common _ Hi) j 0 Cj) as [[H _]|(_ & i & ci & _ & _ & _ & H & _)]; [contradiction|discriminate].
  - destruct (c_prev _ (i_common _ Hi) j _ Cj) as [[H _]|(_ & i & ci & P & Vi & Ci & [= <-] & L & U)]; [contradiction|].
    rewrite P. destruct (Nat.eq_dec i u) as [->|Ni].
    + rewrite (c_start _ (i_common _ Hi)) in Ci. injection Ci as <-. exists [u]. split; [|split; [reflexivity|split; [|split]]].
      * intros fuel _. destruct fuel; cbn; rewrite Nat.eqb_refl; reflexivity.
      * apply (follows_cons u j); assumption.
      * cbn. rewrite (c_start _ (i_common _ Hi)), Cj. reflexivity.
      * exists [], u. split; reflexivity.
    + destruct (IH i (j :: acc) (i :: j :: acc) Ci Ni (follows_cons i j _ d L F) eq_refl) as (p & B & Lp & Fp & Mp & _).
      exists (p ++ [i]). split; [|split; [|split; [|split]]].
      * intros fuel Hf. destruct fuel as [|fuel].
        { assert (C0 : c = 0) by lia. rewrite C0 in Ci. destruct (c_prev _ (i_common _ Hi) i 0 Ci) as [[H _]|(_ & ? & ? & _ & _ & _ & H & _)]; [contradiction|discriminate]. }
        cbn. replace (i =? u) with false by (symmetry; apply Nat.eqb_neq; exact Ni). rewrite B by lia. rewrite <- app_assoc. reflexivity.
      * rewrite app_length, Lp. cbn. lia.
      * rewrite <- app_assoc. exact Fp.
      * rewrite map_app, Mp. cbn [map]. rewrite Cj. rewrite (seq_S (S c) 0), map_app. reflexivity.
      * exists p, i. split; reflexivity.
Qed.
(** Costs along the path read are distinct: there are at most [V] of them. *)
Lemma cost_small j c p : map (s_cost s) (p ++ [j]) = map Some (seq 0 (S c)) -> S c <= g_v g.
Proof.
  intros M. assert (ND : NoDup (p ++ [j])).
  { apply (NoDup_map_inv (s_cost s)). rewrite M. apply FinFun.Injective_map_NoDup; [intros a b [= ->]; reflexivity|apply seq_NoDup]. }
  assert (Len : length (p ++ [j]) = S c) by (rewrite <- (map_length (s_cost s)), M, map_length, seq_length; reflexivity).
  rewrite <- Len, <- (seq_length (g_v g) 0). apply NoDup_incl_length; [exact ND|]. intros x Hx. apply in_seq.
  assert (In (s_cost s x) (map Some (seq 0 (S c)))) as I by (rewrite <- M; apply in_map, Hx). apply in_map_iff in I. destruct I as (k & E & _).
  pose proof (c_range _ (i_common _ Hi) x k (eq_sym E)). lia.
Qed.
End FINAL.

Lemma follows_split x q y d0 t : t = [d0] -> follows link x (q ++ [y] ++ t) d0 -> follows link x (q ++ [y]) y /\ link y d0.
Proof.
  intros ->. revert x. induction q as [|a q IH]; intros x F.
  - destruct F as [-> [L [_ _]]]. split; [split; reflexivity|exact L].
  - destruct F as [-> F]. destruct q as [|b q].
    + destruct F as [L F]. destruct (IH _ F) as [F1 L1]. split; [|exact L1]. split; [reflexivity|]. split; [exact L|exact F1].
    + destruct F as [L F]. destruct (IH _ F) as [F1 L1]. split; [|exact L1]. split; [reflexivity|]. split; [exact L|exact F1].
Qed.
Definition gen_path lost d := search_path relax_gen lost g u d.
Lemma gen_found lost d l0 : u <> d -> d < g_v g -> follows link u l0 d ->
  exists l, gen_path lost d = Ok l /\ fewest_links link u l d /\
    forall l' x y p q, fewest_links link u l' d -> l = p ++ [x; d] -> l' = q ++ [y; d] -> (use_of g x d <= use_of g y d)%Z.
Proof.
  intros Ne Hd F0. unfold gen_path, search_path. replace (u =? d) with false by (symmetry; apply Nat.eqb_neq; exact Ne).
  replace (u <? g_v g) with true by (symmetry; apply Nat.ltb_lt; exact Hu). replace (d <? g_v g) with true by (symmetry; apply Nat.ltb_lt; exact Hd). cbn [andb negb].
  destruct search_done as (s & E & Hi & Ha). rewrite E. cbn [bind].
  pose proof (c_start _ (i_common _ Hi)) as Cu.
  assert (Low : forall l', follows link u l' d -> exists cd, s_cost s d = Some cd /\ S cd <= length l') by (intros l' F; exact (final_le s Hi Ha d l' u 0 Cu F)).
  destruct (Low l0 F0) as (c & Cd & _).
  assert (Fd : follows link d [d] d) by (split; reflexivity).
  destruct (final_path s Hi lost d c d [] [d] Cd (not_eq_sym Ne) Fd eq_refl) as (p & B & Lp & Fp & Mp & p0 & i0 & Ep & Pd).
  pose proof (cost_small s Hi d c p Mp) as Sm.
  exists (p ++ [d]). split; [apply B; lia|]. assert (Len : length (p ++ [d]) = S c) by (rewrite app_length, Lp; cbn; lia).
  assert (Few : fewest_links link u (p ++ [d]) d). { split; [exact Fp|]. intros l' F. destruct (Low l' F) as (c' & C' & Le). rewrite Cd in C'. injection C' as <-. lia. }
  split; [exact Few|].
  intros l' x y p1 q [Fl' Min'] E1 E2.
  (* the last vertex before [d] in our path is prev d *)
  destruct (c_prev _ (i_common _ Hi) d c Cd) as [[H _]|(_ & i & ci & P & Vi & Ci & Ec & L & U)]; [congruence|].
  assert (N1 : p = p1 ++ [x]). { apply (app_inj_tail p (p1 ++ [x]) d d). rewrite <- app_assoc. exact E1. }
  assert (x = i). { rewrite Ep in N1. apply app_inj_tail in N1. destruct N1 as [_ N1]. congruence. }
  subst x. rewrite <- U.
  (* the other path goes through a vertex at the same distance *)
  subst l'. assert (Len' : length (q ++ [y; d]) = S c) by (apply Nat.le_antisymm; [rewrite <- Len; apply Min', Fp|rewrite <- Len; apply Few, Fl']).
  destruct (follows_split u q y d [d] eq_refl Fl') as [Fy Ly].
  destruct (final_le s Hi Ha y (q ++ [y]) u 0 Cu Fy) as (cy & Cy & Ly').
  destruct (final_step s Hi Ha y d cy Cy Ly) as (cd & Cd' & Le & Us). rewrite Cd in Cd'. injection Cd' as <-. apply Us.
  rewrite app_length in Len', Ly'. cbn in Len', Ly'. lia.
Qed.
Lemma gen_lost lost d : u <> d -> d < g_v g -> (forall l, ~ follows link u l d) -> gen_path lost d = lost.
Proof.
  intros Ne Hd No. unfold gen_path, search_path. replace (u =? d) with false by (symmetry; apply Nat.eqb_neq; exact Ne).
  replace (u <? g_v g) with true by (symmetry; apply Nat.ltb_lt; exact Hu). replace (d <? g_v g) with true by (symmetry; apply Nat.ltb_lt; exact Hd). cbn [andb negb].
  destruct search_done as (s & E & Hi & Ha). rewrite E. cbn [bind].
  destruct (s_cost s d) as [c|] eqn:Cd.
  - destruct (final_path s Hi lost d c d [] [d] Cd (not_eq_sym Ne) (conj eq_refl eq_refl) eq_refl) as (p & _ & _ & Fp & _). destruct (No _ Fp).
  - rewrite (c_none _ (i_common _ Hi) d (or_introl Cd)). destruct (g_v g); reflexivity.
Qed.
End SEARCH.

(** * The two searches of the code *)
Lemma link_use_ok g x y : map_index (g_v g) x y < length (g_util g) -> link_use g x y = Ok (use_of g x y).
Proof. intros H. unfold link_use, use_of. rewrite (nth_error_nth' (g_util g) 0%Z H). reflexivity. Qed.
Lemma relax_all_ext f h s l : (forall s' x, In x l -> f s' x = h s' x) -> relax_all f s l = relax_all h s l.
Proof.
  revert s. induction l as [|x l IH]; intros s H; [reflexivity|]. cbn. rewrite H by (left; reflexivity). destruct (h s x); try reflexivity. cbn. apply IH. intros s' y Hy. apply H. right. exact Hy.
Qed.
Lemma turns_ext k f h g s : (forall v s' x, v < g_v g -> In x (g_adj g v) -> f v s' x = h v s' x) -> turns k f g s = turns k h g s.
Proof.
  intros H. assert (T : forall s', turn f g s' = turn h g s').
  { intros s'. unfold turn. destruct (nearest (g_v g) s') as [v|] eqn:N; [|reflexivity]. apply nearest_some in N. destruct N as [Hv _]. apply relax_all_ext. intros s2 x Hx. apply H; assumption. }
  revert s. induction k as [|k IH]; intros s; [reflexivity|]. cbn. rewrite T. destruct (turn h g s); try reflexivity. cbn. apply IH.
Qed.
Lemma relax_short_gen g v s x : closed_links g -> all_counted g -> v < g_v g -> In x (g_adj g v) -> relax_short g v s x = relax_gen g (fun _ _ => true) v s x.
Proof.
  intros Cl Co Hv Hx. unfold relax_short, relax_gen. replace (x <? g_v g) with true by (symmetry; apply Nat.ltb_lt; exact (Cl v x Hv Hx)). cbn [negb].
  destruct (s_vis s x); [reflexivity|]. rewrite link_use_ok by exact (Co v x Hv Hx). reflexivity.
Qed.
Definition light (g : graph) x y := negb (hw_limit <? use_of g x y)%Z.
Lemma relax_low_gen g v s x : closed_links g -> all_counted g -> v < g_v g -> In x (g_adj g v) -> relax_low g v s x = relax_gen g (light g) v s x.
Proof.
  intros Cl Co Hv Hx. unfold relax_low, relax_gen, light. replace (x <? g_v g) with true by (symmetry; apply Nat.ltb_lt; exact (Cl v x Hv Hx)). cbn [negb].
  rewrite link_use_ok by exact (Co v x Hv Hx). cbn [bind]. destruct (hw_limit <? use_of g v x)%Z; [reflexivity|]. destruct (s_vis s x); reflexivity.
Qed.
Lemma search_path_ext f h lost g u d : (forall v s' x, v < g_v g -> In x (g_adj g v) -> f v s' x = h v s' x) -> search_path f lost g u d = search_path h lost g u d.
Proof. intros H. unfold search_path. destruct (u =? d); [reflexivity|]. destruct (negb _); [reflexivity|]. rewrite (turns_ext _ f h g _ H). reflexivity. Qed.
Lemma follows_iff (P Q : nat -> nat -> Prop) u l d : (forall x y, P x y <-> Q x y) -> follows P u l d <-> follows Q u l d.
Proof.
  intros H. revert u. induction l as [|a l IH]; intros u; [reflexivity|]. cbn. destruct l as [|b l]; [reflexivity|]. rewrite (H u b). specialize (IH b). tauto.
Qed.
Lemma fewest_iff (P Q : nat -> nat -> Prop) u l d : (forall x y, P x y <-> Q x y) -> fewest_links P u l d <-> fewest_links Q u l d.
Proof.
  intros H. unfold fewest_links. rewrite (follows_iff P Q u l d H). split; intros [A B]; (split; [exact A|]); intros l' F; apply B; [apply (follows_iff P Q u l' d H)|apply (follows_iff Q P u l' d (fun x y => iff_sym (H x y)))]; exact F.
Qed.
Lemma link_all g x y : link g (fun _ _ => true) x y <-> has_link g x y.
Proof. unfold link, has_link. tauto. Qed.
Lemma link_light g x y : link g (light g) x y <-> free_link g hw_limit x y.
Proof. unfold link, free_link, light. rewrite negb_true_iff, Z.ltb_ge. tauto. Qed.

(** * Enumeration *)
Lemma existsb_In i l : existsb (Nat.eqb i) l = true <-> In i l.
Proof. rewrite existsb_exists. split; [intros (x & H & E); apply Nat.eqb_eq in E; subst; exact H|intros H; exists i; split; [exact H|apply Nat.eqb_refl]]. Qed.
Definition tail_ok adj k d seen u t := follows (fun x y => In y (adj x)) u (u :: t) d /\ length t <= k /\ NoDup (u :: t) /\ forall x, In x (u :: t) -> ~ In x seen.
Lemma all_paths_spec adj d k seen u p : ~ In u seen -> (In p (all_paths k adj d seen u) <-> exists t, p = rev seen ++ u :: t /\ tail_ok adj k d seen u t).
Proof.
  revert seen u p. induction k as [|k IH]; intros seen u p Nu; cbn [all_paths].
  - destruct (Nat.eqb_spec u d) as [->|Ne].
    + split.
      * intros [<-|[]]. exists []. split; [reflexivity|]. split; [split; reflexivity|]. split; [cbn; lia|]. split; [constructor; [intros []|constructor]|]. intros x [<-|[]]. exact Nu.
      * intros (t & -> & _ & L & _). destruct t; [|cbn in L; lia]. left. reflexivity.
    + split; [intros []|]. intros (t & -> & F & L & _). destruct t; [|cbn in L; lia]. destruct F as [_ F]. contradiction.
  - destruct (Nat.eqb_spec u d) as [->|Ne].
    + split.
      * intros [<-|[]]. exists []. split; [reflexivity|]. split; [split; reflexivity|]. split; [cbn; lia|]. split; [constructor; [intros []|constructor]|]. intros x [<-|[]]. exact Nu.
      * intros (t & -> & F & L & ND & _). destruct t as [|y t]; [left; reflexivity|]. exfalso.
        (* the destination would be met twice *)
        destruct F as [_ [_ F]]. inversion ND as [|? ? N1 _]; subst. apply N1. clear - F. remember (y :: t) as l eqn:El. clear El t. revert y F.
        induction l as [|a l IHl]; intros y F; [destruct F|]. destruct F as [-> F]. destruct l as [|b l]; [left; congruence|]. right. apply (IHl b). apply F.
    + rewrite in_flat_map. split.
      * intros (i & Hi & H). destruct (existsb (Nat.eqb i) (u :: seen)) eqn:Ex; [destruct H|].
        assert (Ni : ~ In i (u :: seen)) by (intros C; apply existsb_In in C; congruence).
        apply (IH (u :: seen) i p Ni) in H. destruct H as (t & -> & F & L & ND & D). exists (i :: t). split; [cbn; rewrite <- app_assoc; reflexivity|].
        split; [split; [reflexivity|split; [exact Hi|exact F]]|]. split; [cbn; lia|]. split.
        -- constructor; [|exact ND]. intros C. apply (D u C). left. reflexivity.
        -- intros x [<-|Hx]; [exact Nu|]. intros C. apply (D x Hx). right. exact C.
      * intros (t & -> & F & L & ND & D). destruct t as [|i t]; [destruct F as [_ F]; contradiction|]. destruct F as [_ [Hi F]]. exists i. split; [exact Hi|].
        inversion ND as [|? ? N1 N2]; subst.
        assert (Ni : ~ In i (u :: seen)). { intros [->|C]; [apply N1; left; reflexivity|]. apply (D i); [right; left; reflexivity|exact C]. }
        destruct (existsb (Nat.eqb i) (u :: seen)) eqn:Ex; [apply existsb_In in Ex; contradiction|].
        apply (IH (u :: seen) i _ Ni). exists t. split; [cbn; rewrite <- app_assoc; reflexivity|]. split; [exact F|]. split; [cbn in L; lia|]. split; [exact N2|].
        intros x Hx [<-|C]; [exact (N1 Hx)|]. apply (D x); [right; exact Hx|exact C].
Qed.
Lemma all_paths_nodup adj d k seen u : (forall x, NoDup (adj x)) -> ~ In u seen -> NoDup (all_paths k adj d seen u).
Proof.
  intros HN. revert seen u. induction k as [|k IH]; intros seen u Nu; cbn [all_paths].
  - destruct (u =? d); constructor; [intros []|constructor].
  - destruct (u =? d); [constructor; [intros []|constructor]|].
    assert (G : forall l, NoDup l -> NoDup (flat_map (fun i => if existsb (Nat.eqb i) (u :: seen) then [] else all_paths k adj d (u :: seen) i) l)).
    { induction l as [|a l IHl]; intros ND; [constructor|]. inversion ND as [|? ? N1 N2]; subst. cbn [flat_map].
      assert (App : forall (A B : list (list nat)), NoDup A -> NoDup B -> (forall x, In x A -> ~ In x B) -> NoDup (A ++ B)).
      { clear. intros A B. induction A as [|x A IH]; intros HA HB H; [exact HB|]. inversion HA; subst. cbn. constructor; [rewrite in_app_iff; intros [C|C]; [contradiction|apply (H x); [left; reflexivity|exact C]]|].
        apply IH; [assumption..|]. intros y Hy. apply H. right. exact Hy. }
      apply App; [|apply IHl, N2|].
      - destruct (existsb (Nat.eqb a) (u :: seen)) eqn:Ea; [constructor|]. apply IH. intros C. apply existsb_In in C. congruence.
      - intros p Hp C. apply in_flat_map in C. destruct C as (b & Hb & C).
        destruct (existsb (Nat.eqb a) (u :: seen)) eqn:Ea; [destruct Hp|]. destruct (existsb (Nat.eqb b) (u :: seen)) eqn:Eb; [destruct C|].
        apply all_paths_spec in Hp; [|intros D; apply existsb_In in D; congruence]. apply all_paths_spec in C; [|intros D; apply existsb_In in D; congruence].
        destruct Hp as (t & -> & _), C as (t' & E & _). apply app_inv_head in E. injection E as -> _. contradiction. }
    apply G, HN.
Qed.

(** * The path of least contention *)
Lemma path_cost_ok g x l m : x < g_v g -> (forall a b, a < g_v g -> In b (g_adj g a) -> b < g_v g /\ map_index (g_v g) a b < length (g_util g)) -> (0 <= m)%Z ->
  (exists d, follows (has_link g) x (x :: l) d) -> path_cost_from g x l m = Ok (Z.max m (contention g (x :: l))).
Proof.
  intros Hx H. revert x m Hx. induction l as [|y l IH]; intros x m Hx Hm (d & F).
  - cbn. f_equal. lia.
  - destruct F as [_ [L F]]. destruct (H x y Hx L) as [Hy Hc]. cbn [path_cost_from]. rewrite link_use_ok by exact Hc. cbn [bind].
    rewrite IH; [|exact Hy|lia|exists d; exact F]. f_equal. change (contention g (x :: y :: l)) with (Z.max (use_of g x y) (contention g (y :: l))). lia.
Qed.
Lemma try_each_ext f h b l : (forall b' x, In x l -> f b' x = h b' x) -> try_each f b l = try_each h b l.
Proof. revert b. induction l as [|x l IH]; intros b H; [reflexivity|]. cbn. rewrite H by (left; reflexivity). destruct (h b x); try reflexivity. cbn. apply IH. intros b' y Hy. apply H. right. exact Hy. Qed.
Lemma try_each_app f b l l' : try_each f b (l ++ l') = do b1 <- try_each f b l; try_each f b1 l'.
Proof. revert b. induction l as [|x l IH]; intros b; [reflexivity|]. cbn. destruct (f b x); try reflexivity. cbn. apply IH. Qed.
Fixpoint keep_all (g : graph) (b : list nat) (ps : list (list nat)) : outcome (list nat) :=
  match ps with [] => Ok b | p :: ps' => do b1 <- keep_best g b p; keep_all g b1 ps' end.
Lemma keep_all_app g b l l' : keep_all g b (l ++ l') = do b1 <- keep_all g b l; keep_all g b1 l'.
Proof. revert b. induction l as [|x l IH]; intros b; [reflexivity|]. cbn. destruct (keep_best g b x); try reflexivity. cbn. apply IH. Qed.
Lemma bind_ok {A} (x : outcome A) : (do a <- x; Ok a) = x.
Proof. destruct x; reflexivity. Qed.
Lemma least_cost_keep g d k seen b u : least_cost k g d seen b u = keep_all g b (all_paths k (g_adj g) d seen u).
Proof.
  revert seen b u. induction k as [|k IH]; intros seen b u; cbn [least_cost all_paths].
  - destruct (u =? d); [|reflexivity]. cbn [keep_all]. rewrite bind_ok. reflexivity.
  - destruct (u =? d); [cbn [keep_all]; rewrite bind_ok; reflexivity|]. revert b. induction (g_adj g u) as [|i l IHl]; intros b; [reflexivity|].
    cbn [try_each flat_map]. rewrite keep_all_app. destruct (existsb (Nat.eqb i) (u :: seen)); [cbn; apply IHl|]. rewrite IH. destruct (keep_all g b _); try reflexivity. cbn. apply IHl.
Qed.
Lemma keep_all_spec g (P : list nat -> Prop) ps b : (forall p, P p -> p <> [] /\ find_path_cost g p = Ok (contention g p)) -> Forall P ps -> b = [] \/ P b ->
  exists r, keep_all g b ps = Ok r /\ (r = [] -> b = [] /\ ps = []) /\ (r <> [] -> r = b \/ In r ps) /\
    (forall p, p = b \/ In p ps -> p <> [] -> (contention g r <= contention g p)%Z).
Proof.
  intros H. revert b. induction ps as [|p ps IH]; intros b HP Hb.
  - exists b. split; [reflexivity|]. split; [intros ->; split; reflexivity|]. split; [left; reflexivity|]. intros p [->|[]] _. lia.
  - inversion HP as [|? ? Pp Pps]; subst. destruct (H p Pp) as [Np Cp]. cbn [keep_all]. unfold keep_best. rewrite Cp. cbn [bind].
    destruct Hb as [->|Pb].
    + cbn [find_path_cost bind length Nat.eqb]. destruct (IH p Pps (or_intror Pp)) as (r & E & R1 & R2 & R3). exists r. split; [exact E|]. split; [|split].
      * intros Er. destruct (R1 Er). contradiction.
      * intros Nr. destruct (R2 Nr) as [->|Hr]; right; [left; reflexivity|right; exact Hr].
      * intros q [->|[<-|Hq]] Nq; [contradiction|apply R3; [left; reflexivity|exact Nq]|apply R3; [right; exact Hq|exact Nq]].
    + destruct (H b Pb) as [Nb Cb]. rewrite Cb. cbn [bind]. replace (length b =? 0) with false by (destruct b; [contradiction|reflexivity]).
      destruct (contention g p <? contention g b)%Z eqn:T.
      * destruct (IH p Pps (or_intror Pp)) as (r & E & R1 & R2 & R3). exists r. split; [exact E|]. split; [|split].
        -- intros Er. destruct (R1 Er). contradiction.
        -- intros Nr. destruct (R2 Nr) as [->|Hr]; right; [left; reflexivity|right; exact Hr].
        -- intros q [->|[<-|Hq]] Nq; [|apply R3; [left; reflexivity|exact Nq]|apply R3; [right; exact Hq|exact Nq]].
           pose proof (R3 p (or_introl eq_refl) Np). lia.
      * destruct (IH b Pps (or_intror Pb)) as (r & E & R1 & R2 & R3). exists r. split; [exact E|]. split; [|split].
        -- intros Er. destruct (R1 Er). contradiction.
        -- intros Nr. destruct (R2 Nr) as [->|Hr]; [left; reflexivity|right; right; exact Hr].
        -- intros q [->|[<-|Hq]] Nq; [apply R3; [left; reflexivity|exact Nb]| |apply R3; [right; exact Hq|exact Nq]].
           pose proof (R3 b (or_introl eq_refl) Nb). lia.
Qed.
