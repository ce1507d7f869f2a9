(** The search of the monotonic optimisation: what it knows at each step. *)
From Coq Require Import QArith Lia Sorted.
From Verif Require Import Base Graph Storage StorageSpec StorageProofs StorageSets Dse MonoOpt MonoOptSpec MonoOptProofs.
Open Scope Z_scope.

Section Over.
Context (K : list Z) (HK : channel_list K).
Notation valid := (valid K). Notation same := (same K). Notation below := (below K). Notation above := (strictly_above K). Notation wf := (wf K).
Notation covers := (covers K). Notation reaches := (reaches K). Notation reached := (reached K). Notation antichain := (antichain K).
Notation inb e l := (existsb (Z.eqb e) l).

Lemma inb_in e l : inb e l = true <-> In e l.
Proof. rewrite existsb_exists. split; [intros (x & I & E); apply Z.eqb_eq in E; subst; exact I|intros I; exists e; split; [exact I|apply Z.eqb_refl]]. Qed.
Lemma channels_nodup : NoDup K.
Proof. unfold channel_list in HK. induction HK as [|x l S IH F]; constructor; [intros I; rewrite Forall_forall in F; apply F in I; lia|apply IH; exact S]. Qed.
Lemma get_next_in s d : wf s -> get_next s = Ok d -> In d (flat s) /\ forall x, In x (flat s) -> sd_size d <= sd_size x.
Proof. intros W E. destruct (get_next_ok K s W) as [A B]. destruct (flat s) as [|y l] eqn:F; [rewrite A in E by reflexivity; discriminate|]. destruct (B ltac:(discriminate)) as (d' & E' & I & M). rewrite E in E'. injection E' as <-. auto. Qed.

(** ** Building a distribution channel by channel *)
Lemma set_fold_ok (f : Z -> Z) init : forall es d, incl es K -> valid d -> like d init ->
  let d' := fold_left (fun acc e => set_quantity e (f e) acc) es d in
  valid d' /\ like d' init /\ forall e, quantity d' e = if inb e es then f e else quantity d e.
Proof.
  induction es as [|x es IH]; intros d I V L; cbn [fold_left]; [split; [exact V|]; split; [exact L|reflexivity]|].
  assert (Hx : In x K) by (apply I; left; reflexivity). destruct (IH (set_quantity x (f x) d) (fun z Hz => I z (or_intror Hz)) (set_quantity_valid K HK d x _ V Hx) (like_set K HK d init x _ L V Hx)) as (V' & L' & Q). split; [exact V'|]. split; [exact L'|].
  intros e. rewrite Q, (set_quantity_quantity K HK) by exact V. cbn [existsb]. destruct (Z.eqb_spec e x) as [->|N]; cbn [orb]; [destruct (inb x es); reflexivity|reflexivity].
Qed.
Definition shape (f : Z -> Z) (init : sd) : sd := fold_left (fun acc e => set_quantity e (f e) acc) K init.
Lemma shape_ok f init : valid init -> valid (shape f init) /\ like (shape f init) init /\ forall e, In e K -> quantity (shape f init) e = f e.
Proof.
  intros V. destruct (set_fold_ok f init K init (incl_refl K) V) as (A & B & C); [split; [|split]; reflexivity|]. split; [exact A|]. split; [exact B|]. intros e He. unfold shape. rewrite C, (proj2 (inb_in e K) He). reflexivity.
Qed.
Lemma set_all_shape v init : valid init -> set_all v (get_edges init) init = shape (fun _ => v) init.
Proof. intros V. unfold set_all, shape. rewrite (valid_edges _ _ V). reflexivity. Qed.
Lemma shape_set f init e v : valid init -> In e K -> valid (set_quantity e v (shape f init)) /\ forall z, In z K -> quantity (set_quantity e v (shape f init)) z = if z =? e then v else f z.
Proof. intros V He. destruct (shape_ok f init V) as (A & _ & C). split; [apply set_quantity_valid; auto|]. intros z Hz. rewrite (set_quantity_quantity K HK) by exact A. destruct (z =? e); [reflexivity|apply C, Hz]. Qed.

Lemma create_point_ok d hp m : valid d -> valid hp -> forall B acc, incl B K -> valid acc -> exists p, create_point B d hp m acc = Ok p /\ valid p /\
  forall e, quantity p e = if inb e B then quantity d e + quantity hp e * m else quantity acc e.
Proof.
  intros Vd Vh. induction B as [|x B IH]; intros acc I V; cbn [create_point]; [exists acc; split; [reflexivity|]; split; [exact V|reflexivity]|].
  assert (Hx : In x K) by (apply I; left; reflexivity). rewrite (valid_get K d x Vd Hx), (valid_get K hp x Vh Hx). cbn [bind]. destruct (IH (set_quantity x (quantity d x + quantity hp x * m) acc) (fun z Hz => I z (or_intror Hz)) (set_quantity_valid K HK _ x _ V Hx)) as (p & E & Vp & Q).
  exists p. split; [exact E|]. split; [exact Vp|]. intros e. rewrite Q, (set_quantity_quantity K HK) by exact V. cbn [existsb]. destruct (Z.eqb_spec e x) as [->|N]; cbn [orb]; [destruct (inb x B); reflexivity|reflexivity].
Qed.
Lemma hyperplane_ok kmin k : valid kmin -> forall B acc, incl B K -> valid acc -> exists p, hyperplane B kmin k acc = Ok p /\ valid p /\
  forall e, quantity p e = if inb e B then quantity kmin e - k else quantity acc e.
Proof.
  intros Vd. induction B as [|x B IH]; intros acc I V; cbn [hyperplane]; [exists acc; split; [reflexivity|]; split; [exact V|reflexivity]|].
  assert (Hx : In x K) by (apply I; left; reflexivity). rewrite (valid_get K kmin x Vd Hx). cbn [bind]. destruct (IH (set_quantity x (quantity kmin x - k) acc) (fun z Hz => I z (or_intror Hz)) (set_quantity_valid K HK _ x _ V Hx)) as (p & E & Vp & Q).
  exists p. split; [exact E|]. split; [exact Vp|]. intros e. rewrite Q, (set_quantity_quantity K HK) by exact V. cbn [existsb]. destruct (Z.eqb_spec e x) as [->|N]; cbn [orb]; [destruct (inb x B); reflexivity|reflexivity].
Qed.
Lemma half_way_ok plane : valid plane -> forall B acc, incl B K -> NoDup B -> valid acc -> exists p, half_way B plane acc = Ok p /\ valid p /\
  forall e, quantity p e = if inb e B then Z.quot (quantity plane e - quantity acc e) 2 else quantity acc e.
Proof.
  intros Vd. induction B as [|x B IH]; intros acc I N V; cbn [half_way]; [exists acc; split; [reflexivity|]; split; [exact V|reflexivity]|]. inversion N as [|? ? Nx N']; subst.
  assert (Hx : In x K) by (apply I; left; reflexivity). rewrite (valid_get K plane x Vd Hx), (valid_get K acc x V Hx). cbn [bind]. destruct (IH (set_quantity x (Z.quot (quantity plane x - quantity acc x) 2) acc) (fun z Hz => I z (or_intror Hz)) N' (set_quantity_valid K HK _ x _ V Hx)) as (p & E & Vp & Q).
  exists p. split; [exact E|]. split; [exact Vp|]. intros e. rewrite Q, (set_quantity_quantity K HK) by exact V. cbn [existsb]. destruct (Z.eqb_spec e x) as [->|Ne]; cbn [orb]; [|reflexivity]. destruct (inb x B) eqn:X; [apply inb_in in X; contradiction|reflexivity].
Qed.

Section Search.
Context (B : list Z) (IB : incl B K) (NB : NoDup B).

Lemma select_ok unsat knees sat isSat mult kmin hp best : wf unsat -> wf knees -> wf sat -> get_next knees = Ok hp -> get_next sat = Ok best -> (isSat = false -> valid kmin) ->
  exists c, select B unsat knees sat isSat mult kmin = Ok c /\ valid (ch_point c) /\ valid (ch_kmin c) /\
   ((isSat = false /\ ch_found c = false /\ ch_kmin c = kmin /\ reached sat (ch_point c) /\ (forall e, inb e B = false -> quantity (ch_point c) e = quantity kmin e)) \/
    (ch_kmin c = hp /\ (forall e, quantity (ch_point c) e = if inb e B then quantity hp e + Z.quot (sd_size best - sd_size hp) 2 else quantity hp e) /\
     (ch_found c = true <-> reached sat (ch_point c) \/ covers unsat (ch_point c)))).
Proof using HK IB NB.
  intros Wu Wk Ws Eh Eb Vm. destruct (get_next_in knees hp Wk Eh) as [Hh _]. destruct (get_next_in sat best Ws Eb) as [Hb _]. assert (Vh := wf_valid K knees hp Wk Hh). assert (Vb := wf_valid K sat best Ws Hb).
  unfold select. rewrite Eh, Eb. cbn [bind].
  assert (Late : exists c, (let kmin' := hp in let k := sd_size kmin' - sd_size best in do plane <- hyperplane B kmin' k best; do step <- half_way B plane hp; do p <- create_point B kmin' step 1 kmin'; do insat <- sat_contains p sat; do out <- (if insat then Ok true else unsat_contains p unsat); Ok (mkChoice p out 1 kmin')) = Ok c /\ valid (ch_point c) /\ valid (ch_kmin c) /\
    (ch_kmin c = hp /\ (forall e, quantity (ch_point c) e = if inb e B then quantity hp e + Z.quot (sd_size best - sd_size hp) 2 else quantity hp e) /\ (ch_found c = true <-> reached sat (ch_point c) \/ covers unsat (ch_point c)))).
  { cbn zeta. destruct (hyperplane_ok hp (sd_size hp - sd_size best) Vh B best IB Vb) as (pl & -> & Vpl & Qpl). cbn [bind]. destruct (half_way_ok pl Vpl B hp IB NB Vh) as (st & -> & Vst & Qst). cbn [bind].
    destruct (create_point_ok hp st 1 Vh Vst B hp IB Vh) as (p & -> & Vp & Qp). cbn [bind]. destruct (sat_contains_ok K p sat Vp Ws) as (b & -> & Hbs). cbn [bind]. destruct (unsat_contains_ok K p unsat Vp Wu) as (b2 & Eb2 & Hb2).
    assert (Q : forall e, quantity p e = if inb e B then quantity hp e + Z.quot (sd_size best - sd_size hp) 2 else quantity hp e).
    { intros e. rewrite Qp. destruct (inb e B) eqn:X; [|reflexivity]. rewrite Qst, X, Qpl, X. replace (quantity hp e - (sd_size hp - sd_size best) - quantity hp e) with (sd_size best - sd_size hp) by lia. lia. }
    destruct b; cbn [bind]; [|rewrite Eb2; cbn [bind]]; eexists; (split; [reflexivity|]); cbn [ch_point ch_kmin ch_found]; (split; [exact Vp|]); (split; [exact Vh|]); (split; [reflexivity|]); (split; [exact Q|]).
    - split; [intros _; left; apply Hbs; reflexivity|reflexivity].
    - split; [intros ->; right; apply Hb2; reflexivity|]. intros [R|C]; [apply Hbs in R; discriminate|apply Hb2, C]. }
  destruct isSat; cbn [bind]; [destruct Late as (c & E & V1 & V2 & R); exists c; split; [exact E|]; split; [exact V1|]; split; [exact V2|]; right; exact R|].
  specialize (Vm eq_refl). destruct (create_point_ok kmin hp (mult * 2) Vm Vh B kmin IB Vm) as (p & -> & Vp & Qp). cbn [bind]. destruct (sat_contains_ok K p sat Vp Ws) as (b & -> & Hbs). cbn [bind]. destruct b.
  - eexists. split; [reflexivity|]. cbn [ch_point ch_kmin ch_found]. split; [exact Vp|]. split; [exact Vm|]. left. split; [reflexivity|]. split; [reflexivity|]. split; [reflexivity|]. split; [apply Hbs; reflexivity|]. intros e X. rewrite Qp, X. reflexivity.
  - destruct Late as (c & E & V1 & V2 & R). exists c. split; [exact E|]. split; [exact V1|]. split; [exact V2|]. right. exact R.
Qed.

(** ** The points known to be infeasible *)
Record known (k0 : sd) (ps : list sd) (u k : sds) : Prop := {
  known_u : wf u; known_a : antichain u; known_k : wf k; known_p : forall p, In p ps -> valid p;
  known_c : forall v, covers u v <-> exists p, In p ps /\ below v p;
  known_r : forall v, reaches k v <-> above v k0 /\ forall p, In p ps -> ~ below v p }.
Lemma known_add k0 ps u k p : known k0 ps u k -> valid p -> exists u' k', add_point p u k = Ok (u', k') /\ known k0 (p :: ps) u' k'.
Proof.
  intros [A1 A2 A3 A4 A5 A6] V. destruct (add_point_ok K HK p u k V A1 A2 A3) as (u' & k' & E & W1 & W2 & W3 & C & R).
  { intros v x Rv Hx Bv. apply A6 in Rv. destruct (proj1 (A5 v) (ex_intro _ x (conj Hx Bv))) as (q & Hq & Bq). exact (proj2 Rv q Hq Bq). }
  exists u', k'. split; [exact E|]. constructor; auto.
  - intros q [<-|Hq]; auto.
  - intros v. rewrite C, A5. split; [intros [(q & Hq & Bq)|Bp]; [exists q; split; [right; exact Hq|exact Bq]|exists p; split; [left; reflexivity|exact Bp]]|]. intros (q & [<-|Hq] & Bq); [right; exact Bq|left; exists q; auto].
  - intros v. rewrite R, A6. split; [intros [[X Y] Z]; split; [exact X|]; intros q [<-|Hq]; auto|]. intros [X Y]. split; [split; [exact X|]|]; intros; apply Y; [right; assumption|left; reflexivity].
Qed.
Lemma known_start init : valid init -> exists k, add_sd (set_all 0 (get_edges init) init) sds_empty = Ok k /\ known (shape (fun _ => 0) init) [] sds_empty k /\ flat k = [shape (fun _ => 0) init].
Proof.
  intros V. rewrite (set_all_shape 0 init V). set (d := shape (fun _ => 0) init). exists (mkSDS [(sd_size d, [d])] (raise_pmax d (ss_pmax sds_empty))). assert (E : add_sd d sds_empty = Ok (mkSDS [(sd_size d, [d])] (raise_pmax d (ss_pmax sds_empty)))) by reflexivity.
  split; [exact E|]. destruct (shape_ok (fun _ => 0) init V) as (Vd & _ & _). fold d in Vd. destruct (add_sd_ok K d sds_empty Vd (wf_empty K)) as (s & E' & W & _). rewrite E in E'. injection E' as <-. split; [|reflexivity].
  constructor; [apply wf_empty|intros ? ? []|exact W|intros ? []|intros v; split; [intros (x & [] & _)|intros (x & [] & _)]|].
  intros v. split; [intros (x & [<-|[]] & A); split; [exact A|intros ? []]|]. intros [A _]. exists d. split; [left; reflexivity|exact A].
Qed.
Lemma known_cut k0 ps u k crit d : known k0 ps u k -> valid d -> exists u' k' ps', add_cut B crit d u k = Ok (u', k') /\ known k0 ps' u' k' /\
  (ps' = ps /\ k' = k \/ crit <> [] /\ ps' = raise_non_critical crit B d :: ps /\ add_point (raise_non_critical crit B d) u k = Ok (u', k')).
Proof using HK IB.
  intros N V. unfold add_cut. destruct crit as [|x crit]; [exists u, k, ps; auto|]. destruct (existsb _ B); [|exists u, k, ps; auto].
  destruct (known_add k0 ps u k (raise_non_critical (x :: crit) B d) N (proj1 (raise_ok K HK (x :: crit) B d IB V))) as (u' & k' & E & N'). exists u', k', (raise_non_critical (x :: crit) B d :: ps). split; [exact E|]. split; [exact N'|]. right. split; [discriminate|]. auto.
Qed.

(** ** Growing the critical buffers *)
Lemma put_bound_of e v : forall m z, bound_of (put_bound e v m) z = if z =? e then v else bound_of m z.
Proof.
  induction m as [|[e' v'] m IH]; intros z; cbn [put_bound bound_of]; [destruct (z =? e); reflexivity|]. destruct (Z.eqb_spec e e') as [->|N]; cbn [bound_of]; [destruct (Z.eqb_spec z e'); reflexivity|]. destruct (Z.eqb_spec z e') as [->|M]; [destruct (Z.eqb_spec e' e); [congruence|reflexivity]|apply IH].
Qed.
Lemma grow_ok bounded count : (forall e, In e K -> (is_buffer bounded count e = true <-> In e B)) -> forall es inc d, incl es K -> valid d -> (forall e, In e K -> 1 <= bound_of inc e) ->
  exists inc' d', grow bounded count es inc d = Ok (inc', d') /\ valid d' /\ (forall e, In e K -> 1 <= bound_of inc' e) /\ below d d' /\
   (forall e, In e K -> ~ In e B -> quantity d' e = quantity d e) /\ (forall e, In e es -> In e B -> quantity d e < quantity d' e).
Proof.
  intros HB. induction es as [|x es IH]; intros inc d I V N; cbn [grow].
  - exists inc, d. split; [reflexivity|]. split; [exact V|]. split; [exact N|]. split; [apply below_refl|]. split; [reflexivity|intros ? []].
  - assert (Hx : In x K) by (apply I; left; reflexivity). assert (I' : incl es K) by (intros z Hz; apply I; right; exact Hz). specialize (HB x Hx) as HBx. destruct (is_buffer bounded count x).
    + assert (Bx : In x B) by (apply HBx; reflexivity). rewrite (valid_get K d x V Hx). cbn [bind]. pose proof (N x Hx) as N1.
      destruct (IH (put_bound x (bound_of inc x * 2) inc) (set_quantity x (quantity d x + bound_of inc x * 2) d) I' (set_quantity_valid K HK d x _ V Hx)) as (inc' & d' & E & V' & N' & L & O & G).
      { intros e He. rewrite put_bound_of. destruct (e =? x); [lia|auto]. }
      exists inc', d'. split; [exact E|]. split; [exact V'|]. split; [exact N'|].
      assert (Lx : below d d'). { intros e He. specialize (L e He). rewrite (set_quantity_quantity K HK) in L by exact V. destruct (Z.eqb_spec e x) as [Ex|Ex]; [rewrite Ex in *|]; lia. }
      split; [exact Lx|]. split.
      * intros e He Ne. rewrite (O e He Ne), (set_quantity_quantity K HK) by exact V. destruct (Z.eqb_spec e x) as [->|]; [contradiction|reflexivity].
      * intros e [<-|He] Be.
        { specialize (L x Hx). rewrite (set_quantity_quantity K HK), Z.eqb_refl in L by exact V. lia. }
        { specialize (G e He Be). rewrite (set_quantity_quantity K HK) in G by exact V. destruct (Z.eqb_spec e x) as [Ex|Ex]; [rewrite Ex in *|]; lia. }
    + destruct (IH inc d I' V N) as (inc' & d' & E & V' & N' & L & O & G). exists inc', d'. split; [exact E|]. split; [exact V'|]. split; [exact N'|]. split; [exact L|]. split; [exact O|]. intros e [<-|He] Be; [apply HBx in Be; discriminate|auto].
Qed.

(** ** The knees raised by one *)
Lemma raised_ok k init : valid k -> like k init -> exists d, raised B k = Ok d /\ valid d /\ like d init /\
  forall e, quantity d e = if inb e B && (quantity k e <? int_max) then quantity k e + 1 else quantity k e.
Proof using HK IB NB.
  intros V L. unfold raised.
  assert (R : forall l d, incl l K -> NoDup l -> valid d -> like d init -> (forall e, In e l -> quantity d e = quantity k e) -> exists d', fold_left (fun acc e => do d <- acc; do q <- get_quantity d e; if q <? int_max then do q' <- get_quantity k e; Ok (set_quantity e (q' + 1) d) else Ok d) l (Ok d) = Ok d' /\ valid d' /\ like d' init /\
     forall e, quantity d' e = if inb e l && (quantity k e <? int_max) then quantity k e + 1 else quantity d e).
  { induction l as [|x l IH]; intros d I N Vd Ld S; cbn [fold_left]; [exists d; auto|]. inversion N as [|? ? Nx N']; subst. assert (Hx : In x K) by (apply I; left; reflexivity). assert (I' : incl l K) by (intros z Hz; apply I; right; exact Hz).
    cbn [bind]. rewrite (valid_get K d x Vd Hx). cbn [bind]. rewrite (S x (or_introl eq_refl)). destruct (Z.ltb_spec (quantity k x) int_max) as [Lx|Lx].
    - rewrite (valid_get K k x V Hx). cbn [bind]. destruct (IH (set_quantity x (quantity k x + 1) d) I' N' (set_quantity_valid K HK d x _ Vd Hx) (like_set K HK d init x _ Ld Vd Hx)) as (d' & E & V' & L' & Q).
      { intros e He. rewrite (set_quantity_quantity K HK) by exact Vd. destruct (Z.eqb_spec e x) as [->|]; [contradiction|apply S; right; exact He]. }
      exists d'. split; [exact E|]. split; [exact V'|]. split; [exact L'|]. intros e. rewrite Q, (set_quantity_quantity K HK) by exact Vd. cbn [existsb]. destruct (Z.eqb_spec e x) as [->|]; cbn [orb]; [|reflexivity]. destruct (Z.ltb_spec (quantity k x) int_max); [|lia]. cbn [andb]. destruct (inb x l); reflexivity.
    - destruct (IH d I' N' Vd Ld (fun e He => S e (or_intror He))) as (d' & E & V' & L' & Q). exists d'. split; [exact E|]. split; [exact V'|]. split; [exact L'|]. intros e. rewrite Q. cbn [existsb]. destruct (Z.eqb_spec e x) as [->|]; cbn [orb]; [|reflexivity]. destruct (Z.ltb_spec (quantity k x) int_max); [lia|]. rewrite !andb_false_r. reflexivity. }
  destruct (R B k IB NB V L (fun _ _ => eq_refl)) as (d & E & Vd & Ld & Q). exists d. auto.
Qed.
End Search.
End Over.
