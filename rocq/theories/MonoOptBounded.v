(** The answer of the monotonic optimisation when some edges hold no storage. *)
From Coq Require Import QArith Lia Sorted.
From Verif Require Import Base Graph Storage StorageSpec StorageProofs StorageSets Dse MonoOpt MonoOptSpec MonoOptProofs MonoOptSearch MonoOptMain.
Open Scope Z_scope.

Section Over.
Context (K : list Z) (HK : channel_list K).
Notation valid := (valid K). Notation same := (same K). Notation below := (below K). Notation above := (strictly_above K). Notation wf := (wf K).
Notation covers := (covers K). Notation reaches := (reaches K). Notation reached := (reached K). Notation antichain := (antichain K).
Notation inb e l := (existsb (Z.eqb e) l).
Context (init : sd) (Vi : valid init).
Notation known := (known K (shape K (fun _ => 0) init)).
Notation temp e := (set_quantity e (quantity init e - 1) (shape K (fun _ => int_max) init)).
Notation lowered := (lowered K init).
Context (thr : sd -> Q) (critical : sd -> list Z) (bounded : bool) (target : Q).
Notation count := (Z.of_nat (length K)).
Notation B := (buffer_edges bounded K).
Context (Cr : forall d, incl (critical d) K) (Pos : (0 < target)%Q) (Ext : forall a b, valid a -> valid b -> same a b -> (thr a == thr b)%Q).
Context (e0 : Z) (K0 : In e0 K) (N0 : ~ In e0 B) (Off : storage_on B K init) (On : starts_from B init) (Small : sd_size init < int_max).
Notation off d := (storage_on B K d).

Lemma init_range : forall e, In e K -> 0 <= quantity init e < int_max.
Proof using Off On.
  intros e He. destruct (inb e B) eqn:X; [apply inb_in in X; specialize (On e X); lia|]. rewrite (Off e He); [unfold int_max; lia|]. intros I. apply inb_in in I. congruence.
Qed.
(** The knee just below the initial distribution. *)
Definition low : sd := shape K (fun e => Z.max 0 (quantity init e - 1)) init.
Lemma low_ok : valid low /\ (forall e, In e K -> quantity low e = Z.max 0 (quantity init e - 1)).
Proof using HK Vi. destruct (shape_ok K HK (fun e => Z.max 0 (quantity init e - 1)) init Vi) as (A & _ & C). auto. Qed.
Lemma low_small : sd_size low <= sd_size init.
Proof using HK Vi Off On. apply (below_size K); [apply low_ok|exact Vi|]. intros e He. rewrite (proj2 low_ok e He). pose proof (init_range e He). lia. Qed.

Record state (ps : list sd) (u k : sds) : Prop := {
  st_known : known ps u k; st_low : lowered k; st_temp : forall e, In e K -> In (temp e) ps;
  st_ps : forall p, In p ps -> (exists e, In e K /\ p = temp e) \/ quantity p e0 <= 0 }.
Lemma state_add ps u k p : state ps u k -> valid p -> quantity p e0 <= 0 -> exists u' k', add_point p u k = Ok (u', k') /\ state (p :: ps) u' k'.
Proof using HK K0 N0.
  intros [Kn J T P] V Z. destruct (known_add K HK _ ps u k p Kn V) as (u' & k' & E & Kn'). exists u', k'. split; [exact E|]. constructor; [exact Kn'| |intros e He; right; auto|intros q [<-|Hq]; auto].
  destruct (add_point_in K HK p u k u' k' V (known_u _ _ _ _ _ Kn) (known_a _ _ _ _ _ Kn) (known_k _ _ _ _ _ Kn) E) as [[_ ->]|M]; [exact J|]. intros x Hx. destruct (M x Hx) as [[Hk _]|(kk & e & Hk & Bk & He & -> & Min)]; [apply J, Hk|].
  destruct (J kk Hk) as (L & P0 & S). assert (Vk := wf_valid K k kk (known_k _ _ _ _ _ Kn) Hk). assert (Z0 : quantity kk e0 = quantity p e0) by (specialize (P0 e0 K0); specialize (Bk e0 K0); lia).
  assert (Sx : same (set_quantity e0 (quantity p e0) kk) (set_quantity e (quantity p e) kk)).
  { apply Min; auto. intros z Hz. rewrite !(set_quantity_quantity K HK) by exact Vk. specialize (Bk z Hz). destruct (Z.eqb_spec z e0) as [X|X], (Z.eqb_spec z e) as [Y|Y]; subst; try lia. }
  assert (Sk : forall z, In z K -> quantity (set_quantity e (quantity p e) kk) z = quantity kk z). { intros z Hz. rewrite <- (Sx z Hz), (set_quantity_quantity K HK) by exact Vk. destruct (Z.eqb_spec z e0) as [->|]; [symmetry; exact Z0|reflexivity]. }
  split; [apply (like_set K HK); auto|]. split; [intros z Hz; rewrite (Sk z Hz); apply P0, Hz|]. destruct S as [S|(z & Hz & Ez)]; [left; intros z Hz; rewrite (Sk z Hz); apply S, Hz|right; exists z; split; [exact Hz|rewrite (Sk z Hz); exact Ez]].
Qed.
Lemma off_zero d : off d -> quantity d e0 <= 0. Proof using K0 N0. intros O. rewrite (O e0 K0 N0). lia. Qed.
Lemma state_cut ps u k crit d : state ps u k -> valid d -> quantity d e0 <= 0 -> exists u' k' ps', add_cut B crit d u k = Ok (u', k') /\ state ps' u' k' /\ incl ps ps'.
Proof using HK K0 N0.
  intros St V Z. unfold add_cut. destruct crit as [|x crit]; [exists u, k, ps; split; [reflexivity|]; split; [exact St|apply incl_refl]|]. destruct (existsb _ B); [|exists u, k, ps; split; [reflexivity|]; split; [exact St|apply incl_refl]].
  destruct (raise_ok K HK (x :: crit) B d (buffers_in K bounded) V) as [Vr Q]. destruct (state_add ps u k (raise_non_critical (x :: crit) B d) St Vr) as (u' & k' & E & St').
  { rewrite Q. destruct (inb e0 B) eqn:X; [apply inb_in in X; contradiction|exact Z]. }
  exists u', k', (raise_non_critical (x :: crit) B d :: ps). split; [exact E|]. split; [exact St'|intros q Hq; right; exact Hq].
Qed.

(** The smallest knee is the one just below the initial distribution. *)
Lemma low_knee ps u k : state ps u k -> exists hp, In hp (flat k) /\ same hp low.
Proof using HK Vi K0 Off On.
  intros [Kn J T P]. set (v := shape K (fun e => Z.max 0 (quantity init e - 1) + 1) init). destruct (shape_ok K HK (fun e => Z.max 0 (quantity init e - 1) + 1) init Vi) as (Vv & _ & Qv). fold v in Vv, Qv.
  assert (R : reaches k v).
  { apply (known_r _ _ _ _ _ Kn). split.
    - intros e He. destruct (shape_ok K HK (fun _ => 0) init Vi) as (_ & _ & Q). rewrite (Q e He), (Qv e He). lia.
    - intros p Hp Bp. destruct (P p Hp) as [(e & He & ->)|Z]; [|specialize (Bp e0 K0); rewrite (Qv e0 K0) in Bp; lia]. destruct (temp_ok K HK init Vi e He) as [_ Qt]. specialize (Bp e He). rewrite (Qv e He), (Qt e He), Z.eqb_refl in Bp. lia. }
  destruct R as (hp & Hh & Ah). exists hp. split; [exact Hh|]. destruct (J hp Hh) as (_ & _ & [S|(e & He & Ee)]).
  - intros e He. rewrite (S e He), (proj2 low_ok e He). reflexivity.
  - exfalso. specialize (Ah e He). rewrite (Qv e He), Ee in Ah. pose proof (init_range e He). lia.
Qed.
Lemma next_knee ps u k : state ps u k -> exists hp, get_next k = Ok hp /\ valid hp /\ same hp low.
Proof using HK Vi K0 Off On Small.
  intros St. destruct (low_knee ps u k St) as (lo & Hl & Sl). destruct St as [Kn J T P]. assert (Wk := known_k _ _ _ _ _ Kn). destruct (get_next_ok K k Wk) as [_ G]. destruct G as (hp & E & Hh & M); [intros Z; rewrite Z in Hl; destruct Hl|]. exists hp. split; [exact E|]. assert (Vh := wf_valid K k hp Wk Hh). split; [exact Vh|].
  destruct (J hp Hh) as (_ & P0 & [S|(e & He & Ee)]); [intros e He; rewrite (S e He), (proj2 low_ok e He); reflexivity|].
  exfalso. assert (Big : int_max <= sd_size hp) by (apply (big_size K hp int_max Vh P0); exists e; split; [exact He|lia]). specialize (M lo Hl). pose proof (same_size K lo low (wf_valid K k lo Wk Hl) (proj1 low_ok) Sl). pose proof low_small. lia.
Qed.

(** ** The first feasible distribution *)
Definition fails : Prop := ~ (target <= thr init)%Q.
Definition covered (ps : list sd) (d : sd) : Prop := exists p, In p ps /\ below d p.
Lemma bounded_first : forall fuel d inc current ps u k d' u' k', state ps u k -> valid d -> off d -> below init d -> (thr d <= current)%Q -> ((target <= current)%Q -> (target <= thr d)%Q) -> (forall e, In e K -> 1 <= bound_of inc e) -> (d = init \/ covered ps init) ->
  first_feasible thr critical bounded count B target fuel d inc current u k = Ok (d', u', k') -> exists ps', state ps' u' k' /\ valid d' /\ off d' /\ (target <= thr d')%Q /\ below init d' /\ (fails -> covered ps' init) /\ (~ fails -> d = init -> (target <= current)%Q -> d' = init).
Proof using HK K0 N0 Cr Pos Ext.
  induction fuel as [|fuel IH]; intros d inc current ps u k d' u' k' St Vd Od Ld C1 C2 Hi Hd E; cbn [first_feasible] in E; destruct (Qle_bool target current) eqn:T; cbn [negb] in E; try discriminate;
    [apply Qle_bool_iff in T; injection E as <- <- <-; exists ps; split; [exact St|]; split; [exact Vd|]; split; [exact Od|]; split; [auto|]; split; [exact Ld|]; split; [intros F; destruct Hd as [->|H]; [destruct F; auto|exact H]|auto] ..|].
  destruct (state_add ps u k d St Vd (off_zero d Od)) as (u1 & k1 & E1 & St1). rewrite E1 in E. cbn [bind fst snd] in E. destruct (state_cut (d :: ps) u1 k1 (critical d) d St1 Vd (off_zero d Od)) as (u2 & k2 & ps2 & E2 & St2 & I2). rewrite E2 in E. cbn [bind fst snd] in E.
  destruct (grow_ok K HK B bounded count (is_buffer_in K bounded) (critical d) inc d (Cr d) Vd Hi) as (inc' & g & Eg & Vg & Hi' & Lg & Og & _). rewrite Eg in E. cbn [bind fst snd] in E.
  apply (IH _ _ _ ps2) in E; [| exact St2|apply set_thr_valid, Vg| | | | |exact Hi'|].
  - destruct E as (ps' & A1 & A2 & A3 & A4 & A5 & A6 & _). exists ps'. split; [exact A1|]. split; [exact A2|]. split; [exact A3|]. split; [exact A4|]. split; [exact A5|]. split; [exact A6|]. intros _ _ H. apply Qle_bool_iff in H. congruence.
  - intros e He Ne. change (quantity (set_thr ?t g) e) with (quantity g e). rewrite (Og e He Ne). apply Od; auto.
  - intros e He. change (quantity (set_thr ?t g) e) with (quantity g e). specialize (Ld e He). specialize (Lg e He). lia.
  - rewrite (set_thr_thr K thr Ext) by exact Vg. apply (clamp_ok target Pos).
  - intros H. rewrite (set_thr_thr K thr Ext) by exact Vg. apply (clamp_ok target Pos), H.
  - right. destruct Hd as [->|(p & Hp & Bp)]; [exists init; split; [apply I2; left; reflexivity|apply below_refl]|exists p; split; [apply I2; right; exact Hp|exact Bp]].
Qed.

(** ** The further points *)
Definition feasible_set (s : sds) : Prop := wf s /\ flat s <> [] /\ forall x, In x (flat s) -> off x /\ (fails -> sd_size init < sd_size x).
Definition good (c : choice) : Prop := valid (ch_point c) /\ valid (ch_kmin c) /\ off (ch_kmin c) /\ (ch_found c = false -> off (ch_point c) /\ (fails -> sd_size init < sd_size (ch_point c))).
Lemma low_off hp : same hp low -> off hp.
Proof using HK Vi Off. intros S e He Ne. rewrite (S e He), (proj2 low_ok e He), (Off e He Ne). reflexivity. Qed.
Lemma select_good ps u k s isSat mult kmin : state ps u k -> (fails -> covered ps init) -> feasible_set s -> (isSat = false -> valid kmin /\ off kmin) -> exists c, select B u k s isSat mult kmin = Ok c /\ good c.
Proof using HK Vi K0 Off On Small.
  intros St Fc (Ws & Ns & Fs) Vm. destruct (next_knee ps u k St) as (hp & Eh & Vh & Sh). destruct (get_next_ok K s Ws) as [_ G]. destruct (G Ns) as (best & Eb & Ib & _). assert (Kn := st_known _ _ _ St).
  destruct (select_ok K HK B (buffers_in K bounded) (buffers_nodup K HK bounded) u k s isSat mult kmin hp best (known_u _ _ _ _ _ Kn) (known_k _ _ _ _ _ Kn) Ws Eh Eb (fun H => proj1 (Vm H))) as (c & Ec & Vp & Vk & Cases). exists c. split; [exact Ec|]. split; [exact Vp|]. split; [exact Vk|].
  destruct Cases as [(Hs & _ & Ek & (x & Hx & Bx) & Q)|(Ek & Q & Fnd)]; rewrite Ek.
  - destruct (Vm Hs) as [Vkm Ok]. split; [exact Ok|]. intros _. split; [intros e He Ne; rewrite Q, (Ok e He Ne); [reflexivity|]; destruct (inb e B) eqn:X; [apply inb_in in X; contradiction|reflexivity]|].
    intros F. pose proof (proj2 (Fs x Hx) F). pose proof (below_size K x (ch_point c) (wf_valid K s x Ws Hx) Vp Bx). lia.
  - split; [apply low_off, Sh|]. intros Nf. assert (Nc : ~ covers u (ch_point c)) by (intros C; rewrite (proj2 Fnd (or_intror C)) in Nf; discriminate).
    split; [intros e He Ne; rewrite Q; destruct (inb e B) eqn:X; [apply inb_in in X; contradiction|exact (low_off hp Sh e He Ne)]|].
    intros F. set (j := Z.quot (sd_size best - sd_size hp) 2) in *. assert (Ci : covers u init) by (apply (known_c _ _ _ _ _ Kn), Fc, F).
    assert (Nle : ~ below (ch_point c) init) by (intros L; apply Nc; destruct Ci as (y & Hy & By); exists y; split; [exact Hy|exact (below_trans K _ _ _ L By)]).
    assert (Qp : forall e, In e K -> quantity (ch_point c) e = if inb e B then quantity init e - 1 + j else quantity init e).
    { intros e He. rewrite Q, (Sh e He), (proj2 low_ok e He). destruct (inb e B) eqn:X; [apply inb_in in X; specialize (On e X); lia|]. rewrite (Off e He); [lia|]. intros I. apply inb_in in I. congruence. }
    apply (below_size_lt K); [exact Vi|exact Vp| |].
    + intros e He. rewrite (Qp e He). destruct (inb e B); [|lia]. destruct (Z.le_gt_cases j 1) as [L|L]; [|lia]. destruct Nle. intros z Hz. rewrite (Qp z Hz). destruct (inb z B); lia.
    + destruct (not_below_some K _ _ Nle) as (e & He & L). exists e. auto.
Qed.
Lemma bounded_improve : forall fuel c ps u k s k' s', state ps u k -> (fails -> covered ps init) -> feasible_set s -> good c ->
  improve thr critical B target fuel c u k s = Ok (k', s') -> exists u' ps', state ps' u' k' /\ feasible_set s' /\ (forall v, reached s v -> reached s' v).
Proof using HK Vi K0 N0 Off On Small Cr.
  induction fuel as [|fuel IH]; intros c ps u k s k' s' St Fc Fs Gc E; cbn [improve] in E; destruct (ch_found c) eqn:F; try discriminate; [injection E as <- <-; exists u, ps; auto ..|].
  cbn zeta in E. set (d := set_thr (clamp (thr (ch_point c))) (ch_point c)) in *. destruct Gc as (Vp & Vm & Om & G). destruct (G F) as [Op Sp]. assert (Vd : valid d) by (apply set_thr_valid, Vp). assert (Od : off d) by exact Op.
  assert (S : exists u1 k1 s1 ps1, (if Qle_bool target (clamp (thr (ch_point c))) then do s0 <- add_to_sat d s; Ok (u, k, s0) else do r1 <- add_point d u k; do r2 <- add_cut B (critical (ch_point c)) d (fst r1) (snd r1); Ok (fst r2, snd r2, s)) = Ok (u1, k1, s1) /\ state ps1 u1 k1 /\ (fails -> covered ps1 init) /\ feasible_set s1 /\ (forall v, reached s v -> reached s1 v)).
  { destruct (Qle_bool target (clamp (thr (ch_point c)))).
    - destruct Fs as (Ws & Ns & Fs). destruct (add_to_sat_ok K d s Vd Ws) as (s1 & -> & W1 & R1 & I1). cbn [bind]. exists u, k, s1, ps. split; [reflexivity|]. split; [exact St|]. split; [exact Fc|]. split; [|intros v R; apply R1; left; exact R]. split; [exact W1|]. split.
      + intros Z. destruct (proj2 (R1 d) (or_intror (below_refl K d))) as (x & Hx & _). rewrite Z in Hx. destruct Hx.
      + intros x Hx. destruct (I1 x Hx) as [H| ->]; [auto|]. split; [exact Od|]. intros Fa. change (sd_size d) with (sd_size (ch_point c)). auto.
    - destruct (state_add ps u k d St Vd (off_zero d Od)) as (u1 & k1 & -> & St1). cbn [bind fst snd]. destruct (state_cut (d :: ps) u1 k1 (critical (ch_point c)) d St1 Vd (off_zero d Od)) as (u2 & k2 & ps2 & -> & St2 & I2). cbn [bind fst snd]. exists u2, k2, s, ps2. split; [reflexivity|]. split; [exact St2|]. split; [|auto]. intros Fa. destruct (Fc Fa) as (p & Hp & Bp). exists p. split; [apply I2; right; exact Hp|exact Bp]. }
  destruct S as (u1 & k1 & s1 & ps1 & Es & St1 & Fc1 & Fs1 & R1). rewrite Es in E. cbn [bind] in E. destruct (select_good ps1 u1 k1 s1 (Qle_bool target (clamp (thr (ch_point c)))) (ch_mult c) (ch_kmin c) St1 Fc1 Fs1 (fun _ => conj Vm Om)) as (c' & Ec & Gc'). rewrite Ec in E. cbn [bind] in E.
  destruct (IH c' ps1 u1 k1 s1 k' s' St1 Fc1 Fs1 Gc' E) as (u' & ps' & A1 & A2 & A3). exists u', ps'. auto.
Qed.

Lemma bounded_search fuel k s : base_search fuel thr critical bounded target K init = Ok (k, s) -> (exists u ps, state ps u k) /\ feasible_set s /\ (~ fails -> reached s init).
Proof using HK Vi K0 N0 Off On Small Cr Pos Ext.
  unfold base_search. intros E. destruct (search_start K HK init Vi init_range) as (k0 & u0 & k1 & ps & E0 & E1 & Kn & J & P). rewrite E0 in E. cbn [bind] in E. rewrite E1 in E. cbn [bind fst snd] in E.
  destruct (first_feasible thr critical bounded count B target fuel init _ (thr init) u0 k1) as [[[d u] k2]| | |] eqn:E2; cbn [bind] in E; try discriminate.
  assert (St : state ps u0 k1) by (constructor; [exact Kn|exact J|intros e He; apply P; exists e; auto|intros p Hp; left; apply P, Hp]).
  destruct (bounded_first fuel init _ _ ps u0 k1 d u k2 St Vi Off (below_refl K init) (Qle_refl _) (fun H => H) (first_bounds K init Vi) (or_introl eq_refl) E2) as (ps2 & St2 & Vd & Od & Fd & Ld & Fc & Same).
  destruct (add_sd_mem K d sds_empty Vd (wf_empty K)) as (s0 & E3 & Ws & Is & Ms). rewrite E3 in E. cbn [bind] in E.
  assert (Fs : feasible_set s0).
  { split; [exact Ws|]. split; [intros Z; destruct (proj2 (Ms d) (or_intror (same_refl K d))) as (y & Hy & _); rewrite Z in Hy; destruct Hy|]. intros x Hx. destruct (Is x Hx) as [[]| ->]. split; [exact Od|]. intros F. apply (below_size_lt K); [exact Vi|exact Vd|exact Ld|]. apply not_below_some. intros L. apply F. rewrite (Ext init d Vi Vd (below_antisym K _ _ Ld L)). exact Fd. }
  destruct (select_good ps2 u k2 s0 true 1 sd_default St2 Fc Fs ltac:(discriminate)) as (c & Ec & Gc). rewrite Ec in E. cbn [bind] in E. destruct (bounded_improve fuel c ps2 u k2 s0 k s St2 Fc Fs Gc E) as (u' & ps' & A1 & A2 & A3). split; [exists u', ps'; exact A1|]. split; [exact A2|].
  intros Nf. apply A3. assert (D : d = init). { apply Same; [exact Nf|reflexivity|]. destruct (Qlt_le_dec (thr init) target) as [L|L]; [|exact L]. destruct Nf. intros H. apply (Qlt_not_le _ _ L H). }
  destruct (proj2 (Ms d) (or_intror (same_refl K d))) as (y & Hy & Sy). exists y. split; [exact Hy|]. rewrite D in Sy. apply same_below, same_sym, Sy.
Qed.

Lemma raised_low k ps u x : state ps u k -> In x (flat k) -> exists d, raised B x = Ok d /\ valid d /\ (same x low -> d = init) /\ (~ same x low -> int_max <= sd_size d).
Proof using HK Vi Off On.
  intros [Kn J T P] Hx. destruct (J x Hx) as (L & P0 & S). assert (Vx := wf_valid K k x (known_k _ _ _ _ _ Kn) Hx). destruct (raised_ok K HK B (buffers_in K bounded) (buffers_nodup K HK bounded) x init Vx L) as (d & Ed & Vd & Ld & Qd). exists d. split; [exact Ed|]. split; [exact Vd|]. split.
  - intros Sl. apply (like_same K HK d init Ld Vd Vi). intros e He. rewrite Qd, (Sl e He), (proj2 low_ok e He). pose proof (init_range e He). destruct (inb e B) eqn:X; cbn [andb].
    + apply inb_in in X. specialize (On e X). destruct (Z.ltb_spec (Z.max 0 (quantity init e - 1)) int_max); lia.
    + rewrite (Off e He); [reflexivity|]. intros I. apply inb_in in I. congruence.
  - intros Ns. destruct S as [S|(e & He & Ee)]; [destruct Ns; intros e He; rewrite (S e He), (proj2 low_ok e He); reflexivity|]. apply (big_size K d int_max Vd).
    + intros z Hz. rewrite Qd. specialize (P0 z Hz). destruct (_ && _); lia.
    + exists e. split; [exact He|]. rewrite Qd, Ee. destruct (_ && _); lia.
Qed.
Lemma augment_low k ps u s best R0 : state ps u k -> get_next s = Ok best -> sd_size best <= int_max -> add_sd init sds_empty = Ok R0 -> forall l acc, incl l (flat k) -> acc = sds_empty \/ acc = R0 ->
  augment B s l acc = Ok (if (sd_size init <? sd_size best) && existsb (fun x => eqb K x low) l then R0 else acc).
Proof using HK Vi Off On.
  intros St Eb Sb E0. assert (E1 : add_sd init R0 = Ok R0).
  { unfold add_sd in E0 |- *. cbn [ss_map sds_empty find_bucket put_bucket] in E0. injection E0 as <-. cbn [ss_map find_bucket]. rewrite Z.eqb_refl. cbn [matches_one]. rewrite (sd_eq_ok K init init Vi Vi). cbn [bind]. destruct (eqb K init init) eqn:X; [reflexivity|]. assert (eqb K init init = true) by (apply eqb_same, same_refl). congruence. }
  induction l as [|x l IH]; intros acc I A; cbn [augment existsb]; [rewrite andb_false_r; reflexivity|]. assert (I' : incl l (flat k)) by (intros z Hz; apply I; right; exact Hz).
  destruct (raised_low k ps u x St (I x (or_introl eq_refl))) as (d & -> & Vd & Sd & Nd). cbn [bind]. rewrite Eb. cbn [bind]. destruct (eqb K x low) eqn:X.
  - apply eqb_same in X. rewrite (Sd X) in *. destruct (Z.ltb_spec (sd_size init) (sd_size best)) as [L|L]; cbn [andb orb].
    + assert (Ea : add_sd init acc = Ok R0) by (destruct A as [-> | ->]; assumption). rewrite Ea. cbn [bind]. rewrite (IH R0 I' (or_intror eq_refl)). cbn [andb]. destruct (existsb _ l); reflexivity.
    + cbn [bind]. rewrite (IH acc I' A). reflexivity.
  - assert (Ns : ~ same x low) by (intros S; apply eqb_same in S; congruence). specialize (Nd Ns). destruct (Z.ltb_spec (sd_size d) (sd_size best)) as [L|L]; [lia|]. cbn [bind orb]. apply (IH acc I' A).
Qed.
Lemma bounded_answer fuel k s best R0 : base_search fuel thr critical bounded target K init = Ok (k, s) -> get_next s = Ok best -> sd_size best <= int_max -> add_sd init sds_empty = Ok R0 ->
  base_optimisation fuel thr critical bounded target K init = Ok (if Qle_bool target (thr init) then sds_empty else R0).
Proof using HK Vi K0 N0 Off On Small Cr Pos Ext.
  intros E Eb Sb E0. destruct (bounded_search fuel k s E) as ((u & ps & St) & (Ws & Ns & Fs) & Re). unfold base_optimisation. rewrite E. cbn [bind fst snd]. rewrite (augment_low k ps u s best R0 St Eb Sb E0 (flat k) sds_empty (incl_refl _) (or_introl eq_refl)). destruct (get_next_in K s best Ws Eb) as [Ib Mb].
  destruct (low_knee ps u k St) as (lo & Hl & Sl). assert (X : existsb (fun x => eqb K x low) (flat k) = true) by (apply existsb_exists; exists lo; split; [exact Hl|apply eqb_same, Sl]). rewrite X, andb_true_r. destruct (Qle_bool target (thr init)) eqn:T.
  - apply Qle_bool_iff in T. destruct (Re (fun F => F T)) as (x & Hx & Bx). specialize (Mb x Hx). pose proof (below_size K x init (wf_valid K s x Ws Hx) Vi Bx). destruct (Z.ltb_spec (sd_size init) (sd_size best)); [lia|reflexivity].
  - assert (F : fails) by (intros H; apply Qle_bool_iff in H; congruence). pose proof (proj2 (Fs best Ib) F). destruct (Z.ltb_spec (sd_size init) (sd_size best)); [reflexivity|lia].
Qed.
Lemma bounded_small fuel k s best : base_search fuel thr critical bounded target K init = Ok (k, s) -> get_next s = Ok best -> (target <= thr init)%Q -> sd_size best <= int_max.
Proof using HK Vi K0 N0 Off On Small Cr Pos Ext.
  intros E Eb T. destruct (bounded_search fuel k s E) as (_ & (Ws & _ & _) & Re). destruct (get_next_in K s best Ws Eb) as [_ Mb]. destruct (Re (fun F => F T)) as (x & Hx & Bx). specialize (Mb x Hx). pose proof (below_size K x init (wf_valid K s x Ws Hx) Vi Bx). lia.
Qed.
Lemma bounded_best fuel k s : base_search fuel thr critical bounded target K init = Ok (k, s) -> exists best, get_next s = Ok best.
Proof using HK Vi K0 N0 Off On Small Cr Pos Ext.
  intros E. destruct (bounded_search fuel k s E) as (_ & (Ws & Ns & _) & _). destruct (get_next_ok K s Ws) as [_ G]. destruct (G Ns) as (best & Eb & _). exists best. exact Eb.
Qed.
End Over.
