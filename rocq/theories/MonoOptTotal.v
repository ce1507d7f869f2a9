(** The monotonic optimisation ends when some edges hold no storage. *)
From Coq Require Import QArith Lia Sorted.
From Verif Require Import Base Graph Storage StorageSpec StorageProofs StorageSets Dse MonoOpt MonoOptSpec MonoOptProofs MonoOptSearch MonoOptMain MonoOptBounded.
Open Scope Z_scope.

Section Over.
Context (K : list Z) (HK : channel_list K).
Notation valid := (valid K). Notation same := (same K). Notation below := (below K). Notation above := (strictly_above K). Notation wf := (wf K).
Notation covers := (covers K). Notation reached := (reached K).
Notation inb e l := (existsb (Z.eqb e) l).
Context (init : sd) (Vi : valid init).
Context (thr : sd -> Q) (critical : sd -> list Z) (bounded : bool) (target : Q).
Notation count := (Z.of_nat (length K)).
Notation B := (buffer_edges bounded K).
Context (Cr : forall d, incl (critical d) K) (Pos : (0 < target)%Q) (Mon : monotone K thr).
Context (e0 : Z) (K0 : In e0 K) (N0 : ~ In e0 B) (Off : storage_on B K init) (On : starts_from B init) (Small : sd_size init < int_max).
Notation off d := (storage_on B K d).
Notation state := (state K init e0). Notation low := (low K init). Notation fails := (fails init thr target). Notation covered := (covered K). Notation good := (good K init thr bounded target). Notation feasible_set := (feasible_set K init thr bounded target).

Lemma mon_ext a b : valid a -> valid b -> same a b -> (thr a == thr b)%Q.
Proof using Mon. intros Va Vb S. apply Qle_antisym; apply Mon; auto; [apply same_below, S|apply same_below, same_sym, S]. Qed.

(** ** The first feasible distribution *)
Section First.
Context (N : Z) (Progress : forall d, valid d -> off d -> below init d -> (thr d < target)%Q -> exists e, In e (critical d) /\ In e B /\ quantity d e < N).
Definition missing (d : sd) : Z := sumZ (map (fun e => Z.max 0 (N - quantity d e)) B).
Lemma missing_pos d : 0 <= missing d.
Proof.
  unfold missing. generalize B. clear. induction l as [|x l IH]; [cbn; lia|]. cbn [map]. change (sumZ (Z.max 0 (N - quantity d x) :: ?m)) with (Z.max 0 (N - quantity d x) + sumZ m).
  lia.
Qed.
Lemma missing_less d d' : (forall e, In e B -> quantity d e <= quantity d' e) -> (exists e, In e B /\ quantity d e < N /\ quantity d e < quantity d' e) -> missing d' < missing d.
Proof.
  intros L (e & He & L1 & L2). unfold missing. apply sum_lt; [intros z Hz; specialize (L z Hz); lia|]. exists e. split; [exact He|lia].
Qed.
Lemma first_total : forall fuel d inc current ps u k, (Z.to_nat (missing d) < fuel)%nat -> state ps u k -> valid d -> off d -> below init d -> (thr d <= current)%Q -> (forall e, In e K -> 1 <= bound_of inc e) -> exists r, first_feasible thr critical bounded count B target fuel d inc current u k = Ok r.
Proof using HK K0 N0 Cr Pos Mon Progress.
  induction fuel as [|fuel IH]; intros d inc current ps u k M St Vd Od Ld C1 Hi; [lia|]. cbn [first_feasible]. destruct (Qle_bool target current) eqn:T; cbn [negb]; [eexists; reflexivity|].
  assert (L : (thr d < target)%Q). { apply Qle_lt_trans with current; [exact C1|]. apply Qnot_le_lt. intros H. apply Qle_bool_iff in H. congruence. }
  destruct (state_add K HK init bounded e0 K0 N0 ps u k d St Vd (off_zero K bounded e0 K0 N0 d Od)) as (u1 & k1 & -> & St1). cbn [bind fst snd]. destruct (state_cut K HK init bounded e0 K0 N0 (d :: ps) u1 k1 (critical d) d St1 Vd (off_zero K bounded e0 K0 N0 d Od)) as (u2 & k2 & ps2 & -> & St2 & _). cbn [bind fst snd].
  destruct (grow_ok K HK B bounded count (is_buffer_in K bounded) (critical d) inc d (Cr d) Vd Hi) as (inc' & g & -> & Vg & Hi' & Lg & Og & Gg). cbn [bind fst snd].
  apply (IH _ _ _ ps2 u2 k2); [|exact St2|apply set_thr_valid, Vg| | | |exact Hi'].
  - destruct (Progress d Vd Od Ld L) as (e & He & Be & Le). assert (missing (set_thr (clamp (thr g)) g) < missing d). { apply missing_less; [intros z Hz; apply (Lg z), (buffers_in K bounded), Hz|]. exists e. split; [exact Be|]. split; [exact Le|]. exact (Gg e He Be). }
    pose proof (missing_pos (set_thr (clamp (thr g)) g)). lia.
  - intros e He Ne. change (quantity (set_thr ?t g) e) with (quantity g e). rewrite (Og e He Ne). apply Od; auto.
  - intros e He. change (quantity (set_thr ?t g) e) with (quantity g e). specialize (Ld e He). specialize (Lg e He). lia.
  - rewrite (set_thr_thr K thr mon_ext) by exact Vg. apply (clamp_ok target Pos).
Qed.
End First.

(** ** The further points *)
Definition satisfied (s : sds) : Prop := feasible_set s /\ forall x, In x (flat s) -> (target <= thr x)%Q /\ sd_size low <= sd_size x.
Definition at_half (S : Z) (p : sd) : Prop := forall e, In e K -> quantity p e = quantity low e + if inb e B then Z.quot (S - sd_size low) 2 else 0.
Lemma select_cases ps u k s isSat mult kmin best : state ps u k -> (fails -> covered ps init) -> feasible_set s -> (isSat = false -> valid kmin /\ off kmin) -> get_next s = Ok best -> exists c, select B u k s isSat mult kmin = Ok c /\ good c /\
  ((isSat = false /\ ch_found c = false /\ reached s (ch_point c)) \/ (at_half (sd_size best) (ch_point c) /\ (ch_found c = true <-> reached s (ch_point c) \/ covers u (ch_point c)))).
Proof using HK Vi K0 Off On Small.
  intros St Fc Fs Vm Eb. destruct (select_good K HK init Vi thr bounded target e0 K0 Off On Small ps u k s isSat mult kmin St Fc Fs Vm) as (c & Ec & Gc). exists c. split; [exact Ec|]. split; [exact Gc|].
  destruct (next_knee K HK init Vi bounded e0 K0 Off On Small ps u k St) as (hp & Eh & Vh & Sh). destruct Fs as (Ws & _). assert (Kn := st_known _ _ _ _ _ _ St).
  destruct (select_ok K HK B (buffers_in K bounded) (buffers_nodup K HK bounded) u k s isSat mult kmin hp best (known_u _ _ _ _ _ Kn) (known_k _ _ _ _ _ Kn) Ws Eh Eb (fun H => proj1 (Vm H))) as (c' & Ec' & _ & _ & Cases). rewrite Ec in Ec'. injection Ec' as <-.
  destruct Cases as [(A1 & A2 & _ & A3 & _)|(_ & Q & F)]; [left; auto|right]. split; [|exact F]. intros e He. rewrite Q, (Sh e He), (same_size K hp low Vh (proj1 (low_ok K HK init Vi)) Sh). destruct (inb e B); lia.
Qed.
Lemma half_same S p p' : at_half S p -> at_half S p' -> same p p'. Proof. intros A A' e He. rewrite (A e He), (A' e He). reflexivity. Qed.
Lemma sat_step d s best : satisfied s -> valid d -> off d -> (fails -> sd_size init < sd_size d) -> (target <= thr d)%Q -> sd_size low <= sd_size d -> get_next s = Ok best ->
  exists s' best', add_to_sat d s = Ok s' /\ satisfied s' /\ get_next s' = Ok best' /\ reached s' d /\ sd_size best' <= sd_size best /\ (sd_size best' = sd_size best \/ sd_size best' = sd_size d).
Proof.
  intros [[Ws [Ns Fs]] Ts] Vd Od Sd Td Ld Eb. destruct (add_to_sat_ok K d s Vd Ws) as (s' & E & W' & R & I). assert (N' : flat s' <> []). { intros Z. destruct (proj2 (R d) (or_intror (below_refl K d))) as (x & Hx & _). rewrite Z in Hx. destruct Hx. }
  destruct (get_next_ok K s' W') as [_ G]. destruct (G N') as (best' & Eb' & Ib' & Mb'). destruct (get_next_in K s best Ws Eb) as [Ib Mb]. exists s', best'. split; [exact E|]. split.
  - split; [split; [exact W'|]; split; [exact N'|]|]; intros x Hx; (destruct (I x Hx) as [H| ->]; [auto|auto]).
  - split; [exact Eb'|]. split; [apply R; right; apply below_refl|]. destruct (proj2 (R best) (or_introl (ex_intro _ best (conj Ib (below_refl K best))))) as (y & Hy & By). pose proof (Mb' y Hy). pose proof (below_size K y best (wf_valid K s' y W' Hy) (wf_valid K s best Ws Ib) By).
    split; [lia|]. destruct (I best' Ib') as [H'| ->]; [left|right; reflexivity]. specialize (Mb best' H'). lia.
Qed.
Lemma improve_found fuel c u k s : ch_found c = true -> improve thr critical B target fuel c u k s = Ok (k, s).
Proof. intros F. destruct fuel; cbn [improve]; rewrite F; reflexivity. Qed.
Lemma early_total fuel c ps u k s best : state ps u k -> (fails -> covered ps init) -> satisfied s -> good c -> ch_found c = false -> reached s (ch_point c) -> get_next s = Ok best -> (forall p, at_half (sd_size best) p -> covers u p) ->
  exists r, improve thr critical B target (S fuel) c u k s = Ok r.
Proof using HK Vi K0 Off On Small Mon Pos.
  intros St Fc Ss Gc F (x & Hx & Bx) Eb Cv. cbn [improve]. rewrite F. cbn zeta. set (d := set_thr (clamp (thr (ch_point c))) (ch_point c)). destruct Gc as (Vp & Vm & Om & G). destruct (G F) as [Op Sp]. assert (Vd : valid d) by (apply set_thr_valid, Vp).
  pose proof Ss as [[Ws [Ns Fs]] Ts]. assert (Tx := proj1 (Ts x Hx)). assert (Vx := wf_valid K s x Ws Hx). assert (Tp : (target <= thr (ch_point c))%Q) by (apply Qle_trans with (thr x); [exact Tx|apply Mon; auto]).
  assert (Q : Qle_bool target (clamp (thr (ch_point c))) = true) by (apply Qle_bool_iff; apply Qle_trans with (thr (ch_point c)); [exact Tp|apply (clamp_ok target Pos)]). rewrite Q.
  assert (Td : (target <= thr d)%Q) by (unfold d; rewrite (set_thr_thr K thr mon_ext) by exact Vp; exact Tp). pose proof (below_size K x (ch_point c) Vx Vp Bx) as Sx. pose proof (proj2 (Ts x Hx)) as Lx. destruct (get_next_in K s best Ws Eb) as [_ Mb]. pose proof (Mb x Hx) as Mx.
  destruct (sat_step d s best Ss Vd Op Sp Td ltac:(change (sd_size d) with (sd_size (ch_point c)); lia) Eb) as (s' & best' & -> & Ss' & Eb' & _ & L1 & L2). cbn [bind]. assert (Sb : sd_size best' = sd_size best) by (change (sd_size d) with (sd_size (ch_point c)) in L2; lia).
  destruct (select_cases ps u k s' true (ch_mult c) (ch_kmin c) best' St Fc (proj1 Ss') ltac:(discriminate) Eb') as (c' & -> & Gc' & [(Z & _)|(H & Fd)]); [discriminate|]. cbn [bind]. rewrite improve_found; [eexists; reflexivity|]. apply Fd. right. apply Cv. rewrite <- Sb. exact H.
Qed.
Lemma late_total : forall n fuel c ps u k s best, (n + 2 <= fuel)%nat -> sd_size best - sd_size low <= Z.of_nat n -> state ps u k -> (fails -> covered ps init) -> satisfied s -> good c -> get_next s = Ok best -> at_half (sd_size best) (ch_point c) ->
  exists r, improve thr critical B target fuel c u k s = Ok r.
Proof using HK Vi K0 N0 Off On Small Mon Pos Cr.
  induction n as [n IH] using lt_wf_ind. intros [|fuel] c ps u k s best Hf Hn St Fc Ss Gc Eb Hc; [lia|]. destruct (ch_found c) eqn:F; [rewrite improve_found by exact F; eexists; reflexivity|].
  pose proof Gc as (Vp & Vm & Om & G). destruct (G F) as [Op Sp]. pose proof Ss as [[Ws [Ns Fs]] Ts]. destruct (get_next_in K s best Ws Eb) as [Ib Mb]. pose proof (proj2 (Ts best Ib)) as Lb.
  assert (Lp : sd_size low <= sd_size (ch_point c)). { apply (below_size K); [apply (low_ok K HK init Vi)|exact Vp|]. intros e He. rewrite (Hc e He). pose proof (Z.quot_pos (sd_size best - sd_size low) 2 ltac:(lia) ltac:(lia)). destruct (inb e B); lia. }
  cbn [improve]. rewrite F. cbn zeta. set (d := set_thr (clamp (thr (ch_point c))) (ch_point c)). assert (Vd : valid d) by (apply set_thr_valid, Vp). assert (Od : off d) by exact Op. destruct (Qle_bool target (clamp (thr (ch_point c)))) eqn:T.
  - apply Qle_bool_iff in T. assert (Td : (target <= thr d)%Q) by (unfold d; rewrite (set_thr_thr K thr mon_ext) by exact Vp; apply (clamp_ok target Pos), T).
    destruct (sat_step d s best Ss Vd Op Sp Td Lp Eb) as (s' & best' & -> & Ss' & Eb' & Rd & L1 & L2). cbn [bind]. destruct (select_cases ps u k s' true (ch_mult c) (ch_kmin c) best' St Fc (proj1 Ss') ltac:(discriminate) Eb') as (c' & Ec & Gc' & [(Z & _)|(H & Fd)]); [discriminate|]. rewrite Ec. cbn [bind].
    destruct (Z.eq_dec (sd_size best') (sd_size best)) as [Sb|Sb].
    + rewrite improve_found; [eexists; reflexivity|]. apply Fd. left. destruct Rd as (y & Hy & By). exists y. split; [exact Hy|]. intros e He. specialize (By e He). change (quantity d e) with (quantity (ch_point c) e) in By. rewrite Sb in H. rewrite (half_same _ _ _ H Hc e He). exact By.
    + pose proof Ss' as [[Ws' _] Ts']. destruct (get_next_in K s' best' Ws' Eb') as [Ib' _]. pose proof (proj2 (Ts' best' Ib')). apply (IH (Z.to_nat (sd_size best' - sd_size low)) ltac:(lia) fuel c' ps u k s' best'); auto; lia.
  - destruct (state_add K HK init bounded e0 K0 N0 ps u k d St Vd (off_zero K bounded e0 K0 N0 d Od)) as (u1 & k1 & -> & St1). cbn [bind fst snd]. destruct (state_cut K HK init bounded e0 K0 N0 (d :: ps) u1 k1 (critical (ch_point c)) d St1 Vd (off_zero K bounded e0 K0 N0 d Od)) as (u2 & k2 & ps2 & -> & St2 & I2). cbn [bind fst snd].
    assert (Fc2 : fails -> covered ps2 init) by (intros Fa; destruct (Fc Fa) as (p & Hp & Bp); exists p; split; [apply I2; right; exact Hp|exact Bp]).
    assert (Cv : forall p, at_half (sd_size best) p -> covers u2 p). { intros p Hp. apply (known_c _ _ _ _ _ (st_known _ _ _ _ _ _ St2)). exists d. split; [apply I2; left; reflexivity|]. intros e He. change (quantity d e) with (quantity (ch_point c) e). rewrite (half_same _ _ _ Hp Hc e He). lia. }
    destruct (select_cases ps2 u2 k2 s false (ch_mult c) (ch_kmin c) best St2 Fc2 (proj1 Ss) (fun _ => conj Vm Om) Eb) as (c' & Ec & Gc' & [(_ & F' & R')|(H & Fd)]); rewrite Ec; cbn [bind].
    + destruct fuel as [|fuel]; [lia|]. exact (early_total fuel c' ps2 u2 k2 s best St2 Fc2 Ss Gc' F' R' Eb Cv).
    + rewrite improve_found; [eexists; reflexivity|]. apply Fd. right. apply Cv, H.
Qed.

Context (N : Z) (Progress : forall d, valid d -> off d -> below init d -> (thr d < target)%Q -> exists e, In e (critical d) /\ In e B /\ quantity d e < N).
Lemma search_total : exists F, forall fuel, (F <= fuel)%nat -> exists r, base_search fuel thr critical bounded target K init = Ok r.
Proof using HK Vi K0 N0 Off On Small Mon Pos Cr Progress.
  destruct (search_start K HK init Vi (init_range K init bounded Off On)) as (k0 & u0 & k1 & ps & E0 & E1 & Kn & J & P).
  assert (St : state ps u0 k1) by (constructor; [exact Kn|exact J|intros e He; apply P; exists e; auto|intros p Hp; left; apply P, Hp]).
  (* the first phase does not depend on the fuel *)
  assert (Det : forall f f' d inc cur u k r, first_feasible thr critical bounded count B target f d inc cur u k = Ok r -> (f <= f')%nat -> first_feasible thr critical bounded count B target f' d inc cur u k = Ok r).
  { induction f as [|f IHf]; intros [|f'] d inc cur u k r E L; cbn [first_feasible] in *; destruct (negb _); try discriminate; try exact E; try lia.
    destruct (add_point d u k) as [r1| | |]; cbn [bind] in *; try discriminate. destruct (add_cut _ _ _ _ _) as [r2| | |]; cbn [bind] in *; try discriminate. destruct (grow _ _ _ _ _) as [g| | |]; cbn [bind] in *; try discriminate. apply IHf; [exact E|lia]. }
  destruct (first_total N Progress (S (Z.to_nat (missing N init))) init (map (fun e => (e, 1)) (get_edges init)) (thr init) ps u0 k1 ltac:(lia) St Vi Off (below_refl K init) (Qle_refl _) (first_bounds K init Vi)) as ([[d u] k] & E2).
  destruct (bounded_first K HK init thr critical bounded target Cr Pos mon_ext e0 K0 N0 _ init _ _ ps u0 k1 d u k St Vi Off (below_refl K init) (Qle_refl _) (fun H => H) (first_bounds K init Vi) (or_introl eq_refl) E2) as (ps2 & St2 & Vd & Od & Fd & Ld & Fc & _).
  destruct (add_sd_mem K d sds_empty Vd (wf_empty K)) as (s0 & E3 & Ws & Is & Ms).
  assert (Fs : feasible_set s0).
  { split; [exact Ws|]. split; [intros Z; destruct (proj2 (Ms d) (or_intror (same_refl K d))) as (y & Hy & _); rewrite Z in Hy; destruct Hy|]. intros x Hx. destruct (Is x Hx) as [[]| ->]. split; [exact Od|]. intros F. apply (below_size_lt K); [exact Vi|exact Vd|exact Ld|]. apply not_below_some. intros L. apply F. rewrite (mon_ext init d Vi Vd (below_antisym K _ _ Ld L)). exact Fd. }
  assert (Ss : satisfied s0). { split; [exact Fs|]. intros x Hx. destruct (Is x Hx) as [[]| ->]. split; [exact Fd|]. pose proof (low_small K HK init Vi bounded Off On). pose proof (below_size K init d Vi Vd Ld). lia. }
  destruct (get_next_ok K s0 Ws) as [_ G]. destruct (G (proj1 (proj2 Fs))) as (best & Eb & _).
  destruct (select_cases ps2 u k s0 true 1 sd_default best St2 Fc Fs ltac:(discriminate) Eb) as (c & Ec & Gc & [(Z & _)|(H & _)]); [discriminate|].
  exists (S (Z.to_nat (missing N init)) + (Z.to_nat (sd_size best - sd_size low) + 2))%nat. intros fuel Hf. unfold base_search. rewrite E0. cbn [bind]. rewrite E1. cbn [bind fst snd]. rewrite (Det _ fuel _ _ _ _ _ _ E2 ltac:(lia)). cbn [bind]. rewrite E3. cbn [bind]. rewrite Ec. cbn [bind].
  apply (late_total (Z.to_nat (sd_size best - sd_size low)) fuel c ps2 u k s0 best); auto; lia.
Qed.
End Over.
