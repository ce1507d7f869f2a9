(** The answer of the monotonic optimisation, with and without feedback channels. *)
From Coq Require Import QArith Lia Sorted.
From Verif Require Import Base Graph Storage StorageSpec StorageProofs StorageSets Dse MonoOpt MonoOptSpec MonoOptProofs MonoOptSearch.
Open Scope Z_scope.

Section Over.
Context (K : list Z) (HK : channel_list K).
Notation valid := (valid K). Notation same := (same K). Notation below := (below K). Notation above := (strictly_above K). Notation wf := (wf K).
Notation covers := (covers K). Notation reaches := (reaches K). Notation reached := (reached K). Notation antichain := (antichain K).
Notation inb e l := (existsb (Z.eqb e) l).
Context (init : sd) (Vi : valid init) (Qi : forall e, In e K -> 0 <= quantity init e < int_max).
Notation known := (known K (shape K (fun _ => 0) init)).
Notation temp e := (set_quantity e (quantity init e - 1) (shape K (fun _ => int_max) init)).

(** ** The lower bounds *)
Definition kq (done : list Z) (e : Z) : Z := if inb e done then Z.max 0 (quantity init e - 1) else 0.
Definition knees_like (done : list Z) (k : sds) : Prop := forall x, In x (flat k) -> like x init /\ (forall e, In e K -> 0 <= quantity x e) /\ ((forall e, In e K -> quantity x e = kq done e) \/ exists e, In e K /\ quantity x e = int_max).
Lemma temp_ok e : In e K -> valid (temp e) /\ forall z, In z K -> quantity (temp e) z = if z =? e then quantity init e - 1 else int_max.
Proof using HK Vi. intros He. exact (shape_set K HK (fun _ => int_max) init e _ Vi He). Qed.
Lemma lower_bounds_ok : forall es done ps u k, incl es K -> NoDup es -> (forall e, In e es -> ~ In e done) -> known ps u k -> knees_like done k -> (forall p, In p ps <-> exists e, In e done /\ p = temp e) -> incl done K ->
  exists u' k' ps' done', lower_bounds init (shape K (fun _ => int_max) init) es u k = Ok (u', k') /\ known ps' u' k' /\ knees_like done' k' /\ (forall p, In p ps' <-> exists e, In e done' /\ p = temp e) /\ (forall e, In e done' <-> In e done \/ In e es).
Proof using HK Vi Qi.
  induction es as [|e es IH]; intros done ps u k I N D Kn J P Id; cbn [lower_bounds].
  - exists u, k, ps, done. split; [reflexivity|]. split; [exact Kn|]. split; [exact J|]. split; [exact P|]. intros z. cbn [In]. tauto.
  - inversion N as [|? ? Ne N']; subst. assert (He : In e K) by (apply I; left; reflexivity). assert (Nd : ~ In e done) by (apply D; left; reflexivity). rewrite (valid_get K init e Vi He). cbn [bind]. destruct (temp_ok e He) as [Vt Qt].
    destruct (known_add K HK _ ps u k (temp e) Kn Vt) as (u1 & k1 & E1 & Kn1). rewrite E1. cbn [bind fst snd].
    assert (J1 : knees_like (e :: done) k1).
    { destruct Kn as [A1 A2 A3 A4 A5 A6]. destruct (add_point_in K HK (temp e) u k u1 k1 Vt A1 A2 A3 E1) as [[C _]|M].
      - exfalso. apply A5 in C. destruct C as (p & Hp & Bp). apply P in Hp. destruct Hp as (e' & He' & ->). assert (HK' : In e' K) by (apply Id, He'). destruct (temp_ok e' HK') as [_ Qt']. specialize (Bp e' HK'). rewrite (Qt e' HK'), (Qt' e' HK'), Z.eqb_refl in Bp.
        destruct (Z.eqb_spec e' e) as [Ee|_]; [congruence|]. specialize (Qi e' HK'). lia.
      - intros x Hx. destruct (M x Hx) as [[Hk NB]|(kk & e' & Hk & Bk & He' & -> & _)].
        + destruct (J x Hk) as (L & P0 & S). split; [exact L|]. split; [exact P0|]. destruct S as [S|S]; [left|right; exact S]. intros z Hz. rewrite (S z Hz). unfold kq. cbn [existsb]. destruct (Z.eqb_spec z e) as [Ez|Nz]; cbn [orb]; [|reflexivity]. rewrite Ez in *.
          destruct (inb e done) eqn:X; [reflexivity|]. destruct (Z.max_spec 0 (quantity init e - 1)) as [[Lt ->]|[_ ->]]; [|reflexivity]. exfalso. apply NB. intros y Hy. rewrite (Qt y Hy), (S y Hy). unfold kq. specialize (Qi y Hy). destruct (Z.eqb_spec y e) as [Ey|]; [rewrite Ey, X; lia|]. destruct (inb y done); lia.
        + destruct (J kk Hk) as (L & P0 & S). assert (Vk := wf_valid K k kk A3 Hk). split; [apply (like_set K HK); auto|]. assert (Be := Bk e He). rewrite (Qt e He), Z.eqb_refl in Be. pose proof (P0 e He) as Pe. destruct (Z.eqb_spec e' e) as [Ee|Nee].
          * subst e'. rewrite (Qt e He), Z.eqb_refl. split; [intros z Hz; rewrite (set_quantity_quantity K HK) by exact Vk; destruct (z =? e); [lia|auto]|]. destruct S as [S|(z & Hz & Ez)].
            -- left. intros z Hz. rewrite (set_quantity_quantity K HK) by exact Vk. unfold kq. cbn [existsb]. destruct (Z.eqb_spec z e) as [Ez|Nz]; cbn [orb]; [|apply S, Hz]. rewrite Ez. lia.
            -- right. exists z. split; [exact Hz|]. rewrite (set_quantity_quantity K HK) by exact Vk. destruct (Z.eqb_spec z e) as [Eze|]; [|exact Ez]. rewrite Eze in *. specialize (Qi e He). lia.
          * rewrite (Qt e' He'). destruct (Z.eqb_spec e' e); [contradiction|]. split; [intros z Hz; rewrite (set_quantity_quantity K HK) by exact Vk; destruct (z =? e'); [unfold int_max; lia|auto]|]. right. exists e'. split; [exact He'|]. rewrite (set_quantity_quantity K HK), Z.eqb_refl by exact Vk. reflexivity. }
    destruct (IH (e :: done) (temp e :: ps) u1 k1) as (u2 & k2 & ps2 & done2 & E2 & Kn2 & J2 & P2 & D2); auto.
    + intros z Hz. apply I. right; exact Hz.
    + intros z Hz [<-|Hd]; [contradiction|]. apply (D z); [right; exact Hz|exact Hd].
    + intros p. cbn [In]. rewrite P. split; [intros [<-|(z & Hz & ->)]; [exists e; split; [left; reflexivity|reflexivity]|exists z; split; [right; exact Hz|reflexivity]]|]. intros (z & [<-|Hz] & ->); [left; reflexivity|right; exists z; auto].
    + intros z [<-|Hz]; [exact He|apply Id, Hz].
    + exists u2, k2, ps2, done2. split; [exact E2|]. split; [exact Kn2|]. split; [exact J2|]. split; [exact P2|]. intros z. rewrite D2. cbn [In]. tauto.
Qed.
Definition lowered (k : sds) : Prop := forall x, In x (flat k) -> like x init /\ (forall e, In e K -> 0 <= quantity x e) /\ ((forall e, In e K -> quantity x e = Z.max 0 (quantity init e - 1)) \/ exists e, In e K /\ quantity x e = int_max).
Lemma search_start : exists k0 u k ps, add_sd (set_all 0 (get_edges init) init) sds_empty = Ok k0 /\ lower_bounds init (set_all int_max (get_edges init) init) (get_edges init) sds_empty k0 = Ok (u, k) /\ known ps u k /\ lowered k /\ (forall p, In p ps <-> exists e, In e K /\ p = temp e).
Proof using HK Vi Qi.
  destruct (known_start K HK init Vi) as (k0 & E0 & Kn0 & F0). rewrite (set_all_shape K int_max init Vi), (valid_edges _ _ Vi) in *. exists k0.
  destruct (lower_bounds_ok K [] [] sds_empty k0 (incl_refl K) (channels_nodup K HK)) as (u & k & ps & done & E & Kn & J & P & D); auto.
  - intros x Hx. rewrite F0 in Hx. destruct Hx as [<-|[]]. destruct (shape_ok K HK (fun _ => 0) init Vi) as (_ & L & Q). split; [exact L|]. split; [intros e He; rewrite (Q e He); lia|]. left. intros e He. rewrite (Q e He). reflexivity.
  - intros p. split; [intros []|intros (e & [] & _)].
  - intros ? [].
  - exists u, k, ps. split; [exact E0|]. split; [exact E|]. split; [exact Kn|]. split.
    + intros x Hx. destruct (J x Hx) as (A & P0 & S). split; [exact A|]. split; [exact P0|]. destruct S as [S|S]; [left|right; exact S]. intros e He. rewrite (S e He). unfold kq. rewrite (proj2 (inb_in e done)); [reflexivity|]. apply D. right; exact He.
    + intros p. rewrite P. split; intros (e & He & ->); exists e; (split; [|reflexivity]); [apply D in He as [[]|He]; exact He|apply D; right; exact He].
Qed.

Section Search.
Context (thr : sd -> Q) (critical : sd -> list Z) (bounded : bool) (target : Q).
Notation count := (Z.of_nat (length K)).
Notation B := (buffer_edges bounded K).
Context (Cr : forall d, incl (critical d) K) (Pos : (0 < target)%Q) (Ext : forall a b, valid a -> valid b -> same a b -> (thr a == thr b)%Q).

Lemma buffers_in : incl B K. Proof. intros e He. apply filter_In in He. apply He. Qed.
Lemma buffers_nodup : NoDup B. Proof using HK. apply NoDup_filter, channels_nodup, HK. Qed.
Lemma is_buffer_in e : In e K -> (is_buffer bounded count e = true <-> In e B).
Proof. intros He. unfold buffer_edges. rewrite filter_In. tauto. Qed.
Lemma clamp_ok t : (t <= clamp t)%Q /\ ((target <= clamp t)%Q -> (target <= t)%Q).
Proof using Pos.
  unfold clamp. destruct (Qle_bool 0 t) eqn:E; cbn [negb]; [split; [apply Qle_refl|auto]|]. split.
  - apply Qlt_le_weak. apply Qnot_le_lt. intros H. apply Qle_bool_iff in H. congruence.
  - intros H. exfalso. apply (Qlt_not_le _ _ Pos H).
Qed.
Lemma set_thr_thr t d : valid d -> (thr (set_thr t d) == thr d)%Q.
Proof using Ext. intros V. apply Ext; [apply set_thr_valid; exact V|exact V|apply set_thr_same]. Qed.

Lemma augment_ok sat best : get_next sat = Ok best -> forall ks acc, (forall k, In k ks -> valid k) -> wf acc -> exists R, augment B sat ks acc = Ok R /\ wf R /\
  (forall x, In x (flat R) -> In x (flat acc) \/ exists k, In k ks /\ raised B k = Ok x /\ sd_size x < sd_size best) /\
  (forall x, mem K acc x -> mem K R x) /\
  (forall k x, In k ks -> raised B k = Ok x -> sd_size x < sd_size best -> mem K R x).
Proof using HK.
  intros Eb. induction ks as [|k ks IH]; intros acc V W; cbn [augment].
  - exists acc. split; [reflexivity|]. split; [exact W|]. split; [auto|]. split; [auto|intros ? ? []].
  - assert (Vk : valid k) by (apply V; left; reflexivity). destruct (raised_ok K HK B buffers_in buffers_nodup k k Vk) as (d & Ed & Vd & _ & _); [split; [|split]; reflexivity|]. rewrite Ed. cbn [bind]. rewrite Eb. cbn [bind].
    assert (S : exists acc', (if sd_size d <? sd_size best then add_sd d acc else Ok acc) = Ok acc' /\ wf acc' /\ (forall x, In x (flat acc') -> In x (flat acc) \/ x = d /\ sd_size d < sd_size best) /\ (forall x, mem K acc x -> mem K acc' x) /\ (sd_size d < sd_size best -> mem K acc' d)).
    { destruct (Z.ltb_spec (sd_size d) (sd_size best)).
      - destruct (add_sd_mem K d acc Vd W) as (a & E & Wa & I & M). exists a. split; [exact E|]. split; [exact Wa|]. split; [intros x Hx; destruct (I x Hx); auto|]. split; [intros x Hx; apply M; auto|intros _; apply M; right; apply same_refl].
      - exists acc. split; [reflexivity|]. split; [exact W|]. split; [auto|]. split; [auto|lia]. }
    destruct S as (acc' & Ea & Wa & Ia & Ma & Da). rewrite Ea. cbn [bind]. destruct (IH acc' (fun z Hz => V z (or_intror Hz)) Wa) as (R & E & WR & IR & MR & DR). exists R. split; [exact E|]. split; [exact WR|]. split; [|split].
    + intros x Hx. destruct (IR x Hx) as [H|(k' & H & H')]; [|right; exists k'; split; [right; exact H|exact H']]. destruct (Ia x H) as [H'|[-> L]]; [left; exact H'|right; exists k; split; [left; reflexivity|auto]].
    + intros x Hx. apply MR, Ma, Hx.
    + intros k' x [<-|Hk] Ex L; [|apply (DR k'); auto]. rewrite Ed in Ex. injection Ex as <-. apply MR, Da, L.
Qed.

(** ** Nothing is lost *)
Section Lossless.
Context (Mon : monotone K thr) (Cd : critical_decide K thr critical) (One : forall e, In e K -> 1 <= quantity init e).
Definition hopeless (p : sd) : Prop := forall v, valid v -> below init v -> below v p -> (thr v < target)%Q.
Lemma hopeless_temp e : In e K -> hopeless (temp e).
Proof using HK Vi Qi.
  intros He v Vv L Lv. exfalso. destruct (temp_ok e He) as [_ Q]. specialize (L e He). specialize (Lv e He). rewrite (Q e He), Z.eqb_refl in Lv. lia.
Qed.
Lemma hopeless_below d d' : valid d -> valid d' -> same d d' -> (thr d < target)%Q -> hopeless d'.
Proof using Mon.
  intros V V' S L v Vv _ Lv. apply Qle_lt_trans with (thr d); [|exact L]. apply Mon; [exact Vv|exact V|]. intros e He. rewrite (S e He). apply Lv, He.
Qed.
Lemma hopeless_cut d d' : valid d -> valid d' -> same d d' -> (thr d < target)%Q -> critical d <> [] -> hopeless (raise_non_critical (critical d) B d').
Proof using HK Cd.
  intros V V' S L N v Vv _ Lv. apply Qle_lt_trans with (thr d); [|exact L]. apply Cd; [exact V|exact Vv|exact N|]. intros e He Ke. specialize (Lv e Ke). destruct (raise_ok K HK (critical d) B d' buffers_in V') as [_ Q]. rewrite Q, (proj2 (inb_in e _) He), andb_false_r in Lv. rewrite (S e Ke). exact Lv.
Qed.
Lemma lossless_first : forall fuel d inc current ps u k d' u' k', known ps u k -> (forall p, In p ps -> hopeless p) -> valid d -> (thr d <= current)%Q -> ((target <= current)%Q -> (target <= thr d)%Q) -> (forall e, In e K -> 1 <= bound_of inc e) ->
  first_feasible thr critical bounded count B target fuel d inc current u k = Ok (d', u', k') -> exists ps', known ps' u' k' /\ (forall p, In p ps' -> hopeless p) /\ valid d' /\ (target <= thr d')%Q.
Proof using HK Mon Cd Cr Pos Ext.
  induction fuel as [|fuel IH]; intros d inc current ps u k d' u' k' Kn Hp Vd C1 C2 Hi E; cbn [first_feasible] in E; destruct (Qle_bool target current) eqn:T; cbn [negb] in E; try discriminate.
  - injection E as <- <- <-. exists ps. apply Qle_bool_iff in T. auto.
  - injection E as <- <- <-. exists ps. apply Qle_bool_iff in T. auto.
  - assert (L : (thr d < target)%Q). { apply Qle_lt_trans with current; [exact C1|]. apply Qnot_le_lt. intros H. apply Qle_bool_iff in H. congruence. }
    destruct (known_add K HK _ ps u k d Kn Vd) as (u1 & k1 & E1 & Kn1). rewrite E1 in E. cbn [bind fst snd] in E.
    destruct (known_cut K HK B buffers_in _ (d :: ps) u1 k1 (critical d) d Kn1 Vd) as (u2 & k2 & ps2 & E2 & Kn2 & P2). rewrite E2 in E. cbn [bind fst snd] in E.
    destruct (grow_ok K HK B bounded count is_buffer_in (critical d) inc d (Cr d) Vd Hi) as (inc' & g & Eg & Vg & Hi' & _). rewrite Eg in E. cbn [bind fst snd] in E.
    apply (IH _ _ _ ps2 u2 k2 d' u' k' Kn2) in E; [exact E| | | | |exact Hi'].
    + assert (H1 : forall p, In p (d :: ps) -> hopeless p) by (intros p [<-|H]; [exact (hopeless_below d d Vd Vd (same_refl K d) L)|auto]). destruct P2 as [[-> _]|(N & -> & _)]; [exact H1|]. intros p [<-|H]; [exact (hopeless_cut d d Vd Vd (same_refl K d) L N)|auto].
    + apply set_thr_valid, Vg.
    + rewrite set_thr_thr by exact Vg. apply clamp_ok.
    + intros H. rewrite set_thr_thr by exact Vg. apply clamp_ok, H.
Qed.
Lemma lossless_improve : forall fuel c ps u k s k' s', known ps u k -> (forall p, In p ps -> hopeless p) -> wf s -> (forall x, In x (flat s) -> (target <= thr x)%Q) -> flat s <> [] -> valid (ch_point c) -> valid (ch_kmin c) ->
  improve thr critical B target fuel c u k s = Ok (k', s') -> exists u' ps', known ps' u' k' /\ (forall p, In p ps' -> hopeless p) /\ wf s' /\ (forall x, In x (flat s') -> (target <= thr x)%Q) /\ flat s' <> [].
Proof using HK Mon Cd Cr Pos Ext.
  induction fuel as [|fuel IH]; intros c ps u k s k' s' Kn Hp Ws Fs Ns Vp Vm E; cbn [improve] in E; destruct (ch_found c) eqn:F; try discriminate.
  - injection E as <- <-. exists u, ps. auto.
  - injection E as <- <-. exists u, ps. auto.
  - cbn zeta in E. set (d := set_thr (clamp (thr (ch_point c))) (ch_point c)) in *. assert (Vd : valid d) by (apply set_thr_valid, Vp).
    assert (S : exists u1 k1 s1 ps1, (if Qle_bool target (clamp (thr (ch_point c))) then do s0 <- add_to_sat d s; Ok (u, k, s0) else do r1 <- add_point d u k; do r2 <- add_cut B (critical (ch_point c)) d (fst r1) (snd r1); Ok (fst r2, snd r2, s)) = Ok (u1, k1, s1) /\ known ps1 u1 k1 /\ (forall p, In p ps1 -> hopeless p) /\ wf s1 /\ (forall x, In x (flat s1) -> (target <= thr x)%Q) /\ flat s1 <> []).
    { destruct (Qle_bool target (clamp (thr (ch_point c)))) eqn:T.
      - apply Qle_bool_iff in T. destruct (add_to_sat_ok K d s Vd Ws) as (s1 & -> & W1 & R1 & I1). cbn [bind]. exists u, k, s1, ps. split; [reflexivity|]. split; [exact Kn|]. split; [exact Hp|]. split; [exact W1|]. split.
        + intros x Hx. destruct (I1 x Hx) as [H| ->]; [auto|]. unfold d. rewrite set_thr_thr by exact Vp. apply clamp_ok, T.
        + intros Z. destruct (proj2 (R1 d) (or_intror (below_refl K d))) as (x & Hx & _). rewrite Z in Hx. destruct Hx.
      - assert (L : (thr (ch_point c) < target)%Q). { apply Qle_lt_trans with (clamp (thr (ch_point c))); [apply clamp_ok|]. apply Qnot_le_lt. intros H. apply Qle_bool_iff in H. congruence. }
        assert (Sd : same (ch_point c) d) by (apply same_sym, set_thr_same).
        destruct (known_add K HK _ ps u k d Kn Vd) as (u1 & k1 & -> & Kn1). cbn [bind fst snd]. destruct (known_cut K HK B buffers_in _ (d :: ps) u1 k1 (critical (ch_point c)) d Kn1 Vd) as (u2 & k2 & ps2 & -> & Kn2 & P2). cbn [bind fst snd].
        exists u2, k2, s, ps2. split; [reflexivity|]. split; [exact Kn2|]. split; [|auto].
        assert (H1 : forall p, In p (d :: ps) -> hopeless p) by (intros p [<-|H]; [exact (hopeless_below _ d Vp Vd Sd L)|auto]). destruct P2 as [[-> _]|(N & -> & _)]; [exact H1|]. intros p [<-|H]; [exact (hopeless_cut _ d Vp Vd Sd L N)|auto]. }
    destruct S as (u1 & k1 & s1 & ps1 & Es & Kn1 & Hp1 & W1 & F1 & N1). rewrite Es in E. cbn [bind] in E. destruct (select B u1 k1 s1 (Qle_bool target (clamp (thr (ch_point c)))) (ch_mult c) (ch_kmin c)) as [c'| | |] eqn:Ec; cbn [bind] in E; try discriminate.
    assert (Vc : valid (ch_point c') /\ valid (ch_kmin c')).
    { destruct (get_next k1) as [hp| | |] eqn:Eh; try (unfold select in Ec; rewrite Eh in Ec; discriminate). destruct (get_next s1) as [best| | |] eqn:Eb; try (unfold select in Ec; rewrite Eh, Eb in Ec; discriminate).
      destruct (select_ok K HK B buffers_in buffers_nodup u1 k1 s1 (Qle_bool target (clamp (thr (ch_point c)))) (ch_mult c) (ch_kmin c) hp best (known_u _ _ _ _ _ Kn1) (known_k _ _ _ _ _ Kn1) W1 Eh Eb (fun _ => Vm)) as (c2 & Ec2 & A & A' & _). rewrite Ec in Ec2. injection Ec2 as <-. auto. }
    exact (IH c' ps1 u1 k1 s1 k' s' Kn1 Hp1 W1 F1 N1 (proj1 Vc) (proj2 Vc) E).
Qed.
Lemma first_bounds : forall e, In e K -> 1 <= bound_of (map (fun e => (e, 1)) (get_edges init)) e.
Proof using Vi.
  rewrite (valid_edges _ _ Vi). clear. intros e. induction K as [|x l IH]; intros He; [destruct He|]. cbn [map bound_of]. destruct (Z.eqb_spec e x); [lia|]. apply IH. destruct He as [E|He]; [congruence|exact He].
Qed.
Lemma lossless fuel R : base_optimisation fuel thr critical bounded target K init = Ok R ->
  exists best, valid best /\ (target <= thr best)%Q /\ (forall r, In r (flat R) -> valid r /\ sd_size r < sd_size best) /\
  forall v, valid v -> below init v -> (target <= thr v)%Q -> sd_size best <= sd_size v \/ exists r, In r (flat R) /\ below r v.
Proof using HK Vi Qi Mon Cd Cr Pos Ext One.
  unfold base_optimisation, base_search. intros E. destruct search_start as (k0 & u0 & k1 & ps & E0 & E1 & Kn & J & P). rewrite E0 in E. cbn [bind] in E. rewrite E1 in E. cbn [bind fst snd] in E.
  destruct (first_feasible thr critical bounded count B target fuel init _ (thr init) u0 k1) as [[[d u] k]| | |] eqn:E2; cbn [bind] in E; try discriminate.
  destruct (lossless_first fuel init _ _ ps u0 k1 d u k Kn ltac:(intros p Hp; apply P in Hp as (e & He & ->); exact (hopeless_temp e He)) Vi (Qle_refl _) (fun H => H) first_bounds E2) as (ps2 & Kn2 & Hp2 & Vd & Fd).
  destruct (add_sd_mem K d sds_empty Vd (wf_empty K)) as (s & E3 & Ws & Is & Ms). rewrite E3 in E. cbn [bind] in E.
  destruct (select B u k s true 1 sd_default) as [c| | |] eqn:Ec; cbn [bind] in E; try discriminate.
  assert (Vc : valid (ch_point c) /\ valid (ch_kmin c)).
  { destruct (get_next k) as [hp| | |] eqn:Eh; try (unfold select in Ec; rewrite Eh in Ec; discriminate). destruct (get_next s) as [best| | |] eqn:Eb; try (unfold select in Ec; rewrite Eh, Eb in Ec; discriminate).
    destruct (select_ok K HK B buffers_in buffers_nodup u k s true 1 sd_default hp best (known_u _ _ _ _ _ Kn2) (known_k _ _ _ _ _ Kn2) Ws Eh Eb ltac:(discriminate)) as (c2 & Ec2 & A & A' & _). rewrite Ec in Ec2. injection Ec2 as <-. auto. }
  destruct (improve thr critical B target fuel c u k s) as [[k' s']| | |] eqn:E4; cbn [bind fst snd] in E; try discriminate.
  destruct (lossless_improve fuel c ps2 u k s k' s' Kn2 Hp2 Ws) as (u' & ps' & Kn' & Hp' & W' & F' & N'); [|  |exact (proj1 Vc)|exact (proj2 Vc)|exact E4|].
  { intros x Hx. destruct (Is x Hx) as [[]| ->]. exact Fd. }
  { intros Z. destruct (proj2 (Ms d) (or_intror (same_refl K d))) as (y & Hy & _). rewrite Z in Hy. destruct Hy. }
  destruct (get_next_ok K s' W') as [_ GN]. destruct (GN N') as (best & Eb & Ib & Mb). assert (Vk' : forall x, In x (flat k') -> valid x) by (intros x Hx; exact (wf_valid K k' x (known_k _ _ _ _ _ Kn') Hx)).
  destruct (augment_ok s' best Eb (flat k') sds_empty Vk' (wf_empty K)) as (R' & ER & WR & IR & _ & DR). rewrite E in ER. injection ER as <-. exists best. split; [exact (wf_valid K s' best W' Ib)|]. split; [apply F', Ib|]. split.
  - intros r Hr. split; [exact (wf_valid K R r WR Hr)|]. destruct (IR r Hr) as [[]|(k2 & _ & _ & L)]. exact L.
  - intros v Vv Lv Fv. destruct (Z.le_gt_cases (sd_size best) (sd_size v)) as [L|L]; [left; exact L|right].
    assert (Rv : reaches k' v). { apply (known_r _ _ _ _ _ Kn'). split; [|intros p Hp Bp; apply (Qlt_not_le _ _ (Hp' p Hp v Vv Lv Bp) Fv)]. intros e He. destruct (shape_ok K HK (fun _ => 0) init Vi) as (_ & _ & Q). rewrite (Q e He). specialize (One e He). specialize (Lv e He). lia. }
    destruct Rv as (kn & Hkn & Av). destruct (raised_ok K HK B buffers_in buffers_nodup kn kn (Vk' kn Hkn)) as (x & Ex & Vx & _ & Qx); [split; [|split]; reflexivity|].
    assert (Bx : below x v). { intros e He. rewrite Qx. specialize (Av e He). destruct (_ && _); lia. }
    assert (Sx := below_size K x v Vx Vv Bx). destruct (DR kn x Hkn Ex ltac:(lia)) as (r & Hr & Sr). exists r. split; [exact Hr|]. exact (same_below_l K r x v (same_sym K x r Sr) Bx).
Qed.
End Lossless.
End Search.
End Over.
