(** Properties of the exploration of throughputs by bisection. *)
From Coq Require Import QArith Qround Lqa Lia Sorted.
From Verif Require Import Base Graph ScheduleSpec KPeriodicSpec KPeriodicEnd KIterSpec SimSpec PeriodicSpec Periodic HowardProps PeriodicProps
  Sizing SizingSpec SizingEnd SizingProps FreqDse FreqDseSpec FreqDseProofs FreqDseEnd.
Open Scope Z_scope.

Lemma inv_le a b : (0 < a)%Q -> (a <= b)%Q -> (/ b <= / a)%Q.
Proof. intros A B. apply Qle_shift_inv_l; [exact A|]. setoid_replace (/ b * a)%Q with (a / b)%Q by (field; lra). apply Qle_shift_div_r; lra. Qed.
Lemma inv_flip p f : (0 < f)%Q -> (0 < p)%Q -> (p <= / f)%Q -> (f <= / p)%Q.
Proof. intros A B C. apply (inv_le p (/ f)%Q B) in C. rewrite Qinv_involutive in C. exact C. Qed.

(** ** C94: the exploration ends. *)
Theorem C94_exploration_ends sizing F fuel :
  (0 < F)%Q -> (forall p, (/ F <= p)%Q -> exists z, sizing p = Ok z) -> (2 ^ 15 - 1 <= fuel)%nat ->
  exists points, dse_from_function sizing fuel F = Ok points.
Proof.
  intros HF Tot Hf. destruct (explore_all sizing F HF Tot fuel Hf) as (sp & E & _). unfold dse_from_function. rewrite E. cbn [bind]. eexists. reflexivity.
Qed.
Print Assumptions C94_exploration_ends.

(** With a throughput of 0 it does not: whatever the number of turns, ranges are left. *)
Theorem C94_zero_throughput_refuted sizing fuel : dse_from_function sizing fuel 0 = Timeout.
Proof.
  unfold dse_from_function. assert (G : forall fuel q, q <> [] -> (forall lr, In lr q -> (fst lr == 0)%Q /\ (snd lr == 0)%Q) -> explore sizing fuel (0 / 10000) [(0%Q, 0)] q = Timeout).
  { induction fuel0 as [|n IH]; intros [|[l r] q] Ne Hq; try contradiction; [reflexivity|]. destruct (Hq (l, r) (or_introl eq_refl)) as [El Er]. cbn [fst snd] in El, Er.
    assert (Fl : Qeq_bool l 0 = true) by (apply Qeq_bool_iff; exact El). assert (Fr : Qeq_bool r 0 = true) by (apply Qeq_bool_iff; exact Er).
    cbn [explore]. unfold turn. assert (Qle_bool (0 / 10000) (r - l) = true) as -> by (apply Qle_bool_iff; rewrite El, Er; vm_compute; discriminate). cbn [negb].
    unfold ensure. cbn [space_find]. rewrite Fl. cbn [bind space_find]. rewrite Fr. cbn [bind]. rewrite Bool.orb_true_r. cbn [bind fst snd]. apply IH; [destruct q; discriminate|].
    intros lr I. apply in_app_or in I as [I|[<-|[<-|[]]]]; [apply Hq; right; exact I| |]; cbn [fst snd].
    - split; [exact El|]. rewrite El, Er. reflexivity.
    - split; [|exact Er]. rewrite El, Er. reflexivity. }
  rewrite G; [reflexivity|discriminate|]. intros lr [<-|[]]. split; reflexivity.
Qed.
Print Assumptions C94_zero_throughput_refuted.

(** ** C95: the printed points. *)
(** Every point is a period not below the least one with the size found for it, and of two
    points the larger one is faster. *)
Theorem C95_points_are_real sizing F fuel points :
  (0 < F)%Q -> (forall p, (/ F <= p)%Q -> exists z, sizing p = Ok z) -> slower_never_larger sizing -> (2 ^ 15 - 1 <= fuel)%nat ->
  dse_from_function sizing fuel F = Ok points ->
  (forall p z, In (p, z) points -> (/ F <= p)%Q /\ sizing p = Ok z /\ 0 < z) /\
  StronglySorted (fun a b => (snd a < snd b) /\ (fst b < fst a)%Q) points.
Proof.
  intros HF Tot Mono Hf E. destruct (explore_all sizing F HF Tot fuel Hf) as (sp & Es & Snd & _). unfold dse_from_function in E. rewrite Es in E. cbn [bind] in E.
  injection E as <-. destruct (pareto_spec sp) as (P1 & _ & P3).
  assert (R : forall z p, In (z, p) (pareto sp) -> (/ F <= p)%Q /\ sizing p = Ok z).
  { intros z p I. destruct (P1 z p I) as (f & I' & Nf & ->). destruct (Snd f z I') as (A & B & [[-> ->]|[C D]]); [destruct Nf; reflexivity|].
    split; [exact (inv_le f F C B)|exact D]. }
  split.
  - intros p z I. apply in_map_iff in I as ([z' p'] & [=-> ->] & I). apply filter_In in I as [I Pos]. cbn [fst] in Pos. destruct (R z p I). repeat split; try assumption. lia.
  - assert (G : forall l, StronglySorted by_size l -> (forall z p, In (z, p) l -> sizing p = Ok z) ->
      StronglySorted (fun a b : Q * Z => snd a < snd b /\ (fst b < fst a)%Q) (map (fun zp : Z * Q => (snd zp, fst zp)) (filter (fun zp => fst zp >? 0) l))).
    { induction l as [|[z p] l IH]; intros S Hl; [constructor|]. inversion_clear S as [|? ? S1 F1]. cbn [filter fst]. 
      assert (IH' := IH S1 (fun z' p' I => Hl z' p' (or_intror I))). destruct (z >? 0); [|exact IH']. cbn [map fst snd]. constructor; [exact IH'|].
      apply Forall_forall. intros [p' z'] I. apply in_map_iff in I as ([z2 p2] & [=-> ->] & I). apply filter_In in I as [I _]. rewrite Forall_forall in F1. specialize (F1 _ I). unfold by_size in F1. cbn [fst snd] in *.
      split; [exact F1|]. destruct (Qlt_le_dec p' p) as [L|L]; [exact L|]. exfalso. pose proof (Mono p p' z z' (Hl z p (or_introl eq_refl)) (Hl z' p' (or_intror I)) L). lia. }
    apply G; [exact P3|]. intros z p I. apply (R z p I).
Qed.
Print Assumptions C95_points_are_real.

(** Every throughput up to the best one is matched by a point that is not larger and at most
    one 5000th of the best throughput slower. *)
Theorem C95_front_is_complete sizing F fuel points :
  (0 < F)%Q -> (forall p, (/ F <= p)%Q -> exists z, sizing p = Ok z /\ 0 < z) -> slower_never_larger sizing -> (2 ^ 15 - 1 <= fuel)%nat ->
  dse_from_function sizing fuel F = Ok points ->
  forall f z, (F / 5000 <= f)%Q -> (f <= F)%Q -> sizing (/ f)%Q = Ok z ->
    exists p z', In (p, z') points /\ z' <= z /\ (f - F / 5000 < / p)%Q.
Proof.
  intros HF Tot Mono Hf E f z Fl Fh Ez. assert (Tot' : forall p, (/ F <= p)%Q -> exists z, sizing p = Ok z) by (intros p Hp; destruct (Tot p Hp) as (x & A & _); exists x; exact A).
  destruct (explore_all sizing F HF Tot' fuel Hf) as (sp & Es & Snd & Acc). unfold dse_from_function in E. rewrite Es in E. cbn [bind] in E. injection E as <-.
  destruct (pareto_spec sp) as (P1 & P2 & _). assert (G5 : (0 < F / 5000)%Q) by (apply Qlt_shift_div_l; lra).
  assert (Use : forall h zh, In (h, zh) sp -> (0 < h)%Q -> zh <= z -> (f - F / 5000 < h)%Q ->
    exists p z', In (p, z') (map (fun zp : Z * Q => (snd zp, fst zp)) (filter (fun zp => fst zp >? 0) (pareto sp))) /\ z' <= z /\ (f - F / 5000 < / p)%Q).
  { intros h zh I Hp Lz Lh. destruct (P2 h zh I ltac:(lra)) as (p & Ip & Lp). exists p, zh. destruct (Snd h zh I) as (_ & Hh & [[-> _]|[_ Eh]]); [lra|].
    destruct (P1 zh p Ip) as (f2 & I2 & N2 & ->). destruct (Snd f2 zh I2) as (A2 & _ & _). assert (F2 : (0 < f2)%Q) by (destruct (Qlt_le_dec 0 f2); [assumption|exfalso; apply N2; lra]).
    split; [|split; [exact Lz|]].
    - apply in_map_iff. exists (zh, (/ f2)%Q). split; [reflexivity|]. apply filter_In. split; [exact Ip|]. cbn [fst]. destruct (Tot (/ h)%Q (inv_le h F Hp Hh)) as (x & Ex & Px). rewrite Eh in Ex. injection Ex as ->. lia.
    - assert (h <= / / f2)%Q by (apply inv_flip; [exact Hp|apply Qinv_lt_0_compat; exact F2|exact Lp]). lra. }
  destruct (Acc f ltac:(lra) Fh) as (l & zl & r & zr & Il & Ir & Ll & Lr & D).
  assert (Le : forall h zh, In (h, zh) sp -> (0 < h)%Q -> (h <= f)%Q -> zh <= z).
  { intros h zh I Hp Lh. destruct (Snd h zh I) as (_ & _ & [[-> _]|[_ Eh]]); [lra|]. exact (Mono (/ f)%Q (/ h)%Q z zh Ez Eh (inv_le h f Hp Lh)). }
  destruct D as [D|[D Eq]].
  - assert (Lp : (0 < l)%Q) by lra. apply (Use l zl Il Lp (Le l zl Il Lp Ll)). lra.
  - apply (Use r zr Ir); [lra|rewrite <- Eq; exact (Le l zl Il D Ll)|lra].
Qed.
Print Assumptions C95_front_is_complete.

(** ** C96: the exploration with the integer program. *)
(** The sizing function of [compute_csdf_dse_periodic] with ILP, dse/periodic.cpp 55-62. *)
Definition ilp_sizing (solve : lp -> option (var -> Q)) (theta : nat -> Z) (g : graph) (N : nat -> Z) (p : Q) : outcome Z :=
  do r <- periodic_memory_sizing solve true false theta g N p; Ok (res_total r).

Lemma ilp_sizing_spec solve theta g N F :
  graph_wf g -> balanced g N -> no_init g -> whole_cycles g N -> no_reentrancy g ->
  (0 < F)%Q -> best_periodic_throughput g N (fun _ => 1) F ->
  (forall period p, (/ F <= period)%Q -> periodic_lp true theta g N period = Ok p -> solves true solve p) ->
  forall period, (/ F <= period)%Q -> exists z, ilp_sizing solve theta g N period = Ok z /\ least_storage g N theta period z.
Proof.
  intros Hwf Hbal Hno Hcyc Hre HF [Best _] Sol period Hp. pose proof (Qinv_lt_0_compat F HF) as Ip. assert (Pp : (0 < period)%Q) by lra.
  destruct (C90_ilp_is_minimal solve theta g N period Hwf Hbal Hno Hcyc Hre Pp) as (p & Ep & H).
  assert (R : exists cap, runs_within g N period cap).
  { destruct (Best HF) as (s & V & Per). destruct (SizingOffsets.capacities_exist theta g N (/ F) Hwf Hbal Hno Hcyc Ip s Per V) as [cap Fc].
    exists cap. apply (slower_runs g N Hwf Hcyc (/ F) period cap Ip Hp). exists s. repeat split; try assumption; apply V. }
  specialize (Sol period p Hp Ep). unfold solves in Sol. destruct (solve p) as [x|] eqn:Sx.
  - destruct (H x eq_refl (proj2 Sol eq_refl)) as (total & Et & (cap & E1 & R1) & Least). exists total. unfold ilp_sizing. rewrite Et. split; [reflexivity|]. split; [exists cap; split; [exact R1|symmetry; exact E1]|exact Least].
  - exfalso. destruct R as [cap R]. destruct (free_complete true theta g N period Hwf Hbal Hno Hcyc Pp cap R) as (x & Fx & _).
    rewrite (free_ok true theta g N period Hwf Hno Hcyc Hre) in Ep. injection Ep as <-. exact (Sol x Fx).
Qed.

Lemma ilp_sizing_mono solve theta g N F :
  graph_wf g -> balanced g N -> no_init g -> whole_cycles g N -> no_reentrancy g ->
  (0 < F)%Q -> best_periodic_throughput g N (fun _ => 1) F ->
  (forall period p, (/ F <= period)%Q -> periodic_lp true theta g N period = Ok p -> solves true solve p) ->
  slower_never_larger (fun p => if Qle_bool (/ F) p then ilp_sizing solve theta g N p else Rejected).
Proof.
  intros Hwf Hbal Hno Hcyc Hre HF Best Sol p q zp zq Ep Eq L. cbv beta in *. destruct (Qle_bool (/ F) p) eqn:Lp; [|discriminate]. destruct (Qle_bool (/ F) q) eqn:Lq; [|discriminate].
  apply Qle_bool_iff in Lp, Lq. destruct (ilp_sizing_spec solve theta g N F Hwf Hbal Hno Hcyc Hre HF Best Sol p Lp) as (z1 & E1 & (cap & R1 & S1) & _).
  destruct (ilp_sizing_spec solve theta g N F Hwf Hbal Hno Hcyc Hre HF Best Sol q Lq) as (z2 & E2 & _ & Least). rewrite E1 in Ep. rewrite E2 in Eq. injection Ep as ->. injection Eq as ->.
  rewrite <- S1. apply Least. apply (slower_runs g N Hwf Hcyc p q cap); [pose proof (Qinv_lt_0_compat F HF); lra|exact L|exact R1].
Qed.

(** Only periods of at least [1/F] are ever asked for. *)
Lemma explore_ext f h F : (forall p, (/ F <= p)%Q -> f p = h p) -> (0 < F)%Q ->
  forall fuel gr sp q, known sp 0 -> (forall lr, In lr q -> (0 <= fst lr)%Q /\ (fst lr <= snd lr)%Q /\ (snd lr <= F)%Q) -> (0 < gr)%Q ->
  explore f fuel gr sp q = explore h fuel gr sp q.
Proof.
  intros X HF. induction fuel as [|fuel IH]; intros gr sp [|[l r] q] K0 Hq Hg; try reflexivity. cbn [explore].
  destruct (Hq (l, r) (or_introl eq_refl)) as (A & B & C). cbn [fst snd] in A, B, C.
  assert (En : forall sp x, known sp 0 -> (0 <= x)%Q -> (x <= F)%Q -> ensure f sp x = ensure h sp x).
  { intros sp0 x K X0 X1. unfold ensure. destruct (space_find sp0 x) eqn:E; [reflexivity|]. rewrite X; [reflexivity|]. apply inv_le; [|exact X1].
    destruct (Qlt_le_dec 0 x) as [|L]; [assumption|]. exfalso. apply (find_none sp0 x E). destruct K as (f' & z & P & Q). exists f', z. split; [lra|exact Q]. }
  assert (Kn : forall sp sp' x, known sp 0 -> ensure h sp x = Ok sp' -> known sp' 0).
  { intros sp0 sp' x K E. unfold ensure in E. destruct (space_find sp0 x); [injection E as <-; exact K|]. destruct (h (/ x)%Q); try discriminate. injection E as <-.
    destruct K as (f' & z0 & P & Q). exists f', z0. split; [exact P|right; exact Q]. }
  unfold turn. destruct (negb (Qle_bool gr (r - l))) eqn:Eg; cbn [bind fst snd]; [apply IH; [exact K0| |exact Hg]; rewrite app_nil_r; intros lr I; apply Hq; right; exact I|].
  rewrite (En sp l K0 A ltac:(lra)). destruct (ensure h sp l) as [sp1| | |] eqn:E1; cbn [bind]; try reflexivity. pose proof (Kn sp sp1 l K0 E1) as K1.
  rewrite (En sp1 r K1 ltac:(lra) C). destruct (ensure h sp1 r) as [sp2| | |] eqn:E2; cbn [bind]; try reflexivity. pose proof (Kn sp1 sp2 r K1 E2) as K2.
  assert (Hm : ((r - l) / 2 * 2 == r - l)%Q) by field. set (d := ((r - l) / 2)%Q) in *. clearbody d.
  destruct (negb (space_at sp2 l =? space_at sp2 r) || Qeq_bool l 0); cbn [bind fst snd]; (apply IH; [exact K2| |exact Hg]).
  - intros lr I. apply in_app_or in I as [I|[<-|[<-|[]]]]; [apply Hq; right; exact I| |]; cbn [fst snd]; repeat split; lra.
  - rewrite app_nil_r. intros lr I. apply Hq. right. exact I.
Qed.

Theorem C96_periodic_exploration solve theta g N F fuel :
  graph_wf g -> balanced g N -> no_init g -> whole_cycles g N -> no_reentrancy g -> positive_durations g ->
  edges g <> [] -> (forall k, (k < length (edges g))%nat -> 0 < theta k) ->
  (0 < F)%Q -> best_periodic_throughput g N (fun _ => 1) F ->
  (forall period p, (/ F <= period)%Q -> periodic_lp true theta g N period = Ok p -> solves true solve p) ->
  (2 ^ 15 - 1 <= fuel)%nat ->
  exists points, dse_from_function (ilp_sizing solve theta g N) fuel F = Ok points /\
    (forall p z, In (p, z) points -> (/ F <= p)%Q /\ least_storage g N theta p z) /\
    StronglySorted (fun a b => (snd a < snd b) /\ (fst b < fst a)%Q) points /\
    (forall f cap, (F / 5000 <= f)%Q -> (f <= F)%Q -> runs_within g N (/ f) cap ->
       exists p z, In (p, z) points /\ z <= storage g theta cap /\ (f - F / 5000 < / p)%Q).
Proof.
  intros Hwf Hbal Hno Hcyc Hre Pd Ne Th HF Best Sol Hf. set (sz := fun p => if Qle_bool (/ F) p then ilp_sizing solve theta g N p else Rejected).
  assert (Esz : forall p, (/ F <= p)%Q -> sz p = ilp_sizing solve theta g N p) by (intros p Hp; unfold sz; apply Qle_bool_iff in Hp; rewrite Hp; reflexivity).
  pose proof (ilp_sizing_spec solve theta g N F Hwf Hbal Hno Hcyc Hre HF Best Sol) as Spec.
  pose proof (ilp_sizing_mono solve theta g N F Hwf Hbal Hno Hcyc Hre HF Best Sol) as Mono. fold sz in Mono.
  assert (Tot : forall p, (/ F <= p)%Q -> exists z, sz p = Ok z /\ 0 < z).
  { intros p Hp. destruct (Spec p Hp) as (z & Ez & (cap & R & <-) & _). exists (storage g theta cap). rewrite (Esz p Hp). split; [exact Ez|]. exact (storage_positive g N Hwf Hno theta p cap Pd Th Ne R). }
  assert (Tot' : forall p, (/ F <= p)%Q -> exists z, sz p = Ok z) by (intros p Hp; destruct (Tot p Hp) as (z & E & _); exists z; exact E).
  destruct (C94_exploration_ends sz F fuel HF Tot' Hf) as [points E].
  assert (Same : dse_from_function (ilp_sizing solve theta g N) fuel F = dse_from_function sz fuel F).
  { unfold dse_from_function. rewrite (explore_ext (ilp_sizing solve theta g N) sz F); [reflexivity|intros p Hp; symmetry; exact (Esz p Hp)|exact HF| | |apply Qlt_shift_div_l; lra].
    - exists 0%Q, 0. split; [reflexivity|left; reflexivity].
    - intros lr [<-|[]]. cbn [fst snd]. repeat split; lra. }
  exists points. rewrite Same. split; [exact E|]. destruct (C95_points_are_real sz F fuel points HF Tot' Mono Hf E) as [Real Sorted].
  split; [|split; [exact Sorted|]].
  - intros p z I. destruct (Real p z I) as (A & B & _). split; [exact A|]. rewrite (Esz p A) in B. destruct (Spec p A) as (z' & Ez & L). rewrite B in Ez. injection Ez as ->. exact L.
  - intros f cap Fl Fh R. assert (Fp : (0 < f)%Q) by (assert (0 < F / 5000)%Q by (apply Qlt_shift_div_l; lra); lra). pose proof (inv_le f F Fp Fh) as Fi.
    destruct (Spec (/ f)%Q Fi) as (z & Ez & _ & Least). destruct (C95_front_is_complete sz F fuel points HF Tot Mono Hf E f z Fl Fh) as (p & z' & I & Lz & Lp); [rewrite (Esz _ Fi); exact Ez|].
    exists p, z'. split; [exact I|]. split; [|exact Lp]. specialize (Least cap R). lia.
Qed.
Print Assumptions C96_periodic_exploration.

(** ** The hypotheses are met. *)
(** A size that falls from 5 to 3 when the period reaches 2: the exploration finds both, the
    second within a 5000th. *)
Definition two_sizes (p : Q) : outcome Z := Ok (if Qle_bool 2 p then 3 else 5).
Example two_sizes_meet : (forall p, (/ 1 <= p)%Q -> exists z, two_sizes p = Ok z /\ 0 < z) /\ slower_never_larger two_sizes.
Proof.
  split; [intros p _; unfold two_sizes; eexists; split; [reflexivity|]; destruct (Qle_bool 2 p); lia|]. unfold two_sizes. intros p q zp zq [=<-] [=<-] L.
  destruct (Qle_bool 2 p) eqn:A; destruct (Qle_bool 2 q) eqn:B; try lia. apply Qle_bool_iff in A. assert (C : (2 <= q)%Q) by lra. apply Qle_bool_iff in C. congruence.
Qed.
Example two_sizes_run : exists p5, dse_from_function two_sizes (2 ^ 15 - 1) 1 = Ok [(2%Q, 3); (p5, 5)] /\ (p5 == 1)%Q.
Proof. eexists. split; [vm_compute; reflexivity|reflexivity]. Qed.

(** One task with a channel to itself holding one token: at every period from 1 on the integer
    program has the same optimal point. *)
Definition loop1 : graph := mkGraph [mkVertex 1 1 0 [1%Q] [] 1] [mkEdge 1 0 0 [1] [1] [] [] 1].
Definition loop1_N (_ : nat) : Z := 1.
Definition loop1_point (v : var) : Q :=
  match v with LoopFix => 1 | Mop _ => 1 | Feedback _ => 1 | Local _ _ _ => -1 | Start _ _ => 0 end%Q.
Lemma loop1_wf : graph_wf loop1.
Proof.
  split; [|split].
  - intros v [<-|[]]; (split; [cbn; lia|split; [reflexivity|split; [reflexivity|]]]); cbn; in_cases; unfold Qle; cbn; lia.
  - intros c [<-|[]]; eexists; eexists; (split; [reflexivity|split; [reflexivity|]]);
      repeat (split; [reflexivity|]); (split; [cbn; in_cases; lia|]); cbn; lia.
  - repeat constructor; cbn; intuition discriminate.
Qed.
Lemma loop1_balanced : balanced loop1 loop1_N. Proof. intros c [<-|[]]; reflexivity. Qed.
Lemma loop1_no_init : no_init loop1. Proof. intros v [<-|[]]; reflexivity. Qed.
Lemma loop1_cycles : whole_cycles loop1 loop1_N.
Proof. intros [|[|i]] v E; cbn in E; try discriminate; injection E as <-; split; try reflexivity; exists 1; reflexivity. Qed.
Lemma loop1_single : no_reentrancy loop1. Proof. intros v [<-|[]]; reflexivity. Qed.
Lemma loop1_positive : positive_durations loop1. Proof. intros v d [<-|[]]; cbn; in_cases; reflexivity. Qed.
Lemma loop1_solved period p : (1 <= period)%Q -> periodic_lp true (fun _ => 1) loop1 loop1_N period = Ok p -> optimal p loop1_point.
Proof.
  intros Hp E. unfold periodic_lp in E. cbn in E. unfold app_lp in E. cbn [columns rows app] in E. injection E as <-.
  change (inject_Z (loop1_N 0)) with (inject_Z 1). change (inject_Z (-1)) with (-1)%Q. change (inject_Z 1) with 1%Q.
  assert (X : (period * 1 / 1 == period)%Q) by field. assert (X' : (period * 1 / 1 / 1 == period)%Q) by field. set (w := (period * 1 / 1)%Q) in *. set (w' := (w / 1)%Q) in *. clearbody w w'.
  split.
  - split.
    + intros r Hr. cbn in Hr. repeat destruct Hr as [<-|Hr]; try destruct Hr; unfold row_value; cbn [fold_right row_coefs row_low fst snd loop1_point];
        change (inject_Z 0) with 0%Q; lra.
    + intros c Hc. cbn in Hc. repeat destruct Hc as [<-|Hc]; try destruct Hc; cbn; (split; [try lra; try reflexivity; exact I|]); intros _; first [exists 1; reflexivity|exists (-1); reflexivity|exists 0; reflexivity].
  - intros y [R C]. cbn [columns rows] in R, C.
    match type of R with context [In _ ?l] => assert (Fr : Forall (fun r => (row_low r <= row_value y r)%Q) l) by (apply Forall_forall; exact R) end.
    match type of C with context [In _ ?l] => assert (Fc : Forall (fun c => in_bound (col_bound c) (y (col_var c)) /\ (col_int c = true -> exists z, (y (col_var c) == inject_Z z)%Q)) l) by (apply Forall_forall; exact C) end.
    clear R C. cbn [app] in Fr, Fc. repeat match goal with H : Forall _ (_ :: _) |- _ => inversion_clear H end.
    unfold row_value, objective in *. cbn [fold_right row_coefs row_low col_bound col_cost col_var col_int columns fst snd in_bound app] in *.
    repeat match goal with H : _ /\ _ |- _ => destruct H end. cbn [loop1_point].
    repeat match goal with H : true = true -> _ |- _ => specialize (H eq_refl); destruct H end.
    match goal with Hz : (y (Local 0 1 1) == inject_Z ?z)%Q |- _ =>
      assert (Lz : z <= -1) by (destruct (Z_lt_le_dec z 0) as [|L]; [lia|exfalso]; rewrite Zle_Qle, <- Hz in L; change (inject_Z 0) with 0%Q in L; nra); rewrite Zle_Qle, <- Hz in Lz end.
    change (inject_Z (-1)) with (-1)%Q in Lz. change (inject_Z 0) with 0%Q in *. lra.
Qed.
Lemma loop1_best : best_periodic_throughput loop1 loop1_N (fun _ => 1) 1.
Proof.
  split.
  - intros _. destruct (C89_sizes_are_enough (fun _ => Some loop1_point) true (fun _ => 1) loop1 loop1_N 1 loop1_wf loop1_balanced loop1_no_init loop1_cycles loop1_single eq_refl) as (p & E & H).
    destruct (H loop1_point eq_refl (proj1 (loop1_solved 1 p (Qle_refl 1) E))) as (cap & _ & s & Per & Val & _). exists s. split; [exact Val|exact Per].
  - intros s omega [_ Ser] _ Per. split; [reflexivity|]. specialize (Per 0%nat _ 0%nat eq_refl). specialize (Ser 0%nat _ eq_refl 0%nat). unfold start_of, exec_duration in Ser. cbn in Per, Ser.
    change (Pos.to_nat 1) with 1%nat in Per. cbn in Per.
    assert (X : (task_period omega 1 1 (loop1_N 0) == omega)%Q) by (unfold task_period, loop1_N; change (inject_Z (1 * 1)) with 1%Q; change (inject_Z 1) with 1%Q; field). rewrite X in Per. change (/ 1)%Q with 1%Q. lra.
Qed.
Example loop1_exploration : exists points, dse_from_function (ilp_sizing (fun _ => Some loop1_point) (fun _ => 1) loop1 loop1_N) (2 ^ 15 - 1) 1 = Ok points /\
  points <> [] /\ forall p z, In (p, z) points -> (1 <= p)%Q /\ least_storage loop1 loop1_N (fun _ => 1) p z.
Proof.
  destruct (C96_periodic_exploration (fun _ => Some loop1_point) (fun _ => 1) loop1 loop1_N 1 (2 ^ 15 - 1) loop1_wf loop1_balanced loop1_no_init loop1_cycles loop1_single loop1_positive
    ltac:(discriminate) ltac:(reflexivity) eq_refl loop1_best) as (points & E & Real & _ & Compl).
  - intros period p Hp Ep. change (/ 1)%Q with 1%Q in Hp. pose proof (loop1_solved period p Hp Ep) as O. split; [apply O|intros _; exact O].
  - apply Nat.le_refl.
  - exists points. split; [exact E|]. split; [|exact Real]. destruct loop1_best as [B _]. destruct (B eq_refl) as (s & V & Per).
    destruct (SizingOffsets.capacities_exist (fun _ => 1) loop1 loop1_N (/ 1) loop1_wf loop1_balanced loop1_no_init loop1_cycles eq_refl s Per V) as [cap Fc].
    destruct (Compl 1%Q cap) as (p & z & I & _); [vm_compute; discriminate|apply Qle_refl|exists s; repeat split; try assumption; apply V|]. intros ->. exact I.
Qed.

(** A graph for which the throughput handed to the exploration is 0: two tasks waiting for each other. *)
Definition stuck : graph :=
  mkGraph [mkVertex 1 1 0 [1%Q] [] 1; mkVertex 2 1 0 [1%Q] [] 1] [mkEdge 1 0 1 [1] [1] [] [] 0; mkEdge 2 1 0 [1] [1] [] [] 0].
Example stuck_throughput : periodic_throughput howard_solve (fun _ => 1) stuck (fun _ => 1) = Ok 0%Q.
Proof. vm_compute. reflexivity. Qed.
