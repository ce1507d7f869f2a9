(** What a feasible point of the programs says about the tasks' start times. *)
From Coq Require Import QArith Qround Lqa Lia.
From Verif Require Import Base Graph Commons CommonsProofs KPeriodic ScheduleSpec ScheduleCore KPeriodicProofs KPeriodicChannel KPeriodicGraph KPeriodicEnd
  KIterSpec SPeriodicProofs DseSpec Sizing SizingSpec SizingCore SizingLp.
Open Scope Z_scope.

Definition column_ok (x : var -> Q) (c : column) : Prop :=
  in_bound (col_bound c) (x (col_var c)) /\ (col_int c = true -> exists z, (x (col_var c) == inject_Z z)%Q).

Lemma feasible_app p q x : feasible (app_lp p q) x <-> feasible p x /\ feasible q x.
Proof.
  unfold feasible, app_lp. cbn [columns rows]. split.
  - intros [A B]. split; split; intros; (apply A || apply B); apply in_or_app; auto.
  - intros [[A B] [C D]]. split; intros r I; apply in_app_or in I; destruct I; auto.
Qed.
Lemma feasible_concat l x : feasible (concat_pure l) x <-> forall p, In p l -> feasible p x.
Proof.
  induction l as [|p l IH]; [split; [intros _ p []|intros _; split; intros r []]|].
  rewrite concat_pure_cons, feasible_app, IH. split.
  - intros [A B] q [<-|I]; auto.
  - intros H. split; [apply H; left; reflexivity|intros q I; apply H; right; exact I].
Qed.
Lemma objective_app p q x : (objective (app_lp p q) x == objective p x + objective q x)%Q.
Proof.
  unfold objective, app_lp. cbn [columns]. induction (columns p) as [|c l IH]; cbn [app fold_right]; [ring|]. rewrite IH. ring.
Qed.

Section L.
Variables (L : layout) (ilp : bool) (theta : nat -> Z) (g : graph) (N : nat -> Z) (period : Q).
Hypothesis Hwf : graph_wf g.
Hypothesis Hbal : balanced g N.
Hypothesis Hno : no_init g.
Hypothesis Hcyc : whole_cycles g N.
Hypothesis Hper : (0 < period)%Q.
Variable off : nat -> nat -> Q.
Hypothesis Hskip : forall i j a b, l_skip L i j a b = true -> l_var L i a = l_var L j b.

Notation mu_of := (mu_of g N period).
Notation tick := (tick g N period).
Notation tick' := (tick' g N period).

(** The start of phase [a] of task [i]. *)
Definition T (x : var -> Q) (i a : nat) : Q := (x (l_var L i (Z.of_nat a + 1)) + off i a)%Q.

Definition pair_holds (x : var -> Q) (k : nat) (c : edge) (i j : nat) : Prop :=
  (amin c (mop_of c) i j <= amax c (mop_of c) i j ->
     (T x (e_src c) i + exec_duration (vertex_at g (e_src c)) i + inject_Z (amax c (mop_of c) i j) * tick c <= T x (e_dst c) j)%Q) /\
  (0 < prod_rate c i -> 0 < cons_rate c j ->
     (T x (e_dst c) j + exec_duration (vertex_at g (e_dst c)) j + x (Local k (Z.of_nat i + 1) (Z.of_nat j + 1)) * inject_Z (gz c) * tick' c <= T x (e_src c) i)%Q /\
     (inject_Z (sumf (prod_rate c) (S i) - sumf (cons_rate c) j - gz c) <= x (Local k (Z.of_nat i + 1) (Z.of_nat j + 1)) * inject_Z (gz c) + x (Feedback k))%Q /\
     (ilp = true -> exists z, (x (Local k (Z.of_nat i + 1) (Z.of_nat j + 1)) == inject_Z z)%Q)).
Definition channel_holds (x : var -> Q) (k : nat) (c : edge) : Prop :=
  (forall col, In col (head_columns ilp theta g k c) -> column_ok x col) /\
  (forall i j, (i < v_phases (vertex_at g (e_src c)))%nat -> (j < v_phases (vertex_at g (e_dst c)))%nat -> pair_holds x k c i j).

Lemma pair_feasible x k c i j : feasible (pair_pure L ilp g N period off k c (mop_of c) i j) x <-> pair_holds x k c i j.
Proof.
  unfold pair_pure, pair_holds, T. set (ai := Z.of_nat i + 1). set (aj := Z.of_nat j + 1).
  set (lo := x (Local k ai aj)).
  assert (Nrm : (forall r, In r (normal_rows L g N period off k c (mop_of c) i j) -> (row_low r <= row_value x r)%Q) <->
     (amin c (mop_of c) i j <= amax c (mop_of c) i j ->
     (x (l_var L (e_src c) ai) + off (e_src c) i + exec_duration (vertex_at g (e_src c)) i + inject_Z (amax c (mop_of c) i j) * tick c <= x (l_var L (e_dst c) aj) + off (e_dst c) j)%Q)).
  { unfold normal_rows. fold ai aj. destruct (Z.leb_spec (amin c (mop_of c) i j) (amax c (mop_of c) i j)) as [Le|Gt].
    - destruct (l_skip L (e_src c) (e_dst c) ai aj) eqn:Sk.
      + apply Hskip in Sk. rewrite Sk. split.
        * intros H _. specialize (H _ (or_introl eq_refl)). cbn in H. lra.
        * intros H r [<-|[]]. specialize (H Le). cbn. lra.
      + split.
        * intros H _. specialize (H _ (or_introl eq_refl)). cbn [row_low row_value row_coefs fold_right fst snd] in H. lra.
        * intros H r [<-|[]]. specialize (H Le). cbn [row_low row_value row_coefs fold_right fst snd]. unfold row_value. cbn [row_coefs fold_right fst snd]. lra.
    - split; [intros _ X; lia|intros _ r []]. }
  destruct (Z.min (prod_rate c i) (cons_rate c j) >? 0) eqn:Mn.
  - unfold feasible. cbn [rows columns]. split.
    + intros [R C]. split; [apply Nrm; intros r Ir; apply R; apply in_or_app; left; exact Ir|]. intros _ _.
      match type of R with context [In _ (_ ++ ?l)] =>
        assert (R' : forall r, In r l -> (row_low r <= row_value x r)%Q) by (intros r Ir; apply R; apply in_or_app; right; exact Ir) end.
      pose proof (R' _ (or_introl eq_refl)) as R1. pose proof (R' _ (or_intror (or_introl eq_refl))) as R2. clear R'.
      destruct (C _ (or_introl eq_refl)) as [_ C1]. unfold row_value in R1, R2. cbn [row_low row_coefs fold_right fst snd col_int col_var] in *.
      fold lo in R2. split; [|split; [|exact C1]].
      * destruct (l_skip L (e_src c) (e_dst c) ai aj) eqn:Sk; cbn [fold_right fst snd] in R1; fold lo in R1.
        -- apply Hskip in Sk. rewrite Sk. lra.
        -- lra.
      * replace (sumf (prod_rate c) (S i) - sumf (cons_rate c) j - gz c) with (- sumf (cons_rate c) j + sumf (prod_rate c) (S i) - gz c) by lia. lra.
    + intros [A B]. assert (Pi : 0 < prod_rate c i) by lia. assert (Pj : 0 < cons_rate c j) by lia. destruct (B Pi Pj) as (B1 & B2 & B3). split.
      * intros r I. apply in_app_or in I. destruct I as [I|[<-|[<-|[]]]].
        -- apply Nrm; assumption.
        -- unfold row_value. cbn [row_low row_coefs fold_right fst snd]. fold lo.
           destruct (l_skip L (e_src c) (e_dst c) ai aj) eqn:Sk; cbn [fold_right fst snd].
           ++ apply Hskip in Sk. rewrite Sk in B1. lra.
           ++ lra.
        -- unfold row_value. cbn [row_low row_coefs fold_right fst snd]. fold lo.
           replace (sumf (prod_rate c) (S i) - sumf (cons_rate c) j - gz c) with (- sumf (cons_rate c) j + sumf (prod_rate c) (S i) - gz c) in B2 by lia. lra.
      * intros col [<-|[]]. cbn. split; [exact I|exact B3].
  - unfold feasible. cbn [rows columns]. rewrite Nrm. split.
    + intros [R _]. split; [exact R|]. intros. lia.
    + intros [R _]. split; [exact R|intros col []].
Qed.

Lemma channel_feasible x k c : feasible (channel_pure L ilp theta g N period off k c) x <-> channel_holds x k c.
Proof.
  unfold channel_pure, channel_holds. rewrite feasible_app, feasible_concat.
  assert (H1 : feasible (mkLp (head_columns ilp theta g k c) []) x <-> forall col, In col (head_columns ilp theta g k c) -> column_ok x col).
  { unfold feasible. cbn [rows columns]. split; [intros [_ C]; exact C|intros C; split; [intros r []|exact C]]. }
  rewrite H1. split; intros [A B]; (split; [exact A|]).
  - intros i j Li Lj. apply pair_feasible.
    specialize (B (concat_pure (map (fun j => pair_pure L ilp g N period off k c (mop_of c) i j) (seq 0 (v_phases (vertex_at g (e_dst c))))))).
    rewrite feasible_concat in B. apply B.
    + apply in_map_iff. exists i. split; [reflexivity|apply in_seq; lia].
    + apply in_map_iff. exists j. split; [reflexivity|apply in_seq; lia].
  - intros p I. apply in_map_iff in I. destruct I as (i & <- & I). apply in_seq in I. apply feasible_concat.
    intros q J. apply in_map_iff in J. destruct J as (j & <- & J). apply in_seq in J. apply pair_feasible. apply B; lia.
Qed.

Lemma channels_feasible x : feasible (channels_pure L ilp theta g N period off) x <->
  forall k c, nth_error (edges g) k = Some c -> channel_holds x k c.
Proof.
  unfold channels_pure. rewrite feasible_concat. split.
  - intros H k c E. apply channel_feasible. apply H. apply in_map_iff. exists (k, c). split; [reflexivity|]. apply indexed_in. exact E.
  - intros H p I. apply in_map_iff in I. destruct I as ((k, c) & <- & I). apply indexed_in in I. apply channel_feasible. apply H. exact I.
Qed.

(** ** The objective. *)
Lemma objective_free p x : (forall col, In col (columns p) -> (col_cost col == 0)%Q) -> (objective p x == 0)%Q.
Proof.
  unfold objective. induction (columns p) as [|c l IH]; intros H; cbn [fold_right]; [reflexivity|].
  rewrite IH by (intros; apply H; right; assumption). rewrite (H c (or_introl eq_refl)). ring.
Qed.

Lemma channel_objective x k c : (objective (channel_pure L ilp theta g N period off k c) x ==
  (if (k =? 0)%nat then 2 * x LoopFix else 0) + inject_Z (theta k) * (x (Mop k) + x (Feedback k)))%Q.
Proof.
  unfold channel_pure. rewrite objective_app. rewrite (objective_free (concat_pure _)).
  - unfold objective, head_columns. cbn [columns]. destruct (k =? 0)%nat; cbn [app fold_right col_cost col_var]; ring.
  - intros col I. cbn [columns concat_pure] in I. apply in_flat_map in I. destruct I as (p & I & J).
    apply in_map_iff in I. destruct I as (i & <- & _). cbn [columns concat_pure] in J. apply in_flat_map in J. destruct J as (q & I & J).
    apply in_map_iff in I. destruct I as (j & <- & _). unfold pair_pure in J. destruct (_ >? 0); cbn [columns] in J; [|destruct J].
    destruct J as [<-|[]]. reflexivity.
Qed.

Definition sumq (f : nat -> Q) (n : nat) : Q := fold_right (fun k acc => f k + acc)%Q 0%Q (seq 0 n).

Lemma channels_objective x : (objective (channels_pure L ilp theta g N period off) x ==
  (if (length (edges g) =? 0)%nat then 0 else 2 * x LoopFix) + sumq (fun k => inject_Z (theta k) * (x (Mop k) + x (Feedback k))) (length (edges g)))%Q.
Proof.
  assert (G : forall l a, (objective (concat_pure (map (fun kc => channel_pure L ilp theta g N period off (fst kc) (snd kc)) (combine (seq a (length l)) l))) x ==
     (if (a =? 0)%nat && negb (length l =? 0)%nat then 2 * x LoopFix else 0) + fold_right (fun k acc => inject_Z (theta k) * (x (Mop k) + x (Feedback k)) + acc)%Q 0%Q (seq a (length l)))%Q).
  { induction l as [|c l IH]; intros a; cbn [length seq combine map fold_right].
    - cbn. rewrite andb_false_r. ring.
    - rewrite concat_pure_cons, objective_app, IH, channel_objective. cbn [fst snd Nat.eqb negb andb]. rewrite andb_true_r. destruct (a =? 0)%nat; ring. }
  unfold channels_pure, indexed. rewrite G. unfold sumq. cbn [Nat.eqb andb]. destruct (length (edges g) =? 0)%nat; cbn [negb]; ring.
Qed.
End L.
