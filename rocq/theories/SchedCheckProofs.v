(** The schedule checker accepts the valid schedules of single-phase graphs. *)
From Coq Require Import QArith Qround Lqa Permutation.
From Verif Require Import Base Graph ScheduleSpec ScheduleCore SymbExecSpec SchedCheck SchedCheckSpec.
Open Scope Z_scope.

(** ** The start times that are drawn *)
Fixpoint gen (m : nat) (p : Q) (l : list Q) : Q :=
  match l with
  | [] => 0%Q
  | x :: l' => match m with O => x | S m' => gen m' p (l' ++ [(x + p)%Q]) end
  end.
Fixpoint spin (m : nat) (p : Q) (l : list Q) : list Q :=
  match m with O => l | S m' => match l with [] => [] | x :: l' => spin m' p (l' ++ [(x + p)%Q]) end end.
Lemma spin_length m p : forall l, length (spin m p l) = length l.
Proof. induction m as [|m IH]; intros [|x l]; cbn; auto. rewrite IH, app_length. cbn. lia. Qed.
Lemma gen_spin k p : forall m l, l <> [] -> gen m p (spin k p l) = gen (k + m) p l.
Proof. induction k as [|k IH]; intros m [|x l] NE; try congruence; try reflexivity. cbn [spin Nat.add gen]. apply IH. destruct l; discriminate. Qed.
Lemma gen_low m p : forall l, (m < length l)%nat -> gen m p l = nth m l 0%Q.
Proof.
  induction m as [|m IH]; intros [|x l] L; cbn in *; try lia; [reflexivity|]. rewrite IH by (rewrite app_length; cbn; lia). rewrite app_nth1 by lia. reflexivity.
Qed.
Lemma spin_app p : forall l1 l2, spin (length l1) p (l1 ++ l2) = l2 ++ map (fun x => (x + p)%Q) l1.
Proof.
  induction l1 as [|x l1 IH]; intros l2; cbn [length spin app map]; [symmetry; apply app_nil_r|]. rewrite <- app_assoc, IH, <- app_assoc. reflexivity.
Qed.
Lemma gen_turn p l m : l <> [] -> gen (length l + m) p l = gen m p (map (fun x => (x + p)%Q) l).
Proof. intros NE. rewrite <- gen_spin by exact NE. pose proof (spin_app p l []) as E. rewrite app_nil_r in E. rewrite E. reflexivity. Qed.
Lemma gen_closed p : forall m l, l <> [] -> (gen m p l == nth (m mod length l) l 0 + p * inject_Z (Z.of_nat (m / length l)))%Q.
Proof.
  induction m as [m IH] using lt_wf_ind. intros l NE. assert (Ln : (length l <> 0)%nat) by (destruct l; cbn; congruence).
  destruct (Nat.lt_ge_cases m (length l)) as [L|L].
  - rewrite gen_low, Nat.mod_small, Nat.div_small by exact L. change (inject_Z (Z.of_nat 0)) with 0%Q. lra.
  - assert (E : m = (length l + (m - length l))%nat) by lia. rewrite E at 1. rewrite gen_turn by exact NE. rewrite IH by (try lia; destruct l; cbn; congruence). rewrite map_length.
    set (k := (m - length l)%nat) in *. assert (M1 : (m mod length l = k mod length l)%nat) by (rewrite E, <- (Nat.mul_1_l (length l)) at 1; rewrite Nat.add_comm, Nat.mod_add by exact Ln; reflexivity).
    assert (M2 : (m / length l = S (k / length l))%nat) by (rewrite E, <- (Nat.mul_1_l (length l)) at 1; rewrite Nat.add_comm, Nat.div_add by exact Ln; lia).
    rewrite M1, M2, Nat2Z.inj_succ. unfold Z.succ. rewrite inject_Z_plus. change (inject_Z 1) with 1%Q.
    rewrite (nth_indep _ 0%Q (0 + p)%Q) by (rewrite map_length; apply Nat.mod_upper_bound, Ln). rewrite (map_nth (fun x => (x + p)%Q)). lra.
Qed.

Lemma draw_gen p : forall n l, l <> [] -> draw n p l = Ok (map (fun m => gen m p l) (seq 0 n), spin n p l).
Proof.
  induction n as [|n IH]; intros l NE; [reflexivity|]. destruct l as [|x l]; [congruence|]. cbn [draw]. rewrite IH by (destruct l; discriminate). cbn [bind fst snd seq map spin].
  f_equal. f_equal. f_equal. rewrite <- seq_shift, map_map. reflexivity.
Qed.
Lemma fill_gen p M : forall f e l, l <> [] -> (M <= e)%Q \/ (exists f', f = S f' /\ (M <= gen f' p l)%Q) -> exists q, fill f M e p l = Ok (map (fun m => gen m p l) (seq 0 q)) /\
  (M <= match q with O => e | S k => gen k p l end)%Q /\ forall k, q = S k -> (match k with O => e | S k' => gen k' p l end < M)%Q.
Proof.
  induction f as [|f IH]; intros e l NE H.
  - destruct H as [H|(f' & X & _)]; [|discriminate]. exists 0%nat. cbn. pose proof H as H'. apply Qle_bool_iff in H'. rewrite H'. split; [reflexivity|]. split; [exact H|discriminate].
  - cbn [fill]. destruct (Qle_bool M e) eqn:B; [exists 0%nat; split; [reflexivity|]; split; [apply Qle_bool_iff; exact B|discriminate]|].
    destruct H as [H|(f' & X & H)]; [apply Qle_bool_iff in H; congruence|]. injection X as <-. destruct l as [|x l]; [congruence|].
    destruct (IH x (l ++ [(x + p)%Q]) ltac:(destruct l; discriminate)) as (q & E & L & P).
    + destruct f as [|f']; [left; exact H|]. right. exists f'. split; [reflexivity|]. exact H.
    + exists (S q). rewrite E. cbn [bind seq map]. split; [rewrite <- seq_shift, map_map; reflexivity|]. split; [destruct q; exact L|].
      intros k Ek. injection Ek as <-. destruct q as [|q]; [|specialize (P q eq_refl); destruct q; exact P].
      destruct (Qlt_le_dec e M) as [X|X]; [exact X|]. apply Qle_bool_iff in X. congruence.
Qed.

(** ** Lists of start times *)
Lemma candidate_seq (a : nat -> Q) now seen : forall n k u, (n <= u < n + k)%nat -> (forall m, (n <= m < u)%nat -> (a m <= seen)%Q) -> (now <= a u)%Q -> (seen < a u)%Q ->
  candidate now seen (map a (seq n k)) = Some (a u).
Proof.
  intros n k. revert n. induction k as [|k IH]; intros n u L S N H; [lia|]. cbn [seq map]. destruct k as [|k].
  - cbn. f_equal. f_equal. lia.
  - change (map a (seq (Datatypes.S n) (Datatypes.S k))) with (a (Datatypes.S n) :: map a (seq (Datatypes.S (Datatypes.S n)) k)). cbn [candidate].
    destruct (Nat.eq_dec u n) as [->|Ne].
    + apply Qle_bool_iff in N. rewrite N. assert (B : Qle_bool (a n) seen = false) by (destruct (Qle_bool (a n) seen) eqn:B; [apply Qle_bool_iff in B; lra|reflexivity]). rewrite B. reflexivity.
    + assert (B : Qle_bool (a n) seen = true) by (apply Qle_bool_iff, S; lia). rewrite B, orb_true_r. apply (IH (Datatypes.S n) u); auto; [lia|]. intros m Hm. apply S. lia.
Qed.
Lemma candidate_done (a : nat -> Q) now seen : forall k n, (0 < k)%nat -> (forall m, (n <= m < n + k)%nat -> (a m <= seen)%Q) -> exists x, candidate now seen (map a (seq n k)) = Some x /\ (x <= seen)%Q.
Proof.
  induction k as [|k IH]; intros n P S; [lia|]. cbn [seq map]. destruct k as [|k]; [exists (a n); split; [reflexivity|apply S; lia]|].
  change (map a (seq (Datatypes.S n) (Datatypes.S k))) with (a (Datatypes.S n) :: map a (seq (Datatypes.S (Datatypes.S n)) k)). cbn [candidate].
  assert (B : Qle_bool (a n) seen = true) by (apply Qle_bool_iff, S; lia). rewrite B, orb_true_r. apply IH; [lia|]. intros m Hm. apply S. lia.
Qed.

(** The earliest of the remaining starts. *)
Lemma next_start_spec ck now : forall order (x : nat -> option Q), (forall i, In i order -> match x i with
     | Some y => candidate now (ck_hist ck i) (ck_sched ck i) = Some y /\ (ck_hist ck i < y)%Q
     | None => exists y, candidate now (ck_hist ck i) (ck_sched ck i) = Some y /\ (y <= ck_hist ck i)%Q end) ->
  match next_start ck order now with
  | None => forall i, In i order -> x i = None
  | Some (y, j) => In j order /\ x j = Some y /\ forall i z, In i order -> x i = Some z -> (y <= z)%Q
  end.
Proof.
  intros order x. unfold next_start. induction order as [|i l IH] using rev_ind; intros H; [intros i []|].
  rewrite fold_left_app. cbn [fold_left]. specialize (IH (fun j Hj => H j (in_or_app _ _ _ (or_introl Hj)))). specialize (H i ltac:(apply in_or_app; right; left; reflexivity)).
  set (best := fold_left _ l None) in *. clearbody best. destruct (x i) as [y|] eqn:Xi.
  - destruct H as [-> Hs]. assert (B : Qle_bool y (ck_hist ck i) = false) by (destruct (Qle_bool y (ck_hist ck i)) eqn:B; [apply Qle_bool_iff in B; lra|reflexivity]). rewrite B.
    destruct best as [[z j]|].
    + destruct IH as (Ij & Xj & Mn). destruct (Qle_bool y z) eqn:C.
      * apply Qle_bool_iff in C. split; [apply in_or_app; right; left; reflexivity|]. split; [exact Xi|]. intros k w Hk Xk. apply in_app_or in Hk. destruct Hk as [Hk|[<-|[]]]; [specialize (Mn k w Hk Xk); lra|]. rewrite Xi in Xk. injection Xk as <-. lra.
      * assert (C' : (z <= y)%Q) by (destruct (Qlt_le_dec y z) as [L|L]; [apply Qlt_le_weak, Qle_bool_iff in L; congruence|exact L]).
        split; [apply in_or_app; left; exact Ij|]. split; [exact Xj|]. intros k w Hk Xk. apply in_app_or in Hk. destruct Hk as [Hk|[<-|[]]]; [exact (Mn k w Hk Xk)|]. rewrite Xi in Xk. injection Xk as <-. exact C'.
    + split; [apply in_or_app; right; left; reflexivity|]. split; [exact Xi|]. intros k w Hk Xk. apply in_app_or in Hk. destruct Hk as [Hk|[<-|[]]]; [rewrite (IH k Hk) in Xk; discriminate|]. rewrite Xi in Xk. injection Xk as <-. lra.
  - destruct H as (y & -> & Hy). apply Qle_bool_iff in Hy. rewrite Hy. destruct best as [[z j]|].
    + destruct IH as (Ij & Xj & Mn). split; [apply in_or_app; left; exact Ij|]. split; [exact Xj|]. intros k w Hk Xk. apply in_app_or in Hk. destruct Hk as [Hk|[<-|[]]]; [exact (Mn k w Hk Xk)|congruence].
    + intros k Hk. apply in_app_or in Hk. destruct Hk as [Hk|[<-|[]]]; auto.
Qed.

(** ** Tokens *)
Lemma produce_load g ck i : NoDup (map e_id (edges g)) -> forall load c, In c (edges g) -> produce g ck load i (e_id c) = load (e_id c) + (if (e_src c =? i)%nat then nth (ck_phase ck i) (e_in c) 0 else 0).
Proof.
  intros ND load c Hc. unfold produce.
  assert (G : forall es, NoDup (map e_id es) -> forall ld, (In c es -> fold_left (fun ld c => if (e_src c =? i)%nat then set_load ld (e_id c) (ld (e_id c) + nth (ck_phase ck i) (e_in c) 0) else ld) es ld (e_id c) = ld (e_id c) + (if (e_src c =? i)%nat then nth (ck_phase ck i) (e_in c) 0 else 0)) /\
     (~ In (e_id c) (map e_id es) -> fold_left (fun ld c => if (e_src c =? i)%nat then set_load ld (e_id c) (ld (e_id c) + nth (ck_phase ck i) (e_in c) 0) else ld) es ld (e_id c) = ld (e_id c))).
  { induction es as [|x es IH]; intros N ld; [split; [intros []|reflexivity]|]. inversion N; subst. cbn [fold_left map]. split.
    - intros [->|I].
      + rewrite (proj2 (IH H2 _)) by exact H1. destruct (e_src c =? i)%nat; [|lia]. unfold set_load. rewrite Z.eqb_refl. reflexivity.
      + rewrite (proj1 (IH H2 _)) by exact I. f_equal. destruct (e_src x =? i)%nat; [|reflexivity]. unfold set_load. destruct (Z.eqb_spec (e_id c) (e_id x)) as [E|E]; [|reflexivity]. exfalso. apply H1. rewrite <- E. apply in_map, I.
    - intros Ni. rewrite (proj2 (IH H2 _)) by (intros X; apply Ni; right; exact X). destruct (e_src x =? i)%nat; [|reflexivity]. unfold set_load. destruct (Z.eqb_spec (e_id c) (e_id x)) as [E|E]; [|reflexivity]. exfalso. apply Ni. left. auto. }
  apply G; assumption.
Qed.
Lemma produce_all g ck : NoDup (map e_id (edges g)) -> forall outs load c, NoDup outs -> In c (edges g) ->
  fold_left (produce g ck) outs load (e_id c) = load (e_id c) + (if existsb (Nat.eqb (e_src c)) outs then nth (ck_phase ck (e_src c)) (e_in c) 0 else 0).
Proof.
  intros ND. induction outs as [|i outs IH]; intros load c N Hc; cbn [fold_left existsb]; [lia|]. inversion N; subst. rewrite IH, produce_load by assumption.
  destruct (Nat.eqb_spec (e_src c) i) as [E|E]; cbn [orb]; [|lia]. subst i. assert (X : existsb (Nat.eqb (e_src c)) outs = false) by (destruct (existsb (Nat.eqb (e_src c)) outs) eqn:X; [|reflexivity]; apply existsb_exists in X; destruct X as (y & Hy & Ey); apply Nat.eqb_eq in Ey; subst y; contradiction).
  rewrite X. lia.
Qed.
Lemma consume_ok ph i : forall es load, NoDup (map e_id es) -> (forall c, In c es -> e_dst c = i -> 0 <= load (e_id c) - nth ph (e_out c) 0) -> exists load', consume es ph i load = Some load' /\
  (forall c, In c es -> load' (e_id c) = load (e_id c) - (if (e_dst c =? i)%nat then nth ph (e_out c) 0 else 0)) /\ forall id, ~ In id (map e_id es) -> load' id = load id.
Proof.
  induction es as [|x es IH]; intros load N H; cbn [consume]; [exists load; split; [reflexivity|]; split; [intros c []|reflexivity]|]. inversion N as [|? ? N1 N2]; subst.
  destruct (Nat.eqb_spec (e_dst x) i) as [E|E].
  - pose proof (H x (or_introl eq_refl) E) as Hx. destruct (Z.ltb_spec (load (e_id x) - nth ph (e_out x) 0) 0); [lia|].
    destruct (IH (set_load load (e_id x) (load (e_id x) - nth ph (e_out x) 0)) N2) as (l' & E' & A & B).
    + intros c Hc Dc. unfold set_load. destruct (Z.eqb_spec (e_id c) (e_id x)) as [Ec|Ec]; [exfalso; apply N1; rewrite <- Ec; apply in_map, Hc|]. apply H; [right; exact Hc|exact Dc].
    + exists l'. split; [exact E'|]. split.
      * intros c [->|Hc].
        -- rewrite B by exact N1. unfold set_load. rewrite Z.eqb_refl. destruct (Nat.eqb_spec (e_dst c) i); [reflexivity|congruence].
        -- rewrite A by exact Hc. unfold set_load. destruct (Z.eqb_spec (e_id c) (e_id x)) as [Ec|Ec]; [exfalso; apply N1; rewrite <- Ec; apply in_map, Hc|reflexivity].
      * intros id Ni. rewrite B by (intros X; apply Ni; right; exact X). unfold set_load. destruct (Z.eqb_spec id (e_id x)) as [Ec|Ec]; [exfalso; apply Ni; left; auto|reflexivity].
  - destruct (IH load N2) as (l' & E' & A & B); [intros c Hc; apply H; right; exact Hc|]. exists l'. split; [exact E'|]. split.
    + intros c [->|Hc]; [|apply A, Hc]. rewrite B by exact N1. destruct (Nat.eqb_spec (e_dst c) i); [congruence|lia].
    + intros id Ni. apply B. intros X. apply Ni. right. exact X.
Qed.
Lemma consume_none ph i : forall es load, NoDup (map e_id es) -> consume es ph i load = None -> exists c, In c es /\ e_dst c = i /\ load (e_id c) - nth ph (e_out c) 0 < 0.
Proof.
  intros es load ND H. destruct (existsb (fun c => (e_dst c =? i)%nat && (load (e_id c) - nth ph (e_out c) 0 <? 0)) es) eqn:E.
  - apply existsb_exists in E. destruct E as (c & Hc & E). apply andb_prop in E. destruct E as [E1 E2]. apply Nat.eqb_eq in E1. apply Z.ltb_lt in E2. exists c. auto.
  - exfalso. destruct (consume_ok ph i es load ND) as (l' & X & _); [|congruence]. intros c Hc Dc. destruct (Z.lt_ge_cases (load (e_id c) - nth ph (e_out c) 0) 0) as [L|L]; [|lia]. exfalso.
    assert (Y : existsb (fun c => (e_dst c =? i)%nat && (load (e_id c) - nth ph (e_out c) 0 <? 0)) es = true); [|congruence]. apply existsb_exists. exists c. split; [exact Hc|]. apply Nat.eqb_eq in Dc. apply Z.ltb_lt in L. rewrite Dc, L. reflexivity.
Qed.
Lemma consume_some ph i : forall es load l', NoDup (map e_id es) -> consume es ph i load = Some l' -> forall c, In c es -> e_dst c = i -> 0 <= load (e_id c) - nth ph (e_out c) 0.
Proof.
  induction es as [|x es IH]; intros load l' ND H c Hc Dc; [destruct Hc|]. inversion ND as [|? ? N1 N2]; subst. cbn [consume] in H. destruct (Nat.eqb_spec (e_dst x) (e_dst c)) as [E|E].
  - cbv zeta in H. destruct (Z.ltb_spec (load (e_id x) - nth ph (e_out x) 0) 0) as [L|L]; [discriminate|]. destruct Hc as [->|Hc]; [exact L|]. specialize (IH _ _ N2 H c Hc eq_refl). unfold set_load in IH. destruct (Z.eqb_spec (e_id c) (e_id x)) as [X|X]; [|exact IH]. exfalso. apply N1. rewrite <- X. apply in_map, Hc.
  - destruct Hc as [->|Hc]; [congruence|]. exact (IH _ _ N2 H c Hc eq_refl).
Qed.
Lemma finish_all g : forall outs ck, NoDup outs -> let ck' := fold_left (finish g) outs ck in ck_hist ck' = ck_hist ck /\ ck_load ck' = ck_load ck /\
  forall i, (existsb (Nat.eqb i) outs = true -> ck_sched ck' i = tl (ck_sched ck i) /\ ck_phase ck' i = ((ck_phase ck i + 1) mod length (v_durations (task g i)))%nat /\ ck_left ck' i = (if 0 <? ck_left ck i then ck_left ck i - 1 else ck_left ck i)) /\
            (existsb (Nat.eqb i) outs = false -> ck_sched ck' i = ck_sched ck i /\ ck_phase ck' i = ck_phase ck i /\ ck_left ck' i = ck_left ck i).
Proof.
  induction outs as [|o outs IH]; intros ck N; cbn [fold_left existsb]; [cbn; split; [reflexivity|]; split; [reflexivity|]; intros i; split; [discriminate|auto]|]. inversion N; subst.
  destruct (IH (finish g ck o) H2) as (A & B & C). split; [exact A|]. split; [exact B|]. intros i. destruct (C i) as [C1 C2].
  destruct (Nat.eqb_spec i o) as [->|E]; cbn [orb].
  - split; [|discriminate]. intros _. assert (X : existsb (Nat.eqb o) outs = false) by (destruct (existsb (Nat.eqb o) outs) eqn:X; [|reflexivity]; apply existsb_exists in X; destruct X as (y & Hy & Ey); apply Nat.eqb_eq in Ey; subst y; contradiction).
    destruct (C2 X) as (-> & -> & ->). unfold finish. cbn [ck_sched ck_phase ck_left]. unfold set_at. rewrite Nat.eqb_refl. auto.
  - assert (K : ck_sched (finish g ck o) i = ck_sched ck i /\ ck_phase (finish g ck o) i = ck_phase ck i /\ ck_left (finish g ck o) i = ck_left ck i) by (unfold finish; cbn [ck_sched ck_phase ck_left]; unfold set_at; destruct (Nat.eqb_spec i o); [congruence|auto]).
    destruct K as (K1 & K2 & K3). rewrite K1, K2, K3 in C1, C2. split; assumption.
Qed.

(** ** The loop *)
Section Loop.
Variables (g : graph) (order : list nat) (st : nat -> nat -> Q) (L B : nat -> nat) (d : nat -> Q) (M : Q) (a b : edge -> Z).
Hypothesis NDo : NoDup order.
Hypothesis NDe : NoDup (map e_id (edges g)).
Hypothesis Ends : forall c, In c (edges g) -> In (e_src c) order /\ In (e_dst c) order.
Hypothesis Rates : forall c, In c (edges g) -> e_in c = [a c] /\ e_out c = [b c] /\ 0 <= b c.
Hypothesis Dur : forall i, In i order -> v_durations (task g i) = [d i] /\ (0 < d i)%Q /\ 0 < v_reentrancy (task g i).
Hypothesis Ser : forall i m, In i order -> (st i m + d i <= st i (S m))%Q.
Hypothesis Pos : forall i, In i order -> (0 <= st i 0%nat)%Q.
Hypothesis BM : forall i, In i order -> (st i (B i) <= M)%Q.
Hypothesis ML : forall i, In i order -> (M <= st i (L i - 1)%nat)%Q.
Hypothesis M0 : (0 <= M)%Q.
Hypothesis Two : forall n, exists i, In i order /\ i <> n.

Lemma st_lt i m n : In i order -> (m < n)%nat -> (st i m + d i <= st i n)%Q.
Proof.
  clear - Dur Ser. intros Hi H. destruct (Dur i Hi) as (_ & D & _). induction n as [|n IH]; [lia|]. destruct (Nat.eq_dec m n) as [->|E]; [apply Ser, Hi|]. specialize (IH ltac:(lia)). pose proof (Ser i n Hi). lra.
Qed.
Lemma st_le i m n : In i order -> (m <= n)%nat -> (st i m <= st i n)%Q.
Proof. clear - Dur Ser. intros Hi H. destruct (Dur i Hi) as (_ & D & _). destruct (Nat.eq_dec m n) as [->|E]; [lra|]. pose proof (st_lt i m n Hi ltac:(lia)). lra. Qed.
Lemma st_nn i m : In i order -> (0 <= st i m)%Q.
Proof. clear - Dur Ser Pos. intros Hi. pose proof (st_le i 0 m Hi ltac:(lia)). pose proof (Pos i Hi). lra. Qed.

(** [u i] starts of task [i] have been seen or lie at 0, [dn i] executions have ended, [v i] have consumed. *)
Record inv (ck : check) (u dn v : nat -> nat) : Prop := mkInv {
  i_sched : forall i, In i order -> ck_sched ck i = map (st i) (seq (dn i) (L i - dn i));
  i_phase : forall i, In i order -> ck_phase ck i = 0%nat;
  i_left : forall i, In i order -> ck_left ck i = Z.of_nat (B i - dn i);
  i_hist0 : forall i, In i order -> (0 <= ck_hist ck i)%Q;
  i_hist : forall i k, In i order -> u i = S k -> (ck_hist ck i == st i k)%Q;
  i_new : forall i, In i order -> u i = 0%nat -> (ck_hist ck i < st i 0)%Q;
  i_dn : forall i, In i order -> (dn i <= u i <= dn i + 1)%nat /\ (u i <= L i)%nat /\ (dn i < L i)%nat;
  i_ended : forall i j m, In i order -> In j order -> (st i m + d i <= ck_hist ck j)%Q -> (m < dn i)%nat;
  i_v : forall i, In i order -> (v i <= u i)%nat;
  i_load : forall c, In c (edges g) -> ck_load ck (e_id c) = e_preload c + a c * Z.of_nat (dn (e_src c)) - b c * Z.of_nat (v (e_dst c))
}.

Lemma total_zero ck : (forall i, In i order -> 0 <= ck_left ck i) -> total_left ck order <> 0 -> exists i, In i order /\ 0 < ck_left ck i.
Proof.
  clear. unfold total_left. intros P. assert (G : forall l x, (forall i, In i l -> 0 <= ck_left ck i) -> fold_left (fun a i => a + ck_left ck i) l x <> x -> exists i, In i l /\ 0 < ck_left ck i).
  { induction l as [|i l IH]; intros x H N; cbn [fold_left] in N; [congruence|]. destruct (Z.eq_dec (ck_left ck i) 0) as [E|E].
    - rewrite E, Z.add_0_r in N. destruct (IH x (fun j Hj => H j (or_intror Hj)) N) as (j & Hj & Pj). exists j. split; [right; exact Hj|exact Pj].
    - exists i. split; [left; reflexivity|]. specialize (H i (or_introl eq_refl)). lia. }
  intros N. apply (G order 0); assumption.
Qed.
Lemma busy ck u dn v : inv ck u dn v -> total_left ck order <> 0 -> (exists j, In j order /\ (u j <= B j)%nat) /\ forall i, In i order -> (u i < L i)%nat.
Proof.
  intros I N. destruct (total_zero ck) as (j & Hj & Pj); [intros i Hi; rewrite (i_left _ _ _ _ I i Hi); lia|exact N|]. rewrite (i_left _ _ _ _ I j Hj) in Pj. destruct (i_dn _ _ _ _ I j Hj) as (D1 & D2 & D3).
  split; [exists j; split; [exact Hj|lia]|]. intros i Hi. destruct (i_dn _ _ _ _ I i Hi) as (E1 & E2 & E3). destruct (Nat.eq_dec (u i) (L i)) as [E|E]; [|lia]. exfalso.
  assert (K : u i = S (L i - 1)) by lia. pose proof (i_hist _ _ _ _ I i _ Hi K) as Hh. pose proof (ML i Hi) as Hm.
  assert (X : (B j - 1 < dn j)%nat); [|lia]. apply (i_ended _ _ _ _ I j i); auto. pose proof (BM j Hj) as Hb. pose proof (Ser j (B j - 1) Hj) as Hs. replace (S (B j - 1)) with (B j) in Hs by lia. lra.
Qed.

Definition ends (ck : check) (now : Q) (j : nat) : bool := Qle_bool (duration_now g ck j + hd 0%Q (ck_sched ck j))%Q now.
(** One turn of the loop. *)
Lemma turn f ck u dn v n now u' : inv ck u dn v -> In n order -> total_left ck order <> 0 ->
  (forall i, In i order -> (now <= st i (u i))%Q) -> (forall i, In i order -> (ck_hist ck i <= now)%Q) -> (now <= M)%Q ->
  (forall i m, In i order -> (m < dn i)%nat -> (st i m + d i <= now)%Q) ->
  (forall i, i <> n -> u' i = u i) -> (u' n = S (u n) /\ now = st n (u n) \/ u' n = u n /\ u n = 1%nat /\ (now == 0)%Q /\ v n = 0%nat /\ (st n 0%nat == 0)%Q) ->
  exists dn', (forall i m, In i order -> (st i m + d i <= now)%Q -> (m < dn' i)%nat) /\ (forall i m, In i order -> (m < dn' i)%nat -> (st i m + d i <= now)%Q) /\ (forall m, (m < S (v n))%nat -> (st n m <= now)%Q) /\
   ((check_loop (S f) g order ck n now = Ok false /\ exists c, In c (edges g) /\ e_dst c = n /\ e_preload c + a c * Z.of_nat (dn' (e_src c)) - b c * Z.of_nat (S (v n)) < 0) \/
    (forall c, In c (edges g) -> e_dst c = n -> 0 <= e_preload c + a c * Z.of_nat (dn' (e_src c)) - b c * Z.of_nat (S (v n))) /\
    exists ck2 now' j, check_loop (S f) g order ck n now = check_loop f g order ck2 j now' /\ inv ck2 u' dn' (fun i => if (i =? n)%nat then S (v i) else v i) /\ In j order /\ (u' j < L j)%nat /\ now' = st j (u' j) /\
    (forall i, In i order -> (u' i < L i)%nat -> (now' <= st i (u' i))%Q) /\ (forall i, In i order -> (ck_hist ck2 i <= now')%Q) /\ (now <= now')%Q).
Proof.
  intros I Hn NZ Mn Hh NM Past Uo Un. destruct (busy ck u dn v I NZ) as [_ Room].
  set (outs := filter (ends ck now) order).
  set (dn' := fun i => if existsb (Nat.eqb i) outs then S (dn i) else dn i).
  set (v' := fun i => if (i =? n)%nat then S (v i) else v i).
  assert (Head : forall i, In i order -> ends ck now i = Qle_bool (d i + st i (dn i))%Q now).
  { intros i Hi. unfold ends, duration_now. destruct (Dur i Hi) as (-> & _ & _). rewrite (i_phase _ _ _ _ I i Hi), (i_sched _ _ _ _ I i Hi). destruct (i_dn _ _ _ _ I i Hi) as (_ & _ & D). replace (L i - dn i)%nat with (S (L i - dn i - 1)) by lia. reflexivity. }
  assert (Outs : forall i, In i order -> existsb (Nat.eqb i) outs = ends ck now i).
  { intros i Hi. destruct (ends ck now i) eqn:E.
    - apply existsb_exists. exists i. split; [apply filter_In; auto|apply Nat.eqb_refl].
    - destruct (existsb (Nat.eqb i) outs) eqn:X; [|reflexivity]. apply existsb_exists in X. destruct X as (y & Hy & Ey). apply Nat.eqb_eq in Ey. subst y. apply filter_In in Hy. destruct Hy. congruence. }
  assert (NDout : NoDup outs) by (apply NoDup_filter, NDo).
  (* an execution that ends is the last one that was seen *)
  assert (Pop : forall i, In i order -> ends ck now i = true -> (dn i + 1)%nat = u i /\ (st i (dn i) + d i <= now)%Q).
  { intros i Hi E. rewrite (Head i Hi) in E. apply Qle_bool_iff in E. destruct (i_dn _ _ _ _ I i Hi) as (D1 & D2 & D3). split; [|lra]. destruct (Nat.eq_dec (dn i) (u i)) as [Eq|Ne]; [|lia]. exfalso. rewrite Eq in E. pose proof (Mn i Hi). destruct (Dur i Hi) as (_ & Dp & _). lra. }
  assert (Keep : forall i, In i order -> ends ck now i = false -> (now < st i (dn i) + d i)%Q).
  { intros i Hi E. rewrite (Head i Hi) in E. destruct (Qlt_le_dec now (st i (dn i) + d i)) as [X|X]; [exact X|]. exfalso. assert (Y : (d i + st i (dn i) <= now)%Q) by lra. apply Qle_bool_iff in Y. congruence. }
  assert (DN : forall i, In i order -> (dn' i = S (dn i) /\ ends ck now i = true) \/ (dn' i = dn i /\ ends ck now i = false)).
  { intros i Hi. unfold dn'. rewrite (Outs i Hi). destruct (ends ck now i); auto. }
  assert (Ended : forall i m, In i order -> (st i m + d i <= now)%Q -> (m < dn' i)%nat).
  { intros i m Hi E. destruct (Nat.lt_ge_cases m (dn' i)) as [X|X]; [exact X|]. exfalso. destruct (Dur i Hi) as (_ & Dp & _). destruct (DN i Hi) as [[E1 E2]|[E1 E2]]; rewrite E1 in X.
    - destruct (Pop i Hi E2) as [P1 P2]. pose proof (st_le i (u i) m Hi ltac:(lia)). pose proof (Mn i Hi). lra.
    - pose proof (Keep i Hi E2). pose proof (st_le i (dn i) m Hi X). lra. }
  assert (DU : forall i, In i order -> (dn' i <= u' i <= dn' i + 1)%nat /\ (dn' i < L i)%nat).
  { intros i Hi. destruct (i_dn _ _ _ _ I i Hi) as (D1 & D2 & D3). split.
    - assert (Base : (dn' i <= u i <= dn' i + 1)%nat) by (destruct (DN i Hi) as [[-> E2]|[-> E2]]; [destruct (Pop i Hi E2); lia|lia]).
      destruct (Nat.eq_dec i n) as [->|Ne]; [|rewrite Uo by exact Ne; exact Base]. destruct Un as [[-> Ew]|(-> & _)]; [|exact Base].
      destruct (DN n Hn) as [[E1 E2]|[E1 E2]]; rewrite E1 in *; [destruct (Pop n Hn E2); lia|]. destruct (Nat.eq_dec (dn n) (u n)); [lia|]. exfalso.
      pose proof (Keep n Hn E2) as K. pose proof (st_lt n (dn n) (u n) Hn ltac:(lia)). rewrite <- Ew in H. lra.
    - destruct (DN i Hi) as [[-> E2]|[-> E2]]; [|exact D3]. destruct (Pop i Hi E2) as [P1 P2]. pose proof (ML i Hi) as Q1. destruct (Dur i Hi) as (_ & Dp & _). destruct (Nat.eq_dec (S (dn i)) (L i)) as [Eq|Ne]; [|lia]. exfalso. replace (L i - 1)%nat with (dn i) in Q1 by lia. lra. }
  assert (VU : (S (v n) <= u' n)%nat). { pose proof (i_v _ _ _ _ I n Hn) as Hv. destruct Un as [[-> _]|(-> & -> & _ & -> & _)]; lia. }
  assert (Seen : forall m, (m < u' n)%nat -> (st n m <= now)%Q).
  { intros m Hm. destruct Un as [[E Ew]|(E & E1 & Ew & _ & E0)]; rewrite E in Hm.
    - rewrite Ew. apply st_le; [exact Hn|lia].
    - assert (m = 0)%nat as -> by lia. lra. }
  set (load1 := fold_left (produce g ck) outs (ck_load ck)).
  assert (Load1 : forall c, In c (edges g) -> load1 (e_id c) = e_preload c + a c * Z.of_nat (dn' (e_src c)) - b c * Z.of_nat (v (e_dst c))).
  { intros c Hc. unfold load1. rewrite (produce_all g ck NDe outs (ck_load ck) c NDout Hc), (i_load _ _ _ _ I c Hc). destruct (Rates c Hc) as (Ei & _ & _). destruct (Ends c Hc) as [Hs _]. rewrite Ei, (i_phase _ _ _ _ I _ Hs). unfold dn'. destruct (existsb (Nat.eqb (e_src c)) outs); cbn [nth]; lia. }
  exists dn'. split; [exact Ended|]. split.
  { intros i m Hi Hm. destruct (DN i Hi) as [[E1 E2]|[E1 E2]]; rewrite E1 in Hm; [|apply Past; assumption]. destruct (Nat.eq_dec m (dn i)) as [->|Ne]; [apply (Pop i Hi E2)|apply Past; [exact Hi|lia]]. }
  split; [intros m Hm; apply Seen; lia|].
  assert (Cost : forall c, In c (edges g) -> e_dst c = n -> load1 (e_id c) - nth (ck_phase ck n) (e_out c) 0 = e_preload c + a c * Z.of_nat (dn' (e_src c)) - b c * Z.of_nat (S (v n))).
  { intros c Hc Dc. rewrite (Load1 c Hc), Dc. destruct (Rates c Hc) as (_ & Eo & Pb). rewrite Eo, (i_phase _ _ _ _ I n Hn). cbn [nth]. lia. }
  assert (Ex : existsb (fun j => match ck_sched ck j with [] => true | _ => false end) order = false).
  { destruct (existsb _ order) eqn:X; [|reflexivity]. apply existsb_exists in X. destruct X as (y & Hy & Ey). rewrite (i_sched _ _ _ _ I y Hy) in Ey. destruct (i_dn _ _ _ _ I y Hy) as (_ & _ & D). replace (L y - dn y)%nat with (S (L y - dn y - 1)) in Ey by lia. discriminate. }
  assert (Unf : check_loop (S f) g order ck n now = match consume (edges g) (ck_phase ck n) n load1 with
      | None => Ok false
      | Some load => let ck1 := fold_left (finish g) outs ck in
        let ck2 := mkCheck (ck_sched ck1) (ck_phase ck1) (ck_left ck1) (set_at (ck_hist ck1) n now) load in
        match next_start ck2 order now with
        | None => Undefined
        | Some (now', j) => if (v_reentrancy (task g j) =? 0) && negb (Qle_bool (ck_hist ck2 j + duration_now g ck2 j)%Q now') then Ok false else check_loop f g order ck2 j now'
        end end).
  { cbn [check_loop]. destruct (Z.eqb_spec (total_left ck order) 0) as [E|_]; [congruence|]. rewrite Ex. reflexivity. }
  rewrite Unf. destruct (consume (edges g) (ck_phase ck n) n load1) as [l2|] eqn:Cs0.
  2:{ left. split; [reflexivity|]. destruct (consume_none _ _ _ _ NDe Cs0) as (c & Hc & Dc & Lt). exists c. split; [exact Hc|]. split; [exact Dc|]. rewrite <- (Cost c Hc Dc). exact Lt. }
  right. pose proof (consume_some (ck_phase ck n) n (edges g) load1 l2 NDe Cs0) as Cov. split; [intros c Hc Dc; rewrite <- (Cost c Hc Dc); apply Cov; assumption|].
  destruct (consume_ok (ck_phase ck n) n (edges g) load1 NDe Cov) as (load2 & Cs & Load2 & _). rewrite Cs0 in Cs. injection Cs as ->. cbv zeta.
  pose proof (finish_all g outs ck NDout) as F. cbv zeta in F. set (ck1 := fold_left (finish g) outs ck) in *. destruct F as (F1 & F2 & F3).
  set (ck2 := mkCheck (ck_sched ck1) (ck_phase ck1) (ck_left ck1) (set_at (ck_hist ck1) n now) load2).
  assert (I2 : inv ck2 u' dn' v').
  { constructor; cbn [ck2 ck_sched ck_phase ck_left ck_hist ck_load].
    - intros i Hi. destruct (F3 i) as [A1 A2]. rewrite (Outs i Hi) in A1, A2. destruct (DN i Hi) as [[-> E2]|[-> E2]].
      + destruct (A1 E2) as (-> & _). rewrite (i_sched _ _ _ _ I i Hi). destruct (i_dn _ _ _ _ I i Hi) as (_ & _ & D3). replace (L i - dn i)%nat with (S (L i - S (dn i))) by lia. reflexivity.
      + destruct (A2 E2) as (-> & _). apply (i_sched _ _ _ _ I i Hi).
    - intros i Hi. destruct (F3 i) as [A1 A2]. rewrite (Outs i Hi) in A1, A2. destruct (DN i Hi) as [[_ E2]|[_ E2]].
      + destruct (A1 E2) as (_ & -> & _). destruct (Dur i Hi) as (-> & _). rewrite (i_phase _ _ _ _ I i Hi). reflexivity.
      + destruct (A2 E2) as (_ & -> & _). apply (i_phase _ _ _ _ I i Hi).
    - intros i Hi. destruct (F3 i) as [A1 A2]. rewrite (Outs i Hi) in A1, A2. destruct (DN i Hi) as [[-> E2]|[-> E2]].
      + destruct (A1 E2) as (_ & _ & ->). rewrite (i_left _ _ _ _ I i Hi). destruct (Z.ltb_spec 0 (Z.of_nat (B i - dn i))); lia.
      + destruct (A2 E2) as (_ & _ & ->). apply (i_left _ _ _ _ I i Hi).
    - intros i Hi. unfold set_at. rewrite F1. destruct (Nat.eqb_spec i n) as [->|Ne]; [|apply (i_hist0 _ _ _ _ I i Hi)]. pose proof (Hh n Hn). pose proof (i_hist0 _ _ _ _ I n Hn). lra.
    - intros i k Hi Uk. unfold set_at. rewrite F1. destruct (Nat.eqb_spec i n) as [->|Ne]; [|rewrite Uo in Uk by exact Ne; exact (i_hist _ _ _ _ I i k Hi Uk)].
      destruct Un as [[E Ew]|(E & E1 & Ew & _ & E0)]; [assert (k = u n) as -> by lia; rewrite Ew; reflexivity|]. assert (k = 0)%nat as -> by lia. lra.
    - intros i Hi U0. unfold set_at. rewrite F1. destruct (Nat.eqb_spec i n) as [->|Ne]; [destruct Un as [[E _]|(E & E1 & _)]; lia|]. rewrite Uo in U0 by exact Ne. exact (i_new _ _ _ _ I i Hi U0).
    - intros i Hi. destruct (DU i Hi) as [E1 E2]. split; [exact E1|]. split; [|exact E2]. specialize (Room i Hi). destruct (Nat.eq_dec i n) as [->|Ne]; [destruct Un as [[E _]|(E & _)]; lia|rewrite Uo by exact Ne; lia].
    - intros i j m Hi Hj E. apply Ended; [exact Hi|]. unfold set_at in E. rewrite F1 in E. destruct (j =? n)%nat; [exact E|]. pose proof (Hh j Hj). lra.
    - intros i Hi. unfold v'. destruct (Nat.eqb_spec i n) as [->|Ne]; [exact VU|]. rewrite Uo by exact Ne. apply (i_v _ _ _ _ I i Hi).
    - intros c Hc. rewrite (Load2 c Hc), (Load1 c Hc). destruct (Rates c Hc) as (_ & Eo & _). rewrite Eo, (i_phase _ _ _ _ I n Hn). unfold v'. destruct (Nat.eqb_spec (e_dst c) n) as [E|E]; [rewrite E|]; cbn [nth]; lia. }
  assert (Now' : forall i, In i order -> (now <= st i (u' i))%Q).
  { intros i Hi. pose proof (Mn i Hi) as Q1. destruct (Nat.eq_dec i n) as [->|Ne]; [|rewrite Uo by exact Ne; exact Q1]. destruct Un as [[-> _]|(-> & _)]; [|exact Q1]. pose proof (st_le n (u n) (S (u n)) Hn ltac:(lia)). lra. }
  assert (Hist2 : forall i, In i order -> (ck_hist ck2 i <= now)%Q). { intros i Hi. cbn [ck2 ck_hist]. unfold set_at. rewrite F1. destruct (i =? n)%nat; [lra|apply Hh, Hi]. }
  pose proof (next_start_spec ck2 now order (fun i => if (u' i <? L i)%nat then Some (st i (u' i)) else None)) as NS.
  assert (Cand : forall i, In i order -> match (if (u' i <? L i)%nat then Some (st i (u' i)) else None) with
     | Some y => candidate now (ck_hist ck2 i) (ck_sched ck2 i) = Some y /\ (ck_hist ck2 i < y)%Q
     | None => exists y, candidate now (ck_hist ck2 i) (ck_sched ck2 i) = Some y /\ (y <= ck_hist ck2 i)%Q end).
  { intros i Hi. destruct (i_dn _ _ _ _ I2 i Hi) as (D1 & D2 & D3). rewrite (i_sched _ _ _ _ I2 i Hi). destruct (Dur i Hi) as (_ & Dp & _).
    assert (Old : forall m, (m < u' i)%nat -> (st i m <= ck_hist ck2 i)%Q). { intros m Hm. destruct (u' i) as [|k] eqn:Uk; [lia|]. rewrite (i_hist _ _ _ _ I2 i k Hi Uk). apply st_le; [exact Hi|lia]. }
    destruct (Nat.ltb_spec (u' i) (L i)) as [Lt|Ge].
    - assert (Late : (ck_hist ck2 i < st i (u' i))%Q). { destruct (u' i) as [|k] eqn:Uk; [exact (i_new _ _ _ _ I2 i Hi Uk)|]. pose proof (i_hist _ _ _ _ I2 i k Hi Uk). pose proof (Ser i k Hi). lra. }
      split; [|exact Late]. apply candidate_seq; [lia| |apply Now', Hi|exact Late]. intros m Hm. apply Old. lia.
    - apply candidate_done; [lia|]. intros m Hm. apply Old. lia. }
  specialize (NS Cand). destruct (next_start ck2 order now) as [[now' j]|] eqn:En.
  - destruct NS as (Hj & Xj & Min). destruct (Nat.ltb_spec (u' j) (L j)) as [Lj|Lj]; [|discriminate]. injection Xj as <-.
    exists ck2, (st j (u' j)), j. split.
    + destruct (Dur j Hj) as (_ & _ & Re). destruct (Z.eqb_spec (v_reentrancy (task g j)) 0) as [E|_]; [lia|]. reflexivity.
    + split; [exact I2|]. split; [exact Hj|]. split; [exact Lj|]. split; [reflexivity|]. split.
      * intros i Hi Li. apply (Min i); [exact Hi|]. destruct (Nat.ltb_spec (u' i) (L i)); [reflexivity|lia].
      * split; [intros i Hi; pose proof (Hist2 i Hi); pose proof (Now' j Hj); lra|apply Now', Hj].
  - exfalso. destruct (Two n) as (i & Hi & Ne). specialize (NS i Hi). rewrite Uo in NS by exact Ne. destruct (Nat.ltb_spec (u i) (L i)) as [Lt|Ge]; [discriminate|]. specialize (Room i Hi). lia.
Qed.

Lemma bump_sum (f h : nat -> nat) n : forall l, NoDup l -> In n l -> h n = S (f n) -> (forall i, i <> n -> h i = f i) -> list_sum (map h l) = S (list_sum (map f l)).
Proof.
  clear. intros l. induction l as [|x l IH]; intros N I E O; [destruct I|]. inversion N; subst. unfold list_sum. cbn [map fold_right]. fold (list_sum (map h l)) (list_sum (map f l)). destruct I as [->|I].
  - rewrite E. assert (X : map h l = map f l) by (apply map_ext_in; intros i Hi; apply O; intros ->; contradiction). rewrite X. lia.
  - rewrite (IH H2 I E O), (O x) by (intros ->; contradiction). lia.
Qed.
Lemma sum_le (f h : nat -> nat) : forall l, (forall i, In i l -> f i <= h i)%nat -> (list_sum (map f l) <= list_sum (map h l))%nat.
Proof. clear. induction l as [|x l IH]; intros H; [cbn; lia|]. unfold list_sum. cbn [map fold_right]. fold (list_sum (map h l)) (list_sum (map f l)). specialize (IH (fun i Hi => H i (or_intror Hi))). specialize (H x (or_introl eq_refl)). lia. Qed.

Definition covers : Prop := forall c t k e, In c (edges g) -> (forall m, (m < k)%nat -> (st (e_dst c) m <= t)%Q) -> (forall m, (st (e_src c) m + d (e_src c) <= t)%Q -> (m < e)%nat) ->
  0 <= e_preload c + a c * Z.of_nat e - b c * Z.of_nat k.
Lemma not_rejected n now k dn' : covers -> (forall i m, In i order -> (st i m + d i <= now)%Q -> (m < dn' i)%nat) -> (forall m, (m < k)%nat -> (st n m <= now)%Q) ->
  ~ exists c, In c (edges g) /\ e_dst c = n /\ e_preload c + a c * Z.of_nat (dn' (e_src c)) - b c * Z.of_nat k < 0.
Proof.
  clear - Ends. intros C E S (c & Hc & Dc & Lt). pose proof (C c now k (dn' (e_src c)) Hc) as V. rewrite Dc in V. specialize (V S (fun m => E _ m (proj1 (Ends c Hc)))). lia.
Qed.
Lemma bumped (u : nat -> nat) n : exists u', (forall i, i <> n -> u' i = u i) /\ u' n = S (u n).
Proof. exists (fun i => if (i =? n)%nat then S (u i) else u i). split; [intros i Ne; destruct (Nat.eqb_spec i n); [congruence|reflexivity]|rewrite Nat.eqb_refl; reflexivity]. Qed.

Lemma loop_accepts : covers -> forall f ck u dn v n now, inv ck u dn v -> In n order -> (u n < L n)%nat -> now = st n (u n) -> (forall i, In i order -> (u i < L i)%nat -> (now <= st i (u i))%Q) ->
  (forall i, In i order -> (ck_hist ck i <= now)%Q) -> (forall i m, In i order -> (m < dn i)%nat -> (st i m + d i <= now)%Q) -> (list_sum (map L order) <= f + list_sum (map u order))%nat -> check_loop f g order ck n now = Ok true.
Proof.
  intros Cov. induction f as [|f IH]; intros ck u dn v n now I Hn Ln Ew Mn Hh Past Fu; destruct (Z.eq_dec (total_left ck order) 0) as [Z0|NZ]; try (cbn [check_loop]; rewrite Z0; reflexivity); destruct (bumped u n) as (u' & Uo & Un).
  - exfalso. destruct (busy ck u dn v I NZ) as [_ Room].
    pose proof (bump_sum u u' n order NDo Hn Un Uo) as Bs. pose proof (sum_le u' L order) as Le.
    assert (X : forall i, In i order -> (u' i <= L i)%nat) by (intros i Hi; specialize (Room i Hi); destruct (Nat.eq_dec i n) as [->|Ne]; [lia|rewrite Uo by exact Ne; lia]). specialize (Le X). lia.
  - destruct (busy ck u dn v I NZ) as [(j & Hj & Bj) Room].
    assert (NM : (now <= M)%Q) by (pose proof (Mn j Hj (Room j Hj)); pose proof (st_le j (u j) (B j) Hj Bj); pose proof (BM j Hj); lra).
    destruct (turn f ck u dn v n now u' I Hn NZ (fun i Hi => Mn i Hi (Room i Hi)) Hh NM Past Uo (or_introl (conj Un Ew))) as (dn' & E1 & E2 & Sn & [[_ X]|(_ & ck2 & now' & j' & Eq & I2 & Hj' & Lj' & Ew' & Mn' & Hh' & Le)]).
    + exfalso. exact (not_rejected n now _ dn' Cov E1 Sn X).
    + rewrite Eq. eapply IH; eauto; [intros i m Hi Hm; pose proof (E2 i m Hi Hm); lra|]. rewrite (bump_sum u u' n order NDo Hn Un Uo). lia.
Qed.
Lemma start_accepts f ck u dn v n : covers -> inv ck u dn v -> In n order -> u n = 1%nat -> v n = 0%nat -> (st n 0%nat == 0)%Q -> (forall i, In i order -> (ck_hist ck i == 0)%Q) -> (forall i, In i order -> dn i = 0%nat) -> (list_sum (map L order) <= f + list_sum (map u order))%nat ->
  check_loop (S f) g order ck n 0 = Ok true.
Proof.
  intros Cov I Hn Un Vn S0 Hh D0 Fu. destruct (Z.eq_dec (total_left ck order) 0) as [Z0|NZ]; [cbn [check_loop]; rewrite Z0; reflexivity|].
  destruct (turn f ck u dn v n 0 u I Hn NZ) as (dn' & E1 & E2 & Sn & [[_ X]|(_ & ck2 & now' & j' & Eq & I2 & Hj' & Lj' & Ew' & Mn' & Hh' & Le)]).
  - intros i Hi. apply st_nn, Hi.
  - intros i Hi. rewrite (Hh i Hi). lra.
  - exact M0.
  - intros i m Hi Hm. rewrite (D0 i Hi) in Hm. lia.
  - reflexivity.
  - right. repeat split; auto.
  - exfalso. exact (not_rejected n 0%Q _ dn' Cov E1 Sn X).
  - rewrite Eq. eapply loop_accepts; eauto. intros i m Hi Hm. pose proof (E2 i m Hi Hm). lra.
Qed.

Lemma loop_answers : forall f ck u dn v n now, inv ck u dn v -> In n order -> (u n < L n)%nat -> now = st n (u n) -> (forall i, In i order -> (u i < L i)%nat -> (now <= st i (u i))%Q) ->
  (forall i, In i order -> (ck_hist ck i <= now)%Q) -> (forall i m, In i order -> (m < dn i)%nat -> (st i m + d i <= now)%Q) -> (list_sum (map L order) <= f + list_sum (map u order))%nat -> exists r, check_loop f g order ck n now = Ok r.
Proof.
  induction f as [|f IH]; intros ck u dn v n now I Hn Ln Ew Mn Hh Past Fu; destruct (Z.eq_dec (total_left ck order) 0) as [Z0|NZ]; try (exists true; cbn [check_loop]; rewrite Z0; reflexivity); destruct (bumped u n) as (u' & Uo & Un).
  - exfalso. destruct (busy ck u dn v I NZ) as [_ Room].
    pose proof (bump_sum u u' n order NDo Hn Un Uo) as Bs. pose proof (sum_le u' L order) as Le.
    assert (X : forall i, In i order -> (u' i <= L i)%nat) by (intros i Hi; specialize (Room i Hi); destruct (Nat.eq_dec i n) as [->|Ne]; [lia|rewrite Uo by exact Ne; lia]). specialize (Le X). lia.
  - destruct (busy ck u dn v I NZ) as [(j & Hj & Bj) Room].
    assert (NM : (now <= M)%Q) by (pose proof (Mn j Hj (Room j Hj)); pose proof (st_le j (u j) (B j) Hj Bj); pose proof (BM j Hj); lra).
    destruct (turn f ck u dn v n now u' I Hn NZ (fun i Hi => Mn i Hi (Room i Hi)) Hh NM Past Uo (or_introl (conj Un Ew))) as (dn' & E1 & E2 & Sn & [[X _]|(_ & ck2 & now' & j' & Eq & I2 & Hj' & Lj' & Ew' & Mn' & Hh' & Le)]).
    + exists false. exact X.
    + rewrite Eq. eapply IH; eauto; [intros i m Hi Hm; pose proof (E2 i m Hi Hm); lra|]. rewrite (bump_sum u u' n order NDo Hn Un Uo). lia.
Qed.
Lemma start_answers f ck u dn v n : inv ck u dn v -> In n order -> u n = 1%nat -> v n = 0%nat -> (st n 0%nat == 0)%Q -> (forall i, In i order -> (ck_hist ck i == 0)%Q) -> (forall i, In i order -> dn i = 0%nat) -> (list_sum (map L order) <= f + list_sum (map u order))%nat ->
  exists r, check_loop (S f) g order ck n 0 = Ok r.
Proof.
  intros I Hn Un Vn S0 Hh D0 Fu. destruct (Z.eq_dec (total_left ck order) 0) as [Z0|NZ]; [exists true; cbn [check_loop]; rewrite Z0; reflexivity|].
  destruct (turn f ck u dn v n 0 u I Hn NZ) as (dn' & E1 & E2 & Sn & [[X _]|(_ & ck2 & now' & j' & Eq & I2 & Hj' & Lj' & Ew' & Mn' & Hh' & Le)]).
  - intros i Hi. apply st_nn, Hi.
  - intros i Hi. rewrite (Hh i Hi). lra.
  - exact M0.
  - intros i m Hi Hm. rewrite (D0 i Hi) in Hm. lia.
  - reflexivity.
  - right. repeat split; auto.
  - exists false. exact X.
  - rewrite Eq. eapply loop_answers; eauto. intros i m Hi Hm. pose proof (E2 i m Hi Hm). lra.
Qed.

(** What an accepted run has checked: the consumptions of every start up to some instant by which every
    task has ended its [B] first executions. *)
Definition paid (c : edge) (k : nat) : Prop := exists e, (forall m, (m < e)%nat -> (st (e_src c) m + d (e_src c) <= st (e_dst c) (k - 1)%nat)%Q) /\ 0 <= e_preload c + a c * Z.of_nat e - b c * Z.of_nat k.
Definition run_checked : Prop := exists T u, (forall i, In i order -> (T <= st i (u i))%Q) /\
  (forall i m, In i order -> (m < B i)%nat -> (st i m + d i <= T)%Q) /\ (forall c k, In c (edges g) -> (1 <= k <= u (e_dst c))%nat -> paid c k).
Lemma total_none ck : (forall i, In i order -> 0 <= ck_left ck i) -> total_left ck order = 0 -> forall i, In i order -> ck_left ck i = 0.
Proof.
  clear. unfold total_left. intros P. assert (G : forall l x, (forall i, In i l -> 0 <= ck_left ck i) -> x <= fold_left (fun a i => a + ck_left ck i) l x /\ forall i, In i l -> x + ck_left ck i <= fold_left (fun a i => a + ck_left ck i) l x).
  { induction l as [|i l IH]; intros x H; cbn [fold_left]; [split; [lia|intros i []]|]. destruct (IH (x + ck_left ck i) (fun j Hj => H j (or_intror Hj))) as [A1 A2]. pose proof (H i (or_introl eq_refl)). split; [lia|]. intros j [<-|Hj]; [lia|]. specialize (A2 j Hj). lia. }
  intros E i Hi. destruct (G order 0 P) as [_ A]. specialize (A i Hi). specialize (P i Hi). lia.
Qed.
Lemma ended_checked ck u dn v T : inv ck u dn v -> total_left ck order = 0 -> (forall i, In i order -> v i = u i) -> (forall i m, In i order -> (m < dn i)%nat -> (st i m + d i <= T)%Q) -> (forall i, In i order -> (T <= st i (u i))%Q) ->
  (forall c k, In c (edges g) -> (1 <= k <= v (e_dst c))%nat -> paid c k) -> run_checked.
Proof.
  clear - Ends. intros I Z VU Past Tu Pd. exists T, u. split; [exact Tu|]. split.
  - intros i m Hi Hm. apply Past; [exact Hi|]. pose proof (total_none ck) as X. rewrite Z in X. specialize (X (fun j Hj => ltac:(rewrite (i_left _ _ _ _ I j Hj); lia)) eq_refl i Hi). rewrite (i_left _ _ _ _ I i Hi) in X. lia.
  - intros c k Hc Hk. apply Pd; [exact Hc|]. rewrite (VU _ (proj2 (Ends c Hc))). exact Hk.
Qed.
Lemma paid_more (v : nat -> nat) n now dn' : (forall i m, In i order -> (m < dn' i)%nat -> (st i m + d i <= now)%Q) -> (now <= st n (v n))%Q ->
  (forall c k, In c (edges g) -> (1 <= k <= v (e_dst c))%nat -> paid c k) -> (forall c, In c (edges g) -> e_dst c = n -> 0 <= e_preload c + a c * Z.of_nat (dn' (e_src c)) - b c * Z.of_nat (S (v n))) ->
  forall c k, In c (edges g) -> (1 <= k <= (if (e_dst c =? n)%nat then S (v (e_dst c)) else v (e_dst c)))%nat -> paid c k.
Proof.
  clear - Ends. intros E2 Nw Pd New c k Hc Hk. destruct (Nat.eqb_spec (e_dst c) n) as [E|E]; [|apply Pd; assumption]. destruct (Nat.eq_dec k (S (v (e_dst c)))) as [->|Ne]; [|apply Pd; [exact Hc|lia]].
  exists (dn' (e_src c)). split; [|rewrite E; apply New; assumption]. intros m Hm. pose proof (E2 _ m (proj1 (Ends c Hc)) Hm). replace (S (v (e_dst c)) - 1)%nat with (v (e_dst c)) by lia. rewrite E. lra.
Qed.

Lemma loop_sound : forall f ck u dn v n now T, inv ck u dn v -> In n order -> (u n < L n)%nat -> now = st n (u n) -> (forall i, In i order -> (u i < L i)%nat -> (now <= st i (u i))%Q) ->
  (forall i, In i order -> (ck_hist ck i <= now)%Q) -> (T <= now)%Q -> (forall i m, In i order -> (m < dn i)%nat -> (st i m + d i <= T)%Q) -> (forall i, In i order -> (T <= st i (u i))%Q) ->
  (forall i, In i order -> v i = u i) -> (forall c k, In c (edges g) -> (1 <= k <= v (e_dst c))%nat -> paid c k) -> check_loop f g order ck n now = Ok true -> run_checked.
Proof.
  induction f as [|f IH]; intros ck u dn v n now T I Hn Ln Ew Mn Hh TN Past Tu VU Pd Acc; destruct (Z.eq_dec (total_left ck order) 0) as [Z0|NZ]; try (exact (ended_checked ck u dn v T I Z0 VU Past Tu Pd)).
  - cbn [check_loop] in Acc. destruct (Z.eqb_spec (total_left ck order) 0); [congruence|discriminate].
  - destruct (bumped u n) as (u' & Uo & Un). destruct (busy ck u dn v I NZ) as [(j & Hj & Bj) Room].
    assert (NM : (now <= M)%Q) by (pose proof (Mn j Hj (Room j Hj)); pose proof (st_le j (u j) (B j) Hj Bj); pose proof (BM j Hj); lra).
    destruct (turn f ck u dn v n now u' I Hn NZ (fun i Hi => Mn i Hi (Room i Hi)) Hh NM (fun i m Hi Hm => Qle_trans _ _ _ (Past i m Hi Hm) TN) Uo (or_introl (conj Un Ew))) as (dn' & E1 & E2 & Sn & [[X _]|(New & ck2 & now' & j' & Eq & I2 & Hj' & Lj' & Ew' & Mn' & Hh' & Le)]).
    + rewrite Acc in X. discriminate.
    + rewrite Eq in Acc. apply (IH ck2 u' dn' _ j' now' now I2 Hj' Lj' Ew' Mn' Hh' Le E2) in Acc; [exact Acc| | |].
      * intros i Hi. pose proof (Mn i Hi (Room i Hi)). destruct (Nat.eq_dec i n) as [->|Ne]; [|rewrite Uo by exact Ne; assumption]. rewrite Un. pose proof (st_le n (u n) (S (u n)) Hn ltac:(lia)). lra.
      * intros i Hi. destruct (Nat.eqb_spec i n) as [->|Ne]; [rewrite Un, (VU n Hn); reflexivity|rewrite Uo by exact Ne; apply VU, Hi].
      * cbv beta. apply (paid_more v n now dn' E2); [|exact Pd|exact New]. rewrite (VU n Hn), Ew. lra.
Qed.
Lemma start_sound f ck u dn v n : inv ck u dn v -> In n order -> u n = 1%nat -> v n = 0%nat -> (st n 0%nat == 0)%Q -> (forall i, In i order -> (ck_hist ck i == 0)%Q) -> (forall i, In i order -> dn i = 0%nat) ->
  (forall i, In i order -> (0 < B i)%nat) -> (forall i, In i order -> i <> n -> u i = 0%nat /\ v i = 0%nat) -> check_loop (S f) g order ck n 0 = Ok true -> run_checked.
Proof.
  intros I Hn Un Vn S0 Hh D0 BP Alone Acc. assert (NZ : total_left ck order <> 0).
  { intros E. pose proof (total_none ck) as X. specialize (X (fun j Hj => ltac:(rewrite (i_left _ _ _ _ I j Hj); lia)) E n Hn). rewrite (i_left _ _ _ _ I n Hn), (D0 n Hn) in X. specialize (BP n Hn). lia. }
  destruct (turn f ck u dn v n 0 u I Hn NZ) as (dn' & E1 & E2 & Sn & [[X _]|(New & ck2 & now' & j' & Eq & I2 & Hj' & Lj' & Ew' & Mn' & Hh' & Le)]).
  - intros i Hi. apply st_nn, Hi.
  - intros i Hi. rewrite (Hh i Hi). lra.
  - exact M0.
  - intros i m Hi Hm. rewrite (D0 i Hi) in Hm. lia.
  - reflexivity.
  - right. repeat split; auto.
  - rewrite Acc in X. discriminate.
  - rewrite Eq in Acc. apply (loop_sound f ck2 u dn' _ j' now' 0%Q I2 Hj' Lj' Ew' Mn' Hh' Le E2) in Acc; [exact Acc| | |].
    + intros i Hi. apply st_nn, Hi.
    + intros i Hi. destruct (Nat.eqb_spec i n) as [->|Ne]; [lia|]. destruct (Alone i Hi Ne). lia.
    + cbv beta. apply (paid_more v n 0%Q dn' E2); [apply st_nn, Hn| |exact New]. intros c k Hc Hk. destruct (Nat.eq_dec (e_dst c) n) as [E|E]; [rewrite E in Hk; lia|]. destruct (Alone _ (proj2 (Ends c Hc)) E). lia.
Qed.
End Loop.

(** ** From a valid schedule to the loop *)
Lemma sum_const_le (f : nat -> Z) (x : Z) : forall n e, 0 <= x -> (forall m, (m < n)%nat -> f m = 0 \/ (f m = x /\ (m < e)%nat)) -> sumf f n <= x * Z.of_nat (Nat.min n e).
Proof.
  intros n e P. induction n as [|n IH]; intros H; [cbn; lia|]. cbn [sumf]. specialize (IH (fun m Hm => H m ltac:(lia))).
  destruct (H n ltac:(lia)) as [E|[E Lt]]; [rewrite E; nia|]. rewrite E. replace (Nat.min (S n) e) with (S n) by lia. replace (Nat.min n e) with n in IH by lia. lia.
Qed.
Lemma sum_const (f : nat -> Z) (x : Z) : forall n, (forall m, (m < n)%nat -> f m = x) -> sumf f n = x * Z.of_nat n.
Proof. induction n as [|n IH]; intros H; [cbn; lia|]. cbn [sumf]. rewrite IH by (intros m Hm; apply H; lia). rewrite (H n) by lia. lia. Qed.

Lemma covered (p x y : Z) (pe cs : nat -> Q) : 0 <= x -> never_negative p pe (fun _ => x) cs (fun _ => y) -> forall t k e, (forall m, (m < k)%nat -> (cs m <= t)%Q) -> (forall m, (pe m <= t)%Q -> (m < e)%nat) -> 0 <= p + x * Z.of_nat e - y * Z.of_nat k.
Proof.
  intros Px V t k e C E. destruct (V t k) as (np & H). unfold moved_by in H. rewrite (sum_const _ y) in H.
  2:{ intros m Hm. specialize (C m Hm). apply Qle_bool_iff in C. rewrite C. reflexivity. }
  pose proof (sum_const_le (fun m => if Qle_bool (pe m) t then x else 0) x np e Px) as S.
  assert (X : x * Z.of_nat (Nat.min np e) <= x * Z.of_nat e) by nia.
  enough (sumf (fun m => if Qle_bool (pe m) t then x else 0) np <= x * Z.of_nat (Nat.min np e)) by lia. apply S. intros m _. destruct (Qle_bool (pe m) t) eqn:Q; [right; split; [reflexivity|apply E, Qle_bool_iff, Q]|left; reflexivity].
Qed.

(** The sequence of starts, drawn one by one. *)
Definition seq_of (s : given) (m : nat) : Q := if (m <? length (g_initial s))%nat then nth m (g_initial s) 0%Q else gen (m - length (g_initial s)) (g_period s) (g_periodic s).
Lemma seq_of_start s m : g_periodic s <> [] -> (seq_of s m == start_time s m)%Q.
Proof. intros NE. unfold seq_of, start_time. cbv zeta. destruct (m <? length (g_initial s))%nat; [reflexivity|]. apply gen_closed, NE. Qed.
Lemma map_nth_seq {A} (l : list A) x : map (fun m => nth m l x) (seq 0 (length l)) = l.
Proof. induction l as [|y l IH]; [reflexivity|]. cbn [length seq map nth]. f_equal. rewrite <- seq_shift, map_map. exact IH. Qed.
Lemma drawn_seq s n : g_initial s ++ map (fun m => gen m (g_period s) (g_periodic s)) (seq 0 n) = map (seq_of s) (seq 0 (length (g_initial s) + n)).
Proof.
  rewrite seq_app, map_app. f_equal.
  - rewrite <- (map_nth_seq (g_initial s) 0%Q) at 1. apply map_ext_in. intros m Hm. apply in_seq in Hm. unfold seq_of. destruct (Nat.ltb_spec m (length (g_initial s))); [reflexivity|lia].
  - cbn [Nat.add]. rewrite <- (Nat.add_0_r (length (g_initial s))) at 1. generalize 0%nat as z. induction n as [|n IH]; intros z; [reflexivity|]. cbn [seq map]. f_equal.
    + unfold seq_of. destruct (Nat.ltb_spec (length (g_initial s) + z) (length (g_initial s))); [lia|]. f_equal. lia.
    + rewrite (IH (S z)). f_equal. f_equal. lia.
Qed.
Definition reach (s : given) (N : Z) : nat := (length (g_initial s) + Z.to_nat N)%nat.
Lemma all_drawn_seq g N s : forall order, (forall i, In i order -> g_periodic (s i) <> []) ->
  all_drawn g N s order = Ok (map (fun i => (i, (map (seq_of (s i)) (seq 0 (S (reach (s i) (N i)))), spin (S (Z.to_nat (N i))) (g_period (s i)) (g_periodic (s i))))) order).
Proof.
  induction order as [|i order IH]; intros NE; [reflexivity|]. cbn [all_drawn map]. rewrite draw_gen by (apply NE; left; reflexivity). cbn [bind fst snd]. rewrite IH by (intros j Hj; apply NE; right; exact Hj). cbn [bind].
  rewrite drawn_seq. replace (length (g_initial (s i)) + S (Z.to_nat (N i)))%nat with (S (reach (s i) (N i))) by (unfold reach; lia). reflexivity.
Qed.
Lemma last_seq (f : nat -> Q) n x : last (map f (seq 0 (S n))) x = f n.
Proof. rewrite seq_S, map_app. cbn [map Nat.add]. apply last_last. Qed.
Lemma qmax_l x y : (x <= qmax x y)%Q.
Proof. unfold qmax. destruct (Qle_bool y x) eqn:E; [lra|]. destruct (Qlt_le_dec x y); [lra|]. apply Qle_bool_iff in q. congruence. Qed.
Lemma qmax_r x y : (y <= qmax x y)%Q.
Proof. unfold qmax. destruct (Qle_bool y x) eqn:E; [apply Qle_bool_iff; exact E|lra]. Qed.
Lemma fold_qmax {A} (f : A -> Q) : forall l x, (x <= fold_left (fun a e => qmax a (f e)) l x)%Q /\ forall e, In e l -> (f e <= fold_left (fun a e => qmax a (f e)) l x)%Q.
Proof.
  induction l as [|y l IH]; intros x; cbn [fold_left]; [split; [lra|intros e []]|]. destruct (IH (qmax x (f y))) as [A1 A2]. pose proof (qmax_l x (f y)). pose proof (qmax_r x (f y)). split; [lra|].
  intros e [->|H']; [lra|apply A2, H'].
Qed.

Lemma all_filled_seq fuel M s N : forall order, NoDup order -> (forall i, In i order -> g_periodic (s i) <> []) ->
  (forall i, In i order -> exists f', fuel = S f' /\ (M <= seq_of (s i) (S (reach (s i) (N i)) + f'))%Q) ->
  exists sched, all_filled fuel M s (map (fun i => (i, (map (seq_of (s i)) (seq 0 (S (reach (s i) (N i)))), spin (S (Z.to_nat (N i))) (g_period (s i)) (g_periodic (s i))))) order) = Ok sched /\
  forall i, In i order -> exists q, sched i = map (seq_of (s i)) (seq 0 (S (reach (s i) (N i)) + q)) /\ (M <= seq_of (s i) (reach (s i) (N i) + q))%Q /\ forall k, q = S k -> (seq_of (s i) (reach (s i) (N i) + k) < M)%Q.
Proof.
  assert (Late : forall i m, (length (g_initial (s i)) <= m)%nat -> seq_of (s i) m = gen (m - length (g_initial (s i))) (g_period (s i)) (g_periodic (s i))).
  { intros i m Hm. unfold seq_of. destruct (Nat.ltb_spec m (length (g_initial (s i)))); [lia|reflexivity]. }
  induction order as [|i order IH]; intros ND NE F; [eexists; split; [reflexivity|intros i []]|]. inversion ND as [|? ? N1 N2]; subst. cbn [map all_filled].
  rewrite last_seq. set (k := S (Z.to_nat (N i))). assert (NEi : g_periodic (s i) <> []) by (apply NE; left; reflexivity).
  assert (NEs : spin k (g_period (s i)) (g_periodic (s i)) <> []). { intros E. apply (f_equal (@length Q)) in E. rewrite spin_length in E. destruct (g_periodic (s i)); [congruence|discriminate]. }
  assert (Sp : forall m, gen m (g_period (s i)) (spin k (g_period (s i)) (g_periodic (s i))) = seq_of (s i) (S (reach (s i) (N i)) + m)).
  { intros m. rewrite gen_spin by exact NEi. rewrite Late by (unfold reach; lia). f_equal. unfold reach, k. lia. }
  destruct (fill_gen (g_period (s i)) M fuel (seq_of (s i) (reach (s i) (N i))) _ NEs) as (q & E & L & P).
  { right. destruct (F i (or_introl eq_refl)) as (f' & Ef & Hf). exists f'. split; [exact Ef|]. rewrite Sp. exact Hf. }
  rewrite E. cbn [bind]. destruct (IH N2 (fun j Hj => NE j (or_intror Hj)) (fun j Hj => F j (or_intror Hj))) as (sched & Es & Hs). rewrite Es. cbn [bind].
  eexists. split; [reflexivity|]. intros j [<-|Hj].
  - exists q. unfold set_at. rewrite Nat.eqb_refl. split; [|split].
    + rewrite (seq_app (S (reach (s i) (N i))) q 0), map_app. f_equal. cbn [Nat.add]. clear - Sp. rewrite <- (Nat.add_0_r (S (reach (s i) (N i)))). generalize 0%nat as z. induction q as [|q IHq]; intros z; [reflexivity|]. cbn [seq map]. f_equal; [apply Sp|]. rewrite (IHq (S z)). f_equal. f_equal. lia.
    + destruct q as [|q]; [rewrite Nat.add_0_r; exact L|]. rewrite Sp in L. rewrite <- Nat.add_succ_comm. exact L.
    + intros z Ez. specialize (P z Ez). destruct z as [|z]; [rewrite Nat.add_0_r; exact P|]. rewrite Sp in P. rewrite <- Nat.add_succ_comm. exact P.
  - destruct (Hs j Hj) as (q' & A). exists q'. unfold set_at. destruct (Nat.eqb_spec j i) as [->|_]; [contradiction|exact A].
Qed.

Lemma find_edge : forall es c, NoDup (map e_id es) -> In c es -> find (fun x => e_id x =? e_id c) es = Some c.
Proof.
  induction es as [|x es IH]; intros c N H; [destruct H|]. inversion N as [|? ? N1 N2]; subst. cbn [find]. destruct (Z.eqb_spec (e_id x) (e_id c)) as [E|E].
  - destruct H as [->|H]; [reflexivity|]. exfalso. apply N1. rewrite E. apply in_map, H.
  - destruct H as [->|H]; [congruence|]. apply IH; assumption.
Qed.
Lemma fold_pick (P : nat -> bool) : forall l x, (exists i, In i l /\ P i = true) -> exists i, In i l /\ P i = true /\ fold_left (fun a i => if P i then Some i else a) l x = Some i.
Proof.
  assert (K : forall l x, (forall i, In i l -> P i = false) -> fold_left (fun a i => if P i then Some i else a) l x = x).
  { induction l as [|y l IH]; intros x H; [reflexivity|]. cbn [fold_left]. rewrite (H y (or_introl eq_refl)). apply IH. intros i Hi. apply H. right. exact Hi. }
  induction l as [|y l IH]; intros x (i & [] & Pi); subst; cbn [fold_left].
  - destruct (existsb P l) eqn:E.
    + apply existsb_exists in E. destruct (IH (if P i then Some i else x) E) as (j & A & B & C). exists j. auto using in_cons.
    + exists i. rewrite Pi. repeat split; [left; reflexivity|]. rewrite K; [reflexivity|]. intros j Hj. destruct (P j) eqn:Q; [|reflexivity]. exfalso. assert (existsb P l = true) by (apply existsb_exists; eauto). congruence.
  - destruct (IH (if P y then Some y else x) ltac:(eauto)) as (j & A & B & C). exists j. auto using in_cons.
Qed.
Lemma reach_time (d M : Q) : (0 < d)%Q -> exists n, (M <= d * inject_Z (Z.of_nat n))%Q.
Proof.
  intros P. destruct (Qlt_le_dec M 0) as [N|N]; [exists 0%nat; change (inject_Z (Z.of_nat 0)) with 0%Q; lra|].
  assert (Q0 : (0 <= M / d)%Q) by (apply Qle_shift_div_l; lra). pose proof (Qle_ceiling (M / d)) as C. exists (Z.to_nat (Qceiling (M / d))).
  assert (Zc : 0 <= Qceiling (M / d)). { rewrite Zle_Qle. change (inject_Z 0) with 0%Q. lra. }
  rewrite Z2Nat.id by exact Zc. assert (E : (M == d * (M / d))%Q) by (field; lra). rewrite E at 1. apply Qmult_le_l; assumption.
Qed.

Section Accept.
Variables (g : graph) (N : nat -> Z) (max_id : Z) (order : list nat) (s : nat -> given).
Hypothesis WF : graph_wf g.
Hypothesis NI : no_init g.
Hypothesis SP : single_phase g.
Hypothesis DC : distinct_channels g.
Hypothesis TT : takes_time g.
Hypothesis NO : forall v, In v (vertices g) -> 0 < v_reentrancy v.
Hypothesis Two : (2 <= length (vertices g))%nat.
Hypothesis Ids : forall v, In v (vertices g) -> v_id v < max_id.
Hypothesis Ord : Permutation order (seq 0 (length (vertices g))).
Hypothesis Per : forall i, In i order -> g_periodic (s i) <> [].
Hypothesis NN : forall i, In i order -> (0 <= start_time (s i) 0)%Q.
Hypothesis Z0 : exists i, In i order /\ (start_time (s i) 0 == 0)%Q.
Hypothesis Ser0 : forall i v, nth_error (vertices g) i = Some v -> task_serialised (fun i m => start_time (s i) m) i v.

Lemma in_order i : In i order <-> (i < length (vertices g))%nat.
Proof.
  clear - Ord. split; intros H.
  - apply (Permutation_in _ Ord), in_seq in H. lia.
  - apply (Permutation_in _ (Permutation_sym Ord)), in_seq. lia.
Qed.
Lemma task_in i : In i order -> nth_error (vertices g) i = Some (task g i) /\ In (task g i) (vertices g).
Proof.
  clear - Ord. intros H. apply in_order in H. unfold task. split; [apply nth_error_nth'; exact H|apply nth_In, H].
Qed.
Lemma one_phase v : In v (vertices g) -> v_durations v = [hd 0%Q (v_durations v)] /\ v_init_durations v = [] /\ forall m, exec_duration v m = hd 0%Q (v_durations v).
Proof.
  clear - WF NI SP. intros H. destruct WF as (W & _ & _). destruct (W v H) as (_ & D & DI & _). rewrite (SP v H) in D. rewrite (NI v H) in DI. destruct (v_durations v) as [|x [|y l]] eqn:E; try discriminate. destruct (v_init_durations v) eqn:EI; [|discriminate]. split; [reflexivity|]. split; [reflexivity|].
  intros m. unfold exec_duration, cyclic. rewrite E, EI. cbn. destruct (m - 0)%nat; reflexivity.
Qed.
Lemma one_rate c : In c (edges g) -> e_in c = [hd 0 (e_in c)] /\ e_out c = [hd 0 (e_out c)] /\ 0 <= hd 0 (e_in c) /\ 0 <= hd 0 (e_out c) /\ (forall m, prod_rate c m = hd 0 (e_in c)) /\ (forall m, cons_rate c m = hd 0 (e_out c)) /\ In (e_src c) order /\ In (e_dst c) order.
Proof.
  clear - WF NI SP Ord. intros H. destruct WF as (_ & W & _). destruct (W c H) as (vs & vd & Hs & Hd & L1 & L2 & L3 & L4 & P & _). pose proof (nth_error_In _ _ Hs) as Is. pose proof (nth_error_In _ _ Hd) as Id. rewrite (SP _ Is) in L1. rewrite (SP _ Id) in L2. rewrite (NI _ Is) in L3. rewrite (NI _ Id) in L4.
  unfold prod_rate, cons_rate, cyclic. destruct (e_in c) as [|a [|x l]] eqn:E1; try discriminate. destruct (e_out c) as [|b [|y l]] eqn:E2; try discriminate. destruct (e_in_init c) eqn:E3; [|discriminate]. destruct (e_out_init c) eqn:E4; [|discriminate]. cbn [hd length].
  split; [reflexivity|]. split; [reflexivity|]. split; [apply P; left; reflexivity|]. split; [apply P; right; left; reflexivity|]. split; [intros m; cbn; destruct (m - 0)%nat; reflexivity|]. split; [intros m; cbn; destruct (m - 0)%nat; reflexivity|].
  split; apply in_order, nth_error_Some; congruence.
Qed.

Let st i m := seq_of (s i) m.
Let d i := hd 0%Q (v_durations (task g i)).
Lemma d_pos i : In i order -> (0 < d i)%Q.
Proof. clear - WF NI SP Ord TT. intros H. destruct (task_in i H) as [_ I]. destruct (one_phase _ I) as (E & _). apply (TT (task g i)); [exact I|]. rewrite E. left. reflexivity. Qed.
Lemma st_eq i m : In i order -> (st i m == start_time (s i) m)%Q.
Proof. clear - Per. intros H. apply seq_of_start, Per, H. Qed.
Lemma st_ser i m : In i order -> (st i m + d i <= st i (S m))%Q.
Proof.
  clear - WF NI SP Ord Per Ser0. intros H. destruct (task_in i H) as [E I]. destruct (one_phase _ I) as (_ & _ & D). pose proof (Ser0 i _ E m) as S. unfold start_of in S. rewrite D in S. rewrite (st_eq i m H), (st_eq i (Datatypes.S m) H). exact S.
Qed.
Lemma st_grows i m : In i order -> (d i * inject_Z (Z.of_nat m) <= st i m)%Q.
Proof.
  clear - WF NI SP Ord Per Ser0 NN. intros H. induction m as [|m IH].
  - rewrite (st_eq i 0 H). pose proof (NN i H). change (inject_Z (Z.of_nat 0)) with 0%Q. lra.
  - pose proof (st_ser i m H). rewrite Nat2Z.inj_succ. unfold Z.succ. rewrite inject_Z_plus. change (inject_Z 1) with 1%Q. lra.
Qed.
Lemma st_valid c t k e : (forall c, In c (edges g) -> channel_valid g (fun i m => start_time (s i) m) c) -> In c (edges g) -> (forall m, (m < k)%nat -> (st (e_dst c) m <= t)%Q) -> (forall m, (st (e_src c) m + d (e_src c) <= t)%Q -> (m < e)%nat) ->
  0 <= e_preload c + hd 0 (e_in c) * Z.of_nat e - hd 0 (e_out c) * Z.of_nat k.
Proof.
  clear - WF NI SP Ord Per. intros Vc H C E. destruct (one_rate c H) as (_ & _ & Pa & _ & Ra & Rb & Is & Id).
  apply (covered (e_preload c) (hd 0 (e_in c)) (hd 0 (e_out c)) (end_of (fun i m => start_time (s i) m) g (e_src c)) (fun m => start_time (s (e_dst c)) m) Pa) with (t := t).
  - intros t' nc. destruct (Vc c H t' nc) as (np & Hn). exists np. unfold moved_by in *. rewrite (sumf_ext _ (fun m => if Qle_bool (start_time (s (e_dst c)) m) t' then cons_rate c m else 0)), (sumf_ext (fun m => if Qle_bool (end_of (fun i m0 => start_time (s i) m0) g (e_src c) m) t' then hd 0 (e_in c) else 0) (fun m => if Qle_bool (end_of (fun i m0 => start_time (s i) m0) g (e_src c) m) t' then prod_rate c m else 0)); [exact Hn| |]; intros m _; rewrite ?Ra, ?Rb; reflexivity.
  - intros m Hm. rewrite <- (st_eq _ m Id). apply C, Hm.
  - intros m Hm. apply E. unfold end_of in Hm. destruct (task_in _ Is) as [Et I]. rewrite Et in Hm. destruct (one_phase _ I) as (_ & _ & D). rewrite D in Hm. rewrite (st_eq _ m Is). exact Hm.
Qed.

Lemma common_bound (P : nat -> nat -> Prop) : forall l, (forall i, In i l -> exists n, forall m, (n <= m)%nat -> P i m) -> exists n, forall i m, In i l -> (n <= m)%nat -> P i m.
Proof.
  clear. induction l as [|x l IH]; intros H; [exists 0%nat; intros i m []|]. destruct (H x (or_introl eq_refl)) as (n1 & H1). destruct (IH (fun i Hi => H i (or_intror Hi))) as (n2 & H2).
  exists (Nat.max n1 n2). intros i m [<-|Hi] Hm; [apply H1; lia|apply H2; [exact Hi|lia]].
Qed.

Lemma setup : (forall i, In i order -> 0 <= N i) -> exists fuel0, forall fuel, (fuel0 <= fuel)%nat -> exists M L ck u n,
  is_valid_schedule fuel g N max_id order s = check_loop (S (fuel - 1)) g order ck n 0 /\ (forall i, In i order -> (st i (reach (s i) (N i)) <= M)%Q) /\ (forall i, In i order -> (M <= st i (L i - 1)%nat)%Q) /\ (0 <= M)%Q /\
  inv g order st L (fun i => reach (s i) (N i)) d (fun c => hd 0 (e_in c)) (fun c => hd 0 (e_out c)) ck u (fun _ => 0%nat) (fun _ => 0%nat) /\ In n order /\ u n = 1%nat /\ (st n 0%nat == 0)%Q /\ (forall i, In i order -> (ck_hist ck i == 0)%Q) /\
  (list_sum (map L order) <= fuel - 1 + list_sum (map u order))%nat /\ (forall i, (0 < u i)%nat -> (st i 0%nat == 0)%Q).
Proof.
  intros NP. set (drawn := map (fun i => (i, (map (seq_of (s i)) (seq 0 (S (reach (s i) (N i)))), spin (S (Z.to_nat (N i))) (g_period (s i)) (g_periodic (s i))))) order).
  set (M := fold_left (fun a e => qmax a (last (fst (snd e)) 0%Q)) drawn 0%Q).
  assert (NDo : NoDup order) by (apply (Permutation_NoDup (Permutation_sym Ord)), seq_NoDup).
  destruct (fold_qmax (fun e : nat * (list Q * list Q) => last (fst (snd e)) 0%Q) drawn 0%Q) as [M0 Mall]. fold M in M0, Mall.
  assert (BM : forall i, In i order -> (st i (reach (s i) (N i)) <= M)%Q).
  { intros i Hi. unfold st. rewrite <- (last_seq (seq_of (s i)) (reach (s i) (N i)) 0%Q). exact (Mall _ (in_map (fun i => (i, (map (seq_of (s i)) (seq 0 (S (reach (s i) (N i)))), spin (S (Z.to_nat (N i))) (g_period (s i)) (g_periodic (s i))))) _ _ Hi)). }
  assert (Ser : forall i m, In i order -> (st i m + d i <= st i (S m))%Q) by (intros i m Hi; apply st_ser, Hi).
  destruct (common_bound (fun i m => (M <= st i m)%Q) order) as (F & HF).
  { intros i Hi. destruct (reach_time (d i) M (d_pos i Hi)) as (n & Hn). exists n. intros m Hm. pose proof (st_grows i m Hi) as G. pose proof (d_pos i Hi) as D.
    assert (X : (d i * inject_Z (Z.of_nat n) <= d i * inject_Z (Z.of_nat m))%Q) by (apply Qmult_le_l; [exact D|rewrite <- Zle_Qle; lia]). lra. }
  exists (S (S (F + list_sum (map (fun i => S (S (F + reach (s i) (N i)))) order)))). intros fuel Hf. unfold is_valid_schedule.
  assert (Ex : existsb (fun v => max_id <=? v_id v) (vertices g) = false).
  { destruct (existsb _ (vertices g)) eqn:E; [|reflexivity]. apply existsb_exists in E. destruct E as (v & Hv & L). apply Z.leb_le in L. specialize (Ids v Hv). lia. }
  rewrite Ex, (all_drawn_seq g N s order Per). fold drawn. cbn [bind]. fold M.
  destruct (all_filled_seq fuel M s N order NDo Per) as (sched & Es & Hs).
  { intros i Hi. destruct fuel as [|f']; [lia|]. exists f'. split; [reflexivity|]. apply (HF i); [exact Hi|lia]. }
  fold drawn in Es. rewrite Es. cbn [bind].
  set (L := fun i => length (sched i)).
  assert (HL : forall i, In i order -> sched i = map (st i) (seq 0 (L i)) /\ (reach (s i) (N i) < L i)%nat /\ (M <= st i (L i - 1)%nat)%Q /\ (L i <= S (S (F + reach (s i) (N i))))%nat).
  { intros i Hi. destruct (Hs i Hi) as (q & E & Le & Lt). assert (El : L i = (S (reach (s i) (N i)) + q)%nat) by (unfold L; rewrite E, map_length, seq_length; reflexivity). rewrite El. split; [exact E|]. split; [lia|]. split; [replace (S (reach (s i) (N i)) + q - 1)%nat with (reach (s i) (N i) + q)%nat by lia; exact Le|].
    destruct q as [|k]; [lia|]. specialize (Lt k eq_refl). destruct (Nat.lt_ge_cases (reach (s i) (N i) + k) F) as [X|X]; [lia|]. pose proof (HF i _ Hi X) as Y. unfold st in Y. lra. }
  destruct (fold_pick (fun i => Qeq_bool (hd 1%Q (sched i)) 0) order None) as (n & Hn & Pn & En).
  { destruct Z0 as (i & Hi & E). exists i. split; [exact Hi|]. destruct (HL i Hi) as (Es' & Lt & _). rewrite Es'. replace (L i) with (S (L i - 1)) by lia. cbn [seq map hd]. apply Qeq_bool_iff. rewrite (st_eq i 0 Hi). exact E. }
  rewrite En.
  assert (Head : forall i, In i order -> hd 1%Q (sched i) = st i 0%nat) by (intros i Hi; destruct (HL i Hi) as (Es' & Lt & _); rewrite Es'; replace (L i) with (S (L i - 1)) by lia; reflexivity).
  rewrite (Head n Hn) in Pn. apply Qeq_bool_iff in Pn.
  set (u := fun i => if Qeq_bool (st i 0%nat) 0 then 1%nat else 0%nat).
  assert (Un : u n = 1%nat) by (unfold u; apply Qeq_bool_iff in Pn; rewrite Pn; reflexivity).
  assert (Nn : forall i, In i order -> (0 <= st i 0%nat)%Q) by (intros i Hi; rewrite (st_eq i 0 Hi); apply NN, Hi).
  exists M, L, (mkCheck sched (fun _ => O) (fun i => Z.of_nat (length (g_initial (s i))) + N i) (fun _ => 0%Q) (fun id => match find (fun c => e_id c =? id) (edges g) with Some c => e_preload c | None => 0 end)), u, n.
  split; [replace (S (fuel - 1)) with fuel by lia; reflexivity|]. split; [exact BM|]. split; [intros i Hi; apply (HL i Hi)|]. split; [exact M0|].
  split; [|split; [exact Hn|split; [exact Un|split; [exact Pn|split; [intros i _; reflexivity|split]]]]].
  - constructor; cbn [ck_sched ck_phase ck_left ck_hist ck_load].
    + intros i Hi. destruct (HL i Hi) as (E & _). rewrite Nat.sub_0_r. exact E.
    + reflexivity.
    + intros i Hi. specialize (NP i Hi). unfold reach. lia.
    + intros i _. lra.
    + intros i k Hi Uk. unfold u in Uk. destruct (Qeq_bool (st i 0%nat) 0) eqn:E; [|discriminate]. injection Uk as <-. symmetry. apply Qeq_bool_iff, E.
    + intros i Hi U0. unfold u in U0. destruct (Qeq_bool (st i 0%nat) 0) eqn:E; [discriminate|]. apply Qeq_bool_neq in E. specialize (Nn i Hi). destruct (Qlt_le_dec 0 (st i 0%nat)) as [X|X]; [exact X|]. exfalso. apply E. lra.
    + intros i Hi. destruct (HL i Hi) as (_ & Lt & _). unfold u. destruct (Qeq_bool (st i 0%nat) 0); lia.
    + intros i j m Hi _ E. pose proof (st_grows i m Hi) as G. pose proof (d_pos i Hi) as D. assert (X : (0 <= d i * inject_Z (Z.of_nat m))%Q) by (apply Qmult_le_0_compat; [lra|change 0%Q with (inject_Z 0); rewrite <- Zle_Qle; lia]). lra.
    + intros i _. unfold u. destruct (Qeq_bool (st i 0%nat) 0); lia.
    + intros c Hc. rewrite (find_edge (edges g) c DC Hc). lia.
  - assert (X : (list_sum (map L order) <= list_sum (map (fun i => S (S (F + reach (s i) (N i)))) order))%nat) by (apply sum_le; intros i Hi; apply (HL i Hi)). lia.
  - intros i. unfold u. destruct (Qeq_bool (st i 0%nat) 0) eqn:E; [intros _; apply Qeq_bool_iff, E|lia].
Qed.
Lemma facts : NoDup order /\ NoDup (map e_id (edges g)) /\ (forall c, In c (edges g) -> In (e_src c) order /\ In (e_dst c) order) /\ (forall c, In c (edges g) -> e_in c = [hd 0 (e_in c)] /\ e_out c = [hd 0 (e_out c)] /\ 0 <= hd 0 (e_out c)) /\
  (forall i, In i order -> v_durations (task g i) = [d i] /\ (0 < d i)%Q /\ 0 < v_reentrancy (task g i)) /\ (forall i m, In i order -> (st i m + d i <= st i (S m))%Q) /\ (forall i, In i order -> (0 <= st i 0%nat)%Q) /\ (forall n, exists i, In i order /\ i <> n).
Proof.
  split; [apply (Permutation_NoDup (Permutation_sym Ord)), seq_NoDup|]. split; [exact DC|]. split; [intros c Hc; apply (one_rate c Hc)|]. split; [intros c Hc; destruct (one_rate c Hc) as (A & B & _ & P & _); auto|].
  split; [intros i Hi; destruct (task_in i Hi) as [_ I]; split; [apply (one_phase _ I)|split; [apply d_pos, Hi|apply NO, I]]|]. split; [intros i m Hi; apply st_ser, Hi|]. split; [intros i Hi; rewrite (st_eq i 0 Hi); apply NN, Hi|].
  intros i. destruct i as [|i]; [exists 1%nat|exists 0%nat]; (split; [apply in_order; lia|lia]).
Qed.
Lemma accepts : (forall i, In i order -> 0 <= N i) -> (forall c, In c (edges g) -> channel_valid g (fun i m => start_time (s i) m) c) -> exists fuel0, forall fuel, (fuel0 <= fuel)%nat -> is_valid_schedule fuel g N max_id order s = Ok true.
Proof.
  intros NP Vc. destruct facts as (F1 & F2 & F3 & F4 & F5 & F6 & F7 & F8). destruct (setup NP) as (fuel0 & H). exists fuel0. intros fuel Hf. destruct (H fuel Hf) as (M & L & ck & u & n & E & BM & ML & M0 & I & Hn & Un & Sn & Hh & Fu & _). rewrite E.
  apply (start_accepts g order st L (fun i => reach (s i) (N i)) d M (fun c => hd 0 (e_in c)) (fun c => hd 0 (e_out c)) F1 F2 F3 F4 F5 F6 F7 BM ML M0 F8 (fuel - 1) ck u (fun _ => 0%nat) (fun _ => 0%nat) n); auto.
  intros c t k e Hc. apply st_valid; assumption.
Qed.
Lemma verdict : (forall i, In i order -> 0 < N i) -> (forall i j, In i order -> In j order -> (start_time (s i) 0 == 0)%Q -> (start_time (s j) 0 == 0)%Q -> i = j) -> exists fuel0, forall fuel, (fuel0 <= fuel)%nat ->
  (exists r, is_valid_schedule fuel g N max_id order s = Ok r) /\
  ((forall c, In c (edges g) -> channel_valid g (fun i m => start_time (s i) m) c) -> is_valid_schedule fuel g N max_id order s = Ok true) /\
  (is_valid_schedule fuel g N max_id order s = Ok true -> run_checked g order st (fun i => reach (s i) (N i)) d (fun c => hd 0 (e_in c)) (fun c => hd 0 (e_out c))).
Proof.
  intros NP One. destruct facts as (F1 & F2 & F3 & F4 & F5 & F6 & F7 & F8). destruct setup as (fuel0 & H); [intros i Hi; specialize (NP i Hi); lia|]. exists fuel0. intros fuel Hf. destruct (H fuel Hf) as (M & L & ck & u & n & E & BM & ML & M0 & I & Hn & Un & Sn & Hh & Fu & U0). rewrite E. split; [|split].
  - apply (start_answers g order st L (fun i => reach (s i) (N i)) d M (fun c => hd 0 (e_in c)) (fun c => hd 0 (e_out c)) F1 F2 F3 F4 F5 F6 F7 BM ML M0 F8 (fuel - 1) ck u (fun _ => 0%nat) (fun _ => 0%nat) n); auto.
  - intros Vc. apply (start_accepts g order st L (fun i => reach (s i) (N i)) d M (fun c => hd 0 (e_in c)) (fun c => hd 0 (e_out c)) F1 F2 F3 F4 F5 F6 F7 BM ML M0 F8 (fuel - 1) ck u (fun _ => 0%nat) (fun _ => 0%nat) n); auto.
    intros c t k e Hc. apply st_valid; assumption.
  - apply (start_sound g order st L (fun i => reach (s i) (N i)) d M (fun c => hd 0 (e_in c)) (fun c => hd 0 (e_out c)) F1 F2 F3 F4 F5 F6 F7 BM ML M0 F8 (fuel - 1) ck u (fun _ => 0%nat) (fun _ => 0%nat) n); auto.
    + intros i Hi. specialize (NP i Hi). unfold reach. lia.
    + intros i Hi Ne. split; [|reflexivity]. destruct (u i) eqn:Ui; [reflexivity|]. exfalso. apply Ne. apply One; auto; [rewrite <- (st_eq i 0 Hi); apply U0; lia|rewrite <- (st_eq n 0 Hn); exact Sn].
Qed.

(** One period later, in the periodic part. *)
Lemma seq_shift_period Omega i m : In i order -> 0 < N i -> (g_period (s i) * inject_Z (N i) == Omega * inject_Z (Z.of_nat (length (g_periodic (s i)))))%Q -> (Z.of_nat (length (g_periodic (s i))) | N i) ->
  (length (g_initial (s i)) <= m)%nat -> (st i (m + Z.to_nat (N i)) == st i m + Omega)%Q.
Proof.
  clear - Per. intros Hi NP Po Dv Hm. rewrite !(st_eq i _ Hi). pose proof (Per i Hi) as NE. set (n := length (g_periodic (s i))) in *. assert (n0 : (n <> 0)%nat) by (unfold n; destruct (g_periodic (s i)); [congruence|discriminate]).
  destruct Dv as (q & Eq). assert (q0 : 0 < q) by nia. unfold start_time. cbv zeta. fold n.
  destruct (Nat.ltb_spec (m + Z.to_nat (N i)) (length (g_initial (s i)))); [lia|]. destruct (Nat.ltb_spec m (length (g_initial (s i)))); [lia|].
  set (k := (m - length (g_initial (s i)))%nat). assert (Ek : (m + Z.to_nat (N i) - length (g_initial (s i)) = k + Z.to_nat q * n)%nat).
  { unfold k. rewrite Eq, Z2Nat.inj_mul, Nat2Z.id by lia. lia. }
  rewrite Ek, Nat.mod_add, Nat.div_add by exact n0. rewrite Nat2Z.inj_add, Z2Nat.id by lia. rewrite inject_Z_plus.
  assert (Nz : ~ (inject_Z (Z.of_nat n) == 0)%Q) by (change 0%Q with (inject_Z 0); rewrite inject_Z_injective; lia).
  assert (E : (g_period (s i) * inject_Z q == Omega)%Q). { rewrite Eq, inject_Z_mult in Po. apply (Qmult_inj_r _ _ (inject_Z (Z.of_nat n)) Nz). rewrite <- Po. ring. }
  rewrite <- E. ring.
Qed.

Section Whole.
Variable Omega : Q.
Hypothesis NP : forall i, In i order -> 0 < N i.
Hypothesis Bal : balanced g N.
Hypothesis Pos : forall i, In i order -> (g_period (s i) * inject_Z (N i) == Omega * inject_Z (Z.of_nat (length (g_periodic (s i)))))%Q /\ (Z.of_nat (length (g_periodic (s i))) | N i).
Hypothesis Run : run_checked g order st (fun i => reach (s i) (N i)) d (fun c => hd 0 (e_in c)) (fun c => hd 0 (e_out c)).

Lemma always_paid c : In c (edges g) -> forall k, (1 <= k)%nat -> paid st d (fun c => hd 0 (e_in c)) (fun c => hd 0 (e_out c)) c k.
Proof.
  intros Hc. destruct Run as (T & u & Tu & Ended & Pd). destruct (one_rate c Hc) as (Ei & Eo & Pa & Pb & _ & _ & Is & Id).
  destruct facts as (F1 & F2 & F3 & F4 & F5 & F6 & F7 & F8).
  pose proof (Bal c Hc) as Bc. rewrite Ei, Eo in Bc. cbn [sumZ fold_right length] in Bc.
  induction k as [k IH] using lt_wf_ind. intros K1. destruct (Nat.le_gt_cases k (u (e_dst c))) as [Le|Gt]; [apply Pd; [exact Hc|lia]|].
  set (src := e_src c) in *. set (dst := e_dst c) in *. pose proof (NP _ Is) as NPs. pose proof (NP _ Id) as NPd.
  assert (Mono : forall i x y, In i order -> (x <= y)%nat -> (st i x <= st i y)%Q) by (intros i x y; exact (st_le g order st d F5 F6 i x y)).
  assert (Late : (T <= st dst (k - 1)%nat)%Q) by (pose proof (Tu dst Id); pose proof (Mono dst (u dst) (k - 1)%nat Id ltac:(lia)); lra).
  assert (Big : (reach (s dst) (N dst) <= u dst)%nat).
  { destruct (Nat.le_gt_cases (reach (s dst) (N dst)) (u dst)) as [X|X]; [exact X|]. exfalso. pose proof (Ended dst (u dst) Id X) as E1. pose proof (Tu dst Id). destruct (F5 dst Id) as (_ & Dp & _). lra. }
  unfold reach in Big. destruct (IH (k - Z.to_nat (N dst))%nat ltac:(lia) ltac:(lia)) as (e & He & Ge). fold src dst in He.
  assert (Shift : (st dst (k - 1)%nat == st dst (k - Z.to_nat (N dst) - 1)%nat + Omega)%Q).
  { rewrite <- (seq_shift_period Omega dst (k - Z.to_nat (N dst) - 1) Id NPd (proj1 (Pos dst Id)) (proj2 (Pos dst Id)) ltac:(lia)). replace (k - Z.to_nat (N dst) - 1 + Z.to_nat (N dst))%nat with (k - 1)%nat by lia. reflexivity. }
  exists (e + Z.to_nat (N src))%nat. fold src dst. split.
  - intros m Hm. destruct (Nat.lt_ge_cases m (reach (s src) (N src))) as [Lt|Ge'].
    + pose proof (Ended src m Is Lt). lra.
    + unfold reach in Ge'. specialize (He (m - Z.to_nat (N src))%nat ltac:(lia)). pose proof (seq_shift_period Omega src (m - Z.to_nat (N src)) Is NPs (proj1 (Pos src Is)) (proj2 (Pos src Is)) ltac:(lia)) as Sh. replace (m - Z.to_nat (N src) + Z.to_nat (N src))%nat with m in Sh by lia. lra.
  - rewrite Nat2Z.inj_sub in Ge by lia. rewrite Nat2Z.inj_add, !Z2Nat.id in * by lia. nia.
Qed.

Lemma whole : forall c, In c (edges g) -> channel_valid g (fun i m => start_time (s i) m) c.
Proof.
  intros c Hc t nc. destruct (one_rate c Hc) as (_ & _ & Pa & Pb & Ra & Rb & Is & Id). destruct facts as (_ & _ & _ & _ & F5 & F6 & _).
  assert (Mono : forall i x y, In i order -> (x <= y)%nat -> (st i x <= st i y)%Q) by (intros i x y; exact (st_le g order st d F5 F6 i x y)).
  assert (K : exists k, (k <= nc)%nat /\ (forall m, (m < k)%nat -> (st (e_dst c) m <= t)%Q) /\ moved_by (start_of (fun i m => start_time (s i) m) (e_dst c)) (cons_rate c) nc t <= hd 0 (e_out c) * Z.of_nat k).
  { clear - Per Id Rb Pb Mono. induction nc as [|nc (k & Lk & Sk & Mk)]; [exists 0%nat; split; [lia|split; [intros m Hm; lia|cbn; lia]]|]. unfold moved_by in *. cbn [sumf]. unfold start_of in *. rewrite Rb. destruct (Qle_bool (start_time (s (e_dst c)) nc) t) eqn:E.
    - exists (S nc). split; [lia|]. apply Qle_bool_iff in E. rewrite <- (st_eq _ nc Id) in E. split; [intros m Hm; pose proof (Mono (e_dst c) m nc Id ltac:(lia)); lra|]. nia.
    - exists k. split; [lia|]. split; [exact Sk|lia]. }
  destruct K as (k & _ & Sk & Mk). destruct k as [|k].
  - exists 0%nat. unfold moved_by at 2. cbn [sumf]. destruct WF as (_ & W & _). destruct (W c Hc) as (? & ? & _ & _ & _ & _ & _ & _ & _ & _ & _ & P0). lia.
  - destruct (always_paid c Hc (S k) ltac:(lia)) as (e & He & Ge). exists e. enough (moved_by (end_of (fun i m => start_time (s i) m) g (e_src c)) (prod_rate c) e t = hd 0 (e_in c) * Z.of_nat e) as -> by lia.
    unfold moved_by. apply sum_const. intros m Hm. rewrite Ra. unfold end_of. destruct (task_in _ Is) as [Et I]. rewrite Et. destruct (one_phase _ I) as (_ & _ & D). rewrite D.
    specialize (He m Hm). specialize (Sk (S k - 1)%nat ltac:(lia)). assert (X : (start_time (s (e_src c)) m + hd 0 (v_durations (task g (e_src c))) <= t)%Q) by (rewrite <- (st_eq _ m Is); fold (d (e_src c)); lra). apply Qle_bool_iff in X. rewrite X. reflexivity.
Qed.
End Whole.
End Accept.
