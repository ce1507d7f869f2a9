(** The two ways of evaluating distributions range over the same buffer sizes. *)
From Coq Require Import QArith Lqa Sorted.
From Verif Require Import Base Graph ScheduleSpec SimSpec Storage StorageSpec StorageProofs Dse DseSpec DseProofs DseExecSpec DseEndsProofs DseKiterSpec DseKiterProofs.
Open Scope Z_scope.

Lemma bounded_ext g c1 c2 s : (forall k c, nth_error (edges g) k = Some c -> c1 k = c2 k) -> bounded_valid g (Some c1) s -> bounded_valid g (Some c2) s.
Proof. intros E [V B]. split; [exact V|]. intros cap k c [= <-] Ek. rewrite <- (E k c Ek). exact (B c1 k c eq_refl Ek). Qed.

Fixpoint place (e : Z) (l : list Z) : nat := match l with [] => 0%nat | x :: l' => if e =? x then 0%nat else S (place e l') end.
Lemma place_at : forall l k e, NoDup l -> nth_error l k = Some e -> place e l = k.
Proof.
  induction l as [|x l IH]; intros [|k] e N E; cbn in E; try discriminate; inversion N as [|? ? Nx Nl]; subst; cbn [place].
  - injection E as ->. rewrite Z.eqb_refl. reflexivity.
  - destruct (Z.eqb_spec e x) as [->|]; [destruct Nx; eapply nth_error_In; eauto|]. f_equal. apply IH; assumption.
Qed.
Lemma tokens_known K init e : valid K init -> In e K -> get_tokens init e = Ok (match get_tokens init e with Ok t => t | _ => 0 end).
Proof.
  intros V He. rewrite <- (valid_edges _ _ V) in He. pose proof (get_quantity_in init e He) as Q. unfold get_quantity in Q. unfold get_tokens. destruct (find_channel e (sd_chan init)); [reflexivity|discriminate].
Qed.

Lemma feedbacks_sum q : forall cs id, sumZ (map q (map e_id (feedbacks id cs))) = sumZ (map (fun i => q (id + Z.of_nat i)) (seq 0 (length cs))).
Proof.
  induction cs as [|c cs IH]; intros id; [reflexivity|]. cbn [feedbacks map length seq].
  change (sumZ (?a :: ?l)) with (a + sumZ l). rewrite IH. cbn [feedback e_id]. rewrite Z.add_0_r. f_equal. rewrite <- seq_shift, map_map. f_equal. apply map_ext. intros i. f_equal. lia.
Qed.
Lemma list_sum {A} (f : A -> Z) (h : nat -> Z) : forall l n, (forall k x, nth_error l k = Some x -> f x = h (n + k)%nat) -> sumZ (map f l) = sumZ (map h (seq n (length l))).
Proof.
  induction l as [|x l IH]; intros n H; [reflexivity|]. cbn [map length seq]. change (sumZ (?a :: ?l)) with (a + sumZ l).
  rewrite (H 0%nat x eq_refl), Nat.add_0_r. f_equal. apply IH. intros k y E. rewrite (H (S k) y E). f_equal. lia.
Qed.
Lemma sumZ_app a b : sumZ (a ++ b) = sumZ a + sumZ b.
Proof. induction a as [|x a IH]; [reflexivity|]. cbn [app]. change (sumZ (?x :: ?l)) with (x + sumZ l). rewrite IH. lia. Qed.
Lemma sum_zero {A} (f : A -> Z) l : (forall x, In x l -> f x = 0) -> sumZ (map f l) = 0.
Proof. induction l as [|x l IH]; intros H; [reflexivity|]. cbn [map]. change (sumZ (?a :: ?l)) with (a + sumZ l). rewrite (H x (or_introl eq_refl)), IH; [reflexivity|]. intros y Hy. apply H. right. exact Hy. Qed.

Section Agree.
Variables (g : graph) (step stepf : Z -> Z) (init initf : sd).
Hypotheses (IDS : forall c, In c (edges g) -> 0 < e_id c <= Z.of_nat (length (edges g)))
  (CL : channel_list (all_ids g)) (VI : valid (channel_ids g) init) (VF : valid (all_ids g) initf) (SS : same_start g step init stepf initf).
Notation count := (Z.of_nat (length (edges g))).
Notation grid := (on_grid (channel_ids g) 0 step init).
Notation gridf := (on_grid (all_ids g) count stepf initf).

Lemma nodup_ids : NoDup (channel_ids g).
Proof. apply sorted_nodup in CL. unfold all_ids, with_feedback in CL. cbn [edges] in CL. rewrite map_app in CL. exact (nodup_left _ _ CL). Qed.
Lemma id_at e : In e (channel_ids g) -> exists k c, nth_error (edges g) k = Some c /\ e_id c = e /\ place e (channel_ids g) = k.
Proof.
  intros H. apply In_nth_error in H. destruct H as (k & E). unfold channel_ids in E. pose proof E as E'. rewrite nth_error_map in E. destruct (nth_error (edges g) k) as [c|] eqn:Ec; [|discriminate].
  injection E as <-. exists k, c. split; [exact Ec|]. split; [reflexivity|]. apply place_at; [exact nodup_ids|exact E'].
Qed.
Lemma grid_size d : grid d -> sd_size d = sumZ (map (room g d) (seq 0 (length (edges g)))).
Proof.
  intros G. rewrite (valid_size _ _ (proj1 G)). unfold channel_ids. rewrite map_map. apply list_sum. intros k c E. unfold room. cbn [Nat.add]. rewrite E. reflexivity.
Qed.
Lemma gridf_size d : gridf d -> sd_size d = sumZ (map (buffers g d) (seq 0 (length (edges g)))).
Proof.
  intros G. rewrite (valid_size _ _ (proj1 G)). unfold all_ids, with_feedback. cbn [edges]. rewrite map_app, map_app, sumZ_app, feedbacks_sum.
  rewrite sum_zero; [reflexivity|]. intros e He. destruct (id_at e He) as (k & c & Ek & <- & _). destruct (SS k c Ek) as (_ & _ & Z0).
  destruct G as (_ & _ & G). destruct (G (e_id c)) as [_ G2]; [unfold all_ids, with_feedback; cbn [edges]; rewrite map_app; apply in_or_app; left; exact He|].
  rewrite G2; [exact Z0|]. apply IDS. eapply nth_error_In; eauto.
Qed.
Lemma same_sizes a b : grid a -> gridf b -> (forall k c, nth_error (edges g) k = Some c -> buffers g b k = room g a k) -> sd_size b = sd_size a.
Proof.
  intros Ga Gb E. rewrite (grid_size a Ga), (gridf_size b Gb). f_equal. apply map_ext_in. intros k Hk. apply in_seq in Hk.
  destruct (nth_error (edges g) k) as [c|] eqn:Ek; [exact (E k c Ek)|]. apply nth_error_None in Ek. lia.
Qed.

Lemma to_feedback a : grid a -> exists b, gridf b /\ sd_size b = sd_size a /\ forall k c, nth_error (edges g) k = Some c -> buffers g b k = room g a k.
Proof.
  intros G. set (q := fun e => if count <? e then room g a (Z.to_nat (e - count - 1)) else quantity initf e).
  set (b := filled (all_ids g) (fun e => match get_tokens initf e with Ok t => t | _ => 0 end) q).
  assert (Bq : forall k c, nth_error (edges g) k = Some c -> buffers g b k = room g a k).
  { intros k c Ek. unfold buffers, b. rewrite filled_quantity by (eapply feedback_in; eauto). unfold q, feedback_id. destruct (Z.ltb_spec count (count + 1 + Z.of_nat k)); [|lia]. f_equal. lia. }
  assert (Gb : gridf b).
  { split; [apply filled_valid|]. split.
    - intros e He. unfold b. rewrite filled_tokens by exact He. symmetry. exact (tokens_known _ _ _ VF He).
    - intros e He. split.
      + intros L. destruct (all_ids_cases g IDS e He) as [X|(k & c & Ek & ->)]; [lia|]. change (quantity b (feedback_id g k)) with (buffers g b k). rewrite (Bq k c Ek). unfold room. rewrite Ek.
        destruct (SS k c Ek) as (S1 & S2 & _). destruct G as (_ & _ & G). destruct (G (e_id c)) as [G1 _]; [apply in_map; eapply nth_error_In; eauto|].
        destruct G1 as (j & J0 & Ej); [apply IDS; eapply nth_error_In; eauto|]. exists j. split; [exact J0|]. rewrite Ej, S2. unfold buffers in S1. rewrite S1. reflexivity.
      + intros L. unfold b. rewrite filled_quantity by exact He. unfold q. destruct (Z.ltb_spec count e); [lia|]. reflexivity. }
  exists b. split; [exact Gb|]. split; [exact (same_sizes a b G Gb Bq)|exact Bq].
Qed.
Lemma from_feedback b : gridf b -> exists a, grid a /\ sd_size b = sd_size a /\ forall k c, nth_error (edges g) k = Some c -> buffers g b k = room g a k.
Proof.
  intros G. set (q := fun e => buffers g b (place e (channel_ids g))). set (a := filled (channel_ids g) (fun e => match get_tokens init e with Ok t => t | _ => 0 end) q).
  assert (Bq : forall k c, nth_error (edges g) k = Some c -> buffers g b k = room g a k).
  { intros k c Ek. unfold room, a. rewrite Ek. assert (I : In (e_id c) (channel_ids g)) by (apply in_map; eapply nth_error_In; eauto). rewrite filled_quantity by exact I. unfold q. f_equal. symmetry.
    apply place_at; [exact nodup_ids|]. unfold channel_ids. rewrite nth_error_map, Ek. reflexivity. }
  assert (Ga : grid a).
  { split; [apply filled_valid|]. split.
    - intros e He. unfold a. rewrite filled_tokens by exact He. symmetry. exact (tokens_known _ _ _ VI He).
    - intros e He. destruct (id_at e He) as (k & c & Ek & Ec & Pl). split.
      + intros _. unfold a. rewrite filled_quantity by exact He. unfold q. rewrite Pl. destruct (SS k c Ek) as (S1 & S2 & _). destruct G as (_ & _ & G).
        destruct (G (feedback_id g k)) as [G1 _]; [eapply feedback_in; eauto|]. destruct G1 as (j & J0 & Ej); [unfold feedback_id; lia|]. exists j. split; [exact J0|]. unfold buffers in *. rewrite Ej, S1, S2, Ec. reflexivity.
      + intros L. pose proof (IDS c (nth_error_In _ _ Ek)). lia. }
  exists a. split; [exact Ga|]. split; [exact (same_sizes a b Ga G Bq)|exact Bq].
Qed.
End Agree.
