(** Proofs about the knee points. *)
From Coq Require Import QArith Sorted.
From Verif Require Import Base Graph Storage StorageSpec StorageProofs StorageSets Knees KneesSpec.
Open Scope Z_scope.

(** ** Lists of vectors *)
Fixpoint products (ls : list (list Z)) : list (list Z) :=
  match ls with
  | [] => [[]]
  | l :: ls' => flat_map (fun x => map (cons x) (products ls')) l
  end.
Lemma products_in : forall ls v, Forall2 (fun x l => In x l) v ls -> In v (products ls).
Proof.
  induction ls as [|l ls IH]; intros v F; inversion F; subst; cbn; [auto|]. apply in_flat_map. eexists; split; [eassumption|]. apply in_map. apply IH. assumption.
Qed.
Lemma products_length n : forall ls, (forall l, In l ls -> length l = n) -> length (products ls) = (n ^ length ls)%nat.
Proof.
  induction ls as [|l ls IH]; intros H; cbn; [reflexivity|]. rewrite <- (IH (fun l' Hl => H l' (or_intror Hl))). rewrite <- (H l (or_introl eq_refl)). clear.
  induction l as [|x l IHl]; cbn; [reflexivity|]. rewrite app_length, map_length. lia.
Qed.

Section Over.
Context (K : list Z) (HK : channel_list K).
Notation valid := (valid K). Notation same := (same K). Notation below := (below K). Notation wf := (wf K). Notation mem := (mem K).
Notation lowest := (lowest K). Notation highest := (highest K). Notation two_differ := (two_differ K). Notation inner_knee := (inner_knee K).

Definition meet (a b x : sd) : Prop := forall e, In e K -> quantity x e = Z.min (quantity a e) (quantity b e).
Lemma meet_comm a b x : meet a b x -> meet b a x.
Proof. intros H e He. rewrite H by exact He. lia. Qed.
Lemma meet_same a b a' b' x : same a a' -> same b b' -> meet a b x -> meet a' b' x.
Proof. intros A B H e He. rewrite H, A, B by exact He. reflexivity. Qed.
Lemma mem_same s x y : same x y -> mem s x -> mem s y.
Proof. intros S (z & Hz & E). exists z. split; [exact Hz|]. apply (same_trans K _ x); [apply same_sym; exact S|exact E]. Qed.
Lemma same_dec a b : same a b \/ ~ same a b.
Proof. rewrite <- eqb_same. destruct (eqb K a b); [left|right]; congruence. Qed.
Lemma mem_dec s x : mem s x \/ ~ mem s x.
Proof.
  destruct (existsb (eqb K x) (flat s)) eqn:E.
  - left. apply existsb_exists in E as (y & Hy & E). exists y. split; [exact Hy|apply eqb_same; exact E].
  - right. intros (y & Hy & S). assert (X : existsb (eqb K x) (flat s) = true) by (apply existsb_exists; exists y; split; [exact Hy|apply eqb_same; exact S]). congruence.
Qed.
Lemma wf_nodup s : wf s -> NoDup (flat s).
Proof.
  intros W. pose proof (wf_uniq K s W) as U. induction U as [|a l F U IH]; constructor; auto. intros H. rewrite Forall_forall in F. apply (F a H). apply same_refl.
Qed.

Lemma add_minima_ok d : valid d -> forall l queue knees, (forall x, In x l -> valid x) -> wf queue -> wf knees ->
  exists queue' knees', add_minima d l queue knees = Ok (queue', knees') /\ wf queue' /\ wf knees' /\
    (forall x, mem queue' x <-> mem queue x \/ exists y, In y l /\ ~ same d y /\ meet d y x) /\
    (forall x, mem knees' x <-> mem knees x \/ exists y, In y l /\ ~ same d y /\ meet d y x).
Proof.
  intros Vd. induction l as [|y l IH]; intros queue knees Vl Wq Wk; cbn [add_minima].
  - exists queue, knees. split; [reflexivity|]. split; [exact Wq|]. split; [exact Wk|]. split; intros x; (split; [auto|intros [H|(y & [] & _)]; exact H]).
  - assert (Vy : valid y) by (apply Vl; left; reflexivity). rewrite (sd_neq_ok K) by assumption. cbn [bind]. destruct (eqb K d y) eqn:E; cbn [negb].
    + apply eqb_same in E. destruct (IH queue knees (fun x Hx => Vl x (or_intror Hx)) Wq Wk) as (q' & k' & -> & W1 & W2 & M1 & M2).
      exists q', k'. split; [reflexivity|]. split; [exact W1|]. split; [exact W2|].
      split; intros x; [rewrite M1|rewrite M2]; (split; [intros [H|(z & Hz & N & Me)]; [auto|right; exists z; cbn; auto]|intros [H|(z & [<-|Hz] & N & Me)]; [auto|contradiction|right; exists z; auto]]).
    + assert (N : ~ same d y) by (rewrite <- eqb_same; congruence). destruct (make_minimal_ok K HK d y Vd Vy) as (k & -> & Vk & Qk). cbn [bind].
      destruct (add_sd_mem K k knees Vk Wk) as (kn1 & -> & Wk1 & _ & Mk1). cbn [bind]. destruct (add_sd_mem K k queue Vk Wq) as (q1 & -> & Wq1 & _ & Mq1). cbn [bind].
      destruct (IH q1 kn1 (fun x Hx => Vl x (or_intror Hx)) Wq1 Wk1) as (q' & k' & -> & W1 & W2 & M1 & M2). exists q', k'. split; [reflexivity|]. split; [exact W1|]. split; [exact W2|].
      assert (S : forall x, same x k <-> meet d y x).
      { intros x. split; intros H e He; [rewrite H by exact He; apply Qk; exact He|rewrite H, Qk by exact He; reflexivity]. }
      split; intros x; [rewrite M1, Mq1|rewrite M2, Mk1]; rewrite S; (split; [intros [[H|H]|(z & Hz & N' & Me)]; [auto|right; exists y; cbn; auto|right; exists z; cbn; auto]
        |intros [H|(z & [<-|Hz] & N' & Me)]; [auto|auto|right; exists z; auto]]).
Qed.

Lemma last_unchecked_ok checked : (forall x, In x checked -> valid x) -> forall l acc, (forall x, In x l -> valid x) ->
  exists r, last_unchecked checked l acc = Ok r /\ (r = acc \/ (In r l /\ forall c, In c checked -> ~ same r c)) /\
    ((exists x, In x l /\ forall c, In c checked -> ~ same x c) -> In r l /\ forall c, In c checked -> ~ same r c).
Proof.
  intros Vc. induction l as [|a l IH]; intros acc Vl; cbn [last_unchecked].
  - exists acc. split; [reflexivity|]. split; [auto|]. intros (x & [] & _).
  - rewrite (has_loop_ok K) by (auto; apply Vl; left; reflexivity). cbn [bind orb].
    destruct (IH (if existsb (eqb K a) checked then acc else a) (fun x Hx => Vl x (or_intror Hx))) as (r & E & D & P). exists r. split; [exact E|].
    assert (A : existsb (eqb K a) checked = false <-> forall c, In c checked -> ~ same a c).
    { split.
      - intros F c Hc S. apply eqb_same in S. assert (X : existsb (eqb K a) checked = true) by (apply existsb_exists; eauto). congruence.
      - intros H. destruct (existsb (eqb K a) checked) eqn:X; [|reflexivity]. apply existsb_exists in X as (c & Hc & S). apply eqb_same in S. destruct (H c Hc S). }
    destruct (existsb (eqb K a) checked) eqn:X.
    + split.
      * destruct D as [->|[I N]]; [auto|right; cbn; auto].
      * intros (x & [<-|Hx] & N); [apply A in N; discriminate|]. destruct (P (ex_intro _ x (conj Hx N))) as [I N']. cbn; auto.
    + assert (G : In r (a :: l) /\ forall c, In c checked -> ~ same r c).
      { destruct D as [->|[I N]]; [|cbn; auto]. split; [left; reflexivity|]. apply A. reflexivity. }
      split; auto.
Qed.

Lemma all_in_ok s : wf s -> forall l b, (forall x, In x l -> valid x) -> exists b', all_in l s b = Ok b' /\ (b' = true <-> b = true /\ forall x, In x l -> mem s x).
Proof.
  intros W. induction l as [|a l IH]; intros b Vl; cbn [all_in].
  - exists b. split; [reflexivity|]. split; [intros H; split; [exact H|intros x []]|tauto].
  - destruct (has_sd_ok K a s (Vl a (or_introl eq_refl)) W) as (h & -> & Hh). cbn [bind]. destruct (IH (if h then b else false) (fun x Hx => Vl x (or_intror Hx))) as (b' & -> & B).
    exists b'. split; [reflexivity|]. rewrite B. destruct h.
    + split; intros [A C]; (split; [exact A|]); [intros x [<-|Hx]; [apply Hh; reflexivity|auto]|intros x Hx; apply C; right; exact Hx].
    + split; [intros [A _]; discriminate|]. intros [_ C]. assert (X : false = true) by (apply Hh, C; left; reflexivity). discriminate.
Qed.

Lemma keys_of s k : wf s -> (In k (map fst (ss_map s)) <-> exists x, In x (flat s) /\ sd_size x = k).
Proof.
  intros W. split.
  - intros H. apply in_map_iff in H as ((k' & l) & <- & Hl). destruct (wf_bucket K s W _ _ Hl) as [N B]. destruct l as [|x l]; [contradiction|]. exists x. split; [apply in_flat; exists k', (x :: l); cbn; auto|].
    apply B. left. reflexivity.
  - intros (x & Hx & <-). apply (wf_at K s x W) in Hx as (l & Hl & _). apply in_map_iff. exists (sd_size x, l). auto.
Qed.
Lemma keys_incl s s' : wf s -> wf s' -> (forall x, In x (flat s) -> mem s' x) -> incl (map fst (ss_map s)) (map fst (ss_map s')).
Proof.
  intros W W' H k Hk. apply (keys_of s k W) in Hk as (x & Hx & <-). apply (keys_of s' _ W'). destruct (H x Hx) as (y & Hy & S). exists y. split; [exact Hy|].
  symmetry. apply (same_size K x y); [exact (wf_valid K s x W Hx)|exact (wf_valid K s' y W' Hy)|exact S].
Qed.
Lemma check_finished_ok queue checked : wf queue -> wf checked -> (forall x, In x (flat checked) -> mem queue x) ->
  exists b, check_finished queue checked = Ok b /\ (b = true <-> forall x, In x (flat queue) -> mem checked x).
Proof.
  intros Wq Wc I. unfold check_finished. destruct (Nat.eqb_spec (length (ss_map queue)) (length (ss_map checked))) as [E|E].
  - destruct (all_in_ok checked Wc (flat queue) true (fun x Hx => wf_valid K queue x Wq Hx)) as (b & -> & B). exists b. split; [reflexivity|]. rewrite B. tauto.
  - exists false. split; [reflexivity|]. split; [discriminate|]. intros A. exfalso. apply E. rewrite <- !(map_length fst).
    pose proof (sorted_nodup _ (wf_sorted K queue Wq)). pose proof (sorted_nodup _ (wf_sorted K checked Wc)). apply Nat.le_antisymm; apply NoDup_incl_length; auto; apply keys_incl; assumption.
Qed.

(** ** Minima of lists *)
Lemma lowest_same l x y : lowest l x -> same x y -> lowest l y.
Proof.
  intros [A B] S. split; [intros p Hp e He; specialize (A p Hp e He); rewrite <- S by exact He; exact A|]. intros e He. destruct (B e He) as (p & Hp & E). exists p. split; [exact Hp|]. rewrite <- S by exact He. exact E.
Qed.
Lemma lowest_unique l x y : lowest l x -> lowest l y -> same x y.
Proof. intros [A B] [C D]. apply below_antisym; intros e He; [destruct (D e He) as (p & Hp & ->); apply A; auto|destruct (B e He) as (p & Hp & ->); apply C; auto]. Qed.
Lemma lowest_app l l' a b x : lowest l a -> lowest l' b -> meet a b x -> lowest (l ++ l') x.
Proof.
  intros [A B] [C D] M. split.
  - intros p Hp e He. rewrite M by exact He. apply in_app_or in Hp as [Hp|Hp]; [specialize (A p Hp e He)|specialize (C p Hp e He)]; lia.
  - intros e He. rewrite M by exact He. destruct (B e He) as (p & Hp & Ep), (D e He) as (q & Hq & Eq). destruct (Z.le_ge_cases (quantity a e) (quantity b e)).
    + exists p. split; [apply in_or_app; auto|lia].
    + exists q. split; [apply in_or_app; auto|lia].
Qed.
Lemma lowest_one p : lowest [p] p.
Proof. split; [intros q [<-|[]]; apply below_refl|]. intros e He. exists p. cbn; auto. Qed.
Lemma lowest_exists : forall l, l <> [] -> (forall x, In x l -> valid x) -> exists v, valid v /\ lowest l v.
Proof.
  induction l as [|p l IH]; intros N V; [contradiction|]. destruct l as [|q l].
  - exists p. split; [apply V; left; reflexivity|apply lowest_one].
  - destruct IH as (v & Vv & Lv); [discriminate|intros x Hx; apply V; right; exact Hx|]. destruct (make_minimal_ok K HK p v (V p (or_introl eq_refl)) Vv) as (x & _ & Vx & Q). exists x. split; [exact Vx|].
    change (p :: q :: l) with ([p] ++ q :: l). apply (lowest_app _ _ p v); [apply lowest_one|exact Lv|exact Q].
Qed.
Lemma lowest_cons p l v x : lowest l v -> lowest (p :: l) x -> meet p v x.
Proof.
  intros [A B] [C D] e He. apply Z.le_antisymm.
  - apply Z.min_glb; [apply (C p (or_introl eq_refl) e He)|]. destruct (B e He) as (q & Hq & ->). apply (C q (or_intror Hq) e He).
  - destruct (D e He) as (q & [<-|Hq] & ->); [lia|]. specialize (A q Hq e He). lia.
Qed.
Lemma differ_dec l : two_differ l \/ (forall a b, In a l -> In b l -> same a b).
Proof.
  destruct (existsb (fun a => existsb (fun b => negb (eqb K a b)) l) l) eqn:E.
  - left. apply existsb_exists in E as (a & Ha & E). apply existsb_exists in E as (b & Hb & E). exists a, b. split; [exact Ha|]. split; [exact Hb|]. rewrite <- eqb_same. destruct (eqb K a b); [discriminate|congruence].
  - right. intros a b Ha Hb. apply eqb_same. destruct (eqb K a b) eqn:X; [reflexivity|]. assert (Y : existsb (fun a => existsb (fun b => negb (eqb K a b)) l) l = true).
    { apply existsb_exists. exists a. split; [exact Ha|]. apply existsb_exists. exists b. rewrite X. auto. } congruence.
Qed.
Lemma lowest_flat l x p : (forall a b, In a l -> In b l -> same a b) -> lowest l x -> In p l -> same x p.
Proof. intros H [_ B] Hp e He. destruct (B e He) as (q & Hq & ->). apply H; assumption. Qed.

(** ** The loop *)
Section Loop.
Context (U knees0 : sds) (WU : wf U).
Definition N := (length (flat U) ^ length K)%nat.
Record inv (queue checked knees : sds) : Prop := {
  i_wq : wf queue; i_wc : wf checked; i_wk : wf knees;
  i_all : forall x, In x (flat U) -> mem queue x;
  i_from : forall x, In x (flat queue) -> exists l, incl l (flat U) /\ l <> [] /\ lowest l x;
  i_sub : forall x, In x (flat checked) -> mem queue x;
  i_meets : forall a b x, In a (flat checked) -> In b (flat checked) -> ~ same a b -> meet a b x -> mem queue x /\ mem knees x;
  i_knees : forall x, mem knees x -> mem knees0 x \/ inner_knee (flat U) x;
  i_old : forall x, mem knees0 x -> mem knees x }.

Lemma checked_few queue checked knees : inv queue checked knees -> (length (flat checked) <= N)%nat.
Proof.
  intros I. unfold N. rewrite <- (map_length (fun d => map (quantity d) K)).
  set (cols := map (fun e => map (fun p => quantity p e) (flat U)) K).
  assert (L : length (products cols) = (length (flat U) ^ length K)%nat).
  { replace (length K) with (length cols) by apply map_length. apply products_length. intros l Hl. apply in_map_iff in Hl as (e & <- & _). apply map_length. }
  rewrite <- L. apply NoDup_incl_length.
  - pose proof (wf_uniq K checked (i_wc _ _ _ I)) as Q. induction Q as [|a l F Q IH]; cbn [map]; constructor; auto. intros H. apply in_map_iff in H as (b & E & Hb). rewrite Forall_forall in F. apply (F b Hb).
    intros e He. clear - E He. revert E He. induction K as [|k ks IH]; cbn [map In]; intros E He; [destruct He|]. injection E as E1 E2. destruct He as [<- | He]; auto.
  - intros v Hv. apply in_map_iff in Hv as (d & <- & Hd). apply products_in. destruct (i_sub _ _ _ I d Hd) as (y & Hy & S). destruct (i_from _ _ _ I y Hy) as (l & Il & _ & [_ B]).
    assert (G : forall e, In e K -> In (quantity d e) (map (fun p => quantity p e) (flat U))).
    { intros e He. rewrite S by exact He. destruct (B e He) as (p & Hp & ->). apply in_map_iff. exists p. auto. }
    unfold cols. clear - G. induction K as [|k ks IH]; cbn; constructor; [apply G; left; reflexivity|]. apply IH. intros e He. apply G. right. exact He.
Qed.

Lemma knee_step queue checked knees d queue' knees' checked' : inv queue checked knees -> In d (flat queue) ->
  wf queue' -> wf knees' -> wf checked' ->
  (forall x, mem queue' x <-> mem queue x \/ exists y, In y (flat queue) /\ ~ same d y /\ meet d y x) ->
  (forall x, mem knees' x <-> mem knees x \/ exists y, In y (flat queue) /\ ~ same d y /\ meet d y x) ->
  (forall x, In x (flat checked') -> In x (flat checked) \/ x = d) -> inv queue' checked' knees'.
Proof.
  intros I Hd Wq Wk Wc Mq Mk Mc.
  assert (F : forall x, mem queue x -> exists l, incl l (flat U) /\ l <> [] /\ lowest l x).
  { intros x (y & Hy & S). destruct (i_from _ _ _ I y Hy) as (l & A & B & C). exists l. split; [exact A|]. split; [exact B|]. apply (lowest_same l y); [exact C|apply same_sym; exact S]. }
  destruct (i_from _ _ _ I d Hd) as (ld & Ad & Bd & Cd).
  assert (J : forall y x, In y (flat queue) -> meet d y x -> exists l, incl l (flat U) /\ l <> [] /\ lowest l x /\ (~ same d y -> two_differ l)).
  { intros y x Hy M. destruct (i_from _ _ _ I y Hy) as (l & A & B & C). exists (ld ++ l). split; [apply incl_app; assumption|]. split; [destruct ld; [contradiction|discriminate]|]. split; [apply (lowest_app _ _ d y); assumption|].
    intros Nd. destruct (differ_dec (ld ++ l)) as [T|T]; [exact T|]. exfalso. apply Nd. destruct ld as [|p ld]; [contradiction|]. destruct l as [|q l]; [contradiction|].
    apply (same_trans K _ p); [|apply (same_trans K _ q)].
    - apply (lowest_flat (p :: ld)); [|exact Cd|left; reflexivity]. intros a b Ha Hb. apply T; apply in_or_app; auto.
    - apply T; [left; reflexivity|apply in_or_app; right; left; reflexivity].
    - apply same_sym. apply (lowest_flat (q :: l)); [|exact C|left; reflexivity]. intros a b Ha Hb. apply T; apply in_or_app; auto. }
  assert (P : forall b x, In b (flat checked) -> ~ same d b -> meet d b x -> mem queue' x /\ mem knees' x).
  { intros b x Hb Nb M. destruct (i_sub _ _ _ I b Hb) as (y & Hy & S). assert (Ny : ~ same d y) by (intros X; apply Nb; apply (same_trans K _ y); [exact X|apply same_sym; exact S]).
    assert (My : meet d y x) by (apply (meet_same d b d y x); [apply same_refl|exact S|exact M]). rewrite Mq, Mk. split; right; exists y; auto. }
  constructor; auto.
  - intros x Hx. apply Mq. left. apply (i_all _ _ _ I x Hx).
  - intros x Hx. apply (in_mem K) in Hx. apply Mq in Hx as [Hx|(y & Hy & _ & M)]; [apply F; exact Hx|]. destruct (J y x Hy M) as (l & A & B & C & _). exists l. auto.
  - intros x Hx. apply Mq. left. apply Mc in Hx as [Hx| ->]; [apply (i_sub _ _ _ I x Hx)|apply in_mem; exact Hd].
  - intros a b x Ha Hb Nab M. apply Mc in Ha as [Ha| ->], Hb as [Hb| ->].
    + destruct (i_meets _ _ _ I a b x Ha Hb Nab M) as [A B]. rewrite Mq, Mk. auto.
    + apply (P a); [exact Ha|intros X; apply Nab; apply same_sym; exact X|apply meet_comm; exact M].
    + apply (P b); auto.
    + destruct Nab. apply same_refl.
  - intros x Hx. apply Mk in Hx as [Hx|(y & Hy & Ny & M)]; [apply (i_knees _ _ _ I x Hx)|]. right. destruct (J y x Hy M) as (l & A & _ & C & D). exists l. split; [exact A|]. split; [apply D; exact Ny|exact C].
  - intros x Hx. apply Mk. left. apply (i_old _ _ _ I x Hx).
Qed.

Lemma closed queue checked knees : inv queue checked knees -> (forall x, In x (flat queue) -> mem checked x) ->
  forall l x, incl l (flat U) -> l <> [] -> lowest l x -> mem queue x /\ (two_differ l -> mem knees x).
Proof.
  intros I D. induction l as [|p l IH]; intros x Il Nl Lx; [contradiction|].
  assert (Mp : mem queue p) by (apply (i_all _ _ _ I); apply Il; left; reflexivity).
  destruct l as [|q l].
  - assert (S : same p x) by (apply (lowest_unique [p]); [apply lowest_one|exact Lx]). split; [apply (mem_same queue p); assumption|]. intros (a & b & [<-|[]] & [<-|[]] & N'). destruct N'. apply same_refl.
  - assert (Iq : incl (q :: l) (flat U)) by (intros z Hz; apply Il; right; exact Hz).
    destruct (lowest_exists (q :: l)) as (v & Vv & Lv); [discriminate|intros z Hz; exact (wf_valid K U z WU (Iq z Hz))|].
    destruct (IH v Iq ltac:(discriminate) Lv) as [Mv Tv]. pose proof (lowest_cons p (q :: l) v x Lv Lx) as M. destruct (same_dec p v) as [S|S].
    + assert (Sx : same v x). { intros e He. rewrite M, S by exact He. lia. }
      split; [apply (mem_same queue v); assumption|]. intros (a & b & Ha & Hb & Nab). apply (mem_same knees v); [exact Sx|]. apply Tv. destruct (differ_dec (q :: l)) as [T|T]; [exact T|]. exfalso. apply Nab.
      assert (G : forall z, In z (p :: q :: l) -> same v z). { intros z [<-|Hz]; [apply same_sym; exact S|]. apply (lowest_flat (q :: l)); assumption. }
      apply (same_trans K _ v); [apply same_sym|]; apply G; assumption.
    + assert (C : forall z, mem queue z -> exists c, In c (flat checked) /\ same z c).
      { intros z (y & Hy & Sy). destruct (D y Hy) as (c & Hc & Sc). exists c. split; [exact Hc|]. apply (same_trans K _ y); assumption. }
      destruct (C p Mp) as (c1 & H1 & S1), (C v Mv) as (c2 & H2 & S2).
      assert (Nc : ~ same c1 c2). { intros X. apply S. apply (same_trans K _ c1); [exact S1|]. apply (same_trans K _ c2); [exact X|apply same_sym; exact S2]. }
      destruct (i_meets _ _ _ I c1 c2 x H1 H2 Nc (meet_same p v c1 c2 x S1 S2 M)) as [A B]. auto.
Qed.

Lemma knee_loop_ok : flat U <> [] -> forall fuel queue checked knees, inv queue checked knees -> (flat checked = [] \/ exists x, In x (flat queue) /\ ~ mem checked x) -> (N < fuel + length (flat checked))%nat ->
  exists knees', knee_loop fuel queue checked knees = Ok knees' /\ wf knees' /\ forall x, mem knees' x <-> mem knees0 x \/ inner_knee (flat U) x.
Proof.
  intros NU. induction fuel as [|f IH]; intros queue checked knees I Next Fuel; [pose proof (checked_few _ _ _ I); lia|]. cbn [knee_loop].
  pose proof (i_wq _ _ _ I) as Wq. pose proof (i_wc _ _ _ I) as Wc. pose proof (i_wk _ _ _ I) as Wk.
  assert (Vq : forall x, In x (flat queue) -> valid x) by (intros x Hx; exact (wf_valid K queue x Wq Hx)). assert (Vc : forall x, In x (flat checked) -> valid x) by (intros x Hx; exact (wf_valid K checked x Wc Hx)).
  assert (Pick : exists d, (if set_count checked =? 0 then get_next queue else last_unchecked (flat checked) (flat queue) sd_default) = Ok d /\ In d (flat queue) /\ forall c, In c (flat checked) -> ~ same d c).
  { destruct (Z.eqb_spec (set_count checked) 0) as [C|C].
    - apply flat_count in C. destruct (get_next_ok K queue Wq) as [_ G]. destruct G as (d & E & Hd & _).
      + destruct (flat U) as [|u us] eqn:EU; [contradiction|]. destruct (i_all _ _ _ I u) as (y & Hy & _); [rewrite EU; left; reflexivity|]. intros X. rewrite X in Hy. destruct Hy.
      + exists d. split; [exact E|]. split; [exact Hd|]. rewrite C. intros c [].
    - destruct Next as [X|(x & Hx & Nx)]; [apply flat_count in X; contradiction|]. destruct (last_unchecked_ok (flat checked) Vc (flat queue) sd_default Vq) as (r & E & _ & P). exists r. split; [exact E|]. apply P.
      exists x. split; [exact Hx|]. intros c Hc S. apply Nx. exists c. auto. }
  destruct Pick as (d & -> & Hd & Nd). cbn [bind].
  destruct (add_minima_ok d (Vq d Hd) (flat queue) queue knees Vq Wq Wk) as (queue' & knees' & -> & Wq' & Wk' & Mq & Mk). cbn [bind fst snd].
  destruct (add_sd_ok K d checked (Vq d Hd) Wc) as (checked' & -> & Wc' & Mc). cbn [bind].
  assert (I' : inv queue' checked' knees'). { apply (knee_step queue checked knees d); auto. intros x Hx. apply Mc in Hx as [Hx|[Hx _]]; auto. }
  destruct (check_finished_ok queue' checked' Wq' Wc' (i_sub _ _ _ I')) as (b & -> & B). cbn [bind]. destruct b.
  - assert (D : forall x, In x (flat queue') -> mem checked' x) by (apply B; reflexivity). exists knees'. split; [reflexivity|]. split; [exact Wk'|]. intros x. split; [apply (i_knees _ _ _ I')|].
    intros [H|(l & A & T & L)]; [apply (i_old _ _ _ I' x H)|]. assert (Nl : l <> []) by (destruct T as (a & _ & Ha & _); intros ->; destruct Ha). apply (closed _ _ _ I' D l x A Nl L). exact T.
  - apply IH; [exact I'| |].
    + right. destruct (existsb (fun x => negb (existsb (eqb K x) (flat checked'))) (flat queue')) eqn:X.
      * apply existsb_exists in X as (x & Hx & X). exists x. split; [exact Hx|]. intros (y & Hy & S). apply negb_true_iff in X. assert (Y : existsb (eqb K x) (flat checked') = true) by (apply existsb_exists; exists y; split; [exact Hy|apply eqb_same; exact S]). congruence.
      * assert (Y : false = true); [|discriminate]. apply B. intros x Hx. destruct (mem_dec checked' x) as [M|M]; [exact M|]. assert (Z : existsb (fun x => negb (existsb (eqb K x) (flat checked'))) (flat queue') = true); [|congruence].
        apply existsb_exists. exists x. split; [exact Hx|]. apply negb_true_iff. destruct (existsb (eqb K x) (flat checked')) eqn:Q; [|reflexivity]. apply existsb_exists in Q as (y & Hy & S). destruct M. exists y. split; [exact Hy|apply eqb_same; exact S].
    + assert (L : (length (d :: flat checked) <= length (flat checked'))%nat); [|cbn [length] in L; lia]. apply NoDup_incl_length.
      * constructor; [|apply wf_nodup; exact Wc]. intros H. apply (Nd d H). apply same_refl.
      * intros x [<-|Hx]; apply Mc; auto.
Qed.
End Loop.

Lemma knee_loop_start U knees fuel : wf U -> wf knees -> flat U <> [] -> (length (flat U) ^ length K < fuel)%nat ->
  exists knees', knee_loop fuel U sds_empty knees = Ok knees' /\ wf knees' /\ forall x, mem knees' x <-> mem knees x \/ inner_knee (flat U) x.
Proof.
  intros WU Wk NU F. apply (knee_loop_ok U knees WU NU fuel U sds_empty knees); [|left; reflexivity|unfold N; lia].
  constructor; auto; [apply wf_empty|apply in_mem| |intros x []|intros a b x []].
  intros x Hx. exists [x]. split; [intros y [<-|[]]; exact Hx|]. split; [discriminate|apply lowest_one].
Qed.

(** ** Edge knees *)
Lemma raise_edges_ok x : valid x -> forall es acc, incl es K -> NoDup es -> valid acc ->
  exists acc', raise_edges x es acc = Ok acc' /\ valid acc' /\ forall e, In e K -> quantity acc' e = if in_dec Z.eq_dec e es then Z.max (quantity x e) (quantity acc e) else quantity acc e.
Proof.
  intros Vx. induction es as [|k es IH]; intros acc I Nd Va; cbn [raise_edges].
  - exists acc. split; [reflexivity|]. split; [exact Va|]. intros e He. destruct (in_dec Z.eq_dec e []) as [[]|]. reflexivity.
  - inversion Nd as [|? ? Nk Nd']; subst. assert (Hk : In k K) by (apply I; left; reflexivity). rewrite !get_quantity_in by (rewrite ?(valid_edges K _ Vx), ?(valid_edges K _ Va); exact Hk). cbn [bind].
    set (acc1 := if quantity x k >? quantity acc k then set_quantity k (quantity x k) acc else acc).
    assert (V1 : valid acc1) by (unfold acc1; destruct (quantity x k >? quantity acc k); [apply set_quantity_valid|]; auto).
    assert (Q1 : forall e, In e K -> quantity acc1 e = if e =? k then Z.max (quantity x e) (quantity acc e) else quantity acc e).
    { intros e He. unfold acc1. destruct (Z.gtb_spec (quantity x k) (quantity acc k)) as [G|G].
      - rewrite (set_quantity_quantity K HK) by exact Va. destruct (Z.eqb_spec e k) as [->|]; lia.
      - destruct (Z.eqb_spec e k) as [->|]; lia. }
    destruct (IH acc1 (fun e He => I e (or_intror He)) Nd' V1) as (acc' & -> & V' & Q). exists acc'. split; [reflexivity|]. split; [exact V'|]. intros e He. rewrite Q, Q1 by exact He.
    destruct (in_dec Z.eq_dec e es) as [H|H], (in_dec Z.eq_dec e (k :: es)) as [H'|H'], (Z.eqb_spec e k) as [->|E]; auto; try contradiction.
    all: exfalso; cbn [In] in *; clear - H H' E Nk || clear - H H' Nk; intuition congruence.
Qed.
Lemma raise_all_ok : forall l acc, (forall x, In x l -> valid x) -> valid acc -> exists acc', raise_all K l acc = Ok acc' /\ valid acc' /\ highest (acc :: l) acc'.
Proof.
  induction l as [|x l IH]; intros acc Vl Va; cbn [raise_all].
  - exists acc. split; [reflexivity|]. split; [exact Va|]. split; [intros p [<-|[]]; apply below_refl|]. intros e He. exists acc. cbn; auto.
  - destruct (raise_edges_ok x (Vl x (or_introl eq_refl)) K acc (incl_refl K) (sorted_nodup K HK) Va) as (a1 & -> & V1 & Q1). cbn [bind].
    destruct (IH a1 (fun y Hy => Vl y (or_intror Hy)) V1) as (a' & -> & V' & [A B]). exists a'. split; [reflexivity|]. split; [exact V'|].
    assert (Q : forall e, In e K -> quantity a1 e = Z.max (quantity x e) (quantity acc e)). { intros e He. rewrite Q1 by exact He. destruct (in_dec Z.eq_dec e K); [reflexivity|contradiction]. }
    split.
    + intros p [<-|[<-|Hp]] e He; [specialize (A a1 (or_introl eq_refl) e He); rewrite Q in A by exact He; lia|specialize (A a1 (or_introl eq_refl) e He); rewrite Q in A by exact He; lia|apply (A p (or_intror Hp) e He)].
    + intros e He. destruct (B e He) as (p & [<-|Hp] & E); [|exists p; cbn; auto]. rewrite Q in E by exact He. destruct (Z.le_ge_cases (quantity x e) (quantity acc e)); [exists acc|exists x]; cbn; (split; [auto|lia]).
Qed.
Lemma highest_unique l x y : highest l x -> highest l y -> same x y.
Proof. intros [A B] [C D]. apply below_antisym; intros e He; [destruct (B e He) as (p & Hp & ->); apply C; auto|destruct (D e He) as (p & Hp & ->); apply A; auto]. Qed.

Lemma edge_knees_ok lb top U F : valid top -> wf U -> wf F -> forall buffers knees, incl buffers K -> wf knees ->
  exists knees', edge_knees buffers lb top U F knees = Ok knees' /\ wf knees' /\
    forall v, mem knees' v <-> mem knees v \/ (~ mem U v /\ ~ mem F v /\ exists c, In c buffers /\ ~ same v top /\ quantity v c = bound_of lb c /\ forall e, In e K -> e <> c -> quantity v e = quantity top e).
Proof.
  intros Vt WU WF. induction buffers as [|c cs IH]; intros knees I Wk; cbn [edge_knees].
  - exists knees. split; [reflexivity|]. split; [exact Wk|]. intros v. split; [auto|]. intros [H|(_ & _ & c & [] & _)]. exact H.
  - assert (Hc : In c K) by (apply I; left; reflexivity). set (t := set_quantity c (bound_of lb c) top). assert (V : valid t) by (apply set_quantity_valid; auto).
    assert (Q : forall e, quantity t e = if e =? c then bound_of lb c else quantity top e) by (intros e; apply (set_quantity_quantity K HK); exact Vt).
    destruct (has_sd_ok K t U V WU) as (inU & -> & HU). cbn [bind]. destruct (has_sd_ok K t F V WF) as (inF & EF & HF).
    assert (A : exists b, (if inU then Ok false else do inF0 <- has_sd t F; if inF0 then Ok false else sd_neq t top) = Ok b /\ (b = true <-> ~ mem U t /\ ~ mem F t /\ ~ same t top)).
    { destruct inU; [exists false; split; [reflexivity|]; split; [discriminate|intros (N' & _); destruct N'; apply HU; reflexivity]|]. rewrite EF. cbn [bind].
      destruct inF; [exists false; split; [reflexivity|]; split; [discriminate|intros (_ & N' & _); destruct N'; apply HF; reflexivity]|]. exists (negb (eqb K t top)). split; [apply sd_neq_ok; assumption|].
      rewrite negb_true_iff, <- eqb_same. split; [intros E; repeat split; [intros X; apply HU in X; discriminate|intros X; apply HF in X; discriminate|congruence]|].
      intros (_ & _ & N'). destruct (eqb K t top); [destruct N'; reflexivity|reflexivity]. }
    destruct A as (b & -> & B). cbn [bind].
    assert (S : forall v, same v t <-> quantity v c = bound_of lb c /\ forall e, In e K -> e <> c -> quantity v e = quantity top e).
    { intros v. split.
      - intros H. split; [rewrite H, Q, Z.eqb_refl by exact Hc; reflexivity|]. intros e He N'. rewrite H, Q by exact He. destruct (Z.eqb_spec e c); [contradiction|reflexivity].
      - intros [E H] e He. rewrite Q. destruct (Z.eqb_spec e c) as [->|N']; [exact E|apply H; assumption]. }
    assert (Step : exists k1, (if b then add_sd t knees else Ok knees) = Ok k1 /\ wf k1 /\ forall v, mem k1 v <-> mem knees v \/ (b = true /\ same v t)).
    { destruct b; [destruct (add_sd_mem K t knees V Wk) as (k1 & -> & W1 & _ & M1); exists k1; split; [reflexivity|]; split; [exact W1|]; intros v; rewrite M1; tauto|].
      exists knees. split; [reflexivity|]. split; [exact Wk|]. intros v. split; [auto|intros [H|[H _]]; [exact H|discriminate]]. }
    destruct Step as (k1 & -> & W1 & M1). cbn [bind]. destruct (IH k1 (fun e He => I e (or_intror He)) W1) as (k' & -> & W' & M'). exists k'. split; [reflexivity|]. split; [exact W'|].
    intros v. rewrite M', M1, B. split.
    + intros [[H|[(N1 & N2 & N3) Sv]]|(N1 & N2 & c' & Hc' & R)]; [auto| |right; split; [exact N1|]; split; [exact N2|]; exists c'; cbn; auto].
      right. split; [intros X; apply N1; apply (mem_same U v); assumption|]. split; [intros X; apply N2; apply (mem_same F v); assumption|]. exists c. split; [left; reflexivity|]. split; [|apply S; exact Sv].
      intros X. apply N3. apply (same_trans K _ v); [apply same_sym; exact Sv|exact X].
    + intros [H|(N1 & N2 & c' & [<-|Hc'] & N3 & R)]; [auto| |right; split; [exact N1|]; split; [exact N2|]; exists c'; auto].
      apply S in R. left. right. split; [|exact R]. pose proof (same_sym K _ _ R) as R'. split; [intros X; apply N1; apply (mem_same U t); assumption|]. split; [intros X; apply N2; apply (mem_same F t); assumption|].
      intros X. apply N3. apply (same_trans K _ t); assumption.
Qed.

Lemma add_edge_knees_ok buffers lb U F knees : incl buffers K -> wf U -> wf F -> wf knees -> flat U <> [] ->
  exists knees', add_edge_knees buffers lb U F knees = Ok knees' /\ wf knees' /\
    forall v, mem knees' v <-> mem knees v \/ (~ mem U v /\ ~ mem F v /\ exists c, In c buffers /\ edge_knee K (flat U) (bound_of lb c) c v).
Proof.
  intros I WU WF Wk NU. unfold add_edge_knees. destruct (get_next_ok K U WU) as [_ G]. destruct (G NU) as (first & -> & Hf & _). cbn [bind]. assert (Vl : forall x, In x (flat U) -> valid x) by (intros x Hx; exact (wf_valid K U x WU Hx)).
  rewrite (valid_edges K first (Vl first Hf)). destruct (raise_all_ok (flat U) first Vl (Vl first Hf)) as (top & -> & Vt & [A B]). cbn [bind].
  assert (H : highest (flat U) top). { split; [intros p Hp; apply A; right; exact Hp|]. intros e He. destruct (B e He) as (p & [<-|Hp] & E); [exists first|exists p]; auto. }
  destruct (edge_knees_ok lb top U F Vt WU WF buffers knees I Wk) as (k' & -> & W' & M'). exists k'. split; [reflexivity|]. split; [exact W'|]. intros v. rewrite M'. unfold edge_knee. split.
  - intros [X|(N1 & N2 & c & Hc & N3 & E & R)]; [auto|]. right. split; [exact N1|]. split; [exact N2|]. exists c. split; [exact Hc|]. exists top. auto.
  - intros [X|(N1 & N2 & c & Hc & t & Ht & N3 & E & R)]; [auto|]. right. split; [exact N1|]. split; [exact N2|]. exists c. split; [exact Hc|]. pose proof (highest_unique _ _ _ Ht H) as S.
    split; [intros X; apply N3; apply (same_trans K _ top); [exact X|apply same_sym; exact S]|]. split; [exact E|]. intros e He Ne. rewrite <- S by exact He. apply R; assumption.
Qed.

Lemma each_maximum_undefined lb s : wf s -> (2 <= length (flat s))%nat -> each (fun x => remove_non_maximum x lb) (flat s) s = Undefined.
Proof.
  intros W L. pose proof (fun x => is_in_back_cone_ok K x lb s) as Q. assert (Vl : forall x, In x (flat s) -> valid x) by (intros x Hx; exact (wf_valid K s x W Hx)).
  assert (C : set_count s <=? 1 = false) by (unfold set_count; lia). destruct (flat s) as [|x l]; [cbn in L; lia|]. cbn [each]. unfold remove_non_maximum at 1. rewrite C.
  destruct (Q x (Vl x (or_introl eq_refl)) W) as [X _]. rewrite X by apply same_refl. reflexivity.
Qed.
Lemma each_maximum_one lb : forall l s, (length (flat s) <= 1)%nat -> each (fun x => remove_non_maximum x lb) l s = Ok s.
Proof. induction l as [|x l IH]; intros s L; cbn [each]; [reflexivity|]. unfold remove_non_maximum at 1. replace (set_count s <=? 1) with true by (unfold set_count; lia). cbn [bind]. apply IH. exact L. Qed.
End Over.
