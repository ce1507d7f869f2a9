(** Proofs about the command line. *)
From Coq Require Import Ascii String.
From Verif Require Import Base Cmdline CmdlineSpec.
Open Scope list_scope.

(** * One parameter *)
Lemma split_assigns arg k v : split_equal arg = Some (k, v) <-> assigns arg k v.
Proof.
  unfold assigns. revert k v. induction arg as [|c s IH]; intros k v; cbn [split_equal].
  - split; [discriminate|]. intros [H _]. destruct k; discriminate.
  - destruct (Ascii.eqb_spec c "="%char) as [->|N].
    + split.
      * intros [= <- <-]. split; [reflexivity|exact I].
      * intros [H NE]. destruct k as [|c k]; cbn in H; [injection H as <-; reflexivity|]. injection H as <- _. destruct NE as [NE _]. congruence.
    + split.
      * destruct (split_equal s) as [[k' v']|] eqn:E; [|discriminate]. intros [= <- <-]. destruct (proj1 (IH k' v') eq_refl) as [-> NE]. split; [reflexivity|split; assumption].
      * intros [H NE]. destruct k as [|c' k]; cbn in H; [injection H as E _; congruence|]. injection H as <- H. destruct NE as [_ NE]. rewrite (proj2 (IH k v) (conj H NE)). reflexivity.
Qed.
Lemma assigns_fun arg k v k' v' : assigns arg k v -> assigns arg k' v' -> k = k' /\ v = v'.
Proof. intros A B. apply split_assigns in A, B. rewrite A in B. injection B as <- <-. auto. Qed.

(** * The -p options of a part *)
Lemma snoc_split {A} (l pre post : list A) x y : l ++ [x] = pre ++ y :: post ->
  (post = [] /\ l = pre /\ x = y) \/ exists post', post = post' ++ [x] /\ l = pre ++ y :: post'.
Proof.
  destruct post as [|z post _] using rev_ind.
  - intros H. apply app_inj_tail in H as [-> ->]. auto.
  - intros H. right. exists post. replace (pre ++ y :: post ++ [z]) with ((pre ++ y :: post) ++ [z]) in H by (rewrite <- app_assoc; reflexivity).
    apply app_inj_tail in H as [-> ->]. auto.
Qed.

Lemma gives_nil key v : ~ gives [] key v.
Proof. intros (pre & arg & post & H & _). destruct pre; discriminate. Qed.

Lemma gives_snoc_other seg o key v : (forall arg, o <> OptP arg) -> (gives (seg ++ [o]) key v <-> gives seg key v).
Proof.
  intros N. split.
  - intros (pre & arg & post & H & A & L). apply snoc_split in H as [(-> & _ & ->)|(post' & -> & ->)]; [exfalso; eapply N; reflexivity|].
    exists pre, arg, post'. split; [reflexivity|]. split; [assumption|]. intros arg' v' I. apply L. apply in_or_app. auto.
  - intros (pre & arg & post & -> & A & L). exists pre, arg, (post ++ [o]). split; [rewrite <- app_assoc; reflexivity|]. split; [assumption|].
    intros arg' v' I. apply in_app_or in I as [I|[->|[]]]; [eauto|]. exfalso. eapply N. reflexivity.
Qed.

Lemma gives_snoc seg arg key v : gives (seg ++ [OptP arg]) key v <-> assigns arg key v \/ ((forall v', ~ assigns arg key v') /\ gives seg key v).
Proof.
  split.
  - intros (pre & a & post & H & A & L). apply snoc_split in H as [(-> & _ & [= ->])|(post' & -> & ->)]; [auto|]. right. split.
    + intros v'. apply L. apply in_or_app. right. left. reflexivity.
    + exists pre, a, post'. split; [reflexivity|]. split; [assumption|]. intros arg' v' I. apply L. apply in_or_app. auto.
  - intros [A|[N (pre & a & post & -> & A & L)]].
    + exists seg, arg, []. split; [reflexivity|]. split; [assumption|]. intros ? ? [].
    + exists pre, a, (post ++ [OptP arg]). split; [rewrite <- app_assoc; reflexivity|]. split; [assumption|].
      intros arg' v' I. apply in_app_or in I as [I|[[= <-]|[]]]; eauto.
Qed.

Lemma names_gives seg key : names seg key <-> exists v, gives seg key v.
Proof.
  split.
  - induction seg as [|o seg IH] using rev_ind; intros (arg & v & I & A); [destruct I|]. apply in_app_or in I.
    assert (D : (exists a, o = OptP a) \/ forall a, o <> OptP a) by (destruct o; try (right; discriminate); left; eauto).
    destruct D as [[a ->]|N].
    + destruct (split_equal a) as [[k' v']|] eqn:E.
      * apply split_assigns in E. destruct (string_dec k' key) as [->|Nk]; [exists v'; apply gives_snoc; auto|].
        destruct I as [I|[[= ->]|[]]]; [|exfalso; apply Nk; apply (assigns_fun arg _ _ _ _ E A)].
        destruct IH as (w & Hw); [exists arg, v; auto|]. exists w. apply gives_snoc. right. split; [|assumption]. intros w' A'. apply Nk. apply (assigns_fun a _ _ _ _ E A').
      * assert (Na : forall k' v', ~ assigns a k' v') by (intros k' v' A'; apply split_assigns in A'; congruence).
        destruct I as [I|[[= ->]|[]]]; [|exfalso; eapply Na, A]. destruct IH as (w & Hw); [exists arg, v; auto|]. exists w. apply gives_snoc. auto.
    + destruct I as [I|[->|[]]]; [|exfalso; eapply N; reflexivity]. destruct IH as (w & Hw); [exists arg, v; auto|]. exists w. apply gives_snoc_other; assumption.
  - intros (v & pre & arg & post & -> & A & _). exists arg, v. split; [apply in_elt|assumption].
Qed.

(** * What the loop over the options has gathered *)
Definition gathered (os : list opt) : cmd := fold_left take os cmd0.
Lemma gathered_snoc os o : gathered (os ++ [o]) = take (gathered os) o.
Proof. unfold gathered. rewrite fold_left_app. reflexivity. Qed.

Lemma parse_fold os : forall c, ~ In OptH os -> parse c os = Some (fold_left take os c).
Proof.
  induction os as [|o os IH]; intros c N; [reflexivity|]. cbn [fold_left]. rewrite <- IH by (intros H; apply N; right; exact H). destruct o; try reflexivity. exfalso. apply N. left. reflexivity.
Qed.
Lemma parse_help os : forall c, In OptH os -> parse c os = None.
Proof. induction os as [|o os IH]; intros c H; [destruct H|]. destruct H as [->|H]; [reflexivity|]. cbn [parse]. destruct o; auto. Qed.

Definition collects (m : params) (seg : list opt) : Prop := forall key v, m key = Some v <-> gives seg key v.

Lemma last_part_snoc os seg o : ~ ends_part o -> last_part os seg -> last_part (os ++ [o]) (seg ++ [o]).
Proof.
  intros N [A B]. split; [intros x I; apply in_app_or in I as [I|[<-|[]]]; auto|]. destruct B as [->|(pre & y & -> & E)]; [left; reflexivity|]. right. exists pre, y. rewrite <- app_assoc. auto.
Qed.
Lemma last_part_end os o : ends_part o -> last_part (os ++ [o]) [].
Proof. intros E. split; [intros ? []|]. right. exists os, o. auto. Qed.

Lemma last_part_unique os s s' : last_part os s -> last_part os s' -> s = s'.
Proof.
  revert s s'. induction os as [|o os IH] using rev_ind; intros s s' [A B] [A' B'].
  - assert (forall t : list opt, [] = t \/ (exists pre o, [] = pre ++ o :: t /\ ends_part o) -> t = []) as X. { intros t [<-|([|] & ? & E & _)]; [reflexivity|discriminate|discriminate]. }
    rewrite (X _ B), (X _ B'). reflexivity.
  - assert (X : forall t, (forall x, In x t -> ~ ends_part x) -> os ++ [o] = t \/ (exists pre y, os ++ [o] = pre ++ y :: t /\ ends_part y) ->
       (t = [] /\ ends_part o) \/ exists t', t = t' ++ [o] /\ ~ ends_part o /\ last_part os t').
    { intros t At [<-|(pre & y & E & Ey)].
      - right. exists os. split; [reflexivity|]. split; [apply At, in_elt|]. split; [intros x I; apply At, in_or_app; auto|auto].
      - apply snoc_split in E as [(-> & -> & ->)|(t' & -> & ->)]; [auto|]. right. exists t'. split; [reflexivity|]. split; [apply At, in_elt|]. split; [intros x I; apply At, in_or_app; auto|]. right. eauto. }
    destruct (X s A B) as [[-> E]|(t & -> & N & L)], (X s' A' B') as [[-> E']|(t' & -> & N' & L')]; try reflexivity; try contradiction. f_equal. apply IH; assumption.
Qed.

Lemma gathered_params os : exists seg, last_part os seg /\ collects (c_params (gathered os)) seg.
Proof.
  induction os as [|o os (seg & LP & C)] using rev_ind.
  - exists []. split; [split; [intros ? []|left; reflexivity]|]. intros key v. cbn. split; [discriminate|]. intros H. destruct (gives_nil _ _ H).
  - rewrite gathered_snoc.
    assert (X : ~ ends_part o -> (forall a, o <> OptP a) -> c_params (take (gathered os) o) = c_params (gathered os) -> exists seg, last_part (os ++ [o]) seg /\ collects (c_params (take (gathered os) o)) seg).
    { intros N1 N2 ->. exists (seg ++ [o]). split; [apply last_part_snoc; assumption|]. intros key v. rewrite gives_snoc_other by assumption. apply C. }
    assert (Y : ends_part o -> c_params (take (gathered os) o) = no_params -> exists seg, last_part (os ++ [o]) seg /\ collects (c_params (take (gathered os) o)) seg).
    { intros E ->. exists []. split; [apply last_part_end; assumption|]. intros key v. split; [discriminate|intros H; destruct (gives_nil _ _ H)]. }
    destruct o as [f|n|n|l|arg| |]; try (apply X; [exact (fun x => x)|discriminate|reflexivity]); try (apply Y; [exact I|reflexivity]). cbn [take].
    exists (seg ++ [OptP arg]). split; [apply last_part_snoc; [exact (fun x => x)|assumption]|]. intros key v. rewrite gives_snoc. destruct (split_equal arg) as [[k w]|] eqn:E.
    + apply split_assigns in E. cbn [c_params]. unfold set_param. destruct (String.eqb_spec key k) as [->|N].
      * split; [intros [= <-]; auto|]. intros [A|[A _]]; [f_equal; apply (assigns_fun _ _ _ _ _ E A)|]. exfalso. eapply A, E.
      * rewrite (C key v). split; [|intros [A|[_ H]]; [exfalso; apply N; symmetry; apply (assigns_fun _ _ _ _ _ E A)|assumption]]. intros H. right. split; [|assumption]. intros v' A. apply N. symmetry. apply (assigns_fun _ _ _ _ _ E A).
    + assert (Na : forall k v, ~ assigns arg k v) by (intros k' v' A'; apply split_assigns in A'; congruence). rewrite (C key v). split; [intros H; right; split; [apply Na|assumption]|]. intros [A|[_ H]]; [exfalso; eapply Na, A|assumption].
Qed.

(** The part of an option that starts a new one. *)
Definition has_part (pick : opt -> list string) (os : list opt) (k : nat) (n : string) (p : params) : Prop :=
  exists before o after seg, os = before ++ o :: after /\ pick o = [n] /\ length (flat_map pick before) = k /\ last_part before seg /\ collects p seg.
Definition pick_alg (o : opt) : list string := match o with OptA n => [n] | _ => [] end.
Definition pick_gen (o : opt) : list string := match o with OptG n => [n] | _ => [] end.

Lemma has_part_snoc pick os o k n p : has_part pick os k n p -> has_part pick (os ++ [o]) k n p.
Proof. intros (b & x & a & seg & -> & R). exists b, x, (a ++ [o]), seg. split; [rewrite <- app_assoc; reflexivity|assumption]. Qed.

Lemma nth_snoc {A} (l : list A) x k y : nth_error (l ++ [x]) k = Some y -> nth_error l k = Some y \/ (k = length l /\ x = y).
Proof.
  intros H. destruct (Nat.lt_ge_cases k (length l)) as [L|L]; [left; rewrite nth_error_app1 in H; assumption|]. right.
  rewrite nth_error_app2 in H by assumption. destruct (k - length l)%nat as [|m] eqn:E; [injection H as <-; split; [lia|reflexivity]|]. destruct m; discriminate.
Qed.

Lemma gathered_lists os :
  map fst (c_algos (gathered os)) = asked os /\ map fst (c_gens (gathered os)) = asked_generators os /\
  (forall k n p, nth_error (c_algos (gathered os)) k = Some (n, p) -> has_part pick_alg os k n p) /\
  (forall k n p, nth_error (c_gens (gathered os)) k = Some (n, p) -> has_part pick_gen os k n p).
Proof.
  induction os as [|o os (A & B & C & D)] using rev_ind.
  - repeat split; intros [|k] n p H; discriminate.
  - rewrite gathered_snoc. unfold asked, asked_generators in *. rewrite !flat_map_app. cbn [flat_map].
    destruct o as [f|n|n|l|arg| |]; cbn [take c_algos c_gens]; rewrite ?app_nil_r, ?map_app, ?A, ?B.
    + split; [reflexivity|]. split; [reflexivity|]. split; intros; apply has_part_snoc; auto.
    + split; [reflexivity|]. split; [reflexivity|]. split; [intros; apply has_part_snoc; auto|].
      intros k n' p H. apply nth_snoc in H as [H|[-> [= <- <-]]]; [apply has_part_snoc; auto|].
      destruct (gathered_params os) as (seg & LP & CO). exists os, (OptG n), [], seg. repeat split; auto; try apply LP; try apply CO. rewrite <- (map_length fst). rewrite B. reflexivity.
    + split; [reflexivity|]. split; [reflexivity|]. split; [|intros; apply has_part_snoc; auto].
      intros k n' p H. apply nth_snoc in H as [H|[-> [= <- <-]]]; [apply has_part_snoc; auto|].
      destruct (gathered_params os) as (seg & LP & CO). exists os, (OptA n), [], seg. repeat split; auto; try apply LP; try apply CO. rewrite <- (map_length fst). rewrite A. reflexivity.
    + split; [reflexivity|]. split; [reflexivity|]. split; intros; apply has_part_snoc; auto.
    + destruct (split_equal arg) as [[k v]|]; cbn [c_algos c_gens]; rewrite ?A, ?B; (split; [reflexivity|]; split; [reflexivity|]; split; intros; apply has_part_snoc; auto).
    + split; [reflexivity|]. split; [reflexivity|]. split; intros; apply has_part_snoc; auto.
    + split; [reflexivity|]. split; [reflexivity|]. split; intros; apply has_part_snoc; auto.
Qed.

Lemma gathered_file os : (c_file (gathered os) = EmptyString /\ forall f, ~ In (OptF f) os) \/ last_file os (c_file (gathered os)).
Proof.
  induction os as [|o os IH] using rev_ind; [left; split; [reflexivity|intros f []]|]. rewrite gathered_snoc.
  assert (X : (forall f, o <> OptF f) -> c_file (take (gathered os) o) = c_file (gathered os) ->
    (c_file (take (gathered os) o) = EmptyString /\ (forall f, ~ In (OptF f) (os ++ [o]))) \/ last_file (os ++ [o]) (c_file (take (gathered os) o))).
  { intros N ->. destruct IH as [[E NF]|(pre & post & E & NF)]; [left|right].
    - split; [assumption|]. intros f H. apply in_app_or in H as [H|[H|[]]]; [eapply NF, H|eapply N, H].
    - exists pre, (post ++ [o]). split; [rewrite E at 1; rewrite <- app_assoc; reflexivity|]. intros f H. apply in_app_or in H as [H|[H|[]]]; [eapply NF, H|eapply N, H]. }
  destruct o as [f|n|n|l|arg| |]; try (apply X; [discriminate|reflexivity]).
  - right. exists os, []. split; [reflexivity|]. intros ? [].
  - apply X; [discriminate|]. cbn [take]. destruct (split_equal arg) as [[]|]; reflexivity.
Qed.

(** * The registry *)
Section Registry.
Context {T : Type}.
Lemma reg_get_app (r r' : registry T) n : reg_get (r ++ r') n = match reg_get r n with Some t => Some t | None => reg_get r' n end.
Proof. induction r as [|[m t] r IH]; [reflexivity|]. cbn [app reg_get]. destruct (String.eqb m n); [reflexivity|apply IH]. Qed.
Definition add_all (l : list (string * T)) : registry T := fold_left (fun r nt => fst (reg_add r (fst nt) (snd nt))) l [].
Lemma registry_first l n t : reg_get (add_all l) n = Some t <-> exists pre post, l = pre ++ (n, t) :: post /\ forall t', ~ In (n, t') pre.
Proof.
  assert (X : reg_get (add_all l) n = reg_get l n).
  { induction l as [|[m u] l IH] using rev_ind; [reflexivity|]. unfold add_all. rewrite fold_left_app. fold (add_all l). cbn [fold_left fst snd]. rewrite reg_get_app.
    set (R := add_all l) in *. unfold reg_add. destruct (reg_get R m) as [u'|] eqn:E; cbn [fst].
    - rewrite IH. destruct (reg_get l n) eqn:En; [reflexivity|]. cbn [reg_get]. destruct (String.eqb_spec m n) as [->|]; [|reflexivity]. congruence.
    - rewrite reg_get_app, IH. reflexivity. }
  rewrite X. clear X. induction l as [|[m u] l IH]; cbn [reg_get].
  - split; [discriminate|]. intros (pre & post & H & _). destruct pre; discriminate.
  - destruct (String.eqb_spec m n) as [->|N].
    + split; [intros [= <-]; exists [], l; split; [reflexivity|intros ? []]|]. intros (pre & post & H & F). destruct pre as [|x pre]; [injection H as <- _; reflexivity|]. injection H as <- _. exfalso. eapply F. left. reflexivity.
    + rewrite IH. split.
      * intros (pre & post & -> & F). exists ((m, u) :: pre), post. split; [reflexivity|]. intros t' [[= E _]|I]; [congruence|eapply F, I].
      * intros (pre & post & H & F). destruct pre as [|x pre]; [injection H as E _ _; congruence|]. injection H as <- ->. exists pre, post. split; [reflexivity|]. intros t' I. eapply F. right. exact I.
Qed.
End Registry.

(** * What main does *)
Section Main.
Context {G : Type}.
Variables (read : string -> option G) (gens : registry (params -> option G)) (algs : registry (params -> G -> option G)).
Notation run := (main read gens algs).

(** The graphs handed from one algorithm to the next. *)
Fixpoint chained (g : G) (l : list (string * params * G)) : Prop :=
  match l with
  | [] => True
  | (n, p, h) :: l' => h = g /\ exists f, reg_get algs n = Some f /\ match l' with [] => True | _ => exists g', f p g = Some g' /\ chained g' l' end
  end.

Lemma runs_apply tr : forall as_ g es e, apply_all algs tr as_ g = (es, e) ->
  generations es = [] /\ chained g (runs es) /\
  (forall k n p h, nth_error (runs es) k = Some (n, p, h) -> exists own, nth_error as_ k = Some (n, own) /\ p = insert_params own tr) /\
  exists rest, map fst as_ = map (fun r => fst (fst r)) (runs es) ++ rest /\
    match e with
    | Exit z => (z = 0%Z /\ rest = []) \/ (z = 1%Z /\ exists n rest', rest = n :: rest' /\ reg_get algs n = None)
    | Stopped => exists n p h f, In (n, p, h) (runs es) /\ reg_get algs n = Some f /\ f p h = None
    end.
Proof.
  induction as_ as [|[n own] as_ IH]; intros g es e H; cbn [apply_all] in H.
  - injection H as <- <-. cbn. repeat split; auto; [intros [|k] n p h H; discriminate|]. exists []. auto.
  - destruct (reg_get algs n) as [f|] eqn:En.
    + destruct (f (insert_params own tr) g) as [g'|] eqn:Ef.
      * destruct (apply_all algs tr as_ g') as [es' e'] eqn:Ea. injection H as <- <-. destruct (IH _ _ _ Ea) as (A & B & C & rest & D & E). cbn [runs generations flat_map app] in *.
        fold (@runs G es') in *. fold (@generations G es') in *. split; [assumption|]. split.
        { cbn [chained]. split; [reflexivity|]. exists f. split; [assumption|]. destruct (runs es') as [|r l] eqn:Er; [exact I|]. exists g'. auto. }
        split; [intros [|k] m p h Hk; [injection Hk as <- <- <-; exists own; auto|apply C in Hk; exact Hk]|].
        exists rest. split; [cbn [map fst app]; rewrite D; reflexivity|]. destruct e'; [exact E|]. destruct E as (m & p & h & f' & I & R). exists m, p, h, f'. split; [right; exact I|exact R].
      * injection H as <- <-. cbn [runs generations flat_map app]. split; [reflexivity|]. split; [cbn; split; [reflexivity|]; exists f; auto|].
        split; [intros [|k] m p h Hk; [injection Hk as <- <- <-; exists own; auto|destruct k; discriminate]|].
        exists (map fst as_). split; [reflexivity|]. exists n, (insert_params own tr), g, f. split; [left; reflexivity|auto].
    + injection H as <- <-. cbn. repeat split; auto; [intros [|k] m p h Hk; discriminate|]. exists (n :: map fst as_). split; [reflexivity|]. right. split; [reflexivity|]. eauto.
Qed.

Lemma runs_app (a b : list (@effect G)) : runs (a ++ b) = runs a ++ runs b.
Proof. apply flat_map_app. Qed.
Lemma generations_app (a b : list (@effect G)) : generations (a ++ b) = generations a ++ generations b.
Proof. apply flat_map_app. Qed.

Lemma generate_spec : forall gs c es r ok, generate gens gs c = (es, r, ok) -> runs es = [] /\
  exists rest, gs = generations es ++ rest /\
    (if ok then rest = [] /\ match rev gs with [] => r = c | (n, p) :: _ => exists f, reg_get gens n = Some f /\ r = f p end
     else exists n p rest', rest = (n, p) :: rest' /\ reg_get gens n = None).
Proof.
  induction gs as [|[n p] gs IH]; intros c es r ok H; cbn [generate] in H.
  - injection H as <- <- <-. split; [reflexivity|]. exists []. repeat split.
  - destruct (reg_get gens n) as [f|] eqn:En.
    + destruct (generate gens gs (f p)) as [[es' r'] ok'] eqn:Eg. injection H as <- <- <-. destruct (IH _ _ _ _ Eg) as (A & rest & B & C). split; [exact A|]. exists rest. split; [cbn; fold (@generations G es'); rewrite B at 1; reflexivity|].
      destruct ok'; [|exact C]. destruct C as [-> C]. split; [reflexivity|]. cbn [rev]. destruct (rev gs) as [|[n' p'] l] eqn:Er; cbn [app]; [exists f; auto|exact C].
    + injection H as <- <- <-. split; [reflexivity|]. exists ((n, p) :: gs). split; [reflexivity|]. eauto.
Qed.

(** Everything about a run without -h. *)
Lemma main_spec os es e : ~ In OptH os -> run os = (es, e) ->
  let c := gathered os in
  (exists rest, c_gens c = generations es ++ rest) /\
  (forall k n p h, nth_error (runs es) k = Some (n, p, h) -> exists own, nth_error (c_algos c) k = Some (n, own) /\ p = insert_params own (c_params c)) /\
  (exists rest, asked os = map (fun r => fst (fst r)) (runs es) ++ rest /\
    match e with
    | Exit z => (z = 0%Z /\ rest = []) \/ (z = 1%Z /\ (runs es = [] \/ exists n rest', rest = n :: rest' /\ reg_get algs n = None))
    | Stopped => exists n p h f, In (n, p, h) (runs es) /\ reg_get algs n = Some f /\ f p h = None
    end) /\
  (runs es = [] \/ exists g, chained g (runs es) /\
     ((generations es = [] /\ c_file c <> EmptyString /\ read (c_file c) = Some g) \/
      ((c_file c = EmptyString \/ read (c_file c) = None) /\ c_gens c = generations es /\ exists pre n p f, c_gens c = pre ++ [(n, p)] /\ reg_get gens n = Some f /\ f p = Some g))).
Proof.
  intros NH H c. unfold main in H. rewrite (parse_fold os cmd0 NH) in H. fold (gathered os) in H. fold c in H.
  destruct (gathered_lists os) as (AL & _). fold c in AL.
  set (ff := if String.eqb (c_file c) "" then ([], None) else ([Read (c_file c)], read (c_file c))) in *.
  assert (F1 : runs (fst ff) = [] /\ generations (fst ff) = []) by (unfold ff; destruct (String.eqb _ _); split; reflexivity).
  assert (F2 : match snd ff with Some g => c_file c <> EmptyString /\ read (c_file c) = Some g | None => c_file c = EmptyString \/ read (c_file c) = None end).
  { unfold ff. destruct (String.eqb_spec (c_file c) "") as [E|E]; cbn [snd]; [left; assumption|]. destruct (read (c_file c)) eqn:Er; auto. }
  destruct F1 as [F1 F1']. destruct (snd ff) as [g|] eqn:Es.
  - destruct (apply_all algs (c_params c) (c_algos c) g) as [rs e'] eqn:Ea. injection H as <- <-. destruct (runs_apply _ _ _ _ _ Ea) as (A & B & C & rest & D & E).
    rewrite !runs_app, !generations_app, F1, F1'. cbn [runs generations flat_map app]. fold (@runs G rs). fold (@generations G rs). rewrite A.
    split; [eexists; reflexivity|]. split; [exact C|]. split.
    + exists rest. rewrite <- AL. split; [exact D|]. destruct e'; [|exact E]. destruct E as [E|[E1 E2]]; auto.
    + right. exists g. split; [exact B|]. left. tauto.
  - destruct (generate gens (c_gens c) None) as [[es' r] ok] eqn:Eg. destruct (generate_spec _ _ _ _ _ Eg) as (A & rest & B & C). destruct ok.
    + destruct C as [-> C]. rewrite app_nil_r in B. destruct r as [g|].
      * destruct (apply_all algs (c_params c) (c_algos c) g) as [rs e'] eqn:Ea. injection H as <- <-. destruct (runs_apply _ _ _ _ _ Ea) as (A' & B' & C' & rest' & D & E).
        rewrite !runs_app, !generations_app, F1, F1', A, A', !app_nil_r. cbn [app]. rewrite <- B. split; [exists []; rewrite app_nil_r; reflexivity|]. split; [exact C'|]. split.
        -- exists rest'. rewrite <- AL. split; [exact D|]. destruct e'; [|exact E]. destruct E as [E|[E1 E2]]; auto.
        -- right. exists g. split; [exact B'|]. right. split; [assumption|]. split; [reflexivity|]. destruct (c_gens c) as [|x l] using rev_ind; [cbn in C; discriminate|].
           rewrite rev_app_distr in C. cbn in C. destruct x as [n p]. destruct C as (f & C1 & C2). exists l, n, p, f. auto.
      * injection H as <- <-. rewrite runs_app, generations_app, F1, F1', A. cbn [app]. rewrite B. split; [exists []; rewrite app_nil_r; reflexivity|]. split; [intros [|k] ? ? ? X; discriminate|]. split; [exists (asked os); split; [reflexivity|]; right; auto|left; reflexivity].
    + injection H as <- <-. rewrite runs_app, generations_app, F1, F1', A. cbn [app]. split; [exists rest; exact B|]. split; [intros [|k] ? ? ? X; discriminate|]. split; [exists (asked os); split; [reflexivity|]; right; auto|left; reflexivity].
Qed.

Lemma main_help os : In OptH os -> run os = ([], Exit 0).
Proof. intros H. unfold main. rewrite (parse_help os cmd0 H). reflexivity. Qed.

Lemma parameters os es e k n p g : run os = (es, e) -> nth_error (runs es) k = Some (n, p, g) ->
  exists before after seg tail, os = before ++ OptA n :: after /\ length (asked before) = k /\ last_part before seg /\ last_part os tail /\
    forall key v, p key = Some v <-> gives seg key v \/ (~ names seg key /\ gives tail key v).
Proof.
  intros H N. destruct (in_dec (fun a b : opt => ltac:(decide equality; apply string_dec) : {a = b} + {a <> b}) OptH os) as [I|NH].
  - rewrite (main_help os I) in H. injection H as <- <-. destruct k; discriminate.
  - destruct (main_spec os es e NH H) as (_ & B & _). destruct (B _ _ _ _ N) as (own & E & ->). destruct (gathered_lists os) as (_ & _ & C & _).
    destruct (C _ _ _ E) as (before & o & after & seg & Eo & Po & L & LP & CO). destruct o; try discriminate. injection Po as ->.
    destruct (gathered_params os) as (tail & LT & CT). exists before, after, seg, tail. split; [assumption|]. split; [assumption|]. split; [assumption|]. split; [assumption|].
    intros key v. unfold insert_params. rewrite names_gives. destruct (own key) as [w|] eqn:Ew.
    + split; [intros [= <-]; left; apply CO, Ew|]. intros [X|[X _]]; [apply CO in X; congruence|]. exfalso. apply X. exists w. apply CO, Ew.
    + rewrite (CT key v). split; [intros X; right; split; [|assumption]; intros (w & W); apply CO in W; congruence|]. intros [X|[_ X]]; [apply CO in X; congruence|assumption].
Qed.

Lemma generator_parameters os es e k n p : run os = (es, e) -> nth_error (generations es) k = Some (n, p) ->
  exists before after seg, os = before ++ OptG n :: after /\ length (asked_generators before) = k /\ last_part before seg /\ forall key v, p key = Some v <-> gives seg key v.
Proof.
  intros H N. destruct (in_dec (fun a b : opt => ltac:(decide equality; apply string_dec) : {a = b} + {a <> b}) OptH os) as [I|NH].
  - rewrite (main_help os I) in H. injection H as <- <-. destruct k; discriminate.
  - destruct (main_spec os es e NH H) as ((rest & B) & _). destruct (gathered_lists os) as (_ & _ & _ & D).
    destruct (D k n p) as (before & o & after & seg & Eo & Po & L & LP & CO). { rewrite B, nth_error_app1; [assumption|]. apply nth_error_Some. congruence. }
    destruct o; try discriminate. injection Po as ->. exists before, after, seg. auto.
Qed.
End Main.
