(** Theorems on the slots of the channels (C157). *)
From Verif Require Import Base So4Rules So4RulesSpec.
Open Scope Z_scope.

Section Maps.
Context {K : Type} (eqb : K -> K -> bool) (eqb_eq : forall a b, eqb a b = true <-> a = b).
Lemma insert_fresh : forall V k (v : V) m, (forall x, In x m -> fst x <> k) -> insert_new eqb k v m = m ++ [(k, v)].
Proof.
  intros V k v m H. unfold insert_new. destruct (existsb (fun x => eqb (fst x) k) m) eqn:E; [|reflexivity].
  apply existsb_exists in E. destruct E as (x & Hx & E). apply eqb_eq in E. exfalso. apply (H x Hx E).
Qed.
(** The map after the insertion of all rules in order. *)
Definition filled (rules : list (K * Z)) : list (K * Z) := fold_left (fun m r => insert_new eqb (fst r) (snd r) m) rules [].
Lemma lookup_insert : forall k k' v (m : list (K * Z)), lookup eqb k (insert_new eqb k' v m) =
  match lookup eqb k m with Some s => Some s | None => if eqb k' k then Some v else None end.
Proof.
  intros k k' v m. unfold lookup, insert_new.
  assert (A : forall m' : list (K * Z), find (fun x => eqb (fst x) k) (m' ++ [(k', v)]) = match find (fun x => eqb (fst x) k) m' with Some x => Some x | None => if eqb k' k then Some (k', v) else None end).
  { induction m' as [|x m' IH]; cbn; [destruct (eqb k' k); reflexivity|]. destruct (eqb (fst x) k); [reflexivity | exact IH]. }
  destruct (existsb (fun x => eqb (fst x) k') m) eqn:E.
  - destruct (find (fun x => eqb (fst x) k) m) as [x|] eqn:F; [reflexivity|]. destruct (eqb k' k) eqn:Ek; [|reflexivity].
    apply eqb_eq in Ek. subst k'. apply existsb_exists in E. destruct E as (x & Hx & E). pose proof (find_none _ _ F x Hx) as N. cbn in N. congruence.
  - rewrite A. destruct (find (fun x => eqb (fst x) k) m); [reflexivity|]. destruct (eqb k' k); reflexivity.
Qed.
Lemma lookup_filled : forall k rules, match lookup eqb k (filled rules) with Some s => first_rule rules k s | None => no_rule rules k end.
Proof.
  intros k rules. unfold filled.
  assert (G : forall rules done m, (match lookup eqb k m with Some s => first_rule done k s | None => no_rule done k end) ->
    match lookup eqb k (fold_left (fun m r => insert_new eqb (fst r) (snd r) m) rules m) with Some s => first_rule (done ++ rules) k s | None => no_rule (done ++ rules) k end).
  { induction rules0 as [|[k' v] l IH]; intros done m H; cbn [fold_left]; [rewrite app_nil_r; exact H|].
    replace (done ++ (k', v) :: l) with ((done ++ [(k', v)]) ++ l) by (rewrite <- app_assoc; reflexivity). apply IH. cbn [fst snd]. rewrite lookup_insert.
    destruct (lookup eqb k m) as [s|].
    - destruct H as (b & a & -> & N). exists b, (a ++ [(k', v)]). split; [rewrite <- app_assoc; reflexivity | exact N].
    - destruct (eqb k' k) eqn:Ek.
      + apply eqb_eq in Ek. subst k'. exists done, []. split; [reflexivity | exact H].
      + intros s Hs. apply in_app_or in Hs. destruct Hs as [Hs|[Hs|[]]]; [apply (H s Hs)|]. injection Hs as -> _. rewrite (proj2 (eqb_eq k k) eq_refl) in Ek. discriminate. }
  apply (G rules [] []). intros s [].
Qed.
Lemma slot_filled : forall rules k, slot_of rules false k (match lookup eqb k (filled rules) with Some s => s | None => 0 end).
Proof.
  intros rules k. pose proof (lookup_filled k rules) as H. unfold slot_of. destruct (lookup eqb k (filled rules)); [left; exact H | right; auto].
Qed.
End Maps.

Lemma pair_eqb_eq : forall a b, pair_eqb a b = true <-> a = b.
Proof.
  intros [a1 a2] [b1 b2]. unfold pair_eqb. cbn. split.
  - intro H. apply andb_true_iff in H. destruct H as [H1 H2]. apply Z.eqb_eq in H1, H2. congruence.
  - intro H. injection H as -> ->. rewrite !Z.eqb_refl. reflexivity.
Qed.
Lemma line_numbers : forall rest, line_values (map Number rest) = Ok rest.
Proof. induction rest as [|x r IH]; [reflexivity|]. cbn [map line_values]. rewrite IH. reflexivity. Qed.
Lemma read_ok : forall size lines rules slots params, Forall2 is_line lines rules ->
  exists n, read_lines size lines slots params = Ok (n, fold_left (fun m r => insert_new pair_eqb (fst r) (snd r) m) (map (shifted size) rules) params) /\
    slots <= n /\ (forall r, In r rules -> snd r <= n) /\ (n = slots \/ exists r, In r rules /\ snd r = n).
Proof.
  intros size lines rules slots params F. revert slots params. induction F as [|l r lines rules (rest & E) F IH]; intros slots params.
  - exists slots. split; [reflexivity|]. split; [lia|]. split; [intros r []|auto].
  - destruct r as [[a b] c]. cbn [fst snd] in E. subst l. cbn [read_lines line_values map]. rewrite line_numbers. cbn [bind].
    destruct (IH (if slots <? c then c else slots) (insert_new pair_eqb (a + size, b + size) c params)) as (n & E & L & M & X). exists n. split; [rewrite E; reflexivity|].
    destruct (Z.ltb_spec slots c).
    + split; [lia|]. split.
      * intros r [<-|Hr]; [cbn; lia | apply M, Hr].
      * right. destruct X as [->|(r & Hr & Er)]; [exists (a, b, c); split; [left; reflexivity | reflexivity] | exists r; split; [right; exact Hr | exact Er]].
    + split; [lia|]. split.
      * intros r [<-|Hr]; [cbn; lia | apply M, Hr].
      * destruct X as [->|(r & Hr & Er)]; [auto | right; exists r; split; [right; exact Hr | exact Er]].
Qed.
Lemma text_all : forall params links conditions, NoDup (map l_id links) -> (forall x e, In x conditions -> In e links -> fst x <> l_id e) ->
  exists new, text_conditions params links conditions = conditions ++ new /\
    Forall2 (fun c e => fst c = l_id e /\ snd c = if l_virtual e then -1 else match lookup pair_eqb (l_from e, l_to e) params with Some s => s | None => 0 end) new links.
Proof.
  intros params links. induction links as [|e links IH]; intros conditions N D; cbn [text_conditions].
  - exists []. rewrite app_nil_r. split; [reflexivity | constructor].
  - cbn [map] in N. inversion N as [|x l N1 N2]; subst. rewrite (insert_fresh Z.eqb Z.eqb_eq) by (intros x Hx; apply D; [exact Hx | left; reflexivity]).
    destruct (IH (conditions ++ [(l_id e, if l_virtual e then -1 else match lookup pair_eqb (l_from e, l_to e) params with Some s => s | None => 0 end)]) N2) as (new & E & F).
    + intros x e' Hx He'. apply in_app_or in Hx. destruct Hx as [Hx|[<-|[]]]; [apply D; [exact Hx | right; exact He']|]. cbn. intro Eq. apply N1. rewrite Eq. apply in_map, He'.
    + eexists (_ :: new). rewrite E, <- app_assoc. split; [reflexivity|]. constructor; [split; reflexivity | exact F].
Qed.

(** A text file of lines "source, destination, slot": each channel has the slot of the first line for
    the cores of its tasks, 0 without such a line, and a round ends with the last slot named. *)
Theorem C157_text : forall size lines rules links, Forall2 is_line lines rules -> NoDup (map l_id links) ->
  exists conditions n, from_text size lines links = Ok (conditions, n + 1) /\ last_slot rules n /\
    conditions_ok conditions links (fun e => slot_of (map (shifted size) rules) (l_virtual e) (l_from e, l_to e)).
Proof.
  intros size lines rules links F N. destruct (read_ok size lines rules 0 [] F) as (n & E & L & M & X).
  destruct (text_all (filled pair_eqb (map (shifted size) rules)) links [] N) as (new & T & G); [intros x e []|].
  exists new, n. unfold from_text. rewrite E. cbn [bind fst snd]. unfold filled in T. rewrite T. split; [reflexivity|]. split; [split; [exact L | split; [exact M | exact X]]|].
  clear -G. unfold conditions_ok. induction G as [|c e new links [G1 G2] G IH]; constructor; [|exact IH]. split; [exact G1|]. rewrite G2.
  destruct (l_virtual e); [reflexivity|]. apply slot_filled, pair_eqb_eq.
Qed.
Print Assumptions C157_text.
(** So every slot is one of the round, as C154 requires. *)
Theorem C157_in_round : forall size lines rules links conditions slots, Forall2 is_line lines rules -> NoDup (map l_id links) -> (forall r, In r rules -> 0 <= snd r) ->
  from_text size lines links = Ok (conditions, slots) ->
  Forall2 (fun c e => l_virtual e = false -> 0 <= snd c < slots) conditions links.
Proof.
  intros size lines rules links conditions slots F N P H. destruct (C157_text size lines rules links F N) as (c & n & E & (L & M & _) & C).
  rewrite H in E. injection E as <- ->. unfold conditions_ok in C. clear -C L M P. induction C as [|x e conditions links [C1 C2] C IH]; constructor; [|exact IH].
  intro Hv. rewrite Hv in C2. destruct C2 as [(b & a & E & _)|[_ ->]]; [|lia].
  assert (I : In (l_from e, l_to e, snd x) (map (shifted size) rules)) by (rewrite E; apply in_or_app; right; left; reflexivity).
  apply in_map_iff in I. destruct I as (r & Er & Hr). assert (snd r = snd x) by (unfold shifted in Er; congruence). specialize (P r Hr). specialize (M r Hr). lia.
Qed.
Print Assumptions C157_in_round.
(** A title line, or an empty one, is never accepted: the code reads outside of the line. *)
Theorem C157_title_refuted : forall size lines links r n, In (repeat Title n) lines -> from_text size lines links <> Ok r.
Proof.
  intros size lines links r n Hin H. unfold from_text in H. destruct (read_lines size lines 0 []) as [x| | |] eqn:E; try discriminate. clear H. revert E.
  generalize 0. generalize (@nil (Z * Z * Z)). induction lines as [|l lines IH]; intros params slots E; [destruct Hin|]. cbn [read_lines] in E.
  destruct Hin as [->|Hin].
  - assert (T : line_values (repeat Title n) = Ok []) by (clear; induction n as [|n IHn]; [reflexivity | exact IHn]). rewrite T in E. discriminate.
  - destruct (line_values l) as [[|a [|b [|c v]]]| | |]; try discriminate. cbn [bind] in E. apply (IH Hin _ _ E).
Qed.
Print Assumptions C157_title_refuted.

Lemma xml_rules_ok : forall rules params, xml_rules (map (fun r => (Some (fst r), Some (snd r))) rules) params = Ok (fold_left (fun m r => insert_new Z.eqb (fst r) (snd r) m) rules params).
Proof. induction rules as [|[k v] l IH]; intro params; [reflexivity|]. apply IH. Qed.
Lemma xml_all : forall params links conditions, NoDup (map l_id links) -> (forall x e, In x conditions -> In e links -> fst x <> l_id e) ->
  (forall e, In e links -> l_virtual e = false -> l_route e <> []) ->
  exists new, xml_conditions params links conditions = Ok (conditions ++ new) /\
    Forall2 (fun c e => fst c = l_id e /\ snd c = if l_virtual e then -1 else match lookup Z.eqb (hd 0 (l_route e)) params with Some s => s | None => 0 end) new links.
Proof.
  intros params links. induction links as [|e links IH]; intros conditions N D R; cbn [xml_conditions].
  - exists []. rewrite app_nil_r. split; [reflexivity | constructor].
  - cbn [map] in N. inversion N as [|x l N1 N2]; subst.
    set (slot := if l_virtual e then -1 else match lookup Z.eqb (hd 0 (l_route e)) params with Some s => s | None => 0 end).
    destruct (IH (conditions ++ [(l_id e, slot)]) N2) as (new & E & F).
    + intros x e' Hx He'. apply in_app_or in Hx. destruct Hx as [Hx|[<-|[]]]; [apply D; [exact Hx | right; exact He']|]. cbn. intro Eq. apply N1. rewrite Eq. apply in_map, He'.
    + intros e' He'. apply R. right. exact He'.
    + exists ((l_id e, slot) :: new). rewrite <- app_assoc in E. cbn [app] in E. split; [|constructor; [split; reflexivity | exact F]].
      rewrite <- E. unfold slot in *. specialize (R e (or_introl eq_refl)). destruct (l_virtual e).
      * rewrite (insert_fresh Z.eqb Z.eqb_eq) by (intros x Hx; apply D; [exact Hx | left; reflexivity]). reflexivity.
      * destruct (l_route e) as [|x r]; [exfalso; apply R; reflexivity|]. cbn [hd].
        rewrite (insert_fresh Z.eqb Z.eqb_eq) by (intros y Hy; apply D; [exact Hy | left; reflexivity]). reflexivity.
Qed.
(** An XML file: each channel has the slot of the first rule for the first link of its route, 0
    without rule; but a round has one slot more than the file declares. *)
Theorem C157_xml : forall declared rules links, NoDup (map l_id links) -> (forall e, In e links -> l_virtual e = false -> l_route e <> []) ->
  exists conditions, from_xml declared (map (fun r => (Some (fst r), Some (snd r))) rules) links = Ok (conditions, declared + 1) /\
    conditions_ok conditions links (fun e => slot_of rules (l_virtual e) (hd 0 (l_route e))).
Proof.
  intros declared rules links N R. destruct (xml_all (filled Z.eqb rules) links [] N) as (new & T & G); [intros x e [] | exact R|].
  exists new. unfold from_xml. rewrite xml_rules_ok. cbn [bind]. unfold filled in T. rewrite T. cbn [bind]. split; [reflexivity|].
  clear -G. unfold conditions_ok. induction G as [|c e new links [G1 G2] G IH]; constructor; [|exact IH]. split; [exact G1|]. rewrite G2.
  destruct (l_virtual e); [reflexivity|]. apply slot_filled, Z.eqb_eq.
Qed.
Print Assumptions C157_xml.
Theorem C157_round_refuted : forall declared rules links conditions slots, from_xml declared rules links = Ok (conditions, slots) -> slots = declared + 1 /\ slots <> declared.
Proof.
  intros declared rules links conditions slots H. unfold from_xml in H. destruct (xml_rules rules []) as [p| | |]; try discriminate. cbn [bind] in H.
  destruct (xml_conditions p links []) as [c| | |]; try discriminate. cbn [bind] in H. injection H as <- <-. lia.
Qed.
Print Assumptions C157_round_refuted.

(** * Concrete cases *)
Definition channels : list link := [mkLink 1 false [48; 33] 4 5; mkLink 2 true [] 4 4; mkLink 3 false [64] 5 6].
(** Two lines for the same pair, and no line for the pair (5, 6) of the cores of a 2x2 mesh. *)
Example text_case : from_text 4 [[Number 0; Number 1; Number 1]; [Number 0; Number 1; Number 2]] channels = Ok ([(1, 1); (2, -1); (3, 0)], 3).
Proof. reflexivity. Qed.
Example text_meets : Forall2 is_line [[Number 0; Number 1; Number 1]; [Number 0; Number 1; Number 2]] [(0, 1, 1); (0, 1, 2)] /\ NoDup (map l_id channels).
Proof.
  split.
  - constructor; [exists []; reflexivity|]. constructor; [exists []; reflexivity | constructor].
  - repeat constructor; cbn; intuition discriminate.
Qed.
(** Two slots are declared; slots 0 and 1 are used; the round has three. *)
Example xml_case : from_xml 2 [(Some 48, Some 0); (Some 64, Some 1)] channels = Ok ([(1, 0); (2, -1); (3, 1)], 3).
Proof. reflexivity. Qed.
Example title_case : from_text 4 [[Title; Title; Title]; [Number 0; Number 1; Number 1]] channels = Undefined.
Proof. reflexivity. Qed.
