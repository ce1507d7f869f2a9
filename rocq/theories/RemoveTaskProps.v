(** Removing tasks, and clearing their reentrancy factors. *)
From Coq Require Import QArith Ascii String.
From Verif Require Import Base Commons CommonsProofs Graph Builder BuilderSpec BuilderProofs BuilderIds BuilderFinal RemoveTask RemoveTaskSpec RemoveTaskProofs SingleOutputProps.
Open Scope Z_scope.

Definition named (n : string) : test := fun b => String.eqb (bv_name b) n.
Definition numbered (i : Z) : test := fun b => bv_id b =? i.
(** The names, or identifiers, given. *)
Definition given {A} (read : chars -> list A) (text : option chars) : list A := match text with Some t => read t | None => [] end.
Definition tests (tn ti : option chars) : list test := map named (given task_names tn) ++ map numbered (given task_ids ti).

Lemma each_map {A B} (g : A -> B) f l : forall s, each f (map g l) s = each (fun a => f (g a)) l s.
Proof. induction l as [|a l IH]; intros s; cbn; [reflexivity|]. unfold mbind. destruct (f (g a) s); auto. Qed.
Lemma each_app {A} (f : A -> M unit) l l' : forall s, each f (l ++ l') s = mbind (each f l) (fun _ => each f l') s.
Proof. induction l as [|a l IH]; intros s; cbn; [reflexivity|]. unfold mbind in *. destruct (f a s); auto. Qed.
Lemma run_remove tn ti s : remove_task tn ti s = each (on_test remove_vertex) (tests tn ti) s.
Proof.
  unfold tests. rewrite each_app. unfold remove_task, mbind. rewrite each_map.
  assert (E1 : (match tn with Some text => each remove_named (task_names text) | None => ret tt end) s = each (fun a => on_test remove_vertex (named a)) (given task_names tn) s) by (destruct tn; reflexivity).
  rewrite E1. destruct (each _ _ s) as [[] s1|s1|]; auto. rewrite each_map. destruct ti; reflexivity.
Qed.
Lemma meant_tests tn ti b : existsb (fun p => p b) (tests tn ti) = meant (given task_names tn) (given task_ids ti) b.
Proof.
  unfold tests, meant. rewrite existsb_app. f_equal.
  - induction (given task_names tn) as [|n l IH]; cbn; [reflexivity|]. rewrite IH. reflexivity.
  - induction (given task_ids ti) as [|n l IH]; cbn; [reflexivity|]. rewrite IH. reflexivity.
Qed.

Lemma once_named s n : inv s -> n <> ""%string -> once (named n) (s_vs s).
Proof.
  intros I N. assert (U := inv_vnames s I). unfold once. destruct (filter (named n) (s_vs s)) as [|a [|b l]] eqn:F; cbn; try lia. exfalso.
  assert (Pick : forall (l : list bvertex) a r, filter (named n) l = a :: r -> exists i, nth_error l i = Some a /\ named n a = true /\ forall b, In b r -> exists j, (i < j)%nat /\ nth_error l j = Some b /\ named n b = true).
  { clear. induction l as [|x l IH]; intros a r E; [discriminate|]. cbn in E. destruct (named n x) eqn:Nx.
    - injection E as <- <-. exists 0%nat. split; [reflexivity|]. split; [exact Nx|]. intros b Hb. apply filter_In in Hb as [Hb Nb]. apply In_nth_error in Hb as [j Hj]. exists (S j). split; [lia|]. split; [exact Hj|exact Nb].
    - destruct (IH a r E) as (i & Hi & Na & H). exists (S i). split; [exact Hi|]. split; [exact Na|]. intros b Hb. destruct (H b Hb) as (j & Lj & Hj & Nb). exists (S j). split; [lia|]. split; [exact Hj|exact Nb]. }
  destruct (Pick _ _ _ F) as (i & Hi & Na & H). destruct (H b (or_introl eq_refl)) as (j & Lj & Hj & Nb). unfold named in Na, Nb. apply String.eqb_eq in Na, Nb.
  assert (Eij : i = j); [|lia]. apply (uniq_positions nonempty bv_name (s_vs s) i j a b U Hi Hj); [|congruence]. unfold nonempty. rewrite Na. apply negb_true_iff, String.eqb_neq, N.
Qed.
Lemma once_numbered s i : NoDup (map bv_id (s_vs s)) -> once (numbered i) (s_vs s).
Proof.
  unfold once. induction (s_vs s) as [|b l IH]; cbn; intros D; [lia|]. inversion D as [|? ? Nb Dl]; subst. unfold numbered at 1. destruct (Z.eqb_spec (bv_id b) i) as [E|E]; [|apply IH, Dl].
  cbn. assert (F : filter (numbered i) l = []); [|rewrite F; cbn; lia]. destruct (filter (numbered i) l) as [|c r] eqn:F; [reflexivity|]. exfalso. apply Nb.
  assert (Hc : In c (filter (numbered i) l)) by (rewrite F; left; reflexivity). apply filter_In in Hc as [Hc Ec]. apply Z.eqb_eq in Ec. rewrite E, <- Ec. apply in_map, Hc.
Qed.
Lemma once_tests tn ti s : inv s -> NoDup (map bv_id (s_vs s)) -> ~ In ""%string (given task_names tn) -> Forall (fun p => once p (s_vs s)) (tests tn ti).
Proof.
  intros I D N. apply Forall_forall. intros p Hp. unfold tests in Hp. apply in_app_or in Hp as [Hp|Hp]; apply in_map_iff in Hp as (x & <- & Hx); [apply once_named; [exact I|]|apply once_numbered, D]. intros ->. exact (N Hx).
Qed.

Lemma fine_names names : forall rest l, fine (map named names ++ rest) l <->
  NoDup names /\ (forall n, In n names -> exists b, In b l /\ bv_name b = n) /\ fine rest (filter (fun b => negb (existsb (String.eqb (bv_name b)) names)) l).
Proof.
  induction names as [|n names IH]; intros rest l; cbn [map app fine].
  - cbn. rewrite filter_all by reflexivity. split; [intros H; split; [constructor|split; [intros ? []|exact H]]|intros (_ & _ & H); exact H].
  - rewrite IH. rewrite filter_filter.
    assert (E : filter (fun b => negb (named n b) && negb (existsb (String.eqb (bv_name b)) names)) l = filter (fun b => negb (existsb (String.eqb (bv_name b)) (n :: names))) l).
    { apply filter_ext. intros b. cbn. rewrite negb_orb. reflexivity. }
    rewrite E. split.
    + intros ((b & Hb & Nb) & D & H & F). apply String.eqb_eq in Nb. split; [|split; [|exact F]].
      * constructor; [|exact D]. intros Hn. destruct (H n Hn) as (c & Hc & Ec). apply filter_In in Hc as [_ Hc]. unfold named in Hc. rewrite Ec, String.eqb_refl in Hc. discriminate.
      * intros m [<-|Hm]; [eauto|]. destruct (H m Hm) as (c & Hc & Ec). apply filter_In in Hc as [Hc _]. eauto.
    + intros (D & H & F). inversion D as [|? ? Nn Dn]; subst. split; [|split; [exact Dn|split; [|exact F]]].
      * destruct (H n (or_introl eq_refl)) as (b & Hb & Eb). exists b. split; [exact Hb|]. apply String.eqb_eq, Eb.
      * intros m Hm. destruct (H m (or_intror Hm)) as (c & Hc & Ec). exists c. split; [|exact Ec]. apply filter_In. split; [exact Hc|]. apply negb_true_iff. unfold named. apply String.eqb_neq. rewrite Ec. intros ->. exact (Nn Hm).
Qed.
Lemma fine_ids ids : forall l, fine (map numbered ids) l <-> NoDup ids /\ forall i, In i ids -> exists b, In b l /\ bv_id b = i.
Proof.
  induction ids as [|n ids IH]; intros l; cbn [map fine].
  - split; [intros _; split; [constructor|intros ? []]|auto].
  - rewrite IH. split.
    + intros ((b & Hb & Nb) & D & H). apply Z.eqb_eq in Nb. split.
      * constructor; [|exact D]. intros Hn. destruct (H n Hn) as (c & Hc & Ec). apply filter_In in Hc as [_ Hc]. unfold numbered in Hc. rewrite Ec, Z.eqb_refl in Hc. discriminate.
      * intros m [<-|Hm]; [eauto|]. destruct (H m Hm) as (c & Hc & Ec). apply filter_In in Hc as [Hc _]. eauto.
    + intros (D & H). inversion D as [|? ? Nn Dn]; subst. split; [|split; [exact Dn|]].
      * destruct (H n (or_introl eq_refl)) as (b & Hb & Eb). exists b. split; [exact Hb|]. apply Z.eqb_eq, Eb.
      * intros m Hm. destruct (H m (or_intror Hm)) as (c & Hc & Ec). exists c. split; [|exact Ec]. apply filter_In. split; [exact Hc|]. apply negb_true_iff. unfold numbered. apply Z.eqb_neq. rewrite Ec. intros ->. exact (Nn Hm).
Qed.
Lemma fine_tests tn ti s : fine (tests tn ti) (s_vs s) <-> each_once s (given task_names tn) (given task_ids ti).
Proof.
  unfold tests, each_once. rewrite fine_names, fine_ids. split.
  - intros (D & H & D' & H'). split; [exact D|]. split; [exact D'|]. split; [exact H|]. intros i Hi. destruct (H' i Hi) as (b & Hb & Eb). apply filter_In in Hb as [Hb Nb]. exists b. split; [exact Hb|]. split; [exact Eb|].
    intros Hin. apply negb_true_iff in Nb. assert (T : existsb (String.eqb (bv_name b)) (given task_names tn) = true) by (apply existsb_exists; exists (bv_name b); split; [exact Hin|apply String.eqb_refl]). congruence.
  - intros (D & D' & H & H'). split; [exact D|]. split; [exact H|]. split; [exact D'|]. intros i Hi. destruct (H' i Hi) as (b & Hb & Eb & Nb). exists b. split; [|exact Eb]. apply filter_In. split; [exact Hb|]. apply negb_true_iff.
    destruct (existsb (String.eqb (bv_name b)) (given task_names tn)) eqn:T; [|reflexivity]. exfalso. apply existsb_exists in T as (x & Hx & Ex). apply String.eqb_eq in Ex. subst x. exact (Nb Hx).
Qed.

(** Exactly the tasks named or numbered are removed; the others are kept, in order, and so are
    the channels between them, with the same data and joining the same tasks. *)
Theorem C144_removed tn ti s s' : any_history s -> NoDup (map bv_id (s_vs s)) -> ~ In ""%string (given task_names tn) -> remove_task tn ti s = Done tt s' ->
  let gone := meant (given task_names tn) (given task_ids ti) in
  s_vs s' = filter (fun b => negb (gone b)) (s_vs s) /\ Forall2 (same_channel s s') (filter (apart s gone) (s_es s)) (s_es s') /\ any_history s'.
Proof.
  intros A D N E gone. rewrite run_remove in E. pose proof (remove_each (tests tn ti) s A (once_tests tn ti s (any_history_inv s A) D N)) as K. rewrite E in K. destruct K as (A' & R & _).
  apply (removed_ext s _ gone s' (meant_tests tn ti)) in R as [V Es]. auto.
Qed.
Print Assumptions C144_removed.

(** How the parameters are read: words separated by commas, and numbers separated by commas. *)
Theorem C144_read : forall ws ds, Forall item_ok (map Single ws) -> Forall CommonsProofs.digits ds ->
  task_names (join_commas ws) = map string_of_list_ascii ws /\ task_ids (join_commas ds) = map number ds.
Proof.
  assert (G : forall ws, Forall item_ok (map Single ws) -> split (join_commas ws) ","%char = ws).
  { intros ws H. unfold split. pose proof (getlines_join _ H) as E. rewrite map_map in E. cbn [item_text] in E. rewrite map_id in E. change ","%char with c_comma. rewrite E. clear E.
    induction ws as [|w ws IH]; [reflexivity|]. inversion H as [|? ? Hw Hws]; subst. cbn [map]. rewrite (IH Hws). f_equal. apply from_string_plain. exact (item_text_no_space (Single w) Hw). }
  intros ws ds Hw Hd. unfold task_names, task_ids. rewrite (G ws Hw). split; [reflexivity|]. rewrite (G ds).
  - apply map_ext_in. intros d Hin. rewrite Forall_forall in Hd. apply from_string_int_digits. apply Hd. exact Hin.
  - clear - Hd. induction Hd as [|d ds [N D] _ IH]; constructor; [|exact IH]. split; [exact N|]. intros c Hc. apply digit_plain. apply D. exact Hc.
Qed.
Print Assumptions C144_read.
Example C144_read_hyp : Forall item_ok (map Single [list_ascii_of_string "a"; list_ascii_of_string "b7"]) /\ Forall CommonsProofs.digits [list_ascii_of_string "3"; list_ascii_of_string "12"].
Proof.
  split; repeat constructor; try discriminate; cbn; intros c H; repeat (destruct H as [<-|H]; [try reflexivity; discriminate|]); contradiction.
Qed.

(** Nothing undefined happens, and on a graph that may be changed it succeeds exactly when every
    name and identifier is that of a task and no task is listed twice. *)
Theorem C144_accepted tn ti s : any_history s -> NoDup (map bv_id (s_vs s)) -> ~ In ""%string (given task_names tn) ->
  remove_task tn ti s <> Undef /\
  (s_readonly s = false -> ((exists s', remove_task tn ti s = Done tt s') <-> each_once s (given task_names tn) (given task_ids ti))).
Proof.
  intros A D N. rewrite run_remove. pose proof (remove_each (tests tn ti) s A (once_tests tn ti s (any_history_inv s A) D N)) as K. rewrite <- fine_tests.
  destruct (each (on_test remove_vertex) (tests tn ti) s) as [[] s'|s'|]; [| |destruct K]; (split; [discriminate|]); intros R.
  - split; [intros _; apply K|eauto].
  - split; [intros (x & X); discriminate|]. intros F. destruct K as [_ [K|K]]; [congruence|destruct (K F)].
Qed.
Print Assumptions C144_accepted.

(** A failure does not leave the graph as it was: the tasks listed before the faulty one are gone. *)
Definition ex_graph : list call := [AddVertexIdName 1 "a"; AddVertexIdName 2 "b"; AddVertexIdName 3 "c"; AddEdge 0 1; AddEdge 1 2; AddEdge 2 0; AddEdge 2 2].
Theorem C144_atomic_refuted : exists s text s', any_history s /\ s_readonly s = false /\ NoDup (map bv_id (s_vs s)) /\ ~ In ""%string (task_names text) /\
  remove_task (Some text) None s = Raised s' /\ (length (s_vs s') < length (s_vs s))%nat.
Proof.
  destruct (calls ex_graph empty_state) as [s|] eqn:E; [|vm_compute in E; discriminate]. pose proof (calls_history _ _ _ any_start E) as A.
  vm_compute in E. injection E as <-. eexists _, (list_ascii_of_string "b,z"), _. split; [exact A|]. split; [reflexivity|]. split; [repeat constructor; cbn; intuition discriminate|].
  split; [vm_compute; intuition discriminate|]. split; [vm_compute; reflexivity|cbn; lia].
Qed.
Print Assumptions C144_atomic_refuted.
Example C144_example : exists s s', calls ex_graph empty_state = Some s /\ any_history s /\ NoDup (map bv_id (s_vs s)) /\
  remove_task (Some (list_ascii_of_string "b")) (Some (list_ascii_of_string " 1")) s = Done tt s' /\
  map bv_name (s_vs s') = ["c"]%string /\ map (fun e => (be_src e, be_dst e)) (s_es s') = [(0, 0)]%nat.
Proof.
  destruct (calls ex_graph empty_state) as [s|] eqn:E; [|vm_compute in E; discriminate]. pose proof (calls_history _ _ _ any_start E) as A.
  vm_compute in E. injection E as <-. eexists _, _. split; [reflexivity|]. split; [exact A|]. split; [repeat constructor; cbn; intuition discriminate|].
  split; [vm_compute; reflexivity|]. split; reflexivity.
Qed.

(** * Clearing *)
(** The tasks whose factor is cleared: those named, else those numbered, else all. *)
Definition to_clear (tn ti : option chars) : test :=
  match tn, ti with
  | Some t, _ => meant (task_names t) []
  | None, Some t => meant [] (task_ids t)
  | None, None => fun _ => true
  end.
Lemma steady_named n : steady (named n). Proof. intros b. reflexivity. Qed.
Lemma steady_numbered n : steady (numbered n). Proof. intros b. reflexivity. Qed.
Lemma steady_tests tn ti : Forall steady (tests tn ti).
Proof. apply Forall_forall. intros p Hp. unfold tests in Hp. apply in_app_or in Hp as [Hp|Hp]; apply in_map_iff in Hp as (x & <- & Hx); [apply steady_named|apply steady_numbered]. Qed.
Lemma clear_ext p q l : (forall b, p b = q b) -> clear_where p l = clear_where q l.
Proof. intros H. unfold clear_where. apply map_ext. intros b. rewrite H. reflexivity. Qed.
Lemma run_clear_names t s : each clear_named (task_names t) s = each (on_test (fun t => set_reentrancy t 0)) (tests (Some t) None) s.
Proof. unfold tests. cbn [given map]. rewrite app_nil_r, each_map. reflexivity. Qed.
Lemma run_clear_ids t s : each clear_numbered (task_ids t) s = each (on_test (fun t => set_reentrancy t 0)) (tests None (Some t)) s.
Proof. unfold tests. cbn [given map app]. rewrite each_map. reflexivity. Qed.

Lemma nth_error_ext {A} (l l' : list A) : (forall i, nth_error l i = nth_error l' i) -> l = l'.
Proof. revert l'. induction l as [|x l IH]; intros [|y l'] H; [reflexivity|specialize (H 0%nat); discriminate|specialize (H 0%nat); discriminate|]. pose proof (H 0%nat) as H0. injection H0 as <-. f_equal. apply IH. intros i. exact (H (S i)). Qed.

(** Exactly the tasks named, or numbered when no names are given, or all tasks when nothing is
    given, get factor 0; nothing else of any task or channel changes. *)
Theorem C145_cleared tn ti s s' : any_history s -> NoDup (map bv_id (s_vs s)) -> ~ In ""%string (given task_names tn) -> remove_reentrancy tn ti s = Done tt s' ->
  s_vs s' = map (fun b => if to_clear tn ti b then cleared b else b) (s_vs s) /\ s_es s' = s_es s.
Proof.
  intros A D N E. pose proof (any_history_inv s A) as I. destruct tn as [t|]; [|destruct ti as [t|]]; cbn [remove_reentrancy] in E.
  - rewrite run_clear_names in E. pose proof (clear_each (tests (Some t) None) s (steady_tests _ _) (once_tests _ _ s I D N)) as K. rewrite E in K. destruct K as (V & Es & _).
    split; [|exact Es]. rewrite V. apply (clear_ext _ _ _ (meant_tests (Some t) None)).
  - rewrite run_clear_ids in E. pose proof (clear_each (tests None (Some t)) s (steady_tests _ _) (once_tests _ _ s I D N)) as K. rewrite E in K. destruct K as (V & Es & _).
    split; [|exact Es]. rewrite V. apply (clear_ext _ _ _ (meant_tests None (Some t))).
  - unfold mbind in E. cbn [get] in E. pose proof (clear_all (length (s_vs s)) 0 s (le_n _)) as K. rewrite E in K. destruct K as (Es & L & Nt). split; [|exact Es].
    apply nth_error_ext. intros i. rewrite Nt, nth_error_map. destruct (nth_error (s_vs s) i) as [b|] eqn:Eb; [|reflexivity]. cbn [option_map to_clear].
    assert (Hi : (i < length (s_vs s))%nat) by (apply nth_error_Some; congruence). assert (T : ((0 <=? i) && (i <? 0 + length (s_vs s)))%nat = true) by (apply andb_true_intro; split; [apply Nat.leb_le; lia|apply Nat.ltb_lt; lia]).
    rewrite T. reflexivity.
Qed.
Print Assumptions C145_cleared.

(** Nothing undefined happens, and on a graph that may be changed it succeeds exactly when every
    name (or identifier) is that of a task. *)
Theorem C145_accepted tn ti s : any_history s -> NoDup (map bv_id (s_vs s)) -> ~ In ""%string (given task_names tn) ->
  remove_reentrancy tn ti s <> Undef /\
  (s_readonly s = false -> ((exists s', remove_reentrancy tn ti s = Done tt s') <->
    match tn, ti with
    | Some t, _ => forall n, In n (task_names t) -> exists b, In b (s_vs s) /\ bv_name b = n
    | None, Some t => forall i, In i (task_ids t) -> exists b, In b (s_vs s) /\ bv_id b = i
    | None, None => True
    end)).
Proof.
  intros A D N. pose proof (any_history_inv s A) as I. destruct tn as [t|]; [|destruct ti as [t|]]; cbn [remove_reentrancy].
  - rewrite run_clear_names. pose proof (clear_each (tests (Some t) None) s (steady_tests _ _) (once_tests _ _ s I D N)) as K. unfold tests in *. cbn [given map] in *. rewrite app_nil_r in *.
    destruct (each _ (map named (task_names t)) s) as [[] s'|s'|]; [| |destruct K]; (split; [discriminate|]); intros R.
    + split; [|eauto]. intros _ n Hn. destruct K as (_ & _ & K). destruct (K (named n) (in_map named _ _ Hn)) as (b & Hb & Nb). exists b. split; [exact Hb|apply String.eqb_eq, Nb].
    + split; [intros (x & X); discriminate|]. intros H. destruct K as [K|(p & Hp & K)]; [congruence|]. apply in_map_iff in Hp as (n & <- & Hn). destruct (H n Hn) as (b & Hb & <-). specialize (K b Hb). unfold named in K. rewrite String.eqb_refl in K. discriminate.
  - rewrite run_clear_ids. pose proof (clear_each (tests None (Some t)) s (steady_tests _ _) (once_tests _ _ s I D N)) as K. unfold tests in *. cbn [given map app] in *.
    destruct (each _ (map numbered (task_ids t)) s) as [[] s'|s'|]; [| |destruct K]; (split; [discriminate|]); intros R.
    + split; [|eauto]. intros _ n Hn. destruct K as (_ & _ & K). destruct (K (numbered n) (in_map numbered _ _ Hn)) as (b & Hb & Nb). exists b. split; [exact Hb|apply Z.eqb_eq, Nb].
    + split; [intros (x & X); discriminate|]. intros H. destruct K as [K|(p & Hp & K)]; [congruence|]. apply in_map_iff in Hp as (n & <- & Hn). destruct (H n Hn) as (b & Hb & <-). specialize (K b Hb). unfold numbered in K. rewrite Z.eqb_refl in K. discriminate.
  - unfold mbind. cbn [get]. pose proof (clear_all (length (s_vs s)) 0 s (le_n _)) as K. destruct (each _ _ s) as [[] s'|s'|]; [| |destruct K]; (split; [discriminate|]); intros R; [|congruence]. split; [auto|eauto].
Qed.
Print Assumptions C145_accepted.
Example C145_example : exists s s', calls (ex_graph ++ [SetReentrancy 0 2; SetReentrancy 1 3; SetReentrancy 2 1]) empty_state = Some s /\ any_history s /\ NoDup (map bv_id (s_vs s)) /\
  map bv_reentrancy (s_vs s) = [2; 3; 1] /\ remove_reentrancy (Some (list_ascii_of_string "b,a,b")) None s = Done tt s' /\ map bv_reentrancy (s_vs s') = [0; 0; 1].
Proof.
  destruct (calls (ex_graph ++ [SetReentrancy 0 2; SetReentrancy 1 3; SetReentrancy 2 1]) empty_state) as [s|] eqn:E; [|vm_compute in E; discriminate]. pose proof (calls_history _ _ _ any_start E) as A.
  vm_compute in E. injection E as <-. eexists _, _. split; [reflexivity|]. split; [exact A|]. split; [repeat constructor; cbn; intuition discriminate|].
  split; [reflexivity|]. split; [vm_compute; reflexivity|]. reflexivity.
Qed.
