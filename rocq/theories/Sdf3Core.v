(** Running the graph object on plain states; positions in lists. *)
From Coq Require Import QArith Ascii String.
From Verif Require Import Base Commons CommonsProofs Builder BuilderProofs Sdf3 Sdf3Text.
Open Scope Z_scope.

(** * mapi *)
Lemma mapi_length {A B} (f : nat -> A -> B) l : forall k, length (mapi f k l) = length l.
Proof. induction l as [|x l IH]; intros k; cbn; [reflexivity|]. f_equal. apply IH. Qed.
Lemma mapi_app {A B} (f : nat -> A -> B) l1 l2 : forall k, mapi f k (l1 ++ l2) = mapi f k l1 ++ mapi f (k + length l1) l2.
Proof.
  induction l1 as [|x l IH]; intros k; cbn [mapi app length].
  - rewrite Nat.add_0_r. reflexivity.
  - rewrite IH. do 3 f_equal. lia.
Qed.
Lemma mapi_nth {A B} (f : nat -> A -> B) l : forall k i, nth_error (mapi f k l) i = option_map (f (k + i)%nat) (nth_error l i).
Proof.
  induction l as [|x l IH]; intros k [|i]; cbn [mapi nth_error option_map]; try reflexivity.
  - rewrite Nat.add_0_r. reflexivity.
  - rewrite IH. replace (S k + i)%nat with (k + S i)%nat by lia. reflexivity.
Qed.
Lemma mapi_ext {A B} (f g : nat -> A -> B) l : forall k,
  (forall i x, nth_error l i = Some x -> f (k + i)%nat x = g (k + i)%nat x) -> mapi f k l = mapi g k l.
Proof.
  induction l as [|x l IH]; intros k H; cbn; [reflexivity|]. f_equal.
  - specialize (H O x eq_refl). rewrite Nat.add_0_r in H. exact H.
  - apply IH. intros i y Hy. specialize (H (S i) y Hy). replace (k + S i)%nat with (S k + i)%nat in H by lia. exact H.
Qed.
Lemma map_mapi {A B C} (h : B -> C) (f : nat -> A -> B) l : forall k, map h (mapi f k l) = mapi (fun i x => h (f i x)) k l.
Proof. induction l as [|x l IH]; intros k; cbn; [reflexivity|]. f_equal. apply IH. Qed.
Lemma mapi_const {A B} (f : A -> B) l : forall k, mapi (fun _ x => f x) k l = map f l.
Proof. induction l as [|x l IH]; intros k; cbn; [reflexivity|]. f_equal. apply IH. Qed.
Lemma mapi_in {A B} (f : nat -> A -> B) l y : forall k, In y (mapi f k l) -> exists i x, nth_error l i = Some x /\ y = f (k + i)%nat x.
Proof.
  intros k H. apply In_nth_error in H. destruct H as [i H]. rewrite mapi_nth in H.
  destruct (nth_error l i) as [x|] eqn:E; [|discriminate]. exists i, x. cbn in H. split; [exact E|congruence].
Qed.
Lemma update_nth_mapi {A B} (f : nat -> A -> B) (u : B -> B) l : forall k v,
  update_nth v u (mapi f k l) = mapi (fun i x => if (i =? k + v)%nat then u (f i x) else f i x) k l.
Proof.
  induction l as [|x l IH]; intros k v; cbn [mapi].
  - destruct v; reflexivity.
  - destruct v as [|v]; cbn [update_nth].
    + rewrite Nat.add_0_r, Nat.eqb_refl. f_equal. apply mapi_ext. intros i y _.
      destruct (Nat.eqb_spec (S k + i) k); [lia|reflexivity].
    + destruct (Nat.eqb_spec k (k + S v)); [lia|]. f_equal. rewrite IH. apply mapi_ext. intros i y _.
      replace (S k + v)%nat with (k + S v)%nat by lia. reflexivity.
Qed.
Lemma find_mapi_some {A B} (p : B -> bool) (f : nat -> A -> B) l : forall k j x, nth_error l j = Some x -> p (f (k + j)%nat x) = true ->
  (forall i y, (i < j)%nat -> nth_error l i = Some y -> p (f (k + i)%nat y) = false) -> find p (mapi f k l) = Some (f (k + j)%nat x).
Proof.
  induction l as [|z l IH]; intros k j x Hj Hp Hn; [destruct j; discriminate|]. cbn [mapi find].
  destruct j as [|j].
  - injection Hj as ->. rewrite Nat.add_0_r in Hp |- *. rewrite Hp. reflexivity.
  - pose proof (Hn O z ltac:(lia) eq_refl) as H0. rewrite Nat.add_0_r in H0. rewrite H0.
    replace (k + S j)%nat with (S k + j)%nat in * by lia. apply IH; [exact Hj|exact Hp|].
    intros i y Hi Hy. replace (S k + i)%nat with (k + S i)%nat by lia. apply (Hn (S i) y); [lia|exact Hy].
Qed.
Lemma find_mapi_none {A B} (p : B -> bool) (f : nat -> A -> B) l : forall k,
  (forall i y, nth_error l i = Some y -> p (f (k + i)%nat y) = false) -> find p (mapi f k l) = None.
Proof.
  induction l as [|z l IH]; intros k Hn; [reflexivity|]. cbn [mapi find].
  pose proof (Hn O z eq_refl) as H0. rewrite Nat.add_0_r in H0. rewrite H0. apply IH.
  intros i y Hy. replace (S k + i)%nat with (k + S i)%nat by lia. apply (Hn (S i) y Hy).
Qed.
Lemma find_index_mapi {A B} (p : B -> bool) (f : nat -> A -> B) l : forall k j x, nth_error l j = Some x -> p (f (k + j)%nat x) = true ->
  (forall i y, (i < j)%nat -> nth_error l i = Some y -> p (f (k + i)%nat y) = false) -> find_index p (mapi f k l) = Some j.
Proof.
  induction l as [|z l IH]; intros k j x Hj Hp Hn; [destruct j; discriminate|]. cbn [mapi find_index].
  destruct j as [|j].
  - injection Hj as ->. rewrite Nat.add_0_r in Hp. rewrite Hp. reflexivity.
  - pose proof (Hn O z ltac:(lia) eq_refl) as H0. rewrite Nat.add_0_r in H0. rewrite H0.
    rewrite (IH (S k) j x); [reflexivity|exact Hj|replace (S k + j)%nat with (k + S j)%nat by lia; exact Hp|].
    intros i y Hi Hy. replace (S k + i)%nat with (k + S i)%nat by lia. apply (Hn (S i) y); [lia|exact Hy].
Qed.
Lemma filter_mapi_one {A B} (p : B -> bool) (f : nat -> A -> B) l : forall k j x, nth_error l j = Some x -> p (f (k + j)%nat x) = true ->
  (forall i y, i <> j -> nth_error l i = Some y -> p (f (k + i)%nat y) = false) -> filter p (mapi f k l) = [f (k + j)%nat x].
Proof.
  induction l as [|z l IH]; intros k j x Hj Hp Hn; [destruct j; discriminate|]. cbn [mapi filter].
  destruct j as [|j].
  - injection Hj as ->. rewrite Nat.add_0_r in Hp |- *. rewrite Hp. f_equal.
    assert (A0 : forall m k', (forall i y, nth_error m i = Some y -> p (f (k' + i)%nat y) = false) -> filter p (mapi f k' m) = []).
    { clear. induction m as [|z m IH]; intros k' H; [reflexivity|]. cbn [mapi filter].
      pose proof (H O z eq_refl) as H0. rewrite Nat.add_0_r in H0. rewrite H0. apply IH.
      intros i y Hy. replace (S k' + i)%nat with (k' + S i)%nat by lia. apply (H (S i) y Hy). }
    apply A0. intros i y Hy. replace (S k + i)%nat with (k + S i)%nat by lia. apply (Hn (S i) y); [lia|exact Hy].
  - pose proof (Hn O z ltac:(lia) eq_refl) as H0. rewrite Nat.add_0_r in H0. rewrite H0.
    replace (k + S j)%nat with (S k + j)%nat in * by lia. apply IH; [exact Hj|exact Hp|].
    intros i y Hi Hy. replace (S k + i)%nat with (k + S i)%nat by lia. apply (Hn (S i) y); [lia|exact Hy].
Qed.
Lemma nth_map_inj {A B} (h : A -> B) l i j x y : NoDup (map h l) -> nth_error l i = Some x -> nth_error l j = Some y -> h x = h y -> i = j.
Proof.
  intros Hd Hi Hj E. apply (proj1 (NoDup_nth_error (map h l)) Hd).
  - rewrite map_length. apply nth_error_Some. congruence.
  - rewrite (map_nth_error h i l Hi), (map_nth_error h j l Hj), E. reflexivity.
Qed.
Lemma in_map_inj {A B} (h : A -> B) l x y : NoDup (map h l) -> In x l -> In y l -> h x = h y -> x = y.
Proof.
  intros Hd Hx Hy E. apply In_nth_error in Hx, Hy. destruct Hx as [i Hi], Hy as [j Hj].
  pose proof (nth_map_inj h l i j x y Hd Hi Hj E). subst. congruence.
Qed.
Lemma NoDup_filter_map {A B} (h : A -> B) (p : A -> bool) l : NoDup (map h l) -> NoDup (map h (filter p l)).
Proof.
  induction l as [|x l IH]; cbn; intros H; [constructor|]. inversion H as [|? ? Hn Hl]; subst.
  destruct (p x); [|apply IH, Hl]. cbn. constructor; [|apply IH, Hl].
  intros C. apply Hn. apply in_map_iff in C. destruct C as (y & <- & Hy). apply filter_In in Hy. apply in_map, Hy.
Qed.

(** * Running the calls on a state without flags *)
Definition mk (vs : list bvertex) (es : list bedge) (av ae : Z) (nx : nat) : state := mkState false false false vs es av ae [] nx.
Lemma run {A B} (x : M A) (f : A -> M B) s a s' : x s = Done a s' -> mbind x f s = f a s'.
Proof. intros H. unfold mbind. rewrite H. reflexivity. Qed.
Ltac step L := rewrite (run _ _ _ _ _ L).
Lemma run_begin vs es av ae nx : begin_change (mk vs es av ae nx) = Done tt (mk vs es av ae nx).
Proof. reflexivity. Qed.
Lemma run_check b s : b = true -> check b s = Done tt s.
Proof. intros ->. reflexivity. Qed.
Lemma run_get_v v b vs es av ae nx : nth_error vs v = Some b -> get_v v (mk vs es av ae nx) = Done b (mk vs es av ae nx).
Proof. intros H. unfold get_v. cbn. rewrite H. reflexivity. Qed.
Lemma run_get_e h e vs es av ae nx : find_e h es = Some e -> get_e h (mk vs es av ae nx) = Done e (mk vs es av ae nx).
Proof. intros H. unfold get_e. cbn [mk s_es]. rewrite H. reflexivity. Qed.
Lemma run_put_v v f b vs es av ae nx : nth_error vs v = Some b ->
  put_v v f (mk vs es av ae nx) = Done tt (mk (update_nth v f vs) es av ae nx).
Proof. intros H. unfold put_v. rewrite (run _ _ _ _ _ (run_get_v v b vs es av ae nx H)). reflexivity. Qed.
Definition on_e (h : nat) (f : bedge -> bedge) (es : list bedge) : list bedge := map (fun e => if (be_handle e =? h)%nat then f e else e) es.
Lemma run_put_e h f e vs es av ae nx : find_e h es = Some e ->
  put_e h f (mk vs es av ae nx) = Done tt (mk vs (on_e h f es) av ae nx).
Proof. intros H. unfold put_e. rewrite (run _ _ _ _ _ (run_get_e h e vs es av ae nx H)). reflexivity. Qed.
Lemma find_on_e h f es e : (forall x, be_handle (f x) = be_handle x) -> find_e h es = Some e -> find_e h (on_e h f es) = Some (f e).
Proof.
  intros Hf. unfold find_e, on_e. induction es as [|x es IH]; cbn; [discriminate|].
  destruct (Nat.eqb_spec (be_handle x) h) as [E|E].
  - intros H. injection H as ->. rewrite Hf. destruct (Nat.eqb_spec (be_handle e) h); [reflexivity|contradiction].
  - intros H. destruct (Nat.eqb_spec (be_handle x) h); [contradiction|]. apply IH, H.
Qed.
Lemma update_nth_same {A} (f : A -> A) l : forall v x, nth_error l v = Some x -> f x = x -> update_nth v f l = l.
Proof.
  induction l as [|y l IH]; intros [|v] x H E; cbn in *; try discriminate; try reflexivity.
  - injection H as ->. rewrite E. reflexivity.
  - f_equal. apply (IH v x H E).
Qed.

Lemma bump_same ids a : (forall x, In x ids -> x < a) -> bump ids a = a.
Proof.
  unfold bump. induction ids as [|x ids IH]; intros H; cbn; [reflexivity|].
  destruct (Z.leb_spec a x); [specialize (H x (or_introl eq_refl)); lia|]. apply IH. intros y Hy. apply H. right; exact Hy.
Qed.
Lemma find_index_absent {A} (p : A -> bool) l : (forall x, In x l -> p x = false) -> find_index p l = None.
Proof. induction l as [|x l IH]; intros H; cbn; [reflexivity|]. rewrite (H x (or_introl eq_refl)), IH; [reflexivity|]. intros y Hy. apply H; right; exact Hy. Qed.
Lemma find_absent {A} (p : A -> bool) l : (forall x, In x l -> p x = false) -> find p l = None.
Proof. induction l as [|x l IH]; intros H; cbn; [reflexivity|]. rewrite (H x (or_introl eq_refl)). apply IH. intros y Hy. apply H; right; exact Hy. Qed.
Lemma update_nth_end {A} (f : A -> A) l x : update_nth (length l) f (l ++ [x]) = l ++ [f x].
Proof. induction l as [|y l IH]; cbn; [reflexivity|]. f_equal. exact IH. Qed.
Lemma nth_error_end {A} (l : list A) x : nth_error (l ++ [x]) (length l) = Some x.
Proof. rewrite nth_error_app2, Nat.sub_diag by lia. reflexivity. Qed.

Lemma run_add_vertex vs es av ae nx : 0 < av -> (forall b, In b vs -> bv_id b < av) ->
  add_vertex_auto (mk vs es av ae nx) = Done (length vs) (mk (vs ++ [mkBVertex av "" 0 0 [] [] 0 0]) es (av + 1) ae nx).
Proof.
  intros Hav H. unfold add_vertex_auto. unfold mbind at 1, modify at 1. cbn [mk s_vs s_auto_v with_auto_v s_readonly s_norm s_rep s_es s_auto_e s_gcd s_next].
  rewrite bump_same by (intros x Hx; apply in_map_iff in Hx; destruct Hx as (b & <- & Hb); apply H, Hb).
  unfold mbind at 1, get at 1. unfold mbind at 1, modify at 1. cbn [mk s_vs s_auto_v with_auto_v s_readonly s_norm s_rep s_es s_auto_e s_gcd s_next].
  fold (mk vs es (av + 1) ae nx). unfold add_unsafe_vertex. step (run_begin vs es (av + 1) ae nx).
  unfold mbind at 1, get at 1. unfold mbind at 1, modify at 1. cbn [mk s_vs with_vs s_auto_v s_readonly s_norm s_rep s_es s_auto_e s_gcd s_next].
  fold (mk (vs ++ [new_vertex]) es (av + 1) ae nx).
  assert (Ei : set_vertex_id (length vs) av (mk (vs ++ [new_vertex]) es (av + 1) ae nx) =
               Done tt (mk (vs ++ [bv_set_id av new_vertex]) es (av + 1) ae nx)).
  { unfold set_vertex_id. step (run_begin (vs ++ [new_vertex]) es (av + 1) ae nx). unfold mbind at 1, get at 1.
    unfold vertex_by_id. cbn [mk s_vs]. rewrite find_index_absent.
    2:{ intros b Hb. apply in_app_or in Hb. destruct Hb as [Hb|[<-|[]]].
        - specialize (H b Hb). destruct (Z.eqb_spec (bv_id b) av); [lia|reflexivity].
        - cbn [bv_id new_vertex]. destruct (Z.eqb_spec 0 av); [lia|reflexivity]. }
    fold (mk (vs ++ [new_vertex]) es (av + 1) ae nx).
    unfold set_vertex_id_unsafe. step (run_begin (vs ++ [new_vertex]) es (av + 1) ae nx).
    step (run_put_v (length vs) (bv_set_id av) _ _ es (av + 1) ae nx (nth_error_end vs new_vertex)). rewrite update_nth_end.
    unfold modify. cbn [mk with_auto_v s_auto_v s_readonly s_norm s_rep s_vs s_es s_auto_e s_gcd s_next].
    rewrite Z.max_id. reflexivity. }
  step Ei.
  assert (Ep : set_init_phases (length vs) 0 (mk (vs ++ [bv_set_id av new_vertex]) es (av + 1) ae nx) =
               Done tt (mk (vs ++ [bv_set_id av new_vertex]) es (av + 1) ae nx)).
  { unfold set_init_phases. step (run_begin (vs ++ [bv_set_id av new_vertex]) es (av + 1) ae nx).
    rewrite (run_put_v _ _ _ _ _ _ _ _ (nth_error_end vs (bv_set_id av new_vertex))). rewrite update_nth_end. reflexivity. }
  step Ep. reflexivity.
Qed.
Lemma run_set_vertex_name v n b vs es av ae nx : n <> ""%string -> nth_error vs v = Some b -> (forall b, In b vs -> bv_name b <> n) ->
  set_vertex_name v n (mk vs es av ae nx) = Done tt (mk (update_nth v (bv_set_name n) vs) es av ae nx).
Proof.
  intros Hn Hv Hu. unfold set_vertex_name. rewrite (run _ _ _ _ _ (run_begin _ _ _ _ _)).
  rewrite (run _ _ _ _ _ (run_check _ _ (proj2 (negb_true_iff _) (proj2 (String.eqb_neq _ _) Hn)))).
  unfold mbind at 1, get. unfold vertex_by_name. cbn [mk s_vs].
  rewrite find_index_absent by (intros x Hx; apply String.eqb_neq, Hu, Hx).
  fold (mk vs es av ae nx). rewrite (run _ _ _ _ _ eq_refl). apply run_put_v with (b := b), Hv.
Qed.
Lemma run_set_reentrancy v r b vs es av ae nx : nth_error vs v = Some b ->
  set_reentrancy v r (mk vs es av ae nx) = Done tt (mk (update_nth v (bv_set_reentrancy r) vs) es av ae nx).
Proof. intros H. unfold set_reentrancy. rewrite (run _ _ _ _ _ (run_begin _ _ _ _ _)). apply run_put_v with (b := b), H. Qed.
Lemma find_e_end es e : (forall x, In x es -> be_handle x <> be_handle e) -> find_e (be_handle e) (es ++ [e]) = Some e.
Proof.
  intros H. unfold find_e. apply find_here; [|apply Nat.eqb_refl].
  intros y Hy. apply Nat.eqb_neq, H, Hy.
Qed.
Lemma on_e_end h f es e : (forall x, In x es -> be_handle x <> h) -> be_handle e = h -> on_e h f (es ++ [e]) = es ++ [f e].
Proof.
  intros H E. unfold on_e. rewrite map_app. cbn. rewrite E, Nat.eqb_refl. f_equal.
  rewrite <- (map_id es) at 2. apply map_ext_in. intros x Hx. destruct (Nat.eqb_spec (be_handle x) h); [destruct (H x Hx); assumption|reflexivity].
Qed.
Lemma run_add_edge from to bs bd vs es av ae nx : 0 < ae -> (forall e, In e es -> 0 < be_id e < ae) -> (forall e, In e es -> (be_handle e < nx)%nat) ->
  nth_error vs from = Some bs -> nth_error vs to = Some bd ->
  add_edge_auto from to (mk vs es av ae nx) = Done nx (mk vs (es ++ [be_set_id ae (new_edge nx from to)]) av (ae + 1) (S nx)).
Proof.
  intros Hae Hid Hh Hf Ht. unfold add_edge_auto, mbind at 1, modify at 1. change (s_es (mk vs es av ae nx)) with es. change (s_auto_e (mk vs es av ae nx)) with ae.
  rewrite bump_same by (intros x Hx; apply in_map_iff in Hx; destruct Hx as (e & <- & He); apply Hid, He).
  unfold mbind at 1, get at 1. change (with_auto_e ae (mk vs es av ae nx)) with (mk vs es av ae nx). change (s_auto_e (mk vs es av ae nx)) with ae.
  unfold add_edge_unsafe. step (run_begin vs es av ae nx).
  step (run_get_v from bs vs es av ae nx Hf). step (run_get_v to bd vs es av ae nx Ht).
  unfold mbind at 1, get at 1. cbn [mk s_next]. unfold mbind at 1, modify at 1.
  cbn [with_next with_es mk s_es s_readonly s_norm s_rep s_vs s_auto_v s_auto_e s_gcd s_next].
  fold (mk vs (es ++ [new_edge nx from to]) av ae (S nx)).
  assert (N : forall x, In x es -> be_handle x <> nx) by (intros x Hx; specialize (Hh x Hx); lia).
  assert (Ei : set_edge_id nx ae (mk vs (es ++ [new_edge nx from to]) av ae (S nx)) =
               Done tt (mk vs (es ++ [be_set_id ae (new_edge nx from to)]) av (ae + 1) (S nx))).
  { unfold set_edge_id. step (run_begin vs (es ++ [new_edge nx from to]) av ae (S nx)).
    step (run_check (0 <? ae) (mk vs (es ++ [new_edge nx from to]) av ae (S nx)) ltac:(lia)).
    unfold mbind at 1, get at 1. unfold edge_by_id. cbn [mk s_es]. rewrite find_absent.
    2:{ intros e He. apply in_app_or in He. destruct He as [He|[<-|[]]].
        - specialize (Hid e He). destruct (Z.eqb_spec (be_id e) ae); [lia|reflexivity].
        - cbn [be_id new_edge]. apply Z.eqb_neq; lia. }
    cbn [option_map]. fold (mk vs (es ++ [new_edge nx from to]) av ae (S nx)).
    step (run_put_e nx (be_set_id ae) (new_edge nx from to) vs (es ++ [new_edge nx from to]) av ae (S nx) (find_e_end es (new_edge nx from to) N)).
    rewrite on_e_end by (exact N || reflexivity).
    unfold modify. cbn [with_auto_e mk s_es s_readonly s_norm s_rep s_vs s_auto_v s_auto_e s_gcd s_next].
    rewrite Z.max_r by lia. reflexivity. }
  step Ei. reflexivity.
Qed.
Lemma run_set_edge_name h n e vs es av ae nx : n <> ""%string -> find_e h es = Some e -> (forall e, In e es -> be_name e <> n) ->
  set_edge_name h n (mk vs es av ae nx) = Done tt (mk vs (on_e h (be_set_name n) es) av ae nx).
Proof.
  intros Hn Hv Hu. unfold set_edge_name. rewrite (run _ _ _ _ _ (run_begin _ _ _ _ _)).
  rewrite (run _ _ _ _ _ (run_check _ _ (proj2 (negb_true_iff _) (proj2 (String.eqb_neq _ _) Hn)))).
  unfold mbind at 1, get. unfold edge_by_name. cbn [mk s_es].
  rewrite find_absent by (intros x Hx; apply String.eqb_neq, Hu, Hx). cbn [option_map].
  fold (mk vs es av ae nx). rewrite (run _ _ _ _ _ eq_refl). apply run_put_e with (e := e), Hv.
Qed.
Lemma run_set_tokensize h t e vs es av ae nx : find_e h es = Some e ->
  set_tokensize h t (mk vs es av ae nx) = Done tt (mk vs (on_e h (be_set_tokensize t) es) av ae nx).
Proof. intros H. unfold set_tokensize. rewrite (run _ _ _ _ _ (run_begin _ _ _ _ _)). apply run_put_e with (e := e), H. Qed.
Lemma run_set_preload h t e vs es av ae nx : find_e h es = Some e ->
  set_preload h t (mk vs es av ae nx) = Done tt (mk vs (on_e h (be_set_preload t) es) av ae nx).
Proof. intros H. unfold set_preload. rewrite (run writable _ (mk vs es av ae nx) tt (mk vs es av ae nx) eq_refl). apply run_put_e with (e := e), H. Qed.

Lemma run_out_init h l e b vs es av ae nx : find_e h es = Some e -> nth_error vs (be_dst e) = Some b -> bv_init_phases b = length l ->
  set_edge_out_init h l (mk vs es av ae nx) = Done tt (mk vs (on_e h (be_set_out_init l) es) av ae nx).
Proof.
  intros He Hb Hl. unfold set_edge_out_init. step (run_begin vs es av ae nx). step (run_put_e h (be_set_out_init l) e vs es av ae nx He).
  step (run_get_e h _ vs (on_e h (be_set_out_init l) es) av ae nx (find_on_e h (be_set_out_init l) es e (fun _ => eq_refl) He)).
  cbn [be_dst be_set_out_init]. step (run_get_v (be_dst e) b vs (on_e h (be_set_out_init l) es) av ae nx Hb).
  rewrite Hl, Nat.eqb_refl, orb_true_r. step (run_check true (mk vs (on_e h (be_set_out_init l) es) av ae nx) eq_refl).
  unfold set_init_phases. step (run_begin vs (on_e h (be_set_out_init l) es) av ae nx). rewrite (run_put_v _ _ b) by exact Hb.
  rewrite (update_nth_same _ _ _ b) by (assumption || (destruct b; unfold bv_set_init_phases; cbn in *; subst; reflexivity)). reflexivity.
Qed.
Lemma run_in_init h l e b vs es av ae nx : find_e h es = Some e -> nth_error vs (be_src e) = Some b -> bv_init_phases b = length l ->
  set_edge_in_init h l (mk vs es av ae nx) = Done tt (mk vs (on_e h (be_set_in_init l) es) av ae nx).
Proof.
  intros He Hb Hl. unfold set_edge_in_init. step (run_begin vs es av ae nx). step (run_put_e h (be_set_in_init l) e vs es av ae nx He).
  step (run_get_e h _ vs (on_e h (be_set_in_init l) es) av ae nx (find_on_e h (be_set_in_init l) es e (fun _ => eq_refl) He)).
  cbn [be_src be_set_in_init]. step (run_get_v (be_src e) b vs (on_e h (be_set_in_init l) es) av ae nx Hb).
  rewrite Hl, Nat.eqb_refl, orb_true_r. step (run_check true (mk vs (on_e h (be_set_in_init l) es) av ae nx) eq_refl).
  unfold set_init_phases. step (run_begin vs (on_e h (be_set_in_init l) es) av ae nx). rewrite (run_put_v _ _ b) by exact Hb.
  rewrite (update_nth_same _ _ _ b) by (assumption || (destruct b; unfold bv_set_init_phases; cbn in *; subst; reflexivity)). reflexivity.
Qed.
Lemma run_out h l e b vs es av ae nx : find_e h es = Some e -> nth_error vs (be_dst e) = Some b -> bv_phases b = length l ->
  set_edge_out h l (mk vs es av ae nx) = Done tt (mk vs (on_e h (be_set_out l (accumulate_int l)) es) av ae nx).
Proof.
  intros He Hb Hl. unfold set_edge_out. set (f := be_set_out l (accumulate_int l)).
  step (run_begin vs es av ae nx). step (run_put_e h f e vs es av ae nx He).
  step (run_get_e h _ vs (on_e h f es) av ae nx (find_on_e h f es e (fun _ => eq_refl) He)).
  change (be_dst (f e)) with (be_dst e). step (run_get_v (be_dst e) b vs (on_e h f es) av ae nx Hb).
  rewrite Hl, Nat.eqb_refl, orb_true_r. step (run_check true (mk vs (on_e h f es) av ae nx) eq_refl).
  unfold set_phases. step (run_begin vs (on_e h f es) av ae nx). rewrite (run_put_v _ _ b) by exact Hb.
  rewrite (update_nth_same _ _ _ b) by (assumption || (destruct b; unfold bv_set_phases; cbn in *; subst; reflexivity)). reflexivity.
Qed.
Lemma run_in h l e b vs es av ae nx : find_e h es = Some e -> nth_error vs (be_src e) = Some b -> bv_phases b = length l ->
  set_edge_in h l (mk vs es av ae nx) = Done tt (mk vs (on_e h (be_set_in l (accumulate_int l)) es) av ae nx).
Proof.
  intros He Hb Hl. unfold set_edge_in. set (f := be_set_in l (accumulate_int l)).
  step (run_begin vs es av ae nx). step (run_put_e h f e vs es av ae nx He).
  step (run_get_e h _ vs (on_e h f es) av ae nx (find_on_e h f es e (fun _ => eq_refl) He)).
  change (be_src (f e)) with (be_src e). step (run_get_v (be_src e) b vs (on_e h f es) av ae nx Hb).
  rewrite Hl, Nat.eqb_refl, orb_true_r. step (run_check true (mk vs (on_e h f es) av ae nx) eq_refl).
  unfold set_phases. step (run_begin vs (on_e h f es) av ae nx). rewrite (run_put_v _ _ b) by exact Hb.
  rewrite (update_nth_same _ _ _ b) by (assumption || (destruct b; unfold bv_set_phases; cbn in *; subst; reflexivity)). reflexivity.
Qed.
Lemma each_app {A} (f : A -> M unit) l1 l2 s s' : each f l1 s = Done tt s' -> each f (l1 ++ l2) s = each f l2 s'.
Proof.
  revert s. induction l1 as [|x l IH]; intros s H; cbn in *; [injection H as ->; reflexivity|].
  unfold mbind in *. destruct (f x s) as [[] s1|s1|]; try discriminate. apply IH, H.
Qed.
