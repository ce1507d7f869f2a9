(** Reading back a written SDF3 document. *)
From Coq Require Import QArith Ascii String.
From Verif Require Import Base Commons CommonsProofs Builder BuilderProofs Sdf3 Sdf3Text Sdf3Core.
Open Scope Z_scope.

Section Round.
Variable show_real : Q -> chars.
Variable read_real : chars -> Q.
Variable V : list bvertex.
Variable E : list bedge.

(** A channel that the reader takes for the reentrancy loop of its task. *)
Definition unit_loop (e : bedge) : bool :=
  (be_src e =? be_dst e)%nat && (be_preload e =? 1) && ones (be_in_init e) && ones (be_in e) && ones (be_out_init e) && ones (be_out e).
Definition kept (e : bedge) : bool := negb (unit_loop e).

Record readable : Prop := mkReadable {
  rd_names : forall b, In b V -> bv_name b <> ""%string;
  rd_unique : NoDup (map bv_name V);
  rd_enames : forall e, In e E -> be_name e <> ""%string;
  rd_eunique : NoDup (map be_name E);
  rd_ids : NoDup (map be_id E);
  rd_tasks : forall b, In b V -> bv_durations b <> [] /\ length (bv_durations b) = bv_phases b /\
    length (bv_init_durations b) = bv_init_phases b /\ Forall (printable show_real read_real) (bv_durations b ++ bv_init_durations b);
  rd_channels : forall e, In e E -> exists bs bd, nth_error V (be_src e) = Some bs /\ nth_error V (be_dst e) = Some bd /\
    be_in e <> [] /\ be_out e <> [] /\
    length (be_in e) = bv_phases bs /\ length (be_out e) = bv_phases bd /\
    length (be_in_init e) = bv_init_phases bs /\ length (be_out_init e) = bv_init_phases bd }.
Hypothesis HR : readable.

(** * States met while reading *)
Definition times (l : list Q) : list Q := match show_times show_real l with Ok ws => map (read_time read_real) ws | _ => [] end.
Definition rvert (T R : nat -> bool) (i : nat) (b : bvertex) : bvertex :=
  mkBVertex (Z.of_nat i + 1) (bv_name b) (if T i then bv_phases b else O) (if T i then bv_init_phases b else O)
    (if T i then times (bv_durations b) else []) (if T i then times (bv_init_durations b) else []) (if R i then 1 else 0) 0.
Definition redge (A B : bedge -> bool) (j : nat) (e : bedge) : bedge :=
  mkBEdge j (be_src e) (be_dst e) (Z.of_nat j + 1) (be_name e) (if A e then be_in e else []) (if B e then be_out e else [])
    (if A e then be_in_init e else []) (if B e then be_out_init e else [])
    (if A e then accumulate_int (be_in e) else 0) (if B e then accumulate_int (be_out e) else 0) (be_preload e) (be_tokensize e).
Definition st (VS : list bvertex) (K : list bedge) (T R : nat -> bool) (A B : bedge -> bool) : state :=
  mk (mapi (rvert T R) 0 VS) (mapi (redge A B) 0 K) (Z.of_nat (length VS) + 1) (Z.of_nat (length K) + 1) (length K).
Definition no {X : Type} (_ : X) : bool := false.
Definition yes {X : Type} (_ : X) : bool := true.

Lemma st_ext VS K T R A B T' R' A' B' :
  (forall i b, nth_error VS i = Some b -> T i = T' i /\ R i = R' i) -> (forall e, In e K -> A e = A' e /\ B e = B' e) ->
  st VS K T R A B = st VS K T' R' A' B'.
Proof.
  intros Hv He. unfold st. f_equal.
  - apply mapi_ext. intros i b Hb. cbn. unfold rvert. destruct (Hv i b Hb) as [-> ->]. reflexivity.
  - apply mapi_ext. intros i e Hi. cbn. unfold redge. apply nth_error_In in Hi. destruct (He e Hi) as [-> ->]. reflexivity.
Qed.

(** * Tasks *)
Lemma read_actor_ok P b k ps : bv_name b <> ""%string -> ~ In (bv_name b) (map bv_name P) ->
  read_actor (Elem "actor" [("name", bv_name b)]%string ps) (st P k no no no no) = Done tt (st (P ++ [b]) k no no no no).
Proof.
  intros Hn Hu. unfold read_actor, st. set (es := mapi (redge no no) 0 k).
  step (run_add_vertex (mapi (rvert no no) 0 P) es (Z.of_nat (length P) + 1) (Z.of_nat (length k) + 1) (length k) ltac:(lia)
    ltac:(intros x Hx; apply mapi_in in Hx; destruct Hx as (i & y & Hi & ->); cbn; assert (i < length P)%nat by (apply nth_error_Some; congruence); lia)).
  set (nv := mkBVertex _ "" 0 0 [] [] 0 0). rewrite mapi_length.
  assert (L : length (mapi (rvert no no) 0 P) = length P) by apply mapi_length.
  assert (E1 : nth_error (mapi (rvert no no) 0 P ++ [nv]) (length P) = Some nv) by (rewrite <- L; apply nth_error_end).
  step (run_set_reentrancy (length P) 0 nv _ es (Z.of_nat (length P) + 1 + 1) (Z.of_nat (length k) + 1) (length k) E1).
  rewrite (update_nth_same _ _ _ nv E1 eq_refl).
  cbn [attrs each fst snd String.eqb Ascii.eqb Bool.eqb].
  assert (E2 : set_vertex_name (length P) (bv_name b) (mk (mapi (rvert no no) 0 P ++ [nv]) es (Z.of_nat (length P) + 1 + 1) (Z.of_nat (length k) + 1) (length k))
               = Done tt (mk (mapi (rvert no no) 0 P ++ [bv_set_name (bv_name b) nv]) es (Z.of_nat (length P) + 1 + 1) (Z.of_nat (length k) + 1) (length k))).
  { rewrite (run_set_vertex_name (length P) (bv_name b) nv _ es _ _ _ Hn E1).
    - rewrite <- L at 1. rewrite update_nth_end. reflexivity.
    - intros x Hx C. apply in_app_or in Hx. destruct Hx as [Hx|[<-|[]]].
      + apply mapi_in in Hx. destruct Hx as (i & y & Hi & ->). cbn in C. apply Hu. rewrite <- C. apply in_map. eapply nth_error_In, Hi.
      + cbn in C. symmetry in C. contradiction. }
  unfold mbind. rewrite E2. unfold ret. f_equal.
  rewrite mapi_app. cbn [mapi Nat.add]. rewrite app_length. cbn [length]. unfold mk. f_equal; lia.
Qed.
Lemma read_actors_ok es l : forall P, NoDup (map bv_name (P ++ l)) -> (forall b, In b l -> bv_name b <> ""%string) ->
  each read_actor (mapi (write_actor es) (length P) l) (st P [] no no no no) = Done tt (st (P ++ l) [] no no no no).
Proof.
  induction l as [|b l IH]; intros P Hd Hn; cbn [mapi each].
  - rewrite app_nil_r. reflexivity.
  - assert (Hu : ~ In (bv_name b) (map bv_name P)).
    { rewrite map_app in Hd. cbn [map] in Hd. apply NoDup_remove_2 in Hd. intros C. apply Hd. apply in_or_app. left; exact C. }
    unfold write_actor at 1. rewrite (run _ _ _ _ _ (read_actor_ok P b [] _ (Hn b (or_introl eq_refl)) Hu)).
    specialize (IH (P ++ [b])). rewrite app_length in IH. cbn [length] in IH. replace (length P + 1)%nat with (S (length P)) in IH by lia.
    rewrite <- app_assoc in IH. cbn [app] in IH. apply IH; [exact Hd|]. intros x Hx. apply Hn. right; exact Hx.
Qed.

(** * Which channels are taken for reentrancy loops *)
Definition csdf : list xml := mapi (write_actor E) 0 V ++ map (write_channel V) E ++ flat_map loop_channel V.
Lemma filter_all {X} (p : X -> bool) l : (forall x, In x l -> p x = true) -> filter p l = l.
Proof. induction l as [|x l IH]; intros H; cbn; [reflexivity|]. rewrite (H x (or_introl eq_refl)). f_equal. apply IH. intros y Hy; apply H; right; exact Hy. Qed.
Lemma filter_none {X} (p : X -> bool) l : (forall x, In x l -> p x = false) -> filter p l = [].
Proof. induction l as [|x l IH]; intros H; cbn; [reflexivity|]. rewrite (H x (or_introl eq_refl)). apply IH. intros y Hy; apply H; right; exact Hy. Qed.
Lemma actors_csdf : named "actor" csdf = mapi (write_actor E) 0 V.
Proof.
  unfold named, csdf. rewrite !filter_app.
  rewrite filter_all by (intros x Hx; apply mapi_in in Hx; destruct Hx as (i & b & _ & ->); reflexivity).
  rewrite (filter_none _ (map _ _)) by (intros x Hx; apply in_map_iff in Hx; destruct Hx as (e & <- & _); reflexivity).
  rewrite filter_none, !app_nil_r; [reflexivity|].
  intros x Hx. apply in_flat_map in Hx. destruct Hx as (b & _ & Hx). unfold loop_channel in Hx.
  destruct (bv_reentrancy b =? 0); [destruct Hx|]. destruct Hx as [<-|[]]. reflexivity.
Qed.
Lemma channels_csdf : named "channel" csdf = map (write_channel V) E ++ flat_map loop_channel V.
Proof.
  unfold named, csdf. rewrite !filter_app.
  rewrite filter_none by (intros x Hx; apply mapi_in in Hx; destruct Hx as (i & b & _ & ->); reflexivity).
  rewrite (filter_all _ (map _ _)) by (intros x Hx; apply in_map_iff in Hx; destruct Hx as (e & <- & _); reflexivity).
  rewrite filter_all; [reflexivity|].
  intros x Hx. apply in_flat_map in Hx. destruct Hx as (b & _ & Hx). unfold loop_channel in Hx.
  destruct (bv_reentrancy b =? 0); [destruct Hx|]. destruct Hx as [<-|[]]. reflexivity.
Qed.
Definition ports (v : nat) (b : bvertex) : list xml :=
  map (fun e => port (out_port e) "in" (rates_text (be_out_init e) (be_out e))) (filter (fun e => be_dst e =? v)%nat E) ++
  map (fun e => port (in_port e) "out" (rates_text (be_in_init e) (be_in e))) (filter (fun e => be_src e =? v)%nat E) ++
  loop_ports b.
Lemma kids_ports v b : named "port" (kids (write_actor E v b)) = ports v b.
Proof.
  unfold named. change (kids (write_actor E v b)) with (ports v b). apply filter_all. intros x Hx. change (In x (ports v b)) in Hx. unfold ports in Hx. rewrite !in_app_iff, !in_map_iff in Hx.
  destruct Hx as [(e & <- & _)|[(e & <- & _)|Hx]]; try reflexivity.
  unfold loop_ports in Hx. destruct (bv_reentrancy b =? 0); [destruct Hx|]. destruct Hx as [<-|[<-|[]]]; reflexivity.
Qed.
Lemma actor_named v b : nth_error V v = Some b ->
  filter (fun a => existsb (fun p => String.eqb (fst p) "name" && String.eqb (snd p) (bv_name b)) (attrs a)) (mapi (write_actor E) 0 V)
  = [write_actor E v b].
Proof.
  intros Hv. apply (filter_mapi_one _ (write_actor E) V 0 v b Hv).
  - cbn. rewrite String.eqb_refl. reflexivity.
  - intros i y Hi Hy. cbn. rewrite orb_false_r. apply String.eqb_neq. intros C. apply Hi.
    apply (nth_map_inj bv_name V i v y b (rd_unique HR) Hy Hv C).
Qed.

Definition matches (producer : bool) (name : string) (p : xml) : bool :=
  String.eqb (last_attr "" "type" (attrs p)) (if producer then "out" else "in") && String.eqb (last_attr "" "name" (attrs p)) name.
Lemma scan_ports_spec producer name ok ps : (forall p, In p ps -> matches producer name p = true -> only_one_rate (last_attr "" "rate" (attrs p)) = Ok ok) ->
  forall i o, scan_ports producer name ps i o =
    Ok (if existsb (matches producer name) ps
        then if ok then if (if producer then o else i) then Stop true else Go (if producer then true else i) (if producer then o else true) else Stop false
        else Go i o).
Proof.
  induction ps as [|p ps IH]; intros H i o; [reflexivity|]. cbn [scan_ports existsb].
  fold (matches producer name p). pose proof (H p (or_introl eq_refl)) as Hp.
  assert (H' : forall p, In p ps -> matches producer name p = true -> only_one_rate (last_attr "" "rate" (attrs p)) = Ok ok) by (intros q Hq; apply H; right; exact Hq).
  destruct (matches producer name p).
  - rewrite (Hp eq_refl). cbn [bind orb]. destruct ok; cbn [negb]; [|reflexivity].
    destruct producer.
    + destruct o; [reflexivity|]. rewrite (IH H'). destruct (existsb _ ps); reflexivity.
    + destruct i; [reflexivity|]. rewrite (IH H'). destruct (existsb _ ps); reflexivity.
  - cbn [orb]. apply (IH H').
Qed.
Lemma attrs_port n t r : last_attr "" "type" (attrs (port n t r)) = t /\ last_attr "" "name" (attrs (port n t r)) = n /\ last_attr "" "rate" (attrs (port n t r)) = r.
Proof. repeat split. Qed.
Lemma string_app_inj p a b : (p ++ a = p ++ b)%string -> a = b.
Proof. induction p as [|c p IH]; cbn; intros H; [exact H|]. injection H as H. apply IH, H. Qed.
Lemma in_port_inj e e' : in_port e = in_port e' -> be_id e = be_id e'.
Proof. unfold in_port. intros H. apply string_app_inj, str_inj, show_int_inj in H. exact H. Qed.
Lemma out_port_inj e e' : out_port e = out_port e' -> be_id e = be_id e'.
Proof. unfold out_port. intros H. apply string_app_inj, str_inj, show_int_inj in H. exact H. Qed.
Lemma show_not_R n w : str (show_int n) <> String "R" w.
Proof.
  intros H. apply (f_equal txt) in H. rewrite txt_str in H. cbn in H. unfold show_int in H. destruct (Z.ltb_spec n 0); [discriminate|].
  destruct (show_nonneg_spec n ltac:(lia)) as [[_ D] _]. rewrite H in D. apply (D "R"%char); [left; reflexivity|reflexivity].
Qed.
Lemma in_port_R e n : in_port e <> ("in_R" ++ n)%string.
Proof. unfold in_port. intros H. apply (string_app_inj "in_" _ ("R" ++ n)%string) in H. exact (show_not_R _ _ H). Qed.
Lemma out_port_R e n : out_port e <> ("out_R" ++ n)%string.
Proof. unfold out_port. intros H. apply (string_app_inj "out_" _ ("R" ++ n)%string) in H. exact (show_not_R _ _ H). Qed.

Lemma in_ports v b p : In p (ports v b) ->
  (exists e, In e E /\ be_dst e = v /\ p = port (out_port e) "in" (rates_text (be_out_init e) (be_out e))) \/
  (exists e, In e E /\ be_src e = v /\ p = port (in_port e) "out" (rates_text (be_in_init e) (be_in e))) \/
  (bv_reentrancy b <> 0 /\ (p = port ("in_R" ++ bv_name b) "out" (rates_text (repeat 1 (bv_init_phases b)) (repeat 1 (bv_phases b))) \/
                            p = port ("out_R" ++ bv_name b) "in" (rates_text (repeat 1 (bv_init_phases b)) (repeat 1 (bv_phases b))))).
Proof.
  unfold ports. rewrite !in_app_iff, !in_map_iff. intros [(e & <- & He)|[(e & <- & He)|Hp]].
  - left. apply filter_In in He. destruct He as [He Hv]. apply Nat.eqb_eq in Hv. exists e; auto.
  - right; left. apply filter_In in He. destruct He as [He Hv]. apply Nat.eqb_eq in Hv. exists e; auto.
  - right; right. unfold loop_ports in Hp. destruct (Z.eqb_spec (bv_reentrancy b) 0); [destruct Hp|].
    split; [assumption|]. destruct Hp as [<-|[<-|[]]]; auto.
Qed.
Lemma existsb_true {X} (p : X -> bool) l x : In x l -> p x = true -> existsb p l = true.
Proof. intros. apply existsb_exists. exists x; auto. Qed.
Lemma scan_out e b i o : In e E -> scan_ports true (in_port e) (ports (be_src e) b) i o =
  Ok (if ones (be_in_init e) && ones (be_in e) then if o then Stop true else Go true o else Stop false).
Proof.
  intros He. destruct (rd_channels HR e He) as (bs & bd & _ & _ & Hin & _).
  rewrite (scan_ports_spec true (in_port e) (ones (be_in_init e) && ones (be_in e))).
  - rewrite (existsb_true _ _ (port (in_port e) "out" (rates_text (be_in_init e) (be_in e)))); [reflexivity| |].
    + unfold ports. rewrite !in_app_iff. right; left. apply in_map_iff. exists e. split; [reflexivity|].
      apply filter_In. split; [exact He|apply Nat.eqb_refl].
    + unfold matches. cbn. apply String.eqb_refl.
  - intros p Hp Hm. apply in_ports in Hp. unfold matches in Hm. apply andb_true_iff in Hm. destruct Hm as [Ht Hm]. apply String.eqb_eq in Ht, Hm.
    destruct Hp as [(e' & He' & _ & ->)|[(e' & He' & _ & ->)|(_ & [-> | ->])]]; cbn in Ht, Hm; try discriminate.
    + apply in_port_inj in Hm. pose proof (in_map_inj be_id E e' e (rd_ids HR) He' He Hm). subst e'.
      change (only_one_rate (rates_text (be_in_init e) (be_in e)) = Ok (ones (be_in_init e) && ones (be_in e))). apply only_one_text, Hin.
    + symmetry in Hm. destruct (in_port_R _ _ Hm).
Qed.
Lemma scan_in e b i o : In e E -> scan_ports false (out_port e) (ports (be_dst e) b) i o =
  Ok (if ones (be_out_init e) && ones (be_out e) then if i then Stop true else Go i true else Stop false).
Proof.
  intros He. destruct (rd_channels HR e He) as (bs & bd & _ & _ & _ & Hout & _).
  rewrite (scan_ports_spec false (out_port e) (ones (be_out_init e) && ones (be_out e))).
  - rewrite (existsb_true _ _ (port (out_port e) "in" (rates_text (be_out_init e) (be_out e)))); [reflexivity| |].
    + unfold ports. rewrite !in_app_iff. left. apply in_map_iff. exists e. split; [reflexivity|].
      apply filter_In. split; [exact He|apply Nat.eqb_refl].
    + unfold matches. cbn. apply String.eqb_refl.
  - intros p Hp Hm. apply in_ports in Hp. unfold matches in Hm. apply andb_true_iff in Hm. destruct Hm as [Ht Hm]. apply String.eqb_eq in Ht, Hm.
    destruct Hp as [(e' & He' & _ & ->)|[(e' & He' & _ & ->)|(_ & [-> | ->])]]; cbn in Ht, Hm; try discriminate.
    + apply out_port_inj in Hm. pose proof (in_map_inj be_id E e' e (rd_ids HR) He' He Hm). subst e'.
      change (only_one_rate (rates_text (be_out_init e) (be_out e)) = Ok (ones (be_out_init e) && ones (be_out e))). apply only_one_text, Hout.
    + symmetry in Hm. destruct (out_port_R _ _ Hm).
Qed.
Lemma show_one p : String.eqb (if p =? 0 then "0"%string else str (show_int p)) "1" = (p =? 1).
Proof.
  destruct (Z.eqb_spec p 0) as [->|H0]; [reflexivity|]. destruct (Z.eqb_spec p 1) as [->|H1]; [reflexivity|].
  apply String.eqb_neq. intros C. apply H1. apply show_int_inj, str_inj. rewrite C. reflexivity.
Qed.
Lemma name_of_some v b : nth_error V v = Some b -> name_of V v = bv_name b.
Proof. intros H. unfold name_of. rewrite H. reflexivity. Qed.
Lemma channel_attrs e : let c := attrs (write_channel V e) in
  last_attr "" "srcActor" c = name_of V (be_src e) /\ last_attr "" "dstActor" c = name_of V (be_dst e) /\
  last_attr "" "srcPort" c = in_port e /\ last_attr "" "dstPort" c = out_port e /\ last_attr "" "name" c = be_name e /\
  last_attr "" "size" c = str (show_int (be_tokensize e)) /\
  last_attr "0" "initialTokens" c = (if be_preload e =? 0 then "0"%string else str (show_int (be_preload e))).
Proof. cbn. destruct (be_preload e =? 0); repeat split. Qed.
Lemma check_channel e : In e E -> check_reentrancy csdf (attrs (write_channel V e)) = Ok (unit_loop e).
Proof.
  intros He. destruct (rd_channels HR e He) as (bs & bd & Hs & Hd & Hin & Hout & _).
  destruct (channel_attrs e) as (A1 & A2 & A3 & A4 & _ & _ & A7). cbv zeta in *.
  unfold check_reentrancy. rewrite A1, A2, A3, A4, A7, show_one. rewrite (name_of_some _ _ Hs), (name_of_some _ _ Hd).
  unfold unit_loop. destruct (Nat.eqb_spec (be_src e) (be_dst e)) as [Hsd|Hsd].
  - rewrite <- Hsd in Hd. assert (bd = bs) by congruence. subst bd. rewrite String.eqb_refl. cbn [negb andb].
    destruct (be_preload e =? 1); cbn [negb andb]; [|reflexivity].
    rewrite actors_csdf, (actor_named _ _ Hs). cbn [scan_actors]. unfold scan_actor. rewrite kids_ports.
    rewrite scan_out by exact He. cbn [bind].
    destruct (ones (be_in_init e)); cbn [andb bind]; [|reflexivity]. destruct (ones (be_in e)); cbn [andb bind]; [|reflexivity].
    rewrite Hsd, scan_in by exact He. cbn [bind].
    destruct (ones (be_out_init e)); cbn [andb bind]; [|reflexivity]. destruct (ones (be_out e)); reflexivity.
  - destruct (String.eqb_spec (bv_name bs) (bv_name bd)) as [Hn|Hn]; [|reflexivity].
    destruct Hsd. apply (nth_map_inj bv_name V _ _ bs bd (rd_unique HR) Hs Hd Hn).
Qed.
Definition loop_attrs (b : bvertex) : list (string * string) :=
  [("name", "R" ++ bv_name b); ("srcActor", bv_name b); ("srcPort", "in_R" ++ bv_name b);
   ("dstActor", bv_name b); ("dstPort", "out_R" ++ bv_name b); ("size", "1"); ("initialTokens", "1")]%string.
Lemma check_loop v b : nth_error V v = Some b -> bv_reentrancy b <> 0 -> check_reentrancy csdf (loop_attrs b) = Ok true.
Proof.
  intros Hv Hr. destruct (rd_tasks HR b (nth_error_In _ _ Hv)) as (Hd & Hl & _).
  assert (Hp : repeat 1 (bv_phases b) <> []).
  { destruct (bv_durations b); [contradiction|]. cbn in Hl. rewrite <- Hl. discriminate. }
  unfold check_reentrancy. cbn [loop_attrs last_attr String.eqb Ascii.eqb Bool.eqb]. rewrite String.eqb_refl. cbn [negb].
  rewrite actors_csdf, (actor_named _ _ Hv). cbn [scan_actors]. unfold scan_actor. rewrite kids_ports.
  assert (L1 : In (port ("in_R" ++ bv_name b) "out" (rates_text (repeat 1 (bv_init_phases b)) (repeat 1 (bv_phases b)))) (ports v b)).
  { unfold ports. rewrite !in_app_iff. right; right. unfold loop_ports. destruct (Z.eqb_spec (bv_reentrancy b) 0); [contradiction|]. left; reflexivity. }
  assert (L2 : In (port ("out_R" ++ bv_name b) "in" (rates_text (repeat 1 (bv_init_phases b)) (repeat 1 (bv_phases b)))) (ports v b)).
  { unfold ports. rewrite !in_app_iff. right; right. unfold loop_ports. destruct (Z.eqb_spec (bv_reentrancy b) 0); [contradiction|]. right; left; reflexivity. }
  rewrite (scan_ports_spec true ("in_R" ++ bv_name b) true).
  - rewrite (existsb_true _ _ _ L1) by (unfold matches; cbn; apply String.eqb_refl). cbn [bind].
    rewrite (scan_ports_spec false ("out_R" ++ bv_name b) true).
    + rewrite (existsb_true _ _ _ L2) by (unfold matches; cbn; apply String.eqb_refl). reflexivity.
    + intros p Hi Hm. apply in_ports in Hi. unfold matches in Hm. apply andb_true_iff in Hm. destruct Hm as [Ht Hm]. apply String.eqb_eq in Ht, Hm.
      destruct Hi as [(e' & He' & _ & ->)|[(e' & He' & _ & ->)|(_ & [-> | ->])]]; cbn in Ht, Hm; try discriminate.
      * destruct (out_port_R _ _ Hm).
      * change (only_one_rate (rates_text (repeat 1 (bv_init_phases b)) (repeat 1 (bv_phases b))) = Ok true).
        rewrite only_one_text by exact Hp. rewrite !ones_repeat. reflexivity.
  - intros p Hi Hm. apply in_ports in Hi. unfold matches in Hm. apply andb_true_iff in Hm. destruct Hm as [Ht Hm]. apply String.eqb_eq in Ht, Hm.
    destruct Hi as [(e' & He' & _ & ->)|[(e' & He' & _ & ->)|(_ & [-> | ->])]]; cbn in Ht, Hm; try discriminate.
    + destruct (in_port_R _ _ Hm).
    + change (only_one_rate (rates_text (repeat 1 (bv_init_phases b)) (repeat 1 (bv_phases b))) = Ok true).
      rewrite only_one_text by exact Hp. rewrite !ones_repeat. reflexivity.
Qed.

(** * Channels *)
Definition port_table (K : list bedge) : port_names := mapi (fun j e => (j, (in_port e, out_port e))) 0 K.
Lemma named_vertex v b K T R A B : nth_error V v = Some b ->
  vertex_named (bv_name b) (st V K T R A B) = Done v (st V K T R A B).
Proof.
  intros Hv. unfold vertex_named, vertex_by_name. cbn [st mk s_vs].
  rewrite (find_index_mapi _ _ V 0 v b Hv); [reflexivity|apply String.eqb_refl|].
  intros i y Hi Hy. apply String.eqb_neq. cbn. intros C. pose proof (nth_map_inj bv_name V i v y b (rd_unique HR) Hy Hv C). lia.
Qed.
Definition add (R : nat -> bool) (v : nat) : nat -> bool := fun i => R i || (i =? v)%nat.
Lemma set_loop v b K T R A B : nth_error V v = Some b ->
  set_reentrancy v 1 (st V K T R A B) = Done tt (st V K T (add R v) A B).
Proof.
  intros Hv. unfold st. rewrite (run_set_reentrancy v 1 (rvert T R v b)) by (rewrite mapi_nth, Hv; reflexivity).
  do 2 f_equal. rewrite update_nth_mapi. apply mapi_ext. intros i y Hy. cbn. unfold rvert, bv_set_reentrancy, add.
  destruct (Nat.eqb_spec i v); cbn; [rewrite orb_true_r; reflexivity|rewrite orb_false_r; reflexivity].
Qed.
Lemma mapi_end {X Y} (f : nat -> X -> Y) l x : mapi f 0 (l ++ [x]) = mapi f 0 l ++ [f (length l) x].
Proof. rewrite mapi_app. reflexivity. Qed.
Lemma str_nonempty w : w <> [] -> String.eqb (str w) "" = false.
Proof. destruct w; [contradiction|reflexivity]. Qed.
Lemma read_kept K e T R : In e E -> unit_loop e = false -> ~ In (be_name e) (map be_name K) ->
  read_channel csdf (port_table K) (write_channel V e) (st V K T R no no) = Done (port_table (K ++ [e])) (st V (K ++ [e]) T R no no).
Proof.
  intros He Hl Hu. destruct (rd_channels HR e He) as (bs & bd & Hs & Hd & _).
  unfold read_channel. rewrite check_channel by exact He. rewrite Hl.
  destruct (channel_attrs e) as (A1 & A2 & A3 & A4 & A5 & A6 & A7). cbv zeta in *. rewrite A1, A2, A3, A4, A5, A6, A7.
  rewrite (run (lift (Ok false)) _ _ false (st V K T R no no) eq_refl). cbv iota.
  rewrite (name_of_some _ _ Hs), (name_of_some _ _ Hd).
  step (named_vertex _ _ K T R no no Hs). step (named_vertex _ _ K T R no no Hd). unfold st.
  set (vs := mapi (rvert T R) 0 V). set (es := mapi (redge no no) 0 K).
  set (av := Z.of_nat (length V) + 1). set (ae := Z.of_nat (length K) + 1).
  assert (Hs' : nth_error vs (be_src e) = Some (rvert T R (be_src e) bs)) by (unfold vs; rewrite mapi_nth, Hs; reflexivity).
  assert (Hd' : nth_error vs (be_dst e) = Some (rvert T R (be_dst e) bd)) by (unfold vs; rewrite mapi_nth, Hd; reflexivity).
  assert (Hes : forall x, In x es -> (be_handle x < length K)%nat /\ 0 < be_id x < ae /\ In (be_name x) (map be_name K)).
  { intros x Hx. apply mapi_in in Hx. destruct Hx as (j & y & Hj & ->). cbn.
    assert (j < length K)%nat by (apply nth_error_Some; congruence). split; [lia|]. split; [unfold ae; lia|].
    apply in_map. eapply nth_error_In, Hj. }
  step (run_add_edge (be_src e) (be_dst e) _ _ vs es av ae (length K) ltac:(unfold ae; lia) (fun x Hx => proj1 (proj2 (Hes x Hx)))
          (fun x Hx => proj1 (Hes x Hx)) Hs' Hd').
  set (h := length K). set (n0 := be_set_id ae (new_edge h (be_src e) (be_dst e))).
  assert (Fr : forall x, In x es -> be_handle x <> h) by (intros x Hx; specialize (Hes x Hx); unfold h; lia).
  assert (F : forall n, be_handle n = h -> find_e h (es ++ [n]) = Some n).
  { intros n Hn. rewrite <- Hn. apply find_e_end. intros x Hx. rewrite Hn. apply Fr, Hx. }
  assert (O : forall f n, be_handle n = h -> on_e h f (es ++ [n]) = es ++ [f n]) by (intros f n Hn; apply on_e_end; assumption).
  assert (Hen : be_name e <> ""%string) by (apply (rd_enames HR), He).
  assert (Hun : forall x, In x (es ++ [n0]) -> be_name x <> be_name e).
  { intros x Hx C. apply in_app_or in Hx. destruct Hx as [Hx|[<-|[]]].
    - apply Hu. rewrite <- C. apply Hes, Hx.
    - cbn in C. symmetry in C. contradiction. }
  step (run_set_edge_name h (be_name e) n0 vs (es ++ [n0]) av (ae + 1) (S h) Hen (F n0 eq_refl) Hun). rewrite (O _ n0 eq_refl).
  set (n1 := be_set_name (be_name e) n0). step (run_begin vs (es ++ [n1]) av (ae + 1) (S h)).
  rewrite (str_nonempty _ (proj1 (clean_show _))), txt_str, from_string_show.
  step (run_set_tokensize h (be_tokensize e) n1 vs (es ++ [n1]) av (ae + 1) (S h) (F n1 eq_refl)). rewrite (O _ n1 eq_refl).
  set (n2 := be_set_tokensize (be_tokensize e) n1).
  assert (Hp : (if String.eqb (if be_preload e =? 0 then "0"%string else str (show_int (be_preload e))) "" then 0
                else from_string_int (txt (if be_preload e =? 0 then "0"%string else str (show_int (be_preload e))))) = be_preload e).
  { destruct (Z.eqb_spec (be_preload e) 0) as [->|]; [reflexivity|].
    rewrite (str_nonempty _ (proj1 (clean_show _))), txt_str, from_string_show. reflexivity. }
  rewrite Hp. step (run_set_preload h (be_preload e) n2 vs (es ++ [n2]) av (ae + 1) (S h) (F n2 eq_refl)). rewrite (O _ n2 eq_refl).
  unfold ret, port_table, st. rewrite !mapi_end. fold es vs.
  rewrite app_length. cbn [length]. f_equal. unfold mk. f_equal; unfold h, av, ae; lia.
Qed.
Lemma read_loop K e T R : In e E -> unit_loop e = true ->
  read_channel csdf (port_table K) (write_channel V e) (st V K T R no no) = Done (port_table K) (st V K T (add R (be_src e)) no no).
Proof.
  intros He Hl. destruct (rd_channels HR e He) as (bs & bd & Hs & Hd & _).
  unfold read_channel. rewrite check_channel by exact He. rewrite Hl.
  destruct (channel_attrs e) as (A1 & _). cbv zeta in *. rewrite A1.
  rewrite (run (lift (Ok true)) _ _ true (st V K T R no no) eq_refl). cbv iota.
  rewrite (name_of_some _ _ Hs). step (named_vertex _ _ K T R no no Hs). step (set_loop _ _ K T R no no Hs). reflexivity.
Qed.
Definition loops_of (l : list bedge) (v : nat) : bool := existsb (fun e => unit_loop e && (be_src e =? v)%nat) l.
Lemma read_channels_app ps l1 l2 s : forall ps' s', read_channels csdf ps l1 s = Done ps' s' ->
  read_channels csdf ps (l1 ++ l2) s = read_channels csdf ps' l2 s'.
Proof.
  revert ps s. induction l1 as [|x l IH]; intros ps s ps' s' H; cbn in *; [injection H as -> ->; reflexivity|].
  unfold mbind in *. destruct (read_channel csdf ps x s) as [p1 s1|s1|]; try discriminate. apply (IH _ _ _ _ H).
Qed.
Lemma read_real_channels l : forall K T R, incl l E -> NoDup (map be_name (K ++ filter kept l)) ->
  read_channels csdf (port_table K) (map (write_channel V) l) (st V K T R no no)
  = Done (port_table (K ++ filter kept l)) (st V (K ++ filter kept l) T (fun i => R i || loops_of l i) no no).
Proof.
  induction l as [|e l IH]; intros K T R Hi Hd; cbn [map read_channels filter].
  - rewrite app_nil_r. unfold ret. f_equal. apply st_ext; [|auto]. intros i b _. cbn. rewrite orb_false_r. auto.
  - assert (He : In e E) by (apply Hi; left; reflexivity). assert (Hi' : incl l E) by (intros x Hx; apply Hi; right; exact Hx).
    cbn [filter] in Hd. assert (Hk : kept e = negb (unit_loop e)) by reflexivity. rewrite Hk in Hd |- *.
    destruct (unit_loop e) eqn:Hl; cbn [negb] in Hd |- *.
    + step (read_loop K e T R He Hl). rewrite (IH K T (add R (be_src e)) Hi' Hd). f_equal. apply st_ext; [|auto].
      intros i b _. split; [reflexivity|]. cbn [loops_of existsb]. rewrite Hl. cbn [andb]. unfold add. rewrite Nat.eqb_sym, orb_assoc. reflexivity.
    + assert (Hu : ~ In (be_name e) (map be_name K)).
      { rewrite map_app in Hd. cbn [map] in Hd. apply NoDup_remove_2 in Hd. intros C. apply Hd. apply in_or_app. left; exact C. }
      step (read_kept K e T R He Hl Hu). specialize (IH (K ++ [e]) T R Hi'). rewrite <- app_assoc in IH. cbn [app] in IH.
      rewrite (IH Hd). f_equal. apply st_ext; [|auto]. intros i b _. split; [reflexivity|]. cbn [loops_of existsb]. rewrite Hl. reflexivity.
Qed.
Lemma read_loopbacks K T l : forall P R, V = P ++ l ->
  read_channels csdf (port_table K) (flat_map loop_channel l) (st V K T R no no)
  = Done (port_table K) (st V K T (fun i => R i || ((length P <=? i)%nat && match nth_error V i with Some b => negb (bv_reentrancy b =? 0) | None => false end)) no no).
Proof.
  induction l as [|b l IH]; intros P R HV; cbn [flat_map].
  - unfold read_channels, ret. f_equal. apply st_ext; [|auto]. intros i b Hb. split; [reflexivity|].
    assert (i < length V)%nat by (apply nth_error_Some; congruence). rewrite HV, app_nil_r in H.
    destruct (Nat.leb_spec (length P) i); [lia|]. cbn. rewrite orb_false_r. reflexivity.
  - assert (Hv : nth_error V (length P) = Some b) by (rewrite HV, nth_error_app2, Nat.sub_diag by lia; reflexivity).
    assert (HV' : V = (P ++ [b]) ++ l) by (rewrite <- app_assoc; exact HV).
    assert (Next : forall R', (forall i, R' i = R i || ((i =? length P)%nat && negb (bv_reentrancy b =? 0))) ->
      read_channels csdf (port_table K) (flat_map loop_channel l) (st V K T R' no no)
      = Done (port_table K) (st V K T (fun i => R i || ((length P <=? i)%nat && match nth_error V i with Some b => negb (bv_reentrancy b =? 0) | None => false end)) no no)).
    { intros R' HR'. rewrite (IH (P ++ [b]) R' HV'). f_equal. apply st_ext; [|auto]. intros i x Hx. split; [reflexivity|].
      rewrite HR', app_length. cbn [length]. destruct (Nat.eqb_spec i (length P)) as [->|Hn].
      - rewrite Hv, Nat.leb_refl. destruct (Nat.leb_spec (length P + 1) (length P)); [lia|]. cbn. rewrite orb_false_r. reflexivity.
      - destruct (Nat.leb_spec (length P + 1) i), (Nat.leb_spec (length P) i); try lia; cbn; rewrite ?orb_false_r; reflexivity. }
    unfold loop_channel at 1. destruct (Z.eqb_spec (bv_reentrancy b) 0) as [Hr|Hr].
    + cbn [app]. apply Next. intros i. cbn [negb]. rewrite andb_false_r, orb_false_r. reflexivity.
    + cbn [app read_channels].
      assert (E1 : read_channel csdf (port_table K) (Elem "channel" (loop_attrs b) []) (st V K T R no no) = Done (port_table K) (st V K T (add R (length P)) no no)).
      { unfold read_channel. cbn [attrs]. rewrite (check_loop _ _ Hv Hr).
        rewrite (run (lift (Ok true)) _ _ true (st V K T R no no) eq_refl). cbv iota.
        change (last_attr "" "srcActor" (loop_attrs b)) with (bv_name b).
        step (named_vertex _ _ K T R no no Hv). step (set_loop _ _ K T R no no Hv). reflexivity. }
      unfold loop_attrs in E1. step E1. apply Next. intros i. unfold add. cbn [negb]. rewrite andb_true_r. reflexivity.
Qed.

(** * Times *)
Lemma update_nth_twice {X} (f g : X -> X) l : forall v, update_nth v f (update_nth v g l) = update_nth v (fun x => f (g x)) l.
Proof. induction l as [|x l IH]; intros [|v]; cbn; try reflexivity. f_equal. apply IH. Qed.
Lemma nth_update_nth {X} (f : X -> X) l : forall v x, nth_error l v = Some x -> nth_error (update_nth v f l) v = Some (f x).
Proof. induction l as [|y l IH]; intros [|v] x H; cbn in *; try discriminate; [congruence|]. apply IH, H. Qed.
Definition put_times (i p : list Q) (b : bvertex) : bvertex :=
  mkBVertex (bv_id b) (bv_name b) (length p) (length i) p i (bv_reentrancy b) (bv_Ni b).
Lemma run_times v b (iw pw : list chars) vs es av ae nx : nth_error vs v = Some b ->
  (let! _ := set_init_phases v (length iw) in let! _ := set_phases v (length pw) in
   let! _ := set_durations v (map (read_time read_real) pw) in set_init_durations v (map (read_time read_real) iw)) (mk vs es av ae nx)
  = Done tt (mk (update_nth v (put_times (map (read_time read_real) iw) (map (read_time read_real) pw)) vs) es av ae nx).
Proof.
  intros Hv. set (ti := map (read_time read_real) iw). set (tp := map (read_time read_real) pw).
  assert (Li : length ti = length iw) by apply map_length. assert (Lp : length tp = length pw) by apply map_length.
  assert (E1 : set_init_phases v (length iw) (mk vs es av ae nx) = Done tt (mk (update_nth v (bv_set_init_phases (length iw)) vs) es av ae nx)).
  { unfold set_init_phases. step (run_begin vs es av ae nx). apply run_put_v with (b := b), Hv. }
  step E1. set (vs1 := update_nth v (bv_set_init_phases (length iw)) vs).
  assert (H1 : nth_error vs1 v = Some (bv_set_init_phases (length iw) b)) by (apply nth_update_nth, Hv).
  assert (E2 : set_phases v (length pw) (mk vs1 es av ae nx) = Done tt (mk (update_nth v (bv_set_phases (length pw)) vs1) es av ae nx)).
  { unfold set_phases. step (run_begin vs1 es av ae nx). apply run_put_v with (b := bv_set_init_phases (length iw) b), H1. }
  step E2. set (vs2 := update_nth v (bv_set_phases (length pw)) vs1).
  assert (H2 : nth_error vs2 v = Some (bv_set_phases (length pw) (bv_set_init_phases (length iw) b))) by (apply nth_update_nth, H1).
  assert (E3 : set_durations v tp (mk vs2 es av ae nx) = Done tt (mk (update_nth v (bv_set_durations tp) vs2) es av ae nx)).
  { unfold set_durations. step (run_begin vs2 es av ae nx). step (run_get_v v _ vs2 es av ae nx H2). cbn [bv_phases bv_set_phases].
    rewrite Lp, Nat.eqb_refl. step (run_check true (mk vs2 es av ae nx) eq_refl). eapply run_put_v, H2. }
  step E3. set (vs3 := update_nth v (bv_set_durations tp) vs2).
  assert (H3 : nth_error vs3 v = Some (bv_set_durations tp (bv_set_phases (length pw) (bv_set_init_phases (length iw) b)))) by (apply nth_update_nth, H2).
  unfold set_init_durations. step (run_begin vs3 es av ae nx). step (run_get_v v _ vs3 es av ae nx H3). cbn [bv_init_phases bv_set_durations bv_set_phases bv_set_init_phases].
  rewrite Li, Nat.eqb_refl. step (run_check true (mk vs3 es av ae nx) eq_refl). erewrite run_put_v by exact H3.
  unfold vs3, vs2, vs1. rewrite !update_nth_twice. unfold put_times. rewrite Li, Lp. reflexivity.
Qed.
Lemma words_of_clean l : Forall clean l -> Forall word l.
Proof. apply Forall_impl. intros w. apply clean_word. Qed.
Lemma times_facts l : Forall (printable show_real read_real) l ->
  exists ws, show_times show_real l = Ok ws /\ Forall clean ws /\ length ws = length l /\ times l = map (read_time read_real) ws /\ Forall2 Qeq (times l) l.
Proof.
  intros H. destruct (show_times_ok show_real read_real l H) as (ws & Hs & Hc & Hl & Hq). exists ws. unfold times. rewrite Hs. auto.
Qed.
Lemma read_timings_ok v b K T R A B x : nth_error V v = Some b -> write_properties show_real b = Ok x ->
  read_timings read_real x (st V K T R A B) = Done tt (st V K (add T v) R A B).
Proof.
  intros Hv Hx. destruct (rd_tasks HR b (nth_error_In _ _ Hv)) as (Hne & Lp & Li & Hpr).
  apply Forall_app in Hpr. destruct Hpr as [Pp Pi].
  destruct (times_facts _ Pp) as (pw & Ep & Cp & Np & Tp & _). destruct (times_facts _ Pi) as (iw & Ei & Ci & Ni & Ti & _).
  unfold write_properties in Hx. destruct (Nat.ltb_spec 0 (length (bv_durations b))) as [_|C]; [|destruct (bv_durations b); [contradiction|cbn in C; lia]].
  cbn [cassert bind] in Hx. rewrite Ep, Ei in Hx. cbn [bind] in Hx. injection Hx as <-.
  unfold read_timings. cbn [attrs first_attr find fst snd String.eqb Ascii.eqb Bool.eqb].
  assert (Hn : negb (String.eqb (bv_name b) "") = true) by (apply negb_true_iff, String.eqb_neq, (rd_names HR), (nth_error_In _ _ Hv)).
  change (first_attr "" "actor" [("actor"%string, bv_name b)]) with (bv_name b).
  step (run_check _ (st V K T R A B) Hn). step (named_vertex v b K T R A B Hv).
  match goal with |- context [time_text ?e] => change (time_text e) with (with_init iw pw) end.
  rewrite (init_periodic_join iw pw Ci Cp) by (intros ->; cbn in Np; destruct (bv_durations b); [contradiction|discriminate]).
  rewrite (run (lift (Ok (join iw, join pw))) _ _ _ (st V K T R A B) eq_refl). cbn [fst snd].
  rewrite (split_list_join iw) by (apply words_of_clean, Ci). rewrite (split_list_join pw) by (apply words_of_clean, Cp).
  rewrite (run (lift (Ok iw)) _ _ _ (st V K T R A B) eq_refl). rewrite (run (lift (Ok pw)) _ _ _ (st V K T R A B) eq_refl).
  unfold st. rewrite (run_times v (rvert T R v b) iw pw) by (rewrite mapi_nth, Hv; reflexivity).
  do 2 f_equal. rewrite update_nth_mapi. apply mapi_ext. intros i y Hy. cbn [Nat.add] in *.
  unfold add. destruct (Nat.eqb_spec i v) as [->|Hn']; unfold rvert; cbn [Nat.add].
  - rewrite Nat.eqb_refl, orb_true_r. assert (y = b) by congruence. subst y. unfold put_times. cbn [bv_id bv_name bv_reentrancy bv_Ni].
    rewrite <- Tp, <- Ti. f_equal; [rewrite Tp|rewrite Ti]; rewrite map_length; lia.
  - destruct (Nat.eqb_spec i v); [contradiction|]. rewrite orb_false_r. reflexivity.
Qed.
Lemma write_properties_ok b : In b V -> exists x, write_properties show_real b = Ok x /\ tag x = "actorProperties"%string.
Proof.
  intros Hb. destruct (rd_tasks HR b Hb) as (Hne & Lp & Li & Hpr). apply Forall_app in Hpr. destruct Hpr as [Pp Pi].
  destruct (times_facts _ Pp) as (pw & Ep & _). destruct (times_facts _ Pi) as (iw & Ei & _).
  unfold write_properties. destruct (Nat.ltb_spec 0 (length (bv_durations b))) as [_|C]; [|destruct (bv_durations b); [contradiction|cbn in C; lia]].
  cbn [cassert bind]. rewrite Ep, Ei. cbn [bind]. eexists. split; reflexivity.
Qed.
Lemma read_all_timings K R A B l : forall P T, V = P ++ l -> exists xs, write_all_properties show_real l = Ok xs /\
  (forall x, In x xs -> tag x = "actorProperties"%string) /\
  each (read_timings read_real) xs (st V K T R A B) = Done tt (st V K (fun i => T i || (length P <=? i)%nat) R A B).
Proof.
  induction l as [|b l IH]; intros P T HV; cbn [write_all_properties].
  - exists []. split; [reflexivity|]. split; [intros x []|]. cbn. unfold ret. f_equal. apply st_ext; [|auto]. intros i b Hb. split; [|reflexivity].
    assert (i < length V)%nat by (apply nth_error_Some; congruence). rewrite HV, app_nil_r in H.
    destruct (Nat.leb_spec (length P) i); [lia|]. rewrite orb_false_r. reflexivity.
  - assert (Hv : nth_error V (length P) = Some b) by (rewrite HV, nth_error_app2, Nat.sub_diag by lia; reflexivity).
    destruct (write_properties_ok b (nth_error_In _ _ Hv)) as (x & Hx & Tx).
    assert (HV' : V = (P ++ [b]) ++ l) by (rewrite <- app_assoc; exact HV).
    destruct (IH (P ++ [b]) (add T (length P)) HV') as (xs & Hxs & Txs & Hr).
    exists (x :: xs). rewrite Hx, Hxs. split; [reflexivity|]. split; [intros y [<-|Hy]; auto|]. cbn [each].
    step (read_timings_ok (length P) b K T R A B x Hv Hx). rewrite Hr. f_equal. apply st_ext; [|auto]. intros i y Hy. split; [|reflexivity].
    unfold add. rewrite app_length. cbn [length]. destruct (Nat.eqb_spec i (length P)), (Nat.leb_spec (length P + 1) i), (Nat.leb_spec (length P) i); try lia;
    rewrite ?orb_true_r, ?orb_false_r; reflexivity.
Qed.

(** * Rates *)
Definition K := filter kept E.
Lemma K_in e : In e K -> In e E.
Proof. intros H. apply filter_In in H. apply H. Qed.
Lemma K_ids : NoDup (map be_id K).
Proof. apply NoDup_filter_map, (rd_ids HR). Qed.
Lemma ports_of_table j e : nth_error K j = Some e -> ports_of (port_table K) j = (in_port e, out_port e).
Proof.
  intros Hj. unfold ports_of, port_table. rewrite (find_mapi_some _ _ K 0 j e Hj); [reflexivity|apply Nat.eqb_refl|].
  intros i y Hi _. cbn. apply Nat.eqb_neq. lia.
Qed.
Lemma find_input A B j e : nth_error K j = Some e ->
  input_by_port (port_table K) (be_dst e) (out_port e) (mapi (redge A B) 0 K) = Some (redge A B j e).
Proof.
  intros Hj. unfold input_by_port. apply (find_mapi_some _ _ K 0 j e Hj).
  - cbn [Nat.add redge be_dst be_handle]. rewrite Nat.eqb_refl, (ports_of_table j e Hj). cbn. apply String.eqb_refl.
  - intros i y Hi Hy. cbn [Nat.add redge be_dst be_handle]. rewrite (ports_of_table i y Hy). cbn [snd].
    destruct (String.eqb_spec (out_port y) (out_port e)) as [C|]; [|apply andb_false_r].
    apply out_port_inj in C. pose proof (nth_map_inj be_id K i j y e K_ids Hy Hj C). lia.
Qed.
Lemma find_output A B j e : nth_error K j = Some e ->
  output_by_port (port_table K) (be_src e) (in_port e) (mapi (redge A B) 0 K) = Some (redge A B j e).
Proof.
  intros Hj. unfold output_by_port. apply (find_mapi_some _ _ K 0 j e Hj).
  - cbn [Nat.add redge be_src be_handle]. rewrite Nat.eqb_refl, (ports_of_table j e Hj). cbn. apply String.eqb_refl.
  - intros i y Hi Hy. cbn [Nat.add redge be_src be_handle]. rewrite (ports_of_table i y Hy). cbn [fst].
    destruct (String.eqb_spec (in_port y) (in_port e)) as [C|]; [|apply andb_false_r].
    apply in_port_inj in C. pose proof (nth_map_inj be_id K i j y e K_ids Hy Hj C). lia.
Qed.
Lemma find_input_none A B v n : (forall e, In e K -> out_port e <> n) -> input_by_port (port_table K) v n (mapi (redge A B) 0 K) = None.
Proof.
  intros H. apply find_mapi_none. intros i y Hy. cbn [Nat.add redge be_dst be_handle]. rewrite (ports_of_table i y Hy). cbn [snd].
  destruct (String.eqb_spec (out_port y) n) as [C|]; [destruct (H y (nth_error_In _ _ Hy) C)|apply andb_false_r].
Qed.
Lemma find_output_none A B v n : (forall e, In e K -> in_port e <> n) -> output_by_port (port_table K) v n (mapi (redge A B) 0 K) = None.
Proof.
  intros H. apply find_mapi_none. intros i y Hy. cbn [Nat.add redge be_src be_handle]. rewrite (ports_of_table i y Hy). cbn [fst].
  destruct (String.eqb_spec (in_port y) n) as [C|]; [destruct (H y (nth_error_In _ _ Hy) C)|apply andb_false_r].
Qed.
Lemma find_redge A B j e : nth_error K j = Some e -> find_e j (mapi (redge A B) 0 K) = Some (redge A B j e).
Proof.
  intros Hj. unfold find_e. apply (find_mapi_some _ _ K 0 j e Hj); [apply Nat.eqb_refl|].
  intros i y Hi _. cbn. apply Nat.eqb_neq. lia.
Qed.
Definition mark (A : bedge -> bool) (e : bedge) : bedge -> bool := fun x => A x || (be_id x =? be_id e).
Definition full (R : nat -> bool) (A B : bedge -> bool) : state := st V K yes R A B.
Lemma kept_position e : In e E -> kept e = true -> exists j, nth_error K j = Some e.
Proof. intros He Hk. apply In_nth_error. apply filter_In. auto. Qed.
Lemma lost e : In e E -> kept e = false -> forall x, In x K -> be_id x <> be_id e.
Proof.
  intros He Hk x Hx C. pose proof (in_map_inj be_id E x e (rd_ids HR) (K_in x Hx) He C). subst x.
  apply filter_In in Hx. destruct Hx as [_ Hx]. congruence.
Qed.
Lemma mark_lost A e x : In e E -> kept e = false -> In x K -> mark A e x = A x.
Proof.
  intros He Hk Hx. unfold mark. pose proof (lost e He Hk x Hx). destruct (Z.eqb_spec (be_id x) (be_id e)); [contradiction|]. apply orb_false_r.
Qed.
Lemma read_in_port v e R A B : In e E -> be_dst e = v ->
  read_port (port_table K) v (port (out_port e) "in" (rates_text (be_out_init e) (be_out e))) (full R A B) = Done tt (full R A (mark B e)).
Proof.
  intros He <-. destruct (rd_channels HR e He) as (bs & bd & Hs & Hd & Hin & Hout & Lin & Lout & Lin' & Lout').
  unfold read_port. cbn [attrs port last_attr String.eqb Ascii.eqb Bool.eqb]. unfold mbind at 1, get at 1. cbv iota.
  change (s_es (full R A B)) with (mapi (redge A B) 0 K).
  destruct (kept e) eqn:Hk.
  - destruct (kept_position e He Hk) as [j Hj]. rewrite (find_input A B j e Hj). cbn [be_handle redge].
    unfold read_output_spec. rewrite string_rates_text by exact Hout.
    rewrite (run (lift (Ok (be_out_init e, be_out e))) _ _ _ (full R A B) eq_refl). cbn [fst snd].
    assert (Hc : (0 <? length (be_out e))%nat = true) by (destruct (be_out e); [contradiction|reflexivity]).
    step (run_check _ (full R A B) Hc). unfold full, st.
    set (vs := mapi (rvert yes R) 0 V). set (es := mapi (redge A B) 0 K). set (av := Z.of_nat (length V) + 1). set (ae := Z.of_nat (length K) + 1).
    assert (Hb : nth_error vs (be_dst e) = Some (rvert yes R (be_dst e) bd)) by (unfold vs; rewrite mapi_nth, Hd; reflexivity).
    assert (Hf : find_e j es = Some (redge A B j e)) by apply find_redge, Hj.
    assert (Lo' : bv_init_phases (rvert yes R (be_dst e) bd) = length (be_out_init e)) by (cbn; lia).
    step (run_out_init j (be_out_init e) _ _ vs es av ae (length K) Hf Hb Lo').
    assert (Hf' : find_e j (on_e j (be_set_out_init (be_out_init e)) es) = Some (be_set_out_init (be_out_init e) (redge A B j e))) by (apply find_on_e; [reflexivity|exact Hf]).
    assert (Lo : bv_phases (rvert yes R (be_dst e) bd) = length (be_out e)) by (cbn; lia).
    rewrite (run_out j (be_out e) _ _ vs _ av ae (length K) Hf' Hb Lo). do 2 f_equal.
    unfold on_e, es. rewrite !map_mapi. apply mapi_ext. intros i y Hy. cbn [Nat.add be_handle redge].
    unfold mark. destruct (Nat.eqb_spec i j) as [->|Hn].
    + assert (y = e) by congruence. subst y. cbn [be_handle be_set_out_init redge]. rewrite Nat.eqb_refl. unfold redge. rewrite Z.eqb_refl, orb_true_r. reflexivity.
    + cbn [be_handle redge]. destruct (Nat.eqb_spec i j); [contradiction|]. unfold redge.
      destruct (Z.eqb_spec (be_id y) (be_id e)) as [C|]; [destruct Hn; apply (nth_map_inj be_id K i j y e K_ids Hy Hj C)|].
      rewrite orb_false_r. reflexivity.
  - rewrite find_input_none.
    + unfold ret. f_equal. apply st_ext; [auto|]. intros x Hx. rewrite mark_lost; auto.
    + intros x Hx C. apply out_port_inj in C. exact (lost e He Hk x Hx C).
Qed.
Lemma read_out_port v e R A B : In e E -> be_src e = v ->
  read_port (port_table K) v (port (in_port e) "out" (rates_text (be_in_init e) (be_in e))) (full R A B) = Done tt (full R (mark A e) B).
Proof.
  intros He <-. destruct (rd_channels HR e He) as (bs & bd & Hs & Hd & Hin & Hout & Lin & Lout & Lin' & Lout').
  unfold read_port. cbn [attrs port last_attr String.eqb Ascii.eqb Bool.eqb]. unfold mbind at 1, get at 1. cbv iota.
  change (s_es (full R A B)) with (mapi (redge A B) 0 K).
  destruct (kept e) eqn:Hk.
  - destruct (kept_position e He Hk) as [j Hj]. rewrite (find_output A B j e Hj). cbn [be_handle redge].
    unfold read_input_spec. rewrite string_rates_text by exact Hin.
    rewrite (run (lift (Ok (be_in_init e, be_in e))) _ _ _ (full R A B) eq_refl). cbn [fst snd].
    assert (Hc : (0 <? length (be_in e))%nat = true) by (destruct (be_in e); [contradiction|reflexivity]).
    step (run_check _ (full R A B) Hc). unfold full, st.
    set (vs := mapi (rvert yes R) 0 V). set (es := mapi (redge A B) 0 K). set (av := Z.of_nat (length V) + 1). set (ae := Z.of_nat (length K) + 1).
    assert (Hb : nth_error vs (be_src e) = Some (rvert yes R (be_src e) bs)) by (unfold vs; rewrite mapi_nth, Hs; reflexivity).
    assert (Hf : find_e j es = Some (redge A B j e)) by apply find_redge, Hj.
    assert (Lo' : bv_init_phases (rvert yes R (be_src e) bs) = length (be_in_init e)) by (cbn; lia).
    step (run_in_init j (be_in_init e) _ _ vs es av ae (length K) Hf Hb Lo').
    assert (Hf' : find_e j (on_e j (be_set_in_init (be_in_init e)) es) = Some (be_set_in_init (be_in_init e) (redge A B j e))) by (apply find_on_e; [reflexivity|exact Hf]).
    assert (Lo : bv_phases (rvert yes R (be_src e) bs) = length (be_in e)) by (cbn; lia).
    rewrite (run_in j (be_in e) _ _ vs _ av ae (length K) Hf' Hb Lo). do 2 f_equal.
    unfold on_e, es. rewrite !map_mapi. apply mapi_ext. intros i y Hy. cbn [Nat.add be_handle redge].
    unfold mark. destruct (Nat.eqb_spec i j) as [->|Hn].
    + assert (y = e) by congruence. subst y. cbn [be_handle be_set_in_init redge]. rewrite Nat.eqb_refl. unfold redge. rewrite Z.eqb_refl, orb_true_r. reflexivity.
    + cbn [be_handle redge]. destruct (Nat.eqb_spec i j); [contradiction|]. unfold redge.
      destruct (Z.eqb_spec (be_id y) (be_id e)) as [C|]; [destruct Hn; apply (nth_map_inj be_id K i j y e K_ids Hy Hj C)|].
      rewrite orb_false_r. reflexivity.
  - rewrite find_output_none.
    + unfold ret. f_equal. apply st_ext; [auto|]. intros x Hx. rewrite mark_lost; auto.
    + intros x Hx C. apply in_port_inj in C. exact (lost e He Hk x Hx C).
Qed.
Definition among (l : list bedge) (x : bedge) : bool := existsb (fun e => be_id x =? be_id e) l.
Lemma read_in_ports v R A l : forall B, (forall e, In e l -> In e E /\ be_dst e = v) ->
  each (read_port (port_table K) v) (map (fun e => port (out_port e) "in" (rates_text (be_out_init e) (be_out e))) l) (full R A B)
  = Done tt (full R A (fun x => B x || among l x)).
Proof.
  induction l as [|e l IH]; intros B H; cbn [map each].
  - unfold ret. f_equal. apply st_ext; [auto|]. intros x _. cbn. rewrite orb_false_r. auto.
  - destruct (H e (or_introl eq_refl)) as [He Hv]. step (read_in_port v e R A B He Hv).
    rewrite IH by (intros x Hx; apply H; right; exact Hx). f_equal. apply st_ext; [auto|]. intros x _. split; [reflexivity|].
    unfold mark. cbn [among existsb]. rewrite orb_assoc. reflexivity.
Qed.
Lemma read_out_ports v R B l : forall A, (forall e, In e l -> In e E /\ be_src e = v) ->
  each (read_port (port_table K) v) (map (fun e => port (in_port e) "out" (rates_text (be_in_init e) (be_in e))) l) (full R A B)
  = Done tt (full R (fun x => A x || among l x) B).
Proof.
  induction l as [|e l IH]; intros A H; cbn [map each].
  - unfold ret. f_equal. apply st_ext; [auto|]. intros x _. cbn. rewrite orb_false_r. auto.
  - destruct (H e (or_introl eq_refl)) as [He Hv]. step (read_out_port v e R A B He Hv).
    rewrite IH by (intros x Hx; apply H; right; exact Hx). f_equal. apply st_ext; [auto|]. intros x _. split; [|reflexivity].
    unfold mark. cbn [among existsb]. rewrite orb_assoc. reflexivity.
Qed.
Lemma read_loop_ports v b R A B : each (read_port (port_table K) v) (loop_ports b) (full R A B) = Done tt (full R A B).
Proof.
  unfold loop_ports. destruct (bv_reentrancy b =? 0); [reflexivity|]. cbn [each].
  assert (E1 : forall r, read_port (port_table K) v (port ("in_R" ++ bv_name b) "out" r) (full R A B) = Done tt (full R A B)).
  { intros r. unfold read_port. cbn [attrs port last_attr String.eqb Ascii.eqb Bool.eqb]. unfold mbind at 1, get at 1. cbv iota.
    change (s_es (full R A B)) with (mapi (redge A B) 0 K). rewrite find_output_none; [reflexivity|]. intros e _. apply in_port_R. }
  assert (E2 : forall r, read_port (port_table K) v (port ("out_R" ++ bv_name b) "in" r) (full R A B) = Done tt (full R A B)).
  { intros r. unfold read_port. cbn [attrs port last_attr String.eqb Ascii.eqb Bool.eqb]. unfold mbind at 1, get at 1. cbv iota.
    change (s_es (full R A B)) with (mapi (redge A B) 0 K). rewrite find_input_none; [reflexivity|]. intros e _. apply out_port_R. }
  rewrite (run _ _ _ _ _ (E1 _)), (run _ _ _ _ _ (E2 _)). reflexivity.
Qed.
Lemma among_filter (p : bedge -> bool) x : In x E -> among (filter p E) x = p x.
Proof.
  intros Hx. unfold among. destruct (p x) eqn:Hp.
  - apply existsb_true with x; [apply filter_In; auto|apply Z.eqb_refl].
  - destruct (existsb _ _) eqn:C; [|reflexivity]. apply existsb_exists in C. destruct C as (y & Hy & C). apply Z.eqb_eq in C.
    apply filter_In in Hy. destruct Hy as [Hy Hpy]. pose proof (in_map_inj be_id E x y (rd_ids HR) Hx Hy C). subst y. congruence.
Qed.
Lemma read_actor_ports v b R A B : nth_error V v = Some b ->
  read_ports (port_table K) (write_actor E v b) (full R A B)
  = Done tt (full R (fun x => A x || (be_src x =? v)%nat) (fun x => B x || (be_dst x =? v)%nat)).
Proof.
  intros Hv. unfold read_ports. change (last_attr "" "name" (attrs (write_actor E v b))) with (bv_name b).
  assert (Hn : negb (String.eqb (bv_name b) "") = true) by (apply negb_true_iff, String.eqb_neq, (rd_names HR), (nth_error_In _ _ Hv)).
  step (run_check _ (full R A B) Hn). unfold full at 1. step (named_vertex v b K yes R A B Hv). fold (full R A B).
  rewrite kids_ports. unfold ports.
  erewrite each_app by (apply read_in_ports; intros e He; apply filter_In in He; destruct He as [He Hd]; apply Nat.eqb_eq in Hd; auto).
  erewrite each_app by (apply read_out_ports; intros e He; apply filter_In in He; destruct He as [He Hd]; apply Nat.eqb_eq in Hd; auto).
  rewrite read_loop_ports. f_equal. apply st_ext; [auto|]. intros x Hx. rewrite !among_filter by (apply K_in, Hx). auto.
Qed.
Lemma read_all_ports R l : forall P A B, V = P ++ l ->
  each (read_ports (port_table K)) (mapi (write_actor E) (length P) l) (full R A B)
  = Done tt (full R (fun x => A x || (length P <=? be_src x)%nat) (fun x => B x || (length P <=? be_dst x)%nat)).
Proof.
  induction l as [|b l IH]; intros P A B HV; cbn [mapi each].
  - unfold ret. f_equal. apply st_ext; [auto|]. intros x Hx. destruct (rd_channels HR x (K_in x Hx)) as (bs & bd & Hs & Hd & _).
    assert (be_src x < length V)%nat by (apply nth_error_Some; congruence). assert (be_dst x < length V)%nat by (apply nth_error_Some; congruence).
    rewrite HV, app_nil_r in *. destruct (Nat.leb_spec (length P) (be_src x)), (Nat.leb_spec (length P) (be_dst x)); try lia.
  - assert (Hv : nth_error V (length P) = Some b) by (rewrite HV, nth_error_app2, Nat.sub_diag by lia; reflexivity).
    assert (HV' : V = (P ++ [b]) ++ l) by (rewrite <- app_assoc; exact HV).
    step (read_actor_ports (length P) b R A B Hv).
    specialize (IH (P ++ [b]) (fun x => A x || (be_src x =? length P)%nat) (fun x => B x || (be_dst x =? length P)%nat) HV').
    rewrite app_length in IH. cbn [length] in IH. replace (length P + 1)%nat with (S (length P)) in IH by lia. rewrite IH.
    f_equal. apply st_ext; [auto|]. intros x _.
    split; rewrite <- orb_assoc; f_equal;
    [destruct (Nat.eqb_spec (be_src x) (length P)), (Nat.leb_spec (S (length P)) (be_src x)), (Nat.leb_spec (length P) (be_src x)) |
     destruct (Nat.eqb_spec (be_dst x) (length P)), (Nat.leb_spec (S (length P)) (be_dst x)), (Nat.leb_spec (length P) (be_dst x))]; try lia; reflexivity.
Qed.

(** * The whole document *)
Definition single (i : nat) : bool :=
  loops_of E i || match nth_error V i with Some b => negb (bv_reentrancy b =? 0) | None => false end.
Lemma read_written s : s_vs s = V -> s_es s = E ->
  exists doc, write_sdf3 show_real s = Ok doc /\ read_sdf3 read_real doc empty_state = Done tt (full single yes yes).
Proof.
  intros EV EE. unfold write_sdf3. rewrite EV, EE.
  destruct (read_all_timings K single no no V [] no eq_refl) as (xs & Hxs & Txs & Hread).
  rewrite Hxs. cbn [bind]. eexists. split; [reflexivity|].
  unfold read_sdf3. cbn [tag kids String.eqb Ascii.eqb Bool.eqb].
  rewrite (run (check true) _ empty_state tt empty_state eq_refl).
  cbn [last_of tag kids either String.eqb Ascii.eqb Bool.eqb orb].
  fold csdf. rewrite actors_csdf, channels_csdf.
  change empty_state with (st [] [] no no no no).
  assert (Hn : forall b, In b V -> bv_name b <> ""%string) by apply (rd_names HR).
  assert (E1 := read_actors_ok E V [] (rd_unique HR) Hn). cbn [length app] in E1. step E1.
  assert (E2 := read_real_channels E [] no no (incl_refl E)). cbn [app] in E2.
  specialize (E2 (NoDup_filter_map be_name kept E (rd_eunique HR))). change (port_table []) with (@nil (nat * (string * string))) in E2.
  assert (E3 := read_channels_app [] (map (write_channel V) E) (flat_map loop_channel V) _ _ _ E2).
  fold K in E3. rewrite (read_loopbacks K no V [] _ eq_refl) in E3.
  step E3.
  assert (Xs : named "actorProperties" (xs ++ map (fun e => Elem "channelProperties" [("channel"%string, be_name e)] []) E) = xs).
  { unfold named. rewrite filter_app. rewrite filter_all by (intros x Hx; rewrite (Txs x Hx); reflexivity).
    rewrite filter_none by (intros x Hx; apply in_map_iff in Hx; destruct Hx as (e & <- & _); reflexivity). apply app_nil_r. }
  rewrite Xs.
  match goal with |- mbind _ _ ?s0 = _ => assert (ES : s0 = st V K no single no no) end.
  { apply st_ext; [|auto]. intros i b Hb. split; [reflexivity|]. unfold single. cbn. reflexivity. }
  rewrite ES. step Hread.
  match goal with |- each _ _ ?s0 = _ => assert (ES' : s0 = full single no no) end.
  { apply st_ext; [|auto]. intros i b Hb. split; [|reflexivity]. cbn. reflexivity. }
  rewrite ES'. assert (E4 := read_all_ports single V [] no no eq_refl). cbn [length] in E4. rewrite E4. reflexivity.
Qed.
End Round.
