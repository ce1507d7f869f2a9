(** The LTE generator. *)
From Coq Require Import QArith Ascii String.
From Verif Require Import Base Commons CommonsProofs Graph ScheduleSpec KIterSpec RepVecSpec Builder BuilderSpec BuilderProofs BuilderFinal SingleOutput SingleOutputProofs SingleOutputLoop Lte LteSpec LteProofs.
Open Scope Z_scope.

Lemma flat_in phs x : In x (flat_map tasks_of phs) -> exists n q, x = (n, 1%nat, 0%nat, [q], @nil Q, 1) /\ In q (map ph_time phs).
Proof. intros H. apply in_flat_map in H as (ph & Hp & H). apply in_map_iff in H as (j & <- & _). eexists _, _. split; [reflexivity|]. apply in_map, Hp. Qed.
Lemma generate_ok phs : apart_names phs ->
  ok (generate phs) empty_state (fun _ s' => map task_shape (s_vs s') = flat_map tasks_of phs /\ map channel_shape (s_es s') = channels_of 0 phs /\ hist s').
Proof.
  intros A. assert (O : open_ empty_state) by (split; [reflexivity|constructor]). unfold generate.
  eapply ok_bind; [apply (ok_phase_loop phs empty_state O A); intros x q j []|]. intros ids s1 ((new & V & Ii & Sh & E & O1) & L). cbn [empty_state s_vs s_es app] in V, E.
  assert (Rd : ready s1).
  { split; [exact O1|]. split.
    - intros b Hb. rewrite V in Hb. assert (Hs : In (task_shape b) (map task_shape new)) by (apply in_map, Hb). rewrite Sh in Hs. apply flat_in in Hs as (n & q & Eq & _). unfold task_shape in Eq. congruence.
    - intros e He. rewrite E in He. destruct He. }
  assert (At : at_place s1 0 (concat ids)) by (intros k id Hk; rewrite V, Ii; exact Hk).
  pose proof (ok_join_all phs ids 0 s1 Rd L At) as K. unfold ok in *. destruct (join_all phs ids s1) as [[] s2|s2|]; auto. destruct K as (V2 & (n2 & E2 & S2) & _ & _ & H2). rewrite E in E2. cbn [app] in E2. rewrite V2, V, E2. auto.
Qed.
Lemma lte_apart a b c d : apart_names (phases a b c d).
Proof. cbn. repeat split; intros q j k Hq; repeat (destruct Hq as [<-|Hq]; [discriminate|]); destruct Hq. Qed.

(** Whatever the options, a graph is built: four phases of tasks with one phase, the given
    duration and reentrancy factor 1, and exactly the channels from each task of a phase to each
    task of the next. *)
Theorem C146_generated miwf cwac ifft dd :
  let phs := phases (option_or miwf 64) (option_or cwac 75) (option_or ifft 24) (option_or dd 75) in
  exists s, generate_lte_sdf miwf cwac ifft dd = Done tt s /\ map task_shape (s_vs s) = flat_map tasks_of phs /\ map channel_shape (s_es s) = channels_of 0 phs /\ history_of checked_call false s.
Proof.
  intros phs. pose proof (generate_ok phs (lte_apart _ _ _ _)) as K. unfold ok in K. unfold generate_lte_sdf. fold phs. destruct (generate phs empty_state) as [[] s|s|]; [|destruct K|destruct K]. eauto.
Qed.
Print Assumptions C146_generated.

(** The same with the numbers, durations and rates written out. *)
Lemma asks_read text default n : asks text default n -> option_or text default = n.
Proof. intros [[-> ->]|(ds & -> & D & ->)]; [reflexivity|]. cbn. apply from_string_int_digits. exact D. Qed.
Theorem C146_asked miwf cwac ifft dd m c i d : asks miwf 64 m -> asks cwac 75 c -> asks ifft 24 i -> asks dd 75 d ->
  exists s, generate_lte_sdf miwf cwac ifft dd = Done tt s /\ map task_shape (s_vs s) = flat_map tasks_of (lte_layers m c i d) /\ map channel_shape (s_es s) = channels_of 0 (lte_layers m c i d).
Proof.
  intros A B C D. apply asks_read in A, B, C, D. destruct (C146_generated miwf cwac ifft dd) as (s & E & T & Ch & _). rewrite A, B, C, D in T, Ch. exists s. auto.
Qed.
Print Assumptions C146_asked.
Example C146_asked_hyp : asks (Some (list_ascii_of_string "12")) 64 12 /\ asks None 75 75.
Proof. split; [right|left; auto]. eexists. split; [reflexivity|]. split; [|reflexivity]. split; [discriminate|]. cbn. intros c H. repeat (destruct H as [<-|H]; [discriminate|]). destruct H. Qed.

Lemma channels_in phs : forall off x, In x (channels_of off phs) ->
  exists p a b, x = wire p a b /\ (off <= a < b)%nat /\ (b < off + list_sum (map size phs))%nat /\ In p (map ph_pkts phs).
Proof.
  induction phs as [|p phs IH]; intros off x H; [destruct H|]. destruct phs as [|q phs]; [destruct H|].
  change (channels_of off (p :: q :: phs)) with (flat_map (fun j => map (fun k => wire (ph_pkts p) (off + j) (off + size p + k)) (seq 0 (size q))) (seq 0 (size p)) ++ channels_of (off + size p) (q :: phs)) in H.
  change (list_sum (map size (p :: q :: phs))) with (size p + list_sum (map size (q :: phs)))%nat. change (map ph_pkts (p :: q :: phs)) with (ph_pkts p :: map ph_pkts (q :: phs)). apply in_app_iff in H as [H|H].
  - apply in_flat_map in H as (j & Hj & H). apply in_map_iff in H as (k & <- & Hk). apply in_seq in Hj, Hk. eexists _, _, _. split; [reflexivity|]. split; [lia|]. split; [|left; reflexivity]. change (list_sum (map size (q :: phs))) with (size q + list_sum (map size phs))%nat. lia.
  - destruct (IH _ _ H) as (r & a & b & -> & Ha & Hb & Hp). eexists _, _, _. split; [reflexivity|]. split; [lia|]. split; [lia|]. right. exact Hp.
Qed.
Lemma tasks_length phs : length (flat_map tasks_of phs) = list_sum (map size phs).
Proof. induction phs as [|p phs IH]; [reflexivity|]. cbn [flat_map map list_sum fold_right]. rewrite app_length, IH. unfold tasks_of. rewrite map_length, seq_length. reflexivity. Qed.

(** The analyses may be run on it: the graph is well formed, its tasks and channels have distinct
    names and identifiers, it is balanced when every task fires once, and it has no circuit. *)
Theorem C146_usable miwf cwac ifft dd s : generate_lte_sdf miwf cwac ifft dd = Done tt s ->
  graph_wf (view s) /\ edge_ids_ok (view s) /\ NoDup (map bv_name (s_vs s)) /\
  solution (view s) (fun _ => 1) /\ (forall c, In c (edges (view s)) -> (e_src c < e_dst c)%nat).
Proof.
  intros E. destruct (C146_generated miwf cwac ifft dd) as (s' & E' & T & C & H). rewrite E in E'. injection E' as <-. destruct (ids_unique s H) as (N1 & N2 & N3 & _).
  set (phs := phases _ _ _ _) in *. assert (Pk : forall p, In p (map ph_pkts phs) -> 0 < p) by (intros p Hp; cbn in Hp; intuition lia).
  assert (Pt : forall q, In q (map ph_time phs) -> (0 <= q)%Q) by (intros q Hq; cbn in Hq; repeat (destruct Hq as [<-|Hq]; [discriminate|]); destruct Hq).
  assert (Tb : forall b, In b (s_vs s) -> exists n q, task_shape b = (n, 1%nat, 0%nat, [q], @nil Q, 1) /\ In q (map ph_time phs)) by (intros b Hb; apply flat_in; rewrite <- T; apply in_map, Hb).
  assert (Ce : forall e, In e (s_es s) -> exists p a b, channel_shape e = wire p a b /\ (a < b)%nat /\ (b < length (s_vs s))%nat /\ 0 < p).
  { intros e He. assert (Hx : In (channel_shape e) (channels_of 0 phs)) by (rewrite <- C; apply in_map, He). apply channels_in in Hx as (p & a & b & Ex & Ha & Hb & Hp). exists p, a, b. split; [exact Ex|]. split; [lia|]. split; [|apply Pk, Hp].
    rewrite <- (map_length task_shape), T, tasks_length. lia. }
  split; [split; [|split]|split; [split|split; [|split; [split|]]]].
  - intros v Hv. cbn [view vertices] in Hv. apply in_map_iff in Hv as (b & <- & Hb). destruct (Tb b Hb) as (n & q & Eb & Hq). unfold task_shape in Eb. injection Eb as _ E1 E2 E3 E4 _. unfold vertex_wf, view_vertex. cbn. rewrite E1, E2, E3, E4. cbn. split; [lia|]. split; [reflexivity|]. split; [reflexivity|]. intros x [<-|[]]. apply Pt, Hq.
  - intros c Hc. cbn [view edges] in Hc. apply in_map_iff in Hc as (e & <- & He). destruct (Ce e He) as (p & a & b & Ee & Lab & Lb & Pp). unfold channel_shape, wire in Ee. injection Ee as E1 E2 E3 E4 E5 E6 E7.
    destruct (nth_error (s_vs s) a) as [ba|] eqn:Ea; [|apply nth_error_None in Ea; lia]. destruct (nth_error (s_vs s) b) as [bb|] eqn:Eb; [|apply nth_error_None in Eb; lia].
    destruct (Tb ba (nth_error_In _ _ Ea)) as (? & ? & Sa & _). destruct (Tb bb (nth_error_In _ _ Eb)) as (? & ? & Sb & _). unfold task_shape in Sa, Sb. injection Sa as _ A1 A2 _ _ _. injection Sb as _ B1 B2 _ _ _.
    exists (view_vertex ba), (view_vertex bb). cbn. rewrite E1, E2, E3, E4, E5, E6, E7, !nth_error_map, Ea, Eb. cbn. rewrite A1, A2, B1, B2. repeat (split; [reflexivity|]). split; [intros y [<-|[<-|[]]]; lia|lia].
  - cbn [view vertices]. rewrite map_map. exact N1.
  - cbn [view edges]. rewrite map_map. exact N2.
  - intros c Hc. cbn [view edges] in Hc. apply in_map_iff in Hc as (e & <- & He). apply N3, He.
  - assert (Hn : map bv_name (s_vs s) = map (fun x => fst (fst (fst (fst (fst x))))) (flat_map tasks_of phs)) by (rewrite <- T, map_map; reflexivity). rewrite Hn.
    assert (Ap := lte_apart (option_or miwf 64) (option_or cwac 75) (option_or ifft 24) (option_or dd 75)). fold phs in Ap. clearbody phs. clear -Ap. induction phs as [|p phs IH]; [constructor|]. destruct Ap as [A1 A2]. cbn [flat_map]. rewrite map_app.
    specialize (IH A2). assert (D1 : NoDup (map (fun x => fst (fst (fst (fst (fst x))))) (tasks_of p))).
    { unfold tasks_of. rewrite map_map. cbn. apply FinFun.Injective_map_NoDup; [intros i j; apply task_name_inj|apply seq_NoDup]. }
    assert (Dj : forall x, In x (map (fun x => fst (fst (fst (fst (fst x))))) (tasks_of p)) -> ~ In x (map (fun x => fst (fst (fst (fst (fst x))))) (flat_map tasks_of phs))).
    { intros x Hx Hy. unfold tasks_of in Hx. rewrite map_map in Hx. apply in_map_iff in Hx as (j & <- & _). apply in_map_iff in Hy as (y & Ey & Hy). apply in_flat_map in Hy as (q & Hq & Hy). apply in_map_iff in Hy as (k & <- & _). cbn in Ey. exact (A1 q j k Hq (eq_sym Ey)). }
    induction D1 as [|x l Nx _ IHl]; cbn [app]; [exact IH|]. constructor; [|apply IHl; intros y Hy; apply Dj; right; exact Hy]. intros Hx. apply in_app_iff in Hx as [Hx|Hx]; [exact (Nx Hx)|exact (Dj x (or_introl eq_refl) Hx)].
  - intros i _. lia.
  - intros c Hc. cbn [view edges] in Hc. apply in_map_iff in Hc as (e & <- & He). destruct (Ce e He) as (p & a & b & Ee & _). unfold channel_shape, wire in Ee. injection Ee as E1 E2 E3 E4 _ _ _. cbn. rewrite E3, E4. reflexivity.
  - intros c Hc. cbn [view edges] in Hc. apply in_map_iff in Hc as (e & <- & He). destruct (Ce e He) as (p & a & b & Ee & Lab & _). unfold channel_shape, wire in Ee. injection Ee as E1 E2 _ _ _ _ _. cbn. lia.
Qed.
Print Assumptions C146_usable.

(** Each pair of tasks of successive phases is joined once: the numbers of channels. *)
Theorem C146_numbers miwf cwac ifft dd s : generate_lte_sdf miwf cwac ifft dd = Done tt s ->
  let m := Z.to_nat (option_or miwf 64) in let c := Z.to_nat (option_or cwac 75) in let i := Z.to_nat (option_or ifft 24) in let d := Z.to_nat (option_or dd 75) in
  length (s_vs s) = (m + c + i + d)%nat /\ length (s_es s) = (m * c + c * i + i * d)%nat /\
  NoDup (map (fun e => (be_src e, be_dst e)) (s_es s)).
Proof.
  intros E m c i d. destruct (C146_generated miwf cwac ifft dd) as (s' & E' & T & C & H). rewrite E in E'. injection E' as <-. set (phs := phases _ _ _ _) in *.
  assert (Fl : forall p o1 o2 n k, length (flat_map (fun j => map (fun k => wire p (o1 + j) (o2 + k)) (seq 0 k)) (seq 0 n)) = (n * k)%nat).
  { intros p o1 o2 n k. rewrite <- (seq_length n 0) at 2. induction (seq 0 n) as [|x l IH]; [reflexivity|]. cbn [flat_map length]. rewrite app_length, IH, map_length, seq_length. lia. }
  split; [|split].
  - rewrite <- (map_length task_shape), T, tasks_length. cbn. unfold size. cbn. lia.
  - rewrite <- (map_length channel_shape), C. cbn [channels_of phs phases]. rewrite !app_length, !Fl. cbn [ph_thds list_sum fold_right map]. unfold size. cbn [ph_thds]. fold m c i d. cbn [length]. rewrite Nat.add_0_r, !Nat.add_assoc. reflexivity.
  - assert (Hn : map (fun e => (be_src e, be_dst e)) (s_es s) = map (fun x => (fst (fst (fst (fst (fst (fst x))))), snd (fst (fst (fst (fst (fst x))))))) (channels_of 0 phs)) by (rewrite <- C, map_map; reflexivity).
    rewrite Hn. clear. generalize 0%nat as off. induction phs as [|p phs IH]; intros off; [constructor|]. destruct phs as [|q phs]; [constructor|].
    change (channels_of off (p :: q :: phs)) with (flat_map (fun j => map (fun k => wire (ph_pkts p) (off + j) (off + size p + k)) (seq 0 (size q))) (seq 0 (size p)) ++ channels_of (off + size p) (q :: phs)).
    rewrite map_app. set (f := fun x : nat * nat * list Z * list Z * list Z * list Z * Z => _) in *. specialize (IH (off + size p)%nat).
    assert (G : forall n, (n <= size p)%nat -> forall k0, (k0 + n <= size p)%nat -> NoDup (map f (flat_map (fun j => map (fun k => wire (ph_pkts p) (off + j) (off + size p + k)) (seq 0 (size q))) (seq k0 n)) ++ map f (channels_of (off + size p) (q :: phs)))).
    { assert (Row : forall (l : list nat) j (rest : list (nat * nat)), NoDup l -> NoDup rest -> (forall x, In x rest -> fst x <> (off + j)%nat) -> NoDup (map f (map (fun k => wire (ph_pkts p) (off + j) (off + size p + k)) l) ++ rest)).
      { intros l j rest D Dr Hr. induction D as [|k l Nk D IHl]; [exact Dr|]. cbn [map app]. constructor; [|exact IHl]. intros Hx. apply in_app_iff in Hx as [Hx|Hx]; [|apply (Hr _ Hx); reflexivity].
        rewrite map_map in Hx. apply in_map_iff in Hx as (k' & Ek & Hk). unfold f, wire in Ek. cbn in Ek. injection Ek as Ek. assert (k' = k) by lia. subst. exact (Nk Hk). }
      induction n as [|n IHn]; intros Hn k0 Hk; [exact IH|]. cbn [seq flat_map]. rewrite map_app, <- app_assoc. apply Row; [apply seq_NoDup|apply IHn; lia|].
      intros x Hx. apply in_app_iff in Hx as [Hx|Hx]; apply in_map_iff in Hx as (y & <- & Hy).
      - apply in_flat_map in Hy as (j & Hj & Hy). apply in_map_iff in Hy as (k & <- & _). apply in_seq in Hj. cbn. lia.
      - apply channels_in in Hy as (r & a & b & -> & Ha & _). cbn. lia. }
    apply (G (size p) (le_n _) 0%nat). lia.
Qed.
Print Assumptions C146_numbers.
Example C146_example : exists s, generate_lte_sdf (Some ["2"%char]) (Some ["1"%char]) (Some ["2"%char]) (Some ["-"%char; "1"%char]) = Done tt s /\
  map bv_name (s_vs s) = ["miwf_0"; "miwf_1"; "cwac_0"; "ifft_0"; "ifft_1"]%string /\
  map (fun e => (be_name e, be_src e, be_dst e, be_in e)) (s_es s) = [("channel_1"%string, 0%nat, 2%nat, [16]); ("channel_2"%string, 1%nat, 2%nat, [16]); ("channel_3"%string, 2%nat, 3%nat, [32]); ("channel_4"%string, 2%nat, 4%nat, [32])].
Proof. eexists. split; [vm_compute; reflexivity|]. split; reflexivity. Qed.
