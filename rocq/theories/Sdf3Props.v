(** Properties of the SDF3 files: C84 to C86. *)
From Coq Require Import QArith Ascii String.
From Verif Require Import Base Graph Commons Builder BuilderSpec BuilderProps Sdf3 Sdf3Spec Sdf3Final Sdf3Reader.
Open Scope Z_scope.

(** ** C84 *)
(** A complete graph with named tasks and channels can be written, and reading the file gives
    the same tasks in the same order and the same channels, except that one-token unit
    self-loops become the reentrancy of their task, and that a factor other than zero becomes
    one; tasks and channels are numbered from one. *)
Theorem C84_round_trip : forall show_real read_real s,
  history_of documented_call false s -> complete s -> all_named s -> writable_times show_real read_real s ->
  exists doc s', write_sdf3 show_real s = Ok doc /\ read_sdf3 read_real doc empty_state = Done tt s' /\
    length (s_vs s') = length (s_vs s) /\
    (forall v b, nth_error (s_vs s) v = Some b -> exists b', nth_error (s_vs s') v = Some b' /\ same_task b b' /\
       bv_reentrancy b' = if negb (bv_reentrancy b =? 0) || has_one_token_loop s v then 1 else 0) /\
    Forall2 same_data (filter (fun e => negb (one_token_loop e)) (s_es s)) (s_es s') /\
    map bv_id (s_vs s') = map (fun i => Z.of_nat i + 1) (seq 0 (length (s_vs s'))) /\
    map be_id (s_es s') = map (fun i => Z.of_nat i + 1) (seq 0 (length (s_es s'))).
Proof. exact round_trip. Qed.
Print Assumptions C84_round_trip.

(** Nothing is lost when the factors are zero or one and there is no such self-loop. *)
Theorem C84_exact_round_trip : forall show_real read_real s,
  history_of documented_call false s -> complete s -> all_named s -> writable_times show_real read_real s ->
  (forall b, In b (s_vs s) -> bv_reentrancy b = 0 \/ bv_reentrancy b = 1) -> (forall e, In e (s_es s) -> one_token_loop e = false) ->
  exists doc s', write_sdf3 show_real s = Ok doc /\ read_sdf3 read_real doc empty_state = Done tt s' /\
    Forall2 (fun b b' => same_task b b' /\ bv_reentrancy b' = bv_reentrancy b) (s_vs s) (s_vs s') /\ Forall2 same_data (s_es s) (s_es s').
Proof. exact exact_round_trip. Qed.
Print Assumptions C84_exact_round_trip.

(** Two tasks with initial phases, a half time unit, three channels. *)
Definition half_text (_ : Q) : chars := ["0"; "."; "5"]%char.
Definition half_value (_ : chars) : Q := 1 # 2.
Definition ex_sdf3_calls : list call :=
  [AddVertexName "a"; AddVertexName "b"; AddEdgeName 0 1 "ab"; AddEdgeName 1 0 "ba"; AddEdgeName 1 1 "bb"; SetEdgeId 0 40;
   SetEdgeInInit 0 [5]; SetEdgeIn 0 [1; 2]; SetEdgeOut 0 [3]; SetEdgeIn 1 [3]; SetEdgeOutInit 1 [0]; SetEdgeOut 1 [2; 1];
   SetEdgeIn 2 [1]; SetEdgeOut 2 [1]; SetPreload 2 2; SetPreload 1 12; SetTokenSize 0 8;
   SetDurations 0 [3; 1 # 2]%Q; SetInitDurations 0 [7]%Q; SetDurations 1 [inject_Z 40]; SetReentrancy 0 1].
Definition ex_sdf3 : state := Eval vm_compute in match run ex_sdf3_calls empty_state with Some s => s | None => empty_state end.
Lemma documented cs s : run cs empty_state = Some s -> (forall c, In c cs -> match c with SetVertexIdUnsafe _ _ | SetPhases _ _ | SetInitPhases _ _ => False | _ => True end) ->
  history_of documented_call false s.
Proof.
  intros E H. apply (run_history documented_call false cs empty_state); [|constructor|exact E]. intros t c Hc. specialize (H c Hc). destruct c; try contradiction; split; exact I.
Qed.
Ltac each_in H := repeat (destruct H as [<-|H]; [try exact I|]); [..|destruct H].
Example C84_hyp : history_of documented_call false ex_sdf3 /\ complete ex_sdf3 /\ all_named ex_sdf3 /\ writable_times half_text half_value ex_sdf3 /\
  (forall b, In b (s_vs ex_sdf3) -> bv_reentrancy b = 0 \/ bv_reentrancy b = 1) /\ (forall e, In e (s_es ex_sdf3) -> one_token_loop e = false).
Proof.
  split; [apply (documented ex_sdf3_calls); [vm_compute; reflexivity|intros c H; repeat (destruct H as [<-|H]; [exact I|]); destruct H]|].
  split; [|split; [|split; [|split]]].
  - split.
    + intros b [<-|[<-|[]]]; cbn; (split; [lia|]; split; [discriminate|]; split; [congruence|]);
        intros x Hx; repeat (destruct Hx as [<-|Hx]; [vm_compute; discriminate|]); contradiction.
    + intros e bs bd He E1 E2. destruct He as [<-|[<-|[<-|[]]]]; cbn in E1, E2; injection E1 as <-; injection E2 as <-; cbn;
        (split; [congruence|]; split; [congruence|]; split; [|lia]); intros x Hx; repeat (destruct Hx as [<-|Hx]; [lia|]); contradiction.
  - split; intros x Hx; repeat (destruct Hx as [<-|Hx]; [discriminate|]); destruct Hx.
  - intros b q Hb Hq.
    assert (W : forall n, 0 <= n < 2 ^ 64 -> writable_time half_text half_value (inject_Z n)) by (intros n Hn; left; exists n; split; [exact Hn|reflexivity]).
    destruct Hb as [<-|[<-|[]]]; cbn in Hq.
    + destruct Hq as [<-|[<-|[<-|[]]]]; [apply (W 3); lia| |apply (W 7); lia]. right. split; [intros n; unfold Qeq; cbn; lia|]. split; [discriminate|]. split; [|reflexivity].
      intros c Hc. repeat (destruct Hc as [<-|Hc]; [repeat split; try reflexivity; discriminate|]). destruct Hc.
    + destruct Hq as [<-|[]]; apply (W 40); lia.
  - intros b [<-|[<-|[]]]; cbn; auto.
  - intros e [<-|[<-|[<-|[]]]]; reflexivity.
Qed.

(** A graph with a factor of two and a one-token unit self-loop. *)
Definition ex_lossy_calls : list call :=
  [AddVertexName "a"; AddVertexName "b"; AddEdgeName 0 1 "ab"; AddEdgeName 1 1 "bb";
   SetEdgeIn 0 [1]; SetEdgeOut 0 [1]; SetEdgeIn 1 [1]; SetEdgeOut 1 [1]; SetPreload 1 1; SetTokenSize 1 64;
   SetDurations 0 [1]%Q; SetDurations 1 [1]%Q; SetReentrancy 0 2].
Definition ex_lossy : state := Eval vm_compute in match run ex_lossy_calls empty_state with Some s => s | None => empty_state end.
Lemma ex_lossy_hyp show_real read_real : history_of documented_call false ex_lossy /\ complete ex_lossy /\ all_named ex_lossy /\ writable_times show_real read_real ex_lossy.
Proof.
  split; [apply (documented ex_lossy_calls); [vm_compute; reflexivity|intros c H; repeat (destruct H as [<-|H]; [exact I|]); destruct H]|].
  split; [|split].
  - split.
    + intros b [<-|[<-|[]]]; cbn; (split; [lia|]; split; [discriminate|]; split; [congruence|]);
        intros x Hx; repeat (destruct Hx as [<-|Hx]; [vm_compute; discriminate|]); contradiction.
    + intros e bs bd He E1 E2. destruct He as [<-|[<-|[]]]; cbn in E1, E2; injection E1 as <-; injection E2 as <-; cbn;
        (split; [congruence|]; split; [congruence|]; split; [|lia]); intros x Hx; repeat (destruct Hx as [<-|Hx]; [lia|]); contradiction.
  - split; intros x Hx; repeat (destruct Hx as [<-|Hx]; [discriminate|]); destruct Hx.
  - intros b q Hb Hq. left. exists 1. split; [lia|]. destruct Hb as [<-|[<-|[]]]; destruct Hq as [<-|[]]; reflexivity.
Qed.
(** Finding: a reentrancy factor above one is not preserved. *)
Theorem C84_factor_refuted : exists s, history_of documented_call false s /\ complete s /\ all_named s /\
  forall show_real read_real, writable_times show_real read_real s /\
  exists doc s', write_sdf3 show_real s = Ok doc /\ read_sdf3 read_real doc empty_state = Done tt s' /\
    map bv_reentrancy (s_vs s) = [2; 0] /\ map bv_reentrancy (s_vs s') = [1; 1].
Proof.
  exists ex_lossy. destruct (ex_lossy_hyp (fun _ => []) (fun _ => 0%Q)) as (H1 & H2 & H3 & _). repeat (split; [assumption|]).
  intros show_real read_real. split; [apply ex_lossy_hyp|]. eexists. eexists. split; [vm_compute; reflexivity|]. split; [vm_compute; reflexivity|]. vm_compute. auto.
Qed.
Print Assumptions C84_factor_refuted.
(** Finding: such a self-loop is no longer a channel; its name and token size are lost. *)
Theorem C84_self_loop_refuted : exists s, history_of documented_call false s /\ complete s /\ all_named s /\
  forall show_real read_real, writable_times show_real read_real s /\
  exists doc s', write_sdf3 show_real s = Ok doc /\ read_sdf3 read_real doc empty_state = Done tt s' /\
    map be_name (s_es s) = ["ab"; "bb"]%string /\ map be_name (s_es s') = ["ab"]%string.
Proof.
  exists ex_lossy. destruct (ex_lossy_hyp (fun _ => []) (fun _ => 0%Q)) as (H1 & H2 & H3 & _). repeat (split; [assumption|]).
  intros show_real read_real. split; [apply ex_lossy_hyp|]. eexists. eexists. split; [vm_compute; reflexivity|]. split; [vm_compute; reflexivity|]. vm_compute. auto.
Qed.
Print Assumptions C84_self_loop_refuted.

(** ** C85 *)
(** Whatever document is accepted, the graph is one built by accepted calls, its vectors have
    one entry per phase, its tasks are the actors in order, with distinct names, its channels
    are the channel elements in order but those taken for a loop, and a task has factor one
    when some channel is taken for its loop, zero otherwise. *)
Theorem C85_accepted_documents : forall read_real doc s, read_sdf3 read_real doc empty_state = Done tt s ->
  history_of checked_call false s /\ coherent s /\
  exists g, graph_section doc g /\
    map bv_name (s_vs s) = actor_names g /\ NoDup (actor_names g) /\ ~ In ""%string (actor_names g) /\
    map bv_reentrancy (s_vs s) = map (fun n => if existsb (fun c => taken_as_loop g c && String.eqb (attr "srcActor" c) n) (elements "channel" g) then 1 else 0) (actor_names g) /\
    Forall2 (declares s) (filter (fun c => negb (taken_as_loop g c)) (elements "channel" g)) (s_es s).
Proof. exact reader_sound. Qed.
Print Assumptions C85_accepted_documents.
(** A channel is taken for a loop only if it joins a task to itself, holds one token and both
    its ports carry nothing but ones. *)
Theorem C85_loop_meaning : forall g c, taken_as_loop g c = true ->
  attr "srcActor" c = attr "dstActor" c /\ attr "initialTokens" c = "1"%string /\
  unit_port g (attr "srcActor" c) (attr "srcPort" c) "out" /\ unit_port g (attr "srcActor" c) (attr "dstPort" c) "in".
Proof. exact loop_meaning. Qed.
Print Assumptions C85_loop_meaning.

Definition doc_of (g p : list xml) : xml := Elem "sdf3" [] [Elem "applicationGraph" [] [Elem "csdf" [] g; Elem "csdfProperties" [] p]].
Definition actor_of (n : string) (ports : list xml) : xml := Elem "actor" [("name", n)]%string ports.
Definition times_of (n t : string) : xml := Elem "actorProperties" [("actor", n)]%string [Elem "processor" [] [Elem "executionTime" [("time", t)]%string []]].
Definition loop_doc : xml :=
  doc_of [actor_of "a" [port "p" "out" "2*1"; port "q" "in" "1,1"; port "r" "out" "3,2*0,1;2*4"; port "s" "in" "4*2;5,1"];
          Elem "channel" [("name", "l"); ("srcActor", "a"); ("srcPort", "p"); ("dstActor", "a"); ("dstPort", "q"); ("initialTokens", "1")]%string [];
          Elem "channel" [("name", "c"); ("srcActor", "a"); ("srcPort", "r"); ("dstActor", "a"); ("dstPort", "s"); ("initialTokens", "9"); ("size", "4")]%string []]
         [times_of "a" "4*2;7,8"].
Example C85_hyp : forall read_real, exists g s, graph_section loop_doc g /\ map (taken_as_loop g) (elements "channel" g) = [true; false] /\
  read_sdf3 read_real loop_doc empty_state = Done tt s /\ map bv_reentrancy (s_vs s) = [1] /\
  map be_in (s_es s) = [[4; 4]] /\ map be_in_init (s_es s) = [[3; 0; 0; 1]] /\ map be_out (s_es s) = [[5; 1]] /\ map be_preload (s_es s) = [9].
Proof.
  intros read_real. eexists. eexists. split; [eexists; split; [left; reflexivity|]; split; [reflexivity|]; split; [left; reflexivity|left; reflexivity]|].
  split; [vm_compute; reflexivity|]. split; [vm_compute; reflexivity|]. vm_compute. auto.
Qed.

(** Finding: an actor without an execution time is undefined behaviour when it has a
    properties element (the empty vector is indexed), and accepted without durations when it
    has none. *)
Theorem C85_missing_time_refuted : forall read_real,
  read_sdf3 read_real (doc_of [actor_of "a" []] [Elem "actorProperties" [("actor", "a")]%string []]) empty_state = Undef /\
  exists s, read_sdf3 read_real (doc_of [actor_of "a" []] []) empty_state = Done tt s /\ ~ complete s.
Proof.
  intros read_real. split; [vm_compute; reflexivity|]. eexists. split; [vm_compute; reflexivity|]. intros [H _].
  destruct (H _ (or_introl eq_refl)) as [P _]. cbn in P. lia.
Qed.
Print Assumptions C85_missing_time_refuted.
(** Finding: two channels may name the same port, and only the first gets its rates. *)
Theorem C85_shared_port_refuted : exists doc, forall read_real, exists s, read_sdf3 read_real doc empty_state = Done tt s /\
  map be_in (s_es s) = [[2]; []] /\ ~ complete s.
Proof.
  exists (doc_of [actor_of "a" [port "p" "out" "2"]; actor_of "b" [port "q" "in" "1"; port "r" "in" "1"];
          Elem "channel" [("name", "x"); ("srcActor", "a"); ("srcPort", "p"); ("dstActor", "b"); ("dstPort", "q")]%string [];
          Elem "channel" [("name", "y"); ("srcActor", "a"); ("srcPort", "p"); ("dstActor", "b"); ("dstPort", "r")]%string []]
         [times_of "a" "1"; times_of "b" "1"]).
  intros read_real. eexists. split; [vm_compute; reflexivity|]. split; [reflexivity|]. intros [_ H].
  destruct (H _ _ _ (or_intror (or_introl eq_refl)) eq_refl eq_refl) as (_ & _ & _ & X & _). vm_compute in X. discriminate.
Qed.
Print Assumptions C85_shared_port_refuted.

(** ** C86 *)
(** Rates are read as written: items "v" or "k*v" (k times v) separated by commas, with an
    optional initial part before a semicolon. *)
Theorem C86_rate_notation : forall p, Forall item_good p -> p <> [] ->
  string_rates (str (written p)) = Ok ([], rates_of p) /\
  forall i, Forall item_good i -> string_rates (str (written i ++ ";"%char :: written p)) = Ok (rates_of i, rates_of p).
Proof. exact (fun p Hp Hn => conj (rates_written_periodic p Hp Hn) (fun i Hi => rates_written_both i p Hi Hp Hn)). Qed.
Print Assumptions C86_rate_notation.
Example C86_hyp : let i := [Times ["2"%char] ["1"; "0"]%char; Once ["7"%char]] in Forall item_good i /\ str (written i) = "2*10,7"%string /\ rates_of i = [10; 10; 7].
Proof.
  assert (D : forall w, w <> [] -> forallb (fun c => match digit_value c with Some _ => true | None => false end) w = true -> digit_string w).
  { intros w Hn Hw. split; [exact Hn|]. intros c Hc E. rewrite forallb_forall in Hw. specialize (Hw c Hc). rewrite E in Hw. discriminate. }
  split; [|split; reflexivity]. constructor; [split; apply D; [discriminate|reflexivity|discriminate|reflexivity]|constructor; [apply D; [discriminate|reflexivity]|constructor]].
Qed.
(** Finding: an empty rate is undefined behaviour. *)
Theorem C86_empty_rate_refuted : string_rates "" = Undefined /\ string_rates "1,,2" = Undefined.
Proof. split; vm_compute; reflexivity. Qed.
Print Assumptions C86_empty_rate_refuted.
