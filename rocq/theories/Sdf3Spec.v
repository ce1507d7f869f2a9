(** Vocabulary of the SDF3 file properties (C84 to C86). *)
From Coq Require Import QArith Ascii String.
From Verif Require Import Base Commons Builder BuilderSpec Sdf3.
Open Scope Z_scope.

(** Every call but the unchecked one, phases being announced before they are used. *)
Definition documented_call (s : state) (c : call) : Prop := checked_call s c /\ announces_phases s c.

Definition all_named (s : state) : Prop :=
  (forall b, In b (s_vs s) -> bv_name b <> ""%string) /\ (forall e, In e (s_es s) -> be_name e <> ""%string).

(** Times that survive printing: whole numbers of an unsigned long, and fractions whose printed
    form is a word that reads back to the same value. *)
Definition writable_time (show_real : Q -> chars) (read_real : chars -> Q) (q : Q) : Prop :=
  (exists n, 0 <= n < 2 ^ 64 /\ (q == inject_Z n)%Q) \/
  ((forall n, ~ q == inject_Z n)%Q /\ show_real q <> [] /\
   (forall c, In c (show_real q) -> is_space c = false /\ c <> ","%char /\ c <> "*"%char /\ c <> ";"%char) /\
   (read_time read_real (show_real q) == q)%Q).
Definition writable_times show_real read_real (s : state) : Prop :=
  forall b q, In b (s_vs s) -> In q (bv_durations b ++ bv_init_durations b) -> writable_time show_real read_real q.

(** The same task, its reentrancy factor and identifier aside. *)
Definition same_task (b b' : bvertex) : Prop :=
  bv_name b' = bv_name b /\ bv_phases b' = bv_phases b /\ bv_init_phases b' = bv_init_phases b /\
  Forall2 Qeq (bv_durations b') (bv_durations b) /\ Forall2 Qeq (bv_init_durations b') (bv_init_durations b).
(** The same channel between the same tasks, its identifier aside. *)
Definition same_data (e e' : bedge) : Prop :=
  be_name e' = be_name e /\ be_src e' = be_src e /\ be_dst e' = be_dst e /\ be_in e' = be_in e /\ be_out e' = be_out e /\
  be_in_init e' = be_in_init e /\ be_out_init e' = be_out_init e /\ be_preload e' = be_preload e /\ be_tokensize e' = be_tokensize e.

(** A channel from a task to itself with one token, which every execution takes and gives back. *)
Definition all_ones (l : list Z) : bool := forallb (fun x => x =? 1) l.
Definition one_token_loop (e : bedge) : bool :=
  (be_src e =? be_dst e)%nat && (be_preload e =? 1) && all_ones (be_in e ++ be_out e ++ be_in_init e ++ be_out_init e).
Definition has_one_token_loop (s : state) (v : nat) : bool := existsb (fun e => one_token_loop e && (be_src e =? v)%nat) (s_es s).

(** What a written rate list means: items "v" or "k*v", separated by commas. *)
Inductive rate_item := Once (v : chars) | Times (k v : chars).
Definition digit_string (w : chars) : Prop := w <> [] /\ forall c, In c w -> digit_value c <> None.
Definition value (w : chars) : Z := fold_left (fun acc c => 10 * acc + match digit_value c with Some d => d | None => 0 end) w 0.
Definition item_good (i : rate_item) : Prop := match i with Once v => digit_string v | Times k v => digit_string k /\ digit_string v end.
Definition item_written (i : rate_item) : chars := match i with Once v => v | Times k v => k ++ "*"%char :: v end.
Definition item_rates (i : rate_item) : list Z := match i with Once v => [value v] | Times k v => repeat (value v) (Z.to_nat (value k)) end.
Fixpoint comma_list (l : list chars) : chars :=
  match l with [] => [] | [x] => x | x :: l' => x ++ ","%char :: comma_list l' end.
Definition written (l : list rate_item) : chars := comma_list (map item_written l).
Definition rates_of (l : list rate_item) : list Z := flat_map item_rates l.

(** * What a document declares *)
Definition attr (n : string) (x : xml) : string := last_attr "" n (attrs x).
Definition elements (t : string) (g : xml) : list xml := filter (fun x => String.eqb (tag x) t) (kids g).
Definition actor_names (g : xml) : list string := map (attr "name") (elements "actor" g).
(** The graph section of a document. *)
Definition graph_section (doc g : xml) : Prop :=
  exists ag, In ag (kids doc) /\ tag ag = "applicationGraph"%string /\ In g (kids ag) /\ (tag g = "csdf"%string \/ tag g = "sdf"%string).
(** Channels that the reader turns into the reentrancy factor of their task. *)
Definition taken_as_loop (g c : xml) : bool := match check_reentrancy (kids g) (attrs c) with Ok true => true | _ => false end.
(** A port of the actor carries only ones. *)
Definition unit_port (g : xml) (actor port type : string) : Prop :=
  exists a p i r, In a (elements "actor" g) /\ In ("name"%string, actor) (attrs a) /\ In p (elements "port" a) /\
    attr "type" p = type /\ attr "name" p = port /\ string_rates (attr "rate" p) = Ok (i, r) /\ forall x, In x (i ++ r) -> x = 1.
(** The channel element declares this channel: names, ends, initial tokens and token size. *)
Definition number_or (d : Z) (s : string) : Z := if String.eqb s "" then d else from_string_int (txt s).
Definition declares (s : state) (c : xml) (e : bedge) : Prop :=
  be_name e = attr "name" c /\
  (exists b, nth_error (s_vs s) (be_src e) = Some b /\ bv_name b = attr "srcActor" c) /\
  (exists b, nth_error (s_vs s) (be_dst e) = Some b /\ bv_name b = attr "dstActor" c) /\
  be_preload e = number_or 0 (attr "initialTokens" c) /\ be_tokensize e = number_or 1 (attr "size" c).
