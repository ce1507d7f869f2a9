(** Model of the SDF3 reader and writer, printers/SDF3Wrapper.cpp.

    The XML text itself is libxml2's: a document is here the tree of elements that the library
    hands to the reader and takes from the writer.  Text nodes and comments are skipped by the
    reader.  Application, graph and type attributes are left out (plain strings copied
    from one side to the other). *)
From Coq Require Import QArith Ascii String.
From Verif Require Import Base Commons Builder.
Open Scope Z_scope.

Inductive xml := Elem (tag : string) (attrs : list (string * string)) (kids : list xml).
Definition tag (x : xml) : string := match x with Elem t _ _ => t end.
Definition attrs (x : xml) : list (string * string) := match x with Elem _ a _ => a end.
Definition kids (x : xml) : list xml := match x with Elem _ _ k => k end.

(** The loops over [properties]: the last attribute of a name wins; those with a [break] take
    the first. *)
Fixpoint last_attr (d : string) (n : string) (l : list (string * string)) : string :=
  match l with [] => d | (m, v) :: l' => last_attr (if String.eqb m n then v else d) n l' end.
Definition first_attr (d : string) (n : string) (l : list (string * string)) : string :=
  match find (fun p => String.eqb (fst p) n) l with Some p => snd p | None => d end.
Definition named (t : string) (l : list xml) : list xml := filter (fun x => String.eqb (tag x) t) l.

Definition lift {A} (o : outcome A) : M A :=
  match o with Ok a => ret a | Rejected => fail | Undefined => undef | Timeout => undef end.
Fixpoint each {A} (f : A -> M unit) (l : list A) : M unit :=
  match l with [] => ret tt | x :: l' => let! _ := f x in each f l' end.

(** * Reading *)
Definition c_semi : ascii := ";"%char.

(** [stringlist2tokenlist], 85-102; an empty item indexes an empty vector. *)
Fixpoint token_list (l : list chars) : outcome (list Z) :=
  match l with
  | [] => Ok []
  | cur :: rest =>
    let sep := split cur c_star in
    if (length sep =? 0)%nat then Undefined
    else
      let count := if (length sep =? 2)%nat then from_string_int (nth 0 sep []) else 1 in
      let value := from_string_int (last sep []) in
      do more <- token_list rest;
      Ok (repeat value (Z.to_nat count) ++ more)
  end.

(** The split in initial and periodic part, 110-112 and 251-253: an empty text indexes an
    empty vector; with three parts or more the second is the periodic one. *)
Definition init_periodic (s : chars) : outcome (chars * chars) :=
  match split s c_semi with
  | [] => Undefined
  | [p] => Ok ([], p)
  | [i; p] => Ok (i, p)
  | _ :: p :: _ => Ok ([], p)
  end.

(** [StringRate2Vectors], 106-119; [split] of the empty text is empty. *)
Definition string_rates (s : string) : outcome (list Z * list Z) :=
  do (i, p) <- init_periodic (txt s);
  do ri <- token_list (split i c_comma);
  do rp <- token_list (split p c_comma);
  Ok (ri, rp).

(** [onlyOneRate], 273-286. *)
Definition only_one_rate (s : string) : outcome bool :=
  do (i, p) <- string_rates s;
  Ok (forallb (fun x => x =? 1) i && forallb (fun x => x =? 1) p).

(** The two port loops of [checkReentrancy], 339-361 and 366-387: [Stop] is a return. *)
Inductive scan := Stop (b : bool) | Go (i o : bool).
Fixpoint scan_ports (producer : bool) (port : string) (ps : list xml) (i o : bool) : outcome scan :=
  match ps with
  | [] => Ok (Go i o)
  | p :: rest =>
    if String.eqb (last_attr "" "type" (attrs p)) (if producer then "out" else "in")
       && String.eqb (last_attr "" "name" (attrs p)) port
    then do ok <- only_one_rate (last_attr "" "rate" (attrs p));
         if negb ok then Ok (Stop false)
         else if (if producer then o else i) then Ok (Stop true)
         else scan_ports producer port rest (if producer then true else i) (if producer then o else true)
    else scan_ports producer port rest i o
  end.
(** One matching [name] attribute of an actor, 337-389: both loops, the loop channel having the
    same actor at both ends. *)
Definition scan_actor (inPort outPort : string) (a : xml) (i o : bool) : outcome scan :=
  do r <- scan_ports true inPort (named "port" (kids a)) i o;
  match r with
  | Stop b => Ok (Stop b)
  | Go i' o' => scan_ports false outPort (named "port" (kids a)) i' o'
  end.
Fixpoint scan_actors (inPort outPort : string) (l : list xml) (i o : bool) : outcome bool :=
  match l with
  | [] => Ok (i && o)                                                              (* 407 *)
  | a :: rest =>
    do r <- scan_actor inPort outPort a i o;
    match r with Stop b => Ok b | Go i' o' => scan_actors inPort outPort rest i' o' end
  end.

(** [checkReentrancy], 287-409.  Simplification: an actor element has one [name] attribute (XML
    forbids two). *)
Definition check_reentrancy (csdf : list xml) (c : list (string * string)) : outcome bool :=
  let src := last_attr "" "srcActor" c in
  if negb (String.eqb src (last_attr "" "dstActor" c)) then Ok false               (* 319 *)
  else if negb (String.eqb (last_attr "0" "initialTokens" c) "1") then Ok false    (* 323-326 *)
  else scan_actors (last_attr "" "srcPort" c) (last_attr "" "dstPort" c)
         (filter (fun a => existsb (fun p => String.eqb (fst p) "name" && String.eqb (snd p) src) (attrs a)) (named "actor" csdf))
         false false.

(** [getVertexByName] throws for an unknown name. *)
Definition vertex_named (n : string) : M nat := fun s =>
  match vertex_by_name s n with Some v => Done v s | None => Raised s end.

(** Tasks, 495-515. *)
Definition read_actor (x : xml) : M unit :=
  let! v := add_vertex_auto in
  let! _ := set_reentrancy v 0 in
  each (fun p => if String.eqb (fst p) "name" then set_vertex_name v (snd p) else ret tt) (attrs x).

(** Port names of the channels (edge_input_port_name, edge_output_port_name), by handle. *)
Definition port_names := list (nat * (string * string)).
Definition ports_of (ps : port_names) (h : nat) : string * string :=
  match find (fun p => (fst p =? h)%nat) ps with Some p => snd p | None => (""%string, ""%string) end.

(** Channels, 524-579. *)
Definition read_channel (csdf : list xml) (ps : port_names) (x : xml) : M port_names :=
  let c := attrs x in
  let source := last_attr "" "srcActor" c in
  let! loop := lift (check_reentrancy csdf c) in
  if loop then let! v := vertex_named source in let! _ := set_reentrancy v 1 in ret ps
  else
    let! f := vertex_named source in
    let! t := vertex_named (last_attr "" "dstActor" c) in
    let! h := add_edge_auto f t in
    let! _ := set_edge_name h (last_attr "" "name" c) in
    let! _ := begin_change in                                      (* setEdgeInputPortName *)
    let size := last_attr "" "size" c in
    let! _ := set_tokensize h (if String.eqb size "" then 1 else from_string_int (txt size)) in
    let preload := last_attr "0" "initialTokens" c in
    let! _ := set_preload h (if String.eqb preload "" then 0 else from_string_int (txt preload)) in
    ret (ps ++ [(h, (last_attr "" "srcPort" c, last_attr "" "dstPort" c))]).
Fixpoint read_channels (csdf : list xml) (ps : port_names) (l : list xml) : M port_names :=
  match l with
  | [] => ret ps
  | x :: rest => let! ps' := read_channel csdf ps x in read_channels csdf ps' rest
  end.

Section Numbers.
(** Text of a time that is not a whole number ([operator<<] on long double), and the time read
    from a text that is not a plain sequence of digits ([operator>>]). *)
Variable show_real : Q -> chars.
Variable read_real : chars -> Q.

(** [fromString<TIME_UNIT>]. *)
Definition is_digit (c : ascii) : bool := match digit_value c with Some _ => true | None => false end.
Definition read_time (s : chars) : Q :=
  if negb (length s =? 0)%nat && forallb is_digit s then inject_Z (from_string_int s) else read_real s.

(** [readSDF3VertexTimings], 197-270. *)
Definition time_text (x : xml) : string :=
  fold_left (fun acc p => fold_left (fun acc t => first_attr acc "time" (attrs t)) (named "executionTime" (kids p)) acc)
            (named "processor" (kids x)) ""%string.
Definition read_timings (x : xml) : M unit :=
  let name := first_attr "" "actor" (attrs x) in
  let! _ := check (negb (String.eqb name "")) in                                   (* 210 *)
  let! v := vertex_named name in
  let! ip := lift (init_periodic (txt (time_text x))) in
  let! init := lift (splitSDF3List (fst ip)) in
  let! per := lift (splitSDF3List (snd ip)) in
  let! _ := set_init_phases v (length init) in
  let! _ := set_phases v (length per) in
  let! _ := set_durations v (map read_time per) in
  set_init_durations v (map read_time init).

(** [getInputEdgeByPortName], [getOutputEdgeByPortName], models/Dataflow.h 842-856. *)
Definition input_by_port (ps : port_names) (v : nat) (n : string) (es : list bedge) : option bedge :=
  find (fun e => (be_dst e =? v)%nat && String.eqb (snd (ports_of ps (be_handle e))) n) es.
Definition output_by_port (ps : port_names) (v : nat) (n : string) (es : list bedge) : option bedge :=
  find (fun e => (be_src e =? v)%nat && String.eqb (fst (ports_of ps (be_handle e))) n) es.

(** [readSDF3OutputSpec], [readSDF3InputSpec], 122-134. *)
Definition read_output_spec (h : nat) (rates : string) : M unit :=
  let! r := lift (string_rates rates) in
  let! _ := check (0 <? length (snd r))%nat in
  let! _ := set_edge_out_init h (fst r) in
  set_edge_out h (snd r).
Definition read_input_spec (h : nat) (rates : string) : M unit :=
  let! r := lift (string_rates rates) in
  let! _ := check (0 <? length (snd r))%nat in
  let! _ := set_edge_in_init h (fst r) in
  set_edge_in h (snd r).

(** [readSDF3VertexPorts], 136-192. *)
Definition read_port (ps : port_names) (v : nat) (x : xml) : M unit :=
  let type := last_attr "" "type" (attrs x) in
  let name := last_attr "" "name" (attrs x) in
  let rate := last_attr "" "rate" (attrs x) in
  let! s := get in
  if String.eqb type "in" then
    match input_by_port ps v name (s_es s) with Some e => read_output_spec (be_handle e) rate | None => ret tt end
  else if String.eqb type "out" then
    match output_by_port ps v name (s_es s) with Some e => read_input_spec (be_handle e) rate | None => ret tt end
  else fail.
Definition read_ports (ps : port_names) (x : xml) : M unit :=
  let name := last_attr "" "name" (attrs x) in
  let! _ := check (negb (String.eqb name "")) in
  let! v := vertex_named name in
  each (read_port ps v) (named "port" (kids x)).

(** [wrapSDF3Dataflow], 411-615. *)
Fixpoint last_of (f : xml -> bool) (l : list xml) (d : option xml) : option xml :=
  match l with [] => d | x :: l' => last_of f l' (if f x then Some x else d) end.
Definition either (a b : string) (x : xml) : bool := String.eqb (tag x) a || String.eqb (tag x) b.
Definition read_sdf3 (doc : xml) : M unit :=
  let! _ := check (String.eqb (tag doc) "sdf3") in
  match last_of (fun x => String.eqb (tag x) "applicationGraph") (kids doc) None with
  | None => fail
  | Some ag =>
    match last_of (either "csdf" "sdf") (kids ag) None, last_of (either "csdfProperties" "sdfProperties") (kids ag) None with
    | Some g, Some p =>
      let csdf := kids g in
      let! _ := each read_actor (named "actor" csdf) in
      let! ps := read_channels csdf [] (named "channel" csdf) in
      let! _ := each read_timings (named "actorProperties" (kids p)) in
      each (read_ports ps) (named "actor" csdf)
    | _, _ => fail
    end
  end.

(** * Writing *)

(** [std::stringstream << long]: decimal digits, most significant first. *)
Definition digit (n : Z) : ascii := ascii_of_nat (48 + Z.to_nat n).
Fixpoint show_digits (fuel : nat) (n : Z) (acc : chars) : chars :=
  match fuel with
  | O => acc
  | S fuel' => if n <? 10 then digit n :: acc else show_digits fuel' (n / 10) (digit (n mod 10) :: acc)
  end.
Definition show_nonneg (n : Z) : chars := show_digits (S (Z.to_nat (Z.log2 n))) n [].
Definition show_int (n : Z) : chars := if n <? 0 then "-"%char :: show_nonneg (- n) else show_nonneg n.

(** [vectorAsStr], 30-40. *)
Fixpoint join (l : list chars) : chars :=
  match l with [] => [] | [x] => x | x :: l' => x ++ c_comma :: join l' end.
Definition str (c : chars) : string := string_of_list_ascii c.

(** [vectorAsStr] on times, 42-57: a whole number is cast to unsigned long, which is undefined
    outside its range. *)
Definition show_time (v : Q) : outcome chars :=
  if Qnum v mod QDen v =? 0
  then let n := Qnum v / QDen v in if (0 <=? n) && (n <? 2 ^ 64) then Ok (show_nonneg n) else Undefined
  else Ok (show_real v).
Fixpoint show_times (l : list Q) : outcome (list chars) :=
  match l with [] => Ok [] | x :: l' => do a <- show_time x; do b <- show_times l'; Ok (a :: b) end.

(** Initial part, separator, periodic part: 685-686, 782-785, 798-801, 840-843. *)
Definition with_init (i p : list chars) : string :=
  str (if (length i =? 0)%nat then join p else join i ++ c_semi :: join p).
Definition rates_text (i p : list Z) : string := with_init (map show_int i) (map show_int p).

Definition in_port (e : bedge) : string := ("in_" ++ str (show_int (be_id e)))%string.
Definition out_port (e : bedge) : string := ("out_" ++ str (show_int (be_id e)))%string.
Definition port (name type rate : string) : xml :=
  Elem "port" [("name", name); ("type", type); ("rate", rate)]%string [].

(** [writeLoopbackPorts], 680-700. *)
Definition loop_ports (b : bvertex) : list xml :=
  let r := rates_text (repeat 1 (bv_init_phases b)) (repeat 1 (bv_phases b)) in
  if bv_reentrancy b =? 0 then []
  else [port ("in_R" ++ bv_name b) "out" r; port ("out_R" ++ bv_name b) "in" r].

(** Tasks, 765-810; boost lists the channels of a task in the order they were added. *)
Definition write_actor (es : list bedge) (v : nat) (b : bvertex) : xml :=
  Elem "actor" [("name", bv_name b)]%string
    (map (fun e => port (out_port e) "in" (rates_text (be_out_init e) (be_out e))) (filter (fun e => be_dst e =? v)%nat es) ++
     map (fun e => port (in_port e) "out" (rates_text (be_in_init e) (be_in e))) (filter (fun e => be_src e =? v)%nat es) ++
     loop_ports b).

(** [writeChannel], 702-723. *)
Definition name_of (vs : list bvertex) (v : nat) : string := match nth_error vs v with Some b => bv_name b | None => ""%string end.
Definition write_channel (vs : list bvertex) (e : bedge) : xml :=
  Elem "channel" ([("name", be_name e); ("srcActor", name_of vs (be_src e)); ("srcPort", in_port e);
                   ("dstActor", name_of vs (be_dst e)); ("dstPort", out_port e); ("size", str (show_int (be_tokensize e)))]%string ++
                  (if be_preload e =? 0 then [] else [("initialTokens"%string, str (show_int (be_preload e)))])) [].
(** [writeLoopbackChannel], 655-677. *)
Definition loop_channel (b : bvertex) : list xml :=
  if bv_reentrancy b =? 0 then []
  else [Elem "channel" [("name", "R" ++ bv_name b); ("srcActor", bv_name b); ("srcPort", "in_R" ++ bv_name b);
                        ("dstActor", bv_name b); ("dstPort", "out_R" ++ bv_name b); ("size", "1"); ("initialTokens", "1")]%string []].

(** Times, 827-851; getVertexPhaseDuration asserts that there are some (Dataflow.h 858). *)
Definition write_properties (b : bvertex) : outcome xml :=
  do _ <- cassert (0 <? length (bv_durations b))%nat;
  do p <- show_times (bv_durations b);
  do i <- show_times (bv_init_durations b);
  Ok (Elem "actorProperties" [("actor", bv_name b)]%string
        [Elem "processor" [("type", "cluster_0"); ("default", "true")]%string
           [Elem "executionTime" [("time", with_init i p)]%string []]]).
Fixpoint write_all_properties (l : list bvertex) : outcome (list xml) :=
  match l with [] => Ok [] | b :: l' => do x <- write_properties b; do xs <- write_all_properties l'; Ok (x :: xs) end.

Fixpoint mapi {A B} (f : nat -> A -> B) (k : nat) (l : list A) : list B :=
  match l with [] => [] | x :: l' => f k x :: mapi f (S k) l' end.

(** [generateSDF3XML], 726-871. *)
Definition write_sdf3 (s : state) : outcome xml :=
  do props <- write_all_properties (s_vs s);
  Ok (Elem "sdf3" [("version", "1.0"); ("type", "csdf")]%string
        [Elem "applicationGraph" []
           [Elem "csdf" [] (mapi (write_actor (s_es s)) 0 (s_vs s) ++ map (write_channel (s_vs s)) (s_es s) ++ flat_map loop_channel (s_vs s));
            Elem "csdfProperties" []
              (props ++ map (fun e => Elem "channelProperties" [("channel", be_name e)]%string []) (s_es s))]]).
End Numbers.
