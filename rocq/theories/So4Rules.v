(** Model of the slots of the channels: generateConditions, algorithms/throughput/so4_noc.cpp 21-103.
    The file is what is read of it: for a text file the fields of each line, for an XML file the number of
    slots and the rules in order.  Opening and parsing the files is not modelled. *)
From Verif Require Import Base.
Open Scope Z_scope.

(** A channel: identifier, whether it is virtual, its route and the nodes of its tasks. *)
Record link := mkLink { l_id : Z; l_virtual : bool; l_route : list Z; l_from : Z; l_to : Z }.
(** A field of a line, 76-81: one of the words "src", "dest", "slot", a number, or what std::stol rejects. *)
Inductive field := Title | Number (n : Z) | Junk.

(** std::map::insert: an entry that is there stays. *)
Definition insert_new {K V} (eqb : K -> K -> bool) (k : K) (v : V) (m : list (K * V)) : list (K * V) :=
  if existsb (fun x => eqb (fst x) k) m then m else m ++ [(k, v)].
Definition lookup {K V} (eqb : K -> K -> bool) (k : K) (m : list (K * V)) : option V :=
  match find (fun x => eqb (fst x) k) m with Some x => Some (snd x) | None => None end.
Definition pair_eqb (a b : Z * Z) : bool := (fst a =? fst b) && (snd a =? snd b).

(** 73-81. *)
Fixpoint line_values (l : list field) : outcome (list Z) :=
  match l with
  | [] => Ok []
  | Title :: l' => line_values l'
  | Number n :: l' => do r <- line_values l'; Ok (n :: r)
  | Junk :: _ => Rejected
  end.
(** 72-86: vals[2] of a line with fewer than three numbers is outside of the vector. *)
Fixpoint read_lines (size : Z) (lines : list (list field)) (slots : Z) (params : list (Z * Z * Z)) : outcome (Z * list (Z * Z * Z)) :=
  match lines with
  | [] => Ok (slots, params)
  | l :: lines' =>
    do vals <- line_values l;
    match vals with
    | a :: b :: c :: _ => read_lines size lines' (if slots <? c then c else slots) (insert_new pair_eqb (a + size, b + size) c params)
    | _ => Undefined
    end
  end.
(** 88-99. *)
Fixpoint text_conditions (params : list (Z * Z * Z)) (links : list link) (conditions : list (Z * Z)) : list (Z * Z) :=
  match links with
  | [] => conditions
  | e :: links' =>
    let slot := if l_virtual e then -1 else match lookup pair_eqb (l_from e, l_to e) params with Some s => s | None => 0 end in
    text_conditions params links' (insert_new Z.eqb (l_id e) slot conditions)
  end.
Definition from_text (size : Z) (lines : list (list field)) (links : list link) : outcome (list (Z * Z) * Z) :=
  do r <- read_lines size lines 0 [];
  Ok (text_conditions (snd r) links [], fst r + 1).                                                 (* 102 *)

(** 36-54: a rule without "id" or "slot" leaves its variable unset. *)
Fixpoint xml_rules (rules : list (option Z * option Z)) (params : list (Z * Z)) : outcome (list (Z * Z)) :=
  match rules with
  | [] => Ok params
  | (Some eid, Some s) :: rules' => xml_rules rules' (insert_new Z.eqb eid s params)
  | _ => Undefined
  end.
(** 57-62: [0] of an empty route is outside of the vector, operator[] of a missing entry is 0. *)
Fixpoint xml_conditions (params : list (Z * Z)) (links : list link) (conditions : list (Z * Z)) : outcome (list (Z * Z)) :=
  match links with
  | [] => Ok conditions
  | e :: links' =>
    if l_virtual e then xml_conditions params links' (insert_new Z.eqb (l_id e) (-1) conditions)
    else match l_route e with
         | [] => Undefined
         | x :: _ => xml_conditions params links' (insert_new Z.eqb (l_id e) (match lookup Z.eqb x params with Some s => s | None => 0 end) conditions)
         end
  end.
Definition from_xml (declared : Z) (rules : list (option Z * option Z)) (links : list link) : outcome (list (Z * Z) * Z) :=
  do params <- xml_rules rules [];
  do conditions <- xml_conditions params links [];
  Ok (conditions, declared + 1).                                                                    (* 34, 102 *)
