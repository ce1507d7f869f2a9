(** Model of kiter/main.cpp and commons/KiterRegistry.h: the command line.  getopt is the
    list of options it returns in turn (-1 at its end); -v and the messages are left out.
    Graphs are of any type; the reader of XML files (modelled in Sdf3.v), the generators and
    the algorithms are any functions: a reader or generator may return the null pointer, and
    an algorithm, which changes the graph in place, may also end the program ([None]). *)
From Coq Require Import Ascii String.
From Verif Require Import Base.
Open Scope list_scope.

(** getopt with "f:g:a:v:p:h", main.cpp 60; any other answer ('?') changes nothing. *)
Inductive opt :=
| OptF (file : string) | OptG (name : string) | OptA (name : string)
| OptV (level : string) | OptP (arg : string) | OptH | OptOther.

(** [parameters_list_t], KiterRegistry.h 15. *)
Definition params := string -> option string.
Definition no_params : params := fun _ => None.
(** [map\[key\] = value]. *)
Definition set_param (m : params) (k v : string) : params := fun x => if String.eqb x k then Some v else m x.
(** [map.insert(first, last)]: keys already present are kept. *)
Definition insert_params (m more : params) : params := fun x => match m x with Some v => Some v | None => more x end.

(** [arg.find('=')] and the two [substr], main.cpp 79-80. *)
Fixpoint split_equal (s : string) : option (string * string) :=
  match s with
  | EmptyString => None
  | String c s' => if Ascii.eqb c "="%char then Some (EmptyString, s')
                   else match split_equal s' with Some (k, v) => Some (String c k, v) | None => None end
  end.

(** The variables of main, main.cpp 52-55. *)
Record cmd := mkCmd { c_file : string; c_algos : list (string * params); c_gens : list (string * params); c_params : params }.
Definition cmd0 : cmd := mkCmd EmptyString [] [] no_params.

(** One option, main.cpp 61-83. *)
Definition take (c : cmd) (o : opt) : cmd :=
  match o with
  | OptF f => mkCmd f (c_algos c) (c_gens c) (c_params c)
  | OptA n => mkCmd (c_file c) (c_algos c ++ [(n, c_params c)]) (c_gens c) no_params
  | OptG n => mkCmd (c_file c) (c_algos c) (c_gens c ++ [(n, c_params c)]) no_params
  | OptP arg => match split_equal arg with
                | Some (k, v) => mkCmd (c_file c) (c_algos c) (c_gens c) (set_param (c_params c) k v)
                | None => c
                end
  | _ => c
  end.

(** The loop over the options, main.cpp 60-92; [None] is the exit of -h (90). *)
Fixpoint parse (c : cmd) (os : list opt) : option cmd :=
  match os with
  | [] => Some c
  | OptH :: _ => None
  | o :: os' => parse (take c o) os'
  end.

(** [KiterRegistry::add] and [get], KiterRegistry.h 45-56. *)
Definition registry (T : Type) := list (string * T).
Fixpoint reg_get {T} (r : registry T) (n : string) : option T :=
  match r with [] => None | (n', t) :: r' => if String.eqb n' n then Some t else reg_get r' n end.
Definition reg_add {T} (r : registry T) (n : string) (t : T) : registry T * bool :=
  match reg_get r n with Some _ => (r, false) | None => (r ++ [(n, t)], true) end.

Section Main.
Context {G : Type}.
Variables (read : string -> option G) (gens : registry (params -> option G)) (algs : registry (params -> G -> option G)).

(** What main does and how it ends. *)
Inductive effect := Read (file : string) | Generated (name : string) (p : params) | Ran (name : string) (p : params) (g : G).
Inductive ending := Exit (code : Z) | Stopped.

(** The loop over the generators, main.cpp 120-137: the graph of the last one; the flag is
    an unknown generator. *)
Fixpoint generate (gs : list (string * params)) (csdf : option G) : list effect * option G * bool :=
  match gs with
  | [] => ([], csdf, true)
  | (n, p) :: gs' =>
    match reg_get gens n with
    | None => ([], csdf, false)
    | Some f => let '(es, g, ok) := generate gs' (f p) in (Generated n p :: es, g, ok)
    end
  end.

(** The loop over the algorithms, main.cpp 156-171. *)
Fixpoint apply_all (trailing : params) (as_ : list (string * params)) (g : G) : list effect * ending :=
  match as_ with
  | [] => ([], Exit 0)
  | (n, own) :: as_' =>
    match reg_get algs n with
    | None => ([], Exit 1)
    | Some f =>
      let p := insert_params own trailing in                                   (* 166 *)
      match f p g with
      | None => ([Ran n p g], Stopped)
      | Some g' => let '(es, e) := apply_all trailing as_' g' in (Ran n p g :: es, e)
      end
    end
  end.

(** main, main.cpp 48-177. *)
Definition main (os : list opt) : list effect * ending :=
  match parse cmd0 os with
  | None => ([], Exit 0)
  | Some c =>
    let from_file := if String.eqb (c_file c) EmptyString then ([], None) else ([Read (c_file c)], read (c_file c)) in  (* 107-110 *)
    let '(es, csdf, ok) := match snd from_file with
                           | Some g => ([], Some g, true)
                           | None => generate (c_gens c) None
                           end in
    if ok then
      match csdf with
      | None => (fst from_file ++ es, Exit 1)                                  (* 140-144 *)
      | Some g => let '(rs, e) := apply_all (c_params c) (c_algos c) g in (fst from_file ++ es ++ rs, e)
      end
    else (fst from_file ++ es, Exit 1)                                         (* 131-133 *)
  end.
End Main.
