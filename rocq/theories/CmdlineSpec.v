(** Vocabulary of the command line properties. *)
From Coq Require Import Ascii String.
From Verif Require Import Base Cmdline.
Open Scope list_scope.

(** [arg] gives [v] to [key]: the key is what comes before the first equal sign. *)
Fixpoint no_equal (s : string) : Prop := match s with EmptyString => True | String c s' => c <> "="%char /\ no_equal s' end.
Definition assigns (arg key v : string) : Prop := arg = (key ++ "=" ++ v)%string /\ no_equal key.

(** [key] gets [v] from the -p options of [os]: the last one naming it counts. *)
Definition gives (os : list opt) (key v : string) : Prop :=
  exists pre arg post, os = pre ++ OptP arg :: post /\ assigns arg key v /\ forall arg' v', In (OptP arg') post -> ~ assigns arg' key v'.
Definition names (os : list opt) (key : string) : Prop := exists arg v, In (OptP arg) os /\ assigns arg key v.

(** [seg] is what follows the last -a or -g of [os] (all of it if there is none). *)
Definition ends_part (o : opt) : Prop := match o with OptA _ | OptG _ => True | _ => False end.
Definition last_part (os seg : list opt) : Prop :=
  (forall o, In o seg -> ~ ends_part o) /\ (os = seg \/ exists pre o, os = pre ++ o :: seg /\ ends_part o).

(** The algorithms asked for, in order, and the [k]-th of them with what precedes it. *)
Definition asked (os : list opt) : list string := flat_map (fun o => match o with OptA n => [n] | _ => [] end) os.
Definition asked_generators (os : list opt) : list string := flat_map (fun o => match o with OptG n => [n] | _ => [] end) os.

(** The runs of algorithms, in order. *)
Definition runs {G} (es : list (@effect G)) : list (string * params * G) := flat_map (fun e => match e with Ran n p g => [(n, p, g)] | _ => [] end) es.
Definition generations {G} (es : list (@effect G)) : list (string * params) := flat_map (fun e => match e with Generated n p => [(n, p)] | _ => [] end) es.

(** The value of the last -f. *)
Definition last_file (os : list opt) (f : string) : Prop := exists pre post, os = pre ++ OptF f :: post /\ forall f', ~ In (OptF f') post.

(** Each algorithm works on the graph as the previous one left it. *)
Definition handed_over {G} (algs : registry (params -> G -> option G)) (l : list (string * params * G)) : Prop :=
  forall k n p g n' p' g', nth_error l k = Some (n, p, g) -> nth_error l (S k) = Some (n', p', g') ->
    exists f, reg_get algs n = Some f /\ f p g = Some g'.
