(** C129 and C130: the command line. *)
From Coq Require Import Ascii String.
From Verif Require Import Base Cmdline CmdlineSpec CmdlineProofs.
Open Scope list_scope.

(** ** C129: which parameters an algorithm or a generator receives.

    The [k]-th algorithm run is the [k]-th one asked for.  It receives the parameters given
    between it and the -a or -g before it, and, for names not among those, the ones given
    after the last -a or -g of the line; for a name given twice the last value counts. *)
Theorem C129_algorithm_parameters : forall G (read : string -> option G) gens algs os es e k n p g, main read gens algs os = (es, e) -> nth_error (runs es) k = Some (n, p, g) ->
  exists before after seg tail, os = before ++ OptA n :: after /\ List.length (asked before) = k /\ last_part before seg /\ last_part os tail /\
    forall key v, p key = Some v <-> gives seg key v \/ (~ names seg key /\ gives tail key v).
Proof. intros G read gens algs. exact (parameters read gens algs). Qed.
Print Assumptions C129_algorithm_parameters.

(** The parts meant here are unique. *)
Theorem C129_parts_unique : forall os s s', last_part os s -> last_part os s' -> s = s'.
Proof. exact last_part_unique. Qed.
Print Assumptions C129_parts_unique.

(** A generator receives those between it and the -a or -g before it, and nothing else. *)
Theorem C129_generator_parameters : forall G (read : string -> option G) gens algs os es e k n p, main read gens algs os = (es, e) -> nth_error (generations es) k = Some (n, p) ->
  exists before after seg, os = before ++ OptG n :: after /\ List.length (asked_generators before) = k /\ last_part before seg /\ forall key v, p key = Some v <-> gives seg key v.
Proof. intros G read gens algs. exact (generator_parameters read gens algs). Qed.
Print Assumptions C129_generator_parameters.

(** ** C130: what is run, on which graph, and how the program ends. *)
Theorem C130_help : forall G (read : string -> option G) gens algs os, In OptH os -> main read gens algs os = ([], Exit 0).
Proof. intros. apply main_help. assumption. Qed.
Print Assumptions C130_help.

(** The algorithms run are the ones asked for, in order, up to the first unknown one: all of
    them when the program ends with 0; when it ends with 1 none, or those before an unknown
    name; otherwise one of those run has ended the program itself. *)
Theorem C130_in_order : forall G (read : string -> option G) gens algs os es e, ~ In OptH os -> main read gens algs os = (es, e) ->
  exists rest, asked os = map (fun r => fst (fst r)) (runs es) ++ rest /\
    match e with
    | Exit z => (z = 0%Z /\ rest = []) \/ (z = 1%Z /\ (runs es = [] \/ exists n rest', rest = n :: rest' /\ reg_get algs n = None))
    | Stopped => exists n p h f, In (n, p, h) (runs es) /\ reg_get algs n = Some f /\ f p h = None
    end.
Proof. intros G read gens algs os es e NH H. apply (main_spec read gens algs os es e NH H). Qed.
Print Assumptions C130_in_order.

(** Each works on the graph the previous one left.  The first graph is the one read from the
    file of the last -f, and then no generator runs; without a readable file it is the one of
    the last generator asked for, after all the others have run. *)
Theorem C130_graphs : forall G (read : string -> option G) gens algs os es e, ~ In OptH os -> main read gens algs os = (es, e) ->
  handed_over algs (runs es) /\
  forall n p g rs, runs es = (n, p, g) :: rs ->
    (exists f, last_file os f /\ f <> EmptyString /\ read f = Some g /\ generations es = []) \/
    ((forall f, last_file os f -> f = EmptyString \/ read f = None) /\ asked_generators os = map fst (generations es) /\
     exists pre m q f, generations es = pre ++ [(m, q)] /\ reg_get gens m = Some f /\ f q = Some g).
Proof.
  intros G read gens algs os es e NH H. destruct (main_spec read gens algs os es e NH H) as (_ & _ & _ & D).
  assert (LF : forall f f', last_file os f -> last_file os f' -> f = f').
  { clear. intros f f' (p & q & E & N) (p' & q' & E' & N'). subst os. revert p' E'. induction p as [|x p IH]; intros p' E'; destruct p' as [|x' p']; cbn in E'; injection E'.
    - congruence. - intros -> <-. exfalso. eapply N. apply in_elt. - intros <- ->. exfalso. eapply N'. apply in_elt. - intros E _. eapply IH, E. }
  destruct D as [E|(g & C & D)]; [rewrite E; split; [intros [|k] ? ? ? ? ? ? X; discriminate|discriminate]|]. split.
  - clear D. revert g C. induction (runs es) as [|[[n p] h] l IH]; intros g C k; [destruct k; discriminate|]. cbn [chained] in C. destruct C as (-> & f & Ef & C).
    intros n1 p1 g1 n2 p2 g2 H1 H2. destruct k as [|k].
    + injection H1 as <- <- <-. destruct l as [|[[a b] c] l]; [discriminate|]. injection H2 as -> -> ->. destruct C as (g' & E & Eq & _). exists f. split; [assumption|]. congruence.
    + destruct l as [|r l]; [destruct k; discriminate|]. destruct C as (g' & _ & C). exact (IH g' C k _ _ _ _ _ _ H1 H2).
  - intros n p g0 rs E. rewrite E in C. cbn [chained] in C. destruct C as (-> & _). destruct (gathered_lists os) as (_ & GL & _). destruct D as [(D1 & D2 & D3)|(D1 & D2 & D3)].
    + left. exists (c_file (gathered os)). destruct (gathered_file os) as [[X _]|X]; [congruence|]. auto.
    + right. split; [|split].
      * intros f Lf. destruct (gathered_file os) as [[_ X]|X]; [destruct Lf as (pre & post & -> & _); exfalso; eapply X; apply in_elt|]. rewrite (LF _ _ Lf X). assumption.
      * rewrite <- GL, D2. reflexivity.
      * rewrite <- D2. exact D3.
Qed.
Print Assumptions C130_graphs.

(** The function found under a name is the first one registered with it. *)
Theorem C130_registry : forall T (l : list (string * T)) n t,
  reg_get (fold_left (fun r nt => fst (reg_add r (fst nt) (snd nt))) l []) n = Some t <-> exists pre post, l = pre ++ (n, t) :: post /\ forall t', ~ In (n, t') pre.
Proof. intros T. exact registry_first. Qed.
Print Assumptions C130_registry.

(** * What fails *)
(** Two generators, or a file and a generator, are announced as unsupported, but the program
    goes on and ends with 0; the name of a generator is not even checked when there is a file. *)
Theorem C130_unsupported_refuted : exists (read : string -> option nat) gens algs os os' es es',
  asked_generators os = ["A"; "B"]%string /\ main read gens algs os = (es, Exit 0) /\ map fst (generations es) = ["A"; "B"]%string /\
  (exists f, last_file os' f /\ read f = Some 7%nat) /\ asked_generators os' = ["nothing"]%string /\ reg_get gens "nothing"%string = None /\ main read gens algs os' = (es', Exit 0).
Proof.
  exists (fun _ => Some 7%nat), [("A", fun _ => Some 1%nat); ("B", fun _ => Some 2%nat)]%string, [], [OptG "A"; OptG "B"]%string, [OptF "x"; OptG "nothing"]%string. eexists. eexists.
  split; [reflexivity|]. split; [reflexivity|]. split; [reflexivity|]. split; [exists "x"%string; split; [exists [], [OptG "nothing"%string]; split; [reflexivity|intros f [H|[]]; discriminate]|reflexivity]|].
  split; [reflexivity|]. split; reflexivity.
Qed.
Print Assumptions C130_unsupported_refuted.

(** An unknown algorithm is only reported after those before it have run. *)
Theorem C130_unknown_refuted : exists (read : string -> option nat) gens algs os es, In "typo"%string (asked os) /\ reg_get algs "typo"%string = None /\ main read gens algs os = (es, Exit 1) /\ runs es <> [].
Proof.
  exists (fun _ => Some 7%nat), [], [("A", fun _ g => Some (S g))]%string, [OptF "x"; OptA "A"; OptA "typo"]%string. eexists. split; [right; left; reflexivity|]. split; [reflexivity|]. split; [reflexivity|]. discriminate.
Qed.
Print Assumptions C130_unknown_refuted.

(** * Concrete cases *)
Definition ex_line : list opt := [OptP "N=3"; OptG "gen"; OptP "x=1"; OptP "x=a=b"; OptA "one"; OptA "two"; OptP "x=2"; OptP "noise"]%string.
Definition ex_result := main (fun _ => None) [("gen", fun p => match p "N" with Some _ => Some 0%nat | None => None end)]%string
  [("one", fun _ g => Some (g + 10)); ("two", fun _ g => Some (g + 1))]%string%nat ex_line.
Example ex_runs : map (fun r => (fst (fst r), snd (fst r) "x"%string, snd (fst r) "N"%string, snd r)) (runs (fst ex_result)) =
  [("one", Some "a=b", None, 0%nat); ("two", Some "2", None, 10%nat)]%string.
Proof. reflexivity. Qed.
Example ex_ending : snd ex_result = Exit 0 /\ map fst (generations (fst ex_result)) = ["gen"]%string /\ ~ In OptH ex_line.
Proof. split; [reflexivity|]. split; [reflexivity|]. cbn. intuition discriminate. Qed.
Example ex_part : last_part ex_line [OptP "x=2"; OptP "noise"]%string.
Proof. split; [intros o [<-|[<-|[]]]; exact (fun x => x)|]. right. exists (firstn 5 ex_line), (OptA "two"%string). split; [reflexivity|exact I]. Qed.
