(** Model of algorithms/normalization.cpp.  TOKEN_FRACT values are rationals ([Q]): the
    arithmetic and comparisons of the class Fraction are exact (C01, C02).  Machine overflow
    is not modelled; printing is left out. *)
From Coq Require Import QArith Qreduction.
From Verif Require Import Base Graph RepVec.
Open Scope Z_scope.

(** ForEachEdge, models/Dataflow.h 211-217, with the position of each channel, which stands
    for the Edge handle used as a map key. *)
Definition listed (g : graph) : list (nat * edge) := combine (seq 0 (length (edges g))) (edges g).

(** ForConnectedEdges, models/Dataflow.h 238-245. *)
Definition connected_edges (g : graph) (t : nat) : list (nat * edge) :=
  filter (fun kc => connected t (snd kc)) (listed g).

(** [std::map<Edge,TOKEN_FRACT> alphas], normalization.cpp 236. *)
Definition alphas := nat -> option Q.
Definition no_alpha : alphas := fun _ => None.
Definition set_alpha (al : alphas) (k : nat) (q : Q) : alphas :=
  fun k' => if (k' =? k)%nat then Some q else al k'.

(** [V], normalization.cpp 290 and 325: the side of the channel the task is on. *)
Definition side (t : nat) (c : edge) : Z := if (e_src c =? t)%nat then edge_in_total c else edge_out_total c.

(** ZI_REF, normalization.cpp 280-310.  [None] is [return NULL] (304). *)
Fixpoint reference (al : alphas) (t : nat) (es : list (nat * edge)) (ref : Q) : option Q :=
  match es with
  | [] => Some ref
  | (k, c) :: es' =>
    match al k with
    | Some a =>
      let cur := (a * inject_Z (side t c))%Q in                                (* 292 *)
      let ref' := if Qeq_bool ref 0 then cur else ref in                       (* 295 *)
      if Qeq_bool ref' cur then reference al t es' ref' else None              (* 302-305 *)
    | None => reference al t es' ref
    end
  end.

(** Propagation of ZI_REF, normalization.cpp 316-331; Fraction division by zero asserts. *)
Fixpoint propagate (t : nat) (ref : Q) (es : list (nat * edge)) (al : alphas) : outcome alphas :=
  match es with
  | [] => Ok al
  | (k, c) :: es' =>
    match al k with
    | None => do _ <- cassert (negb (side t c =? 0));
              propagate t ref es' (set_alpha al k (ref / inject_Z (side t c)))
    | Some _ => propagate t ref es' al
    end
  end.

(** Fraction::denominator, commons/commons.h 48: fractions are kept in lowest terms. *)
Definition lowest_den (q : Q) : Z := Zpos (Qden (Qred q)).

(** Multiplication of every coefficient, normalization.cpp 345. *)
Definition scale_all (al : alphas) (K : Z) : alphas := fun k => option_map (fun q => (q * inject_Z K)%Q) (al k).

(** The k multiplication, normalization.cpp 335-352.  [n % d != 0] on a fraction in lowest
    terms means that [d] is not 1.  The inner [None] is [return NULL] (349). *)
Fixpoint integerise (es : list (nat * edge)) (al : alphas) (ref : Q) : outcome (option (alphas * Q)) :=
  match es with
  | [] => Ok (Some (al, ref))
  | (k, c) :: es' =>
    do fine <- fine_gcd c;                                                     (* 336 *)
    let fineW := (match al k with Some q => q | None => 0 end * inject_Z fine)%Q in  (* 338 *)
    if negb (lowest_den fineW =? 1) then                                       (* 341 *)
      let K := lowest_den fineW in                                             (* 344 *)
      let ref' := (ref * inject_Z K)%Q in                                      (* 348 *)
      if Qle_bool ref' 0 then Ok None                                          (* 349 *)
      else integerise es' (scale_all al K) ref'
    else integerise es' al ref
  end.

(** [total_a_voir] and [prochains_a_voir], normalization.cpp 239-240, as sets of tasks. *)
Definition tset := nat -> bool.
Definition tadd (s : tset) (t : nat) : tset := fun x => if (x =? t)%nat then true else s x.
Definition tdel (s : tset) (t : nat) : tset := fun x => if (x =? t)%nat then false else s x.

(** New tasks to see, normalization.cpp 370-377: (unseen, to see). *)
Fixpoint neighbours (es : list (nat * edge)) (unseen next : tset) : tset * tset :=
  match es with
  | [] => (unseen, next)
  | (_, c) :: es' =>
    let next1 := if unseen (e_src c) then tadd next (e_src c) else next in
    let next2 := if unseen (e_dst c) then tadd next1 (e_dst c) else next1 in
    neighbours es' (tdel (tdel unseen (e_src c)) (e_dst c)) next2
  end.

(** The first coefficient of a part of the graph, normalization.cpp 253 and 389.  With both
    totals zero the fraction 1/0 is built and its product with 0 divides by zero (292). *)
Definition first_alpha (c : edge) : outcome Q :=
  let d := Z.gcd (edge_in_total c) (edge_out_total c) in
  if d =? 0 then Undefined else Ok (1 / inject_Z d)%Q.

Definition tasks (g : graph) : list nat := seq 0 (length (vertices g)).
Definition is_empty (g : graph) (s : tset) : bool := negb (existsb s (tasks g)).

(** The while loop, normalization.cpp 269-401. *)
Fixpoint spread (fuel : nat) (g : graph) (al : alphas) (unseen next : tset) : outcome (option alphas) :=
  match find next (tasks g) with                                               (* 269, 272 *)
  | None => Ok (Some al)
  | Some t =>
    match fuel with
    | O => Timeout
    | S f =>
      let next0 := tdel next t in                                              (* 273 *)
      let es := connected_edges g t in
      match reference al t es 0 with
      | None => Ok None
      | Some ref =>
        do al1 <- propagate t ref es al;
        do r <- integerise es al1 ref;
        match r with
        | None => Ok None
        | Some (al2, _) =>
          let (unseen1, next1) := neighbours es unseen next0 in
          if is_empty g next1 && negb (is_empty g unseen1) then                (* 381 *)
            match find (fun kc => unseen1 (e_src (snd kc)) && unseen1 (e_dst (snd kc))) (listed g) with
            | Some (k, c) =>                                                   (* 382-398 *)
              do q <- first_alpha c;
              spread f g (set_alpha al2 k q) (tdel (tdel unseen1 (e_src c)) (e_dst c)) (tadd (tadd next1 (e_src c)) (e_dst c))
            | None => spread f g al2 unseen1 next1
            end
          else spread f g al2 unseen1 next1
        end
      end
    end
  end.

(** [res], normalization.cpp 407: the weights; [insert] keeps the first one (433-434). *)
Definition weights := nat -> option Z.
Definition insert_weight (z : weights) (t : nat) (x : Z) : weights :=
  fun t' => if (t' =? t)%nat then match z t with Some y => Some y | None => Some x end else z t'.
Definition is_integer (q : Q) : bool := lowest_den q =? 1.
Definition as_integer (q : Q) : Z := Qnum (Qred q).

(** The loop over channels, normalization.cpp 409-435. *)
Fixpoint collect (es : list (nat * edge)) (al : alphas) (z : weights) : outcome (option weights) :=
  match es with
  | [] => Ok (Some z)
  | (k, c) :: es' =>
    let a := match al k with Some q => q | None => 0%Q end in                  (* 416 *)
    do _ <- cassert (0 <? edge_in_total c);                                    (* 417 *)
    do _ <- cassert (0 <? edge_out_total c);                                   (* 418 *)
    if Qle_bool a 0 then Ok None                                               (* 419 *)
    else
      let zi := (a * inject_Z (edge_in_total c))%Q in                          (* 421 *)
      let zj := (a * inject_Z (edge_out_total c))%Q in                         (* 422 *)
      do _ <- cassert (is_integer zi);                                         (* 425 *)
      do _ <- cassert (is_integer zj);                                         (* 426 *)
      if (as_integer zi <=? 0) || (as_integer zj <=? 0) then Ok None           (* 427-428 *)
      else collect es' al (insert_weight (insert_weight z (e_src c) (as_integer zi)) (e_dst c) (as_integer zj))
  end.

(** [rationalNormalize], normalization.cpp 224-442.  [None] is the null pointer. *)
Definition rational_normalize (fuel : nat) (g : graph) : outcome (option weights) :=
  match listed g with
  | [] => Ok (Some (fun t => if (t <? length (vertices g))%nat then Some 1 else None))   (* 225-232 *)
  | (k, c) :: _ =>
    do q <- first_alpha c;                                                     (* 248-253 *)
    let all : tset := fun t => (t <? length (vertices g))%nat in               (* 241-243 *)
    do r <- spread fuel g (set_alpha no_alpha k q) (tdel (tdel all (e_src c)) (e_dst c))
                   (tadd (tadd (fun _ => false) (e_src c)) (e_dst c));         (* 256-259 *)
    match r with
    | None => Ok None
    | Some al =>
      do z <- collect (listed g) al (fun _ => None);
      match z with
      | None => Ok None
      | Some z =>
        do _ <- cassert (forallb (fun t => match z t with Some _ => true | None => false end) (tasks g));  (* 438 *)
        Ok (Some z)
      end
    end
  end.

(** The test of one value, normalization.cpp 31-72, 76-120 and 124-167: both fractions are
    integers, equal, and equal to the truncated integer quotients. *)
Definition value_ok (old zi ui zj uj : Z) : bool :=
  let ri := (inject_Z old * (inject_Z zi / inject_Z ui))%Q in
  let rj := (inject_Z old * (inject_Z zj / inject_Z uj))%Q in
  let ni := Z.quot (old * zi) ui in
  let nj := Z.quot (old * zj) uj in
  is_integer ri && is_integer rj && Qeq_bool ri (inject_Z ni) && Qeq_bool rj (inject_Z nj) && (ni =? nj) &&
  (as_integer ri =? as_integer rj).

(** The rates of phases 1 to n, normalization.cpp 74-76 and 121-122; [at] throws. *)
Fixpoint rates_ok (get : Z -> outcome Z) (zi ui zj uj : Z) (n : nat) (phase : Z) : outcome bool :=
  match n with
  | O => Ok true
  | S n' => do old <- get phase;
            if value_ok old zi ui zj uj then rates_ok get zi ui zj uj n' (phase + 1) else Ok false
  end.

(** One channel of [check_validity], normalization.cpp 19-169.  The gcd is 0 only when all
    rates are, where [floor] divides by zero (33). *)
Definition channel_ok (g : graph) (z : weights) (c : edge) : outcome bool :=
  match z (e_src c), z (e_dst c), nth_error (vertices g) (e_src c), nth_error (vertices g) (e_dst c) with
  | Some zi, Some zj, Some vi, Some vj =>
    let ui := edge_in_total c in
    let uj := edge_out_total c in
    do fine <- fine_gcd c;                                                     (* 32 *)
    if (fine =? 0) || (ui =? 0) || (uj =? 0) then Undefined
    else if negb (value_ok (e_preload c / fine * fine) zi ui zj uj) then Ok false   (* 33-71 *)
    else
      do a <- rates_ok (edge_in_phase c) zi ui zj uj (v_phases vi) 1;          (* 74-120 *)
      if negb a then Ok false
      else rates_ok (edge_out_phase c) zi ui zj uj (v_phases vj) 1             (* 121-167 *)
  | _, _, _, _ => Rejected                                                     (* 25-26 *)
  end.

(** [check_validity], normalization.cpp 15-174, on weights that are present (17 otherwise). *)
Fixpoint check_validity (g : graph) (z : weights) (es : list (nat * edge)) : outcome bool :=
  match es with
  | [] => Ok true
  | (_, c) :: es' => do b <- channel_ok g z c; if b then check_validity g z es' else Ok false
  end.

(** One channel of [setNormalization], normalization.cpp 192-215. *)
Fixpoint set_coefficients (z : weights) (es : list (nat * edge)) (al : alphas) : outcome alphas :=
  match es with
  | [] => Ok al
  | (k, c) :: es' =>
    match z (e_src c), z (e_dst c) with
    | Some zi, Some zj =>
      let ui := edge_in_total c in
      let uj := edge_out_total c in
      do _ <- cassert ((0 <? zi) && (0 <? ui) && (0 <? zj) && (0 <? uj));      (* 203-206 *)
      do _ <- cassert (Qeq_bool (inject_Z zi / inject_Z ui) (inject_Z zj / inject_Z uj));  (* 211-214 *)
      set_coefficients z es' (set_alpha al k (inject_Z zi / inject_Z ui))      (* 216 *)
    | _, _ => Rejected                                                         (* 197-198 *)
    end
  end.

(** [setNormalization], normalization.cpp 179-222: the stored Zi and alpha.  [None] is
    [return false] (187). *)
Fixpoint set_normalization (g : graph) (z : weights) (ts : list nat) (zs : list Z) (al : alphas)
  : outcome (option (list Z * alphas)) :=
  match ts with
  | [] => Ok (Some (zs, al))
  | t :: ts' =>
    match z t with
    | None => Ok None
    | Some x =>
      do _ <- cassert (0 <? x);                                                (* 189 *)
      do al' <- set_coefficients z (connected_edges g t) al;
      set_normalization g z ts' (zs ++ [x]) al'
    end
  end.

(** [normalize], normalization.cpp 441-471, on a graph that is not marked as normalised
    (443 returns true at once otherwise): the weight of each task and the coefficient of
    each channel, or [None] when it returns false.  The marks set at 445 and 468 belong to
    the builder model. *)
Definition normalize (fuel : nat) (g : graph) : outcome (option (list Z * alphas)) :=
  do r <- rational_normalize fuel g;
  match r with
  | None => Ok None                                                            (* 17, 452 *)
  | Some z =>
    do v <- check_validity g z (listed g);
    if v then set_normalization g z (tasks g) [] no_alpha else Ok None
  end.
