(** Model of algorithms/dse/buffer_sizing.cpp: storage distributions, sets of storage
    distributions, and the frontier and knee updates of the monotonic search.
    Token counts are unbounded integers (TOKEN_UNIT is a 64-bit long in the code: overflow is
    not modelled), throughputs are rationals (long double in the code). *)
From Coq Require Import QArith.
From Verif Require Import Base Graph.
Open Scope Z_scope.

(** std::map<Edge, std::pair<TOKEN_UNIT, TOKEN_UNIT>>, buffer_sizing.h 57-58: an Edge is an
    integer key, the map its list of (edge, (initial tokens, quantity)) in key order. *)
Definition channels := list (Z * (Z * Z)).

(** class StorageDistribution, buffer_sizing.h 18-60. *)
Record sd := mkSD {
  sd_edge_count : Z;
  sd_thr : Q;
  sd_chan : channels;
  sd_size : Z }.

(** operator[] followed by an assignment to the second member: a missing key is inserted with
    zeros first. *)
Fixpoint put_quantity (e q : Z) (l : channels) : channels :=
  match l with
  | [] => [(e, (0, q))]
  | (e', (t, q')) :: l' =>
    if e <? e' then (e, (0, q)) :: l
    else if e =? e' then (e', (t, q)) :: l'
    else (e', (t, q')) :: put_quantity e q l'
  end.
Fixpoint put_tokens (e t : Z) (l : channels) : channels :=
  match l with
  | [] => [(e, (t, 0))]
  | (e', (t', q')) :: l' =>
    if e <? e' then (e, (t, 0)) :: l
    else if e =? e' then (e', (t, q')) :: l'
    else (e', (t', q')) :: put_tokens e t l'
  end.
Fixpoint find_channel (e : Z) (l : channels) : option (Z * Z) :=
  match l with
  | [] => None
  | (e', p) :: l' => if e =? e' then Some p else find_channel e l'
  end.

(** Constructors, buffer_sizing.cpp 14-26. *)
Definition sd_default : sd := mkSD 0 0 [] 0.
Definition sd_make (edge_count : Z) (thr : Q) (ch : channels) (size : Z) : sd := mkSD edge_count thr ch size.

(** setDistributionSize 42-44, setThroughput 47-49. *)
Definition set_size (z : Z) (d : sd) : sd := mkSD (sd_edge_count d) (sd_thr d) (sd_chan d) z.
Definition set_thr (t : Q) (d : sd) : sd := mkSD (sd_edge_count d) t (sd_chan d) (sd_size d).

(** updateDistributionSize 121-130. *)
Definition update_size (d : sd) : sd :=
  let new_sz := fold_left (fun acc c => acc + snd (snd c)) (sd_chan d) 0 in
  if negb (new_sz =? sd_size d) then set_size new_sz d else d.

(** setChannelQuantity 29-33, setInitialTokens 36-39. *)
Definition set_quantity (e q : Z) (d : sd) : sd :=
  update_size (mkSD (sd_edge_count d) (sd_thr d) (put_quantity e q (sd_chan d)) (sd_size d)).
Definition set_tokens (e t : Z) (d : sd) : sd :=
  mkSD (sd_edge_count d) (sd_thr d) (put_tokens e t (sd_chan d)) (sd_size d).

(** getChannelQuantity 52-55, getInitialTokens 58-61: std::map::at throws on a missing key. *)
Definition get_quantity (d : sd) (e : Z) : outcome Z :=
  match find_channel e (sd_chan d) with Some p => Ok (snd p) | None => Rejected end.
Definition get_tokens (d : sd) (e : Z) : outcome Z :=
  match find_channel e (sd_chan d) with Some p => Ok (fst p) | None => Rejected end.

(** getEdges 79-86. *)
Definition get_edges (d : sd) : list Z := map fst (sd_chan d).

(** A loop over the edges that stops with [b] at the first edge where [test] holds. *)
Fixpoint stop_when (test : Z -> outcome bool) (b : bool) (es : list Z) : outcome bool :=
  match es with
  | [] => Ok (negb b)
  | e :: es' => do t <- test e; if t then Ok b else stop_when test b es'
  end.
Definition compare_quantities (r : Z -> Z -> bool) (x y : sd) (e : Z) : outcome bool :=
  do a <- get_quantity x e; do b <- get_quantity y e; Ok (r a b).

(** operator== 89-100, operator!= 102-114. *)
Definition sd_eq (x y : sd) : outcome bool :=
  do _ <- cassert (sd_edge_count x =? sd_edge_count y);
  stop_when (compare_quantities (fun a b => negb (a =? b)) x y) false (get_edges x).
Definition sd_neq (x y : sd) : outcome bool :=
  do _ <- cassert (sd_edge_count x =? sd_edge_count y);
  stop_when (compare_quantities (fun a b => negb (a =? b)) x y) true (get_edges x).

(** inBackConeOf 1016-1023, inForConeOf 1027-1034. *)
Definition in_back_cone_of (x y : sd) : outcome bool :=
  stop_when (compare_quantities (fun a b => a >? b) x y) false (get_edges x).
Definition in_for_cone_of (x y : sd) : outcome bool :=
  stop_when (compare_quantities (fun a b => a <? b) x y) false (get_edges x).

(** makeMinimalSD 928-938. *)
Fixpoint minimal_loop (x y : sd) (es : list Z) (acc : sd) : outcome sd :=
  match es with
  | [] => Ok acc
  | e :: es' =>
    do a <- get_quantity x e;
    do b <- get_quantity y e;
    minimal_loop x y es' (set_quantity e (Z.min a b) acc)
  end.
Definition make_minimal (x y : sd) : outcome sd := minimal_loop x y (get_edges x) x.

(** class StorageDistributionSet, buffer_sizing.h 62-126: std::map<TOKEN_UNIT,
    std::vector<StorageDistribution>> as its list of buckets in key order. *)
Definition buckets := list (Z * list sd).
Record sds := mkSDS { ss_map : buckets; ss_pmax : Z * Q }.
Definition sds_empty : sds := mkSDS [] (0, 0%Q).

Fixpoint find_bucket (k : Z) (m : buckets) : option (list sd) :=
  match m with
  | [] => None
  | (k', l) :: m' => if k =? k' then Some l else find_bucket k m'
  end.
Fixpoint put_bucket (k : Z) (l : list sd) (m : buckets) : buckets :=
  match m with
  | [] => [(k, l)]
  | (k', l') :: m' =>
    if k <? k' then (k, l) :: m
    else if k =? k' then (k, l) :: m'
    else (k', l') :: put_bucket k l m'
  end.
Fixpoint erase_bucket (k : Z) (m : buckets) : buckets :=
  match m with
  | [] => []
  | (k', l') :: m' => if k =? k' then m' else (k', l') :: erase_bucket k m'
  end.
Definition bucket_or_new (k : Z) (m : buckets) : list sd := match find_bucket k m with Some l => l | None => [] end.

(** The two nested loops "for dist_sz in set, for sd in dist_sz.second". *)
Definition flat (s : sds) : list sd := concat (map snd (ss_map s)).

(** addStorageDistribution 261-286. *)
Fixpoint matches_one (d : sd) (l : list sd) : outcome bool :=
  match l with
  | [] => Ok false
  | x :: l' => do b <- sd_eq d x; if b then Ok true else matches_one d l'
  end.
Definition raise_pmax (d : sd) (p : Z * Q) : Z * Q :=
  if negb (Qle_bool (sd_thr d) (snd p)) then (sd_size d, sd_thr d) else p.
Definition add_sd (d : sd) (s : sds) : outcome sds :=
  match find_bucket (sd_size d) (ss_map s) with
  | None => Ok (mkSDS (put_bucket (sd_size d) [d] (ss_map s)) (raise_pmax d (ss_pmax s)))
  | Some l =>
    do found <- matches_one d l;
    if found then Ok s
    else Ok (mkSDS (put_bucket (sd_size d) (l ++ [d]) (ss_map s)) (raise_pmax d (ss_pmax s)))
  end.

(** removeStorageDistribution 289-299, removeDistributionSize 302-304. *)
Fixpoint remove_matching (d : sd) (l : list sd) : outcome (list sd) :=
  match l with
  | [] => Ok []
  | x :: l' =>
    do b <- sd_eq x d;
    do r <- remove_matching d l';
    Ok (if b then r else x :: r)
  end.
Definition remove_sd (d : sd) (s : sds) : outcome sds :=
  do kept <- remove_matching d (bucket_or_new (sd_size d) (ss_map s));
  let m := put_bucket (sd_size d) kept (ss_map s) in
  Ok (mkSDS (match kept with [] => erase_bucket (sd_size d) m | _ => m end) (ss_pmax s)).

(** getNextDistribution 306-308: dereferences begin() of an empty map. *)
Definition get_next (s : sds) : outcome sd :=
  match ss_map s with
  | (_, d :: _) :: _ => Ok d
  | _ => Undefined
  end.

(** getSize 311-317, hasDistribution 375-377, hasStorageDistribution 380-390. *)
Definition set_count (s : sds) : Z := Z.of_nat (length (flat s)).
Definition has_size (k : Z) (s : sds) : bool := match find_bucket k (ss_map s) with Some _ => true | None => false end.
Fixpoint has_loop (d : sd) (l : list sd) (found : bool) : outcome bool :=
  match l with
  | [] => Ok found
  | x :: l' => do b <- sd_eq d x; has_loop d l' (found || b)
  end.
Definition has_sd (d : sd) (s : sds) : outcome bool := has_loop d (flat s) false.

(** minimizeStorageDistributions 332-370.  commons::AreSame is modelled by equality. *)
Fixpoint minimize_loop (new : sd) (l : list sd) (s : sds) : outcome sds :=
  match l with
  | [] => Ok s
  | x :: l' =>
    let lower := negb (Qle_bool (sd_thr x) (sd_thr new)) in
    let higher := negb (Qle_bool (sd_thr new) (sd_thr x)) in
    if ((sd_size new >? sd_size x) && (lower || Qeq_bool (sd_thr new) (sd_thr x)))
       || ((sd_size new >=? sd_size x) && lower)
    then remove_sd new s
    else if (sd_size new =? sd_size x) && higher
    then do s' <- remove_sd x s; minimize_loop new l' s'
    else minimize_loop new l' s
  end.
Definition minimize (new : sd) (s : sds) : outcome sds := minimize_loop new (flat s) s.

(** isSearchComplete 393-411. *)
Definition search_complete (checklist : sds) (target : Q) (s : sds) : bool :=
  (Qeq_bool (snd (ss_pmax s)) target && negb (has_size (fst (ss_pmax s)) checklist)) || (set_count checklist <=? 0).

(** std::map<Edge, TOKEN_UNIT>::operator[]: zero when missing. *)
Definition bounds := list (Z * Z).
Fixpoint bound_of (lb : bounds) (e : Z) : Z :=
  match lb with
  | [] => 0
  | (e', b) :: lb' => if e =? e' then b else bound_of lb' e
  end.

(** isInBackCone 416-446.  [prev] is the value of the uninitialised local isMinimal: [None]
    before its first assignment; reading it then is undefined behaviour. *)
Fixpoint back_cone_edges (d x : sd) (lb : bounds) (es : list Z) (isMinimal : bool) : outcome bool :=
  match es with
  | [] => Ok isMinimal
  | e :: es' =>
    do a <- get_quantity d e;
    do b <- get_quantity x e;
    back_cone_edges d x lb es' (if (a >? b) && (a >? bound_of lb e) then false else isMinimal)
  end.
Fixpoint back_cone_loop (d : sd) (lb : bounds) (l : list sd) (prev : option bool) : outcome bool :=
  match l with
  | [] => Ok false
  | x :: l' =>
    do differs <- sd_neq d x;
    do cur <- (if differs then do b <- back_cone_edges d x lb (get_edges d) true; Ok (Some b) else Ok prev);
    match cur with
    | None => Undefined
    | Some true => Ok true
    | Some false => back_cone_loop d lb l' cur
    end
  end.
Definition is_in_back_cone (d : sd) (lb : bounds) (s : sds) : outcome bool := back_cone_loop d lb (flat s) None.

(** isInForeCone 451-481. *)
Fixpoint fore_cone_edges (d x : sd) (es : list Z) (isMaximal : bool) : outcome bool :=
  match es with
  | [] => Ok isMaximal
  | e :: es' =>
    do a <- get_quantity d e;
    do b <- get_quantity x e;
    fore_cone_edges d x es' (if a <? b then false else isMaximal)
  end.
Fixpoint fore_cone_loop (d : sd) (l : list sd) : outcome bool :=
  match l with
  | [] => Ok false
  | x :: l' =>
    do differs <- sd_neq d x;
    if differs then
      do b <- fore_cone_edges d x (get_edges d) true;
      if b then Ok true else fore_cone_loop d l'
    else fore_cone_loop d l'
  end.
Definition is_in_fore_cone (d : sd) (s : sds) : outcome bool := fore_cone_loop d (flat s).

(** removeNonMaximum 483-494, removeNonMinimum 497-509. *)
Definition remove_non_maximum (d : sd) (lb : bounds) (s : sds) : outcome sds :=
  if set_count s <=? 1 then Ok s
  else do b <- is_in_back_cone d lb s; if b then remove_sd d s else Ok s.
Definition remove_non_minimum (d : sd) (s : sds) : outcome sds :=
  if set_count s <=? 1 then Ok s
  else do b <- is_in_fore_cone d s; if b then remove_sd d s else Ok s.

(** Running an update for each distribution of a list. *)
Fixpoint each (f : sd -> sds -> outcome sds) (l : list sd) (s : sds) : outcome sds :=
  match l with
  | [] => Ok s
  | x :: l' => do s' <- f x s; each f l' s'
  end.

(** updateInfeasibleSet 617-690 and updateFeasibleSet 694-766.  The scan adds the new
    distribution at the first channel where it is strictly larger (smaller) than a stored
    one; [isFound] stops later additions. *)
Fixpoint scan (r : Z -> Z -> bool) (d : sd) (l : list sd) (s : sds) (isFound : bool) : outcome sds :=
  match l with
  | [] => Ok s
  | x :: l' =>
    do hit <- stop_when (fun e => do t <- compare_quantities r d x e; Ok (t && negb isFound)) true (get_edges d);
    if hit then do s' <- add_sd d s; scan r d l' s' true
    else scan r d l' s isFound
  end.
Fixpoint last_key (m : buckets) (dflt : Z) : Z :=
  match m with [] => dflt | (k, _) :: m' => last_key m' k end.
Definition update_infeasible_set (d : sd) (lb : bounds) (s : sds) : outcome sds :=
  if set_count s =? 0 then add_sd d s
  else
    do s1 <- (if sd_size d >=? last_key (ss_map s) 0 then add_sd d s
              else scan (fun a b => a >? b) d (flat s) s false);
    each (fun x => remove_non_maximum x lb) (flat s1) s1.
Definition first_key (m : buckets) : Z := match m with [] => 0 | (k, _) :: _ => k end.
Definition update_feasible_set (d : sd) (s : sds) : outcome sds :=
  if set_count s =? 0 then add_sd d s
  else
    do s1 <- (if sd_size d <=? first_key (ss_map s) then add_sd d s
              else scan (fun a b => a <? b) d (flat s) s false);
    each remove_non_minimum (flat s1) s1.

(** addToUnsat 1037-1055: [None] stands for "return false". *)
Fixpoint unsat_loop (d : sd) (l : list sd) (subsumed : sds) : outcome (option sds) :=
  match l with
  | [] => Ok (Some subsumed)
  | x :: l' =>
    do below <- in_back_cone_of x d;
    do strictly <- (if below then sd_neq x d else Ok false);
    if strictly then do sub' <- add_sd x subsumed; unsat_loop d l' sub'
    else
      do covered <- in_back_cone_of d x;
      if covered then Ok None else unsat_loop d l' subsumed
  end.
Definition add_to_unsat (d : sd) (s : sds) : outcome (bool * sds) :=
  do r <- unsat_loop d (flat s) sds_empty;
  match r with
  | None => Ok (false, s)
  | Some subsumed =>
    do s' <- each remove_sd (flat subsumed) s;
    do s'' <- add_sd d s';
    Ok (true, s'')
  end.

(** addToSat 1057-1074. *)
Fixpoint sat_loop (d : sd) (l : list sd) (subsumed : sds) : outcome (option sds) :=
  match l with
  | [] => Ok (Some subsumed)
  | x :: l' =>
    do covered <- in_for_cone_of d x;
    if covered then Ok None
    else
      do sub <- in_back_cone_of x d;
      if sub then do sub' <- add_sd x subsumed; sat_loop d l' sub'
      else sat_loop d l' subsumed
  end.
Definition add_to_sat (d : sd) (s : sds) : outcome sds :=
  do r <- sat_loop d (flat s) sds_empty;
  match r with
  | None => Ok s
  | Some subsumed =>
    do s' <- each remove_sd (flat subsumed) s;
    add_sd d s'
  end.

(** addToExtensions 1147-1165. *)
Fixpoint extensions_loop (d : sd) (l : list sd) (subsumed : sds) : outcome (option sds) :=
  match l with
  | [] => Ok (Some subsumed)
  | x :: l' =>
    do above <- in_for_cone_of x d;
    if above then do sub' <- add_sd x subsumed; extensions_loop d l' sub'
    else
      do covered <- in_for_cone_of d x;
      if covered then Ok None else extensions_loop d l' subsumed
  end.
Definition add_to_extensions (d : sd) (ext : sds) : outcome sds :=
  do r <- extensions_loop d (flat ext) sds_empty;
  match r with
  | None => Ok ext
  | Some subsumed =>
    do ext' <- each remove_sd (flat subsumed) ext;
    add_sd d ext'
  end.

(** add 1076-1113. *)
Fixpoint subsumed_knees (d : sd) (l : list sd) (subsumed : sds) : outcome sds :=
  match l with
  | [] => Ok subsumed
  | k :: l' =>
    do b <- in_back_cone_of k d;
    do sub' <- (if b then add_sd k subsumed else Ok subsumed);
    subsumed_knees d l' sub'
  end.
Fixpoint extend_edges (d k : sd) (es : list Z) (ext : sds) : outcome sds :=
  match es with
  | [] => Ok ext
  | e :: es' =>
    do q <- get_quantity d e;
    do ext' <- add_to_extensions (set_quantity e q k) ext;
    extend_edges d k es' ext'
  end.
Definition add_point (d : sd) (unsat knees : sds) : outcome (sds * sds) :=
  do r <- add_to_unsat d unsat;
  if fst r then
    do subsumed <- subsumed_knees d (flat knees) sds_empty;
    do knees1 <- each remove_sd (flat subsumed) knees;
    do ext <- each (fun k ext => extend_edges d k (get_edges k) ext) (flat subsumed) sds_empty;
    do knees2 <- each add_sd (flat ext) knees1;
    Ok (snd r, knees2)
  else Ok (snd r, knees).

(** addCut 1115-1145: [buffers] are the edges of the graph the loop treats (all of them, or
    those with an identifier above half the edge count), [critical] the critical edges. *)
Definition int_max : Z := 2147483647.
Definition raise_non_critical (critical : list Z) (buffers : list Z) (d : sd) : sd :=
  fold_left (fun acc e => if existsb (Z.eqb e) critical then acc else set_quantity e int_max acc) buffers d.
Definition add_cut (buffers critical : list Z) (d : sd) (unsat knees : sds) : outcome (sds * sds) :=
  match critical with
  | [] => Ok (unsat, knees)
  | _ =>
    if existsb (fun e => negb (existsb (Z.eqb e) critical)) buffers
    then add_point (raise_non_critical critical buffers d) unsat knees
    else Ok (unsat, knees)
  end.

(** satContains 1189-1198, unsatContains 1200-1209. *)
Fixpoint contains_loop (test : sd -> outcome bool) (l : list sd) : outcome bool :=
  match l with
  | [] => Ok false
  | x :: l' => do b <- test x; if b then Ok true else contains_loop test l'
  end.
Definition sat_contains (d : sd) (s : sds) : outcome bool := contains_loop (in_for_cone_of d) (flat s).
Definition unsat_contains (d : sd) (s : sds) : outcome bool := contains_loop (in_back_cone_of d) (flat s).

(** findMinimumStepSz 834-848, for one channel.  [operator[]] on an empty vector is undefined. *)
Definition min_step (e : edge) : outcome Z :=
  match e_in e with
  | [] => Undefined
  | r0 :: _ => Ok (fold_left Z.gcd (e_out e) (fold_left Z.gcd (e_in e) r0))
  end.

(** findMinimumChannelSz 852-891, for one channel: (initial tokens, quantity). *)
Definition channel_bound (p c t : Z) : Z :=
  let g := Z.gcd p c in
  let lower := if negb (g =? 0) then p + c - g + Z.rem t g else p + c - g in
  if lower >? t then lower else t.
Fixpoint channel_loop (ins outs : list Z) (t : Z) (n i : nat) (best : Z) : outcome Z :=
  match n with
  | O => Ok best
  | S n' =>
    match nth_error ins (i mod length ins), nth_error outs (i mod length outs) with
    | Some p, Some c =>
      let b := channel_bound p c t in
      channel_loop ins outs t n' (S i) (if b <? best then b else best)
    | _, _ => Undefined
    end
  end.
Definition min_channel (e : edge) : outcome (Z * Z) :=
  do q <- channel_loop (e_in e) (e_out e) (e_preload e) (Nat.gcd (length (e_in e)) (length (e_out e))) 0 int_max;
  Ok (e_preload e, q).

(** findMinimumDistributionSz 897-908. *)
Definition min_distribution_size (l : channels) : Z := fold_left (fun acc c => acc + snd (snd c)) l 0.
