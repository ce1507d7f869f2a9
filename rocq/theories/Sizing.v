(** Periodic buffer sizing: algorithms/buffersizing/periodic.cpp and periodic_fixed.cpp.

    The sizes come from a (mixed integer) linear program handed to an external solver; the
    solver is a parameter of the model.  Not modelled: the names of rows and columns (they are
    structured values here, so two different rows or columns never share a name), the text of
    the generated problem file, and the rounding of [double]: numbers are exact. *)
From Coq Require Import QArith Qround.
From Verif Require Import Base Graph Commons KPeriodic.
Open Scope Z_scope.

(** Column names: "s_a_name" (periodic.cpp 87) or "s_name" (periodic_fixed.cpp 782), "loopbackfix",
    "Mop_channel", "Mop_feedback_channel", "Mop_feedback_channel_ai_aj" (periodic.cpp 95-98, 126-128, 182). *)
Inductive var :=
| Start (i : nat) (a : Z)
| LoopFix
| Mop (k : nat)
| Feedback (k : nat)
| Local (k : nat) (ai aj : Z).

(** [bound_s], lp/glpsol.h: FIX_BOUND, LOW_BOUND, no bound. *)
Inductive bound := FixBound (q : Q) | LowBound (q : Q) | NoBound.

(** [addColumn], lp/glpsol.h; [col_int] is KIND_INTEGER. *)
Record column := mkColumn { col_var : var; col_int : bool; col_bound : bound; col_cost : Q }.
(** [addRow] with a LOW_BOUND and its [addCoef]s, lp/glpsol.h. *)
Record row := mkRow { row_coefs : list (var * Q); row_low : Q }.
Record lp := mkLp { columns : list column; rows : list row }.

Definition app_lp (p q : lp) : lp := mkLp (columns p ++ columns q) (rows p ++ rows q).
Fixpoint concat_lp (l : list (outcome lp)) : outcome lp :=
  match l with
  | [] => Ok (mkLp [] [])
  | x :: l' => do h <- x; do t <- concat_lp l'; Ok (app_lp h t)
  end.

(** Quotient of a time by an integer; a zero divisor gives an infinite time, reported as
    undefined. *)
Definition time_over (a : Q) (b : Z) : outcome Q := if b =? 0 then Undefined else Ok (a / inject_Z b)%Q.

(** [mu_i], periodic.cpp 107-108 and periodic_fixed.cpp 803-804. *)
Definition mu (period : Q) (v : vertex) (Ni : Z) : outcome Q :=
  time_over (period * inject_Z (Z.of_nat (v_phases v))) Ni.

(** How the two programs name the start of phase [a] of task [i]: its column, its offset, and
    when the start columns of a row are left out.  periodic.cpp has one column per phase and no
    offset (an offset of 0 here) and leaves them out when [ai == aj && source == target] (169);
    periodic_fixed.cpp has one column per task, [offsets\[t\]\[a-1\]] (837, 850; out of bounds is
    undefined) and leaves them out when [source == target] (869). *)
Record layout := mkLayout {
  l_var : nat -> Z -> var;
  l_offset : nat -> Z -> outcome Q;
  l_skip : nat -> nat -> Z -> Z -> bool }.
Definition free_layout : layout :=
  mkLayout (fun i a => Start i a) (fun _ _ => Ok 0%Q) (fun i j a b => (i =? j)%nat && (a =? b)).
Definition fixed_layout (offs : nat -> list Q) : layout :=
  mkLayout (fun i _ => Start i 0)
    (fun i a => match nth_error (offs i) (Z.to_nat (a - 1)) with Some q => Ok q | None => Undefined end)
    (fun i j _ _ => (i =? j)%nat).

Section Build.
Variables (L : layout) (ilp : bool) (theta : nat -> Z) (g : graph) (N : nat -> Z) (period : Q).

(** The body of the innermost loop for the phases [ai] and [aj]: periodic.cpp 146-222,
    periodic_fixed.cpp 855-915. *)
Definition pair_lp (k : nat) (c : edge) (mui muj : Q) (Zi Zj mop gcdz ai : Z) (ltai offai : Q) (wai cwai cwaim1 : Z)
    (aj : Z) (ltaj offaj : Q) (raj craj crajm1 : Z) : outcome lp :=
  let Ha := Z.max 0 (wai - raj) in
  do alphamin <- ceil_to (Ha + craj - cwai - mop) gcdz;
  do alphamax <- floor_to (craj - cwaim1 - mop - 1) gcdz;
  do wi <- time_over mui Zi;
  do wj <- time_over muj Zj;
  let si := l_var L (e_src c) ai in
  let sj := l_var L (e_dst c) aj in
  let skip := l_skip L (e_src c) (e_dst c) ai aj in
  let normal := if alphamin <=? alphamax
    then [mkRow (if skip then [] else [(sj, 1%Q); (si, (-1)%Q)]) (offai - offaj + ltai + inject_Z alphamax * wi)]
    else [] in
  if Z.min wai raj >? 0 then
    Ok (mkLp [mkColumn (Local k ai aj) ilp NoBound 0]
             (normal ++
              [mkRow ((Local k ai aj, - (wj * inject_Z gcdz))%Q :: (if skip then [] else [(si, 1%Q); (sj, (-1)%Q)])) (ltaj - offai + offaj);
               mkRow [(Local k ai aj, inject_Z gcdz); (Feedback k, 1%Q)] (inject_Z (- crajm1 + cwai - gcdz))]))
  else Ok (mkLp [] normal).

(** The loop over [aj], periodic.cpp 142-226 ([crajm1] is [craj] of the previous turn). *)
Fixpoint inner_lp (k : nat) (c : edge) (vd : vertex) (mui muj : Q) (Zi Zj mop gcdz ai : Z) (ltai offai : Q) (wai cwai cwaim1 : Z)
    (ajs : list Z) (crajm1 : Z) : outcome lp :=
  match ajs with
  | [] => Ok (mkLp [] [])
  | aj :: ajs' =>
    do ltaj <- vertex_duration vd aj;
    do offaj <- l_offset L (e_dst c) aj;
    do raj <- edge_out_phase c aj;
    do h <- pair_lp k c mui muj Zi Zj mop gcdz ai ltai offai wai cwai cwaim1 aj ltaj offaj raj (crajm1 + raj) crajm1;
    do t <- inner_lp k c vd mui muj Zi Zj mop gcdz ai ltai offai wai cwai cwaim1 ajs' (crajm1 + raj);
    Ok (app_lp h t)
  end.

(** The loop over [ai], periodic.cpp 135-230. *)
Fixpoint outer_lp (k : nat) (c : edge) (vs vd : vertex) (mui muj : Q) (Zi Zj mop gcdz : Z) (ais : list Z) (cwaim1 : Z) : outcome lp :=
  match ais with
  | [] => Ok (mkLp [] [])
  | ai :: ais' =>
    do ltai <- vertex_duration vs ai;
    do offai <- l_offset L (e_src c) ai;
    do wai <- edge_in_phase c ai;
    do h <- inner_lp k c vd mui muj Zi Zj mop gcdz ai ltai offai wai (cwaim1 + wai) cwaim1 (zrange 1 (Z.of_nat (v_phases vd))) 0;
    do t <- outer_lp k c vs vd mui muj Zi Zj mop gcdz ais' (cwaim1 + wai);
    Ok (app_lp h t)
  end.

(** The body of the loop over channels, periodic.cpp 95-232.  "loopbackfix" is added by every
    turn, but [addColumn] ignores a name it already has, so only the first turn adds it. *)
Definition channel_lp (k : nat) (c : edge) : outcome lp :=
  do vs <- lookup_vertex g (e_src c);
  do vd <- lookup_vertex g (e_dst c);
  do mui <- mu period vs (N (e_src c));
  do muj <- mu period vd (N (e_dst c));
  let Zi := edge_in_total c in
  let Zj := edge_out_total c in
  do fg <- fine_gcd c;
  do mop <- floor_to (e_preload c) fg;
  let gcdz := Z.gcd Zi Zj in
  let head := (if (k =? 0)%nat then [mkColumn LoopFix ilp (FixBound (inject_Z (Z.of_nat (length (vertices g))))) 2] else []) ++
    [mkColumn (Mop k) ilp (FixBound (inject_Z (e_preload c))) (inject_Z (theta k));
     mkColumn (Feedback k) ilp (LowBound 0) (inject_Z (theta k))] in
  do body <- outer_lp k c vs vd mui muj Zi Zj mop gcdz (zrange 1 (Z.of_nat (v_phases vs))) 0;
  Ok (app_lp (mkLp head []) body).

Definition channels_lp : outcome lp := concat_lp (map (fun kc => channel_lp (fst kc) (snd kc)) (indexed (edges g))).
End Build.

(** The start columns, periodic.cpp 84-89 and periodic_fixed.cpp 780-783. *)
Definition free_starts (g : graph) : lp :=
  mkLp (flat_map (fun iv => map (fun a => mkColumn (Start (fst iv) a) false (LowBound 0) 0) (zrange 1 (Z.of_nat (v_phases (snd iv)))))
                 (indexed (vertices g))) [].
Definition fixed_starts (g : graph) : lp :=
  mkLp (map (fun iv => mkColumn (Start (fst iv) 0) false (LowBound 0) 0) (indexed (vertices g))) [].

(** The reentrancy rows of a task, periodic.cpp 237-272. *)
Definition loopback_lp (period : Q) (N : nat -> Z) (i : nat) (v : vertex) : outcome lp :=
  let timefactor := if v_reentrancy v <=? 0 then 0%Q else 1%Q in
  let max_k := Z.of_nat (v_phases v) in
  do mui <- mu period v (N i);
  do steps <- concat_lp (map (fun k =>
      do ltk <- vertex_duration v k;
      Ok (mkLp [] [mkRow [(Start i (k + 1), 1%Q); (Start i k, (-1)%Q)] (ltk * timefactor)])) (zrange 1 (max_k - 1)));
  do ltk <- vertex_duration v max_k;
  Ok (app_lp steps (mkLp [] [mkRow (if max_k >? 1 then [(Start i 1, 1%Q); (Start i max_k, (-1)%Q)] else []) (ltk * timefactor - mui)])).

(** The two problems: periodic.cpp 76-273, periodic_fixed.cpp 772-929. *)
Definition periodic_lp (ilp : bool) (theta : nat -> Z) (g : graph) (N : nat -> Z) (period : Q) : outcome lp :=
  do chans <- channels_lp free_layout ilp theta g N period;
  do loops <- concat_lp (map (fun iv => loopback_lp period N (fst iv) (snd iv)) (indexed (vertices g)));
  Ok (app_lp (free_starts g) (app_lp chans loops)).
Definition fixed_lp (ilp : bool) (theta : nat -> Z) (g : graph) (N : nat -> Z) (offs : nat -> list Q) (period : Q) : outcome lp :=
  do chans <- channels_lp (fixed_layout offs) ilp theta g N period;
  Ok (app_lp (fixed_starts g) chans).

(** C++ [round]: to nearest, halves away from zero. *)
Definition round_away (x : Q) : Z := if Qle_bool 0 x then Qfloor (x + (1 # 2))%Q else - Qfloor (- x + (1 # 2))%Q.

(** Reading the sizes back: periodic.cpp 340-372, periodic_fixed.cpp 999-1043.  A local column
    exists exactly when [min(wai,raj) > 0], so [haveValue] is modelled by that test; the
    [continue] of a missing one skips the update of [crajm1]. *)
Definition local_value (ilp : bool) (x : var -> Q) (k : nat) (ai aj : Z) : Z :=
  if ilp then round_away (x (Local k ai aj)) else Qfloor (x (Local k ai aj)).
Fixpoint gather_inner (ilp : bool) (x : var -> Q) (k : nat) (c : edge) (gcdz ai wai cwai : Z) (ajs : list Z) (craj crajm1 fmax : Z) : outcome Z :=
  match ajs with
  | [] => Ok fmax
  | aj :: ajs' =>
    do raj <- edge_out_phase c aj;
    if Z.min wai raj >? 0 then
      let bound := - local_value ilp x k ai aj * gcdz - crajm1 + cwai - gcdz in
      gather_inner ilp x k c gcdz ai wai cwai ajs' (craj + raj) (craj + raj) (if bound >? fmax then bound else fmax)
    else gather_inner ilp x k c gcdz ai wai cwai ajs' (craj + raj) crajm1 fmax
  end.
Fixpoint gather_outer (ilp : bool) (x : var -> Q) (k : nat) (c : edge) (vd : vertex) (gcdz : Z) (ais : list Z) (cwai fmax : Z) : outcome Z :=
  match ais with
  | [] => Ok fmax
  | ai :: ais' =>
    do wai <- edge_in_phase c ai;
    do fmax' <- gather_inner ilp x k c gcdz ai wai (cwai + wai) (zrange 1 (Z.of_nat (v_phases vd))) 0 0 fmax;
    gather_outer ilp x k c vd gcdz ais' (cwai + wai) fmax'
  end.

(** The size of one channel, periodic.cpp 303-377, periodic_fixed.cpp 968-1047. *)
Definition channel_size (ilp : bool) (x : var -> Q) (g : graph) (k : nat) (c : edge) : outcome Z :=
  do vs <- lookup_vertex g (e_src c);
  do vd <- lookup_vertex g (e_dst c);
  let gcdz := Z.gcd (edge_in_total c) (edge_out_total c) in
  let fmax := if ilp then round_away (x (Feedback k)) else Qceiling (x (Feedback k)) in
  do fmax' <- gather_outer ilp x k c vd gcdz (zrange 1 (Z.of_nat (v_phases vs))) 0 fmax;
  Ok (fmax' + e_preload c).
Definition channel_sizes (ilp : bool) (x : var -> Q) (g : graph) : outcome (list Z) :=
  collect (map (fun kc => do z <- channel_size ilp x g (fst kc) (snd kc); Ok [z]) (indexed (edges g))).

(** [total_buffer_size], periodic.cpp 300, 378. *)
Definition total_size (theta : nat -> Z) (sizes : list Z) : Z :=
  sumZ (map (fun ks => snd ks * theta (fst ks)) (indexed sizes)).

(** [BufferSizingResult], buffersizing.h 12-33.  Constructed from a number it is valid; the
    default one is not.  [res_sizes] is what [add_edge_size] recorded. *)
Record sizing := mkSizing { res_valid : bool; res_total : Z; res_sizes : list Z }.
Definition sizing_of (z : Z) : sizing := mkSizing true z [].
Definition no_sizing : sizing := mkSizing false 0 [].

Section Solver.
(** [GLPSol::solveWith]: a point, or no solution. *)
Variable solve : lp -> option (var -> Q).

(** [periodic_memory_sizing_csdf], periodic.cpp 59-395.  The graph is consistent: its repetition
    vector is [N].  [return BufferSizingResult(false)] (287) builds a result from the number 0,
    and so does the [return 0] of an infeasible problem (388-391). *)
Definition periodic_memory_sizing (ilp gen_only : bool) (theta : nat -> Z) (g : graph) (N : nat -> Z) (period : Q) : outcome sizing :=
  do _ <- cassert (negb (Qle_bool period 0));
  do p <- periodic_lp ilp theta g N period;
  if gen_only then Ok (sizing_of 0)
  else match solve p with
       | Some x => do sizes <- channel_sizes ilp x g; Ok (sizing_of (total_size theta sizes))
       | None => Ok (sizing_of 0)
       end.

(** [compute_periodic_fixed_memory], periodic_fixed.cpp 753-1065. *)
Definition fixed_memory_sizing (ilp gen_only : bool) (theta : nat -> Z) (g : graph) (N : nat -> Z) (offs : nat -> list Q) (period : Q) : outcome sizing :=
  do _ <- cassert (negb (Qle_bool period 0));
  do p <- fixed_lp ilp theta g N offs period;
  if gen_only then Ok (sizing_of 0)
  else match solve p with
       | Some x => do sizes <- channel_sizes ilp x g; Ok (mkSizing true (total_size theta sizes) sizes)
       | None => Ok no_sizing
       end.

(** [generateStrictlyPeriodicOffsets], periodic_fixed.cpp 198-235: [None] is [return false]. *)
Definition strict_offsets_task (period : Q) (v : vertex) (Ni : Z) : outcome (option (list Q)) :=
  do shift <- time_over period Ni;
  let max_k := Z.of_nat (v_phases v) in
  if max_k =? 1 then Ok (Some [0%Q])
  else (fix loop (ks : list Z) : outcome (option (list Q)) :=
          match ks with
          | [] => Ok (Some [])
          | k :: ks' => do d <- vertex_duration v k;
                        if negb (Qle_bool d shift) then Ok None
                        else do r <- loop ks'; Ok (option_map (cons (inject_Z (k - 1) * shift)%Q) r)
          end) (zrange 1 max_k).
Fixpoint strict_offsets_all (period : Q) (N : nat -> Z) (ivs : list (nat * vertex)) : outcome (option (list (list Q))) :=
  match ivs with
  | [] => Ok (Some [])
  | (i, v) :: ivs' =>
    do o <- strict_offsets_task period v (N i);
    match o with
    | None => Ok None
    | Some l => do r <- strict_offsets_all period N ivs'; Ok (option_map (cons l) r)
    end
  end.
Definition strict_offsets (period : Q) (g : graph) (N : nat -> Z) : outcome (option (list (list Q))) :=
  if Qeq_bool period 0 then Ok None else strict_offsets_all period N (indexed (vertices g)).

(** [generateBurstOffsets], periodic_fixed.cpp 239-257. *)
Fixpoint burst_loop (v : vertex) (ks : list Z) (val : Q) : outcome (list Q) :=
  match ks with
  | [] => Ok []
  | k :: ks' =>
    do val' <- (if k >? 1 then do d <- vertex_duration v (k - 1); Ok (val + d)%Q else Ok val);
    do r <- burst_loop v ks' val'; Ok (val' :: r)
  end.
Definition burst_offsets_task (v : vertex) : outcome (list Q) := burst_loop v (zrange 1 (Z.of_nat (v_phases v))) 0.

(** [generateAverageOffsets], periodic_fixed.cpp 260-292.  When [lti] is zero the quotient is
    infinite but not used ("SUPERFIX"). *)
Fixpoint average_loop (v : vertex) (muti lti : Q) (ks : list Z) (sum : Q) : outcome (list Q) :=
  match ks with
  | [] => Ok []
  | k :: ks' =>
    do sum' <- (if k >? 1 then do d <- vertex_duration v (k - 1); Ok (sum + d)%Q else Ok sum);
    do r <- average_loop v muti lti ks' sum';
    Ok ((if Qeq_bool lti 0 then 0 else sum' * (muti / lti))%Q :: r)
  end.
Fixpoint sum_durations (v : vertex) (ks : list Z) (acc : Q) : outcome Q :=
  match ks with
  | [] => Ok acc
  | k :: ks' => do d <- vertex_duration v k; sum_durations v ks' (acc + d)%Q
  end.
Definition average_offsets_task (period : Q) (v : vertex) (Ni : Z) : outcome (list Q) :=
  let max_k := Z.of_nat (v_phases v) in
  do muti <- time_over (period * inject_Z max_k) Ni;
  do _ <- cassert (negb (Qle_bool muti 0));
  do lti <- sum_durations v (zrange 1 max_k) 0;
  if max_k =? 1 then Ok [0%Q] else average_loop v muti lti (zrange 1 max_k) 0.

(** [speriodic_memory_sizing_csdf], periodic_fixed.cpp 56-70.  [checkOffsets] (20-54) only
    stops the program on a negative offset or a wrong number of them: with the offsets built
    here it never does, and it is left out. *)
Definition strict_memory_sizing (ilp gen_only : bool) (theta : nat -> Z) (g : graph) (N : nat -> Z) (period : Q) : outcome sizing :=
  do _ <- cassert (negb (Qle_bool period 0));
  do o <- strict_offsets period g N;
  match o with
  | Some offs => fixed_memory_sizing ilp gen_only theta g N (fun i => nth i offs []) period
  | None => Ok no_sizing
  end.

(** The choice of the period by the commands, periodic.cpp 21-57 and periodic_fixed.cpp 72-111:
    the parameter PERIOD is 0 when it is not given, and [min_period] is what [KSchedule] found. *)
Definition command_period (min_period period : Q) : outcome Q :=
  if Qeq_bool min_period 0 then Ok period
  else do _ <- cassert (Qle_bool min_period period);
       Ok (if Qeq_bool period 0 then min_period else period).
Definition compute_1periodic_memory (ilp gen_only : bool) (theta : nat -> Z) (g : graph) (N : nat -> Z) (min_period period : Q) : outcome sizing :=
  do p <- command_period min_period period;
  periodic_memory_sizing ilp gen_only theta g N p.
End Solver.
