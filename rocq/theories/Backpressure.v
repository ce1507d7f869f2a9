(** Model of the back-pressure buffer sizing, algorithms/buffersizing/backpressure.cpp.

    Times are exact rationals.  The linear program is handed to an external solver, a
    parameter of the model.  Not modelled: the plot files written in debug mode (377-590). *)
From Coq Require Import QArith Qminmax Qround.
From Verif Require Import Base Graph Commons KPeriodic Sizing.
Open Scope Z_scope.

(** A quotient of times; a zero divisor gives an infinite or meaningless time, reported as
    undefined. *)
Definition time_div (a b : Q) : outcome Q := if Qeq_bool b 0 then Undefined else Ok (a / b)%Q.

Section Sizing.
Variables (g : graph) (N : nat -> Z) (period : Q).

(** [mu\[vi\]], backpressure.cpp 33-37. *)
Definition bp_mu (i : nat) (v : vertex) : outcome Q :=
  do q <- time_div period (inject_Z (N i)); Ok (q * inject_Z (Z.of_nat (v_phases v)))%Q.

(** The burst execution [s], backpressure.cpp 40-50: the end of each phase when they follow
    each other from 0. *)
Fixpoint burst_ends (t : Q) (ds : list Q) : list Q :=
  match ds with [] => [] | d :: ds' => (t + d)%Q :: burst_ends (t + d)%Q ds' end.

(** [lambda_prod], [lambda_cons], [alpha], backpressure.cpp 57-82. *)
Definition lambda_prod (c : edge) : Z := fold_left Z.gcd (e_out c) (sumZ (e_in c)).
Definition lambda_cons (c : edge) : Z := fold_left Z.gcd (e_in c) (sumZ (e_out c)).
Definition alpha (c : edge) : outcome Q :=
  do v <- lookup_vertex g (e_src c);
  do m <- bp_mu (e_src c) v;
  time_div (inject_Z (sumZ (e_in c))) m.

(** [beta_prod], backpressure.cpp 91-116: the line through the first phase by which
    [lambda] tokens are produced.  No such phase leaves an infinite value, reported as
    undefined. *)
Fixpoint beta_prod_loop (lam : Z) (a : Q) (cumul : Z) (rates : list Z) (ends : list Q) : outcome Q :=
  match rates, ends with
  | r :: rates', e :: ends' =>
    do c <- ceil_to (cumul + r - r) lam;                                               (* 103 *)
    if lam <=? cumul + r then Ok (inject_Z (c + 1) - a * e)%Q                          (* 104-110 *)
    else beta_prod_loop lam a (cumul + r) rates' ends'
  | _, _ => Undefined
  end.
Definition beta_prod (c : edge) : outcome Q :=
  do v <- lookup_vertex g (e_src c);
  do a <- alpha c;
  beta_prod_loop (lambda_prod c) a 0 (e_in c) (burst_ends 0 (v_durations v)).

(** The output channels of a task, in order. *)
Definition outputs (i : nat) : list edge := filter (fun c => (e_src c =? i)%nat) (edges g).

(** The latest end of a phase allowed by the production lines of the output channels,
    backpressure.cpp 133-135 for the last phase and 158-168 for the others (the same bound:
    [getEdgeIn - getEdgeInPhase(maxk)] is the production before the last phase).  [before] is
    the number of phases before this one, [h] the bound so far. *)
Fixpoint retime_bound (before : nat) (cs : list edge) (h : Q) : outcome Q :=
  match cs with
  | [] => Ok h
  | c :: cs' =>
    do b <- beta_prod c;
    do a <- alpha c;
    do m <- ceil_to (sumZ (firstn before (e_in c)) + 1) (lambda_prod c);
    do q <- time_div (inject_Z m - b) a;
    retime_bound before cs' (Qmin h q)
  end.

(** Retiming, backpressure.cpp 119-177, from the last phase to the first: [durs] the durations
    in reverse order, [next] the start of the following phase.  Result: the pairs (g, h) of the
    phases, first phase first. *)
Fixpoint retime (cs : list edge) (durs : list Q) (next : Q) (acc : list (Q * Q)) : outcome (list (Q * Q)) :=
  match durs with
  | [] => Ok acc
  | d :: durs' =>
    do h <- retime_bound (length durs') cs next;
    retime cs durs' (h - d)%Q (((h - d)%Q, h) :: acc)
  end.
(** With one phase the retiming is undone, backpressure.cpp 189-196. *)
Definition retimed (i : nat) (v : vertex) : outcome (list (Q * Q)) :=
  do m <- bp_mu i v;
  do l <- retime (outputs i) (rev (v_durations v)) m [];
  match v_durations v with
  | [d] => Ok [(0%Q, (0 + d)%Q)]
  | _ => Ok l
  end.

(** Largest value over the phases by which [lam] tokens are moved of the tokens moved minus
    [a] times the instant: [beta_cons] 221-242 and [beta_f_cons] 354-362; [None] is minus
    infinity. *)
Fixpoint beta_cons_loop (lam : Z) (a : Q) (cumul : Z) (rates : list Z) (at_ : list Q) (best : option Q) : option Q :=
  match rates, at_ with
  | r :: rates', t :: at' =>
    let cumul' := cumul + r in
    let best' := if lam <=? cumul'
                 then match best with
                      | None => Some (inject_Z cumul' - a * t)%Q
                      | Some b => if Qle_bool (inject_Z cumul') (a * t + b) then Some b else Some (inject_Z cumul' - a * t)%Q
                      end
                 else best in
    beta_cons_loop lam a cumul' rates' at' best'
  | _, _ => best
  end.
(** Smallest value of the same kind, on the level just reached: [beta_f_prod] 343-351. *)
Fixpoint beta_feed_loop (lam : Z) (a : Q) (cumul : Z) (rates : list Z) (at_ : list Q) (best : option Q) : option Q :=
  match rates, at_ with
  | r :: rates', t :: at' =>
    let cumul' := cumul + r in
    let level := cumul' + 1 - r in
    let best' := if lam <=? cumul'
                 then match best with
                      | None => Some (inject_Z level - a * t)%Q
                      | Some b => if Qle_bool (a * t + b) (inject_Z level) then Some b else Some (inject_Z level - a * t)%Q
                      end
                 else best in
    beta_feed_loop lam a cumul' rates' at' best'
  | _, _ => best
  end.
Definition finite (o : option Q) : outcome Q := match o with Some q => Ok q | None => Undefined end.

(** [beta_ij], backpressure.cpp 250-258. *)
Definition beta_ij (c : edge) : outcome Q :=
  do v <- lookup_vertex g (e_dst c);
  do a <- alpha c;
  do gh <- retimed (e_dst c) v;
  do bc <- finite (beta_cons_loop (lambda_cons c) a 0 (e_out c) (map fst gh) None);
  do bp <- beta_prod c;
  do f <- fine_gcd c;
  do usable <- floor_to (e_preload c) f;                                              (* 252 *)
  do q <- time_div (bc - bp) a;
  Ok (q - inject_Z usable)%Q.                                                         (* 254 *)

(** The linear program, backpressure.cpp 271-298: least sum of the starts.  The row
    [source - target <= -beta] is written [target - source >= beta]. *)
Definition bp_rows (c : edge) : outcome lp :=
  do b <- beta_ij c;
  Ok (mkLp [] [mkRow (if (e_src c =? e_dst c)%nat then [] else [(Start (e_dst c) 0, 1%Q); (Start (e_src c) 0, (-1)%Q)]) b]).
Definition bp_lp : outcome lp :=
  do r <- concat_lp (map bp_rows (edges g));
  Ok (app_lp (mkLp (map (fun i => mkColumn (Start i 0) false (LowBound 0) 1) (seq 0 (length (vertices g)))) []) r).

(** [ceil(flottant, entier)], commons/commons.h 459-460. *)
Definition ceil_time (v : Q) (c : Z) : outcome Z := if c =? 0 then Undefined else Ok (Qceiling (v / inject_Z c) * c).

(** The size of a channel, backpressure.cpp 324-372. *)
Definition bp_size (x : var -> Q) (c : edge) : outcome Z :=
  do vi <- lookup_vertex g (e_src c);
  do vj <- lookup_vertex g (e_dst c);
  do a <- alpha c;
  do ghi <- retimed (e_src c) vi;
  do ghj <- retimed (e_dst c) vj;
  do fp <- finite (beta_feed_loop (lambda_cons c) a 0 (e_out c) (map (fun gh => x (Start (e_dst c) 0%Z) + snd gh)%Q ghj) None);
  do fc <- finite (beta_cons_loop (lambda_prod c) a 0 (e_in c) (map (fun gh => x (Start (e_src c) 0%Z) + fst gh)%Q ghi) None);
  do f <- fine_gcd c;
  ceil_time (- (fp - fc)) f.

Fixpoint bp_sizes (x : var -> Q) (cs : list edge) : outcome (list Z) :=
  match cs with [] => Ok [] | c :: cs' => do z <- bp_size x c; do zs <- bp_sizes x cs'; Ok (z :: zs) end.

(** [compute_backpressure_memory_sizing], backpressure.cpp 15-378, after the repetition
    vector: the sizes and the two printed totals; [None] when the linear program fails. *)
Definition backpressure (solve : lp -> option (var -> Q)) : outcome (option (list Z * Z * Z)) :=
  do _ <- cassert (negb (Qle_bool period 0));                                         (* 23 *)
  do p <- bp_lp;
  match solve p with
  | None => Ok None
  | Some x =>
    do zs <- bp_sizes x (edges g);
    Ok (Some (zs, sumZ zs, sumZ zs + 2 * Z.of_nat (length (vertices g))))
  end.
End Sizing.
