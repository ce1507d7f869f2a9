(** The MINMAX offsets, algorithms/buffersizing/periodic_fixed.cpp 478-751: one linear program per
    task, handed to an external solver.

    The solver is a parameter.  Columns and rows are structured values, so channels with equal names
    are not modelled; [addRow] throws on a row that exists already (lp/glpsol.h 257-261), which
    happens for a channel from a task to itself.  Numbers are exact. *)
From Coq Require Import QArith.
From Verif Require Import Base Graph Commons KPeriodic Sizing Wiggers.
Open Scope Z_scope.

(** "ct_k", "D_channel", "E_channel", periodic_fixed.cpp 561-562, 569, 575. *)
Inductive mvar := Ct (k : Z) | Dl (c : nat) | Ep (c : nat).
(** [m_low] is LOW_BOUND, else UP_BOUND. *)
Record mrow := mkMrow { m_coefs : list (mvar * Q); m_low : bool; m_bound : Q }.
(** A column with its fixed value, if any, and its cost. *)
Record mcol := mkMcol { m_var : mvar; m_fix : option Q; m_cost : Q }.
Record mlp := mkMlp { m_cols : list mcol; m_rows : list mrow }.

(** [lambda_cons], periodic_fixed.cpp 516, 524-526; [lambda_prod] (515, 521-523) is [wig_lambda]. *)
Definition lambda_cons (c : edge) : Z := fold_left Z.gcd (e_in c) (edge_out_total c).

(** G, periodic_fixed.cpp 573-583. *)
Fixpoint mm_order (v : vertex) (ks : list Z) : outcome (list mrow) :=
  match ks with
  | [] => Ok []
  | k :: ks' =>
    do d <- vertex_duration v (k - 1);
    do r <- mm_order v ks';
    Ok (mkMrow [(Ct k, 1%Q); (Ct (k - 1), (-1)%Q)] true d :: r)
  end.

(** The two rows of a channel and a phase, periodic_fixed.cpp 642-652 and 703-713. *)
Definition mm_pair (e : nat) (k : Z) (d mutwa : Q) (delta eps : Z) : list mrow :=
  [ mkMrow [(Dl e, (-1)%Q); (Ct k, 1%Q)] false (- d - mutwa * inject_Z delta)%Q;
    mkMrow [(Ep e, (-1)%Q); (Ct k, (-1)%Q)] false (- (mutwa * inject_Z eps))%Q ].

(** The phases of an output channel, periodic_fixed.cpp 613-656. *)
Fixpoint mm_out (v : vertex) (e : nat) (c : edge) (mutwa : Q) (ks : list Z) (pred : Z) : outcome (list mrow) :=
  match ks with
  | [] => Ok []
  | k :: ks' =>
    do x <- edge_in_phase c k;
    do d <- vertex_duration v k;
    do q1 <- floor_to (- pred - 1) (wig_lambda c);
    do q2 <- floor_to (pred + x - 1) (wig_lambda c);
    let big := lambda_cons c <? wig_lambda c in
    let delta := if big then q1 else - pred in
    let eps := if big then q2 else pred + x in
    do r <- mm_out v e c mutwa ks' (pred + x);
    Ok (mm_pair e k d mutwa delta eps ++ r)
  end.

(** The phases of an input channel, periodic_fixed.cpp 670-722; both quotients use [gcdpain]. *)
Fixpoint mm_in (v : vertex) (e : nat) (c : edge) (mutwa : Q) (ks : list Z) (pred : Z) : outcome (list mrow) :=
  match ks with
  | [] => Ok []
  | k :: ks' =>
    do x <- edge_out_phase c k;
    do d <- vertex_duration v k;
    do q1 <- floor_to (- pred) (wig_lambda c);
    do q2 <- floor_to (pred + x) (wig_lambda c);
    let big := wig_lambda c <? lambda_cons c in
    let delta := if big then q2 else - pred in
    let eps := if big then q1 else pred + x in
    do r <- mm_in v e c mutwa ks' (pred + x);
    Ok (mm_pair e k d mutwa delta eps ++ r)
  end.

(** The channels of task [i], periodic_fixed.cpp 599-661 and 663-724. *)
Fixpoint mm_channels (i : nat) (v : vertex) (mut : Q) (out : bool) (ecs : list (nat * edge)) : outcome (list mrow) :=
  match ecs with
  | [] => Ok []
  | (e, c) :: ecs' =>
    do h <- (if ((if out then e_src c else e_dst c) =? i)%nat then
               do mutwa <- time_over mut (if out then edge_in_total c else edge_out_total c);
               (if out then mm_out else mm_in) v e c mutwa (zrange 1 (Z.of_nat (v_phases v))) 0
             else Ok []);
    do r <- mm_channels i v mut out ecs';
    Ok (h ++ r)
  end.

(** The columns, periodic_fixed.cpp 556-575. *)
Definition mm_cols (theta : nat -> Z) (g : graph) (i : nat) (max_k : Z) : list mcol :=
  flat_map (fun ec : nat * edge => if ((e_src (snd ec) =? i) || (e_dst (snd ec) =? i))%nat%bool
              then [mkMcol (Dl (fst ec)) None (inject_Z (theta (fst ec))); mkMcol (Ep (fst ec)) None (inject_Z (theta (fst ec)))] else []) (indexed (edges g)) ++
  mkMcol (Ct 1) (Some 0%Q) 0 :: map (fun k => mkMcol (Ct k) None 0) (zrange 2 max_k).

(** The program of a task, periodic_fixed.cpp 535-724. *)
Definition mm_lp (theta : nat -> Z) (period : Q) (g : graph) (N : nat -> Z) (i : nat) (v : vertex) : outcome mlp :=
  let max_k := Z.of_nat (v_phases v) in
  do q <- time_over (inject_Z max_k) (N i);
  let mut := (period * q)%Q in
  do last <- vertex_duration v max_k;
  do order <- mm_order v (zrange 2 max_k);
  do outs <- mm_channels i v mut true (indexed (edges g));
  do _ <- cassert (negb (existsb (fun c => (e_src c =? i)%nat && (e_dst c =? i)%nat) (edges g)));
  do ins <- mm_channels i v mut false (indexed (edges g));
  Ok (mkMlp (mm_cols theta g i max_k) (order ++ mkMrow [(Ct max_k, 1%Q)] false (mut - last)%Q :: outs ++ ins)).

Section Solver.
Variable msolve : mlp -> option (mvar -> Q).
(** [ctnewMinMax], periodic_fixed.cpp 496-748: [None] is [return false]. *)
Definition mm_task (theta : nat -> Z) (period : Q) (g : graph) (N : nat -> Z) (i : nat) (v : vertex) : outcome (option (list Q)) :=
  let max_k := Z.of_nat (v_phases v) in
  if max_k <=? 1 then Ok (Some [0%Q])
  else do p <- mm_lp theta period g N i v;
       match msolve p with
       | Some x => Ok (Some (map (fun k => x (Ct k)) (zrange 1 max_k)))
       | None => Ok None
       end.

(** [generateMinMaxOffsets], periodic_fixed.cpp 478-492: after a failure the remaining tasks keep
    an empty vector.  The result is ignored by the command (179). *)
Fixpoint mm_tasks (theta : nat -> Z) (period : Q) (g : graph) (N : nat -> Z) (work : bool) (ivs : list (nat * vertex)) : outcome (list (list Q)) :=
  match ivs with
  | [] => Ok []
  | (i, v) :: ivs' =>
    do o <- (if work then mm_task theta period g N i v else Ok None);
    do r <- mm_tasks theta period g N (match o with Some _ => work | None => false end) ivs';
    Ok (match o with Some l => l | None => [] end :: r)
  end.
Definition minmax_offsets (theta : nat -> Z) (period : Q) (g : graph) (N : nat -> Z) : outcome (list (list Q)) :=
  mm_tasks theta period g N true (indexed (vertices g)).
End Solver.
