(** The offsets of Wiggers, the check of the offsets, and the sizing command that uses them:
    algorithms/buffersizing/periodic_fixed.cpp 20-54, 158-196 and 295-476.

    [long double] is exact here; an infinite quotient is reported as undefined.  The messages are
    left out. *)
From Coq Require Import QArith Qminmax.
From Verif Require Import Base Graph Commons KPeriodic Sizing.
Open Scope Z_scope.

Definition Qless (a b : Q) : bool := negb (Qle_bool b a).

(** The quotient of two times. *)
Definition qdiv (a b : Q) : outcome Q := if Qeq_bool b 0 then Undefined else Ok (a / b)%Q.

(** [mu], periodic_fixed.cpp 312-316. *)
Definition wig_mu (period : Q) (v : vertex) (Ni : Z) : outcome Q :=
  do q <- time_over period Ni; Ok (q * inject_Z (Z.of_nat (v_phases v)))%Q.

(** [lambda_prod], periodic_fixed.cpp 338, 348-350.  [lambda_cons] (339, 351-353) is never read. *)
Definition wig_lambda (c : edge) : Z := fold_left Z.gcd (e_out c) (edge_in_total c).

(** The search of [beta_prod], periodic_fixed.cpp 373-390: it stops at the first phase at which the
    tokens produced reach [lambda].  With none, [beta] stays infinite. *)
Fixpoint wig_beta (v : vertex) (c : edge) (alpha : Q) (lambda : Z) (ss : list Q) (ks : list Z) (cumul : Z) : outcome Q :=
  match ks with
  | [] => Undefined
  | k :: ks' =>
    do x <- edge_in_phase c k;
    do level <- ceil_to (cumul + x - x) lambda;
    if lambda <=? cumul + x then
      do s <- at_index ss (k - 1);
      do d <- vertex_duration v k;
      Ok (inject_Z (level + 1) - alpha * (s + d))%Q
    else wig_beta v c alpha lambda ss ks' (cumul + x)
  end.

(** What is kept of a channel: [lambda_prod], [alpha] and [beta_prod]. *)
Record curve := mkCurve { w_edge : edge; w_lambda : Z; w_alpha : Q; w_beta : Q }.

(** periodic_fixed.cpp 336-359 and 367-393, for one channel. *)
Definition wig_curve (period : Q) (g : graph) (N : nat -> Z) (c : edge) : outcome curve :=
  match nth_error (vertices g) (e_src c) with
  | None => Undefined
  | Some v =>
    do m <- wig_mu period v (N (e_src c));
    do alpha <- qdiv (inject_Z (edge_in_total c)) m;
    do ss <- burst_offsets_task v;
    do beta <- wig_beta v c alpha (wig_lambda c) ss (zrange 1 (Z.of_nat (length (e_in c)))) 0;
    Ok (mkCurve c (wig_lambda c) alpha beta)
  end.
Fixpoint wig_curves (period : Q) (g : graph) (N : nat -> Z) (l : list edge) : outcome (list curve) :=
  match l with
  | [] => Ok []
  | c :: l' => do w <- wig_curve period g N c; do r <- wig_curves period g N l'; Ok (w :: r)
  end.

(** [cumul_production_km1], periodic_fixed.cpp 436-437. *)
Fixpoint wig_produced (c : edge) (ks : list Z) (acc : Z) : outcome Z :=
  match ks with
  | [] => Ok acc
  | k :: ks' => do x <- edge_in_phase c k; wig_produced c ks' (acc + x)
  end.

(** [bound], periodic_fixed.cpp 439-440. *)
Definition wig_bound (w : curve) (k : Z) : outcome Q :=
  do p <- wig_produced (w_edge w) (zrange 1 (k - 1)) 0;
  do m <- ceil_to (p + 1) (w_lambda w);
  qdiv (inject_Z m - w_beta w) (w_alpha w).

(** The loop over the output channels of a task, periodic_fixed.cpp 435-450. *)
Fixpoint wig_bounds (k : Z) (s d : Q) (ws : list curve) (h : Q) : outcome Q :=
  match ws with
  | [] => Ok h
  | w :: ws' =>
    do b <- wig_bound w k;
    let h1 := Qmin h b in
    let h2 := if Qless (b - d) s then Qmax h1 (s + d) else h1 in
    wig_bounds k s d ws' h2
  end.

(** The loop over the phases, from the last but one down, periodic_fixed.cpp 422-457: [next] is
    [g\[k+1\]] and [acc] the starts of the phases after [k].  "start is too early" (431-434) stops
    the program. *)
Fixpoint wig_retime (v : vertex) (ss : list Q) (ws : list curve) (ks : list Z) (next : Q) (acc : list Q) : outcome (list Q) :=
  match ks with
  | [] => Ok acc
  | k :: ks' =>
    do s <- at_index ss (k - 1);
    do d <- vertex_duration v k;
    do _ <- cassert (negb (Qless (next - d) s));
    do h <- wig_bounds k s d ws next;
    wig_retime v ss ws ks' (h - d)%Q ((h - d)%Q :: acc)
  end.

(** One task, periodic_fixed.cpp 404-473; boost lists the output channels of a task in the order
    they were added. *)
Definition wig_task (period : Q) (N : nat -> Z) (curves : list curve) (i : nat) (v : vertex) : outcome (list Q) :=
  let max_k := Z.of_nat (v_phases v) in
  let ws := filter (fun w => (e_src (w_edge w) =? i)%nat) curves in
  do m <- wig_mu period v (N i);
  do ss <- burst_offsets_task v;
  do d <- vertex_duration v max_k;
  do r <- wig_retime v ss ws (rev (zrange 1 (max_k - 1))) (m - d)%Q [(m - d)%Q];
  Ok (if max_k =? 1 then [0%Q] else r).
Fixpoint wig_tasks (period : Q) (N : nat -> Z) (curves : list curve) (ivs : list (nat * vertex)) : outcome (list (list Q)) :=
  match ivs with
  | [] => Ok []
  | (i, v) :: ivs' => do o <- wig_task period N curves i v; do r <- wig_tasks period N curves ivs'; Ok (o :: r)
  end.

(** [generateWiggersOffsets], periodic_fixed.cpp 295-476. *)
Definition wiggers_offsets (period : Q) (g : graph) (N : nat -> Z) : outcome (list (list Q)) :=
  do curves <- wig_curves period g N (edges g);
  wig_tasks period N curves (indexed (vertices g)).

(** [generateBurstOffsets] and [generateAverageOffsets] for all tasks, periodic_fixed.cpp 239-292. *)
Fixpoint burst_offsets (vs : list vertex) : outcome (list (list Q)) :=
  match vs with
  | [] => Ok []
  | v :: vs' => do o <- burst_offsets_task v; do r <- burst_offsets vs'; Ok (o :: r)
  end.
Fixpoint average_tasks (period : Q) (N : nat -> Z) (ivs : list (nat * vertex)) : outcome (list (list Q)) :=
  match ivs with
  | [] => Ok []
  | (i, v) :: ivs' => do o <- average_offsets_task period v (N i); do r <- average_tasks period N ivs'; Ok (o :: r)
  end.
Definition average_offsets (period : Q) (g : graph) (N : nat -> Z) : outcome (list (list Q)) :=
  do _ <- cassert (negb (Qle_bool period 0));
  average_tasks period N (indexed (vertices g)).

(** [checkOffsets], periodic_fixed.cpp 20-54: [None] is a task without offsets.  The tests at 37-40
    and 46-48 only print. *)
Definition check_offsets (period : Q) (g : graph) (offs : nat -> option (list Q)) : outcome unit :=
  do _ <- cassert (negb (Qle_bool period 0));
  cassert (forallb (fun iv : nat * vertex =>
    match offs (fst iv) with
    | None => false
    | Some l => (length l =? v_phases (snd iv))%nat && forallb (fun o => Qle_bool 0 o) l
    end) (indexed (vertices g))).

(** The value of OFFSET, periodic_fixed.cpp 168-186.  The offsets of [MinMax] are a
    parameter here, and MinMax.v gives them. *)
Inductive offset_kind := OffNone | OffBurst | OffAverage | OffWiggers | OffMinMax | OffOther.

(** [compute_fixed_offset_buffer_sizing], periodic_fixed.cpp 158-196; the repetition vector [N] is
    given. *)
Section Solver.
Variable solve : lp -> option (var -> Q).
Variable minmax : Q -> graph -> (nat -> Z) -> outcome (list (list Q)).
Definition command_offsets (kind : offset_kind) (period : Q) (g : graph) (N : nat -> Z) : outcome (nat -> option (list Q)) :=
  let given x := do l <- x; Ok (fun i => nth_error l i) in
  match kind with
  | OffNone => Ok (fun _ => None)
  | OffBurst => given (burst_offsets (vertices g))
  | OffAverage => given (average_offsets period g N)
  | OffMinMax => given (minmax period g N)
  | OffWiggers => given (wiggers_offsets period g N)
  | OffOther => Rejected
  end.
Definition fixed_offset_command (kind : offset_kind) (ilp gen_only : bool) (theta : nat -> Z) (g : graph) (N : nat -> Z) (period : Q) : outcome sizing :=
  do o <- command_offsets kind period g N;
  do _ <- check_offsets period g o;
  fixed_memory_sizing solve ilp gen_only theta g N (fun i => match o i with Some l => l | None => [] end) period.
End Solver.
