(** Model of the TDMA schedule of packets on a mesh, algorithms/scheduling/TDMAScheduler.h 41-96 and
    TDMAScheduler.cpp 29-301.  The three files are not parsed: the model starts from the packets
    after the mapping of their tasks (114), from the lines of the slot file and from the number of
    slots.  Bank identifiers, which are only stored, are left out.  Times are exact integers:
    overflow of "long" is not modelled. *)
From Verif Require Import Base Noc.
Open Scope Z_scope.

(** operator[] of std::vector: undefined outside of the vector. *)
Definition vget {A : Type} (l : list A) (i : Z) : outcome A :=
  if i <? 0 then Undefined else match nth_error l (Z.to_nat i) with Some a => Ok a | None => Undefined end.
Fixpoint replace {A : Type} (l : list A) (i : nat) (a : A) : list A :=
  match l, i with
  | [], _ => []
  | _ :: l', O => a :: l'
  | x :: l', S i' => x :: replace l' i' a
  end.
Definition vset {A : Type} (l : list A) (i : Z) (a : A) : outcome (list A) :=
  do old <- vget l i; Ok (replace l (Z.to_nat i) a).

(** packet_struct, TDMAScheduler.h 60-64. *)
Record packet := mkPacket { pk_src : Z; pk_dest : Z; pk_duration : Z; pk_deps : list Z }.

(** pq_struct, 47-51: cycle, pkt_id, computeDone. *)
Definition entry := (Z * Z * bool)%type.
Definition e_cycle (e : entry) : Z := fst (fst e).
Definition e_id (e : entry) : Z := snd (fst e).
(** operator<, 53-57, read from the top of the heap: [a] is taken before [b]. *)
Definition before (a b : entry) : bool := if e_cycle a =? e_cycle b then e_id a <? e_id b else e_cycle a <? e_cycle b.
(** std::priority_queue: the queue is kept sorted, the top is its head.  A packet has at most one
    entry, so that no two entries are equivalent for operator<. *)
Fixpoint push (e : entry) (q : list entry) : list entry :=
  match q with
  | [] => [e]
  | x :: q' => if before x e then x :: push e q' else e :: q
  end.

(** packet_profile[pkt_id], the columns DEPS, COMP, SLOT and DATA (TDMAScheduler.h 41-44). *)
Record profile := mkProfile { pr_deps : Z; pr_comp : Z; pr_slot : Z; pr_data : Z }.
(** "if (x == -1) x = cycle". *)
Definition first_time (old new : Z) : Z := if old =? -1 then new else old.

(** isDepsDone, 84-96. *)
Fixpoint deps_done (deps : list Z) (done : list Z) (cycle : Z) : outcome bool :=
  match deps with
  | [] => Ok true
  | d :: ds =>
    do v <- vget done d;
    if v =? -1 then Ok false else if v >? cycle then Ok false else deps_done ds done cycle
  end.

(** The heap, isPktDone, slotlock, packet_profile, and the number of lines "error2" printed. *)
Record tdma := mkTdma { t_queue : list entry; t_done : list Z; t_lock : list Z; t_profile : list profile; t_errors : Z }.

Section Loop.
Variables (rows cols total : Z) (packets : list packet) (table : list Z).

(** get_slot_table_index, 78-81, with OFFSET = rows * cols (TDMAScheduler.cpp 91). *)
Definition table_index (s d : Z) : Z := s * (rows * cols) + d.

(** TDMAScheduler.cpp 178-265: one turn of the loop, [e] taken from the heap. *)
Definition handle (e : entry) (s : tdma) : outcome tdma :=
  let '(cycle, id, computed) := e in
  do p <- vget packets id;
  let key := table_index (pk_src p) (pk_dest p) in
  do ready <- deps_done (pk_deps p) (t_done s) cycle;
  if negb ready then Ok (mkTdma (push (cycle + 1, id, computed) (t_queue s)) (t_done s) (t_lock s) (t_profile s) (t_errors s))
  else
    do pr <- vget (t_profile s) id;
    let deps := first_time (pr_deps pr) cycle in
    if negb computed then
      do profiles <- vset (t_profile s) id (mkProfile deps (pr_comp pr) (pr_slot pr) (pr_data pr));
      Ok (mkTdma (push (cycle + pk_duration p, id, true) (t_queue s)) (t_done s) (t_lock s) profiles (t_errors s))
    else
      let comp := first_time (pr_comp pr) cycle in
      do cur <- cmod cycle total;
      if pk_src p =? pk_dest p then
        do done <- vset (t_done s) id cycle;
        do profiles <- vset (t_profile s) id (mkProfile deps comp cycle cycle);
        Ok (mkTdma (t_queue s) done (t_lock s) profiles (t_errors s))
      else
        do mine <- vget table key;
        if cur =? mine then
          do lock <- vget (t_lock s) key;
          if cycle =? lock then
            do profiles <- vset (t_profile s) id (mkProfile deps comp (cycle + total) (pr_data pr));
            Ok (mkTdma (push (cycle + total, id, true) (t_queue s)) (t_done s) (t_lock s) profiles (t_errors s))
          else
            do locks <- vset (t_lock s) key cycle;
            do distance <- get_distance (pk_src p) (pk_dest p) rows cols;
            do done <- vset (t_done s) id (cycle + distance);
            do profiles <- vset (t_profile s) id (mkProfile deps comp (first_time (pr_slot pr) cycle) (cycle + distance));
            Ok (mkTdma (t_queue s) done locks profiles (t_errors s))
        else if pr_slot pr =? -1 then
          let advance := event_cycle cur mine total in
          do profiles <- vset (t_profile s) id (mkProfile deps comp (cycle + advance) (pr_data pr));
          Ok (mkTdma (push (cycle + advance, id, true) (t_queue s)) (t_done s) (t_lock s) profiles (t_errors s))
        else
          do profiles <- vset (t_profile s) id (mkProfile deps comp (pr_slot pr) (pr_data pr));
          Ok (mkTdma (push (cycle + 1, id, true) (t_queue s)) (t_done s) (t_lock s) profiles (t_errors s + 1)).

(** 175-266. *)
Fixpoint run (fuel : nat) (s : tdma) : outcome tdma :=
  match t_queue s with
  | [] => Ok s
  | e :: q =>
    match fuel with
    | O => Timeout
    | S f => do s' <- handle e (mkTdma q (t_done s) (t_lock s) (t_profile s) (t_errors s)); run f s'
    end
  end.
End Loop.

(** 125-157: the lines (source, destination, slot) of the slot file. *)
Fixpoint fill_table (rows cols : Z) (lines : list (Z * Z * Z)) (table : list Z) : outcome (list Z) :=
  match lines with
  | [] => Ok table
  | (s, d, slot) :: ls => do t <- vset table (table_index rows cols s d) slot; fill_table rows cols ls t
  end.
Definition no_slots (rows cols : Z) : list Z := repeat (-1) (Z.to_nat ((rows * cols) * (rows * cols))).
(** 160-171: all packets are in the heap at cycle 0. *)
Definition tdma_start (rows cols : Z) (packets : list packet) : tdma :=
  mkTdma (map (fun i => (0, Z.of_nat i, false)) (seq 0 (length packets)))
         (repeat (-1) (length packets)) (no_slots rows cols)
         (repeat (mkProfile (-1) (-1) (-1) (-1)) (length packets)) 0.
(** 125-266. *)
Definition tdma_schedule (fuel : nat) (rows cols total : Z) (packets : list packet) (lines : list (Z * Z * Z)) : outcome tdma :=
  do table <- fill_table rows cols lines (no_slots rows cols);
  run rows cols total packets table fuel (tdma_start rows cols packets).

(** 268-301: iter_count, start, end, exec_time and throughput after the packets [l], the first of
    which has identifier [id]. *)
Record report := mkReport { r_iterations : Z; r_start : Z; r_end : Z; r_exec : Z; r_throughput : Z }.
Fixpoint tdma_report (hyperperiod : Z) (l : list profile) (id : Z) (r : report) : outcome report :=
  match l with
  | [] => Ok r
  | pr :: l' =>
    do a <- cmod id hyperperiod;
    let r1 := if a =? 0 then mkReport (r_iterations r + 1) (pr_data pr) (r_end r) (r_exec r) (r_throughput r) else r in
    do b <- cmod (id + 1) hyperperiod;
    let r2 := if b =? 0 then
                mkReport (r_iterations r1) (r_start r1) (pr_data pr) (r_exec r1 + (pr_data pr - r_start r1)) (r_throughput r1 + (pr_data pr - r_end r1))
              else r1 in
    tdma_report hyperperiod l' (id + 1) r2
  end.
