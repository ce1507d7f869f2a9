(** The graph the LTE generator must build: phases of alike tasks, each task of a phase sending to
    each task of the next. *)
From Coq Require Import QArith Ascii String.
From Verif Require Import Base Commons CommonsProofs Graph Builder Lte.
Open Scope Z_scope.

(** The number of tasks of a phase; none when the number asked for is negative. *)
Definition size (ph : phase_info) : nat := Z.to_nat (ph_thds ph).
(** What is known of a task: name, phases, initial phases, durations, initial durations,
    reentrancy factor. *)
Definition task_shape (b : bvertex) := (bv_name b, bv_phases b, bv_init_phases b, bv_durations b, bv_init_durations b, bv_reentrancy b).
Definition tasks_of (ph : phase_info) := map (fun j => (task_name (ph_name ph) j, 1%nat, 0%nat, [ph_time ph], @nil Q, 1)) (seq 0 (size ph)).
(** What is known of a channel: ends, rates, initial rates, tokens. *)
Definition channel_shape (e : bedge) := (be_src e, be_dst e, be_in e, be_out e, be_in_init e, be_out_init e, be_preload e).
Definition wire (p : Z) (a b : nat) := (a, b, [p], [p], @nil Z, @nil Z, 0).
(** [off] is the place of the first task of the first phase. *)
Fixpoint channels_of (off : nat) (phs : list phase_info) :=
  match phs with
  | p :: ((q :: _) as rest) =>
    flat_map (fun j => map (fun k => wire (ph_pkts p) (off + j) (off + size p + k)) (seq 0 (size q))) (seq 0 (size p))
    ++ channels_of (off + size p) rest
  | _ => []
  end.

(** The number asked for: the default when the option is absent, else the number written. *)
Definition asks (text : option chars) (default n : Z) : Prop :=
  (text = None /\ n = default) \/ exists ds, text = Some ds /\ CommonsProofs.digits ds /\ n = number ds.
(** The layers: number of tasks, duration, packets sent, name. *)
Definition lte_layers (m c i d : Z) : list phase_info :=
  [mkPhase m 392504 16 "miwf"; mkPhase c 230635 32 "cwac"; mkPhase i 353448 32 "ifft"; mkPhase d 267559 32 "dd"].
