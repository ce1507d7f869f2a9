(** Property C22: normalisation. *)
From Coq Require Import QArith.
From Verif Require Import Base Graph ScheduleSpec RepVec RepVecSpec Normal NormalSpec NormalProofs NormalDone NormalFinal KPeriodicProps RepVecProps.
Open Scope Z_scope.

(** When normalize succeeds, the stored weights and coefficients are a normalisation: alpha
    times the totals of a channel are the positive integer weights of its two tasks, and all
    rates times alpha are integers. *)
Theorem C22_normalised : forall fuel g zs alpha, rates_wf g -> normalize fuel g = Ok (Some (zs, alpha)) -> normalised g zs alpha.
Proof. exact normalize_sound. Qed.
Print Assumptions C22_normalised.

(** It succeeds exactly on the graphs whose channels move tokens and whose balance equations
    have a positive solution, connected or not, provided no task is without a channel; a
    connected graph meets that condition. *)
Theorem C22_succeeds_iff_consistent : forall fuel g, rates_wf g -> no_lone_task g -> (length (vertices g) <= fuel)%nat ->
  (exists zs alpha, normalize fuel g = Ok (Some (zs, alpha))) <-> moves_tokens g /\ exists M, solution g M.
Proof. exact normalize_exact. Qed.
Print Assumptions C22_succeeds_iff_consistent.

Theorem C22_connected_graphs : forall g, rates_wf g -> connected_graph g -> no_lone_task g.
Proof. exact connected_no_lone. Qed.
Print Assumptions C22_connected_graphs.

(** In every iteration each channel then carries the same normalised amount: weight times
    number of whole cycles is the same for any two tasks linked by channels. *)
Theorem C22_same_amount_everywhere : forall g zs alpha M i j vi vj, rates_wf g -> normalised g zs alpha -> solution g M -> linked g i j ->
  nth_error (vertices g) i = Some vi -> nth_error (vertices g) j = Some vj ->
  nth i zs 0 * M i * Z.of_nat (v_phases vj) = nth j zs 0 * M j * Z.of_nat (v_phases vi).
Proof. exact same_amount. Qed.
Print Assumptions C22_same_amount_everywhere.

(** A task without channels in a graph that has some makes normalize abort although the graph
    is consistent. *)
Definition with_lone_task : graph := mkGraph (vertices ex_graph ++ [mkVertex 3 1 0 [1%Q] [] 1]) (edges ex_graph).
Theorem C22_lone_task_refuted : exists g, rates_wf g /\ moves_tokens g /\ (exists M, solution g M) /\
  forall fuel, (length (vertices g) <= fuel)%nat -> normalize fuel g = Rejected.
Proof.
  exists with_lone_task. split; [|split; [|split]].
  - split; [intros v Hv; cbn in Hv; in_cases; cbn; lia|]. intros c [<-|[<-|[]]]; eexists; eexists; repeat (split; [reflexivity|]); cbn; in_cases; lia.
  - intros c [<-|[<-|[]]]; cbn; lia.
  - exists (fun i => match i with O => 4 | 1%nat => 3 | _ => 1 end). split; [intros [|[|[|i]]] H; cbn in H; lia|intros c [<-|[<-|[]]]; reflexivity].
  - intros fuel F. cbn in F. destruct fuel as [|[|[|fuel]]]; [lia|lia|lia|]. vm_compute. reflexivity.
Qed.
Print Assumptions C22_lone_task_refuted.

(** * Concrete cases *)
Example ex_normalise : option_map (fun r => (fst r, map (fun k => option_map Qred (snd r k)) [0; 1]%nat))
  (match normalize 2 ex_graph with Ok (Some r) => Some r | _ => None end) = Some ([3; 2], [Some 1%Q; Some 1%Q]).
Proof. vm_compute. reflexivity. Qed.
Example ex_normalise_hyp : rates_wf ex_graph /\ no_lone_task ex_graph /\ moves_tokens ex_graph /\ solution ex_graph (as_vector [4; 3]).
Proof.
  split; [exact (graph_wf_rates _ ex_wf)|]. split; [|split].
  - right. intros [|[|i]] H; cbn in H; try lia; eexists; (split; [left; reflexivity|cbn; auto]).
  - intros c [<-|[<-|[]]]; cbn; lia.
  - split; [intros [|[|i]] H; cbn in H; cbn; lia|intros c [<-|[<-|[]]]; reflexivity].
Qed.
(** A graph whose first coefficient must be multiplied: phases with rates 1 and 1 against 4. *)
Example ex_normalise_fraction : option_map (fun r => (fst r, map (fun k => option_map Qred (snd r k)) [0; 1]%nat))
  (match normalize 3 (mkGraph [mkVertex 1 2 0 [1%Q; 1%Q] [] 1; mkVertex 2 1 0 [1%Q] [] 1; mkVertex 3 1 0 [1%Q] [] 1]
     [mkEdge 1 0 1 [1; 1] [4] [] [] 0; mkEdge 2 1 2 [3] [5] [] [] 0]) with Ok (Some r) => Some r | _ => None end)
  = Some ([6; 12; 20], [Some 3%Q; Some 4%Q]).
Proof. vm_compute. reflexivity. Qed.
