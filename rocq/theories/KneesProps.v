(** C147: the knee points of a set of infeasible points. *)
From Coq Require Import QArith Sorted.
From Verif Require Import Base Graph Storage StorageSpec StorageProofs StorageSets StorageProps Knees KneesSpec KneesProofs.
Open Scope Z_scope.

Lemma run_wf K cs s : channel_list K -> (forall c, In c cs -> valid K (arg c)) -> set_run cs sds_empty = Ok s -> wf K s.
Proof.
  intros HK V E. destruct (set_run_ok K cs sds_empty [] V (wf_empty K)) as (s' & E' & W & _); [|congruence]. intros x _. cbn. split; [intros (y & [] & _)|intros []].
Qed.
Lemma has_mem K s v : wf K s -> valid K v -> (has_sd v s = Ok true <-> mem K s v) /\ (has_sd v s = Ok false <-> ~ mem K s v).
Proof.
  intros W V. destruct (has_sd_ok K v s V W) as (b & -> & B). split.
  - rewrite <- B. split; [intros E; injection E as ->; reflexivity|intros ->; reflexivity].
  - rewrite <- B. destruct b; split; try congruence; intros N; destruct N; reflexivity.
Qed.

(** The search for inner knees ends, in at most n^k + 1 passes for n points over k channels, and
    what it adds is exactly the minima of at least two different infeasible points. *)
Theorem C147_inner : forall K cs ks infeasible knees fuel, channel_list K -> (forall c, In c (cs ++ ks) -> valid K (arg c)) ->
  set_run cs sds_empty = Ok infeasible -> set_run ks sds_empty = Ok knees -> flat infeasible <> [] -> (length (flat infeasible) ^ length K < fuel)%nat ->
  exists knees', knee_loop fuel infeasible sds_empty knees = Ok knees' /\
    forall v, valid K v -> (has_sd v knees' = Ok true <-> has_sd v knees = Ok true \/ inner_knee K (flat infeasible) v).
Proof.
  intros K cs ks U knees fuel HK V EU Ek NU Hf. assert (WU : wf K U) by (apply (run_wf K cs); auto; intros; apply V; apply in_or_app; auto). assert (Wk : wf K knees) by (apply (run_wf K ks); auto; intros; apply V; apply in_or_app; auto).
  destruct (knee_loop_start K HK U knees fuel WU Wk NU Hf) as (k' & E & W' & M). exists k'. split; [exact E|]. intros v Vv. rewrite (proj1 (has_mem K k' v W' Vv)), (proj1 (has_mem K knees v Wk Vv)). apply M.
Qed.
Print Assumptions C147_inner.

(** The edge knees added are exactly those that are neither infeasible nor feasible points. *)
Theorem C147_edges : forall K cs fs ks infeasible feasible knees buffers lb, channel_list K -> (forall c, In c (cs ++ fs ++ ks) -> valid K (arg c)) ->
  set_run cs sds_empty = Ok infeasible -> set_run fs sds_empty = Ok feasible -> set_run ks sds_empty = Ok knees -> incl buffers K ->
  (flat infeasible = [] -> add_edge_knees buffers lb infeasible feasible knees = Undefined) /\
  (flat infeasible <> [] -> exists knees', add_edge_knees buffers lb infeasible feasible knees = Ok knees' /\
    forall v, valid K v -> (has_sd v knees' = Ok true <-> has_sd v knees = Ok true \/
      (has_sd v infeasible = Ok false /\ has_sd v feasible = Ok false /\ exists c, In c buffers /\ edge_knee K (flat infeasible) (bound_of lb c) c v))).
Proof.
  intros K cs fs ks U F knees buffers lb HK V EU EF Ek I. assert (WU : wf K U) by (apply (run_wf K cs); auto; intros; apply V; rewrite !in_app_iff; auto).
  assert (WF : wf K F) by (apply (run_wf K fs); auto; intros; apply V; rewrite !in_app_iff; auto). assert (Wk : wf K knees) by (apply (run_wf K ks); auto; intros; apply V; rewrite !in_app_iff; auto).
  split.
  - intros N. unfold add_edge_knees. destruct (get_next_ok K U WU) as [G _]. rewrite (G N). reflexivity.
  - intros NU. destruct (add_edge_knees_ok K HK buffers lb U F knees I WU WF Wk NU) as (k' & E & W' & M). exists k'. split; [exact E|].
    intros v Vv. rewrite (proj1 (has_mem K k' v W' Vv)), (proj1 (has_mem K knees v Wk Vv)), (proj2 (has_mem K U v WU Vv)), (proj2 (has_mem K F v WF Vv)). apply M.
Qed.
Print Assumptions C147_edges.

Lemma collect_ok K cs fs ks infeasible feasible knees buffers lb fuel : channel_list K -> (forall c, In c (cs ++ fs ++ ks) -> valid K (arg c)) ->
  set_run cs sds_empty = Ok infeasible -> set_run fs sds_empty = Ok feasible -> set_run ks sds_empty = Ok knees -> incl buffers K ->
  flat infeasible <> [] -> (length (flat infeasible) ^ length K < fuel)%nat ->
  exists k2, wf K k2 /\ (forall v, valid K v -> (has_sd v k2 = Ok true <-> collected K buffers lb infeasible feasible knees v)) /\
    update_knee_set fuel buffers lb infeasible feasible knees = each (fun x => remove_non_maximum x lb) (flat k2) k2.
Proof.
  intros HK V EU EF Ek I NU Hf. rename infeasible into U. rename feasible into F. assert (WU : wf K U) by (apply (run_wf K cs); auto; intros; apply V; rewrite !in_app_iff; auto).
  assert (WF : wf K F) by (apply (run_wf K fs); auto; intros; apply V; rewrite !in_app_iff; auto). assert (Wk : wf K knees) by (apply (run_wf K ks); auto; intros; apply V; rewrite !in_app_iff; auto).
  unfold update_knee_set.
  assert (S : exists k1, (if set_count U >? 1 then knee_loop fuel U sds_empty knees else Ok knees) = Ok k1 /\ wf K k1 /\ forall x, mem K k1 x <-> mem K knees x \/ inner_knee K (flat U) x).
  { destruct (Z.gtb_spec (set_count U) 1) as [C|C]; [apply (knee_loop_start K HK U knees fuel WU Wk NU Hf)|]. exists knees. split; [reflexivity|]. split; [exact Wk|]. intros x. split; [auto|]. intros [H|(l & A & (a & b & Ha & Hb & N) & _)]; [exact H|].
    exfalso. apply N. apply A in Ha, Hb. unfold set_count in C. destruct (flat U) as [|u [|u' us]]; [destruct Ha| |cbn [length] in C; lia]. destruct Ha as [<-|[]], Hb as [<-|[]]. apply same_refl. }
  destruct S as (k1 & -> & W1 & M1). cbn [bind]. destruct (add_edge_knees_ok K HK buffers lb U F k1 I WU WF W1 NU) as (k2 & -> & W2 & M2). cbn [bind]. exists k2. split; [exact W2|]. split; [|reflexivity].
  intros v Vv. unfold collected. rewrite (proj1 (has_mem K k2 v W2 Vv)), (proj1 (has_mem K knees v Wk Vv)), (proj2 (has_mem K U v WU Vv)), (proj2 (has_mem K F v WF Vv)), M2, M1. tauto.
Qed.

(** When all there is to collect is one point, the update collects exactly that. *)
Theorem C147_update : forall K cs fs ks infeasible feasible knees buffers lb fuel, channel_list K -> (forall c, In c (cs ++ fs ++ ks) -> valid K (arg c)) ->
  set_run cs sds_empty = Ok infeasible -> set_run fs sds_empty = Ok feasible -> set_run ks sds_empty = Ok knees -> incl buffers K ->
  flat infeasible <> [] -> (length (flat infeasible) ^ length K < fuel)%nat ->
  (forall v w, valid K v -> valid K w -> collected K buffers lb infeasible feasible knees v -> collected K buffers lb infeasible feasible knees w -> same K v w) ->
  exists knees', update_knee_set fuel buffers lb infeasible feasible knees = Ok knees' /\
    forall v, valid K v -> (has_sd v knees' = Ok true <-> collected K buffers lb infeasible feasible knees v).
Proof.
  intros K cs fs ks U F knees buffers lb fuel HK V EU EF Ek I NU Hf One. destruct (collect_ok K cs fs ks U F knees buffers lb fuel HK V EU EF Ek I NU Hf) as (k2 & W2 & M & ->). exists k2. split; [|exact M].
  apply each_maximum_one. pose proof (wf_uniq K k2 W2) as Q. assert (G : forall x, In x (flat k2) -> valid K x /\ collected K buffers lb U F knees x).
  { intros x Hx. pose proof (wf_valid K k2 x W2 Hx) as Vx. split; [exact Vx|]. apply M; [exact Vx|]. apply (has_mem K k2 x W2 Vx). apply in_mem. exact Hx. }
  destruct (flat k2) as [|x [|y l]]; cbn [length]; [lia|lia|]. exfalso. inversion Q as [|? ? Fx _]; subst. inversion Fx as [|? ? N _]; subst. apply N. destruct (G x) as [Vx Cx]; [cbn; auto|]. destruct (G y) as [Vy Cy]; [cbn; auto|]. apply One; assumption.
Qed.
Print Assumptions C147_update.

(** As soon as two different points are to be collected, the removal of the dominated ones reads an
    uninitialised variable. *)
Theorem C147_update_refuted : forall K cs fs ks infeasible feasible knees buffers lb fuel v w, channel_list K -> (forall c, In c (cs ++ fs ++ ks) -> valid K (arg c)) ->
  set_run cs sds_empty = Ok infeasible -> set_run fs sds_empty = Ok feasible -> set_run ks sds_empty = Ok knees -> incl buffers K ->
  flat infeasible <> [] -> (length (flat infeasible) ^ length K < fuel)%nat ->
  valid K v -> valid K w -> collected K buffers lb infeasible feasible knees v -> collected K buffers lb infeasible feasible knees w -> ~ same K v w ->
  update_knee_set fuel buffers lb infeasible feasible knees = Undefined.
Proof.
  intros K cs fs ks U F knees buffers lb fuel v w HK V EU EF Ek I NU Hf Vv Vw Cv Cw N. destruct (collect_ok K cs fs ks U F knees buffers lb fuel HK V EU EF Ek I NU Hf) as (k2 & W2 & M & ->).
  apply (each_maximum_undefined K); [exact W2|]. apply (M v Vv) in Cv. apply (M w Vw) in Cw. apply (has_mem K k2 v W2 Vv) in Cv as (x & Hx & Sx). apply (has_mem K k2 w W2 Vw) in Cw as (y & Hy & Sy).
  destruct (flat k2) as [|a [|b l]]; cbn [length]; [destruct Hx| |lia]. exfalso. apply N. destruct Hx as [<-|[]], Hy as [<-|[]]. apply (same_trans K _ a); [exact Sx|apply same_sym; exact Sy].
Qed.
Print Assumptions C147_update_refuted.

(** Three infeasible points: their inner knees are the minima of the pairs and of the three. *)
Definition ex_points : list set_call := [Add (ex_d 1 5 5); Add (ex_d 5 1 5); Add (ex_d 5 5 1)].
Example C147_inner_hyp : exists u k, set_run ex_points sds_empty = Ok u /\ (forall c, In c (ex_points ++ []) -> valid ex_K (arg c)) /\ flat u <> [] /\
  knee_loop 28 u sds_empty sds_empty = Ok k /\ map (fun d => map (quantity d) ex_K) (flat k) = [[1; 1; 1]; [1; 1; 5]; [1; 5; 1]; [5; 1; 1]].
Proof.
  eexists. eexists. split; [vm_compute; reflexivity|]. split; [intros c [<-|[<-|[<-|[]]]]; apply ex_valid|]. split; [discriminate|]. split; vm_compute; reflexivity.
Qed.
Example C147_edges_hyp : exists u k, set_run ex_points sds_empty = Ok u /\ incl [4; 6] ex_K /\
  add_edge_knees [4; 6] [(4, 2); (6, 5)] u sds_empty sds_empty = Ok k /\ map (fun d => map (quantity d) ex_K) (flat k) = [[5; 2; 5]].
Proof.
  eexists. eexists. split; [vm_compute; reflexivity|]. split; [intros x [<-|[<-|[]]]; cbn; auto|]. split; vm_compute; reflexivity.
Qed.
(** Two infeasible points and no edge knee: one knee point.  With an edge knee: undefined. *)
Example C147_update_hyp : exists u k, set_run [Add (ex_d 1 5 5); Add (ex_d 5 1 5)] sds_empty = Ok u /\
  update_knee_set 9 [6] [(6, 5)] u sds_empty sds_empty = Ok k /\ map (fun d => map (quantity d) ex_K) (flat k) = [[1; 1; 5]] /\
  update_knee_set 9 [6] [(6, 2)] u sds_empty sds_empty = Undefined.
Proof. eexists. eexists. repeat split; vm_compute; reflexivity. Qed.
