(** Properties of GroupList: C53, C54. *)
From Verif Require Import Base GroupList GroupListSpec GroupListProofs.
Open Scope Z_scope.

(** ** C53 *)
(** Any sequence of calls runs without undefined behaviour or failed assertion, and getall then
    returns one set per connected component of the pairs: [reps] has exactly one item of each
    component, and the set of a representative only holds values given to its component. *)
Theorem C53_groups_are_components : forall h, exists s sets reps, gl_run h gl_empty = Ok s /\ gl_getall s = Ok sets /\
  (forall x, known h x -> exists rep, In rep reps /\ connected h x rep) /\
  (forall i j a b, nth_error reps i = Some a -> nth_error reps j = Some b -> connected h a b -> i = j) /\
  (forall rep, In rep reps -> known h rep) /\
  Forall2 (fun rep set => set <> [] /\ forall w, In w set -> given h rep w) reps sets.
Proof. exact groups_are_components. Qed.
Print Assumptions C53_groups_are_components.
Example C53_ex : exists s, gl_run [(1, 2, 10); (3, 4, 20); (5, 6, 30); (2, 3, 40); (6, 6, 50)] gl_empty = Ok s /\ gl_getall s = Ok [[10; 20]; [30; 50]].
Proof. eexists. split; [reflexivity|]. vm_compute. reflexivity. Qed.

(** ** C54 *)
(** The set of a component holds exactly the values given with pairs of that component, except
    those given in calls that joined two existing groups. *)
Theorem C54_values_partial : forall h, exists s sets reps, gl_run h gl_empty = Ok s /\ gl_getall s = Ok sets /\
  (forall x, known h x -> exists rep, In rep reps /\ connected h x rep) /\
  (forall i j a b, nth_error reps i = Some a -> nth_error reps j = Some b -> connected h a b -> i = j) /\
  (forall rep, In rep reps -> known h rep) /\
  Forall2 (fun rep set => forall w, In w set <-> given_kept h rep w) reps sets.
Proof. exact getall_ok. Qed.
Print Assumptions C54_values_partial.
(** The full claim is false: the value of a joining call (40 above) is lost. *)
Theorem C54_joining_value_refuted : exists h l r v s sets, In (l, r, v) h /\ gl_run h gl_empty = Ok s /\ gl_getall s = Ok sets /\
  forall set, In set sets -> ~ In v set.
Proof.
  exists [(1, 2, 10); (3, 4, 20); (2, 3, 40)], 2, 3, 40. eexists. eexists. split; [cbn; auto|]. split; [reflexivity|]. split; [vm_compute; reflexivity|].
  intros set [<-|[]]. cbn. lia.
Qed.
Print Assumptions C54_joining_value_refuted.
Example C54_ex : given_kept [(1, 2, 10); (3, 4, 20); (2, 3, 40)] 1 20.
Proof.
  exists [(1, 2, 10)], 3, 4, [(2, 3, 40)]. split; [reflexivity|]. split.
  - eapply conn_trans; [eapply (conn_pair _ 1 2 10); cbn; auto|eapply (conn_pair _ 2 3 40); cbn; auto].
  - intros [(l & r & v & [E|[]] & H) _]. injection E as <- <- <-. lia.
Qed.
