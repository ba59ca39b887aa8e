(** Property theorems C61: the arguments of structural conditions with operations. *)
From Verif Require Import OpArgsFacts SpecGraph Tests.

(** An operation given as a string is the member with that name, in any mixture of upper and
    lower case; everything else is left as it is. *)
Theorem C61_names : forall v o, parse_op v = VOp o <-> stands_for v o.
Proof. exact parse_op_iff. Qed.
Print Assumptions C61_names.
Theorem C61_other_objects : forall v, (forall o, ~ stands_for v o) -> parse_op v = v.
Proof. exact parse_op_other. Qed.
Print Assumptions C61_other_objects.
(** A condition constructed from arguments that stand for operations, for subjects one for all or
    a dict with one for each of the nodes, is the condition with these operations (about which
    C26-C34 speak): the constructor rejects the same arguments, and modify_graph does the same to
    every graph. *)
Theorem C61_same_condition : forall kind single nodes os or_ ss sr rec rs pr ic o1 o2 s1 s2,
  stands_for os o1 -> stands_for or_ o2 -> stands_for_subjects nodes ss s1 -> stands_for_subjects nodes sr s2 ->
  match make_ops kind single nodes o1 o2 s1 s2 rec rs pr ic with
  | Err ex => fst (construct kind single nodes os or_ ss sr rec rs pr ic) = Err ex
  | Ok c => exists a, fst (construct kind single nodes os or_ ss sr rec rs pr ic) = Ok a /\
      forall cyc owner g, arg_modify_graph cyc owner a g = modify_graph cyc owner c g
  end.
Proof. exact construct_meant. Qed.
Print Assumptions C61_same_condition.
(** A dict that was given as argument can be given again. *)
Theorem C61_dicts_reusable : forall nodes a s, stands_for_subjects nodes a s -> stands_for_subjects nodes (snd (handle_subject nodes a)) s.
Proof. exact construct_again. Qed.
Print Assumptions C61_dicts_reusable.
(** The constructor raises ConditionError iff there are too few or too many nodes or a dict has a
    key that is not one of the nodes. *)
Theorem C61_accepts : forall kind single nodes os or_ ss sr rec rs pr ic,
  (exists a, fst (construct kind single nodes os or_ ss sr rec rs pr ic) = Ok a) <-> nodes_ok single nodes /\ keys_among nodes ss /\ keys_among nodes sr.
Proof. exact construct_accepts. Qed.
Print Assumptions C61_accepts.
Theorem C61_rejects : forall kind single nodes os or_ ss sr rec rs pr ic ex,
  fst (construct kind single nodes os or_ ss sr rec rs pr ic) = Err ex -> ex = ECondition.
Proof. exact construct_rejects. Qed.
Print Assumptions C61_rejects.

(** ** findings *)
(** a misspelt operation is accepted and raises TypeError when the graph is needed *)
Definition ex_typo := construct KAfter false [tA] (VOp KEEP) (VName "merg"%string) (AOne (VOp MERGE)) (AOne (VOp KEEP)) true true true false.
Theorem C61_misspelt_refuted : exists a g w, fst ex_typo = Ok a /\ (forall o, ~ stands_for (VName "merg"%string) o) /\
  gsc_graph_ok (GOps (ac_cond a)) w g = true /\ arg_modify_graph ref_simple_cycles (Some w) a g = Err EType.
Proof.
  eexists. exists [(tA, []); (tB, []); (tC, [tA])], tB. split; [vm_compute; reflexivity|]. split; [|split; vm_compute; reflexivity].
  intros o H. apply parse_op_iff in H. vm_compute in H. discriminate.
Qed.
Print Assumptions C61_misspelt_refuted.
(** a dict without an operation for each node is accepted and raises ConditionError when the graph
    is needed *)
Definition ex_missing := construct KAfter false [tA; tC] (VOp KEEP) (VOp MERGE) (ADict [(tA, VOp MERGE)]) (AOne (VOp KEEP)) true true true false.
Theorem C61_missing_refuted : exists a g w, fst ex_missing = Ok a /\
  gsc_graph_ok (GOps (ac_cond a)) w g = true /\ arg_modify_graph ref_simple_cycles (Some w) a g = Err ECondition.
Proof.
  eexists. exists [(tA, []); (tB, []); (tC, [tA])], tB. split; [vm_compute; reflexivity|]. split; vm_compute; reflexivity.
Qed.
Print Assumptions C61_missing_refuted.
(** a rejected call may have replaced strings in the caller's dict *)
Theorem C61_caller_dict_refuted : exists nodes d, fst (handle_subject nodes (ADict d)) = Err ECondition /\ snd (handle_subject nodes (ADict d)) <> ADict d.
Proof. exists [tA], [(tA, VName "keep"%string); (tB, VName "keep"%string)]. split; [reflexivity|vm_compute; discriminate]. Qed.
Print Assumptions C61_caller_dict_refuted.

(** AfterNodes(A, C, owner_receivers='merge', subject_senders={A: 'Union', C: Operation.KEEP}) of B *)
Definition ex_args := construct KAfter false [tA; tC] (VOp KEEP) (VName "merge"%string) (ADict [(tA, VName "Union"%string); (tC, VOp KEEP)]) (AOne (VName "KEEP"%string)) true true true false.
Example ex_C61 : stands_for (VName "merge"%string) MERGE /\ stands_for_subjects [tA; tC] (ADict [(tA, VName "Union"%string); (tC, VOp KEEP)]) (SDict [(tA, UNION); (tC, KEEP)]) /\
  stands_for_subjects [tA; tC] (AOne (VName "KEEP"%string)) (SOne KEEP) /\
  exists a g', fst ex_args = Ok a /\ arg_modify_graph ref_simple_cycles (Some tB) a [(tA, []); (tB, []); (tC, [])] = Ok g' /\ edge g' tA tB /\ edge g' tC tB.
Proof.
  split; [apply parse_op_iff; reflexivity|]. split; [|split].
  - constructor; [|repeat constructor; simpl; intuition; discriminate|simpl; tauto].
    apply Forall2_cons; [split; [reflexivity|apply parse_op_iff; reflexivity]|].
    apply Forall2_cons; [split; [reflexivity|apply parse_op_iff; reflexivity]|apply Forall2_nil].
  - constructor. apply parse_op_iff; reflexivity.
  - eexists. eexists. split; [vm_compute; reflexivity|]. split; [vm_compute; reflexivity|]. split; eexists; (split; [reflexivity|simpl; auto]).
Qed.
