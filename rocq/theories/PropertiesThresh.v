(** Property theorems C55, continued: the constructor of Threshold. *)
From Verif Require Import ThreshFacts Tests.

(** The constructor succeeds iff the parameter is accepted and the comparator is one of
    < <= > >= == != ... *)
Theorem C55_accepts : forall o w d par t s ia atol rtol get val,
  (exists c, new_threshold o w d par t s ia atol rtol get val = Ok c) <-> parameter_accepted w d par val /\ exists c, operator_string s c.
Proof. exact threshold_accepts. Qed.
Print Assumptions C55_accepts.
(** ... and raises nothing but ConditionError and what the custom validator throws. *)
Theorem C55_rejects : forall o w d par t s ia atol rtol get val ex, new_threshold o w d par t s ia atol rtol get val = Err ex ->
  ex = ECondition \/ exists f, val = Some f /\ f d par w = Some ex.
Proof. exact threshold_rejects. Qed.
Print Assumptions C55_rejects.
(** At every later moment the condition compares the number found at the indices in the value the
    parameter has at that moment, read with the custom getter if there is one; apart from what the
    getter does nothing changes. *)
Theorem C55_constructed : forall o w d par t s ia atol rtol get val c k v e ow st p w' x, new_threshold o w d par t s ia atol rtol get val = Ok c ->
  operator_string s k -> parameter_read get e (s_world st) d par (Ok p) w' -> at_index p (indices_of ia) (PNum x) ->
  decides (is_satisfied v e ow st c) (compares k x t atol rtol) /\ s_world (state_after v e ow st c) = w'.
Proof. exact threshold_constructed. Qed.
Print Assumptions C55_constructed.
(** Exceptions of the getter, of a parameter that is gone, of indices that do not fit. *)
Theorem C55_errors : forall o w d par t s ia atol rtol get val c v e ow st r w', new_threshold o w d par t s ia atol rtol get val = Ok c ->
  parameter_read get e (s_world st) d par r w' ->
  (forall ex, r = Err ex -> is_satisfied v e ow st c = Err ex) /\
  (forall p l, r = Ok p -> at_index p (indices_of ia) (PSeq l) -> is_satisfied v e ow st c = Err EType) /\
  (forall p a i b x, r = Ok p -> indices_of ia = a ++ i :: b -> at_index p a (PNum x) -> is_satisfied v e ow st c = Err EType) /\
  (forall p a i b l, r = Ok p -> indices_of ia = a ++ i :: b -> at_index p a (PSeq l) -> (forall x, ~ element l i x) -> is_satisfied v e ow st c = Err EIndex).
Proof. exact threshold_errors. Qed.
Print Assumptions C55_errors.
(** Threshold(A, 'value', 2, '>=', indices=TimeScale.PASS, custom_parameter_getter=...) with a getter
    that returns (1, execution id) and a validator that accepts everything *)
Definition ex_getter : getter := fun d par e w => (Ok (PSeq [PNum 1; PNum (inject_Z (Z.of_nat e))])%Q, w).
Example ex_C55_constructed : exists c, new_threshold 7 t_world tA 0 2 ">="%string (IScale PASS) 0 0 (Some ex_getter) (Some (fun _ _ _ => None)) = Ok c /\
  operator_string ">=" Ge /\ (forall e w, parameter_read (Some ex_getter) e w tA 0 (Ok (PSeq [PNum 1; PNum (inject_Z (Z.of_nat e))])%Q) w) /\
  (forall e, at_index (PSeq [PNum 1; PNum (inject_Z (Z.of_nat e))])%Q (indices_of (IScale PASS)) (PNum (inject_Z (Z.of_nat e)))) /\
  compares Ge (inject_Z (Z.of_nat 3)) 2 0 0 /\ ~ compares Ge (inject_Z (Z.of_nat 1)) 2 0 0 /\ (forall x, ~ element [PNum 1] (-2) x).
Proof.
  eexists. split; [reflexivity|]. split; [constructor|]. split; [reflexivity|].
  split; [intros e; eapply ai_sub; [exists 1; split; [reflexivity|left; reflexivity]|apply ai_here]|].
  split; [vm_compute; discriminate|]. split; [vm_compute; intros H; apply H; reflexivity|].
  intros x H. apply item_element in H. discriminate.
Qed.
