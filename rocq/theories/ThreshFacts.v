(** Lemmas for the constructor of Threshold. *)
From Verif Require Export SpecThresh CondFacts AliasFacts.

Lemma operators : forall s c, sget s comparison_operators = Some c <-> operator_string s c.
Proof.
  intros s c. split.
  - intros H. apply sget_pair in H. simpl in H.
    repeat match type of H with _ \/ _ => destruct H as [H|H] end; try contradiction; injection H as <- <-; constructor.
  - intros H; destruct H; reflexivity.
Qed.
Lemma indices_are : forall a, match norm_indices a with None => [] | Some l => l end = indices_of a.
Proof. intros [|[]| |]; reflexivity. Qed.
Lemma validated : forall w d par val, validate_parameter w d par val = None <-> parameter_accepted w d par val.
Proof. intros w d par [f|]; simpl; [tauto|]. destruct (w_param w d par); split; congruence. Qed.

Theorem threshold_accepts : forall o w d par t s ia atol rtol get val,
  (exists c, new_threshold o w d par t s ia atol rtol get val = Ok c) <-> parameter_accepted w d par val /\ exists c, operator_string s c.
Proof.
  intros. unfold new_threshold. split.
  - intros [c H]. destruct (validate_parameter w d par val) eqn:V; [discriminate|]. split; [apply validated; auto|].
    destruct (sget s comparison_operators) as [k|] eqn:E; [|discriminate]. exists k. apply operators; auto.
  - intros [A [k K]]. apply validated in A. apply operators in K. rewrite A, K. eauto.
Qed.
Theorem threshold_rejects : forall o w d par t s ia atol rtol get val ex, new_threshold o w d par t s ia atol rtol get val = Err ex ->
  ex = ECondition \/ exists f, val = Some f /\ f d par w = Some ex.
Proof.
  intros o w d par t s ia atol rtol get val ex. unfold new_threshold. destruct (validate_parameter w d par val) as [x|] eqn:V.
  - intros H; injection H as <-. destruct val as [f|]; simpl in V; [right; eauto|]. destruct (w_param w d par); [discriminate|]. injection V as <-. auto.
  - destruct (sget s comparison_operators); intros H; [discriminate|]. injection H as <-. auto.
Qed.

(** evaluation of a constructed condition *)
Lemma threshold_eval : forall o w d par t s ia atol rtol get val c k v e ow st r w', new_threshold o w d par t s ia atol rtol get val = Ok c ->
  operator_string s k -> parameter_read get e (s_world st) d par r w' ->
  is_satisfied v e ow st c = bind r (threshold_of t k (norm_indices ia) atol rtol) /\ s_world (state_after v e ow st c) = w'.
Proof.
  intros o w d par t s ia atol rtol get val c k v e ow st r w' H K R. apply operators in K. unfold new_threshold in H.
  destruct (validate_parameter w d par val); [discriminate|]. rewrite K in H. unfold parameter_read in R. unfold is_satisfied, state_after.
  destruct get as [f|]; injection H as <-; simpl.
  - rewrite R. simpl. auto.
  - destruct R as [-> R]. destruct (w_param (s_world st) d par); subst r; simpl; auto.
Qed.
Theorem threshold_constructed : forall o w d par t s ia atol rtol get val c k v e ow st p w' x, new_threshold o w d par t s ia atol rtol get val = Ok c ->
  operator_string s k -> parameter_read get e (s_world st) d par (Ok p) w' -> at_index p (indices_of ia) (PNum x) ->
  decides (is_satisfied v e ow st c) (compares k x t atol rtol) /\ s_world (state_after v e ow st c) = w'.
Proof.
  intros o w d par t s ia atol rtol get val c k v e ow st p w' x H K R A.
  destruct (threshold_eval _ _ _ _ _ _ _ _ _ _ _ _ _ v _ ow _ _ _ H K R) as [E W]. split; auto. rewrite E. simpl. unfold threshold_of.
  rewrite <- indices_are in A. apply index_value_spec in A. destruct (norm_indices ia) as [l|].
  - rewrite A. simpl. eexists; split; [reflexivity|]. apply threshold_cmp_spec.
  - simpl in A. injection A as ->. simpl. eexists; split; [reflexivity|]. apply threshold_cmp_spec.
Qed.
Lemma index_value_app : forall a p b q, at_index p a q -> index_value p (a ++ b) = index_value q b.
Proof. intros a p b q H; induction H; simpl; auto. apply item_element in H. rewrite H. auto. Qed.
Lemma threshold_of_at : forall t k a atol rtol p,
  threshold_of t k (norm_indices a) atol rtol p = bind (index_value p (indices_of a)) (fun y => match y with PNum q => Ok (threshold_cmp k q t atol rtol) | PSeq _ => Err EType end).
Proof. intros. unfold threshold_of. rewrite <- indices_are. destruct (norm_indices a); auto. Qed.
Theorem threshold_errors : forall o w d par t s ia atol rtol get val c v e ow st r w', new_threshold o w d par t s ia atol rtol get val = Ok c ->
  parameter_read get e (s_world st) d par r w' ->
  (forall ex, r = Err ex -> is_satisfied v e ow st c = Err ex) /\
  (forall p l, r = Ok p -> at_index p (indices_of ia) (PSeq l) -> is_satisfied v e ow st c = Err EType) /\
  (forall p a i b x, r = Ok p -> indices_of ia = a ++ i :: b -> at_index p a (PNum x) -> is_satisfied v e ow st c = Err EType) /\
  (forall p a i b l, r = Ok p -> indices_of ia = a ++ i :: b -> at_index p a (PSeq l) -> (forall x, ~ element l i x) -> is_satisfied v e ow st c = Err EIndex).
Proof.
  intros o w d par t s ia atol rtol get val c v e ow st r w' H R.
  assert (K : exists k, operator_string s k) by (eapply threshold_accepts; eauto). destruct K as [k K].
  destruct (threshold_eval _ _ _ _ _ _ _ _ _ _ _ _ _ v _ ow _ _ _ H K R) as [E W].
  split; [|split; [|split]].
  - intros ex ->. rewrite E. reflexivity.
  - intros p l -> A. rewrite E. simpl. rewrite threshold_of_at. apply index_value_spec in A. rewrite A. reflexivity.
  - intros p a i b x -> I A. rewrite E. simpl. rewrite threshold_of_at, I. rewrite (index_value_app _ _ _ _ A). reflexivity.
  - intros p a i b l -> I A N. rewrite E. simpl. rewrite threshold_of_at, I. rewrite (index_value_app _ _ _ _ A). simpl.
    destruct (item l i) as [y|] eqn:Y; [|reflexivity]. apply item_element in Y. destruct (N _ Y).
Qed.
