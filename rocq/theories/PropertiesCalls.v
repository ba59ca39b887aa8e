(** Property theorems C83: how often the conditions of a run are evaluated.

    A condition may be a function written by the user, with side effects.  [calls k m] is what
    has been counted in the place k of the memory of such functions; [node_counted k b] says that
    the evaluations of the condition of node b are counted there and no others are, and
    [counting k P m0 g0 m g] that a run has got from (m0, g0) to (m, g), with P holding and
    nothing else counted in k (SpecCalls.v).  [turns j] is the number of times that the
    consideration set at position j was considered, [looks] the number of times that the
    termination conditions were looked at. *)
From Verif Require Import CallsEnds RunExamples.

(** The condition of a node is evaluated at most as many times at each turn of its consideration
    set as this set has nodes, and never in between; *)
Theorem C83_node_at_most : forall k b m0 g0 m g j lv, counting k (node_counted k b) m0 g0 m g -> queue_built m0 -> nth_error (queue m0) j = Some lv -> In b lv ->
  calls k m + length lv * turns j m0 g0 <= calls k m0 + length lv * turns j m g.
Proof. intros k b m0 g0 m g j lv C Q H I. exact (node_at_most k b m0 g0 j lv Q H I m g C). Qed.
Print Assumptions C83_node_at_most.
(** and at least once at each turn, if the termination conditions are ones that stay true once
    they are true (C81) and no absolute time is used, *)
Definition ends_well (m : core) (g : gen) (ns : list node) : Prop := stay_true ns (the_tc m g) /\ (g_pc g = PStart -> can_run m (g_eid g)).
Theorem C83_node_at_least : forall k b m0 g0 m g j lv, counting k (fun m g => node_counted k b m g /\ ends_well m g (m_nodes m0)) m0 g0 m g -> g_pc g0 = PStart ->
  queue_built m0 -> nth_error (queue m0) j = Some lv -> In b lv -> calls k m0 + turns j m g <= calls k m + turns j m0 g0.
Proof. intros k b m0 g0 m g j lv C P Q H I. exact (node_at_least k b m0 g0 j lv Q H I P m g C). Qed.
Print Assumptions C83_node_at_least.
(** or if they are never true (the user stops resuming the generator), also in absolute time. *)
Theorem C83_node_endless : forall k b m0 g0 m g j lv, counting k (fun m g => node_counted k b m g /\ forall s c, the_tc m g s = Some c -> never_true c) m0 g0 m g ->
  queue_built m0 -> nth_error (queue m0) j = Some lv -> In b lv -> calls k m0 + turns j m g <= calls k m + turns j m0 g0.
Proof. intros k b m0 g0 m g j lv C Q H I. exact (node_quiet k b m0 g0 j lv Q H I m g C). Qed.
Print Assumptions C83_node_endless.
(** Hence exactly once at each turn, for a node that is alone in its consideration set. *)
Theorem C83_node_alone : forall k b m0 g0 m g j, counting k (fun m g => node_counted k b m g /\ ends_well m g (m_nodes m0)) m0 g0 m g -> g_pc g0 = PStart ->
  queue_built m0 -> nth_error (queue m0) j = Some [b] -> calls k m0 + turns j m g = calls k m + turns j m0 g0.
Proof.
  intros k b m0 g0 m g j C P Q H. apply Nat.le_antisymm; [apply (C83_node_at_least k b m0 g0 m g j [b]); auto; left; auto|].
  assert (C' : counting k (node_counted k b) m0 g0 m g).
  { induction C as [P0 I0|m g m' C IH U P' K|m g fuel m' g' s C IH R]; [apply ct_begin; [apply P0|auto]|eapply ct_env; eauto; apply P'|eapply ct_yields; eauto]. }
  assert (X := C83_node_at_most k b m0 g0 m g j [b] C' Q H (or_introl eq_refl)). simpl in X. lia.
Qed.
Print Assumptions C83_node_alone.
(** In the resumption in which a run returns, it is evaluated only if its consideration set was
    still to come in the pass; a run that yields nothing evaluates no condition of a node. *)
Theorem C83_node_return : forall k b fuel m g m' g' l j lv, resume fuel m g = (m', g', OReturn l) -> node_counted k b m g -> queue_built m ->
  nth_error (queue m) j = Some lv -> In b lv -> in_queue m g ->
  calls k m' <= calls k m + match g_pc g with PLevel i _ => if Nat.ltb i j then length lv else 0 | _ => 0 end.
Proof. exact node_return. Qed.
Print Assumptions C83_node_return.

(** A termination condition is evaluated at most once at the beginning of a pass and at most once
    before each consideration set; *)
Theorem C83_end_at_most : forall k s m0 g0 m g, counting k (end_counted k s) m0 g0 m g -> queue_built m0 -> calls k m + looks m0 g0 <= calls k m0 + looks m g.
Proof. intros k s m0 g0 m g C Q. exact (end_at_most k s m0 g0 Q m g C). Qed.
Print Assumptions C83_end_at_most.
(** exactly once at each of these moments, as long as it and the other one are false. *)
Theorem C83_end_exactly : forall k s m0 g0 m g, counting k (fun m g => end_counted k s m g /\ forall s c, the_tc m g s = Some c -> never_true c) m0 g0 m g ->
  queue_built m0 -> calls k m + looks m0 g0 = calls k m0 + looks m g.
Proof. intros k s m0 g0 m g C Q. exact (end_exactly k s m0 g0 Q m g C). Qed.
Print Assumptions C83_end_exactly.

(** Conditions as required: a function that adds one to the place k counts there; a condition
    without functions of the user does not. *)
Theorem C83_counters : forall k, (forall o f, (forall v e own w, w_user (snd (f v e own w)) k = S (w_user w k)) -> tallies k (While o f) /\ tallies k (WhileNot o f)) /\
  (forall o f, (forall v e own w, w_user (snd (f v e own w)) k = w_user w k) -> keeps k (While o f) /\ keeps k (WhileNot o f)) /\
  (forall c, no_function c = true -> keeps k c).
Proof.
  intros k. split; [|split; [|apply no_function_keeps]]; intros o f H; split; intros v e ow st; unfold tally; cbn [While WhileNot eval eval_atom];
    specialize (H v e (ow o) (s_world st)); destruct (f v e (ow o) (s_world st)) as [[b|x] w]; exact H.
Qed.
Print Assumptions C83_counters.

(** A and B before C; A always, C every second call of A, and B when its function says so: that
    is on its fifth and sixth calls.  Four passes. *)
Definition ex_counts (k : nat) (r : nat -> bool) : userfun := fun v e own w =>
  (Ok (r (w_user w k)), mkWorld (w_finished w) (w_param w) (upd (w_user w) k (S (w_user w k)))).
Definition ex_calls_graph : graph := [(tA, []); (tB, []); (tC, [tA; tB])].
Definition ex_calls_core (c : cond) : core := core_of (t_sched ex_calls_graph [(tA, Always 10); (tB, c); (tC, EveryNCalls 12 tA 2)]).
Definition ex_calls_gen : gen := new_gen 0 0 (Some (t_tc None (Some (AfterNPasses 91 4 ESU)))) false.
Definition ex_calls_cond : cond := While 11 (ex_counts 7 (fun n => Nat.eqb n 4 || Nat.eqb n 5)).
Lemma ex_tallies : forall o k r, tallies k (While o (ex_counts k r)).
Proof. intros o k r. apply (proj1 (C83_counters k)). intros v e own w. simpl. apply upd_same. Qed.
Lemma ex_counting : forall k P m0 g0 fuel n m g acc, counting k P m0 g0 m g -> counting k P m0 g0 (snd (fst (run_n n fuel m g acc))) (snd (run_n n fuel m g acc)).
Proof.
  induction n as [|n IH]; intros m g acc C; [exact C|]. cbn [run_n]. destruct (resume fuel m g) as [[m1 g1] [s| | | |]] eqn:E; try exact C. apply IH. eapply ct_yields; eauto.
Qed.
Lemma ex_calls_built : forall c, queue_built (ex_calls_core c).
Proof. intros c. split; [vm_compute; repeat constructor; simpl; intuition; discriminate|]. eexists. split; [vm_compute; reflexivity|]. vm_compute. repeat constructor. Qed.
Lemma ex_calls_nodes : forall c n c', aget n (m_basic (ex_calls_core c)) = Some c' -> (n = tB /\ c' = c) \/ (n <> tB /\ no_function c' = true).
Proof.
  intros c n c' H. change (m_basic (ex_calls_core c)) with [(tA, Always 10); (tB, c); (tC, EveryNCalls 12 tA 2)] in H. cbn [aget] in H.
  destruct (Nat.eqb n tA) eqn:E1; [injection H as <-; right; apply Nat.eqb_eq in E1; subst; split; [discriminate|reflexivity]|].
  destruct (Nat.eqb n tB) eqn:E2; [injection H as <-; left; apply Nat.eqb_eq in E2; auto|].
  destruct (Nat.eqb n tC) eqn:E3; [injection H as <-; right; apply Nat.eqb_eq in E3; subst; split; [discriminate|reflexivity]|discriminate].
Qed.
Example ex_C83 : let m0 := ex_calls_core ex_calls_cond in let g0 := ex_calls_gen in
  counting 7 (fun m g => node_counted 7 tB m g /\ ends_well m g (m_nodes m0)) m0 g0 (ex_state 6 m0 g0) (ex_at 6 m0 g0) /\
  queue_built m0 /\ nth_error (queue m0) 0 = Some [tA; tB] /\ map snd (fst (fst (run_n 6 5 m0 g0 []))) = [[tA]; [tA]; [tC]; [tA; tB]; [tA; tB]; [tC]] /\
  calls 7 m0 = 0 /\ calls 7 (ex_state 6 m0 g0) = 6 /\ turns 0 (ex_state 6 m0 g0) (ex_at 6 m0 g0) = 4.
Proof.
  cbv zeta. split; [|split; [apply ex_calls_built|vm_compute; auto]]. apply ex_counting. apply ct_begin; [|exact I]. split; [|split].
  - constructor.
    + exists ex_calls_cond. split; [reflexivity|]. apply ex_tallies.
    + intros n c H N. apply ex_calls_nodes in H. destruct H as [[-> _]|[_ H]]; [congruence|]. apply no_function_keeps. auto.
    + intros s c H. apply no_function_keeps. destruct s; vm_compute in H; try discriminate; injection H as <-; reflexivity.
  - split; [discriminate|]. split; [discriminate|]. intros s c H. apply grows_stays. destruct s; vm_compute in H; try discriminate; injection H as <-; reflexivity.
  - intros _. constructor; [exists []; apply ca_new; reflexivity|]. intros n c H. vm_compute in H. intuition; match goal with X : _ = (n, c) |- _ => injection X as <- <-; reflexivity end.
Qed.
(** a termination condition that only counts: two consideration sets, so three times in a pass *)
Definition ex_ends_gen : gen := new_gen 0 0 (Some (t_tc (Some (Never 90)) (Some (While 91 (ex_counts 7 (fun _ => false)))))) false.
Example ex_C83_end : let m0 := ex_calls_core (Never 11) in let g0 := ex_ends_gen in
  counting 7 (fun m g => end_counted 7 ESU m g /\ forall s c, the_tc m g s = Some c -> never_true c) m0 g0 (ex_state 3 m0 g0) (ex_at 3 m0 g0) /\
  queue_built m0 /\ map snd (fst (fst (run_n 3 5 m0 g0 []))) = [[tA]; [tA]; [tC]] /\
  calls 7 m0 = 0 /\ calls 7 (ex_state 3 m0 g0) = 6 /\ looks (ex_state 3 m0 g0) (ex_at 3 m0 g0) = 6.
Proof.
  cbv zeta. split; [|split; [apply ex_calls_built|vm_compute; auto]]. apply ex_counting. apply ct_begin; [|exact I].
  assert (TC : forall s c, the_tc (ex_calls_core (Never 11)) ex_ends_gen s = Some c -> (s = ESU /\ c = While 91 (ex_counts 7 (fun _ => false))) \/ (s <> ESU /\ c = Never 90)).
  { intros s c H. destruct s; cbn in H; try discriminate; injection H as <-; [left; auto|right; split; [discriminate|auto]]. }
  split.
  - constructor; [auto| | |].
    + exists (While 91 (ex_counts 7 (fun _ => false))). split; [reflexivity|]. apply ex_tallies.
    + intros s c H N. apply TC in H. destruct H as [[-> _]|[_ ->]]; [congruence|]. apply no_function_keeps. auto.
    + intros n c H. apply ex_calls_nodes in H. destruct H as [[_ ->]|[_ H]]; apply no_function_keeps; auto.
  - intros s c H v e ow st. apply TC in H. destruct H as [[_ ->]|[_ ->]]; discriminate.
Qed.

(** It is not so that the condition of a node is evaluated once at each turn of its consideration
    set: B, whose function says no, is asked again because A, in the same set, was added; and
    whether it is asked again depends on the other node (here: A never). *)
Theorem C83_once_refuted : ~ (forall k b m0 g0 m g j lv, counting k (node_counted k b) m0 g0 m g -> queue_built m0 -> nth_error (queue m0) j = Some lv -> In b lv ->
  calls k m + turns j m0 g0 = calls k m0 + turns j m g).
Proof.
  intros H. set (m0 := ex_calls_core ex_calls_cond). set (g0 := ex_calls_gen).
  assert (C : counting 7 (node_counted 7 tB) m0 g0 (ex_state 1 m0 g0) (ex_at 1 m0 g0)).
  { apply ex_counting. apply ct_begin; [|exact I]. constructor.
    - exists ex_calls_cond. split; [reflexivity|]. apply ex_tallies.
    - intros n c X N. apply ex_calls_nodes in X. destruct X as [[-> _]|[_ X]]; [congruence|]. apply no_function_keeps. auto.
    - intros s c X. apply no_function_keeps. destruct s; vm_compute in X; try discriminate; injection X as <-; reflexivity. }
  specialize (H 7 tB m0 g0 _ _ 0 [tA; tB] C (ex_calls_built _) eq_refl (or_intror (or_introl eq_refl))). vm_compute in H. discriminate.
Qed.
Print Assumptions C83_once_refuted.
