(** Property theorems C59: the exact rate of EveryNCalls.

    [running_while_in_passes (paced g0 b d n) m0 g0 ts m g] (SpecRate.v) says: the generator g0,
    created in state m0, has yielded the sets ts (with the pass numbers shown by the clock); at
    all times the condition of b was EveryNCalls(d, n) and the termination conditions were ones
    that stay true over the end of a pass. *)
From Verif Require Import RateFacts RunExamples.

(** d has its turn no later than b.  Over the passes that are over, b ran once for every n runs
    of d, rounded down; *)
Theorem C59_exact_rate : forall m0 g0 ts m g b d n h0, running_while_in_passes (paced g0 b d n) m0 g0 ts m g -> g_pc g0 = PStart ->
  queue_built m0 -> not_later (queue m0) d b -> d <> b -> 1 <= n -> clock_after ESU h0 (the_clock (m_ctxs m0 (g_eid g0))) ->
  forall k, k <= pass_number m (g_eid g0) -> occurrences b (before_pass k ts) = occurrences d (before_pass k ts) / n.
Proof. intros m0 g0 ts m g b d n h0 R Hp Q L N Hn C. apply (rate_bounds _ _ _ _ _ _ _ _ _ R Hp Q L N Hn C). Qed.
Print Assumptions C59_exact_rate.
(** at any moment b is at most one run behind; *)
Theorem C59_at_most_one_behind : forall m0 g0 ts m g b d n h0, running_while_in_passes (paced g0 b d n) m0 g0 ts m g -> g_pc g0 = PStart ->
  queue_built m0 -> not_later (queue m0) d b -> d <> b -> 1 <= n -> clock_after ESU h0 (the_clock (m_ctxs m0 (g_eid g0))) ->
  n * occurrences b (map snd ts) <= occurrences d (map snd ts) <= n * occurrences b (map snd ts) + n.
Proof. intros m0 g0 ts m g b d n h0 R Hp Q L N Hn C. apply (rate_bounds _ _ _ _ _ _ _ _ _ R Hp Q L N Hn C). Qed.
Print Assumptions C59_at_most_one_behind.
(** and whenever b has just run, d has run exactly n times as often *)
Theorem C59_when_b_runs : forall m0 g0 ts k s m g b d n h0, running_while_in_passes (paced g0 b d n) m0 g0 (ts ++ [(k, s)]) m g -> g_pc g0 = PStart ->
  queue_built m0 -> not_later (queue m0) d b -> d <> b -> 1 <= n -> clock_after ESU h0 (the_clock (m_ctxs m0 (g_eid g0))) -> In b s ->
  occurrences d (map snd (ts ++ [(k, s)])) = n * occurrences b (map snd (ts ++ [(k, s)])).
Proof. intros m0 g0 ts k s m g b d n h0 R Hp Q L N Hn C I. destruct (rate_bounds _ _ _ _ _ _ _ _ _ R Hp Q L N Hn C) as (_ & _ & Z). eapply Z; eauto. Qed.
Print Assumptions C59_when_b_runs.
(** [not_later] holds when d is a sender of b, in any scheduling mode *)
Theorem C59_senders : forall m d b, queue_built m -> closed_graph (m_graph m) -> edge (m_graph m) d b -> d <> b -> not_later (queue m) d b.
Proof. exact sender_not_later. Qed.
Print Assumptions C59_senders.
(** and the default termination condition, those on numbers of calls, passes, consideration
    sets and updates reached, and All and Any of them, are such termination conditions *)
Theorem C59_termination_conditions :
  (forall c, settles c -> keeps_true c) /\
  (forall o ds n d x s, settles (Always o) /\ settles (Never o) /\ settles (AllHaveRun o ds s) /\ settles (AfterNCalls o d n s) /\ settles (AfterCall o d n s) /\
     settles (AtNCalls o d n s) /\ settles (AfterNCallsCombined o ds x s) /\ settles (JustRan o d)) /\
  (forall o n s, ts_le ESU s -> settles (AfterNPasses o n s) /\ settles (AfterPass o n s) /\ settles (AfterNConsiderationSetExecutions o n s) /\
     settles (AfterConsiderationSetExecution o n s)) /\
  (forall o n s, ts_le ES s -> settles (AfterNEnvironmentStateUpdates o n s) /\ settles (AfterEnvironmentStateUpdate o n s)) /\
  (forall o cs, (forall c, In c cs -> settles c) -> settles (Any o cs)) /\
  (forall o cs, (forall c, In c cs -> keeps_true c) -> keeps_true (All o cs)).
Proof.
  split; [exact settles_keeps|]. split; [|split; [|split; [|split; [exact settles_any|exact keeps_all]]]].
  - intros. repeat split; apply settles_counts; exact I.
  - intros o n s L. repeat split; apply settles_time; auto; unfold ts_lt, ts_le in *; simpl in *; lia.
  - intros o n s L. repeat split; apply settles_time; auto; unfold ts_lt, ts_le in *; simpl in *; lia.
Qed.
Print Assumptions C59_termination_conditions.

(** the same with a property of the states *)
Lemma run_n_while : forall (P : core -> Prop) m0 g0 fuel n m g acc, g_pc g0 = PStart -> running_while_in_passes P m0 g0 acc m g -> g_eid g = g_eid g0 ->
  (forall k, k <= n -> P (snd (fst (run_n k fuel m g acc)))) ->
  running_while_in_passes P m0 g0 (fst (fst (run_n n fuel m g acc))) (snd (fst (run_n n fuel m g acc))) (snd (run_n n fuel m g acc)).
Proof.
  induction n as [|n IH]; intros m g acc Hp R Ee H; simpl; auto.
  destruct (resume fuel m g) as [[m1 g1] [s| | | |]] eqn:E; auto.
  assert (P1 : P m1). { specialize (H 1). cbn [run_n] in H. rewrite E in H. apply H; lia. }
  rewrite Ee. apply IH; auto.
  - eapply rwp_yields; eauto.
  - apply (yield_theorem _ _ _ _ _ _ _ _ _ (proj1 (rwp_passes _ _ _ _ _ _ R)) Hp E).
  - intros k Lk. specialize (H (S k)). cbn [run_n] in H. rewrite E, Ee in H. apply H; lia.
Qed.
Lemma ex_running_while : forall (P : core -> Prop) n m0 g0 ts, g_pc g0 = PStart -> fst (fst (run_n n 5 m0 g0 [])) = ts ->
  (forall k, k <= n -> P (ex_state k m0 g0)) -> running_while_in_passes P m0 g0 ts (ex_state n m0 g0) (ex_at n m0 g0).
Proof. intros P n m0 g0 ts Hp <- H. apply run_n_while; auto. apply rwp_created. apply (H 0); lia. Qed.

(** finding: without the hypothesis on termination conditions a pass may be cut between d and b
    and the run may go on nevertheless, so that b misses its turn: here b has EveryNCalls(d, 1) *)
Definition ex_cut_core : core := core_of (t_sched gAB [(tA, Always 10); (tB, EveryNCalls 11 tA 1)]).
Theorem C59_cut_pass_refuted : exists m0 g0 ts m g, running_while_in_passes (every_n_calls tB tA 1) m0 g0 ts m g /\ g_pc g0 = PStart /\
  queue_built m0 /\ not_later (queue m0) tA tB /\ clock_after ESU [] (the_clock (m_ctxs m0 (g_eid g0))) /\
  exists k, k <= pass_number m (g_eid g0) /\ occurrences tB (before_pass k ts) = 0 /\ occurrences tA (before_pass k ts) = 1.
Proof.
  exists ex_cut_core, ex_sticky_gen, [(0, [tA]); (1, [tA])], (ex_state 2 ex_cut_core ex_sticky_gen), (ex_at 2 ex_cut_core ex_sticky_gen). splits.
  - apply ex_running_while; [reflexivity|vm_compute; reflexivity|].
    intros k Lk. assert (k = 0 \/ k = 1 \/ k = 2) as [->|[->| ->]] by lia; exists 11; split; vm_compute; reflexivity.
  - split; [vm_compute; repeat constructor; simpl; intuition; discriminate|]. eexists. split; [vm_compute; reflexivity|]. vm_compute. repeat constructor.
  - exists 0, 1, [tA], [tB]. splits; simpl; auto.
  - apply ca_new. reflexivity.
  - exists 1. splits; vm_compute; auto.
Qed.
Print Assumptions C59_cut_pass_refuted.

(** A -> B -> C, B every 2 calls of A, C every 2 calls of B, until C has run *)
Example ex_C59 : running_while_in_passes (paced ex_gen tB tA 2) ex_core ex_gen ex_yields (ex_state 7 ex_core ex_gen) (ex_at 7 ex_core ex_gen) /\
  not_later (queue ex_core) tA tB /\ clock_after ESU [] (the_clock (m_ctxs ex_core 0)) /\
  pass_number (ex_state 7 ex_core ex_gen) 0 = 3 /\ occurrences tA (before_pass 3 ex_yields) = 3 /\ occurrences tB (before_pass 3 ex_yields) = 1.
Proof.
  splits.
  - apply ex_running_while; [reflexivity|vm_compute; reflexivity|].
    intros k Lk. split.
    + assert (k = 0 \/ k = 1 \/ k = 2 \/ k = 3 \/ k = 4 \/ k = 5 \/ k = 6 \/ k = 7) as X by lia.
      repeat (destruct X as [->|X]; [exists 11; split; vm_compute; reflexivity|]). subst k; exists 11; split; vm_compute; reflexivity.
    + assert (T : forall s, run_tc (ex_state k ex_core ex_gen) ex_gen s = run_tc ex_core ex_gen s).
      { assert (k = 0 \/ k = 1 \/ k = 2 \/ k = 3 \/ k = 4 \/ k = 5 \/ k = 6 \/ k = 7) as X by lia.
        intros s. repeat (destruct X as [->|X]; [destruct s; vm_compute; reflexivity|]). subst k; destruct s; vm_compute; reflexivity. }
      intros s c E. rewrite T in E. destruct s; vm_compute in E; try discriminate; injection E as <-; apply settles_keeps, settles_counts; exact I.
  - exists 0, 1, [tA], [tB]. splits; simpl; auto.
  - apply ca_new. reflexivity.
Qed.
