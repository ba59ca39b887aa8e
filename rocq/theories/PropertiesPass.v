(** Property theorems C60: in which passes a node runs.

    [running_while_in_passes (ruled g0 b c) m0 g0 ts m g] (SpecRate.v, SpecPass.v) says: the
    generator g0, created in state m0, has yielded the sets ts (with the pass numbers shown by
    the clock); at all times the condition of node b was c, and the termination conditions were
    ones that stay true over the end of a pass.  Passes before [pass_number m] are over. *)
From Verif Require Import PassFacts RunExamples PropertiesRate.

(** b runs once in each pass that is over in which its condition came out true at its turn, and
    not at all in those in which it came out false; *)
Theorem C60_complete_passes : forall m0 g0 ts m g b c lb h0, running_while_in_passes (ruled g0 b c) m0 g0 ts m g -> g_pc g0 = PStart ->
  queue_built m0 -> In lb (queue m0) -> In b lb -> clock_after ESU h0 (the_clock (m_ctxs m0 (g_eid g0))) ->
  forall k, pass_number m0 (g_eid g0) <= k < pass_number m (g_eid g0) ->
    exists r : bool, asked h0 c (g_eid g0) k r /\ occurrences b (in_pass k ts) = if r then 1 else 0.
Proof.
  intros m0 g0 ts m g b c lb h0 R Hp Q Il Ib C. apply In_nth_error in Il. destruct Il as (j & Hj).
  apply (passes_ruled _ _ _ _ _ _ _ _ _ _ R Hp Q Hj Ib C).
Qed.
Print Assumptions C60_complete_passes.
(** in any pass, over or not, it runs at most once, and only if its condition was true. *)
Theorem C60_no_other_pass : forall m0 g0 ts m g b c lb h0, running_while_in_passes (ruled g0 b c) m0 g0 ts m g -> g_pc g0 = PStart ->
  queue_built m0 -> In lb (queue m0) -> In b lb -> clock_after ESU h0 (the_clock (m_ctxs m0 (g_eid g0))) ->
  forall k, occurrences b (in_pass k ts) = 0 \/ (occurrences b (in_pass k ts) = 1 /\ asked h0 c (g_eid g0) k true).
Proof.
  intros m0 g0 ts m g b c lb h0 R Hp Q Il Ib C. apply In_nth_error in Il. destruct Il as (j & Hj).
  apply (runs_ruled _ _ _ _ _ _ _ _ _ _ R Hp Q Hj Ib C).
Qed.
Print Assumptions C60_no_other_pass.
(** Hence, if the condition depends on the pass only, the node runs exactly once in each pass
    that is over in which it holds, and in no other pass, whatever the rest of the graph does. *)
Theorem C60_pass_conditions : forall m0 g0 ts m g b c f lb h0, running_while_in_passes (ruled g0 b c) m0 g0 ts m g -> g_pc g0 = PStart ->
  queue_built m0 -> In lb (queue m0) -> In b lb -> clock_after ESU h0 (the_clock (m_ctxs m0 (g_eid g0))) -> by_pass f c ->
  (forall k, pass_number m0 (g_eid g0) <= k < pass_number m (g_eid g0) -> occurrences b (in_pass k ts) = if f k then 1 else 0) /\
  (forall k, f k = false -> occurrences b (in_pass k ts) = 0).
Proof.
  intros m0 g0 ts m g b c f lb h0 R Hp Q Il Ib C Hf. split.
  - intros k Hk. destruct (C60_complete_passes _ _ _ _ _ _ _ _ _ R Hp Q Il Ib C k Hk) as (r & A & E). rewrite <- (Hf _ _ _ _ A). exact E.
  - intros k Hk. destruct (C60_no_other_pass _ _ _ _ _ _ _ _ _ R Hp Q Il Ib C k) as [E|(_ & A)]; auto.
    pose proof (Hf _ _ _ _ A). congruence.
Qed.
Print Assumptions C60_pass_conditions.
(** Such conditions are Always, Never, the conditions on the number of the pass in the
    environment state update, and their combinations. *)
Theorem C60_conditions_by_pass :
  (forall o, by_pass (fun _ => true) (Always o)) /\ (forall o, by_pass (fun _ => false) (Never o)) /\
  (forall o n, by_pass (fun k => Nat.ltb k n) (BeforePass o n ESU)) /\ (forall o n, by_pass (fun k => Nat.eqb k n) (AtPass o n ESU)) /\
  (forall o n, by_pass (fun k => Nat.ltb n k) (AfterPass o n ESU)) /\ (forall o n, by_pass (fun k => Nat.leb n k) (AfterNPasses o n ESU)) /\
  (forall o n, n > 0 -> by_pass (fun k => Nat.eqb (k mod n) 0) (EveryNPasses o n ESU)) /\
  (forall o f c, by_pass f c -> by_pass (fun k => negb (f k)) (Not o c)) /\
  (forall o fs cs, Forall2 by_pass fs cs -> by_pass (fun k => forallb (fun f => f k) fs) (All o cs)) /\
  (forall o fs cs, Forall2 by_pass fs cs -> by_pass (fun k => existsb (fun f => f k) fs) (Any o cs)).
Proof.
  repeat split; try (intros o; apply (by_pass_atoms o 0)); try (intros o n; apply (by_pass_atoms o n)).
  - exact by_pass_not.
  - exact by_pass_all.
  - exact by_pass_any.
Qed.
Print Assumptions C60_conditions_by_pass.
(** The default termination conditions, those on numbers of calls, passes, consideration sets
    and updates reached, and All and Any of them, are as required. *)
Theorem C60_termination_conditions :
  (forall c, settles_over c -> carries_over c) /\
  (forall o ds n d x s, settles_over (Always o) /\ settles_over (Never o) /\ settles_over (AllHaveRun o ds s) /\ settles_over (AfterNCalls o d n s) /\
     settles_over (AfterCall o d n s) /\ settles_over (AtNCalls o d n s) /\ settles_over (AfterNCallsCombined o ds x s)) /\
  (forall o n s, ts_le ESU s -> settles_over (AfterNPasses o n s) /\ settles_over (AfterPass o n s) /\
     settles_over (AfterNConsiderationSetExecutions o n s) /\ settles_over (AfterConsiderationSetExecution o n s)) /\
  (forall o n s, ts_le ES s -> settles_over (AfterNEnvironmentStateUpdates o n s) /\ settles_over (AfterEnvironmentStateUpdate o n s)) /\
  (forall o cs, (forall c, In c cs -> settles_over c) -> settles_over (Any o cs)) /\
  (forall o cs, (forall c, In c cs -> carries_over c) -> carries_over (All o cs)).
Proof.
  split; [exact over_carries|]. split; [|split; [|split; [|split; [exact over_any|exact over_all]]]].
  - intros. repeat split; apply over_counts; exact I.
  - intros o n s L. repeat split; apply over_time; auto; unfold ts_lt, ts_le in *; simpl in *; lia.
  - intros o n s L. repeat split; apply over_time; auto; unfold ts_lt, ts_le in *; simpl in *; lia.
Qed.
Print Assumptions C60_termination_conditions.

(** finding: with a termination condition that is true in the middle of a pass only, that pass
    is given up, the run goes on, and a node with Always misses the pass *)
Theorem C60_cut_pass_refuted : exists m0 g0 ts m g, running_while_in_passes (fun m => aget tB (m_basic m) = Some (Always 11)) m0 g0 ts m g /\ g_pc g0 = PStart /\
  queue_built m0 /\ In [tB] (queue m0) /\ clock_after ESU [] (the_clock (m_ctxs m0 (g_eid g0))) /\
  pass_number m0 (g_eid g0) = 0 /\ pass_number m (g_eid g0) = 1 /\ occurrences tB (in_pass 0 ts) = 0.
Proof.
  exists ex_sticky_core, ex_sticky_gen, [(0, [tA]); (1, [tA])], (ex_state 2 ex_sticky_core ex_sticky_gen), (ex_at 2 ex_sticky_core ex_sticky_gen). splits.
  - apply ex_running_while; [reflexivity|vm_compute; reflexivity|].
    intros k Lk. assert (k = 0 \/ k = 1 \/ k = 2) as [->|[->| ->]] by lia; vm_compute; reflexivity.
  - split; [vm_compute; repeat constructor; simpl; intuition; discriminate|]. eexists. split; [vm_compute; reflexivity|]. vm_compute. repeat constructor.
  - vm_compute; auto.
  - apply ca_new. reflexivity.
Qed.
Print Assumptions C60_cut_pass_refuted.

(** A -> B, A in every second pass, B in pass 1 and from pass 4 on; pass 3 is empty *)
Definition ex_pass_b : cond := Any 11 [AtPass 12 1 ESU; AfterNPasses 13 4 ESU].
Definition ex_pass_core : core := core_of (t_sched gAB [(tA, EveryNPasses 10 2 ESU); (tB, ex_pass_b)]).
Definition ex_pass_gen : gen := new_gen 0 0 (Some (t_tc None (Some (AfterNPasses 91 6 ESU)))) false.
Definition ex_pass_yields : list (nat * list node) := [(0, [tA]); (1, [tB]); (2, [tA]); (3, []); (4, [tA]); (4, [tB]); (5, [tB])].
Example ex_C60 : running_while_in_passes (ruled ex_pass_gen tB ex_pass_b) ex_pass_core ex_pass_gen ex_pass_yields (ex_state 7 ex_pass_core ex_pass_gen) (ex_at 7 ex_pass_core ex_pass_gen) /\
  queue_built ex_pass_core /\ In [tB] (queue ex_pass_core) /\ clock_after ESU [] (the_clock (m_ctxs ex_pass_core 0)) /\
  pass_number (ex_state 7 ex_pass_core ex_pass_gen) 0 = 5 /\ by_pass (fun k => existsb (fun f => f k) [(fun k => Nat.eqb k 1); (fun k => Nat.leb 4 k)]) ex_pass_b.
Proof.
  splits.
  - apply ex_running_while; [reflexivity|vm_compute; reflexivity|].
    intros k Lk. assert (k = 0 \/ k = 1 \/ k = 2 \/ k = 3 \/ k = 4 \/ k = 5 \/ k = 6 \/ k = 7) as X by lia.
    assert (T : forall s, run_tc (ex_state k ex_pass_core ex_pass_gen) ex_pass_gen s = run_tc ex_pass_core ex_pass_gen s).
    { intros s. repeat (destruct X as [->|X]; [destruct s; vm_compute; reflexivity|]). subst k; destruct s; vm_compute; reflexivity. }
    split.
    + clear T. repeat (destruct X as [->|X]; [vm_compute; reflexivity|]). subst k; vm_compute; reflexivity.
    + intros s c E. rewrite T in E. destruct s; vm_compute in E; try discriminate; injection E as <-; apply over_carries;
        first [apply over_counts; exact I|apply over_time; auto; unfold ts_lt, ts_le; simpl; lia].
  - split; [vm_compute; repeat constructor; simpl; intuition; discriminate|]. eexists. split; [vm_compute; reflexivity|]. vm_compute. repeat constructor.
  - vm_compute; auto.
  - apply ca_new. reflexivity.
  - apply by_pass_any. repeat constructor; apply by_pass_atoms.
Qed.
