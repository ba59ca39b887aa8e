(** Property theorems about clocks and time conditions (C38 - C40, C18).
    Histories are lists of clock increments, oldest first; [clock_after md h k] says that k is
    a clock created with tree depth md and incremented by the elements of h.  A Scheduler's
    clocks have depth ENVIRONMENT_STATE_UPDATE. *)
From Verif Require Import SpecTime SpecCond TimeProofs CondProofs.

(** ** C38 *)
Theorem C38_relative_total : forall md h k q b h2, clock_after md h k ->
  ts_lt q b -> ts_le md b -> since_at_least b h h2 ->
  clock_total_relative q b k = Ok (count q h2).
Proof. exact total_relative. Qed.
Print Assumptions C38_relative_total.
Theorem C38_root_total : forall md h k q, clock_after md h k -> ts_lt q LIFE -> h_total (k_tree k) q = count q h.
Proof. exact root_total. Qed.
Print Assumptions C38_root_total.
(** a base finer than the tree depth raises TimeScaleError *)
Theorem C38_too_fine : forall md h k q b, clock_after md h k -> ts_lt q b -> ts_lt b md ->
  clock_total_relative q b k = Err ETimeScale.
Proof. exact total_relative_too_fine. Qed.
Print Assumptions C38_too_fine.
(** finding: a query that is not finer than the base silently counts over the whole life *)
Theorem C38_coarse_query : forall md h k q b, clock_after md h k -> ts_le b q -> ts_lt q LIFE ->
  clock_total_relative q b k = Ok (count q h).
Proof. exact total_relative_coarse_query. Qed.
Print Assumptions C38_coarse_query.
(** every history without LIFE increments happens; LIFE increments are refused *)
Theorem C38_histories : forall md h, ts_lt CSE md -> no_life h -> exists k, clock_after md h k.
Proof. exact clock_after_exists. Qed.
Print Assumptions C38_histories.
Theorem C38_no_life : forall md h k k', clock_after md h k -> clock_incr LIFE k <> Ok k'.
Proof. exact clock_incr_no_life. Qed.
Print Assumptions C38_no_life.
(** finding: the documentation of max_depth allows any time scale, but a history that is to
    keep every CONSIDERATION_SET_EXECUTION cannot be created; all others can *)
Theorem C38_max_depth_refuted : clock_md CSE = None /\ (forall md, ts_lt CSE md -> exists k, clock_md md = Some k).
Proof. split; [reflexivity|]. intros [] L; try (eexists; reflexivity). unfold ts_lt in L; simpl in L. inversion L. Qed.
Print Assumptions C38_max_depth_refuted.

(** ** C39 *)
Theorem C39_time_component : forall md h k s h2, clock_after md h k -> since_coarser s h h2 ->
  t_val (k_time k) s = count s h2.
Proof. exact time_component. Qed.
Print Assumptions C39_time_component.
Theorem C39_previous_time : forall s k k', clock_incr s k = Ok k' -> k_prev k' = Some (k_time k).
Proof. exact clock_incr_prev. Qed.
Print Assumptions C39_previous_time.
(** a new clock: nothing has happened, no absolute time has passed, and a step lasts one unit *)
Theorem C39_new_clock : (forall s, t_val (k_time new_clock) s = 0) /\ (t_abs (k_time new_clock) == 0)%Q /\ (t_interval (k_time new_clock) == 1)%Q /\
  t_abs_enabled (k_time new_clock) = false /\ k_prev new_clock = None.
Proof. repeat split. Qed.
Print Assumptions C39_new_clock.

(** ** C40 *)
Theorem C40_past_scope : forall md h k q i j, clock_after md h k -> ts_lt q ESU -> ts_le md ESU ->
  tree_total_relative q (fun s => match s with ES => Some i | ESU => Some j | LIFE => Some 0 | _ => None end) (k_tree k) =
  match nth_error (segments ES h) i with
  | Some u => match nth_error (segments ESU u) j with
              | Some v => Ok (count q v)
              | None => Err ETimeScale
              end
  | None => Err ETimeScale
  end.
Proof. exact past_scope. Qed.
Print Assumptions C40_past_scope.
Theorem C40_past_sequence : forall md h k q i, clock_after md h k -> ts_lt q ES -> ts_le md ES ->
  tree_total_relative q (fun s => match s with ES => Some i | LIFE => Some 0 | _ => None end) (k_tree k) =
  match nth_error (segments ES h) i with
  | Some u => Ok (count q u)
  | None => Err ETimeScale
  end.
Proof. exact past_scope_es. Qed.
Print Assumptions C40_past_sequence.

(** Any combination of indices: the count over the part of the history chosen by them; a
    TimeScaleError if there is no such part or the clock does not keep track of it. *)
Theorem C40_indices : forall md h k q idx b, clock_after md h k -> finest_given q idx b ->
  (ts_le md b -> tree_total_relative q idx (k_tree k) = match part idx (down_to b) h with Some u => Ok (count q u) | None => Err ETimeScale end) /\
  (ts_lt b md -> tree_total_relative q idx (k_tree k) = Err ETimeScale).
Proof. exact past_indices. Qed.
Print Assumptions C40_indices.
(** Clock.get_total_times_relative(q, b, base_index=i): the i-th unit of scale b in the latest units
    of the coarser scales *)
Theorem C40_clock : forall md h k q b i, clock_after md h k -> ts_lt q b -> ts_le md b -> ts_lt b LIFE ->
  clock_total_relative_at q b i k =
  match part (fun s => if ts_eqb s b then Some i else None) (down_to b) h with Some u => Ok (count q u) | None => Err ETimeScale end.
Proof.
  intros md h k q b i H Lq Lm Lb. unfold clock_total_relative_at. set (idx := fun s => if ts_eqb s b then Some i else _).
  assert (F : finest_given q idx b).
  { split; auto. split.
    - right. unfold idx. assert (X : ts_eqb b b = true) by (destruct b; reflexivity). rewrite X. discriminate.
    - intros s Ls N. unfold idx in N. destruct s, b; unfold ts_le, ts_lt in *; simpl in *; try lia; congruence. }
  rewrite (proj1 (past_indices md h k q idx b H F) Lm).
  assert (E : forall cs h, (forall c, In c cs -> c <> LIFE) -> part idx cs h = part (fun s => if ts_eqb s b then Some i else None) cs h).
  { induction cs as [|c cs IH]; intros h' N; auto. cbn [part]. unfold chosen, idx at 1.
    assert (X : ts_eqb c LIFE = false) by (specialize (N c (or_introl eq_refl)); destruct c; try reflexivity; congruence). rewrite X.
    destruct (ts_eqb c b); (destruct (nth_error _ _); [apply IH; intros x I; apply N; right; auto|auto]). }
  rewrite E; auto. intros c I. destruct b; simpl in I; intuition; subst; discriminate.
Qed.
Print Assumptions C40_clock.
(** two environment state updates with 3 and 1 passes *)
Definition indices_ex : list timescale := [PASS; PASS; PASS; ESU; PASS].
Example ex_C40_indices : (exists k, clock_after ESU indices_ex k) /\
  finest_given PASS (fun s => match s with ESU => Some 0 | LIFE => Some 0 | _ => None end) ESU /\
  part (fun s => match s with ESU => Some 0 | LIFE => Some 0 | _ => None end) (down_to ESU) indices_ex = Some [PASS; PASS; PASS] /\
  part (fun s => if ts_eqb s ESU then Some 1 else None) (down_to ESU) indices_ex = Some [PASS].
Proof.
  split; [apply clock_after_exists; [unfold ts_lt; simpl; auto|repeat constructor]|].
  split; [|split; reflexivity]. split; [unfold ts_lt; simpl; auto|]. split; [right; discriminate|].
  intros s L N. destruct s; unfold ts_lt, ts_le in *; simpl in *; try lia; congruence.
Qed.

(** ** C18 *)
Theorem C18_consideration_set_executions : forall v e ow st o n s h k,
  clock_after ESU h (v_clock v) -> ts_le ESU s -> units_within CSE s h k ->
  decides (is_satisfied v e ow st (BeforeConsiderationSetExecution o n s)) (k < n) /\
  decides (is_satisfied v e ow st (AtConsiderationSetExecution o n s)) (k = n) /\
  decides (is_satisfied v e ow st (AfterConsiderationSetExecution o n s)) (k > n) /\
  decides (is_satisfied v e ow st (AfterNConsiderationSetExecutions o n s)) (k >= n).
Proof. exact cse_conditions. Qed.
Print Assumptions C18_consideration_set_executions.
Theorem C18_passes : forall v e ow st o n s h k,
  clock_after ESU h (v_clock v) -> ts_le ESU s -> units_within PASS s h k ->
  decides (is_satisfied v e ow st (BeforePass o n s)) (k < n) /\
  decides (is_satisfied v e ow st (AtPass o n s)) (k = n) /\
  decides (is_satisfied v e ow st (AfterPass o n s)) (k > n) /\
  decides (is_satisfied v e ow st (AfterNPasses o n s)) (k >= n) /\
  (n > 0 -> decides (is_satisfied v e ow st (EveryNPasses o n s)) (Nat.divide n k)).
Proof. exact pass_conditions. Qed.
Print Assumptions C18_passes.
Theorem C18_environment_state_updates : forall v e ow st o n s h k,
  clock_after ESU h (v_clock v) -> ts_le ES s -> units_within ESU s h k ->
  decides (is_satisfied v e ow st (BeforeEnvironmentStateUpdate o n s)) (k < n) /\
  decides (is_satisfied v e ow st (AtEnvironmentStateUpdate o n s)) (k = n) /\
  decides (is_satisfied v e ow st (AfterEnvironmentStateUpdate o n s)) (k > n) /\
  decides (is_satisfied v e ow st (AfterNEnvironmentStateUpdates o n s)) (k >= n).
Proof. exact esu_conditions. Qed.
Print Assumptions C18_environment_state_updates.
Theorem C18_environment_sequences : forall v e ow st o n h, clock_after ESU h (v_clock v) ->
  decides (is_satisfied v e ow st (AtEnvironmentSequence o n)) (count ES h = n) /\
  decides (is_satisfied v e ow st (AfterEnvironmentSequence o n)) (count ES h > n) /\
  decides (is_satisfied v e ow st (AfterNEnvironmentSequences o n)) (count ES h >= n).
Proof. exact sequence_conditions. Qed.
Print Assumptions C18_environment_sequences.

(** ** A concrete history meeting the hypotheses: two environment state updates, the first
    with a pass of two consideration set executions, the second in its second pass. *)
Definition ex_history : list timescale := [CSE; CSE; PASS; ESU; CSE; PASS; CSE].
Example ex_clock : exists k, clock_after ESU ex_history k /\ clock_total_relative PASS ESU k = Ok 1
  /\ clock_total_relative CSE LIFE k = Ok 4.
Proof.
  destruct (clock_after_exists ESU ex_history) as (k & H).
  - unfold ts_lt; simpl; lia.
  - repeat constructor.
  - exists k; split; auto. split.
    + apply (total_relative ESU ex_history k PASS ESU [CSE; PASS; CSE]); auto; try (unfold ts_lt, ts_le; simpl; lia).
      split; [repeat constructor|]. right; exists [CSE; CSE; PASS], ESU; split; auto; unfold ts_le; auto.
    + apply (total_relative ESU ex_history k CSE LIFE ex_history); auto; try (unfold ts_lt, ts_le; simpl; lia).
      split; [repeat constructor|auto].
Qed.
Example ex_segments : segments ES ex_history = [ex_history] /\
  segments ESU ex_history = [[CSE; CSE; PASS]; [CSE; PASS; CSE]].
Proof. split; reflexivity. Qed.
