(** C66: consecutive runs of one execution id are numbered. *)
From Verif Require Import SpecSession SessionFacts RunExamples PropertiesRate RateFacts.

(** On a clock that is new at the beginning, the number of the environment sequence is the number of
    calls of end_environment_sequence, and the number of the environment state update is the number
    of (numbered) runs that have returned in the current sequence; the totals add up over the whole
    life, with the sets yielded as consideration set executions. *)
Theorem C66_numbers : forall e m0 h m h2, session e m0 h m -> the_clock (m_ctxs m0 e) = new_clock -> this_sequence h h2 ->
  let k := the_clock (m_ctxs m e) in
  t_val (k_time k) ES = sequences_ended h /\ t_val (k_time k) ESU = runs_returned h2 /\
  clock_total_relative ESU ES k = Ok (runs_returned h2) /\ clock_total_relative CSE ES k = Ok (executions_of h2) /\
  clock_total_relative ES LIFE k = Ok (sequences_ended h) /\ clock_total_relative ESU LIFE k = Ok (runs_returned h) /\
  clock_total_relative CSE LIFE k = Ok (executions_of h).
Proof. exact session_numbers. Qed.
Print Assumptions C66_numbers.
(** The clock also tells of the past: how many updates there were in the i-th sequence, and how many
    consideration set executions in the j-th update of the i-th sequence; asking about a sequence or
    an update that has not been reached is an error. *)
Theorem C66_past : forall e m0 h m i j, session e m0 h m -> the_clock (m_ctxs m0 e) = new_clock ->
  let t := k_tree (the_clock (m_ctxs m e)) in
  tree_total_relative ESU (fun s => match s with ES => Some i | LIFE => Some 0 | _ => None end) t =
    (match nth_error (by_sequence h) i with Some s => Ok (runs_returned s) | None => Err ETimeScale end) /\
  tree_total_relative CSE (fun s => match s with ES => Some i | ESU => Some j | LIFE => Some 0 | _ => None end) t =
    (match nth_error (by_sequence h) i with
     | Some s => match nth_error (by_update s) j with Some u => Ok (executions_of u) | None => Err ETimeScale end
     | None => Err ETimeScale
     end).
Proof. exact session_past. Qed.
Print Assumptions C66_past.
(** The execution list holds every set yielded, in order, over all runs and sequences. *)
Theorem C66_execution_list : forall e m0 h m l0, session e m0 h m -> x_list (m_ctxs m0 e) = Some l0 ->
  x_list (m_ctxs m e) = Some (l0 ++ sets_of h).
Proof. exact session_list. Qed.
Print Assumptions C66_execution_list.
(** counts_total: over the life, all executions; for the environment state update, those of the run
    started last. *)
Theorem C66_counts : forall e m0 h m t0, session e m0 h m -> x_total (m_ctxs m0 e) = Some t0 ->
  exists t, x_total (m_ctxs m e) = Some t /\ forall n,
    t LIFE n = t0 LIFE n + occurrences n (sets_of h) /\ t ES n = t0 ES n + occurrences n (sets_of h) /\
    forall ys, last_run h ys -> t ESU n = occurrences n ys.
Proof. exact session_counts. Qed.
Print Assumptions C66_counts.

(** Conditions on the number of the update in its sequence and on the number of the sequence, and
    their combinations with each other and with conditions on the pass, depend on nothing else. *)
Theorem C66_conditions : forall u w,
  (forall o n, in_update u w (fun _ => Nat.ltb u n) (BeforeEnvironmentStateUpdate o n ES) /\ in_update u w (fun _ => Nat.eqb u n) (AtEnvironmentStateUpdate o n ES) /\
     in_update u w (fun _ => Nat.ltb n u) (AfterEnvironmentStateUpdate o n ES) /\ in_update u w (fun _ => Nat.leb n u) (AfterNEnvironmentStateUpdates o n ES)) /\
  (forall o n, in_update u w (fun _ => Nat.eqb w n) (AtEnvironmentSequence o n) /\ in_update u w (fun _ => Nat.ltb n w) (AfterEnvironmentSequence o n) /\
     in_update u w (fun _ => Nat.leb n w) (AfterNEnvironmentSequences o n)) /\
  (forall o, in_update u w (fun k => Nat.eqb k 0) (AtEnvironmentStateUpdateStart o) /\ in_update u w (fun _ => Nat.eqb u 0) (AtEnvironmentSequenceStart o)) /\
  (forall o o1 o2 n, in_update u w (fun k => Nat.eqb k 0 && Nat.eqb u n) (AtEnvironmentStateUpdateNStart o o1 o2 n ES) /\
     in_update u w (fun _ => Nat.eqb u 0 && Nat.eqb w n) (AtEnvironmentSequenceNStart o o1 o2 n)) /\
  (forall f c, by_pass f c -> in_update u w f c) /\
  (forall o f c, in_update u w f c -> in_update u w (fun k => negb (f k)) (Not o c)) /\
  (forall o fs cs, Forall2 (in_update u w) fs cs -> in_update u w (fun k => forallb (fun f => f k) fs) (All o cs)) /\
  (forall o fs cs, Forall2 (in_update u w) fs cs -> in_update u w (fun k => existsb (fun f => f k) fs) (Any o cs)).
Proof.
  intros u w. split; [|split; [|split; [|split]]].
  - intros o n. pose proof (in_update_atoms u w o n). tauto.
  - intros o n. pose proof (in_update_atoms u w o n). tauto.
  - intros o. split; [apply in_update_pass, by_pass_atoms|apply in_update_atoms].
  - intros o o1 o2 n. split.
    + apply (in_update_ext u w (fun k => forallb (fun f => f k) [(fun k => Nat.eqb k 0); (fun _ => Nat.eqb u n)])).
      * intros j. simpl. rewrite andb_true_r. reflexivity.
      * apply in_update_all. constructor; [apply in_update_pass, by_pass_atoms|]. constructor; [apply in_update_atoms|constructor].
    + apply (in_update_ext u w (fun k => forallb (fun f => f k) [(fun _ => Nat.eqb u 0); (fun _ => Nat.eqb w n)])).
      * intros j. simpl. rewrite andb_true_r. reflexivity.
      * apply in_update_all. constructor; [apply in_update_atoms|]. constructor; [apply in_update_atoms|constructor].
  - split; [exact (in_update_pass u w)|]. split; [exact (in_update_not u w)|]. split; [exact (in_update_all u w)|exact (in_update_any u w)].
Qed.
Print Assumptions C66_conditions.
(** A node with such a condition, in the run that follows the events h: it runs once in each pass
    that is over in which the condition holds for the numbers of this update and this sequence, and
    in no other pass. *)
Theorem C66_node : forall e m0 h m h2 g ts m' g' b c f lb, session e m0 h m -> the_clock (m_ctxs m0 e) = new_clock -> this_sequence h h2 ->
  g_eid g = e -> g_pc g = PStart -> running_while_in_passes (ruled g b c) m g ts m' g' -> queue_built m -> In lb (queue m) -> In b lb ->
  in_update (runs_returned h2) (sequences_ended h) f c ->
  (forall k, pass_number m e <= k < pass_number m' e -> occurrences b (in_pass k ts) = if f k then 1 else 0) /\
  (forall k, f k = false -> occurrences b (in_pass k ts) = 0).
Proof. exact session_node. Qed.
Print Assumptions C66_node.
(** In particular a node with AtEnvironmentStateUpdate(n) runs in run number n of a sequence only. *)
Theorem C66_at_update : forall e m0 h m h2 g ts m' g' b o n lb, session e m0 h m -> the_clock (m_ctxs m0 e) = new_clock -> this_sequence h h2 ->
  g_eid g = e -> g_pc g = PStart -> running_while_in_passes (ruled g b (AtEnvironmentStateUpdate o n ES)) m g ts m' g' -> queue_built m -> In lb (queue m) -> In b lb ->
  (runs_returned h2 = n -> forall k, pass_number m e <= k < pass_number m' e -> occurrences b (in_pass k ts) = 1) /\
  (runs_returned h2 <> n -> forall k, occurrences b (in_pass k ts) = 0).
Proof.
  intros e m0 h m h2 g ts m' g' b o n lb S C T Ge Hp R Q Il Ib.
  destruct (C66_node _ _ _ _ _ _ _ _ _ _ _ (fun _ => Nat.eqb (runs_returned h2) n) _ S C T Ge Hp R Q Il Ib) as [A B]; [apply in_update_atoms|]. split.
  - intros E k Hk. rewrite (A k Hk), (proj2 (Nat.eqb_eq _ _) E). reflexivity.
  - intros N k. apply B, Nat.eqb_neq, N.
Qed.
Print Assumptions C66_at_update.

(** ** Examples *)
(** A -> B, A in update 1 of a sequence only, B in every pass; every run takes two passes *)
Definition ex_sess_core : core := core_of (t_sched gAB [(tA, AtEnvironmentStateUpdate 10 1 ES); (tB, Always 11)]).
Definition ex_sess_gen : gen := new_gen 0 0 (Some (t_tc (Some (Never 90)) (Some (AfterNPasses 91 2 ESU)))) false.
Definition ex_done (n : nat) (m : core) : core := fst (fst (resume 5 (ex_state n m ex_sess_gen) (ex_at n m ex_sess_gen))).
Lemma ex_returned : forall n m ys l, map snd (fst (fst (run_n n 5 m ex_sess_gen []))) = ys ->
  snd (resume 5 (ex_state n m ex_sess_gen) (ex_at n m ex_sess_gen)) = OReturn l -> returned m ex_sess_gen ys (ex_done n m) l.
Proof.
  intros n m ys l <- E. unfold ex_done. destruct (resume 5 (ex_state n m ex_sess_gen) (ex_at n m ex_sess_gen)) as [[m1 g1] o] eqn:R. simpl in E. subst o.
  exists (ex_state n m ex_sess_gen), (ex_at n m ex_sess_gen), 5, g1. split; [|exact R]. apply passes_running. apply ex_running; reflexivity.
Qed.
Definition ex_sess1 : core := ex_done 2 ex_sess_core.
Definition ex_sess2 : core := ex_done 4 ex_sess1.
Definition ex_end (m : core) : core := match end_environment_sequence m 0 with Ok m => m | Err _ => m end.
Lemma ex_ended : forall m, match end_environment_sequence m 0 with Ok _ => true | Err _ => false end = true -> end_environment_sequence m 0 = Ok (ex_end m).
Proof. intros m E. unfold ex_end. destruct (end_environment_sequence m 0); [reflexivity|discriminate]. Qed.
Definition ex_sess3 : core := ex_end ex_sess2.
Definition ex_sess4 : core := ex_state 2 ex_sess3 ex_sess_gen.
Definition ex_h1 : list event := [Returned true [[tB]; [tB]]].
Definition ex_h2 : list event := ex_h1 ++ [Returned true [[tA]; [tB]; [tA]; [tB]]].
Definition ex_h3 : list event := ex_h2 ++ [Ended].
Definition ex_h4 : list event := ex_h3 ++ [Left [[tB]; [tB]]].
Lemma ex_session1 : session 0 ex_sess_core ex_h1 ex_sess1.
Proof.
  apply (se_returned 0 ex_sess_core [] ex_sess_core ex_sess_gen [[tB]; [tB]] ex_sess1 [[tB]; [tB]]); [apply se_none|reflexivity|reflexivity|].
  apply ex_returned; vm_compute; reflexivity.
Qed.
Lemma ex_session4 : session 0 ex_sess_core ex_h3 ex_sess3 /\ session 0 ex_sess_core ex_h4 ex_sess4.
Proof.
  assert (S2 : session 0 ex_sess_core ex_h2 ex_sess2).
  { apply (se_returned 0 ex_sess_core ex_h1 ex_sess1 ex_sess_gen [[tA]; [tB]; [tA]; [tB]] ex_sess2 ([[tB]; [tB]] ++ [[tA]; [tB]; [tA]; [tB]])); [apply ex_session1|reflexivity|reflexivity|].
    apply ex_returned; vm_compute; reflexivity. }
  assert (S3 : session 0 ex_sess_core ex_h3 ex_sess3).
  { apply (se_ended 0 ex_sess_core ex_h2 ex_sess2 ex_sess3 S2). apply ex_ended. vm_compute; reflexivity. }
  split; [exact S3|]. apply (se_left 0 ex_sess_core ex_h3 ex_sess3 ex_sess_gen [[tB]; [tB]] ex_sess4 (ex_at 2 ex_sess3 ex_sess_gen)); [exact S3|reflexivity|reflexivity|].
  assert (R : running ex_sess3 ex_sess_gen (map snd (fst (fst (run_n 2 5 ex_sess3 ex_sess_gen [])))) ex_sess4 (ex_at 2 ex_sess3 ex_sess_gen)) by (apply passes_running; apply ex_running; reflexivity).
  replace (map snd (fst (fst (run_n 2 5 ex_sess3 ex_sess_gen [])))) with [[tB]; [tB]] in R by (vm_compute; reflexivity). exact R.
Qed.
(** two runs, the end of the sequence and a run that is given up; then the second run, where A's
    condition holds *)
Example ex_C66 : session 0 ex_sess_core ex_h4 ex_sess4 /\ the_clock (m_ctxs ex_sess_core 0) = new_clock /\ this_sequence ex_h4 [Left [[tB]; [tB]]] /\
  sequences_ended ex_h4 = 1 /\ runs_returned ex_h4 = 2 /\ executions_of ex_h4 = 7 /\
  by_sequence ex_h4 = [ex_h2; [Left [[tB]; [tB]]]] /\ by_update ex_h2 = [ex_h1; [Returned true [[tA]; [tB]; [tA]; [tB]]]; []] /\
  last_run ex_h4 [[tB]; [tB]].
Proof.
  split; [apply ex_session4|]. split; [reflexivity|]. split; [split; [simpl; intuition; discriminate|right; exists ex_h2; reflexivity]|].
  do 5 (split; [reflexivity|]). exists ex_h3, (Left [[tB]; [tB]]), []. split; [reflexivity|]. split; [simpl; discriminate|]. split; [reflexivity|]. intros x [].
Qed.
Example ex_C66_node : session 0 ex_sess_core ex_h1 ex_sess1 /\ this_sequence ex_h1 ex_h1 /\ runs_returned ex_h1 = 1 /\
  running_while_in_passes (ruled ex_sess_gen tA (AtEnvironmentStateUpdate 10 1 ES)) ex_sess1 ex_sess_gen [(0, [tA]); (0, [tB]); (1, [tA]); (1, [tB])] (ex_state 4 ex_sess1 ex_sess_gen) (ex_at 4 ex_sess1 ex_sess_gen) /\
  queue_built ex_sess1 /\ In [tA] (queue ex_sess1) /\ pass_number (ex_state 4 ex_sess1 ex_sess_gen) 0 = 1.
Proof.
  split; [exact ex_session1|]. split; [split; [simpl; intuition; discriminate|left; reflexivity]|]. split; [reflexivity|]. split.
  - apply ex_running_while; [reflexivity|vm_compute; reflexivity|].
    intros k Lk. assert (k = 0 \/ k = 1 \/ k = 2 \/ k = 3 \/ k = 4) as X by lia.
    assert (T : forall s, run_tc (ex_state k ex_sess1 ex_sess_gen) ex_sess_gen s = run_tc ex_sess_core ex_sess_gen s).
    { intros s. repeat (destruct X as [->|X]; [destruct s; vm_compute; reflexivity|]). subst k; destruct s; vm_compute; reflexivity. }
    split.
    + clear T. repeat (destruct X as [->|X]; [vm_compute; reflexivity|]). subst k; vm_compute; reflexivity.
    + intros s c E. rewrite T in E. destruct s; vm_compute in E; try discriminate; injection E as <-; apply over_carries;
        first [apply over_counts; exact I|apply over_time; auto; unfold ts_lt, ts_le; simpl; lia].
  - split; [|split; vm_compute; auto]. split; [vm_compute; repeat constructor; simpl; intuition; discriminate|]. eexists. split; [vm_compute; reflexivity|]. vm_compute. repeat constructor.
Qed.
(** finding: the counts for the environment sequence are not those of the current sequence.  Ending a
    sequence (or starting a run in a new one) does not set them to zero. *)
Theorem C66_sequence_counts_refuted : exists e m0 h m h2 t n, session e m0 h m /\ m_ctxs m0 e = fresh_ctx /\ this_sequence h h2 /\
  x_total (m_ctxs m e) = Some t /\ t ES n <> occurrences n (sets_of h2).
Proof.
  assert (X : exists t, x_total (m_ctxs ex_sess4 0) = Some t /\ t ES tA = 2) by (eexists; split; vm_compute; reflexivity).
  destruct X as (t & E & N). exists 0, ex_sess_core, ex_h4, ex_sess4, [Left [[tB]; [tB]]], t, tA.
  split; [apply ex_session4|]. split; [reflexivity|]. split; [split; [simpl; intuition; discriminate|right; exists ex_h2; reflexivity]|].
  split; [exact E|]. rewrite N. discriminate.
Qed.
Print Assumptions C66_sequence_counts_refuted.
