(** Property theorems C64: a node that is due runs.

    [at_turn m0 e b k ts v] (SpecTurn.v): v shows what has happened by the end of the turn of b in
    pass k, namely the executions of every node in the earlier passes and, for the nodes that are
    not in a later consideration set than b, in pass k itself. *)
From Verif Require Import TurnFacts RunExamples PropertiesRate.

(** In every pass that is over, b either ran once or its condition was false in view of exactly
    that; no other circumstance can keep it from running. *)
Theorem C64_runs_or_false_at_its_turn : forall m0 g0 ts m g b c (Own : (oid -> option node) -> Prop) lb h0, running_while_in_passes (fun m => ruled g0 b c m /\ Own (m_owners m)) m0 g0 ts m g ->
  g_pc g0 = PStart -> queue_built m0 -> In lb (queue m0) -> In b lb -> clock_after ESU h0 (the_clock (m_ctxs m0 (g_eid g0))) ->
  forall k, pass_number m0 (g_eid g0) <= k < pass_number m (g_eid g0) ->
    occurrences b (in_pass k ts) = 1 \/
    (occurrences b (in_pass k ts) = 0 /\ exists v ow st st', at_turn m0 (g_eid g0) b k ts v /\ Own ow /\ eval v (g_eid g0) ow c st = (Ok false, st')).
Proof. exact turns. Qed.
Print Assumptions C64_runs_or_false_at_its_turn.
(** So b runs in every pass that is over by whose turn of b the nodes it waits for have been
    executed often enough, since the beginning of the run and since b last ran. *)
Theorem C64_runs_when_due : forall m0 g0 ts m g b c (Own : (oid -> option node) -> Prop) N M K lb h0, running_while_in_passes (fun m => ruled g0 b c m /\ Own (m_owners m)) m0 g0 ts m g ->
  g_pc g0 = PStart -> queue_built m0 -> In lb (queue m0) -> In b lb -> clock_after ESU h0 (the_clock (m_ctxs m0 (g_eid g0))) -> enough Own b N M K c ->
  forall k, pass_number m0 (g_eid g0) <= k < pass_number m (g_eid g0) -> K <= k ->
    (forall d j, In d (m_nodes m0) -> up_to (queue m0) d b k j -> N d <= occurrences d (before_pass j ts)) ->
    (forall d j n, In d (m_nodes m0) -> d <> b -> up_to (queue m0) d b k j -> runs_since d b (concat (before_pass j ts)) n -> M d <= n) ->
    occurrences b (in_pass k ts) = 1.
Proof. exact turn_enough. Qed.
Print Assumptions C64_runs_when_due.
(** Which conditions wait for what: AfterNCalls(d, n) for n executions of d, EveryNCalls(d, n) of
    owner b for n executions of d since b last ran, AllHaveRun(ds) for one of each of ds (of every
    node, if ds is empty), conditions on the pass for the pass from which on they are always true;
    All waits for the most, Any for any one. *)
Theorem C64_conditions : forall (Own : (oid -> option node) -> Prop) b,
  (forall o d n, enough Own b (only d n) (fun _ => 0) 0 (AfterNCalls o d n ESU)) /\
  (forall o d n, (forall ow, Own ow -> ow o = Some b) -> d <> b -> enough Own b (fun _ => 0) (only d n) 0 (EveryNCalls o d n)) /\
  (forall o ds, enough Own b (match ds with [] => fun _ => 1 | _ => fun x => if mem x ds then 1 else 0 end) (fun _ => 0) 0 (AllHaveRun o ds ESU)) /\
  (forall f K c, by_pass f c -> (forall k, K <= k -> f k = true) -> enough Own b (fun _ => 0) (fun _ => 0) K c) /\
  (forall N M K o cs, Forall (enough Own b N M K) cs -> enough Own b N M K (All o cs)) /\
  (forall N M K o cs c, In c cs -> enough Own b N M K c -> enough Own b N M K (Any o cs)) /\
  (forall N M K N' M' K' c, (forall d, N d <= N' d) -> (forall d, M d <= M' d) -> K <= K' -> enough Own b N M K c -> enough Own b N' M' K' c).
Proof.
  intros Own b. split; [apply enough_calls|]. split; [apply enough_every|]. split; [apply enough_have_run|]. split; [apply enough_pass|].
  split; [apply enough_all|]. split; [apply enough_any|apply enough_more].
Qed.
Print Assumptions C64_conditions.

(** A -> B, A in every second pass, B after two executions of A *)
Definition ex_turn_core : core := core_of (t_sched gAB [(tA, EveryNPasses 10 2 ESU); (tB, AfterNCalls 11 tA 2 ESU)]).
Definition ex_turn_gen : gen := new_gen 0 0 (Some (t_tc None (Some (AfterNPasses 91 6 ESU)))) false.
Definition ex_turn_yields : list (nat * list node) := [(0, [tA]); (1, []); (2, [tA]); (2, [tB]); (3, [tB]); (4, [tA])].
Example ex_C64 : running_while_in_passes (fun m => ruled ex_turn_gen tB (AfterNCalls 11 tA 2 ESU) m /\ True) ex_turn_core ex_turn_gen ex_turn_yields (ex_state 6 ex_turn_core ex_turn_gen) (ex_at 6 ex_turn_core ex_turn_gen) /\
  queue_built ex_turn_core /\ In [tB] (queue ex_turn_core) /\ clock_after ESU [] (the_clock (m_ctxs ex_turn_core 0)) /\
  pass_number (ex_state 6 ex_turn_core ex_turn_gen) 0 = 4 /\
  (forall d j, In d (m_nodes ex_turn_core) -> up_to (queue ex_turn_core) d tB 2 j -> only tA 2 d <= occurrences d (before_pass j ex_turn_yields)) /\
  occurrences tB (in_pass 2 ex_turn_yields) = 1 /\ occurrences tB (in_pass 1 ex_turn_yields) = 0.
Proof.
  assert (L : not_later (queue ex_turn_core) tA tB) by (exists 0, 1, [tA], [tB]; vm_compute; auto 10).
  split; [|split; [|split; [|split; [|split; [|split; [|split]]]]]]; try (vm_compute; auto; fail).
  - apply ex_running_while; [reflexivity|vm_compute; reflexivity|].
    intros k Lk. assert (k = 0 \/ k = 1 \/ k = 2 \/ k = 3 \/ k = 4 \/ k = 5 \/ k = 6) as X by lia.
    assert (T : forall s, run_tc (ex_state k ex_turn_core ex_turn_gen) ex_turn_gen s = run_tc ex_turn_core ex_turn_gen s).
    { intros s. repeat (destruct X as [->|X]; [destruct s; vm_compute; reflexivity|]). subst k; destruct s; vm_compute; reflexivity. }
    split; [|auto]. split.
    + clear T. repeat (destruct X as [->|X]; [vm_compute; reflexivity|]). subst k; vm_compute; reflexivity.
    + intros s c E. rewrite T in E. destruct s; vm_compute in E; try discriminate; injection E as <-; apply over_carries;
        first [apply over_counts; exact I|apply over_time; auto; unfold ts_lt, ts_le; simpl; lia].
  - split; [vm_compute; repeat constructor; simpl; intuition; discriminate|]. eexists. split; [vm_compute; reflexivity|]. vm_compute. repeat constructor.
  - apply ca_new. reflexivity.
  - intros d j _ U. unfold only. destruct (Nat.eqb d tA) eqn:D; [|lia]. apply Nat.eqb_eq in D. subst d.
    destruct U as [[_ ->]|[U _]]; [vm_compute; auto|contradiction].
Qed.
