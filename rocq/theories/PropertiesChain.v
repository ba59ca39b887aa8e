(** Property theorems about chains of EveryNCalls (C72).

    [running_while_in_passes P m0 g0 ts m g] (SpecRate.v) says: the generator g0, created in
    state m0, has yielded the sets ts (with the pass numbers shown by the clock), and P held at
    all times.  Passes before [pass_number m] are over. *)
From Verif Require Import SpecChain ChainFacts RateFacts PassFacts RunExamples PropertiesRate.
From Coq Require Import Lia.

(** ** C72: the numbers along a chain of EveryNCalls multiply *)
(** b1 runs every n1 calls of d, b2 every n2 calls of b1, and so on: over the passes that are
    over, the last node of the chain ran once for every n1 * n2 * ... runs of d, rounded down. *)
Theorem C72_chain : forall l m0 g0 ts m g d h0, running_while_in_passes (fun x => chained d l x /\ tcs_keep_true g0 x) m0 g0 ts m g -> g_pc g0 = PStart ->
  queue_built m0 -> in_turn (queue m0) d l -> clock_after ESU h0 (the_clock (m_ctxs m0 (g_eid g0))) ->
  forall k, k <= pass_number m (g_eid g0) -> occurrences (end_of d l) (before_pass k ts) = occurrences d (before_pass k ts) / factor l.
Proof. exact chain_rate. Qed.
Print Assumptions C72_chain.
(** If the condition of d depends on the pass only (C60), the number of runs is known: the number
    of passes in which d's condition holds, divided by the product. *)
Theorem C72_passes : forall l m0 g0 ts m g d c f lb h0, running_while_in_passes (fun x => ruled g0 d c x /\ chained d l x) m0 g0 ts m g -> g_pc g0 = PStart ->
  queue_built m0 -> In lb (queue m0) -> In d lb -> in_turn (queue m0) d l -> clock_after ESU h0 (the_clock (m_ctxs m0 (g_eid g0))) -> by_pass f c ->
  forall i, pass_number m0 (g_eid g0) + i <= pass_number m (g_eid g0) ->
    occurrences (end_of d l) (before_pass (pass_number m0 (g_eid g0) + i) ts) = passes_with f (pass_number m0 (g_eid g0)) i / factor l.
Proof. exact chain_passes. Qed.
Print Assumptions C72_passes.
(** If d runs in every pass, the last node runs once in the passes number N, 2 N, 3 N, ... of the
    run (N being the product, the first pass being number 1), and in no other. *)
Theorem C72_schedule : forall l m0 g0 ts m g d o lb h0, running_while_in_passes (fun x => ruled g0 d (Always o) x /\ chained d l x) m0 g0 ts m g -> g_pc g0 = PStart ->
  queue_built m0 -> In lb (queue m0) -> In d lb -> in_turn (queue m0) d l -> clock_after ESU h0 (the_clock (m_ctxs m0 (g_eid g0))) ->
  forall i, pass_number m0 (g_eid g0) + i < pass_number m (g_eid g0) ->
    occurrences (end_of d l) (in_pass (pass_number m0 (g_eid g0) + i) ts) = if Nat.eqb (S i mod factor l) 0 then 1 else 0.
Proof. exact chain_schedule. Qed.
Print Assumptions C72_schedule.

(** A -> B -> C, B every 2 calls of A, C every 2 calls of B, until C has run twice *)
Definition chain_core : core :=
  core_of (t_sched gABC [(tA, Always 10); (tB, EveryNCalls 11 tA 2); (tC, EveryNCalls 12 tB 2)]).
Definition chain_gen : gen := new_gen 0 0 (Some (t_tc None (Some (AfterNCalls 91 tC 2 ESU)))) false.
Definition chain_yields : list (nat * list node) := ex_yields ++ [(4, [tA]); (5, [tA]); (5, [tB]); (6, [tA]); (7, [tA]); (7, [tB]); (7, [tC])].
Example ex_C72 : running_while_in_passes (fun x => ruled chain_gen tA (Always 10) x /\ chained tA [(tB, 2); (tC, 2)] x) chain_core chain_gen chain_yields
    (ex_state 14 chain_core chain_gen) (ex_at 14 chain_core chain_gen) /\
  queue_built chain_core /\ In [tA] (queue chain_core) /\ in_turn (queue chain_core) tA [(tB, 2); (tC, 2)] /\ clock_after ESU [] (the_clock (m_ctxs chain_core 0)) /\
  pass_number chain_core 0 = 0 /\ pass_number (ex_state 14 chain_core chain_gen) 0 = 7 /\
  occurrences tC (in_pass 3 chain_yields) = 1 /\ occurrences tC (before_pass 7 chain_yields) = 1 /\
  (exists c, run_tc chain_core chain_gen ESU = Some c /\ carries_over c).
Proof.
  assert (B : forall n, n < 15 -> n = 0 \/ n = 1 \/ n = 2 \/ n = 3 \/ n = 4 \/ n = 5 \/ n = 6 \/ n = 7 \/ n = 8 \/ n = 9 \/ n = 10 \/ n = 11 \/ n = 12 \/ n = 13 \/ n = 14) by (intros; lia).
  splits.
  - apply ex_running_while; [reflexivity|vm_compute; reflexivity|]. intros k Lk. specialize (B k ltac:(lia)).
    assert (T : forall s, run_tc (ex_state k chain_core chain_gen) chain_gen s = run_tc chain_core chain_gen s).
    { intros s. repeat (destruct B as [->|B]; [destruct s; vm_compute; reflexivity|]). subst k; destruct s; vm_compute; reflexivity. }
    split; [split|].
    + clear T. repeat (destruct B as [->|B]; [vm_compute; reflexivity|]). subst k; vm_compute; reflexivity.
    + intros s c E. rewrite T in E. destruct s; vm_compute in E; try discriminate; injection E as <-; apply over_carries; apply over_counts; exact I.
    + clear T. cbn [chained].
      assert (X : every_n_calls tB tA 2 (ex_state k chain_core chain_gen) /\ every_n_calls tC tB 2 (ex_state k chain_core chain_gen)); [|tauto].
      repeat (destruct B as [->|B]; [split; eexists; (split; vm_compute; reflexivity)|]). subst k; split; eexists; (split; vm_compute; reflexivity).
  - split; [vm_compute; repeat constructor; simpl; intuition; discriminate|]. eexists. split; [vm_compute; reflexivity|]. vm_compute. repeat constructor.
  - vm_compute. auto.
  - cbn [in_turn]. splits; try lia; try (vm_compute; discriminate).
    + exists 0, 1, [tA], [tB]. splits; simpl; auto.
    + exists 1, 2, [tB], [tC]. splits; simpl; auto.
  - apply ca_new. reflexivity.
  - eexists. split; [vm_compute; reflexivity|]. apply over_carries. apply over_counts. exact I.
Qed.
