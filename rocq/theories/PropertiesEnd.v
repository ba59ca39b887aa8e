(** Property C76: runs with the default termination conditions, AllHaveRun() for the environment state
    update and Never() for the environment sequence (or AllHaveRun of listed nodes ds), end exactly
    when every node has been executed in them, whatever the conditions of the nodes are. *)
From Verif Require Import BaseFacts SpecEnd SafeFacts EndFacts RunExamples.

(** a run that returns has executed every node *)
Theorem C76_all_have_run : forall m0 g0 ys m g ds fuel m' g' l, running m0 g0 ys m g -> g_pc g0 = PStart -> x_total (m_ctxs m0 (g_eid g0)) <> None ->
  until_all_have_run ds m g -> resume fuel m g = (m', g', OReturn l) -> forall n, In n (awaited ds m0) -> exists s, In s ys /\ In n s.
Proof.
  intros m0 g0 ys m g ds fuel m' g' l R Hp T U E n I. apply in_concat. exact (all_ran_at_return _ _ _ _ _ _ _ _ _ _ R Hp T U E n I).
Qed.
Print Assumptions C76_all_have_run.
(** as soon as the sets yielded contain every node, the next resumption returns *)
Theorem C76_returns_at_once : forall m0 g0 ys m g ds fuel h0, running m0 g0 ys m g -> g_pc g0 = PStart -> ys <> [] -> x_total (m_ctxs m0 (g_eid g0)) <> None ->
  clock_after ESU h0 (the_clock (m_ctxs m0 (g_eid g0))) -> until_all_have_run ds m g -> incl ds (m_nodes m0) ->
  (forall n, In n (awaited ds m0) -> exists s, In s ys /\ In n s) -> exists m' g' l, resume (S fuel) m g = (m', g', OReturn l).
Proof.
  intros m0 g0 ys m g ds fuel h0 R Hp Ne T K U Id I. apply (returns_at_once m0 g0 ys m g ds fuel h0 R Hp Ne T K U Id).
  intros n N. apply in_concat. exact (I n N).
Qed.
Print Assumptions C76_returns_at_once.
(** calling next() on a generator of a scheduler (with no fixed bound on the number of calls) until
    it returns: every node of the scheduler is in one of the sets *)
Theorem C76_scheduler : forall cyc arr fuel steps d g d1 u d' g' ys l ds, sync cyc arr d = (Ok u, d1) -> g_pc g = PStart ->
  x_total (d_ctxs d (g_eid g)) <> None -> until_all_have_run ds (core_of d1) g ->
  sdrive cyc arr steps fuel d g [] = (d', g', ys, OReturn l) ->
  forall n, In n (match ds with [] => d_nodes d | _ => ds end) -> exists s, In s ys /\ In n s.
Proof.
  intros cyc arr fuel steps d g d1 u d' g' ys l ds S Hp T U H n I. apply in_concat. exact (sched_all_ran cyc arr fuel steps d g d1 u d' g' ys l ds S Hp T U H n I).
Qed.
Print Assumptions C76_scheduler.
(** so a node that cannot be executed makes the run go on for ever *)
Theorem C76_shut_out : forall b m0 g0 ys m g ds fuel m' g' l, running_while (shut_out b) m0 g0 ys m g -> g_pc g0 = PStart ->
  x_total (m_ctxs m0 (g_eid g0)) <> None -> until_all_have_run ds m g -> In b (awaited ds m0) ->
  ~ In b (concat ys) /\ resume fuel m g <> (m', g', OReturn l).
Proof. intros. split; [eapply shut_out_never|eapply shut_out_forever]; eauto. Qed.
Print Assumptions C76_shut_out.
(** conditions that are never satisfied *)
Theorem C76_unsatisfiable : (forall o, unsatisfiable (Never o)) /\ (forall o o', unsatisfiable (Not o (Always o'))) /\
  (forall o cs c, In c cs -> unsatisfiable c -> unsatisfiable (All o cs)) /\
  (forall o cs, (forall c, In c cs -> unsatisfiable c) -> unsatisfiable (Any o cs)) /\
  (forall o c n, unsatisfiable c \/ n = 0 -> unsatisfiable (NWhen o c n)).
Proof.
  split; [exact unsatisfiable_never|]. split; [exact unsatisfiable_not_always|]. split; [exact unsatisfiable_all|].
  split; [exact unsatisfiable_any|exact unsatisfiable_nwhen].
Qed.
Print Assumptions C76_unsatisfiable.

(** A -> B -> C with B every 2 calls of A, C every 2 calls of B: the run ends when C has run *)
Definition ex_until : gen := new_gen 0 0 None false.
Example ex_C76 : running ex_core ex_until (map snd ex_yields) (ex_state 7 ex_core ex_until) (ex_at 7 ex_core ex_until) /\
  g_pc ex_until = PStart /\ map snd ex_yields <> [] /\ x_total (m_ctxs ex_core 0) <> None /\ clock_after ESU [] (the_clock (m_ctxs ex_core 0)) /\
  until_all_have_run [] (ex_state 7 ex_core ex_until) (ex_at 7 ex_core ex_until) /\ awaited [] ex_core = [tA; tB; tC] /\
  incl (awaited [] ex_core) (concat (map snd ex_yields)) /\ ~ incl (awaited [] ex_core) (concat (map snd (firstn 6 ex_yields))).
Proof.
  split; [apply passes_running, ex_running; vm_compute; reflexivity|]. split; [reflexivity|]. split; [discriminate|]. split; [discriminate|].
  split; [apply ca_new; reflexivity|]. split; [split; eexists; vm_compute; reflexivity|]. split; [vm_compute; reflexivity|].
  assert (E : awaited [] ex_core = [tA; tB; tC]) by (vm_compute; reflexivity). rewrite E. split.
  - intros n N. simpl in N. destruct N as [<-|[<-|[<-|[]]]]; vm_compute; auto 10.
  - intros H. specialize (H tC). assert (X : In tC (concat (map snd (firstn 6 ex_yields)))) by (apply H; simpl; auto).
    vm_compute in X. intuition discriminate.
Qed.
(** B has the condition All(Always(), Never()): A is executed again and again *)
Definition ex_stuck : core := core_of (t_sched gAB [(tB, All 11 [Always 12; Never 13])]).
Lemma ex_stuck_out : shut_out tB ex_stuck.
Proof.
  right. eexists. split; [vm_compute; reflexivity|]. apply (unsatisfiable_all 11 _ (Never 13)); [simpl; auto|exact (unsatisfiable_never 13)].
Qed.
Example ex_C76_shut_out : running_while (shut_out tB) ex_stuck ex_until [[tA]; [tA]] (ex_state 2 ex_stuck ex_until) (ex_at 2 ex_stuck ex_until) /\
  until_all_have_run [] (ex_state 2 ex_stuck ex_until) (ex_at 2 ex_stuck ex_until) /\ In tB (awaited [] ex_stuck) /\ x_total (m_ctxs ex_stuck 0) <> None.
Proof.
  assert (O : forall m, m_basic m = m_basic (ex_state 1 ex_stuck ex_until) -> shut_out tB m).
  { intros m E. right. rewrite E. eexists. split; [vm_compute; reflexivity|]. apply (unsatisfiable_all 11 _ (Never 13)); [simpl; auto|exact (unsatisfiable_never 13)]. }
  split.
  - assert (R : running_while (shut_out tB) ex_stuck ex_until [[tA]] (ex_state 1 ex_stuck ex_until) (ex_at 1 ex_stuck ex_until)).
    { change [[tA]] with ([] ++ [[tA]]). apply rw_yields with ex_stuck ex_until 5; [apply rw_created, ex_stuck_out|vm_compute; reflexivity|apply O; reflexivity]. }
    change [[tA]; [tA]] with ([[tA]] ++ [[tA]]). apply rw_yields with (ex_state 1 ex_stuck ex_until) (ex_at 1 ex_stuck ex_until) 5; [exact R|vm_compute; reflexivity|apply O; vm_compute; reflexivity].
  - split; [split; eexists; vm_compute; reflexivity|]. split; [vm_compute; auto|discriminate].
Qed.
(** with C76_scheduler: the scheduler of ex_C76 *)
Example ex_C76_scheduler : let d := t_sched gABC [(tA, EveryNPasses 10 1 ESU); (tB, EveryNCalls 11 tA 2); (tC, EveryNCalls 12 tB 2)] in
  fst (sync ref_simple_cycles (fun q => q) d) = Ok tt /\ until_all_have_run [] (core_of (snd (sync ref_simple_cycles (fun q => q) d))) ex_until /\
  snd (fst (sdrive ref_simple_cycles (fun q => q) 20 5 d ex_until [])) = map snd ex_yields /\ snd (sdrive ref_simple_cycles (fun q => q) 20 5 d ex_until []) = OReturn (map snd ex_yields) /\
  d_nodes d = [tA; tB; tC].
Proof. split; [vm_compute; reflexivity|]. split; [split; eexists; vm_compute; reflexivity|]. split; [vm_compute; reflexivity|]. split; vm_compute; reflexivity. Qed.
