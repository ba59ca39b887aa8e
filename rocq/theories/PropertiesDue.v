(** Property theorems C65: runs end because the nodes that are due run.

    [due m0 p0 p b r] (SpecDue.v): by the conditions alone, in a run that begins in pass p0 node b
    is executed at least r times before pass p.  It follows from the conditions of the nodes that b
    waits for, and from those of the nodes these wait for, and so on. *)
From Verif Require Import DueFacts RunExamples PropertiesRate.

(** A node that is due is executed as often as it is due, in every run that gets as far as pass p,
    as long as nobody changes the conditions and the termination conditions, once true, stay true
    until the next pass. *)
Theorem C65_due_nodes_run : forall m0 g0 ts m g h0, running_while_in_passes (unchanged g0 m0) m0 g0 ts m g -> g_pc g0 = PStart -> queue_built m0 ->
  (forall n, In n (m_nodes m0) -> exists level, In level (queue m0) /\ In n level) -> clock_after ESU h0 (the_clock (m_ctxs m0 (g_eid g0))) -> lasting m0 g0 ->
  forall p b r, due m0 (pass_number m0 (g_eid g0)) p b r -> p <= pass_number m (g_eid g0) -> r <= occurrences b (before_pass p ts).
Proof. exact due_runs. Qed.
Print Assumptions C65_due_nodes_run.
(** So a run whose termination condition waits for executions that are due before pass p returns,
    after no more sets than there are consideration sets in the passes before pass p.  mb is the
    state in which the nodes without a condition have their default condition. *)
Theorem C65_run_returns : forall cyc arr W ran d g mb N p steps fuel d1, sync cyc arr d = (Ok tt, d1) -> fit W ran (core_of d1) g -> g_pc g = PStart ->
  queue_built (core_of d1) -> add_defaults (m_nodes (core_of d1)) (core_of d1) = Ok mb -> lasting (core_of d1) g -> ends_after N (core_of d1) g ->
  (forall n, In n (m_nodes (core_of d1)) -> 0 < N n -> due mb (pass_number (core_of d1) (g_eid g)) p n (N n)) -> 2 <= fuel ->
  (p - pass_number (core_of d1) (g_eid g)) * sets_per_pass (core_of d1) < steps ->
  exists d' g' ys l, sdrive cyc arr steps fuel d g [] = (d', g', ys, OReturn l) /\ length ys <= (p - pass_number (core_of d1) (g_eid g)) * sets_per_pass (core_of d1).
Proof. exact sched_due_run. Qed.
Print Assumptions C65_run_returns.
(** In particular: a new scheduler for an acyclic graph with safe conditions. *)
Theorem C65_new_scheduler : forall cyc arr input base conds tc deid exact du ow nx w r d (W : world -> Prop) b tca skip mb N p steps fuel,
  (forall q, Forall2 (@Permutation node) q (arr q)) -> arg_graph input = Ok base -> wf_graph base -> closed_graph base -> ~ cyclic base -> base <> [] ->
  new_sched cyc arr input conds tc deid exact du ow nx w = (Ok r, d) -> cs_order (d_cs d) = [] ->
  (forall o, nx <= o -> d_owners d o = None) -> W w ->
  (forall n c, aget n (cs_basic (d_cs d)) = Some c -> safe (gkeys base) deid W False (d_owners d) c) ->
  (forall s c, s = ESU \/ s = ES -> (tc = Some c \/ tca = Some c) -> forall x, c s = Some x -> safe (gkeys base) deid W False (d_owners d) x) ->
  add_defaults (gkeys base) (core_of d) = Ok mb -> lasting (core_of d) (new_gen deid b tca skip) -> ends_after N (core_of d) (new_gen deid b tca skip) ->
  (forall n, In n (gkeys base) -> 0 < N n -> due mb 0 p n (N n)) -> 2 <= fuel -> p * sets_per_pass (core_of d) < steps ->
  exists d' g' ys l, sdrive cyc arr steps fuel d (new_gen deid b tca skip) [] = (d', g', ys, OReturn l) /\ length ys <= p * sets_per_pass (core_of d).
Proof. exact new_due_run. Qed.
Print Assumptions C65_new_scheduler.
(** The default termination conditions wait for one execution of every node; they stay true. *)
Theorem C65_default_termination : forall m g a b, (forall s, run_tc m g s = default_tc a b s) -> lasting m g /\ ends_after (fun _ => 1) m g.
Proof.
  intros m g a b E. split.
  - intros s t X. rewrite E in X. destruct s; simpl in X; try discriminate; injection X as <-; apply over_carries; apply over_counts; exact I.
  - exists ESU. eexists. split; [auto|]. split; [rewrite E; reflexivity|]. apply (enough_have_run (fun _ => True) 0 _ []).
Qed.
Print Assumptions C65_default_termination.

(** A -> B -> C; B after every two calls of A, C after every three calls of B, A has the default
    condition: the run returns, after at most six passes *)
Definition ex_due_new : res unit * sched := new_sched ref_simple_cycles (fun q => q) (t_graph gABC)
  [(tB, One (Basic (EveryNCalls 10 tA 2))); (tC, One (Basic (EveryNCalls 11 tB 3)))] None 0 false (ms 1) (fun _ => None) 100 t_world.
Definition ex_due : sched := snd ex_due_new.
Definition ex_due_mb : core := match add_defaults (gkeys gABC) (core_of ex_due) with Ok x => x | Err _ => core_of ex_due end.
Lemma ex_due_all : forall n, In n (gkeys gABC) -> due ex_due_mb 0 6 n 1.
Proof.
  assert (A : due ex_due_mb 0 6 tA 6).
  { eapply (due_passes ex_due_mb 0 6 tA _ (fun _ => true)); [vm_compute; auto|vm_compute; reflexivity|]. apply (by_pass_atoms _ 0). }
  assert (B : due ex_due_mb 0 6 tB 3).
  { eapply (due_every _ _ _ _ 10 tA 2); [vm_compute; auto|vm_compute; reflexivity|vm_compute; reflexivity|lia|discriminate| |exact A].
    exists 0, 1, [tA], [tB]. vm_compute. auto 10. }
  assert (C : due ex_due_mb 0 6 tC 1).
  { eapply (due_every _ _ _ _ 11 tB 3); [vm_compute; auto 10|vm_compute; reflexivity|vm_compute; reflexivity|lia|discriminate| |exact B].
    exists 1, 2, [tB], [tC]. vm_compute. auto 10. }
  intros n I. vm_compute in I. destruct I as [<-|[<-|[<-|[]]]]; [eapply due_weaker; [exact A| |]|eapply due_weaker; [exact B| |]|exact C]; lia.
Qed.
Example ex_C65 : (forall steps fuel, 2 <= fuel -> 18 < steps ->
    exists d' g' ys l, sdrive ref_simple_cycles (fun q => q) steps fuel ex_due (new_gen 0 0 None false) [] = (d', g', ys, OReturn l) /\ length ys <= 18) /\
  t_out None ex_due = [[tA]; [tA]; [tB]; [tA]; [tA]; [tB]; [tA]; [tA]; [tB]; [tC]].
Proof.
  split; [|vm_compute; reflexivity]. intros steps fuel Lf Ls.
  assert (N : ex_due_new = (Ok tt, ex_due)) by (vm_compute; reflexivity).
  assert (S6 : 6 * sets_per_pass (core_of ex_due) = 18) by (vm_compute; reflexivity). rewrite <- S6 in Ls. rewrite <- S6.
  destruct (C65_default_termination (core_of ex_due) (new_gen 0 0 None false) 0 1) as (T1 & T2). { intros []; vm_compute; reflexivity. }
  eapply (C65_new_scheduler ref_simple_cycles (fun q => q) _ gABC _ _ _ _ _ _ _ _ _ _ (fun _ => True) 0 None false ex_due_mb (fun _ => 1) 6); [..|exact N| | | | | |vm_compute; reflexivity|exact T1|exact T2| |exact Lf|exact Ls].
  - intros q. induction q; auto.
  - reflexivity.
  - vm_compute. repeat constructor; simpl; intuition discriminate.
  - intros a b (l & A & I). vm_compute. vm_compute in A. destruct b as [|[|[|b]]]; try discriminate; injection A as <-; simpl in I; intuition.
  - apply (TopoProofs.toposort_ok_iff gABC); [vm_compute; repeat constructor; simpl; intuition discriminate|eexists; vm_compute; reflexivity].
  - discriminate.
  - reflexivity.
  - intros o Ho. do 100 (destruct o as [|o]; [lia|]). reflexivity.
  - exact Logic.I.
  - intros n c A. vm_compute in A. destruct n as [|[|[|n]]]; try discriminate; injection A as <-; simpl; repeat split; auto; try lia; vm_compute; auto; try lia; try discriminate; (eexists; split; [reflexivity|auto]).
  - intros s c D [X|X] x Hx; discriminate.
  - intros n I _. apply ex_due_all. exact I.
Qed.
(** A -> B, A in every second pass, B after two executions of A: B is due twice before pass 4 *)
Example ex_C65_after : due (core_of (t_sched gAB [(tA, EveryNPasses 10 2 ESU); (tB, AfterNCalls 11 tA 2 ESU)])) 0 4 tB 2.
Proof.
  set (m0 := core_of _).
  assert (A : due m0 0 3 tA 2).
  { eapply (due_passes m0 0 3 tA _ (fun k => Nat.eqb (k mod 2) 0)); [vm_compute; auto|vm_compute; reflexivity|]. apply (by_pass_atoms _ 2). lia. }
  eapply (due_from m0 0 2 tB _ (only tA 2) 0 (fun _ => 3) 2); [vm_compute; auto|vm_compute; reflexivity|apply enough_calls|lia|lia| |].
  - intros d _ L. unfold only in L. destruct (Nat.eqb d tA) eqn:E; [|lia]. apply Nat.eqb_eq in E. subst d. left. split; [|reflexivity].
    exists 0, 1, [tA], [tB]. vm_compute. auto 10.
  - intros d _ L. unfold only in *. destruct (Nat.eqb d tA) eqn:E; [|lia]. apply Nat.eqb_eq in E. subst d. exact A.
Qed.
