(** Property theorems C63: runs whose termination conditions bound the number of passes come to an
    end.

    [over_at n c] (SpecLive.v): c never comes out false when it is evaluated in pass n.  [fit]
    (SpecSafe.v) is what C62 requires for a run that does not raise.  [drive steps fuel] resumes a
    generator up to [steps] times and gives up (with [OFuel], not [OReturn]) if it takes more
    resumptions, or more than [fuel] passes without a yield. *)
From Verif Require Import LiveFacts RunExamples.

(** From a state in which pass n is not over yet, the run returns; it yields no more sets than
    there are consideration sets in the passes before pass n. *)
Theorem C63_run_returns : forall cyc arr W ran d g n steps fuel d1, sync cyc arr d = (Ok tt, d1) -> fit W ran (core_of d1) g -> g_pc g = PStart ->
  pass_number (core_of d1) (g_eid g) <= n -> ends_at_pass n (core_of d1) g -> n < fuel ->
  (n - pass_number (core_of d1) (g_eid g)) * sets_per_pass (core_of d1) < steps ->
  exists d' g' ys l, sdrive cyc arr steps fuel d g [] = (d', g', ys, OReturn l) /\
    length ys <= (n - pass_number (core_of d1) (g_eid g)) * sets_per_pass (core_of d1).
Proof. exact sched_bounded_run. Qed.
Print Assumptions C63_run_returns.
(** In particular: a new scheduler for an acyclic graph with safe conditions, run with a termination
    condition (at either scale) that is over in pass n: the run returns after at most n passes. *)
Theorem C63_new_scheduler : forall cyc arr input base conds tc deid exact du ow nx w r d (W : world -> Prop) b tca skip n s c steps fuel,
  (forall q, Forall2 (@Permutation node) q (arr q)) -> arg_graph input = Ok base -> wf_graph base -> closed_graph base -> ~ cyclic base -> base <> [] ->
  new_sched cyc arr input conds tc deid exact du ow nx w = (Ok r, d) -> cs_order (d_cs d) = [] ->
  (forall o, nx <= o -> d_owners d o = None) -> W w ->
  (forall n c, aget n (cs_basic (d_cs d)) = Some c -> safe (gkeys base) deid W False (d_owners d) c) ->
  (forall s c, s = ESU \/ s = ES -> (tc = Some c \/ tca = Some c) -> forall x, c s = Some x -> safe (gkeys base) deid W False (d_owners d) x) ->
  s = ESU \/ s = ES -> (exists t, tca = Some t /\ t s = Some c) -> over_at n c -> n < fuel -> n * sets_per_pass (core_of d) < steps ->
  exists d' g' ys l, sdrive cyc arr steps fuel d (new_gen deid b tca skip) [] = (d', g', ys, OReturn l) /\ length ys <= n * sets_per_pass (core_of d).
Proof. exact new_bounded_run. Qed.
Print Assumptions C63_new_scheduler.
(** Such termination conditions: the conditions on the number of passes, Any with one of them among
    its conditions, and All of them. *)
Theorem C63_conditions :
  (forall o n, over_at n (AtPass o n ESU)) /\ (forall o m n, m < n -> over_at n (AfterPass o m ESU)) /\ (forall o m n, m <= n -> over_at n (AfterNPasses o m ESU)) /\
  (forall o m n, 0 < m -> n mod m = 0 -> over_at n (EveryNPasses o m ESU)) /\
  (forall n o cs c, In c cs -> over_at n c -> over_at n (Any o cs)) /\ (forall n o cs, (forall c, In c cs -> over_at n c) -> over_at n (All o cs)).
Proof.
  split; [intros o n; apply (over_at_atoms o n)|]. split; [intros o m n; apply (over_at_atoms o n)|]. split; [intros o m n; apply (over_at_atoms o n)|].
  split; [intros o m n; apply (over_at_atoms o n)|]. split; [exact over_at_any|exact over_at_all].
Qed.
Print Assumptions C63_conditions.

(** A -> B; B never runs, so the default condition AllHaveRun would never end the run; with
    Any(AllHaveRun, AtPass(3)) it returns *)
Definition ex_live_new : res unit * sched := new_sched ref_simple_cycles (fun q => q) (t_graph gAB)
  [(tA, One (Basic (EveryNPasses 10 2 ESU))); (tB, One (Basic (Never 11)))] None 0 false (ms 1) (fun _ => None) 100 t_world.
Definition ex_live : sched := snd ex_live_new.
Definition ex_live_tc : option tconds := Some (t_tc None (Some (Any 91 [AllHaveRun 92 [] ESU; AtPass 93 3 ESU]))).
Example ex_C63 : (forall steps fuel, 3 < fuel -> 6 < steps ->
    exists d' g' ys l, sdrive ref_simple_cycles (fun q => q) steps fuel ex_live (new_gen 0 0 ex_live_tc false) [] = (d', g', ys, OReturn l) /\ length ys <= 6) /\
  t_out ex_live_tc ex_live = [[tA]; []; [tA]].
Proof.
  split; [|vm_compute; reflexivity]. intros steps fuel Lf Ls.
  assert (N : ex_live_new = (Ok tt, ex_live)) by (vm_compute; reflexivity).
  assert (S6 : 3 * sets_per_pass (core_of ex_live) = 6) by (vm_compute; reflexivity). rewrite <- S6 in Ls. rewrite <- S6.
  eapply (C63_new_scheduler ref_simple_cycles (fun q => q) _ gAB _ _ _ _ _ _ _ _ _ _ (fun _ => True) 0 ex_live_tc false 3 ESU); [..|exact N| | | | | | | | |exact Lf|exact Ls].
  - intros q. induction q; auto.
  - reflexivity.
  - vm_compute. repeat constructor; simpl; intuition discriminate.
  - intros a b (l & A & I). vm_compute. vm_compute in A. destruct b as [|[|b]]; try discriminate; injection A as <-; simpl in I; intuition.
  - apply (TopoProofs.toposort_ok_iff gAB); [vm_compute; repeat constructor; simpl; intuition discriminate|eexists; vm_compute; reflexivity].
  - discriminate.
  - reflexivity.
  - intros o Ho. do 100 (destruct o as [|o]; [lia|]). reflexivity.
  - exact Logic.I.
  - intros n c A. vm_compute in A. destruct n as [|[|n]]; try discriminate; injection A as <-; simpl; repeat split; auto; try lia; vm_compute; lia.
  - intros s c D [X|X] x Hx; [discriminate|]. injection X as <-. destruct D as [->| ->]; simpl in Hx; [|discriminate]. injection Hx as <-. simpl.
    split; [apply incl_nil_l|]. unfold ts_lt, ts_le. simpl. repeat split; lia.
  - auto.
  - eexists. split; reflexivity.
  - apply (over_at_any _ _ _ (AtPass 93 3 ESU)); [simpl; auto|apply (over_at_atoms 93 3)].
Qed.
