(** Property theorems C62: runs of schedulers with suitable conditions never raise.

    [safe] and [fit] (SpecSafe.v) say what is required of the conditions and of the scheduler;
    user functions may do whatever they like to the outside world, as long as they keep W, and
    must not raise. *)
From Verif Require Import SafeFacts RunExamples.

(** Resuming a generator does not raise, whatever was done since the last yield: the
    requirements are only on the present state. *)
Theorem C62_never_raises : forall cyc arr W ran d g fuel r d1 ex, sync cyc arr d = (Ok r, d1) -> fit W ran (core_of d1) g ->
  (g_pc g <> PStart -> under_way (core_of d1) g) -> snd (sresume cyc arr fuel d g) <> ORaise ex.
Proof. exact sched_never_raises. Qed.
Print Assumptions C62_never_raises.
(** A run from such a state, without changes in between, does not raise at any point. *)
Theorem C62_run : forall cyc arr W ran d g steps fuel r d1 ex, sync cyc arr d = (Ok r, d1) -> fit W ran (core_of d1) g -> g_pc g = PStart ->
  snd (sdrive cyc arr steps fuel d g []) <> ORaise ex.
Proof. exact sched_run_never_raises. Qed.
Print Assumptions C62_run.
(** In particular: a new scheduler for an acyclic graph, made with safe basic conditions and safe
    termination conditions (or without them), in either scheduling mode. *)
Theorem C62_new_scheduler : forall cyc arr input base conds tc deid exact du ow nx w r d (W : world -> Prop) b tca skip steps fuel ex,
  (forall q, Forall2 (@Permutation node) q (arr q)) -> arg_graph input = Ok base -> wf_graph base -> closed_graph base -> ~ cyclic base -> base <> [] ->
  new_sched cyc arr input conds tc deid exact du ow nx w = (Ok r, d) -> cs_order (d_cs d) = [] ->
  (forall o, nx <= o -> d_owners d o = None) -> W w ->
  (forall n c, aget n (cs_basic (d_cs d)) = Some c -> safe (gkeys base) deid W False (d_owners d) c) ->
  (forall s c, s = ESU \/ s = ES -> (tc = Some c \/ tca = Some c) -> forall x, c s = Some x -> safe (gkeys base) deid W False (d_owners d) x) ->
  snd (sdrive cyc arr steps fuel d (new_gen deid b tca skip) []) <> ORaise ex.
Proof. exact new_never_raises. Qed.
Print Assumptions C62_new_scheduler.

(** A -> B -> C with EveryNPasses, EveryNCalls, and a user function that counts its calls *)
Definition ex_counter : cond := CAtom 12 (ACustom (fun v e own w => (Ok (Nat.even (w_user w 0)), mkWorld (w_finished w) (w_param w) (upd (w_user w) 0 (S (w_user w 0)))))).
Definition ex_new : res unit * sched := new_sched ref_simple_cycles (fun q => q) (t_graph gABC)
  [(tA, One (Basic (Any 9 [EveryNPasses 10 2 ESU; Not 13 (AfterNCalls 14 tC 1 ES)]))); (tB, One (Basic (EveryNCalls 11 tA 2))); (tC, One (Basic ex_counter))]
  None 0 false (ms 1) (fun _ => None) 100 t_world.
Definition ex_safe : sched := snd ex_new.
Example ex_C62 : (forall steps fuel ex, snd (sdrive ref_simple_cycles (fun q => q) steps fuel ex_safe
    (new_gen 0 0 (Some (t_tc None (Some (AfterNCalls 91 tC 2 ESU)))) false) []) <> ORaise ex) /\
  t_out (Some (t_tc None (Some (AfterNCalls 91 tC 2 ESU)))) ex_safe = [[tA]; [tC]; []; [tA]; [tB]; [tC]].
Proof.
  split; [|vm_compute; reflexivity]. intros steps fuel ex.
  assert (N : ex_new = (Ok tt, ex_safe)) by (vm_compute; reflexivity).
  eapply (C62_new_scheduler ref_simple_cycles (fun q => q) _ gABC _ _ _ _ _ _ _ _ _ _ (fun _ => True)); [..|exact N| | | | |].
  - intros q. induction q; auto.
  - reflexivity.
  - vm_compute. repeat constructor; simpl; intuition discriminate.
  - intros a b (l & A & I). vm_compute. vm_compute in A. destruct b as [|[|[|b]]]; try discriminate; injection A as <-; simpl in I; intuition.
  - apply (toposort_ok_iff gABC); [vm_compute; repeat constructor; simpl; intuition discriminate|eexists; vm_compute; reflexivity].
  - discriminate.
  - reflexivity.
  - intros o Ho. do 100 (destruct o as [|o]; [lia|]). reflexivity.
  - exact Logic.I.
  - intros n c A. vm_compute in A. destruct n as [|[|[|n]]]; try discriminate; injection A as <-; simpl; repeat split; auto; try lia.
    all: try (intros v own w; eauto).
    all: try (eexists; split; [reflexivity|simpl; auto]).
    all: try (vm_compute; lia).
  - intros s c D [X|X] x Hx; [discriminate|]. injection X as <-. destruct D as [->| ->]; simpl in Hx; [|discriminate]. injection Hx as <-. simpl. auto.
Qed.
Definition ex_raises (c : cond) : outcome := snd (sdrive ref_simple_cycles (fun q => q) 9 5 (t_sched gAB [(tA, c)]) (new_gen 0 0 None false) []).
(** The requirements on the conditions are needed: conditions that the constructors accept make
    the run fail, with assorted exceptions, when they are first evaluated. *)
Theorem C62_any_condition_refuted :
  ex_raises (JustRan 10 tA) = ORaise EIndex /\ ex_raises (AtConsiderationSetExecution 10 0 PASS) = ORaise ETimeScale /\
  ex_raises (EveryNPasses 10 0 ESU) = ORaise EZeroDiv /\ ex_raises (AfterNCalls 10 tC 1 ESU) = ORaise EKey /\
  ex_raises (EveryNCalls 10 tC 1) = ORaise EKey /\ ex_raises (AfterNCallsCombined 10 [tA] None ESU) = ORaise ECondition /\
  ex_raises (AllHaveRun 10 [tC] ESU) = ORaise ECondition.
Proof. repeat split; vm_compute; reflexivity. Qed.
Print Assumptions C62_any_condition_refuted.
