(** Property C86: when evaluating a condition raises, and what. *)
From Verif Require Import BaseFacts SpecRaise RaiseFacts RunExamples.
Open Scope nat_scope.
Open Scope list_scope.

(** C86: evaluating a condition of the library for any execution id of any scheduler (its clock has
    only been incremented), with any owner, raises ex exactly in the cases listed in [raises]. *)
Theorem C86_atomic : forall v h e ow st o a ex, clock_after ESU h (v_clock v) -> library a ->
  (is_satisfied v e ow st (CAtom o a) = Err ex <-> raises v e (ow o) (s_world st) a ex).
Proof. exact atom_raises. Qed.
Print Assumptions C86_atomic.
(** All raises exactly if a component raises and those before it hold; Any, if those before it do not
    hold.  The components are evaluated one after the other. *)
Theorem C86_all : forall v e ow o cs st st2 ex, eval v e ow (All o cs) st = (Err ex, st2) <->
  exists a x b st1, cs = a ++ x :: b /\ eval v e ow (All o a) st = (Ok true, st1) /\ eval v e ow x st1 = (Err ex, st2).
Proof. exact all_raises. Qed.
Print Assumptions C86_all.
Theorem C86_any : forall v e ow o cs st st2 ex, eval v e ow (Any o cs) st = (Err ex, st2) <->
  exists a x b st1, cs = a ++ x :: b /\ eval v e ow (Any o a) st = (Ok false, st1) /\ eval v e ow x st1 = (Err ex, st2).
Proof. exact any_raises. Qed.
Print Assumptions C86_any.
Theorem C86_not : forall v e ow o c st ex, is_satisfied v e ow st (Not o c) = Err ex <-> is_satisfied v e ow st c = Err ex.
Proof. exact not_raises. Qed.
Print Assumptions C86_not.
(** NWhen does not evaluate its condition any more after n times. *)
Theorem C86_nwhen : forall v e ow o c n st ex, is_satisfied v e ow st (CNWhen o c n) = Err ex <-> s_sats st o e < n /\ is_satisfied v e ow st c = Err ex.
Proof. exact nwhen_raises. Qed.
Print Assumptions C86_nwhen.
(** A before B, while A is executed for the first time: what some conditions give. *)
Definition raise_v : view := mkView [tA; tB] [[tA]; [tB]] false (Some (fun _ n => if Nat.eqb n tA then 1 else 0))
  (Some (fun a _ => if Nat.eqb a tA then 1 else 0)) (Some [[tA]]) new_clock.
Definition raise_st : cstate := mkCstate (fun _ _ => 0) t_world.
Notation raise_of own c := (is_satisfied raise_v 0 (fun _ => own) raise_st c).
Example ex_C86 : (exists h, clock_after ESU h (v_clock raise_v)) /\
  raise_of (Some tB) (EveryNCalls 1 tA 1) = Ok true /\ raise_of None (EveryNCalls 1 tA 1) = Err EKey /\ raises raise_v 0 None t_world (AEveryNCalls tA 1) EKey /\
  raise_of None (AfterNCalls 1 9 1 ESU) = Err EKey /\ raise_of None (AllHaveRun 1 [tA; 9] ESU) = Err ECondition /\
  raise_of None (Any 2 [AfterNCalls 3 tA 1 ESU; AfterNCalls 1 9 1 ESU]) = Ok true /\
  raise_of None (Any 2 [Never 3; AfterNCalls 1 9 1 ESU]) = Err EKey /\
  raise_of None (AtConsiderationSetExecution 1 0 PASS) = Err ETimeScale.
Proof.
  split; [exists []; constructor; reflexivity|]. repeat split; try (vm_compute; reflexivity). apply ra_every_owner. discriminate.
Qed.
