(** Specification vocabulary: conditions about the whole life of an execution id.  What they ask
    for is a count that only ever grows. *)
From Verif Require Export SpecForward SpecCond.

(** true from some count on (up), or true up to some count (not up) *)
Definition turns (up : bool) (k : cmp) : bool :=
  match k with Ge | Gt => up | Lt | Le => negb up | Eq | Ne => false end.
(** settles true: a condition that, once satisfied, stays so; settles false: one that, once not
    satisfied, is never satisfied again.  ns are the nodes of the scheduler.
    - Always, Never: they do not change
    - AfterPass, AfterNPasses, BeforePass, ... (AtPass is not one of them), with LIFE as base
    - AfterEnvironmentSequence, AfterNEnvironmentSequences
    - BeforeNCalls, AfterCall, AfterNCalls, AfterNCallsCombined, AllHaveRun at ES or LIFE
    - All, Any, Not of such conditions *)
Fixpoint settles (ns : list node) (up : bool) (c : cond) : bool :=
  match c with
  | CAtom _ a =>
      match a with
      | AAlways | ANever => true
      | ATime k q _ b => turns up k && ts_ltb q LIFE && ts_leb LIFE b
      | ASeq k _ => turns up k
      | ACalls k d _ s => turns up k && mem d ns && ts_leb ES s
      | ACallsCombined ds (Some _) s => up && forallb (fun d => mem d ns) ds && ts_leb ES s
      | AAllHaveRun ds s => up && forallb (fun d => mem d ns) ds && ts_leb ES s
      | _ => false
      end
  | CAll _ cs | CAny _ cs => forallb (settles ns up) cs
  | CNot _ c => settles ns (negb up) c
  | CNWhen _ _ _ => false
  end.
(** what a condition evaluated now would say, for execution id e *)
Definition says (d : sched) (e : eid) (c : cond) : res bool :=
  is_satisfied (view_of (core_of d) e) e (d_owners d) (d_cst d) c.
(** a generator as next() leaves it: behind a yielded set that was not empty (in absolute time it
    may be empty) or behind an empty one, not yet started, or finished *)
Definition as_left (g : gen) : Prop := match g_pc g with PLevel _ ch => ch || g_abs g = true | _ => True end.
