(** Specification vocabulary for execution ids: conditions without side effects, and a
    generator whose resumptions are interleaved with those of other execution ids. *)
From Verif Require Export SpecRun.

(** the condition does not change the outside world (a user function may look at it); the
    counters of NWhen conditions are allowed *)
Fixpoint no_side_effects (c : cond) : Prop :=
  match c with
  | CAtom _ (ACustom f) => forall v e own w, snd (f v e own w) = w
  | CAtom _ _ => True
  | CAll _ cs | CAny _ cs => (fix go l := match l with [] => True | x :: r => no_side_effects x /\ go r end) cs
  | CNot _ c' => no_side_effects c'
  | CNWhen _ c' _ => no_side_effects c'
  end.
(** all conditions of a scheduler, of a dict of termination conditions, and of a call of run *)
Definition quiet_tconds (tc : tconds) : Prop := forall s c, tc s = Some c -> no_side_effects c.
Definition quiet_scheduler (m : core) : Prop :=
  quiet_tconds (m_tconds m) /\ forall n c, aget n (m_basic m) = Some c -> no_side_effects c.
Definition quiet_run (g : gen) : Prop :=
  quiet_tconds (g_tc g) /\ forall tc, g_tcarg g = Some tc -> quiet_tconds tc.

(** counts and execution list of an execution id exist *)
Definition initialised (x : ctx) : Prop := x_total x <> None /\ x_use x <> None /\ x_list x <> None.

(** what the users of other execution ids do: resume their generators, and end environment
    sequences *)
Inductive others (e : eid) : core -> core -> Prop :=
| ot_none : forall m, others e m m
| ot_resume : forall m m1 fuel g m2 g' o, others e m m1 -> g_eid g <> e -> quiet_run g ->
    resume fuel m1 g = (m2, g', o) -> others e m m2
| ot_end : forall m m1 e' m2, others e m m1 -> e' <> e -> end_environment_sequence m1 e' = Ok m2 -> others e m m2.

(** [interleaved fuel m0 g0 os m g]: the generator g0 was created in state m0; its resumptions,
    interleaved with those of other execution ids, came to an end with the outcomes os; state and generator
    are now m and g *)
Inductive interleaved (fuel : nat) (m0 : core) (g0 : gen) : list outcome -> core -> gen -> Prop :=
| il_created : interleaved fuel m0 g0 [] m0 g0
| il_others : forall os m g m', interleaved fuel m0 g0 os m g -> others (g_eid g0) m m' -> interleaved fuel m0 g0 os m' g
| il_resume : forall os m g m' g' o, interleaved fuel m0 g0 os m g -> resume fuel m g = (m', g', o) -> o <> OFuel ->
    interleaved fuel m0 g0 (os ++ [o]) m' g'.
(** n resumptions of a generator in a row *)
Fixpoint alone (fuel n : nat) (m : core) (g : gen) : list outcome * core * gen :=
  match n with
  | O => ([], m, g)
  | S k => let '(m', g', o) := resume fuel m g in
           let '(os, m'', g'') := alone fuel k m' g' in (o :: os, m'', g'')
  end.

(** nodes that were accepted for a consideration set that was never yielded *)
Definition accepted_unyielded (q : list (list node)) (extra : list node) : Prop :=
  NoDup extra /\ (extra = [] \/ exists level, In level q /\ incl extra level).
