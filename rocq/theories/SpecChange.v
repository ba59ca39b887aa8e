(** Specification vocabulary for runs during which the scheduler is changed: prefixes of a run
    where user code may do anything between two resumptions, except touch the entries of the
    run's own execution id. *)
From Verif Require Export SpecRun SpecSched.

(** As [running_in_passes], but graph, nodes, conditions and mode may change as well. *)
Inductive running_changing (m0 : core) (g0 : gen) : list (nat * list node) -> core -> gen -> Prop :=
| rc_created : running_changing m0 g0 [] m0 g0
| rc_env : forall ys m g m', running_changing m0 g0 ys m g -> m_ctxs m' (g_eid g0) = m_ctxs m (g_eid g0) ->
    running_changing m0 g0 ys m' g
| rc_yields : forall ys m g fuel m' g' s, running_changing m0 g0 ys m g ->
    resume fuel m g = (m', g', OYield s) ->
    running_changing m0 g0 (ys ++ [(pass_number m' (g_eid g0), s)]) m' g'.
Definition returned_changing (m0 : core) (g0 : gen) (ys : list (list node)) (m : core) (l : list (list node)) : Prop :=
  exists ts m1 g1 fuel g2, ys = map snd ts /\ running_changing m0 g0 ts m1 g1 /\ resume fuel m1 g1 = (m, g2, OReturn l).

(** ** Schedulers
    [srunning d0 g0 ts d g]: as above, for a scheduler with its structural conditions.  The
    generator g0 was created in state d0; each time it was suspended user code may have put
    the scheduler into any other state, as long as it left the entries of the generator's
    execution id alone (see [after] for what the public methods do). *)
Section Changing.
Variable cyc : graph -> list (list node).
Variable arr : list (list node) -> list (list node).
Definition s_pass (d : sched) (e : eid) : nat := t_val (k_time (the_clock (d_ctxs d e))) PASS.
Inductive srunning (d0 : sched) (g0 : gen) : list (nat * list node) -> sched -> gen -> Prop :=
| sr_created : srunning d0 g0 [] d0 g0
| sr_env : forall ts d g d', srunning d0 g0 ts d g -> d_ctxs d' (g_eid g0) = d_ctxs d (g_eid g0) ->
    srunning d0 g0 ts d' g
| sr_yields : forall ts d g fuel d' g' s, srunning d0 g0 ts d g ->
    sresume cyc arr fuel d g = (d', g', OYield s) ->
    srunning d0 g0 (ts ++ [(s_pass d' (g_eid g0), s)]) d' g'.
Definition sreturned (d0 : sched) (g0 : gen) (ys : list (list node)) (d : sched) (l : list (list node)) : Prop :=
  exists ts d1 g1 fuel g2, ys = map snd ts /\ srunning d0 g0 ts d1 g1 /\ sresume cyc arr fuel d1 g1 = (d, g2, OReturn l).

(** the state in which a public call leaves the scheduler, also when it raises *)
Definition after (k : call) (d : sched) : sched :=
  match k with
  | CSet (SAdd w a) => snd (add_condition cyc arr w a d)
  | CSet (SAddSet s) => snd (add_condition_set cyc arr s d)
  | CSet (SRemove a) => snd (remove_condition a d)
  | CSet (SRemoveOwner w) => snd (remove_condition_owner w d)
  | CLook => snd (get_graph cyc arr d)
  | CTerm t => set_termination_conds t d
  | CNext f g => fst (fst (sresume cyc arr f d g))
  | CEndSequence e => match send_environment_sequence e d with Ok d' => d' | Err _ => d end
  end.
(** the calls that concern another execution id, or none *)
Definition elsewhere (e : eid) (k : call) : Prop :=
  match k with
  | CNext _ g => g_eid g <> e
  | CEndSequence e' => e' <> e
  | _ => True
  end.
End Changing.
