(** Specification vocabulary for consecutive runs of one execution id (C66). *)
From Verif Require Export SpecPass.

(** What happens to an execution id, in the view of its user: runs that return (numbered by the
    clock unless the environment state update increment is skipped), runs that are given up, and
    calls of end_environment_sequence *)
Inductive event :=
| Returned (numbered : bool) (ys : list (list node))   (* a run that yielded ys and returned *)
| Left (ys : list (list node))                         (* a generator that is not resumed after it yielded ys *)
| Ended.                                               (* end_environment_sequence *)
(** [session e m0 h m]: since the state m0 the events h have happened to the execution id e, in this
    order, and the scheduler is now in the state m.  Between the events anything may be done that
    leaves the entries of e alone: conditions and graph changed, other execution ids run. *)
Inductive session (e : eid) (m0 : core) : list event -> core -> Prop :=
| se_none : session e m0 [] m0
| se_other : forall h m m', session e m0 h m -> m_ctxs m' e = m_ctxs m e -> session e m0 h m'
| se_returned : forall h m g ys m' l, session e m0 h m -> g_eid g = e -> g_pc g = PStart -> returned m g ys m' l ->
    session e m0 (h ++ [Returned (negb (g_skip g)) ys]) m'
| se_left : forall h m g ys m' g', session e m0 h m -> g_eid g = e -> g_pc g = PStart -> running m g ys m' g' ->
    session e m0 (h ++ [Left ys]) m'
| se_ended : forall h m m', session e m0 h m -> end_environment_sequence m e = Ok m' -> session e m0 (h ++ [Ended]) m'.

(** all sets yielded *)
Definition yields_of (ev : event) : list (list node) := match ev with Returned _ ys => ys | Left ys => ys | Ended => [] end.
Definition sets_of (h : list event) : list (list node) := flat_map yields_of h.
(** number of sequences that have been ended, and of numbered runs that have returned *)
Definition is_ended (ev : event) : bool := match ev with Ended => true | _ => false end.
Definition is_numbered (ev : event) : bool := match ev with Returned b _ => b | _ => false end.
Definition sequences_ended (h : list event) : nat := length (filter is_ended h).
Definition runs_returned (h : list event) : nat := length (filter is_numbered h).
(** h2 is what has happened in the current environment sequence *)
Definition this_sequence (h h2 : list event) : Prop := ~ In Ended h2 /\ (h = h2 \/ exists h1, h = h1 ++ Ended :: h2).
(** the sets yielded by the run that was started last *)
Definition is_run (ev : event) : Prop := match ev with Returned _ _ => True | Left ys => ys <> [] | Ended => False end.
Definition last_run (h : list event) (ys : list (list node)) : Prop :=
  exists h1 ev h2, h = h1 ++ ev :: h2 /\ is_run ev /\ yields_of ev = ys /\ forall x, In x h2 -> ~ is_run x.

(** the events of each environment sequence *)
Fixpoint by_sequence (h : list event) : list (list event) :=
  match h with
  | [] => [[]]
  | ev :: r => match by_sequence r with
               | s :: ss => if is_ended ev then [] :: s :: ss else (ev :: s) :: ss
               | [] => [[]]
               end
  end.
(** ... and of each environment state update of a sequence, which ends with a numbered run *)
Fixpoint by_update (s : list event) : list (list event) :=
  match s with
  | [] => [[]]
  | ev :: r => match by_update r with
               | u :: us => if is_numbered ev then [ev] :: u :: us else (ev :: u) :: us
               | [] => [[]]
               end
  end.
(** consideration set executions counted by the clock: the yielded sets, except for the last one of
    a run that was given up there *)
Definition executions (ev : event) : nat := match ev with Returned _ ys => length ys | Left ys => length ys - 1 | Ended => 0 end.
Definition executions_of (h : list event) : nat := fold_right (fun ev n => executions ev + n) 0 h.

(** in environment state update number u of environment sequence number w, condition c depends on
    the pass only *)
Definition in_update (u w : nat) (f : nat -> bool) (c : cond) : Prop := forall h0 k,
  clock_after ESU h0 k -> t_val (k_time k) ESU = u -> t_val (k_time k) ES = w -> by_pass_in h0 f c.
