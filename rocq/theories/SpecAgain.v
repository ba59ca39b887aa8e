(** Specification vocabulary for C80: runs whose conditions speak about the run only. *)
From Verif Require Export SpecTamper SpecSched SpecTime SpecIds.

(** What two views of schedulers have in common when both are at the same point of a run and
    only their pasts may differ: counts up to the environment state update, and the clock
    increments since the last one of ENVIRONMENT_STATE_UPDATE or coarser.  Counts of coarser
    scales, earlier clock increments and execution lists may differ. *)
Definition same_counts (t t' : option (timescale -> node -> nat)) : Prop :=
  exists f f', t = Some f /\ t' = Some f' /\ forall s n, ts_le s ESU -> f' s n = f s n.
Definition same_since (k k' : clock) : Prop :=
  exists h h' h2, clock_after ESU h k /\ clock_after ESU h' k' /\ since_at_least ESU h h2 /\ since_at_least ESU h' h2.
Record same_in_run (v v' : view) : Prop := {
  sr_nodes : v_nodes v' = v_nodes v;
  sr_queue : v_queue v' = v_queue v;
  sr_mode : v_exact_mode v' = v_exact_mode v;
  sr_total : same_counts (v_total v) (v_total v');
  sr_use : v_use v' = v_use v;
  sr_clock : same_since (v_clock v) (v_clock v') }.
(** the same outside world; is_finished does not distinguish the execution ids e and e' *)
Definition same_world (e e' : eid) (st st' : cstate) : Prop :=
  s_world st' = s_world st /\ forall n, w_finished (s_world st) n e' = w_finished (s_world st) n e.

(** Conditions that depend on the current run only. *)
Record of_the_run (c : cond) : Prop := {
  or_eval : forall v v' e e' ow st st', same_in_run v v' -> same_world e e' st st' ->
    fst (eval v' e' ow c st') = fst (eval v e ow c st) /\ same_world e e' (snd (eval v e ow c st)) (snd (eval v' e' ow c st'));
  or_relative : is_absolute c = false }.
Definition all_of_the_run (tc : tconds) : Prop := forall s c, tc s = Some c -> of_the_run c.
(** those recognised by their form: passes and consideration set executions counted within the
    environment state update, calls counted within it or within the pass, EveryNCalls,
    WhenFinished, Threshold, and their combinations; not NWhen, JustRan, absolute times, and
    user functions *)
Definition within_update (s : timescale) : bool := match s with CSE | PASS | ESU => true | _ => false end.
Fixpoint speaks_of_the_run (c : cond) : bool :=
  match c with
  | CAtom _ a =>
      match a with
      | ATime _ CSE _ ESU | ATime _ PASS _ ESU | AEveryNPasses _ ESU => true
      | ACalls _ _ _ s | ACallsCombined _ _ s | AAllHaveRun _ s => within_update s
      | AAlways | ANever | AEveryNCalls _ _ | AWhenFinished _ | AWhenFinishedAny _ | AWhenFinishedAll _ | AThreshold _ _ _ _ _ _ _ => true
      | _ => false
      end
  | CAll _ cs | CAny _ cs => forallb speaks_of_the_run cs
  | CNot _ c' => speaks_of_the_run c'
  | CNWhen _ _ _ => false
  end.

(** The clock of execution id e is at the beginning of an environment state update: it has not
    been incremented since a run returned, an environment sequence was ended, or it was made. *)
Definition at_beginning (m : core) (e : eid) : Prop :=
  exists h, clock_after ESU h (the_clock (m_ctxs m e)) /\ (h = [] \/ exists h1 s, h = h1 ++ [s] /\ ts_le ESU s).
(** the execution id e, or the base execution id b, has counts and an execution list *)
Definition has_records (m : core) (e b : eid) : Prop :=
  (x_total (m_ctxs m e) <> None \/ x_total (m_ctxs m b) <> None) /\
  (x_use (m_ctxs m e) <> None \/ x_use (m_ctxs m b) <> None) /\
  (x_list (m_ctxs m e) <> None \/ x_list (m_ctxs m b) <> None).
(** two schedulers that are set up in the same way *)
Record same_set_up (m m' : core) : Prop := {
  su_nodes : m_nodes m' = m_nodes m;
  su_graph : m_graph m' = m_graph m;
  su_levels : m_levels m' = m_levels m;
  su_exact : m_exact m' = m_exact m;
  su_tconds : m_tconds m' = m_tconds m;
  su_basic : m_basic m' = m_basic m;
  su_owners : m_owners m' = m_owners m;
  su_next : m_next m' = m_next m }.
(** everything is about the run: the conditions of the nodes and the termination conditions *)
Definition all_about_the_run (m : core) (tcarg : option tconds) : Prop :=
  (forall n c, In (n, c) (m_basic m) -> of_the_run c) /\ all_of_the_run (m_tconds m) /\
  forall t, tcarg = Some t -> all_of_the_run t.
(** a run of execution id e (base execution id b, termination conditions tcarg) that starts at
    the beginning of an update, with conditions that depend on the run only and have no side
    effects on the outside world *)
Record repeatable (m : core) (e b : eid) (tcarg : option tconds) : Prop := {
  re_quiet : quiet_scheduler m;
  re_arg : forall t, tcarg = Some t -> quiet_tconds t;
  re_begin : at_beginning m e;
  re_records : has_records m e b;
  re_about : all_about_the_run m tcarg }.
(** n runs one after the other: list(run(...)) n times, every one of which returns; the sets
    that each yields *)
Inductive runs_in_turn cyc arr (steps fuel : nat) (mk : gen) : nat -> sched -> list (list (list node)) -> sched -> Prop :=
| rt_none : forall d, runs_in_turn cyc arr steps fuel mk 0 d [] d
| rt_next : forall n d ys g l d1 yss d2, sdrive cyc arr steps fuel d mk [] = (d1, g, ys, OReturn l) ->
    runs_in_turn cyc arr steps fuel mk n d1 yss d2 -> runs_in_turn cyc arr steps fuel mk (S n) d (ys :: yss) d2.
