(** Specification vocabulary for runs that never raise (C62). *)
From Verif Require Export SpecRun.

(** The atomic condition a of owner own can be evaluated by a scheduler with nodes ns, for execution
    id e, in every state of the outside world in which W holds, without raising, and W holds
    afterwards: nodes it names are nodes of the scheduler, a call count has a number, time scales are
    coarser than what is counted (and not finer than ENVIRONMENT_STATE_UPDATE), periods are not zero,
    methods and parameters it reads exist, user functions do not raise.  [ran]: something has been
    recorded in the execution list. *)
Definition safe_atom (ns : list node) (e : eid) (W : world -> Prop) (ran : Prop) (own : option node) (a : atom) : Prop :=
  match a with
  | AAlways | ANever | ASeq _ _ | ATimeTermination _ _ => True
  | ATime _ q _ s => ts_lt q s /\ ts_le ESU s
  | AEveryNPasses n s => n <> 0 /\ ts_le ESU s
  | ACalls _ d _ _ => In d ns
  | ACallsCombined ds n _ => incl ds ns /\ n <> None
  | AEveryNCalls d _ => In d ns /\ exists w, own = Some w /\ In w ns
  | AJustRan _ => ran
  | AAllHaveRun ds _ => incl ds ns
  | AWhenFinished d => forall w, W w -> w_finished w d e <> None
  | AWhenFinishedAny ds | AWhenFinishedAll ds => forall w d, W w -> In d (match ds with [] => ns | _ => ds end) -> w_finished w d e <> None
  | AThreshold d par _ _ ix _ _ => forall w, W w -> exists p x, w_param w d par = Some p /\ at_index p (match ix with None => [] | Some l => l end) (PNum x)
  | ATimeInterval None _ _ _ _ => True
  | ATimeInterval (Some r) _ _ _ _ => ~ (q_val r == 0)%Q /\ exists w, own = Some w /\ In w ns
  | ACustom f => forall v own' w, W w -> exists b w', f v e own' w = (Ok b, w') /\ W w'
  end.
(** every atomic condition in c is safe for the owner it has *)
Fixpoint safe (ns : list node) (e : eid) (W : world -> Prop) (ran : Prop) (ow : oid -> option node) (c : cond) : Prop :=
  match c with
  | CAtom o a => safe_atom ns e W ran (ow o) a
  | CAll _ cs | CAny _ cs => (fix go (l : list cond) : Prop := match l with [] => True | x :: r => safe ns e W ran ow x /\ go r end) cs
  | CNot _ c => safe ns e W ran ow c
  | CNWhen _ c _ => safe ns e W ran ow c
  end.

(** What execution_list of the run of g is when it starts, or now: its own or that of its base. *)
Definition list_for (m : core) (g : gen) (l : list (list node)) : Prop :=
  x_list (m_ctxs m (g_eid g)) = Some l \/ x_list (m_ctxs m (g_eid g)) = None /\ x_list (m_ctxs m (g_base g)) = Some l.
(** the counts of its execution id exist, or those of the base *)
Definition known_id (m : core) (g : gen) : Prop :=
  (x_total (m_ctxs m (g_eid g)) <> None \/ x_total (m_ctxs m (g_base g)) <> None) /\
  (x_use (m_ctxs m (g_eid g)) <> None \/ x_use (m_ctxs m (g_base g)) <> None) /\ exists l, list_for m g l.
(** The scheduler m is fit for the generator g: the consideration queue consists of the nodes, which
    are the keys of an acyclic graph without other senders; the conditions of the nodes and the
    termination conditions of g are safe; both termination conditions exist; new
    condition objects have no owner; its execution id or its
    base is known and its clock was changed by increments only; if absolute time is used, there are
    nodes and timestamps are recorded for the execution id. *)
Record fit (W : world -> Prop) (ran : Prop) (m : core) (g : gen) : Prop := {
  ft_queue : forall n, In n (m_nodes m) <-> exists level, In level (queue m) /\ In n level;
  ft_acyclic : exists q, toposort (m_graph m) = TopoOk q;
  ft_graph : forall n, In n (m_nodes m) -> exists ds, aget n (m_graph m) = Some ds /\ incl ds (m_nodes m);
  ft_conds : forall n c, In n (m_nodes m) -> aget n (m_basic m) = Some c -> safe (m_nodes m) (g_eid g) W ran (m_owners m) c;
  ft_tc : forall s, s = ESU \/ s = ES -> exists c, the_tc m g s = Some c /\ safe (m_nodes m) (g_eid g) W ran (m_owners m) c;
  ft_fresh : fresh_ids m;
  ft_world : W (s_world (m_cst m));
  ft_id : known_id m g;
  ft_ran : ran -> forall l, list_for m g l -> l <> [];
  ft_clock : exists h, clock_after ESU h (the_clock (m_ctxs m (g_eid g)));
  ft_abs : uses_absolute m g = true -> x_stamps (m_ctxs m (g_eid g)) <> None /\ m_nodes m <> []
}.
(** every node has a condition *)
Definition all_conditions (m : core) : Prop := forall n, In n (m_nodes m) -> aget n (m_basic m) <> None.
(** the run of g has started: the counts of its execution id exist and no node was left without a
    condition (the start of a run gives default conditions) *)
Definition under_way (m : core) (g : gen) : Prop :=
  all_conditions m /\ x_total (m_ctxs m (g_eid g)) <> None /\ x_use (m_ctxs m (g_eid g)) <> None /\ x_list (m_ctxs m (g_eid g)) <> None.
