(** Specification vocabulary for runs: what user code can do between two resumptions of a
    generator, prefixes of a run, and the grouping of the yielded sets into passes. *)
From Coq Require Export Permutation.
From Verif Require Export SpecTime SpecCond SpecGraph Run.

(** What other code may do while the generator of a run with execution id e is suspended:
    anything (conditions, termination conditions, outside world, other execution ids), except
    change the graph, the mode or the entries of this execution id. *)
Record undisturbed (e : eid) (m m' : core) : Prop := {
  ud_nodes : m_nodes m' = m_nodes m;
  ud_graph : m_graph m' = m_graph m;
  ud_levels : m_levels m' = m_levels m;
  ud_exact : m_exact m' = m_exact m;
  ud_ctx : m_ctxs m' e = m_ctxs m e
}.

(** [running m0 g0 ys m g]: the generator g0 was started in the scheduler state m0 and has so
    far yielded the sets ys (each listed in the order in which its nodes were added); it is
    now suspended (or not yet started) as g, and the scheduler state is m. *)
Inductive running (m0 : core) (g0 : gen) : list (list node) -> core -> gen -> Prop :=
| run_created : running m0 g0 [] m0 g0
| run_env : forall ys m g m', running m0 g0 ys m g -> undisturbed (g_eid g0) m m' -> running m0 g0 ys m' g
| run_yields : forall ys m g fuel m' g' s, running m0 g0 ys m g ->
    resume fuel m g = (m', g', OYield s) -> running m0 g0 (ys ++ [s]) m' g'.

(** the same, where each yielded set is recorded together with the pass number that the clock
    of the execution id shows while the generator is suspended at this yield *)
Definition pass_number (m : core) (e : eid) : nat := t_val (k_time (the_clock (m_ctxs m e))) PASS.
Inductive running_in_passes (m0 : core) (g0 : gen) : list (nat * list node) -> core -> gen -> Prop :=
| rp_created : running_in_passes m0 g0 [] m0 g0
| rp_env : forall ys m g m', running_in_passes m0 g0 ys m g -> undisturbed (g_eid g0) m m' ->
    running_in_passes m0 g0 ys m' g
| rp_yields : forall ys m g fuel m' g' s, running_in_passes m0 g0 ys m g ->
    resume fuel m g = (m', g', OYield s) ->
    running_in_passes m0 g0 (ys ++ [(pass_number m' (g_eid g0), s)]) m' g'.

(** the run has returned, after yielding ys; l is the value it returned *)
Definition returned (m0 : core) (g0 : gen) (ys : list (list node)) (m : core) (l : list (list node)) : Prop :=
  exists m1 g1 fuel g2, running m0 g0 ys m1 g1 /\ resume fuel m1 g1 = (m, g2, OReturn l).

(** [evolves cs e ow st st']: st' results from st by evaluating conditions among cs, each in
    some view of the scheduler, for execution id e *)
Inductive evolves (cs : cond -> Prop) (e : eid) (ow : oid -> option node) (st : cstate) : cstate -> Prop :=
| ev_refl : evolves cs e ow st st
| ev_eval : forall st1 c v, evolves cs e ow st st1 -> cs c -> evolves cs e ow st (snd (eval v e ow c st1)).
(** the conditions a run uses: the nodes' basic conditions and its termination conditions *)
Definition used (m : core) (tc : tconds) (c : cond) : Prop :=
  (exists n, aget n (m_basic m) = Some c) \/ (exists s, tc s = Some c).

(** ** passes
    A pass is the list of its executions: position of the consideration set in the queue, and
    set of nodes executed.  A pass without executions is idle (in a run without absolute
    conditions it then yields one empty set). *)
Definition pass := list (nat * list node).
Definition pass_yields (abs : bool) (p : pass) : list (list node) :=
  if abs then map snd p else match p with [] => [[]] | _ => map snd p end.
(** positions strictly increase, every set is duplicate free, contained in the consideration
    set at its position, and non-empty unless absolute time is used *)
Definition valid_pass (q : list (list node)) (abs : bool) (p : pass) : Prop :=
  (forall i j a b, nth_error p i = Some a -> nth_error p j = Some b -> i < j -> fst a < fst b) /\
  (forall k s, In (k, s) p -> (exists level, nth_error q k = Some level /\ incl s level) /\ NoDup s /\
                              (abs = false -> s <> [])).

(** number of sets in a list of sets that contain n *)
Definition occurrences (n : node) (l : list (list node)) : nat := length (filter (mem n) l).

(** counts_total and execution_list of an execution id agree on the number of executions *)
Definition history_agrees (x : ctx) : Prop :=
  exists t l, x_total x = Some t /\ x_list x = Some l /\ forall n, t LIFE n = occurrences n l.

(** [runs_since a b A k]: in the sequence A of executed nodes, a occurs k times after the last
    occurrence of b (in all of A if b does not occur) *)
Definition runs_since (a b : node) (A : list node) (k : nat) : Prop :=
  exists A2, (A = A2 \/ exists A1, A = A1 ++ b :: A2) /\ ~ In b A2 /\ k = count_occ Nat.eq_dec A2 a.
(** ... and as a property of a whole table of such counts; a node counts for itself once it
    has been executed *)
Definition use_is (u : node -> node -> nat) (A : list node) : Prop :=
  (forall a b, a <> b -> runs_since a b A (u a b)) /\ (forall a, u a a = if mem a A then 1 else 0).

(** the consideration sets are those of the topological sort of the graph, each in some order *)
Definition queue_built (m : core) : Prop :=
  wf_graph (m_graph m) /\ exists q, toposort (m_graph m) = TopoOk q /\ Forall2 (@Permutation node) q (m_levels m).

(** the sets yielded in pass k *)
Definition in_pass (k : nat) (ts : list (nat * list node)) : list (list node) :=
  map snd (filter (fun a => Nat.eqb (fst a) k) ts).

(** [considered m' e ys s p v]: the generator stands at the yield of s, in state m', after
    having yielded ys; v is what conditions could see of the scheduler while s was being
    assembled and the nodes p of s had already been added. *)
Record considered (m' : core) (e : eid) (ys : list (list node)) (s p : list node) (v : view) : Prop := {
  cv_nodes : v_nodes v = m_nodes m';
  cv_queue : v_queue v = queue m';
  cv_mode : v_exact_mode v = m_exact m';
  cv_clock : v_clock v = the_clock (m_ctxs m' e);
  cv_list : exists l, v_list v = Some l /\ x_list (m_ctxs m' e) = Some (l ++ [s]);
  cv_total : exists t t', v_total v = Some t /\ x_total (m_ctxs m' e) = Some t' /\
             forall sc n, t' sc n = t sc n + (if mem n s && negb (mem n p) then 1 else 0);
  cv_use : exists u, v_use v = Some u /\ use_is u (concat ys ++ p)
}.
(** v shows the scheduler as a returned run leaves it in m, before the clock was advanced to the
    next environment state update (unless that is skipped) *)
Record view_at_return (m0 m : core) (e : eid) (skip : bool) (v : view) : Prop := {
  vr_nodes : v_nodes v = m_nodes m0;
  vr_queue : v_queue v = queue m0;
  vr_mode : v_exact_mode v = m_exact m0;
  vr_total : v_total v = x_total (m_ctxs m e);
  vr_use : v_use v = x_use (m_ctxs m e);
  vr_list : v_list v = x_list (m_ctxs m e);
  vr_clock : if skip then the_clock (m_ctxs m e) = v_clock v else clock_incr ESU (v_clock v) = Ok (the_clock (m_ctxs m e))
}.
(** the condition of n had the truth value b when evaluated with what v shows, in a state of
    the outside world and of the NWhen counters that evaluations during this resumption led to *)
Definition condition_was (m m' : core) (g' : gen) (v : view) (n : node) (b : bool) : Prop :=
  exists c st st', aget n (m_basic m') = Some c /\
    evolves (used m' (g_tc g')) (g_eid g') (m_owners m') (m_cst m) st /\
    eval v (g_eid g') (m_owners m') c st = (Ok b, st').
(** both termination conditions were evaluated to false *)
Definition termination_was_false (m m' : core) (g' : gen) (v : view) : Prop :=
  exists c1 c2 st st1 st2, g_tc g' ESU = Some c1 /\ g_tc g' ES = Some c2 /\
    evolves (used m' (g_tc g')) (g_eid g') (m_owners m') (m_cst m) st /\
    eval v (g_eid g') (m_owners m') c1 st = (Ok false, st1) /\
    eval v (g_eid g') (m_owners m') c2 st1 = (Ok false, st2).

(** [running_while P]: as [running], and P holds of the scheduler state at the creation of the
    generator and each time user code has control *)
Inductive running_while (P : core -> Prop) (m0 : core) (g0 : gen) : list (list node) -> core -> gen -> Prop :=
| rw_created : P m0 -> running_while P m0 g0 [] m0 g0
| rw_env : forall ys m g m', running_while P m0 g0 ys m g -> undisturbed (g_eid g0) m m' -> P m' ->
    running_while P m0 g0 ys m' g
| rw_yields : forall ys m g fuel m' g' s, running_while P m0 g0 ys m g ->
    resume fuel m g = (m', g', OYield s) -> P m' -> running_while P m0 g0 (ys ++ [s]) m' g'.
(** the condition of node b is EveryNCalls(d, k) *)
Definition every_n_calls (b d : node) (k : nat) (m : core) : Prop :=
  exists o, aget b (m_basic m) = Some (EveryNCalls o d k) /\ m_owners m o = Some b.

(** identities of condition objects that do not exist yet have no owner *)
Definition fresh_ids (m : core) : Prop := forall o, m_next m <= o -> m_owners m o = None.
(** the condition of b is true iff each of ds has run since b last ran *)
Definition waits_for (b : node) (ds : list node) (m : core) : Prop :=
  exists c, aget b (m_basic m) = Some c /\ (forall o, In o (oids c) -> o < m_next m) /\ forall v u e st, v_use v = Some u -> In b (v_nodes v) -> incl ds (v_nodes v) ->
    decides (is_satisfied v e (m_owners m) st c) (forall d, In d ds -> u d b >= 1).
(** no condition was given to b, or it has one of that kind (the default one after its first run) *)
Definition default_state (b : node) (ds : list node) (m : core) : Prop :=
  fresh_ids m /\ (aget b (m_basic m) = None \/ waits_for b ds m).

(** ** termination conditions
    those of a run that starts now *)
Definition run_tc (m : core) (g : gen) : tconds := match g_tcarg g with None => m_tconds m | Some a => fun s => match a s with Some c => Some c | None => m_tconds m s end end.
(** those of a generator that is about to be resumed *)
Definition the_tc (m : core) (g : gen) : tconds := match g_pc g with PStart => run_tc m g | _ => g_tc g end.
(** a run uses absolute time iff one of its conditions is absolute when it starts *)
Definition uses_absolute (m : core) (g : gen) : bool :=
  match g_pc g with PStart => existsb is_absolute (map snd (m_basic m) ++ tc_list (run_tc m g)) | _ => g_abs g end.
Definition with_clock (v : view) (k : clock) : view :=
  mkView (v_nodes v) (v_queue v) (v_exact_mode v) (v_total v) (v_use v) (v_list v) k.
(** in view v a termination condition is true whatever the state of counters and outside
    world: the one of the environment state update, or the one of the sequence while the other
    one does not raise *)
Definition says_stop (v : view) (e : eid) (ow : oid -> option node) (tc : tconds) : Prop :=
  (exists c, tc ESU = Some c /\ forall st, is_satisfied v e ow st c = Ok true) \/
  (exists c c', tc ES = Some c /\ tc ESU = Some c' /\
     forall st, is_satisfied v e ow st c = Ok true /\ exists b, is_satisfied v e ow st c' = Ok b).
(** the condition of the environment sequence never raises *)
Definition sequence_condition_total (e : eid) (ow : oid -> option node) (tc : tconds) : Prop :=
  exists c, tc ES = Some c /\ forall v st, exists b, is_satisfied v e ow st c = Ok b.
