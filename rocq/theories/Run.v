(** Scheduler.run as a resumable generator, and the per-execution-id state it works on
    (scheduler.py 525-620, 806-992, 1034-1057). *)
From Verif Require Export Graph Cond.
Open Scope nat_scope.

(** Per-execution-id state: the entries of counts_total, counts_useable, execution_list,
    execution_timestamps and clocks for one execution id; [None] = no entry. *)
Record ctx := mkCtx {
  x_total : option (timescale -> node -> nat);
  x_use : option (node -> node -> nat);
  x_list : option (list (list node));
  x_stamps : option (list Time);
  x_clock : option clock
}.
Definition ctx_none : ctx := mkCtx None None None None None.
Definition zero_total : timescale -> node -> nat := fun _ _ => 0.
Definition zero_use : node -> node -> nat := fun _ _ => 0.

(** A dict {TimeScale: Condition} *)
Definition tconds := timescale -> option cond.

(** The part of a Scheduler that run() reads and writes.  [m_levels] is the consideration
    queue of the current graph (each level in the iteration order of its set); [m_graph] the
    current graph. *)
Record core := mkCore {
  m_nodes : list node;
  m_graph : graph;
  m_levels : list (list node);
  m_exact : bool;
  m_default_unit : quantity;
  m_tconds : tconds;                (* self._termination_conds *)
  m_basic : amap cond;              (* self.conditions.conditions_basic *)
  m_owners : oid -> option node;
  m_next : oid;                     (* object ids >= m_next are unused *)
  m_cst : cstate;
  m_ctxs : eid -> ctx
}.
Definition set_ctx (m : core) (e : eid) (x : ctx) : core :=
  mkCore (m_nodes m) (m_graph m) (m_levels m) (m_exact m) (m_default_unit m) (m_tconds m)
         (m_basic m) (m_owners m) (m_next m) (m_cst m) (upd (m_ctxs m) e x).
Definition set_cst (m : core) (st : cstate) : core :=
  mkCore (m_nodes m) (m_graph m) (m_levels m) (m_exact m) (m_default_unit m) (m_tconds m)
         (m_basic m) (m_owners m) (m_next m) st (m_ctxs m).
Definition set_basic (m : core) (b : amap cond) (ow : oid -> option node) (nx : oid) : core :=
  mkCore (m_nodes m) (m_graph m) (m_levels m) (m_exact m) (m_default_unit m) (m_tconds m)
         b ow nx (m_cst m) (m_ctxs m).

(** consideration_queue (scheduler.py 1158-1170) *)
Definition queue (m : core) : list (list node) :=
  if m_exact m then [gkeys (m_graph m)] else m_levels m.

(** get_clock (scheduler.py 1045-1057): a missing clock is created by _init_clock without a
    base.  (An execution_id with an attribute default_execution_id is not modelled.) *)
Definition the_clock (x : ctx) : clock := match x_clock x with Some k => k | None => new_clock end.
Definition set_clock (m : core) (e : eid) (k : clock) : core :=
  let x := m_ctxs m e in set_ctx m e (mkCtx (x_total x) (x_use x) (x_list x) (x_stamps x) (Some k)).
(** Clock._increment_time on get_clock(e) (scheduler.py 973, 982, 984, 987, 994-995) *)
Definition incr_clock (s : timescale) (m : core) (e : eid) : res core :=
  match clock_incr s (the_clock (m_ctxs m e)) with
  | Ok k => Ok (set_clock m e k)
  | Err ex => Err ex
  end.

Definition view_of (m : core) (e : eid) : view :=
  let x := m_ctxs m e in
  mkView (m_nodes m) (queue m) (m_exact m) (x_total x) (x_use x) (x_list x) (the_clock x).

(** cond.is_satisfied(scheduler=self, execution_id=e) *)
Definition satisfied (m : core) (e : eid) (c : cond) : res bool * core :=
  let (r, st) := eval (view_of m e) e (m_owners m) c (m_cst m) in (r, set_cst m st).

(** _init_counts (scheduler.py 525-582) with a base execution id, as called by run.
    Inner dicts are total functions on nodes; copying them copies the function. *)
Definition copy_entry {A} (here base : option A) : res (option A) :=
  match here with
  | Some a => Ok (Some a)
  | None => match base with Some b => Ok (Some b) | None => Err EScheduler end
  end.
Definition init_counts_base (m : core) (e base : eid) : res unit * core :=
  let x := m_ctxs m e in let b := m_ctxs m base in
  match copy_entry (x_total x) (x_total b) with
  | Err ex => (Err ex, m)
  | Ok t =>
      let x1 := mkCtx t (x_use x) (x_list x) (x_stamps x) (x_clock x) in
      match copy_entry (x_use x) (x_use b) with
      | Err ex => (Err ex, set_ctx m e x1)
      | Ok u =>
          let x2 := mkCtx t u (x_list x) (x_stamps x) (x_clock x) in
          match copy_entry (x_list x) (x_list b) with
          | Err ex => (Err ex, set_ctx m e x2)
          | Ok l =>
              let x3 := mkCtx t u l (x_stamps x) (x_clock x) in
              (* _init_clock (584-594): run has already created the clock *)
              match copy_entry (x_clock x) (x_clock b) with
              | Err ex => (Err ex, set_ctx m e x3)
              | Ok k => (Ok tt, set_ctx m e (mkCtx t u l (x_stamps x) k))
              end
          end
      end
  end.
(** _init_counts without a base (scheduler.py 525-582), as called by __init__; the
    execution_list / execution_timestamps / clocks entries are made by __init__ 516-518 *)
Definition fresh_ctx : ctx :=
  mkCtx (Some zero_total) (Some zero_use) (Some []) (Some []) (Some new_clock).
(** _delete_counts (scheduler.py 596-607) *)
Definition delete_counts (m : core) (e : eid) : core := set_ctx m e ctx_none.

(** _reset_counts_total (scheduler.py 609-615) *)
Definition reset_total (s : timescale) (f : timescale -> node -> nat) : timescale -> node -> nat :=
  fun s' n => if ts_leb s' s then 0 else f s' n.
Definition reset_counts_total (s : timescale) (m : core) (e : eid) : core :=
  let x := m_ctxs m e in
  set_ctx m e (mkCtx (option_map (reset_total s) (x_total x)) (x_use x) (x_list x) (x_stamps x) (x_clock x)).
(** _reset_counts_useable (scheduler.py 617-620) *)
Definition reset_counts_useable (m : core) (e : eid) : core :=
  let x := m_ctxs m e in
  set_ctx m e (mkCtx (x_total x) (Some zero_use) (x_list x) (x_stamps x) (x_clock x)).

(** bookkeeping when a node is accepted (scheduler.py 950-959) *)
Definition bump_total (n : node) (f : timescale -> node -> nat) : timescale -> node -> nat :=
  fun s n' => if Nat.eqb n' n then S (f s n') else f s n'.
Definition spend_use (n : node) (f : node -> node -> nat) : node -> node -> nat :=
  fun a b => let z := if Nat.eqb b n then 0 else f a b in if Nat.eqb a n then S z else z.
Definition accept (m : core) (e : eid) (n : node) : core :=
  let x := m_ctxs m e in
  set_ctx m e (mkCtx (option_map (bump_total n) (x_total x)) (option_map (spend_use n) (x_use x))
                     (x_list x) (x_stamps x) (x_clock x)).

(** One iteration of the do-while body (scheduler.py 940-959): each node of the level in
    order, skipping those already added. *)
Fixpoint round (m : core) (e : eid) (level : list node) (exec : list node) (changed : bool)
  : res (list node * bool) * core :=
  match level with
  | [] => (Ok (exec, changed), m)
  | n :: r =>
      if mem n exec then round m e r exec changed
      else
        match aget n (m_basic m) with
        | None => (Err EKey, m)
        | Some c =>
            match satisfied m e c with
            | (Ok true, m') =>
                (* counts_total and counts_useable have the nodes of the scheduler as keys (950-959) *)
                if mem n (m_nodes m') then round (accept m' e n) e r (exec ++ [n]) true else (Err EKey, m')
            | (Ok false, m') => round m' e r exec changed
            | (Err ex, m') => (Err ex, m')
            end
        end
  end.
(** the do-while loop (scheduler.py 939-962).  Fuel: see [Run_proofs], S (length level)
    always suffices.  [None] = out of fuel. *)
Fixpoint do_level (fuel : nat) (m : core) (e : eid) (level exec : list node)
  : option (res (list node) * core) :=
  match fuel with
  | O => None
  | S f =>
      match round m e level exec false with
      | (Err ex, m') => Some (Err ex, m')
      | (Ok (exec', true), m') => do_level f m' e level exec'
      | (Ok (exec', false), m') => Some (Ok exec', m')
      end
  end.

(** termination_conds[s].is_satisfied *)
Definition check_tc (m : core) (e : eid) (tc : tconds) (s : timescale) : res bool * core :=
  match tc s with None => (Err EKey, m) | Some c => satisfied m e c end.
(** "not ESU-satisfied and not ES-satisfied" negated (scheduler.py 912-915, 923-924) *)
Definition terminated (m : core) (e : eid) (tc : tconds) : res bool * core :=
  match check_tc m e tc ESU with
  | (Ok true, m') => (Ok true, m')
  | (Ok false, m') => check_tc m' e tc ES
  | (Err ex, m') => (Err ex, m')
  end.

(** append to execution_list (and execution_timestamps) (scheduler.py 966-970, 979) *)
Definition append_exec (m : core) (e : eid) (abs : bool) (s : list node) : res core * core :=
  let x := m_ctxs m e in
  match x_list x with
  | None => (Err EKey, m)
  | Some l =>
      let m1 := set_ctx m e (mkCtx (x_total x) (x_use x) (Some (l ++ [s])) (x_stamps x) (x_clock x)) in
      if abs then
        match x_stamps x with
        | None => (Err EKey, m1)
        | Some ts =>
            let m2 := set_ctx m e (mkCtx (x_total x) (x_use x) (Some (l ++ [s]))
                                         (Some (ts ++ [k_time (the_clock x)])) (x_clock x)) in
            (Ok m2, m2)
        end
      else (Ok m1, m1)
  end.

(** Where a suspended generator is. *)
Inductive pc :=
| PStart                                  (* created, not started *)
| PLevel (i : nat) (changed : bool)       (* at the yield of line 971, for level i *)
| PIdle                                   (* at the yield of line 980 *)
| PDone.                                  (* returned or raised *)

(** The arguments and local variables of one call of run() (scheduler.py 856-863).
    [g_tcarg] is the termination_conds argument; [g_tc], [g_abs] are set at the start. *)
Record gen := mkGen {
  g_eid : eid;
  g_base : eid;
  g_tcarg : option tconds;
  g_skip : bool;
  g_tc : tconds;
  g_abs : bool;
  g_pc : pc
}.
Definition at_pc (g : gen) (p : pc) : gen :=
  mkGen (g_eid g) (g_base g) (g_tcarg g) (g_skip g) (g_tc g) (g_abs g) p.
Definition new_gen (e base : eid) (tcarg : option tconds) (skip : bool) : gen :=
  mkGen e base tcarg skip (fun _ => None) false PStart.

Inductive outcome :=
| OYield (s : list node)
| OReturn (l : list (list node))
| ORaise (ex : exn)
| OStop                    (* StopIteration of a finished generator *)
| OFuel.                   (* no result within the fuel: diverging *)

(** the inner while loop (scheduler.py 921-975) over the remaining levels *)
Inductive inner_result :=
| IYield (m : core) (s : list node) (i : nat) (changed : bool)
| IEnd (m : core) (changed : bool)
| IErr (m : core) (ex : exn)
| IFuel (m : core).
Definition nonempty {A} (l : list A) : bool := match l with [] => false | _ => true end.
Fixpoint inner (m : core) (g : gen) (rest : list (list node)) (i : nat) (changed : bool) : inner_result :=
  match rest with
  | [] => IEnd m changed
  | level :: rest' =>
      match terminated m (g_eid g) (g_tc g) with
      | (Err ex, m1) => IErr m1 ex
      | (Ok true, m1) => IEnd m1 changed
      | (Ok false, m1) =>
          match do_level (S (length level)) m1 (g_eid g) level [] with
          | None => IFuel m1
          | Some (Err ex, m2) => IErr m2 ex
          | Some (Ok exec, m2) =>
              let changed' := changed || nonempty exec in
              if nonempty exec || g_abs g then
                match append_exec m2 (g_eid g) (g_abs g) exec with
                | (Err ex, m3) => IErr m3 ex
                | (Ok _, m3) => IYield m3 exec i changed'
                end
              else inner m2 g rest' (S i) changed'
          end
      end
  end.

(** the rest of a pass after the inner loop (scheduler.py 977-984): either the yield of an
    empty set or the end of the pass *)
Inductive tail_result :=
| TYield (m : core)
| TNext (m : core)
| TErr (m : core) (ex : exn).
Definition pass_tail (m : core) (g : gen) (changed : bool) : tail_result :=
  if negb changed && negb (g_abs g) then
    match append_exec m (g_eid g) false [] with
    | (Ok _, m') => TYield m'
    | (Err ex, m') => TErr m' ex
    end
  else match incr_clock PASS m (g_eid g) with
       | Ok m' => TNext m'
       | Err ex => TErr m ex
       end.

(** lines 986-992 *)
Definition finish (m : core) (g : gen) : core * gen * outcome :=
  let done := at_pc g PDone in
  match (if g_skip g then Ok m else incr_clock ESU m (g_eid g)) with
  | Err ex => (m, done, ORaise ex)
  | Ok m1 =>
      match check_tc m1 (g_eid g) (g_tc g) ES with
      | (Err ex, m2) => (m2, done, ORaise ex)
      | (Ok _, m2) =>
          match x_list (m_ctxs m2 (g_eid g)) with
          | None => (m2, done, ORaise EKey)
          | Some l => (m2, done, OReturn l)
          end
      end
  end.

(** the outer while loop (scheduler.py 912-984) from its head; each unit of fuel is one
    iteration *)
Fixpoint outer (fuel : nat) (m : core) (g : gen) : core * gen * outcome :=
  match fuel with
  | O => (m, g, OFuel)
  | S f =>
      match terminated m (g_eid g) (g_tc g) with
      | (Err ex, m1) => (m1, at_pc g PDone, ORaise ex)
      | (Ok true, m1) => finish m1 g
      | (Ok false, m1) =>
          let m2 := reset_counts_total PASS m1 (g_eid g) in
          match inner m2 g (queue m2) 0 false with
          | IYield m3 s i ch => (m3, at_pc g (PLevel i ch), OYield s)
          | IErr m3 ex => (m3, at_pc g PDone, ORaise ex)
          | IFuel m3 => (m3, g, OFuel)
          | IEnd m3 ch =>
              match pass_tail m3 g ch with
              | TYield m4 => (m4, at_pc g PIdle, OYield [])
              | TErr m4 ex => (m4, at_pc g PDone, ORaise ex)
              | TNext m4 => outer f m4 g
              end
          end
      end
  end.

(** ** Start of a run *)

(** default condition of a node without one (scheduler.py 827-833); uses fresh object ids *)
Fixpoint default_parts (next : oid) (deps : list node) : list cond :=
  match deps with
  | [] => []
  | d :: r => EveryNCalls next d 1 :: default_parts (S next) r
  end.
Definition default_cond (next : oid) (deps : list node) : cond * oid :=
  match deps with
  | [] => (Always next, S next)
  | [d] => (EveryNCalls next d 1, S next)
  | _ => (All next (default_parts (S next) deps), S next + length deps)
  end.
(** _validate_conditions (scheduler.py 823-851); adding a basic condition stores it and sets
    its owner.  graph[node] raises KeyError for a node that is not in the graph. *)
Fixpoint add_defaults (ns : list node) (m : core) : res core :=
  match ns with
  | [] => Ok m
  | n :: r =>
      if ahas n (m_basic m) then add_defaults r m
      else
        match aget n (m_graph m) with
        | None => Err EKey
        | Some deps =>
            let (c, nx) := default_cond (m_next m) deps in
            add_defaults r (set_basic m (aset n c (m_basic m)) (set_owner (Some n) c (m_owners m)) nx)
        end
  end.
(** _validate_run_state (scheduler.py 806-821); the test of lines 814-818 compares a list
    with 1 and never fires *)
Definition validate_run_state (m : core) : res core * core :=
  match toposort (m_graph m) with
  | TopoOk _ => match add_defaults (m_nodes m) m with
                | Ok m' => (Ok m', m')
                | Err ex => (Err ex, m)
                end
  | _ => (Err EScheduler, m)
  end.

(** _combine_termination_conditions (scheduler.py 622-627) with TimeScale keys *)
Definition combine_tconds (base : tconds) (arg : tconds) : tconds :=
  fun s => match arg s with Some c => Some c | None => base s end.

(** get_absolute_conditions (scheduler.py 1034-1043) *)
Definition tc_list (tc : tconds) : list cond := flat_map (fun s => opt_list (tc s)) all_timescales.
Definition absolute_conditions (m : core) (tc : tconds) : list cond :=
  filter is_absolute (map snd (m_basic m) ++ tc_list tc).

(** lines 885-906: absolute time set-up *)
Definition unit_of (m : core) (tc : tconds) : res Q :=
  let cs := absolute_conditions m tc in
  let ivs := flat_map (fun c => absolute_intervals c ++ (if m_exact m then absolute_fixed_points c else [])) cs in
  absolute_unit (m_default_unit m) ivs (m_exact m) (length (queue m)).
Definition first_time (cs : list cond) : Q :=
  Qmin_list (map (fun c => Qmin_list (map q_val (absolute_fixed_points c)) 0%Q) cs) 0%Q.
Definition setup_absolute (m : core) (e : eid) (tc : tconds) : res core :=
  let k := the_clock (m_ctxs m e) in
  let t := k_time k in
  match absolute_conditions m tc with
  | [] => Ok (set_clock m e (mkClock (k_tree k) (k_md k) (mkTime (t_val t) (t_abs t) (t_interval t) false) (k_prev k)))
  | cs =>
      match unit_of m tc with
      | Err ex => Err ex
      | Ok u => Ok (set_clock m e (mkClock (k_tree k) (k_md k)
                                    (mkTime (t_val t) (Qmax' (t_abs t) (first_time cs)) u true) (k_prev k)))
      end
  end.

(** lines 871-910 *)
Definition start (m : core) (g : gen) : res gen * core :=
  match validate_run_state m with
  | (Err ex, m1) => (Err ex, m1)
  | (Ok _, m1) =>
      let e := g_eid g in
      let tc := match g_tcarg g with None => m_tconds m1 | Some a => combine_tconds (m_tconds m1) a end in
      let m2 := set_clock m1 e (the_clock (m_ctxs m1 e)) in
      let abs := nonempty (absolute_conditions m2 tc) in
      match setup_absolute m2 e tc with
      | Err ex => (Err ex, m2)
      | Ok m3 =>
          match init_counts_base m3 e (g_base g) with
          | (Err ex, m4) => (Err ex, m4)
          | (Ok _, m4) =>
              let m5 := reset_counts_useable m4 e in
              let m6 := reset_counts_total ESU m5 e in
              (Ok (mkGen e (g_base g) (g_tcarg g) (g_skip g) tc abs PStart), m6)
          end
      end
  end.

(** next(generator): run from the current point to the next yield, return or exception *)
Definition resume (fuel : nat) (m : core) (g : gen) : core * gen * outcome :=
  let continue_pass (r : inner_result) :=
    match r with
    | IYield m3 s i ch => (m3, at_pc g (PLevel i ch), OYield s)
    | IErr m3 ex => (m3, at_pc g PDone, ORaise ex)
    | IFuel m3 => (m3, g, OFuel)
    | IEnd m3 ch =>
        match pass_tail m3 g ch with
        | TYield m4 => (m4, at_pc g PIdle, OYield [])
        | TErr m4 ex => (m4, at_pc g PDone, ORaise ex)
        | TNext m4 => outer fuel m4 g
        end
    end in
  match g_pc g with
  | PDone => (m, g, OStop)
  | PStart =>
      match start m g with
      | (Err ex, m1) => (m1, at_pc g PDone, ORaise ex)
      | (Ok g1, m1) => outer fuel m1 g1
      end
  | PLevel i ch =>                                     (* after line 971: 973-975 *)
      match incr_clock CSE m (g_eid g) with
      | Err ex => (m, at_pc g PDone, ORaise ex)
      | Ok m1 => continue_pass (inner m1 g (skipn (S i) (queue m1)) (S i) ch)
      end
  | PIdle =>                                           (* after line 980: 982-984 *)
      match incr_clock CSE m (g_eid g) with
      | Err ex => (m, at_pc g PDone, ORaise ex)
      | Ok m1 => match incr_clock PASS m1 (g_eid g) with
                 | Err ex => (m1, at_pc g PDone, ORaise ex)
                 | Ok m2 => outer fuel m2 g
                 end
      end
  end.

(** end_environment_sequence (scheduler.py 668-677) *)
Definition end_environment_sequence (m : core) (e : eid) : res core := incr_clock ES m e.

(** list(scheduler.run(...)): resume until the generator ends, at most [steps] yields *)
Fixpoint drive (steps fuel : nat) (m : core) (g : gen) (acc : list (list node))
  : core * gen * list (list node) * outcome :=
  match steps with
  | O => (m, g, acc, OFuel)
  | S k =>
      match resume fuel m g with
      | (m', g', OYield s) => drive k fuel m' g' (acc ++ [s])
      | (m', g', o) => (m', g', acc, o)
      end
  end.
