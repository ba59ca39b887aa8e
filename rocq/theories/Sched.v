(** The Scheduler object: construction, condition wrappers, graph stack, termination
    conditions and runs (scheduler.py 342-523, 622-800, 1059-1180). *)
From Verif Require Export Run CondSet.
Open Scope nat_scope.

(** All attributes of a Scheduler that are modelled.  The three parallel stacks _graphs,
    _consideration_queues, _consideration_queue_indices are one list, top first; indices are
    a function of the queue. *)
Record sched := mkSched {
  d_nodes : list node;
  d_exact : bool;
  d_unit : quantity;
  d_default_eid : eid;
  d_default_tc : tconds;
  d_tc : tconds;
  d_cs : condset;
  d_owners : owners_t;
  d_next : oid;
  d_stack : list (graph * list (list node));
  d_last : option (list scond);       (* _last_handled_structural_condition_order *)
  d_cst : cstate;
  d_ctxs : eid -> ctx
}.
Definition set_stack (d : sched) st last :=
  mkSched (d_nodes d) (d_exact d) (d_unit d) (d_default_eid d) (d_default_tc d) (d_tc d) (d_cs d)
          (d_owners d) (d_next d) st last (d_cst d) (d_ctxs d).
Definition set_cs (d : sched) cs ow :=
  mkSched (d_nodes d) (d_exact d) (d_unit d) (d_default_eid d) (d_default_tc d) (d_tc d) cs
          ow (d_next d) (d_stack d) (d_last d) (d_cst d) (d_ctxs d).
Definition set_tc (d : sched) tc :=
  mkSched (d_nodes d) (d_exact d) (d_unit d) (d_default_eid d) (d_default_tc d) tc (d_cs d)
          (d_owners d) (d_next d) (d_stack d) (d_last d) (d_cst d) (d_ctxs d).

Section Cycles.
Variable simple_cycles : graph -> list (list node).   (* networkx.simple_cycles *)
(** iteration order of the sets returned by toposort: an arbitrary reordering of each level *)
Variable arrange : list (list node) -> list (list node).

(** _push_graph (scheduler.py 1117-1134): a cyclic graph gets the queue [set()] *)
Definition queue_of (g : graph) : list (list node) :=
  match toposort g with TopoOk q => arrange q | _ => [[]] end.
Definition push_graph (g : graph) (st : list (graph * list (list node))) := (g, queue_of g) :: st.

(* length of the common prefix of two lists of condition objects (1089-1097) *)
Fixpoint common_prefix (a b : list scond) : nat :=
  match a, b with
  | x :: a', y :: b' => if Nat.eqb (sc_oid x) (sc_oid y) then S (common_prefix a' b') else 0
  | _, _ => 0
  end.
Definition same_order (a b : list scond) : bool :=
  if list_eq_dec Nat.eq_dec (map sc_oid a) (map sc_oid b) then true else false.
(* k times _pop_graph (1136-1141): IndexError on an empty stack *)
Fixpoint pop_graphs (k : nat) (st : list (graph * list (list node))) : res unit * list (graph * list (list node)) :=
  match k, st with
  | O, _ => (Ok tt, st)
  | S k', [] => (Err EIndex, [])
  | S k', _ :: r => pop_graphs k' r
  end.
(* lines 1108-1111 *)
Fixpoint push_conds (conds : list scond) (ow : owners_t) (cur : graph) (st : list (graph * list (list node)))
  : res unit * list (graph * list (list node)) :=
  match conds with
  | [] => (Ok tt, st)
  | c :: r =>
      match modify_graph simple_cycles (ow (sc_oid c)) (sc_gsc c) cur with
      | Err ex => (Err ex, st)
      | Ok g => push_conds r ow g (push_graph g st)
      end
  end.
(** _handle_modified_structural_conditions (scheduler.py 1087-1115) *)
Definition sync (d : sched) : res unit * sched :=
  let order := cs_order (d_cs d) in
  if match d_last d with Some l => same_order l order | None => false end then (Ok tt, d)
  else
    let last := match d_last d with Some l => l | None => [] end in
    let k := common_prefix order last in
    match pop_graphs (length last - k) (d_stack d) with
    | (Err ex, st) => (Err ex, set_stack d st (d_last d))
    | (Ok _, st) =>
        match st with
        | [] => (Err EIndex, set_stack d st (d_last d))
        | (g, _) :: _ =>
            match push_conds (skipn k order) (d_owners d) g st with
            | (Err ex, st') => (Err ex, set_stack d st' (d_last d))
            | (Ok _, st') => (Ok tt, set_stack d st' (Some order))
            end
        end
    end.

(** the [graph] and [consideration_queue] properties (scheduler.py 1143-1170) *)
Definition top_graph (d : sched) : graph := match d_stack d with (g, _) :: _ => g | [] => [] end.
Definition top_queue (d : sched) : list (list node) := match d_stack d with (_, q) :: _ => q | [] => [] end.
Definition get_graph (d : sched) : res graph * sched :=
  match sync d with
  | (Ok _, d') => (Ok (top_graph d'), d')
  | (Err ex, d') => (Err ex, d')
  end.
Definition get_queue (d : sched) : res (list (list node)) * sched :=
  match sync d with
  | (Ok _, d') => (Ok (if d_exact d' then [gkeys (top_graph d')] else top_queue d'), d')
  | (Err ex, d') => (Err ex, d')
  end.
(** consideration_queue_indices (scheduler.py 1172-1180) *)
Definition get_indices (d : sched) : res (amap nat) * sched :=
  match sync d with
  | (Ok _, d') => (Ok (queue_indices (top_queue d')), d')
  | (Err ex, d') => (Err ex, d')
  end.

(** add_condition, add_condition_set, remove_condition (scheduler.py 720-800) *)
Definition add_condition (w : node) (a : anycond) (d : sched) : res unit * sched :=
  match cs_add w a (d_cs d) (d_owners d) with
  | Err ex => (Err ex, d)
  | Ok (cs, ow) => sync (set_cs d cs ow)
  end.
Definition add_condition_set (s : amap centry) (d : sched) : res unit * sched :=
  match cs_add_set s (d_cs d) (d_owners d) with
  | (Err ex, cs, ow) => (Err ex, set_cs d cs ow)
  | (Ok _, cs, ow) => sync (set_cs d cs ow)
  end.
Definition remove_condition_owner (w : node) (d : sched) : res (option anycond) * sched :=
  let '(r, cs, ow) := cs_remove_owner w (d_cs d) (d_owners d) in (r, set_cs d cs ow).
Definition remove_condition (a : anycond) (d : sched) : res (option anycond) * sched :=
  let '(r, cs, ow) := cs_remove_cond a (d_cs d) (d_owners d) in (r, set_cs d cs ow).
(** add_graph_edge, remove_graph_edge (scheduler.py 679-711); [o] is the new condition object *)
Definition add_graph_edge (o : oid) (sender receiver : node) (d : sched) :=
  add_condition sender (Struct (mkS o (GAddEdgeTo receiver))) d.
Definition remove_graph_edge (o : oid) (sender receiver : node) (d : sched) :=
  add_condition receiver (Struct (mkS o (GRemoveEdgeFrom sender))) d.

(** default_termination_conds (scheduler.py 342-345): two module level objects *)
Definition default_tc (oNever oAll : oid) : tconds :=
  fun s => match s with ES => Some (Never oNever) | ESU => Some (AllHaveRun oAll [] ESU) | _ => None end.

(** Scheduler.__init__ (scheduler.py 462-523).  [input] is a dependency dict, a DiGraph, or
    something else (None or an undirected graph).  [tc] has TimeScale keys.  [nx] is the first
    unused object id; the default termination conditions are objects 0 and 1. *)
Inductive graph_arg := ArgDict (g : amap inval) | ArgDiGraph (d : digraph) | ArgOther.
Definition arg_graph (a : graph_arg) : res graph :=
  match a with
  | ArgDict g => base_graph g
  | ArgDiGraph d => Ok (networkx_digraph_to_dependency_dict true d)
  | ArgOther => Err EScheduler
  end.
Definition new_sched (input : graph_arg) (conds : amap centry) (tc : option tconds) (deid : eid)
    (exact : bool) (du : quantity) (ow : owners_t) (nx : oid) (w : world) : res unit * sched :=
  let dtc := match tc with None => default_tc 0 1 | Some t => combine_tconds (default_tc 0 1) t end in
  let blank g st := mkSched (gkeys g) exact du deid dtc dtc cs_empty ow nx st None
                         (mkCstate (fun _ _ => 0) w) (upd (fun _ => ctx_none) deid fresh_ctx) in
  match arg_graph input with
  | Err ex => (Err ex, blank [] [])
  | Ok g => match conds with
            | [] => (Ok tt, blank g (push_graph g []))
            | _ => add_condition_set conds (blank g (push_graph g []))
            end
  end.

(** termination_conds setter (scheduler.py 1063-1081) *)
Definition set_termination_conds (t : option tconds) (d : sched) : sched :=
  match t with
  | None => set_tc d (d_default_tc d)
  | Some t => set_tc d (combine_tconds (d_tc d) t)
  end.

(** The part of the scheduler seen by run *)
Definition core_of (d : sched) : core :=
  mkCore (d_nodes d) (top_graph d) (top_queue d) (d_exact d) (d_unit d) (d_tc d)
         (cs_basic (d_cs d)) (d_owners d) (d_next d) (d_cst d) (d_ctxs d).
Definition put_core (d : sched) (m : core) : sched :=
  let cs := d_cs d in
  mkSched (d_nodes d) (d_exact d) (d_unit d) (d_default_eid d) (d_default_tc d) (d_tc d)
          (mkCS (m_basic m) (cs_struct cs) (cs_order cs) (cs_cache cs)
                (cs_rebuild cs || negb (Nat.eqb (length (m_basic m)) (length (cs_basic cs)))))
          (m_owners m) (m_next m) (d_stack d) (d_last d) (m_cst m) (m_ctxs m).
(** next() on a generator when synchronising the graph raises [ex], leaving [d1].  The code
    synchronises at the first access of graph / consideration_queue (scheduler.py 1150, 1165):
    - a finished generator accesses neither: StopIteration;
    - a new one does so first (lines 871, 808);
    - after a set (line 971) the clock is incremented (973) before the access in line 924;
    - after an empty set (980) the clock is incremented twice (982, 984) and the termination
      conditions are tested (912-915): when they hold the run ends without the access (986-992),
      otherwise the counts of the pass are reset (917-919) before the access in line 924.
    Simplified: a termination condition that itself reads consideration_queue (TimeInterval)
    is evaluated here with the graph as it was. *)
Definition sresume_failed (d d1 : sched) (g : gen) (ex : exn) : sched * gen * outcome :=
  let e := g_eid g in
  match g_pc g with
  | PDone => (d, g, OStop)
  | PStart => (d1, at_pc g PDone, ORaise ex)
  | PLevel _ _ =>
      match incr_clock CSE (core_of d) e with
      | Err ex' => (d, at_pc g PDone, ORaise ex')
      | Ok m1 => (put_core d1 m1, at_pc g PDone, ORaise ex)
      end
  | PIdle =>
      match incr_clock CSE (core_of d) e with
      | Err ex' => (d, at_pc g PDone, ORaise ex')
      | Ok m1 =>
          match incr_clock PASS m1 e with
          | Err ex' => (put_core d m1, at_pc g PDone, ORaise ex')
          | Ok m2 =>
              match terminated m2 e (g_tc g) with
              | (Err ex', m3) => (put_core d m3, at_pc g PDone, ORaise ex')
              | (Ok true, m3) => let '(m4, g', o) := finish m3 g in (put_core d m4, g', o)
              | (Ok false, m3) => (put_core d1 (reset_counts_total PASS m3 e), at_pc g PDone, ORaise ex)
              end
          end
      end
  end.
(** next() on a generator of this scheduler.  When it can be synchronised the graph is
    synchronised first; compared with the code, which increments the clock and after an empty
    set tests the termination conditions before, this differs only in the cached graphs of a
    scheduler whose run ends without needing its graph. *)
Definition sresume (fuel : nat) (d : sched) (g : gen) : sched * gen * outcome :=
  match sync d with
  | (Err ex, d1) => sresume_failed d d1 g ex
  | (Ok _, d1) =>
      let '(m, g', o) := resume fuel (core_of d1) g in (put_core d1 m, g', o)
  end.
Fixpoint sdrive (steps fuel : nat) (d : sched) (g : gen) (acc : list (list node))
  : sched * gen * list (list node) * outcome :=
  match steps with
  | O => (d, g, acc, OFuel)
  | S k =>
      match sresume fuel d g with
      | (d', g', OYield s) => sdrive k fuel d' g' (acc ++ [s])
      | (d', g', o) => (d', g', acc, o)
      end
  end.
(** end_environment_sequence (scheduler.py 668-677) *)
Definition send_environment_sequence (e : eid) (d : sched) : res sched :=
  bind (end_environment_sequence (core_of d) e) (fun m => Ok (put_core d m)).
End Cycles.
