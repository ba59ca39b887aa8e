(** Dependency dicts, their utilities (utilities.py) and the external [toposort] package. *)
From Verif Require Export Base.

(** typing_graph_dependency_dict (utilities.py 22): a dict mapping each node to the set of
    its senders. *)
Definition graph := amap (list node).

(* graph[n]; callers guard the KeyError case where the code can hit it *)
Definition senders (g : graph) (n : node) : list node :=
  match aget n g with Some l => l | None => [] end.

Definition gkeys (g : graph) : list node := akeys g.

(** Values a user may put in a dependency dict: an iterable that is not a string, a string
    [whole] (with its characters [chars]), or a non-iterable object. *)
Inductive inval :=
| VIter (l : list node)
| VStr (whole : node) (chars : list node)
| VAtom (n : node).

(** clone_graph (utilities.py 106-118) on a user supplied dict *)
Definition clone_value (v : inval) : list node :=
  match v with
  | VIter l => s_of l
  | VStr w _ => [w]
  | VAtom n => [n]
  end.
Definition clone_input (g : amap inval) : graph := map (fun p => (fst p, clone_value (snd p))) g.

(** clone_graph (utilities.py 106-118) on a dict of sets *)
Definition clone_graph (g : graph) : graph := map (fun p => (fst p, s_of (snd p))) g.

(** set().union( *graph.values() ) in Scheduler.__init__ (scheduler.py 498): iterates the
    values, so a string contributes its characters and a non-iterable raises TypeError *)
Fixpoint union_values (g : amap inval) : res (list node) :=
  match g with
  | [] => Ok []
  | (_, v) :: r =>
      bind (union_values r) (fun u =>
        match v with
        | VIter l => Ok (s_union (s_of l) u)
        | VStr _ cs => Ok (s_union (s_of cs) u)
        | VAtom _ => Err EType
        end)
  end.

(* {**a, **b} : entries of b override, new keys are appended *)
Definition dict_merge {A} (a b : amap A) : amap A := fold_left (fun m p => aset (fst p) (snd p) m) b a.

(** base_graph of Scheduler.__init__ for a dict argument (scheduler.py 496-500) *)
Definition base_graph (g : amap inval) : res graph :=
  bind (union_values g) (fun u => Ok (dict_merge (map (fun n => (n, [])) u) (clone_input g))).

(** get_receivers (utilities.py 308-324) *)
Definition receivers_step (node : node) (r : graph) (s : Base.node) : graph :=
  aset s (s_add node (senders r s)) r.
Definition get_receivers (g : graph) : graph :=
  fold_left (fun r p => fold_left (receivers_step (fst p)) (snd p) r) g
            (map (fun p => (fst p, [])) g).

(** networkx DiGraph: nodes in insertion order and adjacency (successors).
    nx.DiGraph(dict-of-sets): adds the keys first, then the edges key -> element, which adds
    missing nodes (networkx convert.from_dict_of_lists). [nx_type(graph).reverse()]
    (utilities.py 183) keeps the nodes and reverses every edge. *)
Record digraph := mkdigraph { dg_nodes : list node; dg_edges : list (node * node) }.
Definition dict_to_digraph (g : graph) : digraph :=
  let edges := flat_map (fun p => map (fun s => (fst p, s)) (snd p)) g in
  mkdigraph (s_of (gkeys g ++ map snd edges)) edges.
Definition dg_reverse (d : digraph) : digraph :=
  mkdigraph (dg_nodes d) (map (fun e => (snd e, fst e)) (dg_edges d)).
(** dependency_dict_to_networkx_digraph (utilities.py 167-183) *)
Definition dependency_dict_to_networkx_digraph (g : graph) : digraph :=
  dg_reverse (dict_to_digraph g).
(* graph.adj[sender] *)
Definition dg_adj (d : digraph) (n : node) : list node :=
  map snd (filter (fun e => Nat.eqb (fst e) n) (dg_edges d)).
(** networkx_digraph_to_dependency_dict (utilities.py 186-208) *)
Definition nx_to_dict_sender (add_missing : bool) (d : digraph) (res : graph) (sender : node) : graph :=
  let res := if add_missing && negb (ahas sender res) then aset sender [] res else res in
  fold_left (fun res rec =>
               let res := if ahas rec res then res else aset rec [] res in
               aset rec (s_add sender (senders res rec)) res)
            (dg_adj d sender) res.
Definition networkx_digraph_to_dependency_dict (add_missing : bool) (d : digraph) : graph :=
  fold_left (nx_to_dict_sender add_missing d) (dg_nodes d) [].

(** nx.ancestors / nx.descendants: all nodes from which / to which there is a non-empty
    path, without the node itself.  Computed here by saturation. *)
Definition expand (step : node -> list node) (acc : list node) : list node :=
  fold_left s_union (map step acc) acc.
Fixpoint saturate (fuel : nat) (step : node -> list node) (acc : list node) : list node :=
  match fuel with
  | O => acc
  | S f => saturate f step (expand step acc)
  end.
Definition g_universe (g : graph) : list node := s_of (gkeys g ++ flat_map snd g).
(** get_ancestors (utilities.py 282-292), at one node *)
Definition ancestors_of (g : graph) (n : node) : list node :=
  s_remove n (saturate (length (g_universe g)) (senders g) (senders g n)).
Definition receivers_of (g : graph) (n : node) : list node :=
  map fst (filter (fun p => mem n (snd p)) g).
(** get_descendants (utilities.py 295-305), at one node *)
Definition descendants_of (g : graph) (n : node) : list node :=
  s_remove n (saturate (length (g_universe g)) (receivers_of g) (receivers_of g n)).
Definition get_ancestors (g : graph) : graph := map (fun p => (fst p, ancestors_of g (fst p))) g.
Definition get_descendants (g : graph) : graph := map (fun p => (fst p, descendants_of g (fst p))) g.

(** ** The external package [toposort] (used by scheduler.py 361-365)
<<
def toposort(data):
    if len(data) == 0: return
    data = {item: set(e for e in dep if e != item) for item, dep in data.items()}
    extra_items_in_deps = {value for values in data.values() for value in values} - set(data.keys())
    data.update({item: set() for item in extra_items_in_deps})
    while True:
        ordered = {item for item, dep in data.items() if len(dep) == 0}
        if not ordered: break
        yield ordered
        data = {item: (dep - ordered) for item, dep in data.items() if item not in ordered}
    if len(data) != 0: raise CircularDependencyError(data)
>> *)
Definition topo_init (g : graph) : graph :=
  let data := map (fun p => (fst p, s_remove (fst p) (s_of (snd p)))) g in
  let extra := s_diff (s_of (flat_map snd data)) (gkeys data) in
  data ++ map (fun n => (n, [])) extra.
Definition topo_ordered (data : graph) : list node :=
  map fst (filter (fun p => match snd p with [] => true | _ => false end) data).
Definition topo_rest (data : graph) (ordered : list node) : graph :=
  map (fun p => (fst p, s_diff (snd p) ordered))
      (filter (fun p => negb (mem (fst p) ordered)) data).
(** [None] is CircularDependencyError.  The fuel never runs out when it is at least the
    number of entries (TopoProofs.topo_loop_fuel), because every round removes an entry. *)
Inductive topo_result := TopoOk (levels : list (list node)) | TopoCycle | TopoOutOfFuel.
Fixpoint topo_loop (fuel : nat) (data : graph) : topo_result :=
  match topo_ordered data with
  | [] => match data with [] => TopoOk [] | _ => TopoCycle end
  | ordered =>
      match fuel with
      | O => TopoOutOfFuel
      | S f =>
          match topo_loop f (topo_rest data ordered) with
          | TopoOk l => TopoOk (ordered :: l)
          | r => r
          end
      end
  end.
(** _build_consideration_queue (scheduler.py 361-365): list(toposort(graph)) *)
Definition toposort (g : graph) : topo_result :=
  match g with
  | [] => TopoOk []
  | _ => let d := topo_init g in topo_loop (length d) d
  end.

(** _generate_consideration_queue_indices (scheduler.py 368-381) *)
Fixpoint queue_indices_from (i : nat) (q : list (list node)) (acc : amap nat) : amap nat :=
  match q with
  | [] => acc
  | cs :: r => queue_indices_from (S i) r (fold_left (fun m n => aset n i m) cs acc)
  end.
Definition queue_indices (q : list (list node)) : amap nat := queue_indices_from 0 q [].
