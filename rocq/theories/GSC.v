(** Graph structure conditions (condition.py 537-615, 2551-3458).

    Python sets are mutable objects and some operations return one of their arguments, so the
    graphs inside a structural condition are modelled with a heap of set objects. *)
From Verif Require Export Graph.
Open Scope nat_scope.

(** Operation (condition.py 537-615); MERGE is a member of its own that computes what UNION does,
    so one constructor serves for both *)
Inductive operation := KEEP | REPLACE | DISCARD | INTERSECTION | UNION | DIFFERENCE
                     | INVERSE_DIFFERENCE | SYMMETRIC_DIFFERENCE.
Definition MERGE := UNION.
(** the set computed by operation(source, comparison) (condition.py 570-590, 597-615) *)
Definition op_set (o : operation) (s c : list node) : list node :=
  match o with
  | KEEP => s
  | REPLACE => c
  | DISCARD => []
  | INTERSECTION => s_inter s c
  | UNION => s_union s c
  | DIFFERENCE => s_diff s c
  | INVERSE_DIFFERENCE => s_diff c s
  | SYMMETRIC_DIFFERENCE => s_symdiff s c
  end.

(** ** Heap of set objects *)
Notation loc := nat (only parsing).
Definition store := list (list node).
Definition s_get (h : store) (l : loc) : list node := nth l h [].
Fixpoint s_put (h : store) (l : loc) (v : list node) : store :=
  match h, l with
  | [], _ => []
  | _ :: r, O => v :: r
  | x :: r, S l' => x :: s_put r l' v
  end.
(* a new set object *)
Definition s_alloc (h : store) (v : list node) : store * loc := (h ++ [v], length h).
(** A dict of references to set objects, with the heap it lives in. *)
Record hgraph := mkH { h_refs : amap loc; h_store : store }.
Definition hloc (h : hgraph) (n : node) : loc := match aget n (h_refs h) with Some l => l | None => length (h_store h) end.
Definition hget (h : hgraph) (n : node) : list node := s_get (h_store h) (hloc h n).
(* graph[n].add / .remove / .discard : mutate the object in place *)
Definition hmut (h : hgraph) (n : node) (f : list node -> list node) : hgraph :=
  mkH (h_refs h) (s_put (h_store h) (hloc h n) (f (hget h n))).
(* graph[n] = <new set> *)
Definition hnew (h : hgraph) (n : node) (v : list node) : hgraph :=
  mkH (aset n (length (h_store h)) (h_refs h)) (h_store h ++ [v]).
(* graph[n] = <existing object> *)
Definition href (h : hgraph) (n : node) (l : loc) : hgraph := mkH (aset n l (h_refs h)) (h_store h).
(* a dict whose values are all new sets, as made by clone_graph *)
Fixpoint load_from (g : graph) (i : nat) : amap loc :=
  match g with [] => [] | (k, _) :: r => (k, i) :: load_from r (S i) end.
Definition load (g : graph) : hgraph := mkH (load_from g 0) (map snd g).
(* the graph as a value *)
Definition unload (h : hgraph) : graph := map (fun p => (fst p, s_get (h_store h) (snd p))) (h_refs h).
(* put a graph of all new sets into an existing heap *)
Definition hload (st : store) (g : graph) : hgraph := mkH (load_from g (length st)) (st ++ map snd g).
(* clone_graph (utilities.py 106-118): new set objects behind the existing ones *)
Definition hclone (h : hgraph) : hgraph := hload (h_store h) (clone_graph (unload h)).

(** ** Conditions *)
(** argument of subject_senders / subject_receivers: one operation or a dict *)
Inductive subject_op := SOne (o : operation) | SDict (d : amap operation).
Inductive op_kind := KPlain | KBefore | KWith | KAfter.
(** _GSCWithOperations attributes (condition.py 2806-2839); [p_kind] is the class:
    _GSCWithOperations itself, BeforeNode(s), WithNode, AfterNode(s) *)
Record opcond := mkOp {
  p_kind : op_kind;
  p_nodes : list node;
  p_owner_senders : operation;
  p_owner_receivers : operation;
  p_subject_senders : subject_op;
  p_subject_receivers : subject_op;
  p_reconnect : bool;
  p_remove_self : bool;
  p_prune : bool;
  p_ignore_conflicts : bool
}.
(** user function of CustomGraphStructureCondition (condition.py 2644-2677): the position of a
    parameter called 'self', if there is one, and what the function does with the owner (if self is
    passed) and the graph, whose set objects it may change.  inspect.signature is taken to succeed. *)
Record custom := mkCustom { u_self : option nat; u_call : option node -> hgraph -> res hgraph }.
(** CustomGraphStructureCondition._process (condition.py 2666-2677) *)
Definition custom_process (u : custom) (w : node) (h : hgraph) : res hgraph :=
  match u_self u with
  | None => u_call u None h
  | Some O => u_call u (Some w) h
  | Some (S _) => Err ECondition
  end.
Inductive gsc :=
| GCustom (u : custom)
| GOps (p : opcond)
| GAddEdgeTo (n : node)            (* condition.py 3432-3441 *)
| GRemoveEdgeFrom (n : node).      (* condition.py 3444-3458 *)

(** subject nodes used by the condition (condition.py 2680-2687) *)
Definition gsc_nodes (s : gsc) : list node :=
  match s with GCustom _ => [] | GOps p => p_nodes p | GAddEdgeTo n => [n] | GRemoveEdgeFrom n => [n] end.

(** constructors with their argument checks: _validate_nodes (2706-2719, 2737-2743),
    _handle_subject_arg (3179-3208; the check of missing nodes in 3198-3204 is computed the
    wrong way round and never fires) *)
Definition subject_ok (nodes : list node) (s : subject_op) : bool :=
  match s with SOne _ => true | SDict d => s_subset (akeys d) nodes end.
Definition make_ops (kind : op_kind) (single : bool) (nodes : list node)
    (os or_ : operation) (ss sr : subject_op) (rec rs pr ic : bool) : res gsc :=
  if negb (subject_ok nodes ss) || negb (subject_ok nodes sr) then Err ECondition
  else if (if single then negb (Nat.eqb (length nodes) 1) else Nat.ltb (length nodes) 1) then Err ECondition
  else Ok (GOps (mkOp kind nodes os or_ ss sr rec rs pr ic)).
Definition with_operations nodes os or_ ss sr rec rs pr ic := make_ops KPlain false nodes os or_ ss sr rec rs pr ic.
(* BeforeNodes / BeforeNode (condition.py 3270-3324), with the default operations *)
Definition before_nodes nodes := make_ops KBefore false nodes MERGE KEEP (SOne KEEP) (SOne KEEP) true true true false.
(* WithNode (condition.py 3327-3357) *)
Definition with_node n := make_ops KWith true [n] MERGE KEEP (SOne MERGE) (SOne KEEP) true true true false.
(* AfterNodes / AfterNode (condition.py 3375-3429) *)
Definition after_nodes nodes := make_ops KAfter false nodes KEEP MERGE (SOne MERGE) (SOne KEEP) true true true false.

(** _validate_owner (condition.py 2699-2704) *)
Definition gsc_owner_ok (s : gsc) (w : node) : bool := negb (mem w (gsc_nodes s)).
(** _validate_graph (condition.py 2559-2568, 2721-2729); the warning of _GSCReposition
    (3228-3252) is in Warn.v *)
Definition gsc_graph_ok (s : gsc) (w : node) (g : graph) : bool :=
  match s with
  | GCustom _ => true
  | _ => s_subset (w :: gsc_nodes s) (gkeys g)
  end.

(** _get_subject_operation (condition.py 2841-2868) *)
Definition subject_operation (s : subject_op) (n : node) : res operation :=
  match s with
  | SOne o => Ok o
  | SDict d => match aget n d with Some o => Ok o | None => Err ECondition end
  end.

(** _nodes_already_valid (condition.py 3302-3303, 3359-3360, 3408-3409) *)
Definition already_valid (p : opcond) (w : node) (g : graph) : list node :=
  filter (fun n => match p_kind p with
                   | KPlain => false
                   | KBefore => mem w (senders g n)
                   | KWith => s_eqb (senders g n) (senders g w)
                   | KAfter => mem n (senders g w)
                   end) (p_nodes p).

(** _is_required_edge (condition.py 3013-3014, 3305-3306, 3362-3363, 3411-3412) *)
Definition required_edge (p : opcond) (w sender receiver : node) : bool :=
  match p_kind p with
  | KPlain => false
  | KBefore => Nat.eqb sender w && mem receiver (p_nodes p)
  | KWith => mem receiver (p_nodes p) || Nat.eqb receiver w
  | KAfter => mem sender (p_nodes p) && Nat.eqb receiver w
  end.

(** _preprocess of _GSCReposition (condition.py 3254-3260) *)
Definition preprocess (p : opcond) (w : node) (h : hgraph) : hgraph :=
  match p_kind p with
  | KPlain => h
  | _ => fold_left (fun h n => hmut (hmut h n (s_remove w)) w (s_remove n)) (p_nodes p) h
  end.

(** set.union( *sets ) *)
Definition union_all (ls : list (list node)) : list node := fold_left s_union ls [].

(** The object returned by owner_senders / subject_senders applied to the source object
    [sl] and the comparison (object [Some cl], or a temporary set): KEEP returns the source
    object, REPLACE the comparison object, the others a new set *)
Definition op_object (o : operation) (h : hgraph) (sl : loc) (cl : option loc) (c : list node) : hgraph * loc :=
  match o, cl with
  | KEEP, _ => (h, sl)
  | REPLACE, Some cl => (h, cl)
  | _, _ => let (st, l) := s_alloc (h_store h) (op_set o (s_get (h_store h) sl) c) in (mkH (h_refs h) st, l)
  end.

(** new_sender_nodes / new_receiver_nodes for the subjects (condition.py 3116-3129);
    [g] is the (unmodified) graph given to _process, [recv] its receivers *)
Fixpoint subject_results (p : opcond) (w : node) (g recv : graph) (gl : node -> loc) (ns : list node)
    (h : hgraph) (ns_new : amap loc) (nr_new : amap (list node)) : res (hgraph * amap loc * amap (list node)) :=
  match ns with
  | [] => Ok (h, ns_new, nr_new)
  | n :: r =>
      bind (subject_operation (p_subject_senders p) n) (fun so =>
      bind (subject_operation (p_subject_receivers p) n) (fun ro =>
        let (h', l) := op_object so h (gl n) (Some (gl w)) (senders g w) in
        subject_results p w g recv gl r h' (aset n l ns_new)
                        (aset n (op_set ro (senders recv n) (senders recv w)) nr_new)))
  end.

(** _get_edge_conflicts (condition.py 2918-2972): is there a conflict?  (building the
    message assumes string nodes, else the join raises TypeError) *)
Definition edge_conflict (st : store) (ns_new : amap loc) (nr_new : amap (list node)) (sender receiver : node) : bool :=
  match aget receiver ns_new, aget sender nr_new with
  | Some l, Some rs => xorb (mem sender (s_get st l)) (mem receiver rs)
  | _, _ => false
  end.

(** first loop (condition.py 3131-3138) *)
Fixpoint assign_senders (todo all : amap loc) (nr_new : amap (list node)) (h : hgraph) (confl : bool) : hgraph * bool :=
  match todo with
  | [] => (h, confl)
  | (receiver, l) :: r =>
      let c := existsb (fun s => edge_conflict (h_store h) all nr_new s receiver) (s_get (h_store h) l) in
      assign_senders r all nr_new (href h receiver l) (confl || c)
  end.
(** second loop, for one sender (condition.py 3143-3164) *)
Fixpoint assign_receivers1 (sender : node) (rs : list node) (keys : list node)
    (ns_new : amap loc) (nr_new : amap (list node)) (h : hgraph) (confl : bool) : hgraph * bool :=
  match keys with
  | [] => (h, confl)
  | n :: r =>
      if mem n rs then
        let c := edge_conflict (h_store h) ns_new nr_new sender n in
        assign_receivers1 sender rs r ns_new nr_new (hmut h n (s_add sender)) (confl || c)
      else assign_receivers1 sender rs r ns_new nr_new (hmut h n (s_remove sender)) confl
  end.
Fixpoint assign_receivers (todo : amap (list node)) (keys : list node)
    (ns_new : amap loc) (nr_new : amap (list node)) (h : hgraph) (confl : bool) : hgraph * bool :=
  match todo with
  | [] => (h, confl)
  | (s, rs) :: r =>
      let (h', c') := assign_receivers1 s rs keys ns_new nr_new h confl in
      assign_receivers r keys ns_new nr_new h' c'
  end.

(** _GSCWithOperations._process (condition.py 3094-3170) *)
Definition process_ops (p : opcond) (w : node) (hg : hgraph) : res hgraph :=
  let g := unload hg in
  let recv := get_receivers g in
  let gl := hloc hg in
  let h0 := hclone hg in           (* result_graph = clone_graph(graph) *)
  let comparison := union_all (map (senders g) (p_nodes p)) in
  let (h1, lo) := op_object (p_owner_senders p) h0 (gl w) None comparison in
  let ro := op_set (p_owner_receivers p) (senders recv w) (union_all (map (senders recv) (p_nodes p))) in
  bind (subject_results p w g recv gl (p_nodes p) h1 [(w, lo)] [(w, ro)]) (fun x =>
    let '(h2, ns_new, nr_new) := x in
    let (h3, c1) := assign_senders ns_new ns_new nr_new h2 false in
    let (h4, c2) := assign_receivers nr_new (gkeys g) ns_new nr_new h3 c1 in
    if negb (p_ignore_conflicts p) && c2 then Err ECondition else Ok h4).

(** _process of the subclasses (condition.py 3308-3314, 3365-3372, 3414-3419) *)
Definition process (p : opcond) (w : node) (h : hgraph) : res hgraph :=
  bind (process_ops p w h) (fun h =>
    Ok (match p_kind p with
        | KPlain => h
        | KBefore => fold_left (fun h n => hmut h n (s_add w)) (p_nodes p) h
        | KWith =>
            match p_nodes p with
            | n :: _ =>
                let all := s_union (hget h w) (hget h n) in
                hnew (hnew h w all) n all
            | [] => h
            end
        | KAfter => hnew h w (s_union (hget h w) (s_of (p_nodes p)))
        end)).

(** _handle_remove_new_self_referential_edges (condition.py 3004-3011) *)
Definition remove_new_self (p : opcond) (base : graph) (h : hgraph) : hgraph :=
  if p_remove_self p then
    fold_left (fun h n => if negb (mem n (senders base n)) && mem n (hget h n)
                          then hmut h n (s_remove n) else h) (akeys (h_refs h)) h
  else h.

(** cycle[i % len] *)
Definition cyc_nth (c : list node) (i : nat) : node := nth (i mod (length c)) c 0.

(* graph[receiver].remove(sender) if present and not required *)
Definition drop_edge (h : hgraph) (sender receiver : node) : hgraph :=
  if mem sender (hget h receiver) then hmut h receiver (s_remove sender) else h.

(** _prune_owner_edge (condition.py 3016-3047) *)
Definition prune_owner_edge (p : opcond) (w : node) (base : graph) (i : nat) (c : list node) (h : hgraph) : hgraph :=
  let in_cycle := filter (fun n => mem n c) (p_nodes p) in
  let to_check := match in_cycle with [] => p_nodes p | _ => in_cycle end in
  let full_ancestor := forallb (fun n => mem w (ancestors_of base n)) to_check in
  let full_descendant := forallb (fun n => mem w (descendants_of base n)) to_check in
  let e := if full_ancestor || negb full_descendant
           then (w, cyc_nth c (i + 1))
           else (cyc_nth c (i + length c - 1), w) in
  if required_edge p w (fst e) (snd e) then h else drop_edge h (fst e) (snd e).

(** the loop over the edges of one cycle (condition.py 3063-3082) *)
Definition prune_edge (p : opcond) (w : node) (base : graph) (c : list node) (h : hgraph) (i : nat) : hgraph :=
  let sender := nth i c 0 in
  let ri := (i + 1) mod (length c) in
  let receiver := nth ri c 0 in
  if Nat.eqb receiver w then prune_owner_edge p w base ri c h
  else if mem receiver (senders base sender) && negb (Nat.eqb sender w) && negb (required_edge p w sender receiver)
       then drop_edge h sender receiver
       else h.
Definition prune_cycle (p : opcond) (w : node) (base : graph) (c : list node) (h : hgraph) : hgraph :=
  fold_left (prune_edge p w base c) (seq 0 (length c)) h.

Definition cycles_eqb (a b : list (list node)) : bool :=
  if list_eq_dec (list_eq_dec Nat.eq_dec) a b then true else false.
Definition cycle_in (c : list node) (l : list (list node)) : bool :=
  existsb (fun d => if list_eq_dec Nat.eq_dec c d then true else false) l.
(* sorted(key=-len): stable, longest first *)
Fixpoint insert_by_len (c : list node) (l : list (list node)) : list (list node) :=
  match l with
  | [] => [c]
  | d :: r => if Nat.leb (length d) (length c) then c :: d :: r else d :: insert_by_len c r
  end.
Definition sort_by_len (l : list (list node)) : list (list node) := fold_right insert_by_len [] l.

Section Prune.
(** get_simple_cycles (utilities.py 327-337): networkx's enumeration of the simple cycles is
    an arbitrary function of the graph here; theorems state what they need of it *)
Variable simple_cycles : graph -> list (list node).

(** the for loop over the cycles found before (condition.py 3056-3084) *)
Fixpoint prune_pass (p : opcond) (w : node) (base : graph) (todo cycles : list (list node)) (h : hgraph)
  : hgraph * list (list node) :=
  match todo with
  | [] => (h, cycles)
  | c :: r =>
      if cycle_in c cycles then
        let h' := prune_cycle p w base c h in
        prune_pass p w base r (simple_cycles (unload h')) h'
      else prune_pass p w base r cycles h
  end.
(** the while loop (condition.py 3055-3090); [None] = out of fuel *)
Fixpoint prune_loop (fuel : nat) (p : opcond) (w : node) (base : graph) (prev : list (list node)) (h : hgraph) : option hgraph :=
  match prev with
  | [] => Some h
  | _ =>
      match fuel with
      | O => None
      | S f =>
          let (h', cycles) := prune_pass p w base (sort_by_len prev) (simple_cycles (unload h)) h in
          if cycles_eqb prev cycles then Some h' else prune_loop f p w base cycles h'
      end
  end.
Definition edge_count (g : graph) : nat := fold_right (fun p k => length (snd p) + k) 0 g.
(** _handle_prune_cycles (condition.py 3049-3092) *)
Definition prune_cycles (p : opcond) (w : node) (base : graph) (h : hgraph) : option hgraph :=
  if p_prune p then prune_loop (S (S (edge_count (unload h)))) p w base (simple_cycles (unload h)) h
  else Some h.

(** _handle_reconnect_non_subject_receivers (condition.py 2981-3002) *)
Definition reconnect1 (p : opcond) (w : node) (base : graph) (h : hgraph) (e : node * node) : hgraph :=
  let (sender, receiver) := e in
  if negb (mem receiver (p_nodes p))
     && mem w (senders base receiver)
     && mem sender (senders base w)
     && (negb (mem w (hget h receiver)) || negb (mem sender (hget h w)))
     && negb (mem sender (descendants_of (unload h) receiver))
  then hmut h receiver (s_add sender) else h.
Definition reconnect (p : opcond) (w : node) (base : graph) (h : hgraph) : hgraph :=
  if p_reconnect p then
    fold_left (reconnect1 p w base)
              (list_prod (senders base w) (senders (get_receivers base) w)) h
  else h.

(** _postprocess (condition.py 2974-2979) *)
Definition postprocess (p : opcond) (w : node) (base : graph) (h : hgraph) : res hgraph :=
  match prune_cycles p w base (remove_new_self p base h) with
  | Some h' => Ok (reconnect p w base h')
  | None => Err ERuntime           (* out of fuel; excluded by GSC proofs *)
  end.

(** _modify_graph (condition.py 2631-2641, 3262-3267) on the dict [h] of set objects of the
    caller.  Simplification: base_graph is read once, when _postprocess starts. *)
Definition modify_ops (p : opcond) (w : node) (h : hgraph) : res hgraph :=
  let h0 := match p_kind p with KPlain => h | _ => hclone h end in
  if match p_kind p with
     | KPlain => false
     | _ => Nat.eqb (length (already_valid p w (unload h0))) (length (p_nodes p))
     end
  then Ok h0
  else
    bind (process p w (preprocess p w (hclone h0))) (fun r =>
      postprocess p w (unload (mkH (h_refs h0) (h_store r))) r).

(** modify_graph (condition.py 2608-2641).  The user function of a custom condition gets a
    clone. *)
Definition modify_graph_in (owner : option node) (s : gsc) (h : hgraph) : res hgraph :=
  match owner with
  | None => Err ECondition
  | Some w =>
      if gsc_graph_ok s w (unload h) then
        match s with
        | GCustom u => custom_process u w (hclone h)
        | GOps p => modify_ops p w h
        | GAddEdgeTo n => Ok (hmut (hclone h) n (s_add w))
        | GRemoveEdgeFrom n => Ok (hmut (hclone h) w (s_remove n))
        end
      else Err ECondition
  end.
(** modify_graph as a function of graph values: the caller's dict holds a set object of its
    own for every key *)
Definition modify_graph (owner : option node) (s : gsc) (g : graph) : res graph :=
  bind (modify_graph_in owner s (load g)) (fun h => Ok (unload h)).
End Prune.

(** A reference enumeration of the simple cycles, used in examples: for every node in key
    order, the simple paths from it through nodes not visited as start before, that close. *)
Fixpoint cycles_from (fuel : nat) (recv : node -> list node) (start : node) (banned path : list node) (cur : node) : list (list node) :=
  match fuel with
  | O => []
  | S f =>
      flat_map (fun n =>
        if Nat.eqb n start then [rev path]
        else if mem n banned || mem n path then []
        else cycles_from f recv start banned (n :: path) n) (recv cur)
  end.
Fixpoint ref_cycles_at (g : graph) (todo done : list node) : list (list node) :=
  match todo with
  | [] => []
  | s :: r => cycles_from (S (length (gkeys g))) (receivers_of g) s done [s] s ++ ref_cycles_at g r (s :: done)
  end.
Definition ref_simple_cycles (g : graph) : list (list node) := ref_cycles_at g (gkeys g) [].
