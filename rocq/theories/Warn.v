(** The warnings of the package (warnings.warn in condition.py 750, 846, 1056, 2495, 3243, 3455 and
    scheduler.py 848, 1128): which ones a call gives, as a list in the order in which they are
    given.  What the calls do is modelled elsewhere; here only the warnings are computed, from the
    state before the call.  Simplified: the texts are reduced to the objects they name; warnings
    are not turned into exceptions and not suppressed by filters. *)
From Verif Require Export Sched Thresh.
Open Scope nat_scope.
Open Scope list_scope.

Inductive warning :=
| Replacing (w : node) (old new : cond)        (* condition.py 750 *)
| NotFound (a : option anycond) (w : node)     (* condition.py 846 *)
| OwnDependency (o : oid) (w : node)           (* condition.py 1056 *)
| TolerancesIgnored                            (* condition.py 2495 *)
| Already (w : node) (l : list node) (ignored : bool)  (* condition.py 3243; sorting l is not modelled *)
| NoEdge (sender receiver : node)              (* condition.py 3455 *)
| NoEffect                                     (* scheduler.py 848 *)
| BaseCycle                                    (* scheduler.py 1128, 'Base graph' *)
| CreatesCycle (s : scond) (w : option node).  (* scheduler.py 1128 *)

(** ** Owners *)
(** self.args[0] of the classes with _DependencyValidation, as a list (condition.py 1047-1053):
    the dependency, the first one of several dependencies; Threshold passes its dependency as a
    keyword (2516-2526), so that args is empty.  Nodes that are themselves iterables are not
    modelled. *)
Definition first_dependency (a : atom) : list node :=
  match a with
  | ACalls _ d _ _ | AEveryNCalls d _ | AJustRan d | AWhenFinished d => [d]
  | ACallsCombined ds _ _ | AAllHaveRun ds _ | AWhenFinishedAny ds | AWhenFinishedAll ds => firstn 1 ds
  | _ => []
  end.
(** _DependencyValidation._validate_owner (condition.py 1044-1060) *)
Definition own_warnings (w : node) (o : oid) (a : atom) : list warning :=
  if mem w (first_dependency a) then [OwnDependency o w] else [].
(** the owner setters (condition.py 952-956, 1143-1149, 1259-1262, 1285-1288), following
    [set_owner], for a value that is not None *)
Fixpoint owner_warnings (w : node) (c : cond) (own : owners_t) {struct c} : list warning :=
  let own' := upd own (cond_oid c) (Some w) in
  match c with
  | CAtom o a => own_warnings w o a
  | CAll _ cs | CAny _ cs =>
      (fix go (l : list cond) (own : owners_t) : list warning :=
         match l with
         | [] => []
         | x :: r => if isSome (own (cond_oid x)) then go r own
                     else owner_warnings w x own ++ go r (set_owner (Some w) x own)
         end) cs own'
  | CNot _ c' => owner_warnings w c' own'
  | CNWhen _ c' _ => owner_warnings w c' own'
  end.

(** ** Condition sets *)
(** add_condition (condition.py 713-754) *)
Definition add_warnings (w : node) (a : anycond) (cs : condset) (ow : owners_t) : list warning :=
  match a with
  | Struct _ => []
  | Basic c => owner_warnings w c ow ++
               match aget w (cs_basic cs) with Some old => [Replacing w old c] | None => [] end
  end.
(** add_condition_set (condition.py 850-882) *)
Fixpoint add_list_warnings (w : node) (l : list anycond) (cs : condset) (ow : owners_t) : list warning :=
  match l with
  | [] => []
  | a :: r => add_warnings w a cs ow ++ match cs_add w a cs ow with
                                        | Ok (cs', ow') => add_list_warnings w r cs' ow'
                                        | Err _ => []
                                        end
  end.
Fixpoint add_set_warnings (d : amap centry) (cs : condset) (ow : owners_t) : list warning :=
  match d with
  | [] => []
  | (w, c) :: r => add_list_warnings w (entry_list c) cs ow ++
                   match cs_add_list w (entry_list c) cs ow with
                   | (Ok _, cs', ow') => add_set_warnings r cs' ow'
                   | _ => []
                   end
  end.
(** remove_condition(owner) (condition.py 756-848): line 846 is reached with condition_found None *)
Definition remove_owner_warnings (w : node) (cs : condset) : list warning :=
  match aget w (cs_basic cs), aget w (cs_struct cs) with
  | None, None | None, Some [] => [NotFound None w]
  | _, _ => []
  end.
(** remove_condition(condition) (condition.py 756-848) *)
Definition remove_warnings (a : anycond) (cs : condset) (ow : owners_t) : list warning :=
  match ow (any_oid a) with
  | None => []
  | Some w =>
      if match aget w (cs_basic cs) with Some c => Nat.eqb (cond_oid c) (any_oid a) | None => false end then []
      else if fst (cs_remove_struct w (any_oid a) cs) then [] else [NotFound (Some a) w]
  end.

(** ** Graph structure conditions *)
(** modify_graph (condition.py 2608-2641) with _GSCReposition._validate_graph (3228-3252) and
    RemoveEdgeFrom._process (3451-3458); nothing before the validation has passed *)
Definition modify_warnings (owner : option node) (s : gsc) (g : graph) : list warning :=
  match owner with
  | None => []
  | Some w =>
      if gsc_graph_ok s w g then
        match s with
        | GOps p => match already_valid p w g with
                    | [] => []
                    | l => [Already w l (Nat.eqb (List.length l) (List.length (p_nodes p)))]
                    end
        | GRemoveEdgeFrom n => if mem n (senders g w) then [] else [NoEdge n w]
        | _ => []
        end
      else []
  end.

(** ** Schedulers *)
Section Cycles.
Variable simple_cycles : graph -> list (list node).
Variable arrange : list (list node) -> list (list node).
Definition last_of {A} (l : list A) : option A := match rev l with x :: _ => Some x | [] => None end.
(** _push_graph (scheduler.py 1117-1128): the text names the last condition of
    structural_condition_order *)
Definition push_warnings (order : list scond) (ow : owners_t) (g : graph) : list warning :=
  match toposort g with
  | TopoOk _ => []
  | _ => match last_of order with
         | None => [BaseCycle]
         | Some s => [CreatesCycle s (ow (sc_oid s))]
         end
  end.
(** scheduler.py 1109-1111 *)
Fixpoint push_conds_warnings (order conds : list scond) (ow : owners_t) (cur : graph) : list warning :=
  match conds with
  | [] => []
  | c :: r =>
      modify_warnings (ow (sc_oid c)) (sc_gsc c) cur ++
      match modify_graph simple_cycles (ow (sc_oid c)) (sc_gsc c) cur with
      | Err _ => []
      | Ok g => push_warnings order ow g ++ push_conds_warnings order r ow g
      end
  end.
(** _handle_modified_structural_conditions (scheduler.py 1087-1115) *)
Definition sync_warnings (d : sched) : list warning :=
  let order := cs_order (d_cs d) in
  if match d_last d with Some l => same_order l order | None => false end then []
  else
    let last := match d_last d with Some l => l | None => [] end in
    let k := common_prefix order last in
    match pop_graphs (List.length last - k) (d_stack d) with
    | (Ok _, (g, _) :: _) => push_conds_warnings order (skipn k order) (d_owners d) g
    | _ => []
    end.
(** add_condition, add_condition_set of the scheduler (scheduler.py 729-772) *)
Definition sched_add_warnings (w : node) (a : anycond) (d : sched) : list warning :=
  add_warnings w a (d_cs d) (d_owners d) ++
  match cs_add w a (d_cs d) (d_owners d) with
  | Ok (cs, ow) => sync_warnings (set_cs d cs ow)
  | Err _ => []
  end.
Definition sched_add_set_warnings (s : amap centry) (d : sched) : list warning :=
  add_set_warnings s (d_cs d) (d_owners d) ++
  match cs_add_set s (d_cs d) (d_owners d) with
  | (Ok _, cs, ow) => sync_warnings (set_cs d cs ow)
  | _ => []
  end.
(** Scheduler.__init__ (scheduler.py 462-523): the base graph is pushed (506) when there are no
    conditions yet, then the conditions are added (512-513) *)
Definition new_sched_warnings (input : graph_arg) (conds : amap centry) (tc : option tconds) (deid : eid)
    (exact : bool) (du : quantity) (ow : owners_t) (nx : oid) (w : world) : list warning :=
  match arg_graph input with
  | Err _ => []
  | Ok g => push_warnings [] ow g ++
            sched_add_set_warnings conds (snd (new_sched simple_cycles arrange input [] tc deid exact du ow nx w))
  end.
(** _validate_conditions (scheduler.py 823-834): adding the default conditions *)
Fixpoint defaults_warnings (ns : list node) (m : core) : list warning :=
  match ns with
  | [] => []
  | n :: r =>
      if ahas n (m_basic m) then defaults_warnings r m
      else
        match aget n (m_graph m) with
        | None => []
        | Some deps =>
            let (c, nx) := default_cond (m_next m) deps in
            owner_warnings n c (m_owners m) ++
            defaults_warnings r (set_basic m (aset n c (m_basic m)) (set_owner (Some n) c (m_owners m)) nx)
        end
  end.
(** the beginning of a run (scheduler.py 871, 806-851).  (The graph is synchronised first.) *)
Definition run_warnings (d : sched) : list warning :=
  sync_warnings d ++
  match sync simple_cycles arrange d with
  | (Err _, _) => []
  | (Ok _, d') =>
      match toposort (top_graph d') with
      | TopoOk _ =>
          defaults_warnings (d_nodes d') (core_of d') ++
          match add_defaults (d_nodes d') (core_of d') with
          | Ok _ => if d_exact d' && match cs_struct (d_cs d') with [] => false | _ => true end then [NoEffect] else []
          | Err _ => []
          end
      | _ => []
      end
  end.
End Cycles.

(** Threshold.__init__ (condition.py 2490-2495): after the parameter and the comparator were
    accepted *)
Local Open Scope string_scope.
Definition threshold_warnings (w : world) (d : node) (par : nat) (comparator : string) (atol rtol : Q) (val : option validator) : list warning :=
  match validate_parameter w d par val with
  | Some _ => []
  | None =>
      match sget comparator comparison_operators with
      | None => []
      | Some _ => if (negb (Qeq_bool atol 0) || negb (Qeq_bool rtol 0)) &&
                     existsb (String.eqb comparator) ["<"; "<="; ">"; ">="] then [TolerancesIgnored] else []
      end
  end.
