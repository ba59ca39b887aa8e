(** Time scale aliases (time.py 614-635, 650-772). *)
From Verif Require Export TimeModel.
From Coq Require Export String Ascii.
Open Scope nat_scope.

(** ** Python strings; only ASCII letters are changed by upper() and lower() *)
(* str.lower / str.upper on one character *)
Definition lower_char (c : ascii) : ascii :=
  let n := nat_of_ascii c in if (Nat.leb 65 n && Nat.leb n 90)%bool then ascii_of_nat (n + 32) else c.
Definition upper_char (c : ascii) : ascii :=
  let n := nat_of_ascii c in if (Nat.leb 97 n && Nat.leb n 122)%bool then ascii_of_nat (n - 32) else c.
Fixpoint lower (s : string) : string :=
  match s with EmptyString => EmptyString | String c r => String (lower_char c) (lower r) end.
(* s.split(sep) with a one-character separator: never empty *)
Fixpoint split_on (sep : ascii) (s : string) : list string :=
  match s with
  | EmptyString => [EmptyString]
  | String c r =>
      if Ascii.eqb c sep then EmptyString :: split_on sep r
      else match split_on sep r with
           | [] => [String c EmptyString]
           | w :: ws => String c w :: ws
           end
  end.
(* sub in s *)
Fixpoint contains (sub s : string) : bool :=
  (String.prefix sub s || match s with EmptyString => false | String _ r => contains sub r end)%bool.
(* s.replace(old, new) for a non-empty old: from left to right, not overlapping; [skip]
   characters of the occurrence found last are still to be dropped *)
Fixpoint replace_skip (old new : string) (skip : nat) (s : string) : string :=
  match s with
  | EmptyString => EmptyString
  | String c r =>
      match skip with
      | S k => replace_skip old new k r
      | O => if String.prefix old s then (new ++ replace_skip old new (String.length old - 1) r)%string
             else String c (replace_skip old new 0 r)
      end
  end.
Definition replace (old new s : string) : string := replace_skip old new 0 s.

(** ** dicts with string keys, lists of strings *)
Definition sdict (A : Type) := list (string * A).
Fixpoint sget {A} (k : string) (d : sdict A) : option A :=
  match d with [] => None | (k', v) :: r => if String.eqb k k' then Some v else sget k r end.
Fixpoint sset {A} (k : string) (v : A) (d : sdict A) : sdict A :=
  match d with
  | [] => [(k, v)]
  | (k', v') :: r => if String.eqb k k' then (k, v) :: r else (k', v') :: sset k v r
  end.
Fixpoint sdel {A} (k : string) (d : sdict A) : sdict A :=
  match d with [] => [] | (k', v') :: r => if String.eqb k k' then r else (k', v') :: sdel k r end.
Definition shas {A} (k : string) (d : sdict A) : bool := match sget k d with Some _ => true | None => false end.
(* list.remove: the first occurrence *)
Fixpoint sremove (x : string) (l : list string) : list string :=
  match l with [] => [] | y :: r => if String.eqb x y then r else y :: sremove x r end.
Definition smem (x : string) (l : list string) : bool := existsb (String.eqb x) l.

(** member names of TimeScale (time.py 86-90) *)
Definition ts_name (s : timescale) : string :=
  match s with
  | CSE => "CONSIDERATION_SET_EXECUTION" | PASS => "PASS" | ESU => "ENVIRONMENT_STATE_UPDATE"
  | ES => "ENVIRONMENT_SEQUENCE" | LIFE => "LIFE"
  end.
Definition ts_member (n : string) : option timescale := find (fun s => String.eqb (ts_name s) n) all_timescales.
(** _time_scale_to_class_str (time.py 624-631); x[0] of an empty segment is an IndexError *)
Definition class_segment (x : string) : option string :=
  match x with EmptyString => None | String c r => Some (String (upper_char c) (lower r)) end.
Fixpoint class_segments (l : list string) : option string :=
  match l with
  | [] => Some EmptyString
  | x :: r => match class_segment x, class_segments r with
              | Some a, Some b => Some (a ++ b)%string
              | _, _ => None
              end
  end.
Definition class_str (name : string) : option string := class_segments (split_on "_" name).
(* the same for a TimeScale; its names have no empty segments *)
Definition ts_class_str (s : timescale) : string := match class_str (ts_name s) with Some x => x | None => EmptyString end.

(** what a class attribute of Time or SimpleTime is: something of the class's own, or the
    property made by set_time_scale_alias (time.py 676-684) for a time scale *)
Inductive attr := AOwn | AAlias (s : timescale).

(** the module-level state the two functions work on.  Docstrings (time.py 638-647, 695-708,
    748-759) are not modelled; neither are attributes of the enum class other than its members
    and aliases.  Objects in module namespaces are identified by numbers. *)
Record astate := mkA {
  a_reg : list (timescale * string);     (* _time_scale_aliases, time.py 29 *)
  a_scale : sdict timescale;             (* attributes of TimeScale other than its members *)
  a_time : sdict attr;                   (* class attributes of Time *)
  a_simple : sdict attr;                 (* class attributes of SimpleTime *)
  a_gs : sdict nat;                      (* graph_scheduler.__dict__ *)
  a_cond : sdict nat;                    (* graph_scheduler.condition.__dict__ *)
  a_gs_all : list string;                (* graph_scheduler.__all__ *)
  a_cond_all : list string               (* graph_scheduler.condition.__all__ *)
}.
(* _time_scale_aliases[s], its assignment and deletion *)
Fixpoint rget (s : timescale) (d : list (timescale * string)) : option string :=
  match d with [] => None | (k, v) :: r => if ts_eqb s k then Some v else rget s r end.
Fixpoint rset (s : timescale) (v : string) (d : list (timescale * string)) : list (timescale * string) :=
  match d with [] => [(s, v)] | (k, w) :: r => if ts_eqb s k then (s, v) :: r else (k, w) :: rset s v r end.
Fixpoint rdel (s : timescale) (d : list (timescale * string)) : list (timescale * string) :=
  match d with [] => [] | (k, w) :: r => if ts_eqb s k then r else (k, w) :: rdel s r end.
(* list(filter(lambda e: _time_scale_aliases[e] == name, _time_scale_aliases)), time.py 659-662, 729-732 *)
Definition aliased (name : string) (d : list (timescale * string)) : list timescale :=
  map fst (filter (fun p => String.eqb (snd p) name) d).

(* the argument target: a TimeScale or a string *)
Inductive target_arg := TScale (s : timescale) | TName (n : string).
(** getattr(TimeScale, target) (time.py 666-671): members and aliases *)
Definition resolve_target (st : astate) (t : target_arg) : option timescale :=
  match t with
  | TScale s => Some s
  | TName n => match ts_member n with Some s => Some s | None => sget n (a_scale st) end
  end.
(** body of the loop of set_time_scale_alias for one item of graph_scheduler.__dict__ (time.py 708-719) *)
Definition add_class_alias (old new : string) (item : string * nat) (st : astate) : astate :=
  if contains old (fst item) then
    let n := replace old new (fst item) in
    mkA (a_reg st) (a_scale st) (a_time st) (a_simple st)
        (sset n (snd item) (a_gs st)) (sset n (snd item) (a_cond st)) (a_gs_all st ++ [n]) (a_cond_all st ++ [n])
  else st.
(** set_time_scale_alias (time.py 650-719) *)
Definition set_alias (name : string) (target : target_arg) (st : astate) : res unit * astate :=
  match aliased name (a_reg st) with
  | _ :: _ => (Err EValue, st)
  | [] =>
      match resolve_target st target with
      | None => (Err EValue, st)
      | Some t =>
          let st1 := mkA (rset t name (a_reg st)) (a_scale st) (a_time st) (a_simple st) (a_gs st) (a_cond st) (a_gs_all st) (a_cond_all st) in
          (* the enum metaclass does not allow the reassignment of members *)
          match ts_member name with
          | Some _ => (Err EAttribute, st1)
          | None =>
              let st2 := mkA (a_reg st1) (sset name t (a_scale st)) (sset (lower name) (AAlias t) (a_time st))
                             (sset (lower name) (AAlias t) (a_simple st)) (a_gs st) (a_cond st) (a_gs_all st) (a_cond_all st) in
              match class_str name with
              | None => (Err EIndex, st2)
              | Some new => (Ok tt, fold_left (fun s item => add_class_alias (ts_class_str t) new item s) (a_gs st) st2)
              end
          end
      end
  end.

(** body of the loop of remove_time_scale_alias (time.py 765-770) *)
Definition del_class_alias (new : string) (item : string * nat) (st : astate) : res unit * astate :=
  let n := fst item in
  if contains new n then
    if negb (shas n (a_cond st)) then (Err EAttribute, st) else
    let st1 := mkA (a_reg st) (a_scale st) (a_time st) (a_simple st) (a_gs st) (sdel n (a_cond st)) (a_gs_all st) (a_cond_all st) in
    if negb (shas n (a_gs st)) then (Err EAttribute, st1) else
    let st2 := mkA (a_reg st) (a_scale st) (a_time st) (a_simple st) (sdel n (a_gs st)) (sdel n (a_cond st)) (a_gs_all st) (a_cond_all st) in
    if negb (smem n (a_cond_all st)) then (Err EValue, st2) else
    let st3 := mkA (a_reg st) (a_scale st) (a_time st) (a_simple st) (sdel n (a_gs st)) (sdel n (a_cond st)) (a_gs_all st) (sremove n (a_cond_all st)) in
    if negb (smem n (a_gs_all st)) then (Err EValue, st3) else
    (Ok tt, mkA (a_reg st) (a_scale st) (a_time st) (a_simple st) (sdel n (a_gs st)) (sdel n (a_cond st)) (sremove n (a_gs_all st)) (sremove n (a_cond_all st)))
  else (Ok tt, st).
Fixpoint del_class_aliases (new : string) (items : sdict nat) (st : astate) : res unit * astate :=
  match items with
  | [] => (Ok tt, st)
  | i :: r => match del_class_alias new i st with
              | (Ok _, st') => del_class_aliases new r st'
              | (Err e, st') => (Err e, st')
              end
  end.
(** remove_time_scale_alias (time.py 721-772).  The assert (733) holds whenever
    set_time_scale_alias was the only thing to change the registry; its failure is not modelled. *)
Definition remove_alias (name : string) (st : astate) : res unit * astate :=
  match aliased name (a_reg st) with
  | [] => (Ok tt, st)
  | t :: _ =>
      let st1 := mkA (rdel t (a_reg st)) (a_scale st) (a_time st) (a_simple st) (a_gs st) (a_cond st) (a_gs_all st) (a_cond_all st) in
      if negb (shas name (a_scale st)) then (Err EAttribute, st1) else
      let st2 := mkA (a_reg st1) (sdel name (a_scale st)) (a_time st) (a_simple st) (a_gs st) (a_cond st) (a_gs_all st) (a_cond_all st) in
      if negb (shas (lower name) (a_time st)) then (Err EAttribute, st2) else
      let st3 := mkA (a_reg st1) (a_scale st2) (sdel (lower name) (a_time st)) (a_simple st) (a_gs st) (a_cond st) (a_gs_all st) (a_cond_all st) in
      if negb (shas (lower name) (a_simple st)) then (Err EAttribute, st3) else
      let st4 := mkA (a_reg st1) (a_scale st2) (a_time st3) (sdel (lower name) (a_simple st)) (a_gs st) (a_cond st) (a_gs_all st) (a_cond_all st) in
      match class_str name with
      | None => (Err EIndex, st4)
      | Some new => del_class_aliases new (a_gs st) st4
      end
  end.

(** ** the attributes of time objects *)
(* names under which Time stores the values: ts_name in lower case, pass_ for PASS (time.py 614-621) *)
Definition ts_attr (s : timescale) : string := match s with PASS => "pass_" | _ => lower (ts_name s) end.
Definition ts_of_attr (n : string) : option timescale := find (fun s => String.eqb (ts_attr s) n) all_timescales.
(** reading an integer-valued attribute of a Time object: properties (data descriptors) of the
    class come before the values of the instance *)
Definition time_attr (st : astate) (t : Time) (n : string) : res nat :=
  match sget n (a_time st) with
  | Some (AAlias s) => Ok (t_val t s)
  | _ => match ts_of_attr n with Some s => Ok (t_val t s) | None => Err EAttribute end
  end.
(** assigning one *)
Definition set_time_attr (st : astate) (t : Time) (n : string) (v : nat) : res Time :=
  let put s := Ok (mkTime (upd_ts (t_val t) s v) (t_abs t) (t_interval t) (t_abs_enabled t)) in
  match sget n (a_time st) with
  | Some (AAlias s) => put s
  | _ => match ts_of_attr n with Some s => put s | None => Err EAttribute end
  end.
(** reading an integer-valued attribute of SimpleTime(t) (time.py 386-400): its own properties
    exist for three time scales; an alias reads the attribute of the SimpleTime object *)
Definition simple_own (s : timescale) : bool := match s with ES | ESU | CSE => true | _ => false end.
Definition simple_attr (st : astate) (t : Time) (n : string) : res nat :=
  let own s := if (simple_own s && shas (ts_attr s) (a_simple st))%bool then Ok (t_val t s) else Err EAttribute in
  match sget n (a_simple st) with
  | Some (AAlias s) => own s
  | _ => match ts_of_attr n with Some s => own s | None => Err EAttribute end
  end.
(** the values of Time with keyword arguments (time.py 236-267): those given by alias come last *)
Definition init_value (st : astate) (kwargs : sdict nat) (s : timescale) : nat :=
  let own := match sget (ts_attr s) kwargs with Some v => v | None => 0 end in
  match rget s (a_reg st) with
  | Some alias => match sget (lower alias) kwargs with Some v => v | None => own end
  | None => own
  end.
(** Time(...) (time.py 236-267): the arguments absolute, absolute_interval and absolute_enabled are
    accepted and not passed on (263-266); absolute_time_unit_scale is as little *)
Definition new_time (st : astate) (kwargs : sdict nat) (absolute absolute_interval : Q) (absolute_enabled : bool) : Time :=
  mkTime (init_value st kwargs) 0%Q 1%Q false.

(** ** the state after import (time.py 24-29, 202-400; __init__.py 19-60): the public names, with
    their positions as objects.  Other names in the module namespaces (modules, private names,
    functions) are left out, except that condition and graph_scheduler share the condition classes. *)
Local Open Scope string_scope.
Definition condition_names : list string :=
  ["Operation"; "ConditionError"; "ConditionSet"; "ConditionBase"; "Condition"; "AbsoluteCondition"; "While"; "WhileNot"; "Always"; "Never";
   "CompositeCondition"; "All"; "Any"; "And"; "Or"; "Not"; "NWhen"; "TimeInterval"; "TimeTermination";
   "BeforeConsiderationSetExecution"; "AtConsiderationSetExecution"; "AfterConsiderationSetExecution"; "AfterNConsiderationSetExecutions";
   "BeforePass"; "AtPass"; "AfterPass"; "AfterNPasses"; "EveryNPasses";
   "BeforeEnvironmentStateUpdate"; "AtEnvironmentStateUpdate"; "AfterEnvironmentStateUpdate"; "AfterNEnvironmentStateUpdates";
   "AtEnvironmentSequence"; "AfterEnvironmentSequence"; "AfterNEnvironmentSequences";
   "BeforeNCalls"; "AtNCalls"; "AfterCall"; "AfterNCalls"; "AfterNCallsCombined"; "EveryNCalls"; "JustRan"; "AllHaveRun";
   "WhenFinished"; "WhenFinishedAny"; "WhenFinishedAll";
   "AtEnvironmentStateUpdateStart"; "AtEnvironmentStateUpdateNStart"; "AtEnvironmentSequenceStart"; "AtEnvironmentSequenceNStart";
   "Threshold"; "GraphStructureCondition"; "CustomGraphStructureCondition"; "BeforeNodes"; "BeforeNode"; "WithNode"; "AfterNodes"; "AfterNode";
   "AddEdgeTo"; "RemoveEdgeFrom"].
Definition other_names : list string :=
  ["Scheduler"; "SchedulerError"; "SchedulingMode";
   "Clock"; "TimeScale"; "Time"; "SimpleTime"; "TimeHistoryTree"; "TimeScaleError"; "set_time_scale_alias"; "remove_time_scale_alias";
   "clone_graph"; "dependency_dict_to_networkx_digraph"; "disable_debug_logging"; "enable_debug_logging"; "get_ancestors";
   "get_descendants"; "get_receivers"; "get_simple_cycles"; "networkx_digraph_to_dependency_dict"; "output_graph_image"; "_unit_registry"].
Definition numbered (l : list string) : sdict nat := combine l (seq 0 (List.length l)).
Definition time_attrs : sdict attr :=
  map (fun n => (n, AOwn)) ["__init__"; "__repr__"; "__getitem__"; "__setitem__"; "_time_repr"; "_get_by_time_scale"; "_set_by_time_scale"; "_increment_by_time_scale"; "_reset_by_time_scale"].
Definition simple_attrs : sdict attr :=
  map (fun n => (n, AOwn)) ["__init__"; "__repr__"; "__getitem__"; "__setitem__"; "absolute"; "environment_sequence"; "environment_state_update"; "consideration_set_execution"].
Definition imported : astate :=
  mkA [] [] time_attrs simple_attrs (numbered (condition_names ++ other_names)%list) (numbered condition_names)
      (condition_names ++ other_names)%list condition_names.
