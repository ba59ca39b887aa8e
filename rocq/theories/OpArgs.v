(** The arguments of structural conditions with operations (condition.py 2806-2868, 3172-3218):
    operations may be given as Operation members or as strings, for subjects also in dicts. *)
From Verif Require Export GSC Alias.

Local Open Scope string_scope.
(** str.upper *)
Fixpoint upper (s : string) : string :=
  match s with EmptyString => EmptyString | String c r => String (upper_char c) (upper r) end.
(** Operation.__members__ (condition.py 582-590) *)
Definition operation_members : sdict operation :=
  [("KEEP", KEEP); ("REPLACE", REPLACE); ("DISCARD", DISCARD); ("INTERSECTION", INTERSECTION); ("UNION", UNION); ("MERGE", MERGE);
   ("DIFFERENCE", DIFFERENCE); ("INVERSE_DIFFERENCE", INVERSE_DIFFERENCE); ("SYMMETRIC_DIFFERENCE", SYMMETRIC_DIFFERENCE)].
Local Close Scope string_scope.

(** an object given as an operation: a member, a string, or something else that is neither a
    string nor callable.  (Functions of two sets would work as well; they are not modelled.) *)
Inductive op_arg := VOp (o : operation) | VName (s : string) | VOther (k : nat).
(** _parse_operation_arg (condition.py 3172-3177) *)
Definition parse_op (v : op_arg) : op_arg :=
  match v with
  | VName s => match sget (upper s) operation_members with Some o => VOp o | None => v end
  | _ => v
  end.
Inductive subject_arg := AOne (v : op_arg) | ADict (d : amap op_arg).
(** the loop over the items of the dict (condition.py 3191-3196): [d] is the dict, changed in
    place, also when the loop raises *)
Fixpoint parse_items (nodes : list node) (items d : amap op_arg) : res unit * amap op_arg :=
  match items with
  | [] => (Ok tt, d)
  | (n, v) :: r => if mem n nodes then parse_items nodes r (aset n (parse_op v) d) else (Err ECondition, d)
  end.
(** _handle_subject_arg (condition.py 3179-3208): also returns the caller's object afterwards,
    which is the attribute of the condition if the argument is a dict.  The set of missing nodes
    (3198) is subject.keys() - set(nodes), empty whenever it is reached. *)
Definition handle_subject (nodes : list node) (a : subject_arg) : res subject_arg * subject_arg :=
  match a with
  | AOne v => (Ok (AOne (parse_op v)), a)
  | ADict d =>
      let (r, d') := parse_items nodes d d in
      (match r with
       | Err ex => Err ex
       | Ok _ => if forallb (fun n => mem n nodes) (akeys d') then Ok (ADict d') else Err ECondition
       end, ADict d')
  end.
(** attributes of a condition made from arguments: [ac_cond] with Operation.KEEP in the place of
    anything that is no operation, and the objects themselves *)
Record argcond := mkArg { ac_os : op_arg; ac_or : op_arg; ac_ss : subject_arg; ac_sr : subject_arg; ac_cond : opcond }.
Definition as_op (v : op_arg) : operation := match v with VOp o => o | _ => KEEP end.
Definition as_subject (a : subject_arg) : subject_op :=
  match a with AOne v => SOne (as_op v) | ADict d => SDict (map (fun p => (fst p, as_op (snd p))) d) end.
(** the constructor (condition.py 2688-2692, 2806-2839; subclasses 3270-3429): the result and
    the objects given as subject_senders and subject_receivers afterwards.  Simplified: the two are
    different objects. *)
Definition construct (kind : op_kind) (single : bool) (nodes : list node) (os or_ : op_arg) (ss sr : subject_arg) (rec rs pr ic : bool)
  : res argcond * (subject_arg * subject_arg) :=
  match handle_subject nodes ss with
  | (Err ex, ss') => (Err ex, (ss', sr))
  | (Ok s1, ss') =>
      match handle_subject nodes sr with
      | (Err ex, sr') => (Err ex, (ss', sr'))
      | (Ok s2, sr') =>
          (if (if single then negb (Nat.eqb (List.length nodes) 1) else Nat.ltb (List.length nodes) 1) then Err ECondition
           else Ok (mkArg (parse_op os) (parse_op or_) s1 s2
                      (mkOp kind nodes (as_op (parse_op os)) (as_op (parse_op or_)) (as_subject s1) (as_subject s2) rec rs pr ic)),
           (ss', sr'))
      end
  end.
(** calling an object that is no operation raises TypeError *)
Definition call_error (v : op_arg) : option exn := match v with VOp _ => None | _ => Some EType end.
(** _get_subject_operation (condition.py 2841-2868).  Simplified: a string that names no operation
    is returned as it is; it would be indexed if the node were an integer. *)
Definition get_subject (a : subject_arg) (n : node) : res op_arg :=
  match a with AOne v => Ok v | ADict d => match aget n d with Some v => Ok v | None => Err ECondition end end.
(** the errors of _process in the order in which they are met (condition.py 3104-3129) *)
Fixpoint subject_error (ss sr : subject_arg) (ns : list node) : option exn :=
  match ns with
  | [] => None
  | n :: r =>
      match get_subject ss n, get_subject sr n with
      | Ok v, Ok u => match call_error v, call_error u with Some ex, _ => Some ex | None, Some ex => Some ex | None, None => subject_error ss sr r end
      | Err ex, _ => Some ex
      | _, Err ex => Some ex
      end
  end.
Definition process_error (a : argcond) : option exn :=
  match call_error (ac_os a), call_error (ac_or a) with
  | Some ex, _ => Some ex
  | None, Some ex => Some ex
  | None, None => subject_error (ac_ss a) (ac_sr a) (p_nodes (ac_cond a))
  end.
(** modify_graph (condition.py 2608-2641, 3262-3267) of a condition made from arguments *)
Definition arg_modify_graph (simple_cycles : graph -> list (list node)) (owner : option node) (a : argcond) (g : graph) : res graph :=
  let p := ac_cond a in
  match owner with
  | None => Err ECondition
  | Some w =>
      if negb (gsc_graph_ok (GOps p) w g) then Err ECondition
      else if match p_kind p with KPlain => false | _ => Nat.eqb (List.length (already_valid p w (clone_graph g))) (List.length (p_nodes p)) end
      then modify_graph simple_cycles owner (GOps p) g
      else match process_error a with
           | Some ex => Err ex
           | None => modify_graph simple_cycles owner (GOps p) g
           end
  end.
