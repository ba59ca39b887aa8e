(** Calling functions with pruned arguments (utilities.py 30-103, condition.py 985-1015). *)
From Verif Require Export Base.
Open Scope nat_scope.

(** a parameter as reported by inspect.signature *)
Inductive pkind := PosOnly | PosOrKw | VarPos | KwOnly | VarKw.
Record param := mkParam { p_name : nat; p_kind : pkind; p_default : bool }.
Definition signature := list param.
(** names of parameters and keywords are numbers; argument values have any type V *)
Definition kwdict (V : Type) := amap V.
(** the argument args: None, an iterable or anything else (utilities.py 68-76) *)
Inductive args_in (V : Type) := NoArgs | Args (l : list V) | OneArg (v : V).
Arguments NoArgs {V}. Arguments Args {V} l. Arguments OneArg {V} v.

(* the loop over sig.parameters (utilities.py 58-66) *)
Definition has_var_pos (sig : signature) : bool := existsb (fun p => match p_kind p with VarPos => true | _ => false end) sig.
Definition has_var_kw (sig : signature) : bool := existsb (fun p => match p_kind p with VarKw => true | _ => false end) sig.
Definition named (p : param) : bool := match p_kind p with PosOrKw | KwOnly => true | _ => false end.
(* count_positional *)
Definition count_positional (sig : signature) : nat := length (filter (fun p => named p && negb (p_default p)) sig).
(* func_kwargs_names *)
Definition kwargs_names (sig : signature) : list nat := map p_name (filter named sig).

(** prune_unused_args (utilities.py 30-94).  The cache of signatures (48-52) is not modelled:
    it returns what inspect.signature returned for the same function. *)
Definition prune_unused_args {V} (sig : signature) (args : args_in V) (kwargs : option (kwdict V)) : list V * kwdict V :=
  let all := match args with NoArgs => [] | Args l => l | OneArg v => [v] end in
  (if has_var_pos sig then all else firstn (count_positional sig) all,
   match kwargs with
   | None => []
   | Some kw => if has_var_kw sig then kw else filter (fun p => mem (fst p) (kwargs_names sig)) kw
   end).

(** How Python calls a function with this signature (language reference, "Calls"): None is the
    TypeError.  The positional arguments fill the parameters in order, the rest go to the
    VarPos parameter; each keyword argument names a parameter that is still free, or goes to the
    VarKw one; parameters left over must have a default.  The result lists the value of each
    ordinary parameter (None is its default) and the surplus arguments. *)
Definition positional (p : param) : bool := match p_kind p with PosOnly | PosOrKw => true | _ => false end.
Record bound (V : Type) := mkBound { b_values : amap (option V); b_args : list V; b_kwargs : kwdict V }.
Arguments mkBound {V}. Arguments b_values {V}. Arguments b_args {V}. Arguments b_kwargs {V}.
Fixpoint bind_params {V} (sig : signature) (args : list V) (kw : kwdict V) : option (amap (option V)) :=
  match sig with
  | [] => Some []
  | p :: r =>
      match p_kind p with
      | VarPos | VarKw => bind_params r (match p_kind p with VarPos => [] | _ => args end) kw
      | _ =>
          match (if positional p then args else []) with
          | v :: args' =>
              (* given positionally: a keyword of that name would be a second value *)
              if named p && ahas (p_name p) kw then None
              else match bind_params r args' kw with Some b => Some ((p_name p, Some v) :: b) | None => None end
          | [] =>
              match (if named p then aget (p_name p) kw else None) with
              | Some v => match bind_params r args kw with Some b => Some ((p_name p, Some v) :: b) | None => None end
              | None => if p_default p
                        then match bind_params r args kw with Some b => Some ((p_name p, None) :: b) | None => None end
                        else None
              end
          end
      end
  end.
Definition n_positional (sig : signature) : nat := length (filter positional sig).
Definition py_call {V} (sig : signature) (args : list V) (kw : kwdict V) : option (bound V) :=
  if (Nat.ltb (n_positional sig) (length args) && negb (has_var_pos sig))%bool then None
  else if (negb (has_var_kw sig) && existsb (fun p => negb (mem (fst p) (kwargs_names sig))) kw)%bool then None
  else match bind_params sig args kw with
       | None => None
       | Some b => Some (mkBound b (skipn (n_positional sig) args) (filter (fun p => negb (mem (fst p) (kwargs_names sig))) kw))
       end.

(** call_with_pruned_args (utilities.py 97-103): what the function receives *)
Definition call_with_pruned_args {V} (sig : signature) (args : list V) (kw : kwdict V) : option (bound V) :=
  let p := prune_unused_args sig (Args args) (Some kw) in py_call sig (fst p) (snd p).

(** dict.update *)
Fixpoint aupdate {V} (d e : kwdict V) : kwdict V := match e with [] => d | (k, v) :: r => aupdate (aset k v d) r end.
(** Condition.is_satisfied (condition.py 985-1015) of Condition(func, *args0, **kwargs0): the
    name execution_id is [xid]; passing it twice is a TypeError *)
Definition condition_call {V} (xid : nat) (sig : signature) (args0 : list V) (kwargs0 : kwdict V)
    (args : list V) (execution_id : V) (kwargs : kwdict V) : option (bound V) :=
  let kw := aupdate kwargs0 kwargs in
  if ahas xid kw then None else call_with_pruned_args sig (args0 ++ args) ((xid, execution_id) :: kw).
