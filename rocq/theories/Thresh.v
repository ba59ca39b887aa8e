(** The constructor of Threshold (condition.py 2477-2545): checks, forms of the indices, custom
    getters and validators of parameters. *)
From Verif Require Export Cond Alias.

Local Open Scope string_scope.
(** comparison_operators (condition.py 441-448) *)
Definition comparison_operators : sdict cmp := [("<", Lt); ("<=", Le); (">", Gt); (">=", Ge); ("==", Eq); ("!=", Ne)].
(** the argument indices: None, a TimeScale, a number, or an iterable of numbers (keys of mappings
    are not modelled) *)
Inductive indices_arg := INone | IScale (s : timescale) | IOne (i : Z) | IMany (l : list Z).
(** condition.py 2496-2499 *)
Definition norm_indices (a : indices_arg) : option (list Z) :=
  match a with
  | INone => None
  | IScale s => Some [Z.of_nat (ts_val s)]
  | IOne i => Some [i]
  | IMany l => Some l
  end.
(** custom_parameter_getter(dependency, parameter, execution_id): it may raise and change the state
    of the nodes *)
Definition getter := node -> nat -> eid -> world -> res pval * world.
(** custom_parameter_validator(dependency, parameter): the exception it throws, if any
    (simplified: it changes nothing) *)
Definition validator := node -> nat -> world -> option exn.
(** validate_parameter (condition.py 2539-2545) *)
Definition validate_parameter (w : world) (d : node) (par : nat) (f : option validator) : option exn :=
  match f with
  | Some f => f d par w
  | None => match w_param w d par with Some _ => None | None => Some ECondition end
  end.
(** Threshold.__init__ (condition.py 2477-2527) in state w of the nodes, with get_parameter_value
    (condition.py 2528-2537) in func.  The warning about tolerances is in Warn.v. *)
Definition new_threshold (o : oid) (w : world) (d : node) (par : nat) (t : Q) (comparator : string) (ia : indices_arg) (atol rtol : Q)
    (get : option getter) (val : option validator) : res cond :=
  match validate_parameter w d par val with
  | Some ex => Err ex
  | None =>
      match sget comparator comparison_operators with
      | None => Err ECondition
      | Some c =>
          Ok (match get with
              | None => Threshold o d par t c (norm_indices ia) atol rtol
              | Some f => CAtom o (ACustom (fun v e own w =>
                  let (r, w') := f d par e w in (bind r (threshold_of t c (norm_indices ia) atol rtol), w')))
              end)
      end
  end.
