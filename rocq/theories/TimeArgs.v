(** The arguments of time conditions: numbers, strings and pint quantities (condition.py 475-510,
    1357-1417, 1455-1471). *)
From Verif Require Export Cond.
From Coq Require Export String.
Open Scope nat_scope.

(** What pint's Quantity(string) makes of a string (condition.py 482-494): a quantity of time,
    a number without unit - together with what int() or, failing that, float() make of the same
    string, None if both raise ValueError -, or UndefinedUnitError.  Quantities of anything else
    than time are not modelled. *)
Inductive reading := Full (q : quantity) | Plain (x : option Q) | Undefined.
(** the unit registry: how strings are read, the units by name, and _pint_all_time_units
    (condition.py 433-439), largest first.  The theorems hold for every registry. *)
Record registry := mkRegistry { p_read : string -> reading; p_named : string -> option Q; p_units : list Q }.
(** a time given by the user *)
Inductive raw := RNum (x : Q) | RStr (s : string) | RQty (q : quantity).
(** the argument unit: a pint unit (by its length) or a name *)
Inductive raw_unit := UUnit (u : Q) | UName (s : string).

(** getattr(_unit_registry, unit) (condition.py 496-500).  pint's UndefinedUnitError is an
    AttributeError.  The assertion of 502 is not modelled: every attribute of the registry with a
    string for a name that the model knows is a unit. *)
Definition get_unit (p : registry) (u : raw_unit) : res Q :=
  match u with
  | UUnit u => Ok u
  | UName s => match p_named p s with Some u => Ok u | None => Err EAttribute end
  end.
(** _get_quantity (condition.py 476-505); a string that pint cannot read is multiplied by the
    unit (503), where pint fails to read it again *)
Definition get_quantity (p : registry) (n : raw) (u : raw_unit) : res quantity :=
  match n with
  | RQty q => Ok q
  | RNum x => bind (get_unit p u) (fun l => Ok (mkQuantity x l))
  | RStr s =>
      match p_read p s with
      | Full q => Ok q
      | Plain None => Err EValue
      | Plain (Some x) => bind (get_unit p u) (fun l => Ok (mkQuantity x l))
      | Undefined => bind (get_unit p u) (fun _ => Err EAttribute)
      end
  end.
(** _parse_absolute_unit (condition.py 475, 507-511) *)
Definition parse_absolute_unit (p : registry) (n : option raw) (u : raw_unit) : res (option quantity) :=
  match n with
  | None => Ok None
  | Some n => bind (get_quantity p n u) (fun q => Ok (Some (reduce_quantity (p_units p) q)))
  end.

(** the python expression a > b for two of these (condition.py 1372).  Numbers and quantities are
    compared by value, strings character by character.  pint compares a quantity with the number 0
    by its magnitude and raises ValueError for other numbers. *)
Definition raw_gt (a b : raw) : res bool :=
  match a, b with
  | RNum x, RNum y => Ok (Qltb y x)
  | RQty x, RQty y => Ok (Qltb (q_val y) (q_val x))
  | RStr x, RStr y => Ok (String.ltb y x)
  | RQty x, RNum y => if Qeq_bool y 0 then Ok (Qltb y (q_mag x)) else Err EValue
  | RNum x, RQty y => if Qeq_bool x 0 then Ok (Qltb (q_mag y) x) else Err EValue
  | RStr _, _ | _, RStr _ => Err EType
  end.
(** TimeInterval(repeat, start, end, unit, start_inclusive, end_inclusive) (condition.py
    1357-1417); o is the identity of the new object *)
Definition new_TimeInterval (p : registry) (o : oid) (rep st en : option raw) (u : raw_unit) (si ei : bool) : res cond :=
  match rep, st, en with
  | None, None, None => Err ECondition
  | _, _, _ =>
      bind (match st, en with Some s, Some e => raw_gt s e | _, _ => Ok false end) (fun later =>
        if later then Err ECondition
        else bind (parse_absolute_unit p rep u) (fun r =>
             bind (parse_absolute_unit p st u) (fun s =>
             bind (parse_absolute_unit p en u) (fun e =>
               Ok (CAtom o (ATimeInterval r s e si ei))))))
  end.
(** TimeTermination(t, inclusive, unit) (condition.py 1455-1471) *)
Definition new_TimeTermination (p : registry) (o : oid) (t : raw) (incl : bool) (u : raw_unit) : res cond :=
  bind (get_quantity p t u) (fun q => Ok (CAtom o (ATimeTermination (reduce_quantity (p_units p) q) incl))).
