(** Absolute time quantities (pint) and the length of one consideration set execution. *)
From Verif Require Export TimeModel.
From Coq Require Export ZArith QArith Qabs.
Open Scope nat_scope.

(** A pint time quantity: magnitude and unit; a unit is represented by its length in seconds
    (any fixed base would do).  Floating point error and the rounding to
    [_unit_registry.precision] digits that compensates it are not modelled. *)
Record quantity := mkQuantity { q_mag : Q; q_unit : Q }.
Definition q_val (q : quantity) : Q := (q_mag q * q_unit q)%Q.

(* q is an integer *)
Definition Qis_int (q : Q) : bool := Z.eqb (Z.modulo (Qnum q) (Zpos (Qden q))) 0.
Definition Qtrunc (q : Q) : Z := Z.quot (Qnum q) (Zpos (Qden q)).
Definition Qltb (a b : Q) : bool := negb (Qle_bool b a).
Definition Qmax' (a b : Q) : Q := if Qle_bool b a then a else b.   (* python max(a, b) *)
Definition Qmin' (a b : Q) : Q := if Qltb b a then b else a.       (* python min(a, b) *)
Definition Qmin_list (l : list Q) (d : Q) : Q :=
  match l with [] => d | x :: r => fold_left Qmin' r x end.

(** _quantity_as_integer (condition.py 456-461) applied to q.to(u) *)
Definition as_integer_in (q : quantity) (u : Q) : option quantity :=
  let m := (q_val q / u)%Q in
  if Qis_int m then Some (mkQuantity (inject_Z (Qtrunc m)) u) else None.
(** _reduce_quantity_to_integer (condition.py 464-472); [units] is _pint_all_time_units
    (condition.py 433-439), largest first *)
Fixpoint reduce_quantity (units : list Q) (q : quantity) : quantity :=
  match units with
  | [] => q
  | u :: r =>
      if Qle_bool u (q_unit q) then
        match as_integer_in q u with Some q' => q' | None => reduce_quantity r q end
      else reduce_quantity r q
  end.
(** round(np.log10(r)) for r >= 1 (scheduler.py 1017): the k with
    10^(2k-1) < r^2 < 10^(2k+1) *)
Fixpoint round_log10_from (fuel k : nat) (r2 : Q) : nat :=
  match fuel with
  | O => k
  | S f => if Qltb r2 (inject_Z (10 ^ Z.of_nat (2 * k + 1))) then k else round_log10_from f (S k) r2
  end.
Definition round_log10 (r : Q) : nat :=
  let r2 := (r * r)%Q in
  round_log10_from (S (Z.to_nat (Z.log2_up (Qnum r2 + 1)))) 0 r2.

(** conversion of one interval to the finest unit (scheduler.py 1016-1018) *)
Definition convert_interval (min_unit : Q) (a : quantity) : Z :=
  (Qtrunc (q_mag a) * 10 ^ Z.of_nat (round_log10 (q_unit a / min_unit)))%Z.

(** _get_absolute_consideration_set_execution_unit (scheduler.py 997-1032), given the
    collected intervals (for EXACT_TIME including fixed points), the mode and the length of
    the consideration queue.  The Fraction with denominator 0 raises ZeroDivisionError. *)
Definition absolute_unit (default : quantity) (intervals : list quantity) (exact : bool) (qlen : nat) : res Q :=
  match intervals with
  | [] => Ok (q_val default)
  | _ =>
      let min_unit := Qmin_list (map q_unit intervals) 1%Q in
      let ints := map (convert_interval min_unit) intervals in
      let numerator := fold_right Z.gcd 0%Z ints in
      let denominator := if exact then 1 else qlen in
      match denominator with
      | O => Err EZeroDiv
      | S d => Ok ((numerator # Pos.of_succ_nat d) * min_unit)%Q
      end
  end.
