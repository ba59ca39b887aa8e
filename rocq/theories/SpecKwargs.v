(** Specification vocabulary for the arguments of condition functions. *)
From Verif Require Export Kwargs.
Open Scope nat_scope.

(** The names of the parameters that the classes give to their functions by position: n for the
    At... conditions of all time scales, for BeforeEnvironmentStateUpdate and
    AfterEnvironmentStateUpdate and those of sequences; n and time_scale for the other conditions
    of time; dependency and n, or dependency, for conditions of one node. *)
Definition by_position (a : atom) : list nat :=
  match a with
  | ATime Eq _ _ _ | ATime Lt ESU _ _ | ATime Gt ESU _ _ | ASeq _ _ => [kw_n]
  | ATime Le ESU _ _ | ATime Ne ESU _ _ => [kw_n]   (* no such classes *)
  | ATime _ _ _ _ | AEveryNPasses _ _ => [kw_n; kw_time_scale]
  | ACalls _ _ _ _ | AEveryNCalls _ _ => [kw_dependency; kw_n]
  | AJustRan _ | AWhenFinished _ => [kw_dependency]
  | _ => []
  end.
(** those given by keyword: n of AfterNCallsCombined, and the parameters of Threshold *)
Definition by_keyword (a : atom) : list nat :=
  match a with
  | ACallsCombined _ _ _ => [kw_n]
  | AThreshold _ _ _ _ _ _ _ => [kw_threshold; kw_comparator; kw_indices; kw_atol; kw_rtol]
  | _ => []
  end.
(** k is the name of a parameter of the function of a built-in condition that occurs in c *)
Inductive mentions : kcond -> nat -> Prop :=
| M_position : forall o a k, In k (by_position a) -> mentions (KAtom o a) k
| M_keyword : forall o a k, In k (by_keyword a) -> mentions (KAtom o a) k
| M_all : forall o cs c k, In c cs -> mentions c k -> mentions (KAll o cs) k
| M_any : forall o cs c k, In c cs -> mentions c k -> mentions (KAny o cs) k
| M_not : forall o c, mentions (KNot o c) kw_condition
| M_not_in : forall o c k, mentions c k -> mentions (KNot o c) k
| M_nwhen : forall o c n, mentions (KNWhen o c n) kw_condition
| M_nwhen_n : forall o c n, mentions (KNWhen o c n) kw_n
| M_nwhen_in : forall o c n k, mentions c k -> mentions (KNWhen o c n) k.

(** the keyword arguments of a call of run: distinct names, neither execution_id nor scheduler *)
Definition run_keywords (kwargs : kwdict pyval) : Prop :=
  NoDup (akeys kwargs) /\ ahas kw_execution_id kwargs = false /\ ahas kw_scheduler kwargs = false.

(** The condition as the rest of the model sees it: built-in conditions are what they are without
    keyword arguments, and each custom function is called as Condition.is_satisfied called
    directly by the scheduler would call it, wherever it is nested. *)
Fixpoint plain (kwargs : kwdict pyval) (c : kcond) : cond :=
  match c with
  | KAtom o a => CAtom o a
  | KFun o neg sig args kw0 f =>
      CAtom o (ACustom (fun v e own w =>
        match condition_call kw_execution_id sig args kw0 [] (YEid e) ((kw_scheduler, YSched) :: kwargs) with
        | None => (Err EType, w)
        | Some b => match f b v e own w with
                    | (Ok x, w') => (Ok (if neg then negb x else x), w')
                    | (Err ex, w') => (Err ex, w')
                    end
        end))
  | KAll o cs => CAll o (map (plain kwargs) cs)
  | KAny o cs => CAny o (map (plain kwargs) cs)
  | KNot o c' => CNot o (plain kwargs c')
  | KNWhen o c' n => CNWhen o (plain kwargs c') n
  end.

(** the parameter called k has value x in the call: x is given to run, or nothing is and x is the
    value given when the condition was created *)
Definition effective (kwargs : kwdict pyval) (k : nat) (created x : pyval) : Prop :=
  aget k kwargs = Some x \/ aget k kwargs = None /\ x = created.
Definition y_indices (ix : option (list Z)) : pyval := match ix with None => YNone | Some l => YList (map YInt l) end.
