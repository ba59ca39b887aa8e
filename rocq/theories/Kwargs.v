(** Arguments of condition functions: what the constructors of conditions store, and how the
    keyword arguments of run reach the functions of conditions (condition.py 927-1015,
    1075-1298, 1378-2527; scheduler.py 855-883). *)
From Verif Require Export Prune Cond.
From Coq Require Import Qround.
Open Scope nat_scope.

(** Values given as arguments.  A comparator is one of the six strings of comparison_operators. *)
Inductive pyval :=
| YNone | YInt (z : Z) | YRat (q : Q) | YScale (s : timescale) | YNode (d : node) | YCmp (c : cmp)
| YSched | YEid (e : eid) | YCond | YName (k : nat) | YOther (k : nat)
| YList (l : list pyval) | YDict (d : list (nat * pyval)).

(** names of parameters, keywords and attributes; all other numbers are other names *)
Definition kw_execution_id := 0. Definition kw_scheduler := 1. Definition kw_n := 2. Definition kw_time_scale := 3.
Definition kw_dependency := 4. Definition kw_dependencies := 5. Definition kw_condition := 6.
Definition kw_threshold := 7. Definition kw_comparator := 8. Definition kw_indices := 9. Definition kw_atol := 10. Definition kw_rtol := 11.
Definition kw_args := 12. Definition kw_kwargs := 13. Definition kw_conds := 14.
Definition kw_parameter := 15. Definition kw_custom_parameter_getter := 16.
Definition kw_repeat := 17. Definition kw_start := 18. Definition kw_end := 19. Definition kw_unit := 20.
Definition kw_start_inclusive := 21. Definition kw_end_inclusive := 22. Definition kw_t := 23. Definition kw_inclusive := 24.
Definition kw_self := 25. Definition kw_func := 26. Definition kw__owner := 27. Definition kw_owner := 28. Definition kw_is_satisfied := 29.
Definition kw_is_absolute := 30. Definition kw_absolute_intervals := 31. Definition kw_absolute_fixed_points := 32.

(** def f(a, b=..., *c, d=..., **e) *)
Definition req (k : nat) := mkParam k PosOrKw false.
Definition opt (k : nat) := mkParam k PosOrKw true.
Definition star (k : nat) := mkParam k VarPos false.
Definition kwo (k : nat) := mkParam k KwOnly true.
Definition star2 (k : nat) := mkParam k VarKw false.

(** ** The functions of the classes *)
(* scheduler=None, execution_id=None *)
Definition se : signature := [opt kw_scheduler; opt kw_execution_id].
Definition se_kwo : signature := [kwo kw_scheduler; kwo kw_execution_id].
(* whether func of the class has a parameter time_scale (condition.py 1498, 1528, 1557, 1582,
   1611, 1641, 1670, 1695, 1754, 1786, 1818, 1844) *)
Definition takes_scale (c : cmp) (q : timescale) : bool :=
  match c, q with Eq, _ => false | Ge, _ => true | _, ESU => false | _, _ => true end.
(** the signature of func (condition.py 1119, 1134, 1378, 1463, 1498-2323, 2502).  ACustom f
    stands for a function without parameters. *)
Definition func_sig (a : atom) : signature :=
  match a with
  | AAlways | ANever | ACustom _ => []
  | ATime c q _ _ => (if takes_scale c q then [req kw_n; req kw_time_scale] else [req kw_n]) ++ se
  | AEveryNPasses _ _ => [req kw_n; req kw_time_scale] ++ se
  | ASeq _ _ => [req kw_n] ++ se
  | ACalls _ _ _ _ | AEveryNCalls _ _ => [req kw_dependency; req kw_n] ++ se
  | ACallsCombined _ _ _ => [star kw_dependencies; kwo kw_n] ++ se_kwo
  | AJustRan _ => [req kw_dependency] ++ se
  | AAllHaveRun _ _ | AWhenFinishedAny _ | AWhenFinishedAll _ => [star kw_dependencies] ++ se_kwo
  | AWhenFinished _ => [req kw_dependency; opt kw_execution_id]
  | AThreshold _ _ _ _ _ _ _ => [req kw_threshold; req kw_comparator; req kw_indices; req kw_atol; req kw_rtol; req kw_execution_id]
  | ATimeInterval _ _ _ _ _ | ATimeTermination _ _ => [req kw_scheduler; req kw_execution_id]
  end.
Definition y_nat (n : nat) : pyval := YInt (Z.of_nat n).
(** the positional arguments given to Condition.__init__ (condition.py 1504-2334) *)
Definition func_args (a : atom) : list pyval :=
  match a with
  | ATime c q n b => if takes_scale c q then [y_nat n; YScale b] else [y_nat n]
  | AEveryNPasses n b => [y_nat n; YScale b]
  | ASeq _ n => [y_nat n]
  | ACalls _ d n _ | AEveryNCalls d n => [YNode d; y_nat n]
  | ACallsCombined ds _ _ | AAllHaveRun ds _ | AWhenFinishedAny ds | AWhenFinishedAll ds => map YNode ds
  | AJustRan d | AWhenFinished d => [YNode d]
  | _ => []
  end.
(** the keyword arguments given to Condition.__init__ (condition.py 1409-1417, 1471, 2111,
    2517-2527); durations and flags of TimeInterval are not parameters of its func *)
Definition func_kwargs (a : atom) : kwdict pyval :=
  match a with
  | ACallsCombined _ n _ => [(kw_n, match n with Some n => y_nat n | None => YNone end)]
  | AThreshold d p t c ix atol rtol =>
      [(kw_dependency, YNode d); (kw_parameter, YOther p); (kw_threshold, YRat t); (kw_comparator, YCmp c);
       (kw_indices, match ix with None => YNone | Some l => YList (map YInt l) end); (kw_atol, YRat atol); (kw_rtol, YRat rtol);
       (kw_custom_parameter_getter, YNone)]
  | ATimeInterval _ _ _ _ _ =>
      [(kw_repeat, YOther 0); (kw_start, YOther 0); (kw_end, YOther 0); (kw_unit, YOther 0); (kw_start_inclusive, YOther 0); (kw_end_inclusive, YOther 0)]
  | ATimeTermination _ _ => [(kw_t, YOther 0); (kw_inclusive, YOther 0)]
  | _ => []
  end.

(** reading parameters *)
Definition value (k : nat) (b : bound pyval) : pyval := match aget k (b_values b) with Some (Some v) => v | _ => YNone end.
Definition as_num (v : pyval) : option Q := match v with YInt z => Some (inject_Z z) | YRat q => Some q | _ => None end.
(* n such that k >= v exactly if k >= n, for natural k *)
Definition as_bound (v : pyval) : option nat := match as_num v with Some q => Some (Z.to_nat (Qceiling q)) | None => None end.
Fixpoint as_nodes (l : list pyval) : option (list node) :=
  match l with
  | [] => Some []
  | YNode d :: r => match as_nodes r with Some ds => Some (d :: ds) | None => None end
  | _ :: _ => None
  end.
(* for i in indices: param_value = param_value[i] (condition.py 2504-2506) *)
Fixpoint index_values (p : pval) (ix : list pyval) : res pval :=
  match ix with
  | [] => Ok p
  | YInt i :: r => bind (index_value p [i]) (fun x => index_values x r)
  | _ :: _ => Err EType
  end.
(** Threshold's func for given parameters (condition.py 2502-2515).  Comparators that cannot be
    hashed, and values that np.isclose or float comparisons accept although they are not
    numbers, are not modelled. *)
Definition threshold_func (b : bound pyval) (x : pval) : res bool :=
  bind (match value kw_indices b with YNone => Ok x | YList l => index_values x l | _ => Err EType end) (fun y =>
    match y with
    | PSeq _ => Err EType
    | PNum q =>
        match value kw_comparator b with
        | YCmp c =>
            match as_num (value kw_threshold b) with
            | None => Err EType
            | Some t =>
                match c with
                | Eq | Ne => match as_num (value kw_atol b), as_num (value kw_rtol b) with
                             | Some atol, Some rtol => Ok (threshold_cmp c q t atol rtol)
                             | _, _ => Err EType
                             end
                | _ => Ok (threshold_cmp c q t 0 0)
                end
            end
        | _ => Err EKey
        end
    end).
(** The class's func on bound parameters.  The parameter scheduler is the scheduler that runs. *)
Definition func_body (a : atom) (b : bound pyval) (v : view) (e : eid) (own : option node) (w : world) : res bool * world :=
  let call := fun a' => eval_atom v e own a' w in
  match a with
  | AAlways | ANever | ACustom _ | ATimeInterval _ _ _ _ _ | ATimeTermination _ _ => call a
  | ATime c q _ s =>
      match as_bound (value kw_n b), (if takes_scale c q then value kw_time_scale b else YScale s) with
      | Some n, YScale s' => call (ATime c q n s')
      | _, _ => (Err EType, w)
      end
  | AEveryNPasses _ _ =>
      match as_bound (value kw_n b), value kw_time_scale b with
      | Some n, YScale s' => call (AEveryNPasses n s')
      | _, _ => (Err EType, w)
      end
  | ASeq c _ => match as_bound (value kw_n b) with Some n => call (ASeq c n) | None => (Err EType, w) end
  | ACalls c _ _ s =>
      match value kw_dependency b, as_bound (value kw_n b) with
      | YNode d, Some n => call (ACalls c d n s)
      | _, _ => (Err EType, w)
      end
  | AEveryNCalls _ _ =>
      match value kw_dependency b, as_bound (value kw_n b) with
      | YNode d, Some n => call (AEveryNCalls d n)
      | _, _ => (Err EType, w)
      end
  | ACallsCombined _ _ s =>
      match as_nodes (b_args b) with
      | None => (Err EType, w)
      | Some ds => match value kw_n b with
                   | YNone => call (ACallsCombined ds None s)
                   | x => match as_bound x with Some n => call (ACallsCombined ds (Some n) s) | None => (Err EType, w) end
                   end
      end
  | AJustRan _ => match value kw_dependency b with YNode d => call (AJustRan d) | _ => (Err EType, w) end
  | AAllHaveRun _ s => match as_nodes (b_args b) with Some ds => call (AAllHaveRun ds s) | None => (Err EType, w) end
  | AWhenFinished _ => match value kw_dependency b with YNode d => call (AWhenFinished d) | _ => (Err EType, w) end
  | AWhenFinishedAny _ => match as_nodes (b_args b) with Some ds => call (AWhenFinishedAny ds) | None => (Err EType, w) end
  | AWhenFinishedAll _ => match as_nodes (b_args b) with Some ds => call (AWhenFinishedAll ds) | None => (Err EType, w) end
  | AThreshold d p _ _ _ _ _ =>
      (match w_param w d p with None => Err EAttribute | Some x => threshold_func b x end, w)
  end.

(** ** Evaluation with keyword arguments *)
(** Condition objects whose custom functions have signatures: KFun o neg sig args kwargs f is
    Condition(f, *args, **kwargs), or WhileNot(f, *args, **kwargs) if neg. *)
Inductive kcond :=
| KAtom (o : oid) (a : atom)
| KFun (o : oid) (neg : bool) (sig : signature) (args : list pyval) (kwargs : kwdict pyval) (f : bound pyval -> userfun)
| KAll (o : oid) (cs : list kcond)
| KAny (o : oid) (cs : list kcond)
| KNot (o : oid) (c : kcond)
| KNWhen (o : oid) (c : kcond) (n : nat).
(* def satis(self, *conds, **kwargs), bound (condition.py 1194, 1227) *)
Definition satis_sig : signature := [star kw_conds; star2 kw_kwargs].
(* def inner_func(condition, *args, **kwargs) (condition.py 1255) *)
Definition not_sig : signature := [req kw_condition; star kw_args; star2 kw_kwargs].
(* def satis(self, condition, n, *args, scheduler=None, execution_id=None, **kwargs) (condition.py 1290) *)
Definition nwhen_sig : signature := [req kw_condition; req kw_n; star kw_args; kwo kw_scheduler; kwo kw_execution_id; star2 kw_kwargs].
(* def inner_func( *args, **kwargs) of WhileNot (condition.py 1096) *)
Definition while_not_sig : signature := [star kw_args; star2 kw_kwargs].
(* is_satisfied's own signature, without self (condition.py 985) *)
Definition is_satisfied_sig : signature := [star kw_args; kwo kw_execution_id; star2 kw_kwargs].
Definition as_eid (v : option pyval) : eid := match v with Some (YEid e) => e | _ => 0 end.
Definition negate (neg : bool) (x : res bool * world) : res bool * world :=
  match x with (Ok b, w) => (Ok (if neg then negb b else b), w) | (Err ex, w) => (Err ex, w) end.

(** is_satisfied(execution_id=e, **kw) of every class (condition.py 985-1015).  The scheduler
    gives no positional arguments, and no class gives any to its components. *)
Section KEval.
Variables (v : view) (owners : oid -> option node).
Fixpoint keval (c : kcond) (e : eid) (kw : kwdict pyval) (st : cstate) {struct c} : res bool * cstate :=
  match c with
  | KAtom o a =>
      match condition_call kw_execution_id (func_sig a) (func_args a) (func_kwargs a) [] (YEid e) kw with
      | None => (Err EType, st)
      | Some b => let (r, w) := func_body a b v e (owners o) (s_world st) in (r, mkCstate (s_sats st) w)
      end
  | KFun o neg sig args kwargs f =>
      let b := if neg
               then match condition_call kw_execution_id while_not_sig args kwargs [] (YEid e) kw with   (* condition.py 1095-1098 *)
                    | None => None
                    | Some b => call_with_pruned_args sig (b_args b) (b_kwargs b)
                    end
               else condition_call kw_execution_id sig args kwargs [] (YEid e) kw in
      match b with
      | None => (Err EType, st)
      | Some b => let (r, w) := negate neg (f b v e (owners o) (s_world st)) in (r, mkCstate (s_sats st) w)
      end
  | KAll _ cs =>                                         (* condition.py 1194-1200 *)
      match condition_call kw_execution_id satis_sig (map (fun _ => YCond) cs) [] [] (YEid e) kw with
      | None => (Err EType, st)
      | Some b =>
          let e' := as_eid (aget kw_execution_id (b_kwargs b)) in
          let kw' := adel kw_execution_id (b_kwargs b) in
          (fix go (l : list kcond) (st : cstate) : res bool * cstate :=
             match l with
             | [] => (Ok true, st)
             | x :: l' => match keval x e' kw' st with
                          | (Ok true, st') => go l' st'
                          | (Ok false, st') => (Ok false, st')
                          | (Err ex, st') => (Err ex, st')
                          end
             end) cs st
      end
  | KAny _ cs =>                                         (* condition.py 1227-1233 *)
      match condition_call kw_execution_id satis_sig (map (fun _ => YCond) cs) [] [] (YEid e) kw with
      | None => (Err EType, st)
      | Some b =>
          let e' := as_eid (aget kw_execution_id (b_kwargs b)) in
          let kw' := adel kw_execution_id (b_kwargs b) in
          (fix go (l : list kcond) (st : cstate) : res bool * cstate :=
             match l with
             | [] => (Ok false, st)
             | x :: l' => match keval x e' kw' st with
                          | (Ok true, st') => (Ok true, st')
                          | (Ok false, st') => go l' st'
                          | (Err ex, st') => (Err ex, st')
                          end
             end) cs st
      end
  | KNot _ c' =>                                         (* condition.py 1255-1257 *)
      match condition_call kw_execution_id not_sig [YCond] [] [] (YEid e) kw with
      | None => (Err EType, st)
      | Some b =>
          match keval c' (as_eid (aget kw_execution_id (b_kwargs b))) (adel kw_execution_id (b_kwargs b)) st with
          | (Ok x, st') => (Ok (negb x), st')
          | (Err ex, st') => (Err ex, st')
          end
      end
  | KNWhen o c' n =>                                     (* condition.py 1290-1298 *)
      match condition_call kw_execution_id nwhen_sig [YCond; y_nat n] [] [] (YEid e) kw with
      | None => (Err EType, st)
      | Some b =>
          let e' := as_eid (Some (value kw_execution_id b)) in
          match as_bound (value kw_n b) with
          | None => (Err EType, st)
          | Some n' =>
              if Nat.ltb (s_sats st o e') n' then
                match call_with_pruned_args is_satisfied_sig (b_args b)
                        ((kw_scheduler, value kw_scheduler b) :: (kw_execution_id, value kw_execution_id b) :: b_kwargs b) with
                | None => (Err EType, st)
                | Some b' =>
                    match keval c' (as_eid (Some (value kw_execution_id b'))) (b_kwargs b') st with
                    | (Ok true, st') => (Ok true, bump_sat st' o e')
                    | (Ok false, st') => (Ok false, st')
                    | (Err ex, st') => (Err ex, st')
                    end
                end
              else (Ok false, st)
          end
      end
  end.
(** how run evaluates a condition: is_satisfied( **{'scheduler': self, 'execution_id': e, **kwargs})
    (scheduler.py 879-883).  run has parameters self and execution_id of its own, so that they
    are never among kwargs; a keyword scheduler is not modelled. *)
Definition run_eval (kwargs : kwdict pyval) (c : kcond) (e : eid) (st : cstate) : res bool * cstate :=
  keval c e (aupdate [(kw_scheduler, YSched)] kwargs) st.
End KEval.

(** ** Constructors *)
(** values of the keyword arguments of All and Any: a condition, or a sequence of them *)
Inductive depval := DOne (c : kcond) | DMany (l : list kcond).
(** args += tuple( *[v for k, v in dependencies.items()]) (condition.py 1190, 1223): tuple takes at
    most one argument, which must be iterable *)
Definition composite_args (args : list kcond) (dependencies : amap depval) : res (list kcond) :=
  match map snd dependencies with
  | [] => Ok args
  | [DMany l] => Ok (args ++ l)
  | _ => Err EType
  end.
(* All.__init__, Any.__init__ (condition.py 1189-1191, 1222-1224) *)
Definition new_all (o : oid) (args : list kcond) (dependencies : amap depval) : res kcond :=
  bind (composite_args args dependencies) (fun l => Ok (KAll o l)).
Definition new_any (o : oid) (args : list kcond) (dependencies : amap depval) : res kcond :=
  bind (composite_args args dependencies) (fun l => Ok (KAny o l)).

(** the attributes of a Condition that is_satisfied and the scheduler read *)
Record cobj := mkCobj {
  co_args : pyval;            (* self.args *)
  co_kwargs : pyval;          (* self.kwargs *)
  co_owner : pyval;           (* self._owner *)
  co_method : bool            (* is_satisfied is still the method *)
}.
(** setattr(self, k, v) (condition.py 943-944): properties without setters are is_absolute,
    absolute_intervals and absolute_fixed_points.  Other attributes than the above (among them
    special names and _validate_owner) are not modelled. *)
Definition set_attribute (k : nat) (v : pyval) (c : cobj) : res cobj :=
  if Nat.eqb k kw_args then Ok (mkCobj v (co_kwargs c) (co_owner c) (co_method c))
  else if Nat.eqb k kw_kwargs then Ok (mkCobj (co_args c) v (co_owner c) (co_method c))
  else if Nat.eqb k kw_owner then Ok (mkCobj (co_args c) (co_kwargs c) v (co_method c))
  else if Nat.eqb k kw_is_satisfied then Ok (mkCobj (co_args c) (co_kwargs c) (co_owner c) false)
  else if (Nat.eqb k kw_is_absolute || Nat.eqb k kw_absolute_intervals || Nat.eqb k kw_absolute_fixed_points)%bool then Err EAttribute
  else Ok c.
Fixpoint set_attributes (kw : kwdict pyval) (c : cobj) : res cobj :=
  match kw with
  | [] => Ok c
  | (k, v) :: r => bind (set_attribute k v c) (set_attributes r)
  end.
(** Condition(func, *args, **kwargs) (condition.py 940-944, 975-978): self and func are parameters of
    Condition.__init__, _owner is one of ConditionBase.__init__ *)
Definition new_condition (args : list pyval) (kwargs : kwdict pyval) : res cobj :=
  if (ahas kw_self kwargs || ahas kw_func kwargs)%bool then Err EType
  else let kw := adel kw__owner kwargs in
       set_attributes kw (mkCobj (YList args) (YDict kw) (match aget kw__owner kwargs with Some w => w | None => YNone end) true).
(* *v in a call *)
Definition unpack (v : pyval) : option (list pyval) :=
  match v with YList l => Some l | YDict d => Some (map (fun p => YName (fst p)) d) | _ => None end.
(** is_satisfied(execution_id=e, **kw) of the object, up to the call of func (condition.py 985-1015) *)
Definition object_call (sig : signature) (c : cobj) (e : eid) (kw : kwdict pyval) : res (bound pyval) :=
  if negb (co_method c) then Err EType
  else match co_kwargs c with
       | YDict d => match unpack (co_args c) with
                    | Some l => match condition_call kw_execution_id sig l d [] (YEid e) kw with Some b => Ok b | None => Err EType end
                    | None => Err EType
                    end
       | YList _ => Err EAttribute        (* a list can be copied, but not updated *)
       | _ => Err EAttribute
       end.
