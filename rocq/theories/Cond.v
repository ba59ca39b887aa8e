(** Conditions (condition.py 927-2545): every Condition class, is_satisfied, owners and the
    absolute-time attributes. *)
From Verif Require Export AbsTime.
Open Scope nat_scope.

(** What a condition can read of the scheduler passed to is_satisfied, for one execution id.
    [None] stands for a missing key.  The inner dicts of counts_total / counts_useable have
    exactly the scheduler's nodes as keys (scheduler.py 547-571). *)
Record view := mkView {
  v_nodes : list node;                              (* scheduler.nodes *)
  v_queue : list (list node);                       (* scheduler.consideration_queue *)
  v_exact_mode : bool;                              (* scheduler.mode is EXACT_TIME *)
  v_total : option (timescale -> node -> nat);      (* scheduler.counts_total[eid] *)
  v_use : option (node -> node -> nat);             (* scheduler.counts_useable[eid] *)
  v_list : option (list (list node));               (* scheduler.execution_list[eid] *)
  v_clock : clock                                   (* scheduler.get_clock(eid) *)
}.

(** Values of node attributes read by Threshold: numbers or nested sequences *)
Inductive pval := PNum (q : Q) | PSeq (l : list pval).

(** State outside the scheduler that conditions read or write: is_finished of nodes ([None]:
    the node has no such method), attributes of nodes, and memory of user functions. *)
Record world := mkWorld {
  w_finished : node -> eid -> option bool;
  w_param : node -> nat -> option pval;
  w_user : nat -> nat
}.

Inductive cmp := Lt | Le | Gt | Ge | Eq | Ne.
Definition cmp_nat (c : cmp) (a b : nat) : bool :=
  match c with
  | Lt => Nat.ltb a b | Le => Nat.leb a b | Gt => Nat.ltb b a | Ge => Nat.leb b a
  | Eq => Nat.eqb a b | Ne => negb (Nat.eqb a b)
  end.

(** A user function called as a condition: reads everything, may write user memory, may raise.
    The truth value of its result is all that is_satisfied's callers use. *)
Definition userfun := view -> eid -> option node -> world -> res bool * world.

(** Leaf conditions.  Counts [n] are natural numbers (Python allows any number). *)
Inductive atom :=
| AAlways
| ANever
| ATime (c : cmp) (q : timescale) (n : nat) (base : timescale)
| AEveryNPasses (n : nat) (base : timescale)
| ASeq (c : cmp) (n : nat)
| ACalls (c : cmp) (d : node) (n : nat) (s : timescale)
| ACallsCombined (ds : list node) (n : option nat) (s : timescale)
| AEveryNCalls (d : node) (n : nat)
| AJustRan (d : node)
| AAllHaveRun (ds : list node) (s : timescale)
| AWhenFinished (d : node)
| AWhenFinishedAny (ds : list node)
| AWhenFinishedAll (ds : list node)
| AThreshold (d : node) (par : nat) (threshold : Q) (c : cmp) (indices : option (list Z)) (atol rtol : Q)
| ATimeInterval (repeat start stop : option quantity) (start_inclusive end_inclusive : bool)
| ATimeTermination (t : quantity) (inclusive : bool)
| ACustom (f : userfun).

(** Condition objects; the [oid] is the object's identity, under which its mutable
    attributes (owner, NWhen.satisfactions) are stored. *)
Inductive cond :=
| CAtom (o : oid) (a : atom)
| CAll (o : oid) (cs : list cond)
| CAny (o : oid) (cs : list cond)
| CNot (o : oid) (c : cond)
| CNWhen (o : oid) (c : cond) (n : nat).
Definition cond_oid (c : cond) : oid :=
  match c with CAtom o _ => o | CAll o _ => o | CAny o _ => o | CNot o _ => o | CNWhen o _ _ => o end.

(** ** The classes *)
Section Classes.
Variable o : oid.   (* the new object *)
(** Condition / While (condition.py 959-1015, 1072) *)
Definition While (f : userfun) := CAtom o (ACustom f).
(** WhileNot (condition.py 1075-1098) *)
Definition WhileNot (f : userfun) :=
  CAtom o (ACustom (fun v e own w => match f v e own w with
                                     | (Ok b, w') => (Ok (negb b), w')
                                     | (Err x, w') => (Err x, w')
                                     end)).
Definition Always := CAtom o AAlways.                 (* condition.py 1106-1119 *)
Definition Never := CAtom o ANever.                   (* condition.py 1122-1134 *)
Definition All := CAll o.                             (* condition.py 1170-1200 *)
Definition Any := CAny o.                             (* condition.py 1203-1233 *)
Definition Not := CNot o.                             (* condition.py 1240-1262 *)
Definition NWhen (c : cond) (n : nat) := CNWhen o c n. (* condition.py 1265-1298 *)
(* condition.py 1478-1588; time_scale defaults to ENVIRONMENT_STATE_UPDATE *)
Definition BeforeConsiderationSetExecution n s := CAtom o (ATime Lt CSE n s).
Definition AtConsiderationSetExecution n s := CAtom o (ATime Eq CSE n s).
Definition AfterConsiderationSetExecution n s := CAtom o (ATime Gt CSE n s).
Definition AfterNConsiderationSetExecutions n s := CAtom o (ATime Ge CSE n s).
(* condition.py 1591-1728 *)
Definition BeforePass n s := CAtom o (ATime Lt PASS n s).
Definition AtPass n s := CAtom o (ATime Eq PASS n s).
Definition AfterPass n s := CAtom o (ATime Gt PASS n s).
Definition AfterNPasses n s := CAtom o (ATime Ge PASS n s).
Definition EveryNPasses n s := CAtom o (AEveryNPasses n s).
(* condition.py 1731-1850; time_scale defaults to ENVIRONMENT_SEQUENCE *)
Definition BeforeEnvironmentStateUpdate n s := CAtom o (ATime Lt ESU n s).
Definition AtEnvironmentStateUpdate n s := CAtom o (ATime Eq ESU n s).
Definition AfterEnvironmentStateUpdate n s := CAtom o (ATime Gt ESU n s).
Definition AfterNEnvironmentStateUpdates n s := CAtom o (ATime Ge ESU n s).
(* condition.py 1853-1935 *)
Definition AtEnvironmentSequence n := CAtom o (ASeq Eq n).
Definition AfterEnvironmentSequence n := CAtom o (ASeq Gt n).
Definition AfterNEnvironmentSequences n := CAtom o (ASeq Ge n).
(* condition.py 1943-2072 *)
Definition BeforeNCalls d n s := CAtom o (ACalls Lt d n s).
Definition AtNCalls d n s := CAtom o (ACalls Eq d n s).
Definition AfterCall d n s := CAtom o (ACalls Gt d n s).
Definition AfterNCalls d n s := CAtom o (ACalls Ge d n s).
Definition AfterNCallsCombined ds n s := CAtom o (ACallsCombined ds n s). (* 2075-2111 *)
Definition EveryNCalls d n := CAtom o (AEveryNCalls d n).                 (* 2114-2159 *)
Definition JustRan d := CAtom o (AJustRan d).                             (* 2162-2187 *)
Definition AllHaveRun ds s := CAtom o (AAllHaveRun ds s).                 (* 2190-2223 *)
Definition WhenFinished d := CAtom o (AWhenFinished d).                   (* 2226-2254 *)
Definition WhenFinishedAny ds := CAtom o (AWhenFinishedAny ds).           (* 2257-2294 *)
Definition WhenFinishedAll ds := CAtom o (AWhenFinishedAll ds).           (* 2297-2334 *)
(* condition.py 2342-2354 *)
Definition AtEnvironmentStateUpdateStart := AtPass 0 ESU.
(* condition.py 2383-2395 *)
Definition AtEnvironmentSequenceStart := AtEnvironmentStateUpdate 0 ES.
(* condition.py 2502-2527; the constructor's checks and custom getters are in Thresh.v *)
Definition Threshold d p t c ix atol rtol := CAtom o (AThreshold d p t c ix atol rtol).
(* condition.py 1434-1471 *)
Definition TimeTermination t incl := CAtom o (ATimeTermination t incl).
End Classes.
(* condition.py 2360-2380; the two components are new objects *)
Definition AtEnvironmentStateUpdateNStart o o1 o2 n s := CAll o [AtPass o1 0 ESU; AtEnvironmentStateUpdate o2 n s].
(* condition.py 2401-2418 *)
Definition AtEnvironmentSequenceNStart o o1 o2 n := CAll o [AtEnvironmentStateUpdate o1 0 ES; AtEnvironmentSequence o2 n].

(** ** Evaluation *)

(* counts_total[eid][ts][d] *)
Definition count_total (v : view) (s : timescale) (d : node) : res nat :=
  match v_total v with
  | None => Err EKey
  | Some f => if mem d (v_nodes v) then Ok (f s d) else Err EKey
  end.
(* counts_useable[eid][d][owner] *)
Definition count_useable (v : view) (d : node) (own : option node) : res nat :=
  match v_use v with
  | None => Err EKey
  | Some f =>
      if mem d (v_nodes v) then
        match own with
        | Some w => if mem w (v_nodes v) then Ok (f d w) else Err EKey
        | None => Err EKey
        end
      else Err EKey
  end.

(* sum of the loop in AfterNCallsCombined (condition.py 2101-2106) *)
Fixpoint sum_calls (v : view) (s : timescale) (ds : list node) (acc : nat) : res nat :=
  match ds with
  | [] => Ok acc
  | d :: r => bind (count_total v s d) (fun k => sum_calls v s r (acc + k))
  end.
(* loop of AllHaveRun (condition.py 2212-2222); KeyError is turned into ConditionError *)
Fixpoint all_have_run (v : view) (s : timescale) (ds : list node) : res bool :=
  match ds with
  | [] => Ok true
  | d :: r =>
      match count_total v s d with
      | Ok k => if Nat.ltb k 1 then Ok false else all_have_run v s r
      | Err _ => Err ECondition
      end
  end.
(* loops of WhenFinishedAny / WhenFinishedAll (condition.py 2286-2292, 2326-2332) *)
Fixpoint finished_any (w : world) (e : eid) (ds : list node) : res bool :=
  match ds with
  | [] => Ok false
  | d :: r => match w_finished w d e with
              | None => Err ECondition
              | Some true => Ok true
              | Some false => finished_any w e r
              end
  end.
Fixpoint finished_all (w : world) (e : eid) (ds : list node) : res bool :=
  match ds with
  | [] => Ok true
  | d :: r => match w_finished w d e with
              | None => Err ECondition
              | Some true => finished_all w e r
              | Some false => Ok false
              end
  end.
Definition deps_or_nodes (v : view) (ds : list node) : list node :=
  match ds with [] => v_nodes v | _ => ds end.

(** scheduler._in_exact_time_mode (scheduler.py 1083-1085) *)
Definition in_exact_time_mode (v : view) : bool := v_exact_mode v || Nat.eqb (length (v_queue v)) 1.

(* the offset loop of TimeInterval (condition.py 1385-1387): the last level containing the owner *)
Fixpoint owner_level (i : nat) (q : list (list node)) (w : option node) (acc : option nat) : option nat :=
  match q with
  | [] => acc
  | cs :: r => owner_level (S i) r w (match w with
                                      | Some n => if mem n cs then Some i else acc
                                      | None => acc
                                      end)
  end.
(** TimeInterval's func (condition.py 1378-1407) *)
Definition time_interval (v : view) (own : option node) (rep st en : option quantity) (si ei : bool) : res bool :=
  let t := t_abs (k_time (v_clock v)) in
  let offset := match in_exact_time_mode v, st with
                | true, Some s => Some (q_val s)
                | _, _ => match owner_level 0 (v_queue v) own None with
                          | Some i => Some (inject_Z (Z.of_nat i) * t_interval (k_time (v_clock v)))%Q
                          | None => None
                          end
                end in
  let r := match rep with
           | None => Ok true
           | Some r => match offset with
                       | None => Err EUnboundLocal
                       | Some off => if Qeq_bool (q_val r) 0 then Err EZeroDiv
                                     else Ok (Qis_int ((t - off) / q_val r)%Q)
                       end
           end in
  bind r (fun b =>
    let b1 := match st with
              | None => true
              | Some s => if si then Qle_bool (q_val s) t else Qltb (q_val s) t
              end in
    let b2 := match en with
              | None => true
              | Some e => if ei then Qle_bool t (q_val e) else Qltb t (q_val e)
              end in
    Ok (b && b1 && b2)).

(** Threshold's func (condition.py 2502-2515) over exact rationals;
    np.isclose(a, b) is |a - b| <= atol + rtol * |b| *)
(** l[i] of a sequence; negative indices count from the end *)
Definition item {A} (l : list A) (i : Z) : option A :=
  if Z.ltb i 0 then (if Z.ltb (i + Z.of_nat (List.length l)) 0 then None else nth_error l (Z.to_nat (i + Z.of_nat (List.length l))))
  else nth_error l (Z.to_nat i).
Fixpoint index_value (p : pval) (ix : list Z) : res pval :=
  match ix with
  | [] => Ok p
  | i :: r => match p with
              | PNum _ => Err EType
              | PSeq l => match item l i with Some x => index_value x r | None => Err EIndex end
              end
  end.
Definition isclose (a b atol rtol : Q) : bool := Qle_bool (Qabs.Qabs (a - b)) (atol + rtol * Qabs.Qabs b).
Definition threshold_cmp (c : cmp) (a b atol rtol : Q) : bool :=
  match c with
  | Eq => isclose a b atol rtol
  | Ne => negb (isclose a b atol rtol)
  | Lt => Qltb a b | Le => Qle_bool a b | Gt => Qltb b a | Ge => Qle_bool b a
  end.

(** the comparison with the value of the parameter (condition.py 2504-2515); float() of a sequence
    raises TypeError *)
Definition threshold_of (t : Q) (c : cmp) (ix : option (list Z)) (atol rtol : Q) (x : pval) : res bool :=
  bind (match ix with None => Ok x | Some ix => index_value x ix end)
       (fun y => match y with
                 | PNum q => Ok (threshold_cmp c q t atol rtol)
                 | PSeq _ => Err EType
                 end).

Definition eval_atom (v : view) (e : eid) (own : option node) (a : atom) (w : world) : res bool * world :=
  match a with
  | AAlways => (Ok true, w)
  | ANever => (Ok false, w)
  | ATime c q n b => (bind (clock_total_relative q b (v_clock v)) (fun k => Ok (cmp_nat c k n)), w)
  | AEveryNPasses n b =>
      (bind (clock_total_relative PASS b (v_clock v))
            (fun k => match n with O => Err EZeroDiv | _ => Ok (Nat.eqb (k mod n) 0) end), w)
  | ASeq c n => (Ok (cmp_nat c (t_val (k_time (v_clock v)) ES) n), w)
  | ACalls c d n s => (bind (count_total v s d) (fun k => Ok (cmp_nat c k n)), w)
  | ACallsCombined ds n s =>
      (match n with
       | None => Err ECondition
       | Some n => bind (sum_calls v s ds 0) (fun k => Ok (Nat.leb n k))
       end, w)
  | AEveryNCalls d n => (bind (count_useable v d own) (fun k => Ok (Nat.leb n k)), w)
  | AJustRan d =>
      (match v_list v with
       | None => Err EKey
       | Some l => match rev l with [] => Err EIndex | last :: _ => Ok (mem d last) end
       end, w)
  | AAllHaveRun ds s => (all_have_run v s (deps_or_nodes v ds), w)
  | AWhenFinished d => (match w_finished w d e with None => Err ECondition | Some b => Ok b end, w)
  | AWhenFinishedAny ds => (finished_any w e (deps_or_nodes v ds), w)
  | AWhenFinishedAll ds => (finished_all w e (deps_or_nodes v ds), w)
  | AThreshold d p t c ix atol rtol =>
      (match w_param w d p with
       | None => Err EAttribute
       | Some x =>
           threshold_of t c ix atol rtol x
       end, w)
  | ATimeInterval r s en si ei => (time_interval v own r s en si ei, w)
  | ATimeTermination t incl =>
      (Ok (if incl then Qle_bool (q_val t) (t_abs (k_time (v_clock v)))
           else Qltb (q_val t) (t_abs (k_time (v_clock v)))), w)
  | ACustom f => f v e own w
  end.

(** Mutable state read or written by evaluation: NWhen.satisfactions (per object and
    execution id; a missing entry is 0) and the outside world *)
Record cstate := mkCstate { s_sats : oid -> eid -> nat; s_world : world }.
Definition bump_sat (st : cstate) (o : oid) (e : eid) : cstate :=
  mkCstate (upd (s_sats st) o (upd (s_sats st o) e (S (s_sats st o e)))) (s_world st).

(** is_satisfied (condition.py 986-1015) of every class; [owners] maps condition objects to
    their owner.  run()'s extra keyword arguments are in Kwargs.v. *)
Section Eval.
Variables (v : view) (e : eid) (owners : oid -> option node).
Fixpoint eval (c : cond) (st : cstate) {struct c} : res bool * cstate :=
  match c with
  | CAtom o a =>
      let (r, w) := eval_atom v e (owners o) a (s_world st) in (r, mkCstate (s_sats st) w)
  | CAll _ cs =>                                         (* condition.py 1196-1200 *)
      (fix go (l : list cond) (st : cstate) : res bool * cstate :=
         match l with
         | [] => (Ok true, st)
         | x :: l' => match eval x st with
                      | (Ok true, st') => go l' st'
                      | (Ok false, st') => (Ok false, st')
                      | (Err ex, st') => (Err ex, st')
                      end
         end) cs st
  | CAny _ cs =>                                         (* condition.py 1229-1233 *)
      (fix go (l : list cond) (st : cstate) : res bool * cstate :=
         match l with
         | [] => (Ok false, st)
         | x :: l' => match eval x st with
                      | (Ok true, st') => (Ok true, st')
                      | (Ok false, st') => go l' st'
                      | (Err ex, st') => (Err ex, st')
                      end
         end) cs st
  | CNot _ c' =>                                         (* condition.py 1255-1256 *)
      match eval c' st with
      | (Ok b, st') => (Ok (negb b), st')
      | (Err ex, st') => (Err ex, st')
      end
  | CNWhen o c' n =>                                     (* condition.py 1290-1298 *)
      if Nat.ltb (s_sats st o e) n then
        match eval c' st with
        | (Ok true, st') => (Ok true, bump_sat st' o e)
        | (Ok false, st') => (Ok false, st')
        | (Err ex, st') => (Err ex, st')
        end
      else (Ok false, st)
  end.
End Eval.

(** Owner setters (condition.py 952-956, 1143-1149, 1259-1262, 1285-1288); [w] may be None.
    Composite conditions pass the owner on only to components that have none; Not and NWhen
    always do.  The warning of _DependencyValidation (1044-1060) is in Warn.v. *)
Fixpoint set_owner (w : option node) (c : cond) (own : oid -> option node) {struct c} : oid -> option node :=
  let own' := upd own (cond_oid c) w in
  match c with
  | CAtom _ _ => own'
  | CAll _ cs | CAny _ cs =>
      (fix go (l : list cond) (own : oid -> option node) :=
         match l with
         | [] => own
         | x :: r => go r (if isSome (own (cond_oid x)) then own else set_owner w x own)
         end) cs own'
  | CNot _ c' => set_owner w c' own'
  | CNWhen _ c' _ => set_owner w c' own'
  end.

(** is_absolute, absolute_intervals, absolute_fixed_points (condition.py 1017-1041,
    1151-1167, 1419-1431, 1473-1475); Not and NWhen inherit the defaults of Condition *)
Definition opt_list {A} (o : option A) : list A := match o with Some a => [a] | None => [] end.
Fixpoint is_absolute (c : cond) : bool :=
  match c with
  | CAtom _ (ATimeInterval _ _ _ _ _) => true
  | CAtom _ (ATimeTermination _ _) => true
  | CAll _ cs | CAny _ cs => existsb is_absolute cs
  | _ => false
  end.
Fixpoint absolute_intervals (c : cond) : list quantity :=
  match c with
  | CAtom _ (ATimeInterval r _ _ _ _) => opt_list r
  | CAll _ cs | CAny _ cs => flat_map (fun x => if is_absolute x then absolute_intervals x else []) cs
  | _ => []
  end.
Fixpoint absolute_fixed_points (c : cond) : list quantity :=
  match c with
  | CAtom _ (ATimeInterval _ s e si ei) => (if si then opt_list s else []) ++ (if ei then opt_list e else [])
  | CAtom _ (ATimeTermination t incl) => if incl then [t] else []
  | CAll _ cs | CAny _ cs => flat_map (fun x => if is_absolute x then absolute_fixed_points x else []) cs
  | _ => []
  end.
