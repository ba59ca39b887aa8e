(** Termination condition arguments as given by the user: dicts whose keys and values may be
    anything (scheduler.py 462-487, 622-666, 1059-1081). *)
From Coq Require Import String.
From Verif Require Export Sched.
Open Scope nat_scope.

(** A dict key: a TimeScale, a string, or anything else (a number, ...) *)
Inductive tkey := KScale (s : timescale) | KStr (s : string) | KOther (n : nat).
(** A dict value: a Condition, or anything else (a number, a GraphStructureCondition) *)
Inductive tval := VCond (c : cond) | VOther (n : nat).
Definition ts_eqb (a b : timescale) : bool := Nat.eqb (ts_val a) (ts_val b).
Definition tkey_eqb (a b : tkey) : bool :=
  match a, b with
  | KScale s, KScale t => ts_eqb s t
  | KStr s, KStr t => String.eqb s t
  | KOther n, KOther k => Nat.eqb n k
  | _, _ => false
  end.
(** a dict in insertion order *)
Definition tdict := list (tkey * tval).
Fixpoint td_get (k : tkey) (d : tdict) : option tval :=
  match d with
  | [] => None
  | (k', v) :: r => if tkey_eqb k k' then Some v else td_get k r
  end.
(* d[k] = v *)
Fixpoint td_set (k : tkey) (v : tval) (d : tdict) : tdict :=
  match d with
  | [] => [(k, v)]
  | (k', v') :: r => if tkey_eqb k k' then (k', v) :: r else (k', v') :: td_set k v r
  end.
Definition td_update (d e : tdict) : tdict := fold_left (fun d p => td_set (fst p) (snd p) d) e d.

Section Names.
(** getattr(TimeScale, s.upper()): None if there is no such attribute.  (Depends on the
    defined aliases.  Attributes of the class that are not time scales have no upper case name.) *)
Variable attr : string -> option timescale.

(** lines 639-645: the loop over the keys, which writes into the dict it iterates over.  CPython
    raises RuntimeError at the next step of the iteration if the size has changed. *)
Fixpoint parse_loop (keys : list tkey) (d : tdict) (del : list tkey) : res (list tkey) * tdict :=
  match keys with
  | [] => (Ok del, d)
  | KStr s :: r =>
      match attr s, td_get (KStr s) d with
      | Some t, Some v =>
          let d' := td_set (KScale t) v d in
          if Nat.eqb (length d') (length d) then parse_loop r d' (KStr s :: del) else (Err ERuntime, d')
      | _, _ => parse_loop r d del
      end
  | _ :: r => parse_loop r d del
  end.
(* lines 648-656 *)
Definition parse_keep (d : tdict) : tdict :=
  filter (fun p => match p with (KScale _, VCond _) => true | _ => false end) d.
Definition k_in (k : tkey) (l : list tkey) : bool := existsb (tkey_eqb k) l.
(* lines 660-663 *)
Definition parse_invalid (d : tdict) (del : list tkey) : list tkey :=
  filter (fun k => negb (k_in k (map fst (parse_keep d))) && negb (k_in k del)) (map fst d).
(** _parse_termination_conditions (scheduler.py 629-666) on a dict: the result and the
    caller's dict afterwards *)
Definition parse_termination_conditions (d : tdict) : res tdict * tdict :=
  match parse_loop (map fst d) d [] with
  | (Err ex, d') => (Err ex, d')
  | (Ok del, d') =>
      match parse_invalid d' del with
      | [] => (Ok (parse_keep d'), d')
      | _ => (Err EScheduler, d')
      end
  end.
(** a parsed dict as a map from time scales to conditions *)
Definition td_conds (d : tdict) : tconds :=
  fun s => match td_get (KScale s) d with Some (VCond c) => Some c | _ => None end.

(** Scheduler.__init__ lines 480-487 *)
Definition td_default : tdict := [(KScale ES, VCond (Never 0)); (KScale ESU, VCond (AllHaveRun 1 [] ESU))].
Definition init_termination_conds (arg : option tdict) : res tdict :=
  fst (parse_termination_conditions (td_update td_default (match arg with Some d => d | None => [] end))).
(** termination_conds = arg (lines 1063-1081); the second component is the caller's dict *)
Definition assign_termination_conds (arg : option tdict) (d : sched) : res unit * sched * tdict :=
  match arg with
  | None => (Ok tt, set_termination_conds None d, [])
  | Some a => match parse_termination_conditions a with
              | (Err ex, a') => (Err ex, d, a')
              | (Ok p, a') => (Ok tt, set_termination_conds (Some (td_conds p)) d, a')
              end
  end.
(** run(termination_conds=arg) lines 871-876: what the generator works with *)
Definition run_termination_conds (arg : option tdict) (d : sched) : res tconds :=
  match arg with
  | None => Ok (d_tc d)
  | Some a => match fst (parse_termination_conditions a) with
              | Err ex => Err ex
              | Ok p => Ok (combine_tconds (d_tc d) (td_conds p))
              end
  end.
End Names.
