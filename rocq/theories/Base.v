(** Base definitions: results with exceptions, Python sets as duplicate-free lists,
    Python dicts as association lists in insertion order.
    Nothing here models a particular piece of /repo; these are the data types the
    model is written in. *)
From Coq Require Export List Arith Bool Lia.
Export ListNotations.

(** Nodes are arbitrary hashable Python objects; only equality is used, so any countable
    set with decidable equality will do. *)
Definition node := nat.
(** Execution ids (hashable); the Python value [None] is represented by 0. *)
Definition eid := nat.
(** Identities of Python objects (conditions). *)
Definition oid := nat.

(** Exceptions raised by the modelled code (or by Python itself inside it). *)
Inductive exn :=
| EScheduler        (* SchedulerError,      scheduler.py 384-390 *)
| ECondition        (* ConditionError,      condition.py 618-619 *)
| ETimeScale        (* TimeScaleError,      time.py 45-51 *)
| EKey | EIndex | EType | EValue | EZeroDiv | EUnboundLocal | ERuntime | EAttribute
| EUser (code : nat). (* an exception raised by user code (custom conditions) *)

Inductive res (A : Type) :=
| Ok (a : A)
| Err (e : exn).
Arguments Ok {A} a.
Arguments Err {A} e.

Definition bind {A B} (r : res A) (f : A -> res B) : res B :=
  match r with Ok a => f a | Err e => Err e end.

(** ** Python sets as lists *)
Definition mem (x : nat) (l : list nat) : bool := existsb (Nat.eqb x) l.
(* set.add *)
Definition s_add (x : nat) (l : list nat) : list nat := if mem x l then l else l ++ [x].
(* set.discard / set.remove when present *)
Definition s_remove (x : nat) (l : list nat) : list nat := filter (fun y => negb (Nat.eqb x y)) l.
(* a.union(b) *)
Definition s_union (a b : list nat) : list nat := a ++ filter (fun y => negb (mem y a)) b.
(* a.intersection(b) *)
Definition s_inter (a b : list nat) : list nat := filter (fun y => mem y b) a.
(* a.difference(b) *)
Definition s_diff (a b : list nat) : list nat := filter (fun y => negb (mem y b)) a.
(* a.symmetric_difference(b) *)
Definition s_symdiff (a b : list nat) : list nat := s_diff a b ++ s_diff b a.
Definition s_subset (a b : list nat) : bool := forallb (fun x => mem x b) a.
(* a == b on sets *)
Definition s_eqb (a b : list nat) : bool := s_subset a b && s_subset b a.
(* set(iterable) *)
Fixpoint s_of (l : list nat) : list nat :=
  match l with
  | [] => []
  | x :: r => x :: s_remove x (s_of r)
  end.

(** ** Python dicts as association lists (insertion order, one entry per key) *)
Definition amap (A : Type) := list (nat * A).
Fixpoint aget {A} (k : nat) (m : amap A) : option A :=
  match m with
  | [] => None
  | (k', v) :: r => if Nat.eqb k k' then Some v else aget k r
  end.
(* d[k] = v : replaces in place or appends *)
Fixpoint aset {A} (k : nat) (v : A) (m : amap A) : amap A :=
  match m with
  | [] => [(k, v)]
  | (k', v') :: r => if Nat.eqb k k' then (k, v) :: r else (k', v') :: aset k v r
  end.
(* del d[k] *)
Fixpoint adel {A} (k : nat) (m : amap A) : amap A :=
  match m with
  | [] => []
  | (k', v') :: r => if Nat.eqb k k' then r else (k', v') :: adel k r
  end.
Definition ahas {A} (k : nat) (m : amap A) : bool :=
  match aget k m with Some _ => true | None => false end.
Definition akeys {A} (m : amap A) : list nat := map fst m.

(** Function update *)
Definition upd {A} (f : nat -> A) (k : nat) (v : A) : nat -> A :=
  fun j => if Nat.eqb j k then v else f j.

Definition isSome {A} (o : option A) : bool := match o with Some _ => true | None => false end.
