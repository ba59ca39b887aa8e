(** Specification vocabulary for condition sets and schedulers: sequences of public calls,
    what they register, and the graph that structural conditions describe. *)
From Verif Require Export SpecCond SpecGraph SpecRun Sched.

(** ** Condition sets *)
(** the calls that change a ConditionSet *)
Inductive setcall :=
| SAdd (w : node) (a : anycond)          (* add_condition(w, a) *)
| SAddSet (s : amap centry)              (* add_condition_set(s) *)
| SRemove (a : anycond)                  (* remove_condition(a) *)
| SRemoveOwner (w : node).               (* remove_condition(w) *)
(** the (owner, condition) pairs a call adds, in order *)
Definition adds (k : setcall) : list (node * anycond) :=
  match k with
  | SAdd w a => [(w, a)]
  | SAddSet s => flat_map (fun p => map (pair (fst p)) (entry_list (snd p))) s
  | _ => []
  end.
(** the condition objects that a condition consists of *)
Definition any_oids (a : anycond) : list oid := match a with Basic c => oids c | Struct s => [sc_oid s] end.

(** What is registered: for every node its last added and not removed basic condition ... *)
Definition reg_basic1 (B : node -> option cond) (p : node * anycond) : node -> option cond :=
  match snd p with Basic c => upd B (fst p) (Some c) | Struct _ => B end.
Definition reg_basic (B : node -> option cond) (k : setcall) : node -> option cond :=
  match k with
  | SRemove (Basic c) => fun w => match B w with
                                  | Some c' => if Nat.eqb (cond_oid c') (cond_oid c) then None else Some c'
                                  | None => None
                                  end
  | SRemove (Struct _) => B
  | SRemoveOwner w => upd B w None
  | _ => fold_left reg_basic1 (adds k) B
  end.
(** ... and the added and not removed structural conditions with their owners, in the order
    in which they were added *)
Definition structs (l : list (node * anycond)) : list (node * scond) :=
  flat_map (fun p => match snd p with Struct s => [(fst p, s)] | Basic _ => [] end) l.
Definition reg_struct (L : list (node * scond)) (k : setcall) : list (node * scond) :=
  match k with
  | SRemove (Struct s) => filter (fun p => negb (Nat.eqb (sc_oid (snd p)) (sc_oid s))) L
  | _ => L ++ structs (adds k)
  end.
Definition registered_basic (ks : list setcall) : node -> option cond := fold_left reg_basic ks (fun _ => None).
Definition registered_struct (ks : list setcall) : list (node * scond) := fold_left reg_struct ks [].
(** the structural conditions of one owner *)
Definition owned (w : node) (L : list (node * scond)) : list scond :=
  map snd (filter (fun p => Nat.eqb (fst p) w) L).
(** no condition object is used twice, and removals refer to the objects that were added *)
Definition objects (A : list (node * anycond)) : list oid := flat_map (fun p => any_oids (snd p)) A.
Definition distinct_objects (ks : list setcall) : Prop :=
  NoDup (objects (flat_map adds ks)) /\
  forall a w b, In (SRemove a) ks -> In (w, b) (flat_map adds ks) -> any_oid a = any_oid b -> a = b.

(** carrying out a call; [None]: an exception was raised *)
Definition set_perform (k : setcall) (x : condset * owners_t) : option (condset * owners_t) :=
  let (cs, ow) := x in
  match k with
  | SAdd w a => match cs_add w a cs ow with Ok y => Some y | Err _ => None end
  | SAddSet s => match cs_add_set s cs ow with (Ok _, cs', ow') => Some (cs', ow') | _ => None end
  | SRemove a => match cs_remove_cond a cs ow with (Ok _, cs', ow') => Some (cs', ow') | _ => None end
  | SRemoveOwner w => match cs_remove_owner w cs ow with (Ok _, cs', ow') => Some (cs', ow') | _ => None end
  end.
Fixpoint set_performs (ks : list setcall) (x : condset * owners_t) : option (condset * owners_t) :=
  match ks with
  | [] => Some x
  | k :: r => match set_perform k x with Some y => set_performs r y | None => None end
  end.

(** the value of the [conditions] property for one node *)
Definition entry_for (b : option cond) (l : list scond) : option centry :=
  match b, l with
  | None, [] => None
  | Some c, [] => Some (One (Basic c))
  | None, [s] => Some (One (Struct s))
  | None, _ => Some (Many (map Struct l))
  | Some c, _ => Some (Many (Basic c :: map Struct l))
  end.

(** ** Schedulers *)
Section Calls.
Variable cyc : graph -> list (list node).
Variable arr : list (list node) -> list (list node).
(** the graph [g'] results from [g] by the structural conditions [L], in this order *)
Inductive applies : graph -> list (node * scond) -> graph -> Prop :=
| applies_nil : forall g, applies g [] g
| applies_cons : forall g w s g1 L g2, modify_graph cyc (Some w) (sc_gsc s) g = Ok g1 -> applies g1 L g2 -> applies g ((w, s) :: L) g2.
(** the public calls considered *)
Inductive call :=
| CSet (k : setcall)                       (* add_condition, add_condition_set, remove_condition *)
| CLook                                    (* reading graph, consideration_queue, ... *)
| CTerm (t : option tconds)                (* termination_conds = t *)
| CNext (fuel : nat) (g : gen)             (* resuming a generator made by run() *)
| CEndSequence (e : eid).                  (* end_environment_sequence *)
Definition ok_sched {A} (x : res A * sched) : option sched := match x with (Ok _, d) => Some d | (Err _, _) => None end.
(** carrying out a call; [None]: an exception was raised *)
Definition perform (k : call) (d : sched) : option sched :=
  match k with
  | CSet (SAdd w a) => ok_sched (add_condition cyc arr w a d)
  | CSet (SAddSet s) => ok_sched (add_condition_set cyc arr s d)
  | CSet (SRemove a) => ok_sched (remove_condition a d)
  | CSet (SRemoveOwner w) => ok_sched (remove_condition_owner w d)
  | CLook => ok_sched (get_graph cyc arr d)
  | CTerm t => Some (set_termination_conds t d)
  | CNext f g => match sresume cyc arr f d g with (d', _, ORaise _) => None | (d', _, _) => Some d' end
  | CEndSequence e => match send_environment_sequence e d with Ok d' => Some d' | Err _ => None end
  end.
Fixpoint performs (ks : list call) (d : sched) : option sched :=
  match ks with
  | [] => Some d
  | k :: r => match perform k d with Some d' => performs r d' | None => None end
  end.
(** the set calls among the calls *)
Definition set_calls (ks : list call) : list setcall := flat_map (fun k => match k with CSet s => [s] | _ => [] end) ks.
End Calls.

(** every condition object is either basic or structural; [is_s] tells which.  Objects with
    an identity of at least [nx] are made by the scheduler itself, as default conditions. *)
Definition mentioned (k : setcall) : list anycond := match k with SRemove a => [a] | _ => map snd (adds k) end.
Definition well_kinded (is_s : oid -> bool) (nx : oid) (ks : list setcall) : Prop :=
  (forall o, nx <= o -> is_s o = false) /\
  forall k a, In k ks -> In a (mentioned k) -> match a with
    | Struct s => is_s (sc_oid s) = true
    | Basic c => forall o, In o (oids c) -> is_s o = false
    end.
(** every structural condition object is added once *)
Definition added_once (ks : list setcall) : Prop := NoDup (map (fun p => sc_oid (snd p)) (structs (flat_map adds ks))).
(** condition objects are new when they are added, and removals refer to added conditions *)
Definition proper_objects (nx : oid) (ow : owners_t) (ks : list setcall) : Prop :=
  NoDup (objects (flat_map adds ks)) /\
  (forall o, In o (objects (flat_map adds ks)) -> o < nx /\ ow o = None) /\
  (forall o, nx <= o -> ow o = None) /\
  (forall a, In (SRemove a) ks -> In a (map snd (flat_map adds ks))).
