(** Specification vocabulary for the warnings (C85). *)
From Verif Require Export Warn SpecSched SpecGSC SpecThresh.
Open Scope nat_scope.
Open Scope list_scope.

(** x is the condition c or one of its components, or a component of one of these, ... *)
Inductive part (x : cond) : cond -> Prop :=
| part_self : part x x
| part_all : forall o cs c, In c cs -> part x c -> part x (CAll o cs)
| part_any : forall o cs c, In c cs -> part x c -> part x (CAny o cs)
| part_not : forall o c, part x c -> part x (CNot o c)
| part_nwhen : forall o c n, part x c -> part x (CNWhen o c n).
(** the nodes a condition was made to depend on, in the order of its arguments *)
Definition dependencies (a : atom) : list node :=
  match a with
  | ACalls _ d _ _ | AEveryNCalls d _ | AJustRan d | AWhenFinished d | AThreshold d _ _ _ _ _ _ => [d]
  | ACallsCombined ds _ _ | AAllHaveRun ds _ | AWhenFinishedAny ds | AWhenFinishedAll ds => ds
  | _ => []
  end.
Definition depends_on (a : atom) (d : node) : Prop := In d (dependencies a).
(** a Threshold without a custom getter *)
Definition is_threshold (a : atom) : Prop := exists d par t c ix atol rtol, a = AThreshold d par t c ix atol rtol.
(** no component of c has an owner, and none occurs twice in c *)
Definition new_components (c : cond) (ow : owners_t) : Prop :=
  NoDup (oids c) /\ forall o, In o (oids c) -> o <> cond_oid c -> ow o = None.

(** the warnings of a call on a condition set *)
Definition call_warnings (k : setcall) (x : condset * owners_t) : list warning :=
  match k with
  | SAdd w a => add_warnings w a (fst x) (snd x)
  | SAddSet s => add_set_warnings s (fst x) (snd x)
  | SRemove a => remove_warnings a (fst x) (snd x)
  | SRemoveOwner w => remove_owner_warnings w (fst x)
  end.
(** ... and of several calls in a row, as long as there is no exception *)
Fixpoint calls_warnings (ks : list setcall) (x : condset * owners_t) : list warning :=
  match ks with
  | [] => []
  | k :: r => call_warnings k x ++ match set_perform k x with Some y => calls_warnings r y | None => [] end
  end.
(** a call leaves what is registered after the calls ks as it is *)
Definition changes_nothing (ks : list setcall) (k : setcall) : Prop :=
  (forall w, registered_basic (ks ++ [k]) w = registered_basic ks w) /\ registered_struct (ks ++ [k]) = registered_struct ks.
(** the subject n already stands in the relation to w that the condition is there to establish *)
Definition in_place (p : opcond) (w : node) (g : graph) (n : node) : Prop :=
  match p_kind p with
  | KPlain => False
  | KBefore => edge g w n
  | KWith => forall x, edge g x n <-> edge g x w
  | KAfter => edge g n w
  end.
(** the conditions that move their owner: BeforeNode(s) and AfterNode(s) with any operations (but
    for the sharing of C29_aliasing_refuted), WithNode with the default ones *)
Definition moving (p : opcond) : Prop :=
  p_nodes p <> [] /\ (((p_kind p = KBefore \/ p_kind p = KAfter) /\ no_alias p) \/ exists n, with_node n = Ok (GOps p)).
Definition same_edges (g g' : graph) : Prop := forall a b, edge g' a b <-> edge g a b.
(** the warnings that condition sets give, and not graph structure conditions or schedulers *)
Definition about_set (x : warning) : Prop := match x with Replacing _ _ _ | NotFound _ _ | OwnDependency _ _ => True | _ => False end.
