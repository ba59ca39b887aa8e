(** Specification vocabulary for time scale aliases. *)
From Verif Require Export Alias.
Open Scope nat_scope.
Open Scope list_scope.

(** n is the name of something in the namespace or the export list of one of the two modules *)
Definition known_name (st : astate) (n : string) : Prop :=
  In n (map fst (a_gs st)) \/ In n (map fst (a_cond st)) \/ In n (a_gs_all st) \/ In n (a_cond_all st).
(** name can be used for t without touching anything that exists; seg is its form in class names *)
Record fresh_alias (st : astate) (name : string) (t : timescale) (seg : string) : Prop := {
  fa_seg : class_str name = Some seg;
  fa_name : forall s, ~ In (s, name) (a_reg st);
  fa_target : forall n, ~ In (t, n) (a_reg st);
  fa_member : forall s, name <> ts_name s;
  fa_scale : ~ In name (map fst (a_scale st));
  fa_time : ~ In (lower name) (map fst (a_time st));
  fa_simple : ~ In (lower name) (map fst (a_simple st));
  fa_known : forall n, known_name st n -> contains seg n = false;
  fa_distinct : forall a b, In a (map fst (a_gs st)) -> In b (map fst (a_gs st)) ->
    contains (ts_class_str t) a = true -> contains (ts_class_str t) b = true ->
    replace (ts_class_str t) seg a = replace (ts_class_str t) seg b -> a = b
}.
(** one entry per name in the package's namespace *)
Definition wf_modules (st : astate) : Prop := NoDup (map fst (a_gs st)).
