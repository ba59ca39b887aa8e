(** What a custom graph structure condition receives and may change.  A graph is a dict of
    references to set objects (GSC.v); the numbers below [length (h_store h)] are the objects that
    exist in [h]. *)
From Verif Require Export Sched SpecGraph.
Open Scope nat_scope.

(** [c] is a copy of [h] with set objects of its own: the same nodes and edges; every node has its
    own set, made anew; the sets that existed before are as they were *)
Definition private_copy (h c : hgraph) : Prop :=
  gkeys (unload c) = gkeys (unload h) /\ (forall a b, edge (unload c) a b <-> edge (unload h) a b) /\
  wf_sets (unload c) /\ length (h_store h) <= length (h_store c) /\
  (forall n l, aget n (h_refs c) = Some l -> length (h_store h) <= l < length (h_store c)) /\
  (forall n m l, aget n (h_refs c) = Some l -> aget m (h_refs c) = Some l -> n = m) /\
  (forall l, l < length (h_store h) -> s_get (h_store c) l = s_get (h_store h) l).
(** the function changes no set but those of the graph it is given, and ones it makes itself *)
Definition touches_only_argument (u : custom) : Prop :=
  forall w c r, u_call u w c = Ok r ->
    length (h_store c) <= length (h_store r) /\
    forall l, l < length (h_store c) -> (forall n, aget n (h_refs c) <> Some l) -> s_get (h_store r) l = s_get (h_store c) l.
(** the parameters of the function: the owner goes to a first parameter called self *)
Definition called_with (u : custom) (w : node) (a : option node) : Prop :=
  (u_self u = None /\ a = None) \/ (u_self u = Some 0 /\ a = Some w).
