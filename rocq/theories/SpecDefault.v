(** Specification vocabulary for runs of schedulers without conditions (C13). *)
From Verif Require Export SpecSched.

(** what may have happened to a scheduler to which no conditions were added: generators made
    by run, with whatever arguments, were resumed, with whatever outcome, and environment
    sequences were ended *)
Inductive only_runs (cyc : graph -> list (list node)) (arr : list (list node) -> list (list node)) (d : sched) : sched -> Prop :=
| or_none : only_runs cyc arr d d
| or_next : forall d1 fuel g d2 g' o, only_runs cyc arr d d1 -> sresume cyc arr fuel d1 g = (d2, g', o) -> only_runs cyc arr d d2
| or_end : forall d1 e d2, only_runs cyc arr d d1 -> send_environment_sequence e d1 = Ok d2 -> only_runs cyc arr d d2.
(** no cycles at all, not even self-loops *)
Definition loop_free (g : graph) : Prop := ~ cyclic g /\ forall n, ~ edge g n n.
(** the level of a node: the number of edges of the longest path that ends in it *)
Definition level_of (g : graph) (n : node) (i : nat) : Prop :=
  in_graph g n /\ (exists a, walk g a i n) /\ forall a k, walk g a k n -> k <= i.
(** the sets yielded by one run are the levels of the graph, in order, each node once *)
Definition are_levels (g : graph) (ys : list (list node)) : Prop :=
  (forall i s, nth_error ys i = Some s -> s <> [] /\ NoDup s /\ forall n, In n s <-> level_of g n i) /\
  (forall n i, level_of g n i -> i < length ys).
(** exact time mode has a single consideration set with all nodes *)
Definition are_all_nodes (g : graph) (ys : list (list node)) : Prop :=
  match gkeys g with [] => ys = [] | _ => exists s, ys = [s] /\ NoDup s /\ forall n, In n s <-> in_graph g n end.
Definition one_round (exact : bool) (g : graph) (ys : list (list node)) : Prop :=
  if exact then are_all_nodes g ys else are_levels g ys.
