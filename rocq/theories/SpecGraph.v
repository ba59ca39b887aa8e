(** Specification vocabulary for graphs: edges, walks, cycles. *)
From Verif Require Export Graph.

(** [edge g a b]: a is a sender of b in the dependency dict g, i.e. a in g[b]. *)
Definition edge (g : graph) (a b : node) : Prop := exists l, aget b g = Some l /\ In a l.

(** [walk g a k b]: there is a path of k edges from a to b, none of them a self-loop. *)
Inductive walk (g : graph) (a : node) : nat -> node -> Prop :=
| walk_here : walk g a 0 a
| walk_step : forall k b c, walk g a k b -> edge g b c -> b <> c -> walk g a (S k) c.

(** a cycle through at least two nodes *)
Definition cyclic (g : graph) : Prop := exists n k, walk g n (S k) n.

(** [reach g a b]: a non-empty path from a to b (self-loops allowed) *)
Inductive reach (g : graph) (a : node) : node -> Prop :=
| reach_edge : forall b, edge g a b -> reach g a b
| reach_step : forall b c, reach g a b -> edge g b c -> reach g a c.

(** the nodes of a dependency dict: its keys and everything they mention *)
Definition in_graph (g : graph) (n : node) : Prop := In n (gkeys g) \/ exists b, edge g n b.

(** a Python dict has one entry per key *)
Definition wf_graph (g : graph) : Prop := NoDup (gkeys g).
(** every sender is itself a key (true of every Scheduler.graph, see C46) *)
Definition closed_graph (g : graph) : Prop := forall a b, edge g a b -> In a (gkeys g).
(** sender sets are sets *)
Definition wf_sets (g : graph) : Prop := forall n l, In (n, l) g -> NoDup l.

(** same keys, same sets of senders *)
Definition same_graph (g h : graph) : Prop :=
  (forall n, In n (gkeys g) <-> In n (gkeys h)) /\ (forall a b, edge g a b <-> edge h a b).

(** x is among the senders that the value v of a user supplied dict stands for *)
Definition denotes (v : inval) (x : node) : Prop := match v with VIter l => In x l | VStr w _ => x = w | VAtom n => x = n end.
(** every value is an iterable (not a string) *)
Definition all_iterable (g : amap inval) : Prop := forall n v, In (n, v) g -> exists l, v = VIter l.
