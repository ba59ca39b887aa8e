(** Specification vocabulary for the cycles of a graph and for what pruning may remove. *)
From Verif Require Export SpecGSC.

(** In the cyclic list c, b comes right after a (after the last element comes the first). *)
Definition follows (c : list node) (a b : node) : Prop :=
  exists i, nth_error c i = Some a /\ nth_error c (S i mod length c) = Some b.
(** A simple cycle of g: no node twice, every node a sender of the following one.  A node that
    is its own sender is a cycle of length 1. *)
Definition simple_cycle (g : graph) (c : list node) : Prop :=
  c <> [] /\ NoDup c /\ forall a b, follows c a b -> edge g a b.
(** the same cycle, written from another node on *)
Definition rotation (c d : list node) : Prop := exists l1 l2, c = l1 ++ l2 /\ d = l2 ++ l1.
(** What networkx.simple_cycles documents: only simple cycles are listed, and every simple
    cycle is, from whichever node on. *)
Definition lists_cycles (cyc : graph -> list (list node)) : Prop :=
  forall g, (forall c, In c (cyc g) -> simple_cycle g c) /\
            (forall c, simple_cycle g c -> exists d, rotation c d /\ In d (cyc g)).

(** networkx ancestors: a node is not its own ancestor *)
Definition ancestor (g : graph) (a b : node) : Prop := a <> b /\ reach g a b.
(** The subjects that decide on which side of the owner w a cycle c is cut: those in the
    cycle, or all if none is. *)
Definition deciding (p : opcond) (c : list node) (n : node) : Prop :=
  In n (p_nodes p) /\ (In n c \/ forall m, In m (p_nodes p) -> ~ In m c).
(** the owner's outgoing edge is cut rather than its incoming edge *)
Definition cuts_outgoing (p : opcond) (w : node) (g : graph) (c : list node) : Prop :=
  (forall n, deciding p c n -> ancestor g w n) \/ ~ (forall n, deciding p c n -> ancestor g n w).
(** The edges of a cycle c that pruning removes, g being the graph before the condition:
    edges that the condition does not need and that either lead from one node other than the
    owner to another against an edge of g, or are the edge of the owner that is to be cut. *)
Definition removable (p : opcond) (w : node) (g : graph) (c : list node) (a b : node) : Prop :=
  ~ needed p w a b /\
  ((a <> w /\ b <> w /\ edge g b a) \/
   (a = w /\ cuts_outgoing p w g c) \/
   (b = w /\ ~ cuts_outgoing p w g c)).

(** h' is h without the edges of the cycle c that pruning removes, and otherwise unchanged. *)
Definition cut (p : opcond) (w : node) (g : graph) (c : list node) (h h' : graph) : Prop :=
  forall a b, edge h' a b <-> edge h a b /\ ~ (follows c a b /\ removable p w g c a b).
(** h' comes from h by cutting cycles one after the other, each of them a cycle of what the
    cuts before it have left. *)
Inductive pruned (p : opcond) (w : node) (g : graph) : graph -> graph -> Prop :=
| pruned_done : forall h h', (forall a b, edge h' a b <-> edge h a b) -> pruned p w g h h'
| pruned_cut : forall h c h1 h', simple_cycle h c -> cut p w g c h h1 -> pruned p w g h1 h' -> pruned p w g h h'.
(** ... and the first one, if there is a cycle at all, is a longest one. *)
Definition pruned_longest (p : opcond) (w : node) (g : graph) (h h' : graph) : Prop :=
  ((forall c, ~ simple_cycle h c) /\ forall a b, edge h' a b <-> edge h a b) \/
  exists c h1, simple_cycle h c /\ (forall d, simple_cycle h d -> length d <= length c) /\
    cut p w g c h h1 /\ pruned p w g h1 h'.

(** A brute-force enumeration, to show that the requirement can be met: all lists of keys
    that are simple cycles. *)
Fixpoint words (k : nat) (keys : list node) : list (list node) :=
  match k with
  | O => [[]]
  | S k => flat_map (fun n => map (cons n) (words k keys)) keys
  end.
Fixpoint nodupb (c : list node) : bool :=
  match c with [] => true | n :: r => negb (mem n r) && nodupb r end.
Definition simple_cycleb (g : graph) (c : list node) : bool :=
  nodupb c &&
  forallb (fun i => mem (nth i c 0) (senders g (nth (S i mod length c) c 0))) (seq 0 (length c)).
Definition brute_cycles (g : graph) : list (list node) :=
  filter (simple_cycleb g) (flat_map (fun k => words (S k) (gkeys g)) (seq 0 (length (gkeys g)))).
