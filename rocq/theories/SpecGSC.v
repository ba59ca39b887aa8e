(** Specification vocabulary for graph structure conditions. *)
From Verif Require Export SpecGraph GSC.

(** What an Operation says about one node: [s] = it is a source neighbour, [c] = it is a
    comparison neighbour; result: it is a neighbour afterwards. *)
Definition op_says (o : operation) (s c : Prop) : Prop :=
  match o with
  | KEEP => s
  | REPLACE => c
  | DISCARD => False
  | INTERSECTION => s /\ c
  | UNION => s \/ c
  | DIFFERENCE => s /\ ~ c
  | INVERSE_DIFFERENCE => c /\ ~ s
  | SYMMETRIC_DIFFERENCE => (s /\ ~ c) \/ (c /\ ~ s)
  end.

(** owner and subjects of a condition *)
Definition acts (p : opcond) (w n : node) : Prop := n = w \/ In n (p_nodes p).
(** the sender operation of b (owner_senders, or subject_senders of the subject b) makes a a
    sender of b *)
Definition prescribes_sender (p : opcond) (w : node) (g : graph) (a b : node) : Prop :=
  (b = w /\ op_says (p_owner_senders p) (edge g a w) (exists n, In n (p_nodes p) /\ edge g a n)) \/
  (In b (p_nodes p) /\ exists o, subject_operation (p_subject_senders p) b = Ok o /\ op_says o (edge g a b) (edge g a w)).
(** the receiver operation of a makes b a receiver of a *)
Definition prescribes_receiver (p : opcond) (w : node) (g : graph) (a b : node) : Prop :=
  (a = w /\ op_says (p_owner_receivers p) (edge g w b) (exists n, In n (p_nodes p) /\ edge g n b)) \/
  (In a (p_nodes p) /\ exists o, subject_operation (p_subject_receivers p) a = Ok o /\ op_says o (edge g a b) (edge g w b)).
(** some sender operation and some receiver operation disagree about an edge *)
Definition conflicting (p : opcond) (w : node) (g : graph) : Prop :=
  exists a b, acts p w a /\ acts p w b /\
    ((prescribes_sender p w g a b /\ ~ prescribes_receiver p w g a b) \/
     (~ prescribes_sender p w g a b /\ prescribes_receiver p w g a b)).
(** every subject has a sender and a receiver operation *)
Definition operations_given (p : opcond) : Prop :=
  forall n, In n (p_nodes p) ->
    (exists o, subject_operation (p_subject_senders p) n = Ok o) /\ (exists o, subject_operation (p_subject_receivers p) n = Ok o).
(** REPLACE hands out the owner's own sender set: at most one node may end up with it *)
Definition no_alias (p : opcond) : Prop :=
  (forall n m, In n (p_nodes p) -> In m (p_nodes p) ->
     subject_operation (p_subject_senders p) n = Ok REPLACE -> subject_operation (p_subject_senders p) m = Ok REPLACE -> n = m) /\
  (p_owner_senders p = KEEP -> forall n, In n (p_nodes p) -> subject_operation (p_subject_senders p) n <> Ok REPLACE).
(** a dict of set objects as a caller can hold it: one entry per key, all objects exist, every
    sender is a key *)
Definition wf_heap (h : hgraph) : Prop :=
  NoDup (akeys (h_refs h)) /\ (forall n l, aget n (h_refs h) = Some l -> l < length (h_store h)) /\ closed_graph (unload h).
(** built-in conditions, that is, all but the custom ones *)
Definition builtin (s : gsc) : Prop := forall f, s <> GCustom f.
(** conditions that keep the nodes: the built-in ones, and custom ones whose function turns a graph
    into a graph with the same nodes *)
Definition keeps_nodes (s : gsc) : Prop :=
  forall u, s = GCustom u -> forall w c r, u_call u w c = Ok r -> wf_graph (unload c) -> closed_graph (unload c) ->
    wf_graph (unload r) /\ closed_graph (unload r) /\ gkeys (unload r) = gkeys (unload c).
(** the edges a condition is there to establish *)
Definition needed (p : opcond) (w a b : node) : Prop :=
  match p_kind p with
  | KPlain => False
  | KBefore => a = w /\ In b (p_nodes p)
  | KWith => In b (p_nodes p) \/ b = w
  | KAfter => In a (p_nodes p) /\ b = w
  end.
