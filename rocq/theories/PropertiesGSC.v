(** Properties of graph structure conditions (C26-C32). *)
From Verif Require Import Base SpecGraph SpecGSC GSC HeapFacts GSCFacts GSCModify GSCProps GSCThms.

(** C26: every Operation gives the set its name says. *)
Theorem C26_operations : forall o source comparison x,
  In x (op_set o source comparison) <-> op_says o (In x source) (In x comparison).
Proof. exact op_set_In. Qed.
Print Assumptions C26_operations.
(** ... and a set object without repetitions *)
Theorem C26_sets : forall o source comparison, NoDup source -> NoDup comparison -> NoDup (op_set o source comparison).
Proof.
  intros o s c A B. apply (op_set_ok (s ++ c)); split; auto; intros x X; apply in_or_app; auto.
Qed.
Print Assumptions C26_sets.
Example ex_C26 : op_set SYMMETRIC_DIFFERENCE [1; 2; 3] [2; 4] = [1; 3; 4] /\ op_set INVERSE_DIFFERENCE [1; 2; 3] [2; 4] = [4]
  /\ op_set MERGE [1; 2; 3] [2; 4] = [1; 2; 3; 4].
Proof. auto. Qed.

(** C27: modify_graph returns a new graph and leaves the caller's untouched: [h] is the
    caller's dict of set objects, [h'] the result living in the same heap. *)
Theorem C27_no_mutation : forall cyc w s h h', builtin s -> wf_heap h -> gsc_owner_ok s w = true ->
  modify_graph_in cyc (Some w) s h = Ok h' ->
  gkeys (unload h') = gkeys (unload h) /\ closed_graph (unload h') /\ wf_sets (unload h') /\
  (forall l, l < length (h_store h) -> s_get (h_store h') l = s_get (h_store h) l) /\
  unload (mkH (h_refs h) (h_store h')) = unload h /\
  (forall n m l, aget n (h_refs h') = Some l -> aget m (h_refs h) <> Some l).
Proof. exact modify_no_mutation. Qed.
Print Assumptions C27_no_mutation.
Theorem C27_same_keys : forall cyc w s g g', builtin s -> wf_graph g -> closed_graph g -> gsc_owner_ok s w = true ->
  modify_graph cyc (Some w) s g = Ok g' -> gkeys g' = gkeys g /\ wf_graph g' /\ closed_graph g' /\ wf_sets g'.
Proof. exact modify_keys. Qed.
Print Assumptions C27_same_keys.
(** the only error is ConditionError; in particular the model never runs out of fuel *)
Theorem C27_errors : forall cyc o s h e, builtin s -> wf_heap h -> (forall w, o = Some w -> gsc_owner_ok s w = true) ->
  modify_graph_in cyc o s h = Err e -> e = ECondition.
Proof. exact modify_errors. Qed.
Print Assumptions C27_errors.
Definition g3 : graph := [(0, []); (1, [0]); (2, [1])].
Example ex_C27 : exists s, after_nodes [2] = Ok s /\ builtin s /\ wf_heap (load g3) /\ gsc_owner_ok s 0 = true /\
  modify_graph ref_simple_cycles (Some 0) s g3 = Ok [(0, [2]); (1, []); (2, [1])].
Proof.
  eexists. split; [reflexivity|]. split; [intros f X; discriminate|]. split; [|split; vm_compute; reflexivity].
  apply load_wf.
  - repeat constructor; simpl; intuition discriminate.
  - intros a b (l & E & I). unfold g3 in *. simpl in E. destruct (Nat.eqb b 0); [inversion E; subst; destruct I|].
    destruct (Nat.eqb b 1); [inversion E; subst; destruct I as [<-|[]]; simpl; auto|].
    destruct (Nat.eqb b 2); [inversion E; subst; destruct I as [<-|[]]; simpl; auto|discriminate].
Qed.

(** C28 *)
Theorem C28_add_edge : forall cyc w n g, wf_graph g -> closed_graph g -> In w (gkeys g) -> In n (gkeys g) ->
  exists g', modify_graph cyc (Some w) (GAddEdgeTo n) g = Ok g' /\ gkeys g' = gkeys g /\
    forall a b, edge g' a b <-> edge g a b \/ (a = w /\ b = n).
Proof. exact add_edge. Qed.
Print Assumptions C28_add_edge.
Theorem C28_remove_edge : forall cyc w n g, wf_graph g -> closed_graph g -> In w (gkeys g) -> In n (gkeys g) ->
  exists g', modify_graph cyc (Some w) (GRemoveEdgeFrom n) g = Ok g' /\ gkeys g' = gkeys g /\
    forall a b, edge g' a b <-> edge g a b /\ ~ (a = n /\ b = w).
Proof. exact remove_edge. Qed.
Print Assumptions C28_remove_edge.
Theorem C28_missing_nodes : forall cyc w n g s, s = GAddEdgeTo n \/ s = GRemoveEdgeFrom n -> ~ (In w (gkeys g) /\ In n (gkeys g)) ->
  modify_graph cyc (Some w) s g = Err ECondition.
Proof. exact edge_conds_errors. Qed.
Print Assumptions C28_missing_nodes.
Example ex_C28 : modify_graph ref_simple_cycles (Some 0) (GAddEdgeTo 2) g3 = Ok [(0, []); (1, [0]); (2, [1; 0])] /\
  modify_graph ref_simple_cycles (Some 1) (GRemoveEdgeFrom 0) g3 = Ok [(0, []); (1, []); (2, [1])].
Proof. split; vm_compute; reflexivity. Qed.

(** C29: BeforeNodes with the default operations.  Either the owner already precedes all the
    subjects and nothing changes; or it is rejected, exactly when a subject is a sender of a
    subject; or afterwards the owner is a sender of every subject and no subject one of the
    owner. *)
Theorem C29_before : forall cyc S s w g, before_nodes S = Ok s -> wf_graph g -> closed_graph g ->
  ~ In w S -> In w (gkeys g) -> incl S (gkeys g) ->
  ((forall n, In n S -> edge g w n) ->
     exists g', modify_graph cyc (Some w) s g = Ok g' /\ forall a b, edge g' a b <-> edge g a b) /\
  (~ (forall n, In n S -> edge g w n) ->
    (modify_graph cyc (Some w) s g = Err ECondition <-> exists n m, In n S /\ In m S /\ edge g n m) /\
    (forall g', modify_graph cyc (Some w) s g = Ok g' -> forall n, In n S -> edge g' w n /\ ~ edge g' n w)).
Proof. intros cyc S s w g E W C WS Hw HS. apply before_inv in E. destruct E as [NE ->]. apply before_default; auto. Qed.
Print Assumptions C29_before.
(** AfterNodes with the default operations, for an owner that is not its own sender. *)
Theorem C29_after : forall cyc S s w g, after_nodes S = Ok s -> wf_graph g -> closed_graph g -> ~ edge g w w ->
  ~ In w S -> In w (gkeys g) -> incl S (gkeys g) ->
  ((forall n, In n S -> edge g n w) ->
     exists g', modify_graph cyc (Some w) s g = Ok g' /\ forall a b, edge g' a b <-> edge g a b) /\
  (~ (forall n, In n S -> edge g n w) ->
    (modify_graph cyc (Some w) s g = Err ECondition <-> exists n m, In n S /\ In m S /\ edge g n m) /\
    (forall g', modify_graph cyc (Some w) s g = Ok g' -> forall n, In n S -> edge g' n w /\ ~ edge g' w n)).
Proof. intros cyc S s w g E W C NL WS Hw HS. apply after_inv in E. destruct E as [NE ->]. apply after_default; auto. Qed.
Print Assumptions C29_after.
(** With any other operations and flags the wanted edges are there as long as no two nodes
    end up with the same sender set object. *)
Theorem C29_before_any_operations : forall cyc single S os or_ ss sr rec rs pr ic s w g g',
  make_ops KBefore single S os or_ ss sr rec rs pr ic = Ok s -> no_alias (mkOp KBefore S os or_ ss sr rec rs pr ic) ->
  wf_graph g -> closed_graph g -> ~ In w S -> modify_graph cyc (Some w) s g = Ok g' -> forall n, In n S -> edge g' w n.
Proof.
  intros cyc single S os or_ ss sr rec rs pr ic s w g g' E NA W C WS M. unfold make_ops in E.
  destruct (negb (subject_ok S ss) || negb (subject_ok S sr)); [discriminate|].
  destruct (if single then _ else _); [discriminate|]. inversion E; subst. intros n N.
  apply (before_edges cyc (mkOp KBefore S os or_ ss sr rec rs pr ic) w g g'); auto.
Qed.
Print Assumptions C29_before_any_operations.
Theorem C29_after_any_operations : forall cyc single S os or_ ss sr rec rs pr ic s w g g',
  make_ops KAfter single S os or_ ss sr rec rs pr ic = Ok s -> no_alias (mkOp KAfter S os or_ ss sr rec rs pr ic) ->
  wf_graph g -> closed_graph g -> ~ In w S -> modify_graph cyc (Some w) s g = Ok g' -> forall n, In n S -> edge g' n w.
Proof.
  intros cyc single S os or_ ss sr rec rs pr ic s w g g' E NA W C WS M. unfold make_ops in E.
  destruct (negb (subject_ok S ss) || negb (subject_ok S sr)); [discriminate|].
  destruct (if single then _ else _); [discriminate|]. inversion E; subst. intros n N.
  apply (after_edges cyc (mkOp KAfter S os or_ ss sr rec rs pr ic) w g g'); auto.
Qed.
Print Assumptions C29_after_any_operations.
(** When two nodes do share a set object the wanted edge can get lost: BeforeNode(1) with
    owner_senders=KEEP and subject_senders=REPLACE, owned by 0. *)
Theorem C29_aliasing_refuted : exists s g g', 
  make_ops KBefore true [1] KEEP KEEP (SOne REPLACE) (SOne KEEP) true true true true = Ok s /\
  wf_graph g /\ closed_graph g /\ modify_graph ref_simple_cycles (Some 0) s g = Ok g' /\ ~ edge g' 0 1.
Proof.
  eexists; exists [(0, [2]); (1, [3]); (2, []); (3, [])]; eexists. split; [reflexivity|]. split; [|split; [|split; [vm_compute; reflexivity|]]].
  - repeat constructor; simpl; intuition discriminate.
  - intros a b (l & E & I). simpl in E. repeat (destruct (Nat.eqb b _) in E; [inversion E; subst; simpl in *; intuition|]). discriminate.
  - intros (l & E & I). simpl in E. inversion E; subst. simpl in I. intuition discriminate.
Qed.
Print Assumptions C29_aliasing_refuted.
Example ex_C29 : exists s, before_nodes [1; 2] = Ok s /\ 
  modify_graph ref_simple_cycles (Some 0) s [(0, [1]); (1, [3]); (2, [3]); (3, [])] = Ok [(0, [3]); (1, [3; 0]); (2, [3; 0]); (3, [])] /\
  modify_graph ref_simple_cycles (Some 0) s [(0, []); (1, []); (2, [1])] = Err ECondition.
Proof. eexists. split; [reflexivity|]. split; vm_compute; reflexivity. Qed.

(** C30: WithNode with the default operations.  Afterwards there is no edge between owner and
    subject and both have the same senders, the ones either of them had; it is rejected exactly
    when one of them is its own sender; nothing changes when the senders were the same. *)
Theorem C30_with : forall cyc w n s g, with_node n = Ok s -> wf_graph g -> closed_graph g -> w <> n -> In w (gkeys g) -> In n (gkeys g) ->
  ((forall x, edge g x n <-> edge g x w) ->
     exists g', modify_graph cyc (Some w) s g = Ok g' /\ forall a b, edge g' a b <-> edge g a b) /\
  (~ (forall x, edge g x n <-> edge g x w) ->
    (modify_graph cyc (Some w) s g = Err ECondition <-> edge g w w \/ edge g n n) /\
    (forall g', modify_graph cyc (Some w) s g = Ok g' -> ~ edge g' w n /\ ~ edge g' n w /\
       (forall x, edge g' x w <-> edge g' x n) /\ (forall x, edge g' x w <-> x <> w /\ x <> n /\ (edge g x w \/ edge g x n)))).
Proof. intros cyc w n s g E W C D Hw Hn. apply with_inv in E. subst s. apply with_default; auto. Qed.
Print Assumptions C30_with.
Example ex_C30 : exists s, with_node 1 = Ok s /\ 
  modify_graph ref_simple_cycles (Some 0) s [(0, [2]); (1, [0; 3]); (2, []); (3, [])] = Ok [(0, [2; 3]); (1, [2; 3]); (2, []); (3, [])].
Proof. eexists. split; [reflexivity|]. vm_compute; reflexivity. Qed.

(** C31: the pruning loop ends, whatever the enumeration of cycles [cyc], on every graph, and
    only removes edges ... *)
Theorem C31_terminates : forall cyc p w base h, exists h', prune_cycles cyc p w base h = Some h' /\
  gkeys (unload h') = gkeys (unload h) /\ (forall a b, edge (unload h') a b -> edge (unload h) a b) /\
  (p_prune p = false -> h' = h).
Proof. exact prune_terminates. Qed.
Print Assumptions C31_terminates.
(** ... and never one the condition is there to establish. *)
Theorem C31_keeps_needed : forall cyc p w base g h', wf_graph g -> closed_graph g -> wf_sets g -> prune_cycles cyc p w base (load g) = Some h' ->
  forall a b, edge g a b -> needed p w a b -> edge (unload h') a b.
Proof. exact prune_keeps_needed. Qed.
Print Assumptions C31_keeps_needed.
Definition ex_p := mkOp KBefore [1] MERGE KEEP (SOne KEEP) (SOne KEEP) true true true false.
Example ex_C31 : option_map unload (prune_cycles ref_simple_cycles ex_p 0 [(0, [2]); (1, []); (2, [1])] (load [(0, [2]); (1, [0]); (2, [1])])) =
  Some [(0, []); (1, [0]); (2, [1])] /\ needed ex_p 0 0 1.
Proof. split; [vm_compute; reflexivity|unfold needed; simpl; auto]. Qed.

(** C32: what the four operation arguments mean.  Without pruning and reconnecting, the edges
    of the result are exactly those the receiver operations of owner and subjects and (where
    the sender has none, or conflicts are not ignored) the sender operations prescribe; other
    edges stay.  A conflict is reported exactly when two prescriptions disagree.
    ([rs]: the flag that removes new self-loops; with it new edges from a node to itself are
    excepted.) *)
Theorem C32_operations : forall cyc nodes os or_ ss sr rs ic s w g, with_operations nodes os or_ ss sr false rs false ic = Ok s ->
  wf_graph g -> closed_graph g -> In w (gkeys g) -> incl nodes (gkeys g) -> ~ In w nodes ->
  let p := mkOp KPlain nodes os or_ ss sr false rs false ic in no_alias p ->
  (modify_graph cyc (Some w) s g = Err ECondition /\ (~ operations_given p \/ (ic = false /\ conflicting p w g))) \/
  (exists g', modify_graph cyc (Some w) s g = Ok g' /\ operations_given p /\ (ic = false -> ~ conflicting p w g) /\
    forall a b, (rs = true -> a <> b \/ edge g a a) ->
     (acts p w a -> (edge g' a b <-> prescribes_receiver p w g a b)) /\
     (acts p w b -> ~ acts p w a \/ ic = false -> (edge g' a b <-> prescribes_sender p w g a b)) /\
     (~ acts p w a -> ~ acts p w b -> (edge g' a b <-> edge g a b))).
Proof. exact plain_ops_full. Qed.
Print Assumptions C32_operations.
Example ex_C32 : exists s, with_operations [1] REPLACE KEEP (SOne MERGE) (SDict [(1, DISCARD)]) false true false false = Ok s /\
  no_alias (mkOp KPlain [1] REPLACE KEEP (SOne MERGE) (SDict [(1, DISCARD)]) false true false false) /\
  modify_graph ref_simple_cycles (Some 0) s [(0, [2]); (1, [3]); (2, []); (3, []); (4, [1; 0])] = Ok [(0, [3]); (1, [3; 2]); (2, []); (3, []); (4, [0])].
Proof.
  eexists. split; [reflexivity|]. split; [|vm_compute; reflexivity]. split; simpl; [|discriminate]. intros; discriminate.
Qed.
