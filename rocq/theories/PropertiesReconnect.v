(** Property theorems C84: reconnect_non_subject_receivers.

    A structural condition that moves its owner away takes the edges of the owner along.  The
    option keeps the order of the nodes that were connected through the owner. *)
From Verif Require Import ReconnectFacts SpecReconnect GSCThms GSCProps GSC SpecGSC SpecGraph GraphFacts BaseFacts Base AcyclicFacts.

(** For every sender s and every receiver r of the owner that is not a subject of the condition:
    r waits for s afterwards, through the owner or directly, unless r now comes before s. *)
Theorem C84_reconnects : forall cyc p w g g', wf_graph g -> closed_graph g -> ~ In w (p_nodes p) -> modify_graph cyc (Some w) (GOps p) g = Ok g' -> p_reconnect p = true ->
  forall s r, edge g s w -> edge g w r -> ~ In r (p_nodes p) -> in_between g' w s r.
Proof. exact reconnects. Qed.
Print Assumptions C84_reconnects.
(** So do BeforeNodes, AfterNodes and WithNode by default; *)
Theorem C84_default : forall cyc S n c w g g', before_nodes S = Ok c \/ after_nodes S = Ok c \/ (with_node n = Ok c /\ S = [n]) -> wf_graph g -> closed_graph g -> ~ In w S ->
  modify_graph cyc (Some w) c g = Ok g' -> forall s r, edge g s w -> edge g w r -> ~ In r S -> s = r \/ reach g' s r \/ reach g' r s.
Proof.
  intros cyc S n c w g g' D W C WS M s r A B N.
  assert (X : in_between g' w s r).
  { destruct D as [D|[D|[D ->]]]; [apply before_inv in D; destruct D as [_ ->]|apply after_inv in D; destruct D as [_ ->]|apply with_inv in D; subst c]; (refine (reconnects cyc _ w g g' W C _ M eq_refl s r A B _); [exact WS|exact N]). }
  destruct X as [[X Y]|[X|[_ X]]]; [|right; left; apply reach_edge; auto|auto]. right; left. eapply reach_step; [apply reach_edge|]; eauto.
Qed.
Print Assumptions C84_default.
(** in the order of the consideration sets (a receiver is after its senders, C02): s is before r
    if there is an order at all and r is not an ancestor of s. *)
Theorem C84_order : forall cyc p w g g', wf_graph g -> closed_graph g -> ~ In w (p_nodes p) -> modify_graph cyc (Some w) (GOps p) g = Ok g' -> p_reconnect p = true ->
  forall s r, edge g s w -> edge g w r -> ~ In r (p_nodes p) -> ~ reach g' r s -> reach g' s r.
Proof.
  intros cyc p w g g' W C WS M P s r A B N R. destruct (reconnects cyc p w g g' W C WS M P s r A B N) as [[X Y]|[X|[_ X]]]; [|apply reach_edge; auto|contradiction].
  eapply reach_step; [apply reach_edge|]; eauto.
Qed.
Print Assumptions C84_order.
(** The option does nothing else: the condition is applicable if and only if it is without the
    option, no edge is lost by it, and the edges that it adds are those from senders of the owner to
    its receivers other than subjects, where one of the two edges to and from the owner is gone,
    never closing a cycle of several nodes. *)
Theorem C84_errors : forall cyc p w g e, wf_graph g -> closed_graph g -> ~ In w (p_nodes p) ->
  (modify_graph cyc (Some w) (GOps p) g = Err e <-> modify_graph cyc (Some w) (GOps (cut_only p)) g = Err e).
Proof. exact reconnect_same_errors. Qed.
Print Assumptions C84_errors.
Theorem C84_keeps : forall cyc p w g g' g0, wf_graph g -> closed_graph g -> ~ In w (p_nodes p) -> modify_graph cyc (Some w) (GOps p) g = Ok g' ->
  modify_graph cyc (Some w) (GOps (cut_only p)) g = Ok g0 -> forall a b, edge g0 a b -> edge g' a b.
Proof. intros cyc p w g g' g0 W C WS M M0. apply (reconnect_adds cyc p w g g' g0 W C WS M M0). Qed.
Print Assumptions C84_keeps.
Theorem C84_adds : forall cyc p w g g' g0, wf_graph g -> closed_graph g -> ~ In w (p_nodes p) -> modify_graph cyc (Some w) (GOps p) g = Ok g' ->
  modify_graph cyc (Some w) (GOps (cut_only p)) g = Ok g0 -> no_alias p ->
  forall a b, edge g' a b -> edge g0 a b \/
    (edge g a w /\ edge g w b /\ ~ In b (p_nodes p) /\ ~ (edge g0 a w /\ edge g0 w b) /\ ~ (a <> b /\ reach g0 b a)).
Proof. intros cyc p w g g' g0 W C WS M M0. apply (reconnect_adds cyc p w g g' g0 W C WS M M0). Qed.
Print Assumptions C84_adds.

(** 3 and 5 before 0, 0 before 2 and 4, 1 before 3, and 3 before 6 before 4; then BeforeNode(1) is
    added for 0: the edge from 3 to 0 goes, 2 and 4 get one from 3. *)
Definition ex_re_graph : graph := [(0, [3; 5]); (1, []); (2, [0]); (3, [1]); (4, [0; 6]); (5, []); (6, [3])].
Definition ex_re_op := mkOp KBefore [1] MERGE KEEP (SOne KEEP) (SOne KEEP) true true true false.
Lemma ex_re_wf : wf_graph ex_re_graph /\ closed_graph ex_re_graph.
Proof.
  split; [repeat constructor; simpl; intuition discriminate|].
  intros a b (l & E & I). unfold ex_re_graph in *. simpl in E.
  repeat match type of E with (if ?q then _ else _) = _ => destruct q; [injection E as <-; simpl in *; intuition|] end. discriminate.
Qed.
Example ex_C84 : exists s g' g0, before_nodes [1] = Ok s /\ s = GOps ex_re_op /\ wf_graph ex_re_graph /\ closed_graph ex_re_graph /\ ~ In 0 (p_nodes ex_re_op) /\ no_alias ex_re_op /\
  modify_graph ref_simple_cycles (Some 0) s ex_re_graph = Ok g' /\ modify_graph ref_simple_cycles (Some 0) (GOps (cut_only ex_re_op)) ex_re_graph = Ok g0 /\
  g0 = [(0, [5]); (1, [0]); (2, [0]); (3, [1]); (4, [0; 6]); (5, []); (6, [3])] /\
  g' = [(0, [5]); (1, [0]); (2, [0; 3]); (3, [1]); (4, [0; 6; 3]); (5, []); (6, [3])] /\
  edge ex_re_graph 3 0 /\ edge ex_re_graph 0 2 /\ ~ In 2 (p_nodes ex_re_op).
Proof.
  eexists. eexists. eexists. split; [reflexivity|]. split; [reflexivity|]. split; [apply ex_re_wf|]. split; [apply ex_re_wf|].
  split; [simpl; intuition discriminate|]. split; [split; simpl; [intros; congruence|discriminate]|].
  split; [vm_compute; reflexivity|]. split; [vm_compute; reflexivity|]. split; [reflexivity|]. split; [reflexivity|].
  split; [exists [3; 5]; simpl; auto|]. split; [exists [0]; simpl; auto|]. simpl. intuition discriminate.
Qed.

(** The documentation says that an edge is created "if there is no longer a path from that sender
    to that receiver".  One is created although there is a path (from 3 through 6 to 4). *)
Theorem C84_path_refuted : ~ (forall cyc p w g g' g0, wf_graph g -> closed_graph g -> ~ In w (p_nodes p) -> no_alias p -> modify_graph cyc (Some w) (GOps p) g = Ok g' ->
  modify_graph cyc (Some w) (GOps (cut_only p)) g = Ok g0 -> forall a b, edge g' a b -> edge g0 a b \/ ~ reach g0 a b).
Proof.
  intros H. destruct ex_C84 as (s & g' & g0 & _ & -> & W & C & WS & NA & M & M0 & E0 & E' & _).
  destruct (H _ _ _ _ _ _ W C WS NA M M0 3 4) as [X|X]; subst.
  - exists [0; 6; 3]. split; [reflexivity|simpl; auto].
  - destruct X as (l & E & I). simpl in E. injection E as <-. simpl in I. intuition discriminate.
  - apply X. apply reach_step with 6; [apply reach_edge; exists [3]; simpl; auto|exists [0; 6]; simpl; auto].
Qed.
Print Assumptions C84_path_refuted.
Definition ex_self_graph : graph := [(0, [2]); (1, []); (2, [0])].
Definition ex_self_op := mkOp KBefore [1] DISCARD KEEP (SOne KEEP) (SOne KEEP) true true true false.
(** It may also be an edge from a node to itself, in a graph that has a cycle through the owner. *)
Theorem C84_self_refuted : ~ (forall cyc p w g g', wf_graph g -> closed_graph g -> ~ In w (p_nodes p) -> no_alias p -> p_remove_self p = true ->
  modify_graph cyc (Some w) (GOps p) g = Ok g' -> forall a, edge g' a a -> edge g a a).
Proof.
  intros H. specialize (H ref_simple_cycles ex_self_op 0 ex_self_graph [(0, []); (1, [0]); (2, [0; 2])]). destruct H with (a := 2) as (l & E & I).
  - repeat constructor; simpl; intuition discriminate.
  - intros a b (l & E & I). unfold ex_self_graph in *. simpl in E.
    repeat match type of E with (if ?q then _ else _) = _ => destruct q; [injection E as <-; simpl in *; intuition|] end. discriminate.
  - simpl. intuition discriminate.
  - split; simpl; [intros; congruence|discriminate].
  - reflexivity.
  - vm_compute. reflexivity.
  - exists [0; 2]; simpl; auto.
  - simpl in E. injection E as <-. simpl in I. intuition discriminate.
Qed.
Print Assumptions C84_self_refuted.
