(** Property theorems about graphs and consideration queues (C23 - C25). *)
From Verif Require Import SpecGraph TopoProofs.

(** C23: the consideration queue of a graph partitions its nodes into non-empty sets. *)
Theorem C23_queue_partition : forall g q, wf_graph g -> toposort g = TopoOk q ->
  Forall (fun l => l <> []) q
  /\ NoDup (concat q)
  /\ (forall n, (exists l, In l q /\ In n l) <-> in_graph g n).
Proof. exact toposort_partition_ex. Qed.
Print Assumptions C23_queue_partition.

(** C24: the level of a node is the length of the longest sender chain ending in it ... *)
Theorem C24_longest_path : forall g q n i, wf_graph g -> toposort g = TopoOk q ->
  (aget n (queue_indices q) = Some i <->
   in_graph g n /\ (exists a, walk g a i n) /\ (forall a k, walk g a k n -> k <= i)).
Proof. exact queue_index_longest. Qed.
Print Assumptions C24_longest_path.
(** ... so senders come strictly earlier ... *)
Theorem C24_senders_earlier : forall g q a b i j, wf_graph g -> toposort g = TopoOk q ->
  edge g a b -> a <> b -> aget a (queue_indices q) = Some i -> aget b (queue_indices q) = Some j -> i < j.
Proof. exact senders_earlier. Qed.
Print Assumptions C24_senders_earlier.
(** ... and nodes with the same senders (apart from themselves) share a level. *)
Theorem C24_same_senders_same_level : forall g q a b, wf_graph g -> toposort g = TopoOk q ->
  in_graph g a -> in_graph g b ->
  (forall s, (edge g s a /\ s <> a) <-> (edge g s b /\ s <> b)) ->
  aget a (queue_indices q) = aget b (queue_indices q).
Proof. exact same_senders_same_level. Qed.
Print Assumptions C24_same_senders_same_level.

(** C25: building the queue fails iff there is a cycle through at least two nodes. *)
Theorem C25_cycle_reported_iff : forall g, wf_graph g -> (toposort g = TopoCycle <-> cyclic g).
Proof. exact toposort_cycle_iff. Qed.
Print Assumptions C25_cycle_reported_iff.
Theorem C25_queue_exists_iff : forall g, wf_graph g -> ((exists q, toposort g = TopoOk q) <-> ~ cyclic g).
Proof. exact toposort_ok_iff. Qed.
Print Assumptions C25_queue_exists_iff.

(** A concrete graph: 2 and 3 depend on 1, 4 on 2, 3 and itself; 5 is only a sender. *)
Definition ex_graph : graph := [(1, []); (2, [1]); (3, [1; 5]); (4, [2; 3; 4])].
Example ex_graph_wf : wf_graph ex_graph.
Proof. unfold wf_graph; simpl; repeat (constructor; [simpl; intuition discriminate|]); constructor. Qed.
Example ex_graph_queue : toposort ex_graph = TopoOk [[1; 5]; [2; 3]; [4]].
Proof. reflexivity. Qed.
Example ex_graph_index : aget 4 (queue_indices [[1; 5]; [2; 3]; [4]]) = Some 2.
Proof. reflexivity. Qed.
Example ex_cyclic : cyclic [(1, [3]); (2, [1]); (3, [2])].
Proof.
  exists 1, 2. apply walk_step with 3; [apply walk_step with 2; [apply walk_step with 1; [constructor| |]|  |]| |];
  try discriminate; eexists; (split; [reflexivity|simpl; auto]).
Qed.
