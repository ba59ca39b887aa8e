(** Property theorems about graph utilities (C46 - C49). *)
From Verif Require Import GraphFacts.

(** ** C46 *)
Theorem C46_clone : forall g, gkeys (clone_graph g) = gkeys g /\ (forall a b, edge (clone_graph g) a b <-> edge g a b) /\ wf_sets (clone_graph g).
Proof. exact clone_graph_same. Qed.
Print Assumptions C46_clone.
Theorem C46_clone_input : forall g, gkeys (clone_input g) = akeys g /\
  forall a b, edge (clone_input g) a b <-> exists v, aget b g = Some v /\ denotes v a.
Proof. exact clone_input_same. Qed.
Print Assumptions C46_clone_input.
(** the graph of a new Scheduler: the keys are those given plus the senders mentioned *)
Theorem C46_base_graph : forall g, NoDup (akeys g) -> all_iterable g -> exists b, base_graph g = Ok b /\
  wf_graph b /\ closed_graph b /\
  (forall n, In n (gkeys b) <-> In n (akeys g) \/ exists k v, In (k, v) g /\ denotes v n) /\
  (forall a c, edge b a c <-> exists v, aget c g = Some v /\ denotes v a).
Proof. exact base_graph_spec. Qed.
Print Assumptions C46_base_graph.
(** finding: with a string as a value, which clone_graph accepts, the sender is not a node of
    the scheduler's graph, but its characters are *)
Theorem C46_string_value_refuted : exists g b x w cs, base_graph g = Ok b /\ aget x g = Some (VStr w cs) /\
  edge b w x /\ ~ In w (gkeys b) /\ exists c, In c cs /\ In c (gkeys b) /\ ~ edge b c x.
Proof.
  exists [(1, VStr 5 [7; 8])], [(7, []); (8, []); (1, [5])], 1, 5, [7; 8]. split; [reflexivity|]. split; [reflexivity|].
  split; [exists [5]; split; simpl; auto|]. split; [simpl; intuition discriminate|].
  exists 7. split; [simpl; auto|]. split; [simpl; auto|]. intros (l & E & I). vm_compute in E. inversion E; subst. simpl in I. intuition discriminate.
Qed.
Print Assumptions C46_string_value_refuted.
(** finding: clone_graph makes a singleton of a non-iterable value, construction raises *)
Theorem C46_atom_value_refuted : exists g x n, aget x g = Some (VAtom n) /\ edge (clone_input g) n x /\ base_graph g = Err EType.
Proof. exists [(1, VAtom 5)], 1, 5. split; [reflexivity|]. split; [exists [5]; split; simpl; auto|reflexivity]. Qed.
Print Assumptions C46_atom_value_refuted.
Example ex_C46 : let g := [(1, VIter [2; 3]); (2, VIter [])] in NoDup (akeys g) /\ all_iterable g /\ base_graph g = Ok [(2, []); (3, []); (1, [2; 3])].
Proof.
  split; [repeat constructor; simpl; intuition discriminate|]. split; [|reflexivity].
  intros n v [H|[H|[]]]; inversion H; eauto.
Qed.

(** ** C47 *)
Theorem C47_receivers : forall g, wf_graph g -> wf_graph (get_receivers g) /\
  (forall r s, edge (get_receivers g) r s <-> edge g s r) /\
  (forall n, In n (gkeys (get_receivers g)) <-> in_graph g n).
Proof. exact receivers_spec. Qed.
Print Assumptions C47_receivers.
Theorem C47_twice : forall g, wf_graph g -> closed_graph g -> same_graph (get_receivers (get_receivers g)) g.
Proof. exact receivers_twice. Qed.
Print Assumptions C47_twice.

(** ** C48 *)
Theorem C48_ancestors : forall g n x, wf_graph g -> In n (gkeys g) ->
  (In x (senders (get_ancestors g) n) <-> x <> n /\ reach g x n).
Proof. exact ancestors_spec. Qed.
Print Assumptions C48_ancestors.
Theorem C48_descendants : forall g n x, wf_graph g -> In n (gkeys g) ->
  (In x (senders (get_descendants g) n) <-> x <> n /\ reach g n x).
Proof. exact descendants_spec. Qed.
Print Assumptions C48_descendants.

(** ** C49 *)
Theorem C49_to_digraph : forall g, wf_graph g ->
  (forall n, In n (dg_nodes (dependency_dict_to_networkx_digraph g)) <-> in_graph g n) /\
  (forall a b, In b (dg_adj (dependency_dict_to_networkx_digraph g) a) <-> edge g a b).
Proof. exact to_digraph. Qed.
Print Assumptions C49_to_digraph.
Theorem C49_from_digraph : forall add d, (forall a b, In b (dg_adj d a) -> In a (dg_nodes d) /\ In b (dg_nodes d)) ->
  let g := networkx_digraph_to_dependency_dict add d in
  wf_graph g /\ (forall a b, edge g a b <-> In b (dg_adj d a)) /\
  (forall x, In x (gkeys g) <-> (add = true /\ In x (dg_nodes d)) \/ exists a, In x (dg_adj d a)).
Proof. exact from_digraph. Qed.
Print Assumptions C49_from_digraph.
Theorem C49_round_trip : forall add g, wf_graph g ->
  let g' := networkx_digraph_to_dependency_dict add (dependency_dict_to_networkx_digraph g) in
  wf_graph g' /\ (forall a b, edge g' a b <-> edge g a b) /\
  (forall n, In n (gkeys g') <-> (add = true /\ in_graph g n) \/ exists a, edge g a n).
Proof. exact round_trip. Qed.
Print Assumptions C49_round_trip.
(** 2 and 3 depend on 1, 4 on 2, 3 and itself; 5 is only a sender *)
Example ex_util : let g := [(1, []); (2, [1]); (3, [1; 5]); (4, [2; 3; 4])] in
  wf_graph g /\ In 4 (gkeys g) /\ senders (get_ancestors g) 4 = [2; 3; 1; 5] /\
  networkx_digraph_to_dependency_dict true (dependency_dict_to_networkx_digraph g) = [(1, []); (2, [1]); (3, [1; 5]); (4, [2; 3; 4]); (5, [])] /\
  get_receivers g = [(1, [2; 3]); (2, [4]); (3, [4]); (4, [4]); (5, [3])].
Proof.
  repeat split; try (vm_compute; reflexivity); [|simpl; auto].
  unfold wf_graph; simpl; repeat (constructor; [simpl; intuition discriminate|]); constructor.
Qed.
