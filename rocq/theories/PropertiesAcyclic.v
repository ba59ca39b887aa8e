(** C69: repositioning conditions and cycles *)
From Verif Require Import SpecAcyclic AcyclicFacts PrunedFacts TopoProofs GraphFacts.

(** C69: pruning is complete.  Whatever cycles are left in the graph, in the order in which
    any enumeration lists them, none of their edges is one that pruning removes: an edge
    against an edge of the original graph between nodes other than the owner, or the owner's
    edge on the side that is to be cut, unless the condition needs it. *)
Theorem C69_complete : forall cyc p w g h h', lists_cycles cyc -> wf_graph g -> p_prune p = true ->
  prune_cycles cyc p w g h = Some h' ->
  forall c a b, simple_cycle (unload h') c -> follows c a b -> ~ removable p w g c a b.
Proof. exact prune_left. Qed.
Print Assumptions C69_complete.
(** Pruning does no more than that: it cuts cycles one after the other, a longest one first,
    each at a time when it is still a cycle of the graph; of each it removes those edges and
    nothing else. *)
Theorem C69_cuts : forall cyc p w g h h', lists_cycles cyc -> wf_graph g -> wf_graph h -> closed_graph h -> wf_sets h -> p_prune p = true ->
  prune_cycles cyc p w g (load h) = Some h' -> pruned_longest p w g h (unload h').
Proof. exact prune_pruned. Qed.
Print Assumptions C69_cuts.
(** Two cycles, 3 -> 1 -> 2 -> 3 and 2 -> 3 -> 2, in the graph the chain 3 -> 2 -> 1 became.  The
    longer one loses the edges from 1 to 2 and from 2 to 3, which breaks the other one; its
    edge from 3 to 2 stays. *)
Definition ex_cut_graph : graph := [(0, []); (1, [3]); (2, [1; 3]); (3, [2])].
Definition ex_cut_op := mkOp KBefore [1] MERGE KEEP (SOne KEEP) (SOne KEEP) true true true false.
Example ex_C69_cuts : lists_cycles brute_cycles /\ wf_graph [(0, []); (1, [2]); (2, [3]); (3, [])] /\
  wf_graph ex_cut_graph /\ closed_graph ex_cut_graph /\ wf_sets ex_cut_graph /\ p_prune ex_cut_op = true /\
  brute_cycles ex_cut_graph <> [] /\
  option_map unload (prune_cycles brute_cycles ex_cut_op 0 [(0, []); (1, [2]); (2, [3]); (3, [])] (load ex_cut_graph)) =
    Some [(0, []); (1, [3]); (2, [3]); (3, [])].
Proof.
  split; [exact brute_lists|].
  assert (N : forall g : graph, nodupb (gkeys g) = true -> wf_graph g) by (intros g; apply nodupb_iff).
  split; [apply N; reflexivity|]. split; [apply N; reflexivity|]. split.
  { intros a b (l & H & I). unfold ex_cut_graph in H. simpl in *. repeat (destruct (Nat.eqb _ _); [inversion H; subst; simpl in I; intuition subst; simpl; auto 6|]). discriminate. }
  split; [intros n l I; apply nodupb_iff; simpl in I; repeat (destruct I as [I|I]; [inversion I; reflexivity|]); destruct I|].
  split; [reflexivity|]. split; [vm_compute; discriminate|vm_compute; reflexivity].
Qed.
(** BeforeNodes with the default arguments keeps an acyclic graph acyclic if there is no path
    from one subject to another; so BeforeNode always does. *)
Theorem C69_before : forall cyc S s w g g', lists_cycles cyc -> before_nodes S = Ok s -> wf_graph g -> closed_graph g -> ~ cyclic g ->
  (forall n m, In n S -> In m S -> n <> m -> ~ reach g n m) ->
  modify_graph cyc (Some w) s g = Ok g' -> ~ In w S -> In w (gkeys g) -> incl S (gkeys g) -> ~ cyclic g'.
Proof. exact before_acyclic. Qed.
Print Assumptions C69_before.
Theorem C69_before_node : forall cyc n s w g g', lists_cycles cyc -> before_nodes [n] = Ok s -> wf_graph g -> closed_graph g -> ~ cyclic g ->
  modify_graph cyc (Some w) s g = Ok g' -> w <> n -> In w (gkeys g) -> In n (gkeys g) -> ~ cyclic g'.
Proof.
  intros cyc n s w g g' LC E W C NC M D Hw Hn. eapply C69_before; eauto.
  - intros a b [<-|[]] [<-|[]] X; congruence.
  - intros [X|[]]; congruence.
  - intros x [<-|[]]; auto.
Qed.
Print Assumptions C69_before_node.
(** AfterNodes does if none of the subjects is an ancestor of the owner yet. *)
Theorem C69_after : forall cyc S s w g g', lists_cycles cyc -> after_nodes S = Ok s -> wf_graph g -> closed_graph g -> ~ cyclic g ->
  (forall n, In n S -> ~ reach g n w) ->
  modify_graph cyc (Some w) s g = Ok g' -> ~ In w S -> In w (gkeys g) -> incl S (gkeys g) -> ~ cyclic g'.
Proof. exact after_acyclic. Qed.
Print Assumptions C69_after.
(** WithNode does if neither node is an ancestor of the other. *)
Theorem C69_with : forall cyc s w n g g', lists_cycles cyc -> with_node n = Ok s -> wf_graph g -> closed_graph g -> ~ cyclic g ->
  ~ reach g n w -> ~ reach g w n ->
  modify_graph cyc (Some w) s g = Ok g' -> w <> n -> In w (gkeys g) -> In n (gkeys g) -> ~ cyclic g'.
Proof. exact with_acyclic. Qed.
Print Assumptions C69_with.

(** Each restriction is needed: an acyclic graph becomes cyclic ... *)
Definition breaks_acyclicity (r : res gsc) (w : node) (g : graph) : Prop :=
  exists s g', r = Ok s /\ wf_graph g /\ closed_graph g /\ ~ cyclic g /\
    modify_graph brute_cycles (Some w) s g = Ok g' /\ cyclic g'.
Lemma breaks_compute : forall r w g,
  match r with
  | Ok s => match modify_graph brute_cycles (Some w) s g with
            | Ok g' => nodupb (gkeys g) && forallb (fun p => forallb (fun a => mem a (gkeys g)) (snd p)) g
                       && match toposort g with TopoCycle => false | _ => true end
                       && nodupb (gkeys g') && match toposort g' with TopoCycle => true | _ => false end
            | Err _ => false
            end
  | Err _ => false
  end = true -> breaks_acyclicity r w g.
Proof.
  intros [s|e] w g H; [|discriminate]. destruct (modify_graph brute_cycles (Some w) s g) as [g'|e] eqn:E; [|discriminate].
  rewrite !andb_true_iff, !nodupb_iff in H. destruct H as ((((A & B) & C) & D) & F). exists s, g'. split; auto. split; auto. split.
  - intros a b X. apply edge_In in X; auto. destruct X as (l & X & Y). rewrite forallb_forall in B. apply B in X. rewrite forallb_forall in X. apply mem_In. apply X; auto.
  - split; [|split; auto].
    + intros X. apply toposort_cycle_iff in X; auto. rewrite X in C. discriminate.
    + apply toposort_cycle_iff; auto. destruct (toposort g'); auto; discriminate.
Qed.
(** ... by BeforeNodes(1, 2), 1 being an ancestor of 2, ... *)
Theorem C69_before_refuted : breaks_acyclicity (before_nodes [1; 2]) 0 [(0, []); (1, []); (2, [3]); (3, [1])].
Proof. apply breaks_compute. vm_compute. reflexivity. Qed.
Print Assumptions C69_before_refuted.
(** ... by AfterNode(1) in the chain 1 -> 2 -> 3 -> 0 with owner 0, ... *)
Theorem C69_after_refuted : breaks_acyclicity (after_nodes [1]) 0 [(0, [3]); (1, []); (2, [1]); (3, [2])].
Proof. apply breaks_compute. vm_compute. reflexivity. Qed.
Print Assumptions C69_after_refuted.
(** ... and by WithNode(1) in the chain 1 -> 3 -> 0 with owner 0. *)
Theorem C69_with_refuted : breaks_acyclicity (with_node 1) 0 [(0, [3]); (1, []); (2, []); (3, [1])].
Proof. apply breaks_compute. vm_compute. reflexivity. Qed.
Print Assumptions C69_with_refuted.

(** The requirement on the enumeration can be met.  In the first case below the merged edges
    would close a cycle and pruning cuts it. *)
Example ex_C69 : lists_cycles brute_cycles /\
  (exists s, before_nodes [1] = Ok s /\ modify_graph brute_cycles (Some 0) s [(0, [2]); (1, []); (2, [1])] = Ok [(0, []); (1, [0]); (2, [1])]) /\
  (exists s, after_nodes [2] = Ok s /\ modify_graph brute_cycles (Some 0) s [(0, []); (1, [0]); (2, [1])] = Ok [(0, [2]); (1, []); (2, [1])]) /\
  (exists s, with_node 1 = Ok s /\ modify_graph brute_cycles (Some 0) s [(0, [2]); (1, []); (2, [])] = Ok [(0, [2]); (1, [2]); (2, [])]).
Proof. split; [exact brute_lists|]. do 2 (split; [eexists; split; [reflexivity|vm_compute; reflexivity]|]). eexists; split; [reflexivity|vm_compute; reflexivity]. Qed.
