(** C82: the names of the nodes do not matter *)
From Verif Require Import SpecRename RenameGraph RenameEval RenameRun RenameSched Tests.

(** Two schedulers are created from the same arguments, except that the nodes have other names
    in the second (and its user functions and its outside world use those names).  The creation
    succeeds or fails alike, and the schedulers differ by the names only. *)
Theorem C82_new : forall R cyc cyc' arr arr' input conds tc tc' deid exact du ow ow' nx w w', injective (r_node R) ->
  cycles_follow R cyc cyc' -> order_follows R arr arr' ->
  (forall n c a, In (n, c) conds -> In a (entry_list c) -> any_follows R a) ->
  opt_follow (tc_follows R) tc tc' -> (forall o, ow' o = option_map (r_node R) (ow o)) -> world_follows R w w' ->
  let r := new_sched cyc arr input conds tc deid exact du ow nx w in
  let r' := new_sched cyc' arr' (rn_arg R input) (rn_map R (rn_entry R) conds) tc' deid exact du ow' nx w' in
  fst r' = fst r /\ renamed R (snd r) (snd r').
Proof. intros. apply new_sched_f; assumption. Qed.
Print Assumptions C82_new.

Section Scheduler.
Variables (R : renaming) (cyc cyc' : graph -> list (list node)) (arr arr' : list (list node) -> list (list node)) (d d' : sched).
Hypothesis inj : injective (r_node R).
Hypothesis CF : cycles_follow R cyc cyc'.
Hypothesis AF : order_follows R arr arr'.
Hypothesis N : renamed R d d'.

(** Every later call does the same with the new names: next() on a generator, *)
Theorem C82_step : forall fuel g g', same_call R g g' ->
  let '(d1, g1, o) := sresume cyc arr fuel d g in let '(d1', g1', o') := sresume cyc' arr' fuel d' g' in
  renamed R d1 d1' /\ same_call R g1 g1' /\ o' = rn_outcome R o.
Proof.
  intros fuel g g' G. assert (H := sresume_f R inj cyc cyc' arr arr' CF AF fuel d d' g g' N G).
  destruct (sresume cyc arr fuel d g) as [[d1 g1] o], (sresume cyc' arr' fuel d' g') as [[d1' g1'] o']. exact H.
Qed.
(** a whole run, with or without termination conditions of its own: the sets it yields are those
    of the other scheduler with the new names, and it ends in the same way, *)
Theorem C82_run : forall steps fuel e base tc tc' skip, opt_follow (tc_follows R) tc tc' ->
  let '(d1, g1, ys, o) := sdrive cyc arr steps fuel d (new_gen e base tc skip) [] in
  let '(d1', g1', ys', o') := sdrive cyc' arr' steps fuel d' (new_gen e base tc' skip) [] in
  renamed R d1 d1' /\ ys' = map (map (r_node R)) ys /\ o' = rn_outcome R o.
Proof.
  intros steps fuel e base tc tc' skip T. assert (H := sdrive_f R inj cyc cyc' arr arr' CF AF steps fuel d d' _ _ [] N (new_gen_f R inj e base tc tc' skip T)). change (rn_sets R []) with (@nil (list node)) in H.
  destruct (sdrive cyc arr steps fuel d (new_gen e base tc skip) []) as [[[d1 g1] ys] o], (sdrive cyc' arr' steps fuel d' (new_gen e base tc' skip) []) as [[[d1' g1'] ys'] o']. destruct H as (H1 & _ & H2 & H3). auto.
Qed.
(** add_condition, add_condition_set, remove_condition (of a condition or an owner), *)
Theorem C82_add_condition : forall w a, any_follows R a ->
  let r := add_condition cyc arr w a d in let r' := add_condition cyc' arr' (r_node R w) (rn_any R a) d' in
  fst r' = fst r /\ renamed R (snd r) (snd r').
Proof. intros. apply add_condition_f; assumption. Qed.
Theorem C82_add_condition_set : forall s, (forall n c a, In (n, c) s -> In a (entry_list c) -> any_follows R a) ->
  let r := add_condition_set cyc arr s d in let r' := add_condition_set cyc' arr' (rn_map R (rn_entry R) s) d' in
  fst r' = fst r /\ renamed R (snd r) (snd r').
Proof. intros. apply add_condition_set_f; assumption. Qed.
Theorem C82_remove_condition : forall a,
  let r := remove_condition a d in let r' := remove_condition (rn_any R a) d' in
  fst r' = rn_res (option_map (rn_any R)) (fst r) /\ renamed R (snd r) (snd r').
Proof. intros. apply remove_condition_f; assumption. Qed.
Theorem C82_remove_condition_owner : forall w,
  let r := remove_condition_owner w d in let r' := remove_condition_owner (r_node R w) d' in
  fst r' = rn_res (option_map (rn_any R)) (fst r) /\ renamed R (snd r) (snd r').
Proof. intros. apply remove_condition_owner_f; assumption. Qed.
(** graph and consideration_queue, *)
Theorem C82_graph :
  let r := get_graph cyc arr d in let r' := get_graph cyc' arr' d' in
  fst r' = rn_res (rn_graph R) (fst r) /\ renamed R (snd r) (snd r').
Proof. intros. apply get_graph_f; assumption. Qed.
Theorem C82_queue :
  let r := get_queue cyc arr d in let r' := get_queue cyc' arr' d' in
  fst r' = rn_res (rn_sets R) (fst r) /\ renamed R (snd r) (snd r').
Proof. intros. apply get_queue_f; assumption. Qed.
(** termination_conds = t, and end_environment_sequence. *)
Theorem C82_termination_conds : forall t t', opt_follow (tc_follows R) t t' -> renamed R (set_termination_conds t d) (set_termination_conds t' d').
Proof. intros. apply set_tconds_f; assumption. Qed.
Theorem C82_end_sequence : forall e,
  match send_environment_sequence e d, send_environment_sequence e d' with Ok x, Ok y => renamed R x y | Err x, Err y => x = y | _, _ => False end.
Proof. intros e. apply send_sequence_f; assumption. Qed.
End Scheduler.
Print Assumptions C82_step.
Print Assumptions C82_run.
Print Assumptions C82_add_condition.
Print Assumptions C82_add_condition_set.
Print Assumptions C82_remove_condition.
Print Assumptions C82_remove_condition_owner.
Print Assumptions C82_graph.
Print Assumptions C82_queue.
Print Assumptions C82_termination_conds.
Print Assumptions C82_end_sequence.
(** What a graph structure condition makes of a graph depends on the names as little. *)
Theorem C82_modify_graph : forall R cyc cyc', injective (r_node R) -> cycles_follow R cyc cyc' ->
  forall owner s g, gsc_follows R s -> modify_graph cyc' (option_map (r_node R) owner) (rn_gsc R s) (rn_graph R g) = rn_res (rn_graph R) (modify_graph cyc owner s g).
Proof. intros. apply modify_graph_f; assumption. Qed.
Print Assumptions C82_modify_graph.

(** ** An instance: nodes 0, 1, 2 become 10, 11, 12; the condition of B is a user function that
    looks at the number of executions of A, and A is moved before C by a structure condition. *)
Definition ex_user (a : node) : userfun := fun v _ _ w => (match v_total v with Some t => Ok (Nat.ltb 1 (t ESU a)) | None => Err EKey end, w).
Definition ex_names : renaming := mkRenaming (fun n => n + 10) (fun _ => ex_user (tA + 10)) (fun u => u).
Definition ex_back : renaming := mkRenaming (fun n => n - 10) (fun u => u) (fun u => u).
(** networkx finds the cycles of the renamed graph that correspond to those of the graph *)
Definition ex_cycles (g : graph) : list (list node) := rn_sets ex_names (ref_simple_cycles (rn_graph ex_back g)).
Definition ex_arr (q : list (list node)) : list (list node) := map (@rev node) q.
Definition ex_names_conds : amap centry := [(tB, One (Basic (While 20 (ex_user tA)))); (tC, One (Basic (EveryNCalls 21 tB 1)));
  (tA, Many [Basic (Always 22); Struct (mkS 40 (GOps (mkOp KBefore [tC] REPLACE REPLACE (SOne KEEP) (SOne KEEP) true true true false)))])].
Definition ex_names_old := new_sched ref_simple_cycles ex_arr (t_graph gABC) ex_names_conds None 0 false (ms 1) (fun _ => None) 100 t_world.
Definition ex_names_new := new_sched ex_cycles ex_arr (rn_arg ex_names (t_graph gABC)) (rn_map ex_names (rn_entry ex_names) ex_names_conds) None 0 false (ms 1) (fun _ => None) 100 t_world.
Definition ex_names_run cyc d := let '(_, _, ys, o) := sdrive cyc ex_arr 20 5 d (new_gen 0 0 None false) [] in (ys, o).
Example ex_C82 :
  injective (r_node ex_names) /\ cycles_follow ex_names ref_simple_cycles ex_cycles /\ order_follows ex_names ex_arr ex_arr /\
  (forall n c a, In (n, c) ex_names_conds -> In a (entry_list c) -> any_follows ex_names a) /\
  world_follows ex_names t_world t_world /\ renamed ex_names (snd ex_names_old) (snd ex_names_new) /\
  fst (ex_names_run ref_simple_cycles (snd ex_names_old)) <> [] /\
  ex_names_run ex_cycles (snd ex_names_new) =
    (map (map (fun n => n + 10)) (fst (ex_names_run ref_simple_cycles (snd ex_names_old))), rn_outcome ex_names (snd (ex_names_run ref_simple_cycles (snd ex_names_old)))).
Proof.
  assert (I1 : injective (r_node ex_names)) by (intros x y H; simpl in H; lia).
  assert (I2 : cycles_follow ex_names ref_simple_cycles ex_cycles).
  { intros g. unfold ex_cycles. do 2 f_equal. unfold rn_graph, rn_map. rewrite map_map. rewrite <- (map_id g) at 2. apply map_ext. intros [k v]; cbn [fst snd ex_back ex_names r_node]. f_equal; [lia|].
    unfold rn_set. rewrite map_map. rewrite <- (map_id v) at 2. apply map_ext. intros x; cbn [ex_back ex_names r_node]. lia. }
  assert (I3 : order_follows ex_names ex_arr ex_arr).
  { intros q. unfold ex_arr, rn_sets. rewrite !map_map. apply map_ext. intros l. unfold rn_set. symmetry. apply map_rev. }
  assert (U : user_follows ex_names (ex_user tA) (ex_user (tA + 10))).
  { intros v v' e own w w' V W. unfold ex_user. assert (T := vf_total _ _ _ V). destruct (v_total v), (v_total v'); simpl in T; try tauto; cbn [fst snd]; split; auto. rewrite <- (T ESU tA). auto. }
  assert (I4 : forall n c a, In (n, c) ex_names_conds -> In a (entry_list c) -> any_follows ex_names a).
  { intros n c a H J. simpl in H. destruct H as [H|[H|[H|[]]]]; injection H as <- <-; cbn [entry_list In] in J; repeat (destruct J as [<-|J]); try contradiction; try exact U; exact I. }
  assert (I5 : world_follows ex_names t_world t_world) by (constructor; auto).
  split; [exact I1|]. split; [exact I2|]. split; [exact I3|]. split; [exact I4|]. split; [exact I5|]. split.
  - refine (proj2 (C82_new ex_names ref_simple_cycles ex_cycles ex_arr ex_arr (t_graph gABC) ex_names_conds None None 0 false (ms 1) (fun _ => None) (fun _ => None) 100 t_world t_world I1 I2 I3 I4 Logic.I (fun _ => eq_refl) I5)).
  - split; [vm_compute; discriminate|vm_compute; reflexivity].
Qed.
