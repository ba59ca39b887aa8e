(** Property C89: a ConditionSet can be given where conditions are expected. *)
From Verif Require Import BaseFacts RunExamples SpecCopy CopyFacts.
Open Scope nat_scope.
Open Scope list_scope.

(** C89: adding a ConditionSet, however it was filled and looked at, to another one succeeds.
    Every owner keeps its basic condition unless the added set has one for it, and gets the
    structural conditions of the added set after its own; across owners they are added owner by
    owner. *)
Theorem C89_copy : forall ow0 ks src ow dst, distinct_objects (calls ks) -> used ks (cs_empty, ow0) = Some (src, ow) ->
  exists dst' ow' owners, cs_add_from src dst ow = (Ok tt, dst', ow') /\
    (forall w, aget w (cs_basic dst') = first_of (aget w (cs_basic src)) (aget w (cs_basic dst))) /\
    (forall w, aget w (cs_struct dst') = joined (aget w (cs_struct dst)) (aget w (cs_struct src))) /\
    NoDup owners /\ (forall w, In w owners <-> cs_contains w src = true) /\
    cs_order dst' = cs_order dst ++ flat_map (fun w => listed (aget w (cs_struct src))) owners.
Proof. exact copy. Qed.
Print Assumptions C89_copy.
(** The conditions in both sets still have the same owners. *)
Theorem C89_owners : forall ow0 ks src ow dst r dst' ow', distinct_objects (calls ks) -> used ks (cs_empty, ow0) = Some (src, ow) ->
  (forall o, In o (objects (flat_map adds (calls ks))) -> ow0 o = None) ->
  cs_add_from src dst ow = (r, dst', ow') -> forall o, ow' o = ow o.
Proof. exact copy_owners. Qed.
Print Assumptions C89_owners.
(** The order in which structural conditions are applied is kept if they belong to one owner ... *)
Theorem C89_order : forall ow0 ks src ow dst dst' ow', distinct_objects (calls ks) -> used ks (cs_empty, ow0) = Some (src, ow) ->
  cs_add_from src dst ow = (Ok tt, dst', ow') ->
  (forall w w', aget w (cs_struct src) <> None -> aget w' (cs_struct src) <> None -> w = w') ->
  cs_order dst' = cs_order dst ++ cs_order src.
Proof. exact copy_order. Qed.
Print Assumptions C89_order.
(** ... but not in general, although structural_condition_order is documented as the order in
    which they are applied: a scheduler made with the set has another graph than one to which the
    same conditions are added one by one. *)
Definition cp_remove : scond := mkS 20 (GRemoveEdgeFrom tA).
Definition cp_add : scond := mkS 21 (GAddEdgeTo tB).
Definition cp_base : graph := [(tA, []); (tB, [tA])].
Definition cp_calls : list (option setcall) := [Some (SAdd tB (Struct cp_remove)); Some (SAdd tA (Struct cp_add)); Some (SAdd tA (Basic (Always 30)))].
Notation cp_graph d := (fst (get_graph ref_simple_cycles (fun q => q) d)).
Definition cp_adds (ks : list (option setcall)) (d : sched) : sched :=
  fold_left (fun d k => match k with Some (SAdd w a) => snd (add_condition ref_simple_cycles (fun q => q) w a d) | _ => d end) ks d.
Theorem C89_order_refuted : exists ks src ow, distinct_objects (calls ks) /\ used ks (cs_empty, fun _ => None) = Some (src, ow) /\
  cs_order src = [cp_remove; cp_add] /\
  let r := add_condition_set ref_simple_cycles (fun q => q) (fst (cs_conditions src)) (t_sched cp_base []) in
  fst r = Ok tt /\ cs_order (d_cs (snd r)) = [cp_add; cp_remove] /\ cp_graph (snd r) = Ok [(tA, []); (tB, [])] /\
  cs_order (d_cs (cp_adds ks (t_sched cp_base []))) = cs_order src /\ cp_graph (cp_adds ks (t_sched cp_base [])) = Ok [(tA, []); (tB, [tA])].
Proof.
  exists cp_calls. do 2 eexists. split; [|split; [vm_compute; reflexivity|vm_compute; repeat split; reflexivity]].
  split; [vm_compute; repeat constructor; simpl; intuition discriminate|]. intros a w b H. simpl in H. intuition discriminate.
Qed.
Print Assumptions C89_order_refuted.

(** Adding a set to itself keeps the basic conditions and repeats the structural ones, if no owner
    has two structural conditions and no basic one. *)
Theorem C89_itself : forall ow0 ks cs ow fuel, distinct_objects (calls ks) -> used ks (cs_empty, ow0) = Some (cs, ow) ->
  (forall w, aget w (cs_basic cs) <> None \/ length (listed (aget w (cs_struct cs))) <= 1) ->
  exists cs' ow' owners, cs_add_self fuel cs ow = Some (Ok tt, cs', ow') /\
    (forall w, aget w (cs_basic cs') = aget w (cs_basic cs)) /\
    (forall w, aget w (cs_struct cs') = joined (aget w (cs_struct cs)) (aget w (cs_struct cs))) /\
    NoDup owners /\ (forall w, In w owners <-> cs_contains w cs = true) /\
    cs_order cs' = cs_order cs ++ flat_map (fun w => listed (aget w (cs_struct cs))) owners.
Proof. exact to_itself. Qed.
Print Assumptions C89_itself.
(** Otherwise it never ends: the list that is gone through is the one that grows. *)
Theorem C89_itself_endless : forall ow0 ks cs ow w, distinct_objects (calls ks) -> used ks (cs_empty, ow0) = Some (cs, ow) ->
  aget w (cs_basic cs) = None -> 2 <= length (listed (aget w (cs_struct cs))) -> forall fuel, cs_add_self fuel cs ow = None.
Proof. exact to_itself_never. Qed.
Print Assumptions C89_itself_endless.

Definition cp_more : list (option setcall) := cp_calls ++ [None; Some (SAdd tB (Struct (mkS 22 (GAddEdgeTo tC)))); None].
Example ex_C89 : distinct_objects (calls cp_more) /\ exists src ow, used cp_more (cs_empty, fun _ => None) = Some (src, ow) /\
  aget tB (cs_basic src) = None /\ length (listed (aget tB (cs_struct src))) = 2 /\
  cs_order (snd (fst (cs_add_from src cs_empty ow))) = [cp_add; cp_remove; mkS 22 (GAddEdgeTo tC)].
Proof.
  split; [split; [vm_compute; repeat constructor; simpl; intuition discriminate|intros a w b H; simpl in H; intuition discriminate]|].
  do 2 eexists. split; [vm_compute; reflexivity|]. repeat split; vm_compute; reflexivity.
Qed.
Example ex_C89_itself : exists src ow, used cp_calls (cs_empty, fun _ => None) = Some (src, ow) /\
  (forall w, aget w (cs_basic src) <> None \/ length (listed (aget w (cs_struct src))) <= 1) /\
  option_map (fun x => cs_order (snd (fst x))) (cs_add_self 3 src ow) = Some [cp_remove; cp_add; cp_add; cp_remove].
Proof.
  do 2 eexists. split; [vm_compute; reflexivity|]. split; [|vm_compute; reflexivity].
  intros w. right. cbn [cs_struct aget]. repeat (destruct (Nat.eqb w _)); simpl; auto.
Qed.
