(** Property C85: warnings say what happened. *)
From Verif Require Import BaseFacts Tests WarnFacts SpecDefault SpecWarn.
Open Scope nat_scope.
Open Scope list_scope.

(** C85: after any calls on a condition set, add_condition warns that a basic condition is replaced
    exactly if the node has one, and names it and the new one. *)
Theorem C85_replacing : forall ow0 ks cs ow w a, distinct_objects ks -> set_performs ks (cs_empty, ow0) = Some (cs, ow) ->
  forall w' old new, In (Replacing w' old new) (call_warnings (SAdd w a) (cs, ow)) <-> w' = w /\ a = Basic new /\ registered_basic ks w = Some old.
Proof. exact replacing_iff. Qed.
Print Assumptions C85_replacing.
(** add_condition_set gives the warnings of adding its conditions one after the other. *)
Theorem C85_set : forall s cs ow, call_warnings (SAddSet s) (cs, ow) = calls_warnings (map (fun p => SAdd (fst p) (snd p)) (adds (SAddSet s))) (cs, ow).
Proof. exact set_is_calls. Qed.
Print Assumptions C85_set.
Example ex_C85_set : call_warnings (SAddSet [(tA, Many [Basic (Always 30); Basic (Never 31)]); (tB, One (Basic (EveryNCalls 32 tB 1)))]) (cs_empty, fun _ => None) =
  [Replacing tA (Always 30) (Never 31); OwnDependency 32 tB].
Proof. reflexivity. Qed.
(** remove_condition, with a condition or a node, warns exactly if it returns without having changed
    anything. *)
Theorem C85_removing : forall ow0 ks cs ow a y, distinct_objects (ks ++ [SRemove a]) -> set_performs ks (cs_empty, ow0) = Some (cs, ow) ->
  set_perform (SRemove a) (cs, ow) = Some y ->
  (changes_nothing ks (SRemove a) /\ exists w, call_warnings (SRemove a) (cs, ow) = [NotFound (Some a) w]) \/
  (~ changes_nothing ks (SRemove a) /\ call_warnings (SRemove a) (cs, ow) = []).
Proof. exact removal_iff. Qed.
Print Assumptions C85_removing.
Theorem C85_removing_by_owner : forall ow0 ks cs ow w y, distinct_objects ks -> set_performs ks (cs_empty, ow0) = Some (cs, ow) ->
  set_perform (SRemoveOwner w) (cs, ow) = Some y ->
  (changes_nothing ks (SRemoveOwner w) /\ call_warnings (SRemoveOwner w) (cs, ow) = [NotFound None w]) \/
  (~ changes_nothing ks (SRemoveOwner w) /\ call_warnings (SRemoveOwner w) (cs, ow) = []).
Proof. exact removal_owner_iff. Qed.
Print Assumptions C85_removing_by_owner.
(** If remove_condition raises there is no warning. *)
Theorem C85_raising : forall ow0 ks cs ow k, distinct_objects ks -> set_performs ks (cs_empty, ow0) = Some (cs, ow) ->
  (exists a, k = SRemove a) \/ (exists w, k = SRemoveOwner w) -> set_perform k (cs, ow) = None -> call_warnings k (cs, ow) = [].
Proof. exact removal_raises. Qed.
Print Assumptions C85_raising.
(** Methods of a scheduler give the warnings of its condition set (and of the graph). *)
Theorem C85_scheduler : forall cyc d x, about_set x ->
  (forall w a, In x (sched_add_warnings cyc w a d) <-> In x (call_warnings (SAdd w a) (d_cs d, d_owners d))) /\
  (forall s, In x (sched_add_set_warnings cyc s d) <-> In x (call_warnings (SAddSet s) (d_cs d, d_owners d))).
Proof. intros cyc d x A. split; intros; [apply scheduler_add|apply scheduler_add_set]; exact A. Qed.
Print Assumptions C85_scheduler.
Definition warn_s : scond := mkS 20 (GAddEdgeTo tB).
Definition warn_calls : list setcall := [SAdd tA (Struct warn_s); SAdd tA (Basic (Always 30)); SRemove (Struct warn_s)].
Example ex_C85_removing : distinct_objects (warn_calls ++ [SRemove (Struct warn_s)]) /\
  (exists x, set_performs warn_calls (cs_empty, fun _ => None) = Some x /\
     call_warnings (SAdd tA (Basic (Never 31))) x = [Replacing tA (Always 30) (Never 31)] /\
     call_warnings (SRemove (Struct warn_s)) x = [NotFound (Some (Struct warn_s)) tA] /\ set_perform (SRemove (Struct warn_s)) x <> None /\
     call_warnings (SRemoveOwner tB) x = [NotFound None tB] /\ call_warnings (SRemoveOwner tA) x = [] /\ set_perform (SRemoveOwner tA) x <> None) /\
  calls_warnings warn_calls (cs_empty, fun _ => None) = [].
Proof.
  split.
  - split; [vm_compute; repeat constructor; simpl; intuition discriminate|].
    intros x w y I J E. simpl in I, J. destruct I as [I|[I|[I|[I|[]]]]]; inversion I; subst x; destruct J as [J|[J|[]]]; inversion J; subst; auto; discriminate.
  - split; [|reflexivity]. eexists. split; [vm_compute; reflexivity|]. repeat split; vm_compute; try reflexivity; discriminate.
Qed.

Example ex_C85_raising : exists x, set_performs [SAdd tA (Struct warn_s); SAdd tA (Basic (Always 30))] (cs_empty, fun _ => None) = Some x /\
  set_perform (SRemoveOwner tA) x = None.
Proof. eexists. split; vm_compute; reflexivity. Qed.
Example ex_C85_scheduler : sched_add_warnings ref_simple_cycles tA (Basic (EveryNCalls 31 tA 1)) (t_sched [(tA, [])] [(tA, Always 30)]) =
  [OwnDependency 31 tA; Replacing tA (Always 30) (EveryNCalls 31 tA 1)].
Proof. vm_compute. reflexivity. Qed.

(** A condition is only said to depend on its owner if one of its parts does ... *)
Theorem C85_own_dependency : forall w c ow o w', In (OwnDependency o w') (owner_warnings w c ow) -> w' = w /\ exists a, part (CAtom o a) c /\ depends_on a w.
Proof. exact own_sound. Qed.
Print Assumptions C85_own_dependency.
(** ... and if the first dependency of a part is the owner (and the part is not a Threshold), that
    is said. *)
Theorem C85_first_dependency : forall w c ow o a r, new_components c ow -> part (CAtom o a) c -> ~ is_threshold a -> dependencies a = w :: r ->
  In (OwnDependency o w) (owner_warnings w c ow).
Proof. exact own_complete. Qed.
Print Assumptions C85_first_dependency.
Definition warn_nested : cond := All 10 [Not 11 (JustRan 12 tA); Any 13 [EveryNCalls 14 tB 2; AllHaveRun 15 [tA; tB] ESU]].
Example ex_C85_own : new_components warn_nested (fun _ => None) /\ part (CAtom 15 (AAllHaveRun [tA; tB] ESU)) warn_nested /\
  owner_warnings tA warn_nested (fun _ => None) = [OwnDependency 12 tA; OwnDependency 15 tA].
Proof.
  split; [split; [vm_compute; repeat constructor; simpl; intuition discriminate|auto]|]. split; [|reflexivity].
  unfold warn_nested, All, Any. eapply part_all; [right; left; reflexivity|]. eapply part_any; [right; left; reflexivity|]. constructor.
Qed.
(** Refuted: not every condition that depends on its owner is reported. *)
Theorem C85_own_dependency_refuted : 
  (exists w o a, depends_on a w /\ ~ is_threshold a /\ owner_warnings w (CAtom o a) (fun _ => None) = []) /\
  (exists w o a, depends_on a w /\ is_threshold a /\ owner_warnings w (CAtom o a) (fun _ => None) = []).
Proof.
  split.
  - exists tB, 10, (AAllHaveRun [tA; tB] ESU). split; [vm_compute; auto|]. split; [|reflexivity]. intros (? & ? & ? & ? & ? & ? & ? & X). discriminate.
  - exists tB, 10, (AThreshold tB 0 1%Q Ge None 0%Q 0%Q). split; [vm_compute; auto|]. split; [do 7 eexists; reflexivity|reflexivity].
Qed.
Print Assumptions C85_own_dependency_refuted.
(** When a run begins, the nodes named in these warnings (of the default conditions) are the ones
    without a basic condition that are senders of themselves. *)
Theorem C85_self_senders : forall ns m m', fresh_ids m -> add_defaults ns m = Ok m' -> forall n,
  (exists o, In (OwnDependency o n) (defaults_warnings ns m)) <-> In n ns /\ aget n (m_basic m) = None /\ exists deps, aget n (m_graph m) = Some deps /\ In n deps.
Proof. exact self_sender_iff. Qed.
Print Assumptions C85_self_senders.
Definition warn_loop : sched := t_sched [(tA, []); (tB, [tA; tB]); (tC, [tC])] [(tC, Always 30)].
Example ex_C85_self_senders : run_warnings ref_simple_cycles (fun q => q) warn_loop = [OwnDependency 103 tB] /\ fresh_ids (core_of warn_loop) /\
  exists m, add_defaults (d_nodes warn_loop) (core_of warn_loop) = Ok m.
Proof.
  split; [vm_compute; reflexivity|]. split; [|eexists; vm_compute; reflexivity]. intros o L. change (m_next (core_of warn_loop)) with 100 in L.
  change (m_owners (core_of warn_loop)) with (upd (fun _ : oid => @None node) 30 (Some tC)). unfold upd. destruct (Nat.eqb_spec o 30); [lia|auto].
Qed.

(** RemoveEdgeFrom warns exactly if the edge is not there; then nothing changes, else something does. *)
Theorem C85_no_edge : forall cyc w n g g', wf_graph g -> closed_graph g -> modify_graph cyc (Some w) (GRemoveEdgeFrom n) g = Ok g' ->
  (same_edges g g' /\ ~ edge g n w /\ modify_warnings (Some w) (GRemoveEdgeFrom n) g = [NoEdge n w]) \/
  (~ same_edges g g' /\ edge g n w /\ modify_warnings (Some w) (GRemoveEdgeFrom n) g = []).
Proof. exact no_edge_iff. Qed.
Print Assumptions C85_no_edge.
(** The conditions that move their owner warn exactly if some subject is already in place, name
    these subjects, and say that they are ignored exactly if the graph stays as it is. *)
Theorem C85_already : forall cyc p w g g', moving p -> wf_graph g -> closed_graph g -> ~ In w (p_nodes p) ->
  modify_graph cyc (Some w) (GOps p) g = Ok g' ->
  (modify_warnings (Some w) (GOps p) g = [] /\ (forall n, In n (p_nodes p) -> ~ in_place p w g n) /\ ~ same_edges g g') \/
  (exists l ignored, modify_warnings (Some w) (GOps p) g = [Already w l ignored] /\ l <> [] /\
     (forall n, In n l <-> In n (p_nodes p) /\ in_place p w g n) /\
     (ignored = true <-> forall n, In n (p_nodes p) -> in_place p w g n) /\
     (ignored = true <-> same_edges g g')).
Proof. exact already_iff. Qed.
Print Assumptions C85_already.
Definition warn_g : graph := [(0, []); (1, [0]); (2, [0; 1]); (3, [])].
Definition warn_before (l : list node) : opcond := mkOp KBefore l MERGE KEEP (SOne KEEP) (SOne KEEP) true true true false.
Example ex_C85_already : moving (warn_before [2; 3]) /\ before_nodes [2; 3] = Ok (GOps (warn_before [2; 3])) /\
  wf_graph warn_g /\ closed_graph warn_g /\
  modify_graph ref_simple_cycles (Some 1) (GOps (warn_before [2; 3])) warn_g = Ok [(0, []); (1, [0]); (2, [0; 1]); (3, [1])] /\
  modify_warnings (Some 1) (GOps (warn_before [2; 3])) warn_g = [Already 1 [2] false] /\
  modify_warnings (Some 0) (GOps (warn_before [1; 2])) warn_g = [Already 0 [1; 2] true] /\
  modify_warnings (Some 3) (GOps (warn_before [1; 2])) warn_g = [] /\
  modify_warnings (Some 3) (GRemoveEdgeFrom 1) warn_g = [NoEdge 1 3].
Proof.
  split; [split; [discriminate|left; split; [auto|split; intros; discriminate]]|]. split; [reflexivity|].
  split; [repeat constructor; simpl; intuition discriminate|].
  split; [|repeat split; vm_compute; reflexivity].
  intros x y (l & E & I). simpl in E. repeat (destruct (Nat.eqb y _) in E; [inversion E; subst; simpl in *; intuition|]). discriminate.
Qed.

(** A new scheduler warns about its base graph exactly if that has a cycle. *)
Theorem C85_base_graph : forall cyc arr input base tc deid exact du ow nx w, arg_graph input = Ok base -> wf_graph base ->
  (cyclic base /\ new_sched_warnings cyc arr input [] tc deid exact du ow nx w = [BaseCycle]) \/
  (~ cyclic base /\ new_sched_warnings cyc arr input [] tc deid exact du ow nx w = []).
Proof. exact base_cycle_iff. Qed.
Print Assumptions C85_base_graph.
(** Adding one structural condition after any calls, when the graph was read last: there is a warning
    about a cycle exactly if the new graph has one, and it names this condition and its owner. *)
Theorem C85_cycle : forall cyc arr is_s nx input base conds tc deid exact du ow w0 r d0 ks d g d' n s g2,
  arg_graph input = Ok base -> new_sched cyc arr input conds tc deid exact du ow nx w0 = (Ok r, d0) -> performs cyc arr ks d0 = Some d ->
  well_kinded is_s nx (SAddSet conds :: set_calls ks) -> added_once (SAddSet conds :: set_calls ks) ->
  get_graph cyc arr d = (Ok g, d') -> gsc_owner_ok (sc_gsc s) n = true -> modify_graph cyc (Some n) (sc_gsc s) g = Ok g2 -> wf_graph g2 ->
  (In (CreatesCycle s (Some n)) (sched_add_warnings cyc n (Struct s) d') <-> cyclic g2) /\
  (forall s' w', In (CreatesCycle s' w') (sched_add_warnings cyc n (Struct s) d') -> s' = s /\ w' = Some n) /\
  ~ In BaseCycle (sched_add_warnings cyc n (Struct s) d').
Proof. exact cycle_iff. Qed.
Print Assumptions C85_cycle.
Definition back : scond := mkS 20 (GAddEdgeTo tA).            (* for tB: tB before tA *)
Definition apart : scond := mkS 21 (GRemoveEdgeFrom tB).      (* for tA: tB not before tA *)
Definition chain2 : graph := [(tA, []); (tB, [tA])].
Notation warn_new g conds := (new_sched ref_simple_cycles (fun q => q) (t_graph g) conds None 0 false (ms 1) (fun _ => None) 100 t_world).
Notation warn_new_warnings g conds := (new_sched_warnings ref_simple_cycles (fun q => q) (t_graph g) conds None 0 false (ms 1) (fun _ => None) 100 t_world).
Example ex_C85_cycle : arg_graph (t_graph chain2) = Ok chain2 /\ wf_graph chain2 /\
  (exists d d', warn_new chain2 [] = (Ok tt, d) /\ get_graph ref_simple_cycles (fun q => q) d = (Ok chain2, d') /\
    sched_add_warnings ref_simple_cycles tB (Struct back) d' = [CreatesCycle back (Some tB)] /\
    exists g2, modify_graph ref_simple_cycles (Some tB) (sc_gsc back) chain2 = Ok g2 /\ wf_graph g2) /\
  well_kinded (fun o => Nat.ltb o 100) 100 [SAddSet []] /\ added_once [SAddSet []] /\
  warn_new_warnings [(tA, [tB]); (tB, [tA])] [] = [BaseCycle].
Proof.
  split; [reflexivity|]. split; [repeat constructor; simpl; intuition discriminate|]. split.
  - do 2 eexists. split; [vm_compute; reflexivity|]. split; [vm_compute; reflexivity|]. split; [vm_compute; reflexivity|].
    eexists. split; [vm_compute; reflexivity|]. repeat constructor; simpl; intuition discriminate.
  - split; [|split; [vm_compute; constructor|vm_compute; reflexivity]]. split.
    + intros o L. apply Nat.ltb_ge. exact L.
    + intros k x [<-|[]] X. destruct X.
Qed.
(** Refuted: when several conditions are applied at once, the warning names the last one, here the
    one that takes the cycle away. *)
Theorem C85_blames_refuted : exists d, warn_new chain2 [(tB, One (Struct back)); (tA, One (Struct apart))] = (Ok tt, d) /\
  warn_new_warnings chain2 [(tB, One (Struct back)); (tA, One (Struct apart))] = [CreatesCycle apart (Some tA)] /\
  fst (get_graph ref_simple_cycles (fun q => q) d) = Ok chain2 /\ ~ cyclic chain2.
Proof.
  eexists. split; [vm_compute; reflexivity|]. split; [vm_compute; reflexivity|]. split; [vm_compute; reflexivity|].
  apply TopoProofs.toposort_ok_iff; [repeat constructor; simpl; intuition discriminate|]. eexists. vm_compute. reflexivity.
Qed.
Print Assumptions C85_blames_refuted.
(** Refuted: a condition that is said to create a cycle need not have created it; here it takes away
    one of two. *)
Theorem C85_creates_refuted : exists base w s d g2, warn_new base [] = (Ok tt, d) /\
  sched_add_warnings ref_simple_cycles w (Struct s) d = [CreatesCycle s (Some w)] /\
  modify_graph ref_simple_cycles (Some w) (sc_gsc s) base = Ok g2 /\ (forall x y, edge g2 x y -> edge base x y) /\ cyclic base.
Proof.
  exists [(tA, [tB]); (tB, [tA]); (tC, [tA]); (tD, [])], tC, (mkS 20 (GRemoveEdgeFrom tA)). do 2 eexists.
  split; [vm_compute; reflexivity|]. split; [vm_compute; reflexivity|]. split; [vm_compute; reflexivity|]. split.
  - intros x y (l & E & I). exists (match y with 0 => [tB] | 1 => [tA] | 2 => [tA] | _ => [] end).
    destruct y as [|[|[|[|y]]]]; simpl in E; inversion E; subst; simpl in *; intuition.
  - apply TopoProofs.toposort_cycle_iff; [repeat constructor; simpl; intuition discriminate|]. vm_compute. reflexivity.
Qed.
Print Assumptions C85_creates_refuted.

(** In exact time mode, the warning that structural conditions have no effect is given at the
    beginning of a run exactly if there are any. *)
Theorem C85_exact_time : forall cyc arr d d' q m, sync cyc arr d = (Ok tt, d') -> toposort (top_graph d') = TopoOk q ->
  add_defaults (d_nodes d') (core_of d') = Ok m ->
  (In NoEffect (run_warnings cyc arr d) <-> d_exact d = true /\ cs_struct (d_cs d) <> []).
Proof. exact no_effect_iff. Qed.
Print Assumptions C85_exact_time.
Definition warn_exact (conds : list (node * centry)) :=
  snd (new_sched ref_simple_cycles (fun q => q) (t_graph chain2) conds None 0 true (ms 1) (fun _ => None) 100 t_world).
Definition cut : scond := mkS 22 (GRemoveEdgeFrom tA).         (* for tB: tA not before tB *)
Definition every2 : centry := One (Basic (CAtom 10 (ATimeInterval (Some (ms 2)) None None true true))).
Definition until5 : option tconds := Some (t_tc None (Some (CAtom 40 (ATimeTermination (ms 5) true)))).
Example ex_C85_exact : d_exact (warn_exact [(tA, every2); (tB, One (Struct cut))]) = true /\
  run_warnings ref_simple_cycles (fun q => q) (warn_exact [(tA, every2); (tB, One (Struct cut))]) = [NoEffect] /\
  run_warnings ref_simple_cycles (fun q => q) (warn_exact [(tA, every2)]) = [].
Proof. repeat split; vm_compute; reflexivity. Qed.
(** Refuted: that structural conditions then have no effect.  Default conditions are made from the
    changed graph, and a run on a changed graph with a cycle is refused. *)
Theorem C85_no_effect_refuted :
  In NoEffect (run_warnings ref_simple_cycles (fun q => q) (warn_exact [(tA, every2); (tB, One (Struct cut))])) /\
  t_out until5 (warn_exact [(tA, every2)]) = [[tA; tB]; []; [tA; tB]; []; [tA; tB]] /\
  t_out until5 (warn_exact [(tA, every2); (tB, One (Struct cut))]) = [[tA; tB]; [tB]; [tA; tB]; [tB]; [tA; tB]] /\
  (let '(_, _, _, o) := t_run until5 (warn_exact [(tA, every2); (tB, One (Struct back))]) in o) = ORaise EScheduler.
Proof. repeat split; vm_compute; auto. Qed.
Print Assumptions C85_no_effect_refuted.

(** A new Threshold warns exactly if it has a tolerance and an operator other than == and != ... *)
Theorem C85_tolerances : forall o w d par t s ia atol rtol get val c, new_threshold o w d par t s ia atol rtol get val = Ok c ->
  (threshold_warnings w d par s atol rtol val = [TolerancesIgnored] /\ (~ (atol == 0)%Q \/ ~ (rtol == 0)%Q) /\ ~ operator_string s Eq /\ ~ operator_string s Ne) \/
  (threshold_warnings w d par s atol rtol val = [] /\ (((atol == 0)%Q /\ (rtol == 0)%Q) \/ operator_string s Eq \/ operator_string s Ne)).
Proof. exact tolerances_iff. Qed.
Print Assumptions C85_tolerances.
(** ... and then the tolerances are ignored: it holds when the one without tolerances does. *)
Theorem C85_tolerances_ignored : forall o w d par t s ia atol rtol get val c c0, new_threshold o w d par t s ia atol rtol get val = Ok c ->
  new_threshold o w d par t s ia 0%Q 0%Q get val = Ok c0 ->
  threshold_warnings w d par s atol rtol val = [TolerancesIgnored] ->
  forall v e ow st, eval v e ow c st = eval v e ow c0 st.
Proof. exact tolerances_ignored. Qed.
Print Assumptions C85_tolerances_ignored.
Example ex_C85_tolerances : exists c c0,
  new_threshold 7 t_world tA 0 2 ">="%string (IScale PASS) 0 (1#2) None (Some (fun _ _ _ => None)) = Ok c /\
  new_threshold 7 t_world tA 0 2 ">="%string (IScale PASS) 0 0 None (Some (fun _ _ _ => None)) = Ok c0 /\ c <> c0 /\
  threshold_warnings t_world tA 0 ">="%string 0 (1#2) (Some (fun _ _ _ => None)) = [TolerancesIgnored].
Proof. do 2 eexists. split; [reflexivity|]. split; [reflexivity|]. split; [discriminate|reflexivity]. Qed.
