(** Properties C33-C37 and C52: condition sets, the graph of a scheduler, termination conditions. *)
From Coq Require Import String.
From Verif Require Import BaseFacts SpecSched SpecGSC SpecTerm CondSetFacts ResumeFrame SchedFacts SchedThms TermFacts Tests.
Open Scope list_scope.

(** C33: after any calls without an exception (adding and removing conditions, reading the graph,
    setting termination conditions, running), Scheduler.graph is the base graph with the
    registered structural conditions applied in order, and raises only if that is impossible;
    the consideration queue is that of this graph. *)
Theorem C33_graph : forall cyc arr is_s nx input base conds tc deid exact du ow w r d0 ks d, arg_graph input = Ok base ->
  new_sched cyc arr input conds tc deid exact du ow nx w = (Ok r, d0) ->
  performs cyc arr ks d0 = Some d ->
  well_kinded is_s nx (SAddSet conds :: set_calls ks) -> added_once (SAddSet conds :: set_calls ks) ->
  (forall g, fst (get_graph cyc arr d) = Ok g <-> applies cyc base (registered_struct (SAddSet conds :: set_calls ks)) g) /\
  (forall q, fst (get_queue cyc arr d) = Ok q -> exists g, applies cyc base (registered_struct (SAddSet conds :: set_calls ks)) g /\
     q = if d_exact d then [gkeys g] else queue_of arr g).
Proof. exact graph_refines. Qed.
Print Assumptions C33_graph.
(** If that graph is acyclic, the queue is its topological sort (with some order inside the
    sets), and running the scheduler is running on this graph: the theorems about runs apply. *)
Theorem C33_runs : forall cyc arr is_s nx input base conds tc deid exact du ow w r d0 ks d g d',
  (forall q, Forall2 (@Permutation node) q (arr q)) -> arg_graph input = Ok base -> wf_graph base -> closed_graph base ->
  new_sched cyc arr input conds tc deid exact du ow nx w = (Ok r, d0) -> performs cyc arr ks d0 = Some d ->
  well_kinded is_s nx (SAddSet conds :: set_calls ks) -> added_once (SAddSet conds :: set_calls ks) ->
  (forall p, In p (registered_struct (SAddSet conds :: set_calls ks)) -> keeps_nodes (sc_gsc (snd p))) ->
  get_graph cyc arr d = (Ok g, d') -> ~ cyclic g ->
  m_graph (core_of d') = g /\ queue_built (core_of d') /\ m_nodes (core_of d') = gkeys g /\
  forall steps fuel gen, let '(m', gen', ys, o) := drive steps fuel (core_of d') gen [] in
    exists d'', sdrive cyc arr steps fuel d gen [] = (d'', gen', ys, o) /\ (steps > 0 -> core_of d'' = m').
Proof. exact run_state. Qed.
Print Assumptions C33_runs.
(** A new structural condition that is removed again leaves the graph as it was. *)
Theorem C33_remove_undoes : forall cyc arr is_s nx input base conds tc deid exact du ow w0 r d0 ks d n s d',
  arg_graph input = Ok base -> new_sched cyc arr input conds tc deid exact du ow nx w0 = (Ok r, d0) ->
  performs cyc arr ks d0 = Some d ->
  well_kinded is_s nx (SAddSet conds :: set_calls ks ++ [SAdd n (Struct s)]) -> added_once (SAddSet conds :: set_calls ks ++ [SAdd n (Struct s)]) ->
  performs cyc arr [CSet (SAdd n (Struct s)); CSet (SRemove (Struct s))] d = Some d' ->
  forall g, fst (get_graph cyc arr d') = Ok g <-> fst (get_graph cyc arr d) = Ok g.
Proof.
  intros cyc arr is_s nx input base conds tc deid exact du ow w0 r d0 ks d n s d' AG N P WK AO P2 g.
  assert (PA : performs cyc arr (ks ++ [CSet (SAdd n (Struct s)); CSet (SRemove (Struct s))]) d0 = Some d').
  { clear -P P2. revert d0 P. induction ks as [|k ks IH]; intros d0 P; cbn [app performs] in *; [inversion P; subst; auto|]. destruct (perform cyc arr k d0); [auto|discriminate]. }
  assert (SC : set_calls (ks ++ [CSet (SAdd n (Struct s)); CSet (SRemove (Struct s))]) = set_calls ks ++ [SAdd n (Struct s); SRemove (Struct s)]) by (unfold set_calls; rewrite flat_map_app; auto).
  assert (WK1 : well_kinded is_s nx (SAddSet conds :: set_calls ks)).
  { destruct WK as [A B]. split; auto. intros k a K. apply B. destruct K; [left; auto|right; apply in_or_app; auto]. }
  assert (AO' := AO). unfold added_once in AO'. rewrite app_comm_cons, flat_map_app, structs_app, map_app in AO'. apply NoDup_app_inv in AO'. destruct AO' as (AO1 & _ & FR).
  destruct (graph_refines _ _ _ _ _ _ _ _ _ _ _ _ _ _ _ _ _ AG N P WK1 AO1) as [G1 _].
  rewrite G1. clear G1.
  assert (WK2 : well_kinded is_s nx (SAddSet conds :: set_calls (ks ++ [CSet (SAdd n (Struct s)); CSet (SRemove (Struct s))]))).
  { rewrite SC. destruct WK as [A B]. split; auto. intros k a K M. destruct K as [K|K]; [apply (B k a); [left|]; auto|]. apply in_app_or in K. destruct K as [K|[K|[K|[]]]].
    - apply (B k a); auto. right. apply in_or_app; auto.
    - apply (B k a); auto. right. apply in_or_app; right; left; auto.
    - subst k. apply (B (SAdd n (Struct s)) a); [right; apply in_or_app; right; left; auto|exact M]. }
  assert (AO2 : added_once (SAddSet conds :: set_calls (ks ++ [CSet (SAdd n (Struct s)); CSet (SRemove (Struct s))]))).
  { rewrite SC. unfold added_once in *. cbn [flat_map] in *. rewrite !flat_map_app in *. simpl in AO |- *. exact AO. }
  destruct (graph_refines _ _ _ _ _ _ _ _ _ _ _ _ _ _ _ _ _ AG N PA WK2 AO2) as [G2 _]. rewrite G2. rewrite SC.
  unfold registered_struct. cbn [fold_left]. rewrite fold_left_app. rewrite remove_undoes; [tauto|].
  intros X. apply (FR (sc_oid s)); [|simpl; auto].
  pose proof (sinv_history _ _ _ _ _ _ _ _ _ _ _ _ _ _ _ _ _ AG N P WK1 AO1) as I.
  apply in_map_iff in X. destruct X as (p & <- & X). apply (in_map soid). eapply si_sub; [exact I|]. exact X.
Qed.
Print Assumptions C33_remove_undoes.

(** three unconnected nodes; 0 before 1 is added, then 1 before 2, then the first is removed *)
Definition ex_free : graph := [(tA, []); (tB, []); (tC, [])].
Definition ex_s1 : scond := mkS 20 (GAddEdgeTo tB).
Definition ex_s2 : scond := mkS 21 (GAddEdgeTo tC).
Definition ex_calls : list call :=
  [CSet (SAdd tA (Struct ex_s1)); CNext 5 (new_gen 0 0 None false); CSet (SAdd tB (Struct ex_s2)); CLook; CSet (SRemove (Struct ex_s1)); CSet (SAdd tC (Basic (AfterNCalls 30 tB 1 ESU)))].
Definition ex_kinds (o : oid) : bool := Nat.eqb o 20 || Nat.eqb o 21.
Example ex_C33 : exists d, performs ref_simple_cycles (fun q => q) ex_calls (t_sched ex_free []) = Some d /\
  fst (get_graph ref_simple_cycles (fun q => q) d) = Ok [(tA, []); (tB, []); (tC, [tB])] /\
  registered_struct (SAddSet [] :: set_calls ex_calls) = [(tB, ex_s2)] /\
  well_kinded ex_kinds 100 (SAddSet [] :: set_calls ex_calls) /\ added_once (SAddSet [] :: set_calls ex_calls).
Proof.
  destruct (performs ref_simple_cycles (fun q => q) ex_calls (t_sched ex_free [])) as [d|] eqn:E.
  - exists d. split; auto. split; [|split; [reflexivity|split]].
    + assert (X : option_map (fun d => fst (get_graph ref_simple_cycles (fun q => q) d)) (performs ref_simple_cycles (fun q => q) ex_calls (t_sched ex_free [])) = Some (Ok [(tA, []); (tB, []); (tC, [tB])])) by (vm_compute; reflexivity).
      rewrite E in X. simpl in X. inversion X; auto.
    + split; [intros o L; unfold ex_kinds; destruct (Nat.eqb_spec o 20), (Nat.eqb_spec o 21); auto; lia|].
      simpl. intros k a K A. repeat (destruct K as [<-|K]; [simpl in A; repeat (destruct A as [<-|A]; [simpl; auto; intros o [<-|[]]; reflexivity|]); destruct A|]). destruct K.
    + unfold added_once. simpl. repeat constructor; simpl; intuition discriminate.
  - exfalso. assert (X : (if performs ref_simple_cycles (fun q => q) ex_calls (t_sched ex_free []) then true else false) = true) by (vm_compute; reflexivity). rewrite E in X. discriminate.
Qed.
(** [added_once] is needed: when a structural condition is removed and the same object is added
    to another owner before the graph is looked at, the change is not noticed. *)
Theorem C33_moved_condition_refuted : exists base ks d g,
  performs ref_simple_cycles (fun q => q) ks (t_sched base []) = Some d /\
  fst (get_graph ref_simple_cycles (fun q => q) d) = Ok g /\
  ~ applies ref_simple_cycles base (registered_struct (SAddSet [] :: set_calls ks)) g.
Proof.
  set (ks := [CSet (SAdd tA (Struct ex_s2)); CSet (SRemove (Struct ex_s2)); CSet (SAdd tB (Struct ex_s2))]).
  exists ex_free, ks. destruct (performs ref_simple_cycles (fun q => q) ks (t_sched ex_free [])) as [d|] eqn:E.
  - exists d, [(tA, []); (tB, []); (tC, [tA])]. split; auto. split.
    + assert (X : option_map (fun d => fst (get_graph ref_simple_cycles (fun q => q) d)) (performs ref_simple_cycles (fun q => q) ks (t_sched ex_free [])) = Some (Ok [(tA, []); (tB, []); (tC, [tA])])) by (vm_compute; reflexivity).
      rewrite E in X. simpl in X. inversion X; auto.
    + intros A. assert (B : applies ref_simple_cycles ex_free [(tB, ex_s2)] [(tA, []); (tB, []); (tC, [tB])]) by (econstructor; [vm_compute; reflexivity|constructor]).
      pose proof (applies_fun _ _ _ _ A _ B) as X. discriminate.
  - exfalso. assert (X : (if performs ref_simple_cycles (fun q => q) ks (t_sched ex_free []) then true else false) = true) by (vm_compute; reflexivity). rewrite E in X. discriminate.
Qed.
Print Assumptions C33_moved_condition_refuted.

(** C34: if one structural condition is added to a scheduler whose graph is up to date, and
    applying it raises, then removing it brings the graph back. *)
Theorem C34_recover : forall cyc arr is_s nx input base conds tc deid exact du ow w0 r0 d0 ks d g d1 w s ex d2 r d3,
  arg_graph input = Ok base -> new_sched cyc arr input conds tc deid exact du ow nx w0 = (Ok r0, d0) -> performs cyc arr ks d0 = Some d ->
  well_kinded is_s nx (SAddSet conds :: set_calls ks ++ [SAdd w (Struct s)]) -> added_once (SAddSet conds :: set_calls ks ++ [SAdd w (Struct s)]) ->
  get_graph cyc arr d = (Ok g, d1) -> add_condition cyc arr w (Struct s) d1 = (Err ex, d2) -> remove_condition (Struct s) d2 = (Ok r, d3) ->
  fst (get_graph cyc arr d3) = Ok g.
Proof. exact failed_add_recover. Qed.
Print Assumptions C34_recover.
Definition ex_bad : scond := mkS 22 (GAddEdgeTo 9).
Example ex_C34 : let d := snd (add_condition ref_simple_cycles (fun q => q) tA (Struct ex_bad) (snd (get_graph ref_simple_cycles (fun q => q) (t_sched ex_free [])))) in
  fst (add_condition ref_simple_cycles (fun q => q) tA (Struct ex_bad) (snd (get_graph ref_simple_cycles (fun q => q) (t_sched ex_free [])))) = Err ECondition /\
  fst (get_graph ref_simple_cycles (fun q => q) d) = Err ECondition /\
  fst (remove_condition (Struct ex_bad) d) = Ok (Some (Struct ex_bad)) /\
  fst (get_graph ref_simple_cycles (fun q => q) (snd (remove_condition (Struct ex_bad) d))) = Ok ex_free.
Proof. vm_compute. auto. Qed.
(** In general it does not: here the first of two new conditions could be applied, the second
    could not.  After both were removed no condition is registered, but the first is still
    applied. *)
Theorem C34_failure_atomic_refuted : exists base s1 s2 d1 d2 d3,
  add_condition_set ref_simple_cycles (fun q => q) [(tA, One (Struct s1)); (tB, One (Struct s2))] (t_sched base []) = (Err ECondition, d1) /\
  remove_condition (Struct s1) d1 = (Ok (Some (Struct s1)), d2) /\ remove_condition (Struct s2) d2 = (Ok (Some (Struct s2)), d3) /\
  cs_order (d_cs d3) = [] /\ (forall n, cs_contains n (d_cs d3) = false) /\
  fst (get_graph ref_simple_cycles (fun q => q) d3) = Ok [(tA, []); (tB, [tA]); (tC, [])] /\ base = [(tA, []); (tB, []); (tC, [])].
Proof. exists ex_free, ex_s1, ex_bad. do 3 eexists. repeat split; vm_compute; reflexivity. Qed.
Print Assumptions C34_failure_atomic_refuted.
(** What a failed add_condition_set leaves behind: either a condition refused its owner, and the
    conditions before it in the set have been added as by add_condition, and no other; or all of
    them have been added, and applying them to the graph failed. *)
Theorem C34_failed_set : forall cyc arr s d ex d1, add_condition_set cyc arr s d = (Err ex, d1) ->
  (exists l1 w a l2, adds (SAddSet s) = l1 ++ (w, a) :: l2 /\
     set_performs (map (fun p => SAdd (fst p) (snd p)) l1) (d_cs d, d_owners d) = Some (d_cs d1, d_owners d1) /\ cs_add w a (d_cs d1) (d_owners d1) = Err ex) \/
  set_performs (map (fun p => SAdd (fst p) (snd p)) (adds (SAddSet s))) (d_cs d, d_owners d) = Some (d_cs d1, d_owners d1).
Proof. exact failed_set. Qed.
Print Assumptions C34_failed_set.
Example ex_C34_failed_set : let r := add_condition_set ref_simple_cycles (fun q => q)
    [(tA, Many [Basic (Always 30); Struct (mkS 23 (GAddEdgeTo tA))]); (tB, One (Basic (Never 31)))] (t_sched ex_free []) in
  fst r = Err ECondition /\ cs_basic (d_cs (snd r)) = [(tA, Always 30)].
Proof. vm_compute. auto. Qed.

(** C35: a condition set is a map from nodes to basic conditions and an ordered list of
    structural conditions with owners. *)
Theorem C35_condition_set : forall ow0 ks cs ow, distinct_objects ks -> set_performs ks (cs_empty, ow0) = Some (cs, ow) ->
  (forall w, aget w (cs_basic cs) = registered_basic ks w) /\
  cs_order cs = map snd (registered_struct ks) /\
  (forall w, aget w (cs_struct cs) = match owned w (registered_struct ks) with [] => None | l => Some l end) /\
  (forall w, cs_getitem w cs = entry_for (registered_basic ks w) (owned w (registered_struct ks))) /\
  (forall w, cs_contains w cs = isSome (entry_for (registered_basic ks w) (owned w (registered_struct ks)))).
Proof. exact condset_refines. Qed.
Print Assumptions C35_condition_set.
Definition ex_set_calls : list setcall :=
  [SAddSet [(tA, Many [Struct ex_s1; Basic (Always 30)]); (tB, One (Struct ex_s2))]; SAdd tA (Basic (AtPass 31 2 ESU)); SAdd tB (Basic (Not 32 (Always 33)));
   SRemove (Struct ex_s2); SAdd tA (Struct ex_bad); SRemoveOwner tB].
Example ex_C35 : distinct_objects ex_set_calls /\ exists cs ow, set_performs ex_set_calls (cs_empty, fun _ => None) = Some (cs, ow) /\
  cs_getitem tA cs = Some (Many [Basic (AtPass 31 2 ESU); Struct ex_s1; Struct ex_bad]) /\ cs_getitem tB cs = None /\ cs_order cs = [ex_s1; ex_bad].
Proof.
  split.
  - split; [vm_compute; repeat constructor; simpl; intuition discriminate|].
    intros a w b H I E. simpl in H. repeat (destruct H as [H|H]; [try discriminate|]); [|tauto]. inversion H; subst a. simpl in I.
    repeat (destruct I as [I|I]; [inversion I; subst; simpl in E; try discriminate; auto|]). tauto.
  - do 2 eexists. split; [vm_compute; reflexivity|]. repeat split; vm_compute; reflexivity.
Qed.

(** C36: removing a registered condition by the condition itself succeeds, returns it, and it is
    not registered afterwards. *)
Theorem C36_remove_condition : forall ow0 ks cs ow a w, distinct_objects (ks ++ [SRemove a]) -> set_performs ks (cs_empty, ow0) = Some (cs, ow) ->
  match a with Basic c => registered_basic ks w = Some c | Struct s => In (w, s) (registered_struct ks) end ->
  exists cs' ow', cs_remove_cond a cs ow = (Ok (Some a), cs', ow') /\
    (forall n, aget n (cs_basic cs') = registered_basic (ks ++ [SRemove a]) n) /\
    cs_order cs' = map snd (registered_struct (ks ++ [SRemove a])) /\
    (forall n, cs_getitem n cs' = entry_for (registered_basic (ks ++ [SRemove a]) n) (owned n (registered_struct (ks ++ [SRemove a])))).
Proof.
  intros ow0 ks cs ow a w DO P R.
  assert (D1 : distinct_objects ks).
  { destruct DO as [A B]. rewrite flat_map_app in A, B. simpl in A, B. rewrite app_nil_r in A, B. split; auto. intros a' w' b X. apply B. apply in_or_app; auto. }
  assert (OW : exists n, ow (any_oid a) = Some n).
  { destruct D1 as [N SO]. pose proof (inv_calls ow0 ks [] (fun _ => None) [] cs_empty ow0 cs ow (inv_empty ow0) N SO P) as I.
    exists w. destruct a as [c|s]; simpl; [apply (i_ownB _ _ _ _ _ _ I); auto|apply (i_ownL _ _ _ _ _ _ I); auto]. }
  assert (RC : exists cs' ow', cs_remove_cond a cs ow = (Ok (Some a), cs', ow')).
  { destruct OW as (n & OW). unfold cs_remove_cond. rewrite OW. destruct (match aget n (cs_basic cs) with Some c => _ | None => _ end); eauto.
    destruct (cs_remove_struct n (any_oid a) cs) as [[|] ?]; eauto. }
  destruct RC as (cs' & ow' & RC). exists cs', ow'. split; auto.
  assert (P2 : set_performs (ks ++ [SRemove a]) (cs_empty, ow0) = Some (cs', ow')).
  { clear -P RC. revert P. generalize (cs_empty, ow0). induction ks as [|k l IH]; intros x P; cbn [app set_performs] in *.
    - inversion P; subst. simpl. rewrite RC. auto.
    - destruct (set_perform k x); [auto|discriminate]. }
  destruct (condset_refines _ _ _ _ DO P2) as (A & B & _ & C & _). auto.
Qed.
Print Assumptions C36_remove_condition.
(** Removing by owner: an owner with a basic condition only loses it, an owner without conditions
    changes nothing, and an owner of several conditions is refused with ConditionError and nothing
    changes.  (The remaining case is refuted below.)  A condition that was never added to a set has
    no owner and is refused with ConditionError as well. *)
Theorem C36_by_owner : forall ow0 ks cs ow w, distinct_objects ks -> set_performs ks (cs_empty, ow0) = Some (cs, ow) ->
  match registered_basic ks w, owned w (registered_struct ks) with
  | None, [] => cs_remove_owner w cs ow = (Ok None, cs, ow)
  | Some c, [] => exists cs' ow', cs_remove_owner w cs ow = (Ok None, cs', ow') /\
      (forall n, cs_getitem n cs' = if Nat.eqb n w then None else cs_getitem n cs) /\
      cs_order cs' = cs_order cs /\ ow' (cond_oid c) = None
  | None, [_] => True
  | _, _ => cs_remove_owner w cs ow = (Err ECondition, cs, ow)
  end.
Proof.
  intros ow0 ks cs ow w D P. destruct (condset_refines _ _ _ _ D P) as (A & B & C & G & _).
  assert (A' := A w). assert (C' := C w). unfold cs_remove_owner. rewrite A', C'.
  destruct (registered_basic ks w) as [c|] eqn:Eb; destruct (owned w (registered_struct ks)) as [|s1 [|s2 l]] eqn:Es; auto.
  do 2 eexists. split; [reflexivity|].
  assert (P2 : set_performs (ks ++ [SRemoveOwner w]) (cs_empty, ow0) =
    Some (set_rebuild (mkCS (adel w (cs_basic cs)) (cs_struct cs) (cs_order cs) (cs_cache cs) (cs_rebuild cs)), set_owner None c ow)).
  { revert P. generalize (cs_empty, ow0). clear D. clear Eb Es A B C G. induction ks as [|k l IH]; intros x P; cbn [app set_performs] in *.
    - injection P as ->. cbn [set_perform]. unfold cs_remove_owner. rewrite A', C'. reflexivity.
    - destruct (set_perform k x); [auto|discriminate]. }
  assert (D2 : distinct_objects (ks ++ [SRemoveOwner w])).
  { destruct D as [X Y]. split; rewrite flat_map_app; simpl; rewrite app_nil_r; auto. intros a n b In1. apply in_app_or in In1.
    destruct In1 as [In1|[In1|[]]]; [eauto|discriminate]. }
  destruct (condset_refines _ _ _ _ D2 P2) as (A2 & B2 & _ & G2 & _). split; [|split; [reflexivity|]].
  - intros n. rewrite G2, G. unfold registered_basic, registered_struct. rewrite !fold_left_app. cbn [fold_left].
    change (fold_left reg_basic ks (fun _ => None)) with (registered_basic ks). change (fold_left reg_struct ks []) with (registered_struct ks).
    cbn [reg_basic reg_struct adds]. rewrite app_nil_r. unfold upd. destruct (Nat.eqb n w) eqn:E; auto.
    apply Nat.eqb_eq in E. subst n. rewrite Es. reflexivity.
  - apply set_owner_none_top.
Qed.
Print Assumptions C36_by_owner.
Theorem C36_no_owner : forall a cs ow, ow (any_oid a) = None -> cs_remove_cond a cs ow = (Err ECondition, cs, ow).
Proof. intros a cs ow E. unfold cs_remove_cond. rewrite E. reflexivity. Qed.
Print Assumptions C36_no_owner.
Example ex_C36_by_owner : exists cs ow, set_performs (firstn 3 ex_set_calls) (cs_empty, fun _ => None) = Some (cs, ow) /\
  length (owned tA (registered_struct (firstn 3 ex_set_calls))) = 1 /\ registered_basic (firstn 3 ex_set_calls) tA = Some (AtPass 31 2 ESU) /\
  fst (fst (cs_remove_owner tA cs ow)) = Err ECondition /\ ow 99 = None.
Proof. do 2 eexists. split; [vm_compute; reflexivity|]. repeat split; vm_compute; reflexivity. Qed.
(** Documented: remove_condition returns the condition removed, or None if no condition was
    removed.  Removing by owner returns None although a condition is removed ... *)
Theorem C36_by_owner_refuted : exists ks cs ow w c cs' ow', set_performs ks (cs_empty, fun _ => None) = Some (cs, ow) /\
  cs_getitem w cs = Some (One (Basic c)) /\ cs_remove_owner w cs ow = (Ok None, cs', ow') /\ cs_getitem w cs' = None.
Proof. exists [SAdd tA (Basic (Always 30))]. do 2 eexists. exists tA, (Always 30). do 2 eexists. repeat split; vm_compute; reflexivity. Qed.
Print Assumptions C36_by_owner_refuted.
(** ... or raises IndexError although it is removed, and leaves it visible ... *)
Theorem C36_structural_by_owner_refuted : exists ks cs ow w s cs' ow', set_performs ks (cs_empty, fun _ => None) = Some (cs, ow) /\
  cs_getitem w cs = Some (One (Struct s)) /\ cs_remove_owner w (snd (cs_conditions cs)) ow = (Err EIndex, cs', ow') /\ cs_order cs' = [] /\ cs_getitem w cs' = Some (One (Struct s)).
Proof. exists [SAdd tA (Struct ex_s1)]. do 2 eexists. exists tA, ex_s1. do 2 eexists. repeat split; vm_compute; reflexivity. Qed.
Print Assumptions C36_structural_by_owner_refuted.
(** ... and removing a condition that is not registered returns this condition. *)
Theorem C36_not_registered_refuted : exists ks cs ow s, set_performs ks (cs_empty, fun _ => None) = Some (cs, ow) /\
  (forall w, cs_getitem w cs = None) /\ cs_order cs = [] /\ fst (fst (cs_remove_cond (Struct s) cs ow)) = Ok (Some (Struct s)).
Proof. exists [SAdd tA (Struct ex_s1); SRemove (Struct ex_s1)]. do 2 eexists. exists ex_s1. repeat split; vm_compute; reflexivity. Qed.
Print Assumptions C36_not_registered_refuted.
Example ex_C36 : exists cs ow, set_performs (firstn 3 ex_set_calls) (cs_empty, fun _ => None) = Some (cs, ow) /\
  In (tB, ex_s2) (registered_struct (firstn 3 ex_set_calls)) /\ registered_basic (firstn 3 ex_set_calls) tA = Some (AtPass 31 2 ESU) /\
  fst (fst (cs_remove_cond (Struct ex_s2) cs ow)) = Ok (Some (Struct ex_s2)).
Proof. do 2 eexists. split; [vm_compute; reflexivity|]. split; [vm_compute; auto|]. split; vm_compute; reflexivity. Qed.

(** C37: in every scheduler whose condition objects were all new when they were added, the
    conditions given to a node are in force there, and every condition object in use at a node
    (including the components of composite conditions and the default conditions) is owned by
    that node. *)
Theorem C37_owners : forall cyc arr nx input conds tc deid exact du ow w r d0 ks d,
  new_sched cyc arr input conds tc deid exact du ow nx w = (Ok r, d0) -> performs cyc arr ks d0 = Some d ->
  proper_objects nx ow (SAddSet conds :: set_calls ks) ->
  (forall o, d_next d <= o -> d_owners d o = None) /\ NoDup (akeys (cs_basic (d_cs d))) /\
  (forall n c, registered_basic (SAddSet conds :: set_calls ks) n = Some c -> aget n (cs_basic (d_cs d)) = Some c) /\
  forall n c o, aget n (cs_basic (d_cs d)) = Some c -> In o (oids c) -> d_owners d o = Some n.
Proof. exact sched_owners. Qed.
Print Assumptions C37_owners.
(** In particular EveryNCalls(d, k) given to b counts the calls of d since b last ran (this is
    the hypothesis of C08). *)
Theorem C37_every_n_calls : forall cyc arr nx input conds tc deid exact du ow w r d0 ks d b a k o,
  new_sched cyc arr input conds tc deid exact du ow nx w = (Ok r, d0) -> performs cyc arr ks d0 = Some d ->
  proper_objects nx ow (SAddSet conds :: set_calls ks) ->
  registered_basic (SAddSet conds :: set_calls ks) b = Some (EveryNCalls o a k) -> every_n_calls b a k (core_of d).
Proof.
  intros cyc arr nx input conds tc deid exact du ow w r d0 ks d b a k o N P PO R.
  destruct (sched_owners _ _ _ _ _ _ _ _ _ _ _ _ _ _ _ N P PO) as (_ & _ & A & B). exists o. simpl. split; auto. eapply B; [apply A; exact R|]. simpl; auto.
Qed.
Print Assumptions C37_every_n_calls.
Definition ex_own_calls : list call :=
  [CSet (SAdd tB (Basic (EveryNCalls 30 tA 2))); CNext 5 (new_gen 0 0 None false); CSet (SAdd tC (Basic (All 31 [AtPass 32 0 ESU; EveryNCalls 33 tA 3])))].
Example ex_C37 : (exists d, performs ref_simple_cycles (fun q => q) ex_own_calls (t_sched ex_free []) = Some d) /\
  proper_objects 100 (fun _ => None) (SAddSet [] :: set_calls ex_own_calls) /\
  registered_basic (SAddSet [] :: set_calls ex_own_calls) tB = Some (EveryNCalls 30 tA 2).
Proof.
  split; [|split; [|reflexivity]].
  - destruct (performs ref_simple_cycles (fun q => q) ex_own_calls (t_sched ex_free [])) as [d|] eqn:E; [eauto|]. exfalso.
    assert (X : (if performs ref_simple_cycles (fun q => q) ex_own_calls (t_sched ex_free []) then true else false) = true) by (vm_compute; reflexivity). rewrite E in X. discriminate.
  - split; [vm_compute; repeat constructor; simpl; intuition discriminate|]. split; [|split; [auto|]].
    + intros o X. simpl in X. split; auto. unfold lt. repeat (destruct X as [<-|X]; [lia|]). destruct X.
    + intros a X. simpl in X. repeat (destruct X as [X|X]; [discriminate|]). destruct X.
Qed.
(** A condition object given to two nodes evaluates for both against the second: with the graph
    A -> C -> B and A -> B, EveryNCalls(A, 2) shared by B and C never lets B run; with an object
    each, B runs after every second call of A. *)
Definition ex_shared (o : oid) : sched := t_sched [(tA, []); (tC, [tA]); (tB, [tA; tC])] [(tB, EveryNCalls 30 tA 2); (tC, EveryNCalls o tA 2)].
Theorem C37_shared_object_refuted :
  t_out (Some (t_tc None (Some (AfterNCalls 91 tA 4 ESU)))) (ex_shared 31) = [[tA]; [tA]; [tC]; [tB]; [tA]; [tA]] /\
  t_out (Some (t_tc None (Some (AfterNCalls 91 tA 4 ESU)))) (ex_shared 30) = [[tA]; [tA]; [tC]; [tA]; [tA]] /\
  d_owners (ex_shared 30) 30 = Some tC /\ aget tB (cs_basic (d_cs (ex_shared 30))) = Some (EveryNCalls 30 tA 2).
Proof. vm_compute. auto. Qed.
Print Assumptions C37_shared_object_refuted.

(** C52: exactly the dicts that map time scales to conditions are accepted (a string naming a
    time scale may be used for a time scale that is also a key), and mean what they say. *)
Theorem C52_parse : forall attr d, wf_dict d -> match parse_termination_conditions attr d with
  | (Ok p, d') => ~ names_missing attr d /\ well_formed attr d /\ map fst d' = map fst d /\ forall t, td_conds p t = entry_cond attr d t
  | (Err ex, d') => (ex = ERuntime /\ names_missing attr d /\ length d' = S (length d)) \/
                    (ex = EScheduler /\ ~ names_missing attr d /\ ~ well_formed attr d)
  end.
Proof. exact parse_spec. Qed.
Print Assumptions C52_parse.
Theorem C52_parse_conditions : forall attr d, wf_dict d -> (forall k v, In (k, v) d -> exists t c, k = KScale t /\ v = VCond c) ->
  exists p d', parse_termination_conditions attr d = (Ok p, d') /\
    forall t c, td_conds p t = Some c <-> In (KScale t, VCond c) d.
Proof. exact parse_plain. Qed.
Print Assumptions C52_parse_conditions.
(** the conditions stored by any assignments: for every time scale the most recent one given for
    it since None was assigned, otherwise the constructor's *)
Theorem C52_assignments : forall attr l d d', (forall a, In (Some a) l -> wf_dict a) -> d_tc d = d_default_tc d -> assigns attr l d = Some d' ->
  d_default_tc d' = d_default_tc d /\ forall t, d_tc d' t = in_force attr (d_default_tc d) (rev l) t.
Proof. exact assigns_spec. Qed.
Print Assumptions C52_assignments.
(** an assignment that raises changes nothing *)
Theorem C52_assignment_errors : forall attr a d ex d' a', assign_termination_conds attr a d = (Err ex, d', a') -> d' = d.
Proof. intros attr [a|] d ex d' a' E; simpl in E; [|discriminate]. destruct (parse_termination_conditions attr a) as [[|] ?]; inversion E; auto. Qed.
Print Assumptions C52_assignment_errors.
(** the constructor's: those given, otherwise Never for the environment sequence and AllHaveRun
    for the environment state update *)
Theorem C52_constructor : forall cyc arr input conds tc deid exact du ow nx w r d, new_sched cyc arr input conds tc deid exact du ow nx w = (Ok r, d) ->
  d_tc d = d_default_tc d /\ forall t, d_tc d t = match match tc with Some f => f t | None => None end with
    | Some c => Some c
    | None => match t with ES => Some (Never 0) | ESU => Some (AllHaveRun 1 [] ESU) | _ => None end
    end.
Proof.
  intros cyc arr input conds tc deid exact du ow nx w r d E. unfold new_sched in E. destruct (arg_graph input); [|discriminate].
  assert (X : d_tc d = match tc with None => default_tc 0 1 | Some t => combine_tconds (default_tc 0 1) t end /\ d_default_tc d = d_tc d).
  { destruct conds; [inversion E; subst; auto|]. unfold add_condition_set in E. destruct (cs_add_set _ _ _) as [[[|] cs] ow']; [|discriminate].
    destruct (sync_set_stack _ _ _ _ _ E) as (st & l & ->). simpl. auto. }
  destruct X as [X Y]. split; auto. intros t. rewrite X. destruct tc as [f|]; unfold combine_tconds, default_tc; [destruct (f t)|]; auto.
Qed.
Print Assumptions C52_constructor.
(** the conditions a run works with: those given to run, otherwise the stored ones, which the
    run does not change *)
Theorem C52_run : forall fuel m g m' g' s, g_pc g = PStart -> resume fuel m g = (m', g', OYield s) ->
  m_tconds m' = m_tconds m /\
  forall t, g_tc g' t = match match g_tcarg g with Some f => f t | None => None end with Some c => Some c | None => m_tconds m t end.
Proof.
  intros fuel m g m' g' s P R. pose proof (grown_resume _ _ _ _ _ _ R) as G. split; [apply (gw_tconds _ _ _ G)|].
  unfold resume in R. rewrite P in R. cbv zeta in R. destruct (start m g) as [[g1|] m1] eqn:S; [|discriminate].
  assert (T : forall t, g_tc g1 t = match match g_tcarg g with Some f => f t | None => None end with Some c => Some c | None => m_tconds m t end).
  { unfold start in S. destruct (validate_run_state m) as [[x|] m0] eqn:V; [|discriminate].
    assert (TM : m_tconds m0 = m_tconds m).
    { unfold validate_run_state in V. destruct (toposort _); try discriminate. destruct (add_defaults _ _) eqn:A; inversion V; subst. apply (gw_tconds _ _ _ (grown_defaults (g_eid g) _ _ _ A)). }
    cbv zeta in S. destruct (setup_absolute _ _ _); [|discriminate]. destruct (init_counts_base _ _ _) as [[|] ?]; inversion S; subst; simpl.
    intros t. destruct (g_tcarg g); [unfold combine_tconds; destruct (t0 t)|]; rewrite ?TM; auto. }
  assert (K : forall fuel m g m' g' s, outer fuel m g = (m', g', OYield s) -> g_tc g' = g_tc g).
  { clear. induction fuel as [|f IH]; intros m g m' g' s E; cbn [outer] in E; [discriminate|].
    destruct (terminated m (g_eid g) (g_tc g)) as [[[|]|] m1]; try discriminate.
    - unfold finish in E. destruct (if g_skip g then _ else _); [|discriminate]. destruct (check_tc _ _ _ _) as [[|] ?]; [destruct (x_list _)|]; discriminate.
    - destruct (inner _ _ _ _ _) as [m3 s3 i c|m3 c|m3 ex|m3]; try discriminate; [inversion E; auto|].
      destruct (pass_tail m3 g c); try discriminate; [inversion E; auto|eauto]. }
  intros t. rewrite (K _ _ _ _ _ _ R). auto.
Qed.
Print Assumptions C52_run.
(** the same with the dicts that the user gives: to the constructor (a string naming the
    environment sequence or state update is understood here) ... *)
Theorem C52_constructor_dict : forall attr arg, wf_dict arg -> match init_termination_conds attr (Some arg) with
  | Ok p => ~ names_missing_besides attr [ES; ESU] arg /\ well_formed attr arg /\
      forall t, td_conds p t = match entry_cond attr arg t with
        | Some c => Some c
        | None => match t with ES => Some (Never 0) | ESU => Some (AllHaveRun 1 [] ESU) | _ => None end
        end
  | Err ex => (ex = ERuntime /\ names_missing_besides attr [ES; ESU] arg) \/
      (ex = EScheduler /\ ~ names_missing_besides attr [ES; ESU] arg /\ ~ well_formed attr arg)
  end.
Proof. exact init_spec. Qed.
Print Assumptions C52_constructor_dict.
(** ... and to run *)
Theorem C52_run_dict : forall attr arg d, wf_dict arg -> match run_termination_conds attr (Some arg) d with
  | Ok f => ~ names_missing attr arg /\ well_formed attr arg /\
      forall t, f t = match entry_cond attr arg t with Some c => Some c | None => d_tc d t end
  | Err ex => (ex = ERuntime /\ names_missing attr arg) \/ (ex = EScheduler /\ ~ names_missing attr arg /\ ~ well_formed attr arg)
  end.
Proof. exact run_spec. Qed.
Print Assumptions C52_run_dict.
(** Documented keys are time scales or strings.  A string alone raises RuntimeError, and the
    caller's dict gets an additional entry. *)
Definition ex_attr (s : string) : option timescale := if String.eqb s "environment_state_update" then Some ESU else if String.eqb s "pass" then Some PASS else None.
Theorem C52_string_keys_refuted : exists s c d', ex_attr s = Some ESU /\
  parse_termination_conditions ex_attr [(KStr s, VCond c)] = (Err ERuntime, d') /\ d' = [(KStr s, VCond c); (KScale ESU, VCond c)].
Proof. exists "environment_state_update"%string, (Always 30). eexists. repeat split; vm_compute; reflexivity. Qed.
Print Assumptions C52_string_keys_refuted.
Example ex_C52 : exists d, assigns ex_attr [Some [(KScale ESU, VCond (Always 30)); (KScale PASS, VCond (Always 31))]; None; Some [(KScale ES, VCond (AtPass 32 1 ESU))];
    Some [(KScale ESU, VCond (Never 33)); (KStr "environment_state_update", VCond (Always 34))]] (t_sched ex_free []) = Some d /\
  d_tc d ES = Some (AtPass 32 1 ESU) /\ d_tc d ESU = Some (Always 34) /\ d_tc d PASS = None /\
  parse_termination_conditions ex_attr [(KOther 3, VCond (Always 30))] = (Err EScheduler, [(KOther 3, VCond (Always 30))]) /\
  parse_termination_conditions ex_attr [(KScale ES, VOther 3)] = (Err EScheduler, [(KScale ES, VOther 3)]) /\
  (exists p, init_termination_conds ex_attr (Some [(KStr "environment_state_update", VCond (Always 30))]) = Ok p /\
     td_conds p ESU = Some (Always 30) /\ td_conds p ES = Some (Never 0)) /\
  init_termination_conds ex_attr (Some [(KStr "pass", VCond (Always 30))]) = Err ERuntime.
Proof. eexists. split; [reflexivity|]. repeat split; try (eexists; split; [reflexivity|]); repeat split; vm_compute; reflexivity. Qed.

(** What a Scheduler is made from (C46, C49).  A dependency dict with iterable values: the nodes
    are the keys and the senders mentioned, the edges those given. *)
Theorem C46_constructor : forall cyc arr g tc deid exact du ow nx w, NoDup (akeys g) -> all_iterable g ->
  exists d b, new_sched cyc arr (ArgDict g) [] tc deid exact du ow nx w = (Ok tt, d) /\ fst (get_graph cyc arr d) = Ok b /\ wf_graph b /\ closed_graph b /\
  d_nodes d = gkeys b /\ (forall n, In n (gkeys b) <-> In n (akeys g) \/ exists k v, In (k, v) g /\ denotes v n) /\
  (forall a c, edge b a c <-> exists v, aget c g = Some v /\ denotes v a).
Proof.
  intros cyc arr g tc deid exact du ow nx w ND IT. destruct (GraphFacts.base_graph_spec g ND IT) as (b & E & W & C & N & D).
  unfold new_sched. cbn [arg_graph]. rewrite E. eexists. exists b. split; [reflexivity|]. split; [reflexivity|]. auto.
Qed.
Print Assumptions C46_constructor.
(** Nothing, or an undirected graph: SchedulerError, whatever the other arguments. *)
Theorem C46_no_graph : forall cyc arr conds tc deid exact du ow nx w, fst (new_sched cyc arr ArgOther conds tc deid exact du ow nx w) = Err EScheduler.
Proof. reflexivity. Qed.
Print Assumptions C46_no_graph.
(** A networkx.DiGraph: its nodes and its edges. *)
Theorem C49_constructor : forall cyc arr dg tc deid exact du ow nx w, (forall a b, In b (dg_adj dg a) -> In a (dg_nodes dg) /\ In b (dg_nodes dg)) ->
  exists d b, new_sched cyc arr (ArgDiGraph dg) [] tc deid exact du ow nx w = (Ok tt, d) /\ fst (get_graph cyc arr d) = Ok b /\ wf_graph b /\
  d_nodes d = gkeys b /\ (forall x, In x (gkeys b) <-> In x (dg_nodes dg)) /\ (forall x y, edge b x y <-> In y (dg_adj dg x)).
Proof.
  intros cyc arr dg tc deid exact du ow nx w H. destruct (GraphFacts.from_digraph true dg H) as (W & D & N).
  eexists. exists (networkx_digraph_to_dependency_dict true dg). split; [reflexivity|]. split; [reflexivity|]. split; [exact W|]. split; [reflexivity|]. split; [|exact D].
  intros x. rewrite N. split; [intros [[_ X]|(a & X)]; [exact X|apply (H _ _ X)]|auto].
Qed.
Print Assumptions C49_constructor.
(** 1 -> 2, 1 -> 3, and 4 alone; a dict in which 2 is only mentioned *)
Example ex_C49_constructor : let dg := dependency_dict_to_networkx_digraph [(1, []); (2, [1]); (3, [1]); (4, [])] in
  (forall a b, In b (dg_adj dg a) -> In a (dg_nodes dg) /\ In b (dg_nodes dg)) /\
  fst (get_graph ref_simple_cycles (fun q => q) (snd (new_sched ref_simple_cycles (fun q => q) (ArgDiGraph dg) [] None 0 false (ms 1) (fun _ => None) 100 t_world)))
    = Ok [(1, []); (2, [1]); (3, [1]); (4, [])] /\
  fst (get_graph ref_simple_cycles (fun q => q) (snd (new_sched ref_simple_cycles (fun q => q) (ArgDict [(1, VIter [2])]) [] None 0 false (ms 1) (fun _ => None) 100 t_world)))
    = Ok [(2, []); (1, [2])].
Proof.
  split; [|split; vm_compute; reflexivity]. intros a b I. vm_compute in I. vm_compute. destruct a as [|[|a]]; simpl in I; intuition.
Qed.
