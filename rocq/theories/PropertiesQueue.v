(** More about C17, C33 and C35: the queue of a scheduler, constructing condition sets,
    assigning to them, and forgetting an execution id. *)
From Verif Require Import BaseFacts SpecGraph SpecSched SpecGSC SpecChange CondSetFacts SchedFacts SchedThms ChangeFacts QueueFacts Tests.

(** C33: consideration_queue and consideration_queue_indices of a scheduler after any calls
    without an exception.  In exact time mode the queue has one set, of all nodes.  Otherwise a
    cyclic graph gives one empty set; for an acyclic one a node is in the set whose number is
    the length of the longest chain of senders that ends in it.  The indices are those of
    standard mode in both modes. *)
Theorem C33_queue : forall cyc arr is_s nx input base conds tc deid exact du ow w r d0 ks d g d',
  (forall q, Forall2 (@Permutation node) q (arr q)) -> arg_graph input = Ok base -> wf_graph base -> closed_graph base ->
  new_sched cyc arr input conds tc deid exact du ow nx w = (Ok r, d0) -> performs cyc arr ks d0 = Some d ->
  well_kinded is_s nx (SAddSet conds :: set_calls ks) -> added_once (SAddSet conds :: set_calls ks) ->
  (forall p, In p (registered_struct (SAddSet conds :: set_calls ks)) -> keeps_nodes (sc_gsc (snd p))) ->
  get_graph cyc arr d = (Ok g, d') ->
  (d_exact d = true -> fst (get_queue cyc arr d) = Ok [gkeys g]) /\
  (cyclic g -> fst (get_indices cyc arr d) = Ok [] /\ (d_exact d = false -> fst (get_queue cyc arr d) = Ok [[]])) /\
  (~ cyclic g -> exists q is, fst (get_indices cyc arr d) = Ok is /\ (d_exact d = false -> fst (get_queue cyc arr d) = Ok q) /\
     (forall n i, (exists l, nth_error q i = Some l /\ In n l) <-> in_graph g n /\ (exists a, walk g a i n) /\ (forall a k, walk g a k n -> k <= i)) /\
     (forall n i, aget n is = Some i <-> in_graph g n /\ (exists a, walk g a i n) /\ (forall a k, walk g a k n -> k <= i))).
Proof. exact sched_queue. Qed.
Print Assumptions C33_queue.
(** A run whose graph has become cyclic while it was suspended does not raise (a new one does,
    C25_cycle_raises), but executes nothing: in standard mode it yields empty sets only. *)
Theorem C33_cyclic_idle : forall cyc arr is_s nx input base conds tc deid exact du ow w r d0 ks d gr d',
  (forall q, Forall2 (@Permutation node) q (arr q)) -> arg_graph input = Ok base -> wf_graph base -> closed_graph base ->
  new_sched cyc arr input conds tc deid exact du ow nx w = (Ok r, d0) -> performs cyc arr ks d0 = Some d ->
  well_kinded is_s nx (SAddSet conds :: set_calls ks) -> added_once (SAddSet conds :: set_calls ks) ->
  (forall p, In p (registered_struct (SAddSet conds :: set_calls ks)) -> keeps_nodes (sc_gsc (snd p))) ->
  get_graph cyc arr d = (Ok gr, d') -> cyclic gr -> d_exact d = false ->
  forall d1 g1 ts g fuel d2 g2 s, srunning cyc arr d1 g1 ts d g -> g_pc g1 = PStart -> sresume cyc arr fuel d g = (d2, g2, OYield s) -> s = [].
Proof. exact cyclic_idle. Qed.
Print Assumptions C33_cyclic_idle.
(** the graph A -> B -> C; AddEdgeTo(A) owned by C makes it cyclic.  Before, B has index 1; the
    run that was suspended after its first set goes on with an empty set. *)
Definition ex_line : graph := [(tA, []); (tB, [tA]); (tC, [tB])].
Definition ex_loop (d : sched) : sched := snd (add_condition ref_simple_cycles (fun q => q) tC (Struct (mkS 40 (GAddEdgeTo tA))) d).
Example ex_C33_queue : let d := t_sched ex_line [] in
  fst (get_queue ref_simple_cycles (fun q => q) d) = Ok [[tA]; [tB]; [tC]] /\
  fst (get_indices ref_simple_cycles (fun q => q) d) = Ok [(tA, 0); (tB, 1); (tC, 2)] /\
  (let '(d1, g1, o1) := sresume ref_simple_cycles (fun q => q) 5 d (new_gen 0 0 None false) in
   o1 = OYield [tA] /\
   fst (add_condition ref_simple_cycles (fun q => q) tC (Struct (mkS 40 (GAddEdgeTo tA))) d1) = Ok tt /\
   fst (get_queue ref_simple_cycles (fun q => q) (ex_loop d1)) = Ok [[]] /\
   fst (get_indices ref_simple_cycles (fun q => q) (ex_loop d1)) = Ok [] /\
   let '(d2, g2, o2) := sresume ref_simple_cycles (fun q => q) 5 (ex_loop d1) g1 in
   let '(d3, g3, o3) := sresume ref_simple_cycles (fun q => q) 5 d2 g2 in
   o2 = OYield [] /\ o3 = OYield [] /\ snd (sresume ref_simple_cycles (fun q => q) 5 d3 (new_gen 0 0 None false)) = ORaise EScheduler).
Proof. vm_compute. repeat split. Qed.

(** C35: ConditionSet(s1, ..., sk) succeeds exactly when adding the sets one after the other to
    an empty condition set does, and gives the same; C35_condition_set says what that is. *)
Theorem C35_new : forall ds ow cs' ow',
  cs_new ds ow = (Ok tt, cs', ow') <-> set_performs (map SAddSet ds) (cs_empty, ow) = Some (cs', ow').
Proof. exact cs_new_performs. Qed.
Print Assumptions C35_new.
(** conditions[w] = c is add_condition(w, c) if no structural condition is registered for w;
    otherwise it raises TypeError and changes nothing. *)
Theorem C35_setitem : forall ow0 ks cs ow w a, distinct_objects ks -> set_performs ks (cs_empty, ow0) = Some (cs, ow) ->
  (owned w (registered_struct ks) = [] -> cs_setitem w a cs ow = cs_add w a cs ow) /\
  (owned w (registered_struct ks) <> [] -> cs_setitem w a cs ow = Err EType).
Proof.
  intros ow0 ks cs ow w a D P. destruct (condset_refines _ _ _ _ D P) as (_ & _ & S & _). specialize (S w). unfold cs_setitem. rewrite S.
  destruct (owned w (registered_struct ks)) as [|x l]; split; intros H; auto; try discriminate; congruence.
Qed.
Print Assumptions C35_setitem.
(** finding: so an owner with a structural condition cannot be assigned to *)
Theorem C35_setitem_refuted : exists ks cs ow a, distinct_objects ks /\ set_performs ks (cs_empty, fun _ => None) = Some (cs, ow) /\
  cs_contains tA cs = true /\ (exists x, cs_add tA a cs ow = Ok x) /\ cs_setitem tA a cs ow = Err EType.
Proof.
  exists [SAdd tA (Struct (mkS 40 (GAddEdgeTo tB)))]. eexists. eexists. exists (Basic (Always 41)).
  split; [|split; [vm_compute; reflexivity|split; [vm_compute; reflexivity|split; [eexists|]; vm_compute; reflexivity]]].
  split; [vm_compute; repeat constructor; simpl; tauto|]. intros a w b [X|[]]. discriminate X.
Qed.
Print Assumptions C35_setitem_refuted.
Example ex_C35_new :
  match cs_new [[(tA, One (Basic (Always 30)))]; [(tA, One (Basic (Never 31))); (tB, Many [Struct (mkS 32 (GAddEdgeTo tC)); Basic (Always 33)])]] (fun _ => None) with
  | (Ok _, cs, ow) => cs_getitem tA cs = Some (One (Basic (Never 31))) /\
      cs_getitem tB cs = Some (Many [Basic (Always 33); Struct (mkS 32 (GAddEdgeTo tC))]) /\ ow 32 = Some tB /\
      cs_setitem tB (Basic (Never 34)) cs ow = Err EType
  | _ => False end.
Proof. vm_compute. auto. Qed.

(** C17: deleting the counts of an execution id forgets it (counts, useable counts, list of
    sets, time stamps, clock), so that the next run starts from its base as for a new id
    (C17_copied_from_base), and concerns no other id and nothing else. *)
Theorem C17_deleted : forall m e, let m' := delete_counts m e in
  x_total (m_ctxs m' e) = None /\ x_use (m_ctxs m' e) = None /\ x_list (m_ctxs m' e) = None /\ x_stamps (m_ctxs m' e) = None /\ x_clock (m_ctxs m' e) = None /\
  (forall e', e' <> e -> m_ctxs m' e' = m_ctxs m e') /\
  m_graph m' = m_graph m /\ m_levels m' = m_levels m /\ m_basic m' = m_basic m /\ m_owners m' = m_owners m /\ m_cst m' = m_cst m /\ m_tconds m' = m_tconds m.
Proof. intros m e. simpl. unfold upd. rewrite Nat.eqb_refl. repeat (split; [reflexivity|]). split; [|repeat split]. intros e' N. destruct (Nat.eqb_spec e' e); congruence. Qed.
Print Assumptions C17_deleted.
