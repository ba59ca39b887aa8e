(** Property theorems about execution ids and about runs that do not end normally
    (C15 - C17, C25, C53, C54). *)
From Verif Require Import IdFacts.

(** ** C15: what a generator does, and the entries of its execution id, are the same as when it
    is resumed the same number of times with nothing in between *)
Theorem C15_isolation : forall fuel m0 g0 os m g, interleaved fuel m0 g0 os m g -> g_pc g0 = PStart ->
  quiet_scheduler m0 -> quiet_run g0 -> initialised (m_ctxs m0 (g_eid g0)) ->
  exists m1, alone fuel (length os) m0 g0 = (os, m1, g) /\ m_ctxs m (g_eid g0) = m_ctxs m1 (g_eid g0).
Proof. exact isolation. Qed.
Print Assumptions C15_isolation.
(** with any conditions whatsoever, a resumption leaves the other execution ids alone *)
Theorem C15_others_untouched : forall fuel m g m' g' o e, resume fuel m g = (m', g', o) -> e <> g_eid g -> m_ctxs m' e = m_ctxs m e.
Proof. intros fuel m g m' g' o e H N. apply (gw_other _ _ _ (grown_resume _ _ _ _ _ _ H)); auto. Qed.
Print Assumptions C15_others_untouched.
(** side effects are not isolated: one run can change what another one yields *)
Definition ex_two (c : cond) : core := set_ctx (core_of (t_sched gA_B [(tA, c); (tB, Always 11)])) 1 fresh_ctx.
Definition ex_two_gen (e : eid) : gen := new_gen e e (Some (t_tc None (Some (AfterNPasses 91 3 ESU)))) false.
(** a condition that is true the first time anybody asks *)
Definition once : cond := CAtom 10 (ACustom (fun _ _ _ w =>
  (Ok (Nat.eqb (w_user w 0) 0), mkWorld (w_finished w) (w_param w) (fun k => S (w_user w k))))).
Theorem C15_side_effects_refuted : exists m0 g0 m m' g' o, others (g_eid g0) m0 m /\ initialised (m_ctxs m0 (g_eid g0)) /\ quiet_run g0 /\ g_pc g0 = PStart /\
  resume 5 m g0 = (m', g', o) /\ snd (resume 5 m0 g0) <> o.
Proof.
  destruct (resume 5 (ex_two once) (ex_two_gen 1)) as [[m1 g1] o1] eqn:E1. destruct (resume 5 m1 (ex_two_gen 0)) as [[m2 g2] o2] eqn:E2.
  assert (Qr : forall e, quiet_run (ex_two_gen e)).
  { intros e. split; [intros s c H; discriminate|]. intros tc E. inversion E; subst. intros s c. destruct s; simpl; intros X; inversion X; subst; simpl; auto. }
  exists (ex_two once), (ex_two_gen 0), m1, m2, g2, o2. split; [|split; [|split; [apply Qr|split; [reflexivity|split; [exact E2|]]]]].
  - eapply ot_resume with (g := ex_two_gen 1) (fuel := 5); [apply ot_none|discriminate|apply Qr|exact E1].
  - split; [discriminate|split; discriminate].
  - assert (A : snd (resume 5 (ex_two once) (ex_two_gen 0)) = OYield [tA; tB]) by (vm_compute; reflexivity). rewrite A.
    assert (B : snd (resume 5 (fst (fst (resume 5 (ex_two once) (ex_two_gen 1)))) (ex_two_gen 0)) = OYield [tB]) by (vm_compute; reflexivity).
    rewrite E1 in B. cbn [fst] in B. rewrite E2 in B. simpl in B. rewrite B. discriminate.
Qed.
Print Assumptions C15_side_effects_refuted.
(** three resumptions of id 0, with one of id 1 before the second *)
Example ex_C15 : exists os m g, interleaved 5 (ex_two (NWhen 10 (Always 12) 2)) (ex_two_gen 0) os m g /\
  os = [OYield [tA; tB]; OYield [tA; tB]; OYield [tB]] /\ m_ctxs m 1 <> m_ctxs (ex_two (NWhen 10 (Always 12) 2)) 1 /\
  quiet_scheduler (ex_two (NWhen 10 (Always 12) 2)).
Proof.
  set (m0 := ex_two (NWhen 10 (Always 12) 2)).
  destruct (resume 5 m0 (ex_two_gen 0)) as [[m1 g1] o1] eqn:E1. destruct (resume 5 m1 (ex_two_gen 1)) as [[m2 h2] o2] eqn:E2.
  destruct (resume 5 m2 g1) as [[m3 g3] o3] eqn:E3. destruct (resume 5 m3 g3) as [[m4 g4] o4] eqn:E4.
  assert (Qr : forall e, quiet_run (ex_two_gen e)).
  { intros e. split; [intros s c H; discriminate|]. intros tc E. inversion E; subst. intros s c. destruct s; simpl; intros X; inversion X; subst; simpl; auto. }
  assert (X1 : m1 = fst (fst (resume 5 m0 (ex_two_gen 0))) /\ g1 = snd (fst (resume 5 m0 (ex_two_gen 0)))) by (rewrite E1; auto).
  assert (X2 : m2 = fst (fst (resume 5 m1 (ex_two_gen 1)))) by (rewrite E2; auto).
  assert (X3 : m3 = fst (fst (resume 5 m2 g1)) /\ g3 = snd (fst (resume 5 m2 g1))) by (rewrite E3; auto).
  assert (X4 : m4 = fst (fst (resume 5 m3 g3))) by (rewrite E4; auto).
  assert (O1 : o1 = OYield [tA; tB]) by (replace o1 with (snd (resume 5 m0 (ex_two_gen 0))) by (rewrite E1; auto); vm_compute; reflexivity).
  assert (O3 : o3 = OYield [tA; tB]).
  { replace o3 with (snd (resume 5 m2 g1)) by (rewrite E3; auto). destruct X1 as [-> ->]. subst m2. vm_compute; reflexivity. }
  assert (O4 : o4 = OYield [tB]).
  { replace o4 with (snd (resume 5 m3 g3)) by (rewrite E4; auto). destruct X3 as [-> ->]. destruct X1 as [-> ->]. subst m2. vm_compute; reflexivity. }
  exists ((([] ++ [o1]) ++ [o3]) ++ [o4]), m4, g4. split; [|split; [|split]].
  - eapply il_resume; [|exact E4|subst; discriminate]. eapply il_resume; [|exact E3|subst; discriminate].
    eapply il_others; [eapply il_resume; [apply il_created|exact E1|subst; discriminate]|].
    eapply ot_resume with (g := ex_two_gen 1) (fuel := 5); [apply ot_none|discriminate|apply Qr|exact E2].
  - subst. reflexivity.
  - intros C. assert (C2 : x_list (m_ctxs m4 1) = x_list (m_ctxs m0 1)) by (rewrite C; auto).
    rewrite X4 in C2. destruct X3 as [-> ->]. destruct X1 as [-> ->]. subst m2. vm_compute in C2. discriminate.
  - split.
    + intros s c. destruct s; simpl; intros X; inversion X; subst; simpl; auto.
    + intros n c H. unfold m0 in H. change (m_basic (ex_two (NWhen 10 (Always 12) 2))) with [(tA, NWhen 10 (Always 12) 2); (tB, Always 11)] in H.
      simpl in H. destruct (Nat.eqb n tA); [inversion H; subst; simpl; auto|]. destruct (Nat.eqb n tB); inversion H; subst; simpl; auto.
Qed.

(** ** C16: id 0 stands for None; whenever run(execution_id=default) does not raise, run() does *)
Theorem C16_default_id_ignored : forall cyc arr input conds tc deid exact du ow nx w d fuel tc' skip,
  new_sched cyc arr input conds tc deid exact du ow nx w = (Ok tt, d) -> deid <> 0 ->
  (forall ex, snd (sresume cyc arr fuel d (new_gen deid 0 tc' skip)) <> ORaise ex) ->
  snd (sresume cyc arr fuel d (new_gen 0 0 tc' skip)) = ORaise EScheduler.
Proof. exact default_id_unused. Qed.
Print Assumptions C16_default_id_ignored.
Definition ex_id_sched : res unit * sched :=
  new_sched ref_simple_cycles (fun q => q) (t_graph gAB) [] None 7 false (ms 1) (fun _ => None) 100 t_world.
Theorem C16_default_id_used_refuted : exists d, ex_id_sched = (Ok tt, d) /\
  snd (sresume ref_simple_cycles (fun q => q) 5 d (new_gen 7 0 None false)) = OYield [tA] /\
  snd (sresume ref_simple_cycles (fun q => q) 5 d (new_gen 0 0 None false)) = ORaise EScheduler.
Proof.
  exists (snd ex_id_sched). split; [|split; vm_compute; reflexivity].
  destruct ex_id_sched as [r d] eqn:E. assert (R : fst ex_id_sched = Ok tt) by (vm_compute; reflexivity). rewrite E in R. simpl in *; subst; auto.
Qed.
Print Assumptions C16_default_id_used_refuted.

(** ** C17: as long as the base context stays as it was, the new id continues its history *)
Theorem C17_copied_from_base : forall m0 g0 ys m g tb lb,
  running_while (fun m => m_ctxs m (g_base g0) = m_ctxs m0 (g_base g0)) m0 g0 ys m g -> g_pc g0 = PStart -> ys <> [] ->
  x_total (m_ctxs m0 (g_eid g0)) = None -> x_list (m_ctxs m0 (g_eid g0)) = None ->
  x_total (m_ctxs m0 (g_base g0)) = Some tb -> x_list (m_ctxs m0 (g_base g0)) = Some lb ->
  x_list (m_ctxs m (g_eid g0)) = Some (lb ++ ys) /\
  exists t, x_total (m_ctxs m (g_eid g0)) = Some t /\ forall n,
    t LIFE n = tb LIFE n + occurrences n ys /\ t ES n = tb ES n + occurrences n ys /\ t ESU n = occurrences n ys.
Proof. exact copied. Qed.
Print Assumptions C17_copied_from_base.
Theorem C17_unknown_base : forall fuel m g, g_pc g = PStart -> x_total (m_ctxs m (g_eid g)) = None -> x_total (m_ctxs m (g_base g)) = None ->
  exists m' ex, resume fuel m g = (m', at_pc g PDone, ORaise ex).
Proof. exact unknown_base. Qed.
Print Assumptions C17_unknown_base.
Theorem C17_unknown_base_error : forall fuel m e base e' base' tc skip, x_total (m_ctxs m e) = None -> x_total (m_ctxs m base) = None ->
  (forall ex, snd (resume fuel m (new_gen e' base' tc skip)) <> ORaise ex) ->
  snd (resume fuel m (new_gen e base tc skip)) = ORaise EScheduler.
Proof. exact unknown_base_error. Qed.
Print Assumptions C17_unknown_base_error.
(** finding: no execution id but the default one has a list of time stamps, so no other id ever
    yields in absolute time mode *)
Theorem C17_absolute_never_yields : forall fuel m g m' g' s, g_pc g = PStart -> x_stamps (m_ctxs m (g_eid g)) = None ->
  resume fuel m g = (m', g', OYield s) -> existsb is_absolute (map snd (m_basic m) ++ tc_list (run_tc m g)) = false.
Proof. exact absolute_needs_stamps. Qed.
Print Assumptions C17_absolute_never_yields.
Theorem C17_absolute_refuted : exists m tc, snd (resume 5 m (new_gen 0 0 tc false)) = OYield [tA; tB] /\
  m_ctxs m 1 = ctx_none /\ snd (resume 5 m (new_gen 1 0 tc false)) = ORaise EKey.
Proof. exists ex_abs_core, (g_tcarg ex_abs_gen). split; [|split]; vm_compute; reflexivity. Qed.
Print Assumptions C17_absolute_refuted.
(** a run of id 1 after four sets were executed with id 0 *)
Example ex_C17 : exists m, m_ctxs m 1 = ctx_none /\
  running_while (fun m' => m_ctxs m' 0 = m_ctxs m 0) m (new_gen 1 0 (g_tcarg ex_gen) false) [[tA]]
    (fst (fst (resume 5 m (new_gen 1 0 (g_tcarg ex_gen) false)))) (snd (fst (resume 5 m (new_gen 1 0 (g_tcarg ex_gen) false)))) /\
  x_list (m_ctxs m 0) = Some [[tA]; [tA]; [tB]; [tA]].
Proof.
  exists (ex_state 4 ex_core ex_gen). set (m := ex_state 4 ex_core ex_gen). set (g := new_gen 1 0 (g_tcarg ex_gen) false).
  split; [vm_compute; reflexivity|]. split; [|vm_compute; reflexivity].
  destruct (resume 5 m g) as [[m1 g1] o] eqn:E.
  assert (O : snd (resume 5 m g) = OYield [tA]) by (vm_compute; reflexivity). rewrite E in O. simpl in O. subst o.
  apply (rw_yields _ _ _ [] m g 5 m1 g1 [tA]); auto using rw_created. eapply C15_others_untouched; eauto. discriminate.
Qed.

(** ** C25 *)
Theorem C25_cycle_raises : forall fuel m g, wf_graph (m_graph m) -> cyclic (m_graph m) -> g_pc g = PStart ->
  resume fuel m g = (m, at_pc g PDone, ORaise EScheduler).
Proof. exact cycle_raises. Qed.
Print Assumptions C25_cycle_raises.
Theorem C25_acyclic_starts : forall m g, wf_graph (m_graph m) -> ~ cyclic (m_graph m) -> (forall n, In n (m_nodes m) -> In n (gkeys (m_graph m))) ->
  initialised (m_ctxs m (g_eid g)) -> existsb is_absolute (map snd (m_basic m) ++ tc_list (run_tc m g)) = false ->
  exists g1 m1, start m g = (Ok g1, m1).
Proof. exact acyclic_starts. Qed.
Print Assumptions C25_acyclic_starts.
Example ex_C25 : cyclic [(tA, [tB]); (tB, [tA])] /\ ~ cyclic (m_graph ex_core).
Proof.
  split.
  - exists tA, 1. eapply walk_step with (b := tB); [eapply walk_step with (b := tA); [apply walk_here| |discriminate]| |discriminate].
    + exists [tA]; split; [reflexivity|left; auto].
    + exists [tB]; split; [reflexivity|left; auto].
  - apply toposort_ok_iff; [apply ex_built|]. destruct ex_built as [(_ & q & E & _) _]. eauto.
Qed.

(** ** C53: the pass numbers of a run go on from those of the abandoned run before it, no
    environment state update is counted in between; counts_total starts again at zero *)
Theorem C53_passes_go_on : forall m0 g0 ts m g g0' ts' m' g' k s k' s', running_in_passes m0 g0 ts m g -> g_pc g0 = PStart ->
  running_in_passes m g0' ts' m' g' -> g_pc g0' = PStart -> g_eid g0' = g_eid g0 ->
  In (k, s) ts -> In (k', s') ts' -> k <= k'.
Proof. exact abandoned. Qed.
Print Assumptions C53_passes_go_on.
Theorem C53_not_counted : forall m0 g0 ts m g g0' ts' m' g' h0, running_in_passes m0 g0 ts m g -> g_pc g0 = PStart -> ts <> [] ->
  running_in_passes m g0' ts' m' g' -> g_pc g0' = PStart -> g_eid g0' = g_eid g0 -> ts' <> [] ->
  clock_after ESU h0 (the_clock (m_ctxs m0 (g_eid g0))) ->
  exists ev, clock_after ESU (h0 ++ ev) (the_clock (m_ctxs m' (g_eid g0))) /\ Forall (fun s => ts_le s PASS) ev /\
    S (S (count CSE ev)) = length ts + length ts'.
Proof. exact abandoned_uncounted. Qed.
Print Assumptions C53_not_counted.
(** after a run that was not abandoned, the next one starts in pass 0 *)
Theorem C53_after_completed_run : forall m0 g0 ys m l h0, returned m0 g0 ys m l -> g_pc g0 = PStart -> g_skip g0 = false ->
  clock_after ESU h0 (the_clock (m_ctxs m0 (g_eid g0))) -> pass_number m (g_eid g0) = 0.
Proof. exact completed_pass. Qed.
Print Assumptions C53_after_completed_run.
(** A AtPass(0), B Always: abandoned in pass 1, the next run does not execute A *)
Definition ex_drop_core : core := core_of (t_sched gA_B [(tA, AtPass 10 0 ESU); (tB, Always 11)]).
Definition ex_drop_gen : gen := new_gen 0 0 (Some (t_tc None (Some (AfterNPasses 91 5 ESU)))) false.
Lemma returns_if : forall fuel m g, match snd (resume fuel m g) with OReturn _ => true | _ => false end = true ->
  exists m' g' l, resume fuel m g = (m', g', OReturn l).
Proof. intros fuel m g X. destruct (resume fuel m g) as [[m' g'] o]. simpl in X. destruct o; try discriminate. eauto. Qed.
Theorem C53_fresh_start_refuted : exists m g m' g',
  running_in_passes ex_drop_core ex_drop_gen [(0, [tA; tB]); (1, [tB])] m g /\
  running_in_passes m ex_drop_gen [(1, [tB]); (2, [tB]); (3, [tB]); (4, [tB])] m' g' /\
  (exists m'' g'' l, resume 5 m' g' = (m'', g'', OReturn l)).
Proof.
  exists (ex_state 2 ex_drop_core ex_drop_gen), (ex_at 2 ex_drop_core ex_drop_gen).
  set (m := ex_state 2 ex_drop_core ex_drop_gen). exists (ex_state 4 m ex_drop_gen), (ex_at 4 m ex_drop_gen).
  split; [apply ex_running; vm_compute; reflexivity|]. split; [apply ex_running; vm_compute; reflexivity|].
  apply returns_if. vm_compute. reflexivity.
Qed.
Print Assumptions C53_fresh_start_refuted.

(** ** C54: after an exception the generator is finished, the list of executions shows what was
    yielded, and at most the accepted part of one consideration set is counted in addition *)
Theorem C54_after_exception : forall m0 g0 ys m g fuel m' g' ex t0 l0, running m0 g0 ys m g -> g_pc g0 = PStart ->
  x_total (m_ctxs m0 (g_eid g0)) = Some t0 -> x_list (m_ctxs m0 (g_eid g0)) = Some l0 -> x_stamps (m_ctxs m0 (g_eid g0)) <> None ->
  resume fuel m g = (m', g', ORaise ex) ->
  exists extra t', accepted_unyielded (queue m0) extra /\
    x_list (m_ctxs m' (g_eid g0)) = Some (l0 ++ ys) /\
    x_total (m_ctxs m' (g_eid g0)) = Some t' /\
    (forall n, t' LIFE n = t0 LIFE n + occurrences n ys + (if mem n extra then 1 else 0)) /\
    forall fuel', resume fuel' m' g' = (m', g', OStop).
Proof. exact crash. Qed.
Print Assumptions C54_after_exception.
(** A Always, B JustRan(A), in one consideration set: the first next() raises IndexError
    (the execution list is still empty) and A stays counted *)
Definition ex_crash_core : core := core_of (t_sched gA_B [(tA, Always 10); (tB, JustRan 11 tA)]).
Theorem C54_counts_agree_refuted : exists m' g' ex, history_agrees (m_ctxs ex_crash_core 0) /\
  resume 5 ex_crash_core ex_drop_gen = (m', g', ORaise ex) /\ ~ history_agrees (m_ctxs m' 0).
Proof.
  destruct (resume 5 ex_crash_core ex_drop_gen) as [[m' g'] o] eqn:E.
  assert (O : snd (resume 5 ex_crash_core ex_drop_gen) = ORaise EIndex) by (vm_compute; reflexivity). rewrite E in O. simpl in O. subst o.
  exists m', g', EIndex. split; [|split; [reflexivity|]].
  - eexists. exists []. split; [vm_compute; reflexivity|]. split; [vm_compute; reflexivity|]. intros n; reflexivity.
  - intros (t & l & Et & El & H). specialize (H tA). assert (X : m' = fst (fst (resume 5 ex_crash_core ex_drop_gen))) by (rewrite E; auto). rewrite X in *.
    assert (L : x_list (m_ctxs (fst (fst (resume 5 ex_crash_core ex_drop_gen))) 0) = Some []) by (vm_compute; reflexivity).
    assert (T : option_map (fun f => f LIFE tA) (x_total (m_ctxs (fst (fst (resume 5 ex_crash_core ex_drop_gen))) 0)) = Some 1) by (vm_compute; reflexivity).
    rewrite Et in T. simpl in T. rewrite El in L. inversion L; inversion T; subst. rewrite H in *. discriminate.
Qed.
Print Assumptions C54_counts_agree_refuted.
(** the third evaluation of B's condition raises, after two yielded sets, with A accepted *)
Definition ex_bomb_core : core := core_of (t_sched gA_B [(tA, Always 10);
  (tB, CAtom 11 (ACustom (fun _ _ _ w => (if Nat.eqb (w_user w 0) 2 then Err (EUser 0) else Ok true,
                                          mkWorld (w_finished w) (w_param w) (fun k => S (w_user w k))))))]).
Example ex_C54 : exists m g m' g', running ex_bomb_core ex_drop_gen [[tA; tB]; [tA; tB]] m g /\ resume 5 m g = (m', g', ORaise (EUser 0)) /\
  x_list (m_ctxs m' 0) = Some [[tA; tB]; [tA; tB]] /\ option_map (fun t => t LIFE tA) (x_total (m_ctxs m' 0)) = Some 3.
Proof.
  exists (ex_state 2 ex_bomb_core ex_drop_gen), (ex_at 2 ex_bomb_core ex_drop_gen).
  destruct (resume 5 (ex_state 2 ex_bomb_core ex_drop_gen) (ex_at 2 ex_bomb_core ex_drop_gen)) as [[m' g'] o] eqn:E. exists m', g'.
  split; [|split; [|split]].
  - assert (R : running_in_passes ex_bomb_core ex_drop_gen [(0, [tA; tB]); (1, [tA; tB])] (ex_state 2 ex_bomb_core ex_drop_gen) (ex_at 2 ex_bomb_core ex_drop_gen))
      by (apply ex_running; vm_compute; reflexivity).
    exact (passes_running _ _ _ _ _ R).
  - replace o with (snd (resume 5 (ex_state 2 ex_bomb_core ex_drop_gen) (ex_at 2 ex_bomb_core ex_drop_gen))) by (rewrite E; auto). vm_compute. reflexivity.
  - replace m' with (fst (fst (resume 5 (ex_state 2 ex_bomb_core ex_drop_gen) (ex_at 2 ex_bomb_core ex_drop_gen)))) by (rewrite E; auto). vm_compute. reflexivity.
  - replace m' with (fst (fst (resume 5 (ex_state 2 ex_bomb_core ex_drop_gen) (ex_at 2 ex_bomb_core ex_drop_gen)))) by (rewrite E; auto). vm_compute. reflexivity.
Qed.
