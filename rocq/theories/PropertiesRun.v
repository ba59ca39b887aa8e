(** Property theorems about runs of a scheduler (C01 - C04, C06 - C12, C14, C45).

    Throughout, [running m0 g0 ys m g] (SpecRun.v) says: the generator g0 was created in
    scheduler state m0, has yielded the sets ys so far, user code may have changed conditions,
    termination conditions, the outside world and other execution ids between the yields
    ([undisturbed]); the state is now m and the generator is now g.  [running_in_passes] also
    records the pass number shown by the clock at each yield. *)
From Verif Require Import RunExamples.

(** ** C01 *)
Theorem C01_one_level : forall m0 g0 ys m g s, running m0 g0 ys m g -> g_pc g0 = PStart -> In s ys ->
  NoDup s /\ (s = [] \/ exists i level, nth_error (queue m0) i = Some level /\ incl s level).
Proof. exact yield_one_level. Qed.
Print Assumptions C01_one_level.
Theorem C01_no_sender_with_receiver : forall m0 g0 ys m g s a b, queue_built m0 -> m_exact m0 = false ->
  running m0 g0 ys m g -> g_pc g0 = PStart -> In s ys -> In a s -> In b s -> edge (m_graph m0) a b -> a = b.
Proof. exact no_sender_with_receiver. Qed.
Print Assumptions C01_no_sender_with_receiver.

(** ** C02 *)
Theorem C02_levels_increase : forall m0 g0 ts m g i j k k' s s', running_in_passes m0 g0 ts m g -> g_pc g0 = PStart ->
  nth_error ts i = Some (k, s) -> nth_error ts j = Some (k', s') -> i < j ->
  pass_number m0 (g_eid g0) <= k <= k' /\
  (k = k' -> exists a b la lb, a < b /\ nth_error (queue m0) a = Some la /\ incl s la /\
                               nth_error (queue m0) b = Some lb /\ incl s' lb).
Proof. exact passes_order. Qed.
Print Assumptions C02_levels_increase.
Theorem C02_once_per_pass : forall m0 g0 ts m g i j k s s' n, queue_built m0 -> running_in_passes m0 g0 ts m g -> g_pc g0 = PStart ->
  nth_error ts i = Some (k, s) -> nth_error ts j = Some (k, s') -> In n s -> In n s' -> i = j.
Proof. exact once_per_pass. Qed.
Print Assumptions C02_once_per_pass.
Theorem C02_senders_first : forall m0 g0 ts m g i j k s s' a b, queue_built m0 -> m_exact m0 = false ->
  running_in_passes m0 g0 ts m g -> g_pc g0 = PStart ->
  nth_error ts i = Some (k, s) -> nth_error ts j = Some (k, s') -> In a s -> In b s' ->
  edge (m_graph m0) a b -> a <> b -> i < j.
Proof. exact senders_first. Qed.
Print Assumptions C02_senders_first.

(** ** C03: if n is added to s after the nodes b, its condition was true in a view that shows
    the clock and history of the yield, and the counts with b added but neither n nor later nodes *)
Theorem C03_sound : forall m0 g0 ys m g fuel m' g' s, running m0 g0 ys m g -> g_pc g0 = PStart ->
  resume fuel m g = (m', g', OYield s) ->
  forall b n r, s = b ++ n :: r -> exists v, considered m' (g_eid g0) ys s b v /\ condition_was m m' g' v n true.
Proof. exact sound. Qed.
Print Assumptions C03_sound.

(** ** C04: the nodes of the level that were left out had a false condition after all of s was
    counted; so had the nodes of the levels passed over in this pass *)
Theorem C04_maximal : forall m0 g0 ys m g fuel m' g' s, running m0 g0 ys m g -> g_pc g0 = PStart ->
  resume fuel m g = (m', g', OYield s) -> s <> [] \/ g_abs g' = true ->
  exists i level, nth_error (queue m0) i = Some level /\ incl s level /\
    forall n, In n level -> ~ In n s -> exists v, considered m' (g_eid g0) ys s s v /\ condition_was m m' g' v n false.
Proof. exact maximal. Qed.
Print Assumptions C04_maximal.
Theorem C04_skipped_levels : forall m0 g0 ts m g fuel m' g' s, running_in_passes m0 g0 ts m g -> g_pc g0 = PStart ->
  resume fuel m g = (m', g', OYield s) -> s <> [] \/ g_abs g' = true ->
  exists before i, map snd before = in_pass (pass_number m' (g_eid g0)) ts /\
    valid_pass (queue m0) (g_abs g') (before ++ [(i, s)]) /\
    forall k level n, (forall j, In j (map fst before) -> j < k) -> k < i -> nth_error (queue m0) k = Some level -> In n level ->
      exists v, considered m' (g_eid g0) (map snd ts) s [] v /\ condition_was m m' g' v n false.
Proof. exact skipped_levels. Qed.
Print Assumptions C04_skipped_levels.
Theorem C04_without_side_effects : forall m m' g' v n b,
  (forall c, used m' (g_tc g') c -> observer (g_eid g') (m_owners m') c) -> condition_was m m' g' v n b ->
  exists c, aget n (m_basic m') = Some c /\ is_satisfied v (g_eid g') (m_owners m') (m_cst m) c = Ok b.
Proof. exact condition_was_pure. Qed.
Print Assumptions C04_without_side_effects.
Theorem C04_plain_conditions : forall e ow c, plain c = true -> observer e ow c.
Proof. exact plain_observer. Qed.
Print Assumptions C04_plain_conditions.
Theorem C04_terminates : forall m e level, do_level (S (length level)) m e level [] <> None.
Proof. exact (do_level_total (tc := fun _ => None)). Qed.
Print Assumptions C04_terminates.

(** ** C06 *)
Theorem C06_counts : forall m0 g0 ts m g t0, running_in_passes m0 g0 ts m g -> g_pc g0 = PStart -> ts <> [] ->
  x_total (m_ctxs m0 (g_eid g0)) = Some t0 ->
  exists t, x_total (m_ctxs m (g_eid g0)) = Some t /\ forall n,
    t LIFE n = t0 LIFE n + occurrences n (map snd ts) /\
    t ES n = t0 ES n + occurrences n (map snd ts) /\
    t ESU n = occurrences n (map snd ts) /\
    t PASS n = occurrences n (in_pass (pass_number m (g_eid g0)) ts) /\
    t CSE n = t PASS n.
Proof. exact run_counts. Qed.
Print Assumptions C06_counts.
Theorem C06_counts_on_return : forall m0 g0 ys m l t0, returned m0 g0 ys m l -> g_pc g0 = PStart ->
  x_total (m_ctxs m0 (g_eid g0)) = Some t0 ->
  exists t, x_total (m_ctxs m (g_eid g0)) = Some t /\ forall n,
    t LIFE n = t0 LIFE n + occurrences n ys /\ t ES n = t0 ES n + occurrences n ys /\ t ESU n = occurrences n ys.
Proof. exact returned_counts. Qed.
Print Assumptions C06_counts_on_return.
Theorem C06_agreement_kept : forall m0 g0 ys m g, running m0 g0 ys m g -> g_pc g0 = PStart ->
  history_agrees (m_ctxs m0 (g_eid g0)) -> history_agrees (m_ctxs m (g_eid g0)).
Proof. exact agrees_kept. Qed.
Print Assumptions C06_agreement_kept.
Theorem C06_agreement_on_return : forall m0 g0 ys m l, returned m0 g0 ys m l -> g_pc g0 = PStart ->
  history_agrees (m_ctxs m0 (g_eid g0)) -> history_agrees (m_ctxs m (g_eid g0)).
Proof. exact agrees_returned. Qed.
Print Assumptions C06_agreement_on_return.

(** ** C07 *)
Theorem C07_useable : forall m0 g0 ys m g, running m0 g0 ys m g -> g_pc g0 = PStart -> ys <> [] ->
  exists u, x_use (m_ctxs m (g_eid g0)) = Some u /\ use_is u (concat ys).
Proof. exact run_use. Qed.
Print Assumptions C07_useable.

(** ** C08 *)
Theorem C08_spacing : forall m0 g0 ys m g b d k, running_while (every_n_calls b d k) m0 g0 ys m g -> g_pc g0 = PStart -> d <> b ->
  forall A B, concat ys = A ++ b :: B -> exists j, runs_since d b A j /\ k <= j.
Proof. exact every_n_calls_spacing. Qed.
Print Assumptions C08_spacing.
Theorem C08_rate : forall m0 g0 ys m g b d k, running_while (every_n_calls b d k) m0 g0 ys m g -> g_pc g0 = PStart -> d <> b ->
  k * occurrences b ys <= occurrences d ys.
Proof. exact every_n_calls_occurrences. Qed.
Print Assumptions C08_rate.

(** ** C09 *)
Theorem C09_yield_only_while_false : forall m0 g0 ys m g fuel m' g' s, running m0 g0 ys m g -> g_pc g0 = PStart ->
  resume fuel m g = (m', g', OYield s) -> s <> [] \/ g_abs g' = true ->
  exists v, considered m' (g_eid g0) ys s [] v /\ termination_was_false m m' g' v.
Proof. exact termination_false. Qed.
Print Assumptions C09_yield_only_while_false.
Theorem C09_stops_at_start : forall m g g1 m1 fuel h0, g_pc g = PStart -> start m g = (Ok g1, m1) ->
  clock_after ESU h0 (the_clock (m_ctxs m (g_eid g))) ->
  says_stop (view_of m1 (g_eid g)) (g_eid g) (m_owners m1) (run_tc m g) ->
  sequence_condition_total (g_eid g) (m_owners m1) (run_tc m g) ->
  exists m' g' l, resume (S fuel) m g = (m', g', OReturn l).
Proof. exact stops_at_start. Qed.
Print Assumptions C09_stops_at_start.
(** a condition that is true when the consideration set execution is over (clock k1) and still
    true when the pass is over (clock k2) ends the run at once *)
Theorem C09_stops_at_yield : forall m0 g0 ys m g fuel h0 k1 k2, running m0 g0 ys m g -> g_pc g0 = PStart -> ys <> [] ->
  clock_after ESU h0 (the_clock (m_ctxs m0 (g_eid g0))) ->
  clock_incr CSE (the_clock (m_ctxs m (g_eid g))) = Ok k1 -> clock_incr PASS k1 = Ok k2 ->
  says_stop (with_clock (view_of m (g_eid g)) k1) (g_eid g) (m_owners m) (g_tc g) ->
  says_stop (with_clock (view_of m (g_eid g)) k2) (g_eid g) (m_owners m) (g_tc g) ->
  sequence_condition_total (g_eid g) (m_owners m) (g_tc g) ->
  exists m' g' l, resume (S fuel) m g = (m', g', OReturn l).
Proof. exact stops_at_yield. Qed.
Print Assumptions C09_stops_at_yield.
Theorem C09_returns_only_when_true : forall m0 g0 ys m1 g1 fuel m g l, running m0 g0 ys m1 g1 -> g_pc g0 = PStart -> resume fuel m1 g1 = (m, g, OReturn l) ->
  exists v ow c st st', (the_tc m1 g1 ESU = Some c \/ the_tc m1 g1 ES = Some c) /\
    view_at_return m0 m (g_eid g0) (g_skip g0) v /\ eval v (g_eid g0) ow c st = (Ok true, st').
Proof. exact returns_terminated. Qed.
Print Assumptions C09_returns_only_when_true.
(** finding: true at the check after a consideration set but false again once the pass count
    went up, and the run goes on executing nodes *)
Theorem C09_true_once_ends_run_refuted : exists m0 g0 ys m g k1 m' g' s,
  running m0 g0 ys m g /\ g_pc g0 = PStart /\ ys <> [] /\
  clock_incr CSE (the_clock (m_ctxs m (g_eid g))) = Ok k1 /\
  says_stop (with_clock (view_of m (g_eid g)) k1) (g_eid g) (m_owners m) (g_tc g) /\
  resume 5 m g = (m', g', OYield s) /\ s <> [].
Proof.
  destruct (clock_incr CSE (the_clock (m_ctxs (ex_state 1 ex_sticky_core ex_sticky_gen) 0))) as [k1|] eqn:K; [|vm_compute in K; discriminate].
  destruct (resume 5 (ex_state 1 ex_sticky_core ex_sticky_gen) (ex_at 1 ex_sticky_core ex_sticky_gen)) as [[m' g'] o] eqn:R.
  assert (O : o = OYield [tA]).
  { assert (X : snd (resume 5 (ex_state 1 ex_sticky_core ex_sticky_gen) (ex_at 1 ex_sticky_core ex_sticky_gen)) = OYield [tA]) by (vm_compute; reflexivity).
    rewrite R in X. exact X. }
  subst o.
  exists ex_sticky_core, ex_sticky_gen, (map snd [(0, [tA])]), (ex_state 1 ex_sticky_core ex_sticky_gen), (ex_at 1 ex_sticky_core ex_sticky_gen), k1, m', g', [tA].
  splits.
  - apply passes_running, ex_running; vm_compute; reflexivity.
  - discriminate.
  - left. exists ex_sticky_cond. split; [reflexivity|]. intros st.
    assert (V : k1 = match clock_incr CSE (the_clock (m_ctxs (ex_state 1 ex_sticky_core ex_sticky_gen) 0)) with Ok k => k | Err _ => k1 end) by (rewrite K; auto).
    rewrite V. vm_compute. reflexivity.
  - discriminate.
Qed.
Print Assumptions C09_true_once_ends_run_refuted.

(** ** C10 *)
Theorem C10_progress : forall m0 g0 ys m g fuel, running m0 g0 ys m g -> g_pc g0 = PStart ->
  uses_absolute m g = false -> snd (resume (S fuel) m g) <> OFuel.
Proof. exact progress. Qed.
Print Assumptions C10_progress.
(** with absolute time: if the graph is not empty and the termination conditions have no side
    effects, at most two passes are started *)
Theorem C10_progress_absolute : forall m0 g0 ys m g fuel, running m0 g0 ys m g -> g_pc g0 = PStart -> queue m <> [] ->
  (forall s c ow, the_tc m g s = Some c -> observer (g_eid g) ow c) -> snd (resume (S (S fuel)) m g) <> OFuel.
Proof. exact progress_abs. Qed.
Print Assumptions C10_progress_absolute.
(** finding: an empty graph and absolute time *)
Theorem C10_empty_graph_refuted : exists m g, m_graph m = [] /\ g_pc g = PStart /\ forall fuel, snd (resume fuel m g) = OFuel.
Proof. exists ex_empty_core, ex_empty_gen. splits. exact empty_diverges. Qed.
Print Assumptions C10_empty_graph_refuted.

(** ** C11 *)
Theorem C11_every_pass_yields : forall m0 g0 ts m g k, running_in_passes m0 g0 ts m g -> g_pc g0 = PStart -> g_abs g = false -> ts <> [] ->
  pass_number m0 (g_eid g0) <= k <= pass_number m (g_eid g0) -> exists i s, nth_error ts i = Some (k, s).
Proof. exact every_pass_yields. Qed.
Print Assumptions C11_every_pass_yields.
Theorem C11_empty_set_alone : forall m0 g0 ts m g i j k s, running_in_passes m0 g0 ts m g -> g_pc g0 = PStart -> g_abs g = false ->
  nth_error ts i = Some (k, []) -> nth_error ts j = Some (k, s) -> i = j.
Proof. exact idle_alone. Qed.
Print Assumptions C11_empty_set_alone.
Theorem C11_empty_set_means_idle : forall m0 g0 ys m g fuel m' g', running m0 g0 ys m g -> g_pc g0 = PStart ->
  resume fuel m g = (m', g', OYield []) -> g_abs g' = false ->
  (exists v c st st', considered m' (g_eid g0) ys [] [] v /\ (g_tc g' ESU = Some c \/ g_tc g' ES = Some c) /\
      evolves (used m' (g_tc g')) (g_eid g') (m_owners m') (m_cst m) st /\ eval v (g_eid g') (m_owners m') c st = (Ok true, st'))
  \/ forall level n, In level (queue m0) -> In n level ->
       exists v, considered m' (g_eid g0) ys [] [] v /\ condition_was m m' g' v n false.
Proof. exact idle_yield. Qed.
Print Assumptions C11_empty_set_means_idle.

(** ** C12 *)
Theorem C12_clock_counts : forall m0 g0 ts m g h0, running_in_passes m0 g0 ts m g -> g_pc g0 = PStart -> ts <> [] ->
  clock_after ESU h0 (the_clock (m_ctxs m0 (g_eid g0))) -> h0 = [] \/ (exists h s, h0 = h ++ [s] /\ ts_le ESU s) ->
  clock_total_relative CSE ESU (the_clock (m_ctxs m (g_eid g0))) = Ok (length ts - 1) /\
  clock_total_relative PASS ESU (the_clock (m_ctxs m (g_eid g0))) = Ok (pass_number m (g_eid g0)) /\
  pass_number m0 (g_eid g0) = 0.
Proof. exact run_clock_counts. Qed.
Print Assumptions C12_clock_counts.
Theorem C12_clock_history : forall m0 g0 ts m g h0, running_in_passes m0 g0 ts m g -> g_pc g0 = PStart -> ts <> [] ->
  clock_after ESU h0 (the_clock (m_ctxs m0 (g_eid g0))) ->
  exists ev, clock_after ESU (h0 ++ ev) (the_clock (m_ctxs m (g_eid g0))) /\
    S (count CSE ev) = length ts /\ Forall (fun s => ts_le s PASS) ev /\
    pass_number m (g_eid g0) = pass_number m0 (g_eid g0) + count PASS ev.
Proof. exact run_clock. Qed.
Print Assumptions C12_clock_history.
Theorem C12_clock_on_return : forall m0 g0 ys m l h0, returned m0 g0 ys m l -> g_pc g0 = PStart ->
  clock_after ESU h0 (the_clock (m_ctxs m0 (g_eid g0))) ->
  exists ev, clock_after ESU (h0 ++ ev ++ (if g_skip g0 then [] else [ESU])) (the_clock (m_ctxs m (g_eid g0))) /\
    count CSE ev = length ys /\ Forall (fun s => ts_le s PASS) ev.
Proof. exact returned_clock. Qed.
Print Assumptions C12_clock_on_return.

(** ** C14 *)
Theorem C14_execution_list : forall m0 g0 ys m g l0, running m0 g0 ys m g -> g_pc g0 = PStart ->
  x_list (m_ctxs m0 (g_eid g0)) = Some l0 -> x_list (m_ctxs m (g_eid g0)) = Some (l0 ++ ys).
Proof. exact run_list. Qed.
Print Assumptions C14_execution_list.
Theorem C14_returned_list : forall m0 g0 ys m l l0, returned m0 g0 ys m l -> g_pc g0 = PStart ->
  x_list (m_ctxs m0 (g_eid g0)) = Some l0 -> l = l0 ++ ys /\ x_list (m_ctxs m (g_eid g0)) = Some (l0 ++ ys).
Proof. exact returned_list. Qed.
Print Assumptions C14_returned_list.

(** ** C45: one timestamp per yielded set, at distance [iv] (the clock's absolute interval) *)
Theorem C45_timestamps : forall m0 g0 ys m g h0 ts0, running m0 g0 ys m g -> g_pc g0 = PStart -> ys <> [] -> g_abs g = true ->
  clock_after ESU h0 (the_clock (m_ctxs m0 (g_eid g0))) -> x_stamps (m_ctxs m0 (g_eid g0)) = Some ts0 ->
  exists ts a iv, x_stamps (m_ctxs m (g_eid g0)) = Some (ts0 ++ ts) /\ length ts = length ys /\
    t_interval (k_time (the_clock (m_ctxs m (g_eid g0)))) = iv /\
    forall i t, nth_error ts i = Some t -> (t_abs t == a + inject_Z (Z.of_nat i) * iv)%Q.
Proof. exact run_stamps. Qed.
Print Assumptions C45_timestamps.

(** ** Concrete cases: [ex_prefix], [ex_built], [ex_ctx], [ex_returns], [ex_idle] and [ex_abs]
    in RunExamples.v meet the hypotheses of the theorems above; e.g. *)
Example ex_C02 : exists i j k s s', nth_error ex_yields i = Some (k, s) /\ nth_error ex_yields j = Some (k, s') /\
  In tA s /\ In tB s' /\ edge (m_graph ex_core) tA tB /\ i < j.
Proof. exists 1, 2, 1, [tA], [tB]. repeat split; simpl; auto. exists [tA]; split; [reflexivity|simpl; auto]. Qed.
Example ex_C08 : running_while (every_n_calls tB tA 2) ex_core ex_gen (map snd [(0, [tA])]) (ex_state 1 ex_core ex_gen) (ex_at 1 ex_core ex_gen) /\
  2 * occurrences tB (map snd ex_yields) = occurrences tA (map snd ex_yields).
Proof.
  split; [|vm_compute; reflexivity].
  assert (P : every_n_calls tB tA 2 ex_core) by (exists 11; split; vm_compute; reflexivity).
  unfold ex_state, ex_at. cbn [run_n].
  destruct (resume 5 ex_core ex_gen) as [[m1 g1] o] eqn:E.
  assert (O : snd (resume 5 ex_core ex_gen) = OYield [tA]) by (vm_compute; reflexivity). rewrite E in O. simpl in O. subst o.
  cbn [fst snd map]. apply (rw_yields _ _ _ [] ex_core ex_gen 5 m1 g1 [tA]); auto using rw_created.
  assert (X : m1 = fst (fst (resume 5 ex_core ex_gen))) by (rewrite E; auto).
  exists 11. rewrite X. split; vm_compute; reflexivity.
Qed.
Example ex_C09 : exists k1 k2, clock_incr CSE (the_clock (m_ctxs (ex_state 7 ex_core ex_gen) 0)) = Ok k1 /\ clock_incr PASS k1 = Ok k2 /\
  says_stop (with_clock (view_of (ex_state 7 ex_core ex_gen) 0) k1) 0 (m_owners (ex_state 7 ex_core ex_gen)) (g_tc (ex_at 7 ex_core ex_gen)) /\
  says_stop (with_clock (view_of (ex_state 7 ex_core ex_gen) 0) k2) 0 (m_owners (ex_state 7 ex_core ex_gen)) (g_tc (ex_at 7 ex_core ex_gen)) /\
  sequence_condition_total 0 (m_owners (ex_state 7 ex_core ex_gen)) (g_tc (ex_at 7 ex_core ex_gen)).
Proof.
  assert (B : match clock_incr CSE (the_clock (m_ctxs (ex_state 7 ex_core ex_gen) 0)) with
              | Ok k => match clock_incr PASS k with Ok _ => true | _ => false end | _ => false end = true) by (vm_compute; reflexivity).
  destruct (clock_incr CSE (the_clock (m_ctxs (ex_state 7 ex_core ex_gen) 0))) as [k1|]; [|discriminate].
  destruct (clock_incr PASS k1) as [k2|] eqn:K2; [|discriminate].
  assert (T : g_tc (ex_at 7 ex_core ex_gen) ESU = Some (AfterNCalls 91 tC 1 ESU)) by (vm_compute; reflexivity).
  assert (T2 : g_tc (ex_at 7 ex_core ex_gen) ES = Some (Never 0)) by (vm_compute; reflexivity).
  exists k1, k2. split; [reflexivity|]. split; [exact K2|]. split; [|split].
  - left. exists (AfterNCalls 91 tC 1 ESU). split; [exact T|]. intros st; vm_compute; reflexivity.
  - left. exists (AfterNCalls 91 tC 1 ESU). split; [exact T|]. intros st; vm_compute; reflexivity.
  - exists (Never 0). split; [exact T2|]. intros v st. exists false. reflexivity.
Qed.
Example ex_C10 : forall s c ow, the_tc ex_abs_core ex_abs_gen s = Some c -> observer 0 ow c.
Proof. intros s c ow H. apply plain_observer. destruct s; vm_compute in H; inversion H; subst; reflexivity. Qed.
Example ex_C12 : clock_after ESU [] (the_clock (m_ctxs ex_core (g_eid ex_gen))).
Proof. apply ca_new. reflexivity. Qed.
