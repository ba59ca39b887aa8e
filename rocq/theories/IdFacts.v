(** Execution ids: unknown ids, copies of the base context, abandoned runs, cycles. *)
From Verif Require Export SchedThms RunCrash.

(** ** Unknown execution ids *)
Lemma setup_same : forall m e e' tc x, setup_absolute m e tc = Err x -> setup_absolute m e' tc = Err x.
Proof.
  intros m e e' tc x H. unfold setup_absolute in *. destruct (absolute_conditions m tc); [discriminate|].
  destruct (unit_of m tc); [discriminate|auto].
Qed.
Lemma unknown_base_start : forall m g, x_total (m_ctxs m (g_eid g)) = None -> x_total (m_ctxs m (g_base g)) = None ->
  exists ex m', start m g = (Err ex, m').
Proof.
  intros m g A B. rewrite start_eq. destruct (toposort (m_graph m)); eauto.
  destruct (add_defaults (m_nodes m) m) as [mb|] eqn:D; eauto.
  destruct (add_defaults_rest _ _ _ D) as (_ & _ & _ & X & _). rewrite <- X in A, B. clear D X. unfold start_rest. cbv zeta.
  destruct (setup_absolute _ _ _) as [m3|] eqn:Su; eauto. apply setup_ctx in Su. destruct Su as (k & ->).
  set (m3 := set_clock _ _ k).
  assert (A3 : x_total (m_ctxs m3 (g_eid g)) = None).
  { unfold m3, set_clock. rewrite set_ctx_at. simpl. rewrite upd_same; auto. }
  assert (B3 : x_total (m_ctxs m3 (g_base g)) = None).
  { destruct (Nat.eq_dec (g_base g) (g_eid g)) as [->|Ne]; auto. unfold m3, set_clock. simpl. rewrite !upd_other; auto. }
  unfold init_counts_base. rewrite A3, B3. simpl. eauto.
Qed.
Theorem unknown_base : forall fuel m g, g_pc g = PStart -> x_total (m_ctxs m (g_eid g)) = None -> x_total (m_ctxs m (g_base g)) = None ->
  exists m' ex, resume fuel m g = (m', at_pc g PDone, ORaise ex).
Proof.
  intros fuel m g P A B. destruct (unknown_base_start m g A B) as (ex & m' & E). unfold resume. rewrite P, E. eauto.
Qed.
(** the exception is a SchedulerError unless the scheduler cannot run at all *)
Theorem unknown_base_error : forall fuel m e base e' base' tc skip, x_total (m_ctxs m e) = None -> x_total (m_ctxs m base) = None ->
  (forall ex, snd (resume fuel m (new_gen e' base' tc skip)) <> ORaise ex) ->
  snd (resume fuel m (new_gen e base tc skip)) = ORaise EScheduler.
Proof.
  intros fuel m e base e' base' tc skip A B H. unfold resume in *. change (g_pc (new_gen e base tc skip)) with PStart. change (g_pc (new_gen e' base' tc skip)) with PStart in H.
  cbv iota in *. rewrite start_eq in *. destruct (toposort (m_graph m)); try (exfalso; eapply H; reflexivity).
  destruct (add_defaults (m_nodes m) m) as [mb|] eqn:D; [|exfalso; eapply H; reflexivity].
  destruct (add_defaults_rest _ _ _ D) as (_ & _ & _ & X & _). rewrite <- X in A, B. clear D X.
  unfold start_rest in *. cbv zeta in *. cbn [new_gen g_eid g_base g_tcarg g_skip] in *.
  set (tcs := match tc with None => m_tconds mb | Some a => combine_tconds (m_tconds mb) a end) in *.
  assert (Su : forall e1, match setup_absolute (set_clock mb e1 (the_clock (m_ctxs mb e1))) e1 tcs with
    | Ok _ => exists u, unit_of mb tcs = Ok u \/ absolute_conditions mb tcs = [] | Err x => unit_of mb tcs = Err x /\ absolute_conditions mb tcs <> [] end).
  { intros e1. unfold setup_absolute. change (absolute_conditions (set_clock mb e1 (the_clock (m_ctxs mb e1))) tcs) with (absolute_conditions mb tcs).
    change (unit_of (set_clock mb e1 (the_clock (m_ctxs mb e1))) tcs) with (unit_of mb tcs). destruct (absolute_conditions mb tcs); [exists 0%Q; auto|].
    destruct (unit_of mb tcs); [eauto|split; auto; discriminate]. }
  pose proof (Su e) as S1. pose proof (Su e') as S2.
  destruct (setup_absolute (set_clock mb e' _) e' tcs) as [m3'|]; [|exfalso; eapply H; reflexivity].
  destruct (setup_absolute (set_clock mb e _) e tcs) as [m3|x] eqn:E3.
  - apply setup_ctx in E3. destruct E3 as (k & ->). set (m3 := set_clock _ _ k) in *.
    assert (A3 : x_total (m_ctxs m3 e) = None).
    { unfold m3, set_clock. rewrite set_ctx_at. simpl. rewrite upd_same; auto. }
    assert (B3 : x_total (m_ctxs m3 base) = None).
    { destruct (Nat.eq_dec base e) as [->|Ne]; auto. unfold m3, set_clock. simpl. rewrite !upd_other; auto. }
    unfold init_counts_base. rewrite A3, B3. reflexivity.
  - destruct S1 as [S1 S1']. destruct S2 as (u & [S2|S2]); congruence.
Qed.

(** ** The context of a new execution id *)
Lemma while_history : forall P m0 g0 ys m g, running_while P m0 g0 ys m g -> g_pc g0 = PStart ->
  (ys = [] /\ g = g0 /\ undisturbed (g_eid g0) m0 m /\ P m) \/
  (exists ms g1 m1 ps ph, P ms /\ undisturbed (g_eid g0) m0 ms /\ start ms g0 = (Ok g1, m1) /\ run_state m0 g0 ys m g g1 m1 ps ph).
Proof.
  intros P m0 g0 ys m g H Hp. induction H as [Pm|ys m g m' H IH U Pm|ys m g fuel m' g' s H IH E Pm].
  - left. splits. apply undisturbed_refl.
  - destruct IH as [(-> & -> & U0 & P0)|(ms & g1 & m1 & ps & ph & P0 & U0 & Sm & R)].
    + left. splits. eapply undisturbed_trans; eauto.
    + right. exists ms, g1, m1, ps, ph. splits. eapply run_state_env; eauto.
  - right. destruct IH as [(-> & -> & U0 & P0)|(ms & g1 & m1 & ps & ph & P0 & U0 & Sm & R)].
    + destruct (run_first _ _ _ _ _ _ _ Hp U0 E) as (g1 & m1 & ps & ph & Sm & R & _). exists m, g1, m1, ps, ph. splits.
    + destruct (run_next _ _ _ _ _ _ _ _ _ _ _ _ _ R E) as (ps' & ph' & R' & _). exists ms, g1, m1, ps', ph'. splits.
Qed.
Theorem copied : forall m0 g0 ys m g tb lb,
  running_while (fun m => m_ctxs m (g_base g0) = m_ctxs m0 (g_base g0)) m0 g0 ys m g -> g_pc g0 = PStart -> ys <> [] ->
  x_total (m_ctxs m0 (g_eid g0)) = None -> x_list (m_ctxs m0 (g_eid g0)) = None ->
  x_total (m_ctxs m0 (g_base g0)) = Some tb -> x_list (m_ctxs m0 (g_base g0)) = Some lb ->
  x_list (m_ctxs m (g_eid g0)) = Some (lb ++ ys) /\
  exists t, x_total (m_ctxs m (g_eid g0)) = Some t /\ forall n,
    t LIFE n = tb LIFE n + occurrences n ys /\ t ES n = tb ES n + occurrences n ys /\ t ESU n = occurrences n ys.
Proof.
  intros m0 g0 ys m g tb lb R P Ne A B Tb Lb.
  destruct (while_history _ _ _ _ _ _ R P) as [(-> & _)|(ms & g1 & m1 & ps & ph & Pm & U & Sm & RS)]; [congruence|].
  destruct (start_spec _ _ _ _ Sm) as (_ & _ & [(t & Dt & Et) _ (l & Dl & El) _ _] & _).
  rewrite (ud_ctx _ _ _ U), A, Pm, Tb in Dt. rewrite (ud_ctx _ _ _ U), B, Pm, Lb in Dl.
  destruct Dt as [|[_ Dt]]; [discriminate|]. inversion Dt; subst t. destruct Dl as [|[_ Dl]]; [discriminate|]. inversion Dl; subst l.
  assert (HH := rs_hist _ _ _ _ _ _ _ _ _ RS). rewrite (rs_yields _ _ _ _ _ _ _ _ _ RS). split; [eapply hist_list; eauto|].
  destruct (hist_total _ _ _ _ _ _ tb HH Et) as (t & E & HT). exists t. split; auto. intros n. destruct (HT n) as (H1 & H2 & H3 & _). auto.
Qed.
(** in absolute time mode, an execution id without list of time stamps never yields *)
Lemma hist_no_stamps : forall q x0 ps ph x, hist q true x0 ps ph x -> x_stamps x0 = None -> x_stamps x = None /\ all_yields true ps ph = [].
Proof.
  intros q x0 ps ph x H N. remember true as abs. induction H; subst abs; auto; try discriminate.
  - exfalso. destruct IHhist as [X _]; auto. destruct H1 as (l & _ & ts & E & _). destruct (ctx_accepts_other s x) as (_ & Z & _). congruence.
  - destruct IHhist as [X Y]; auto. destruct H0 as (k & _ & ->). auto.
  - exfalso. inversion H. congruence.
  - destruct IHhist as [X Y]; auto. destruct H1 as (k & _ & ->). split; auto. rewrite all_yields_end; auto.
Qed.
Theorem absolute_needs_stamps : forall fuel m g m' g' s, g_pc g = PStart -> x_stamps (m_ctxs m (g_eid g)) = None ->
  resume fuel m g = (m', g', OYield s) -> existsb is_absolute (map snd (m_basic m) ++ tc_list (run_tc m g)) = false.
Proof.
  intros fuel m g m' g' s P N R. destruct (run_first m g m fuel m' g' s P (undisturbed_refl _ _) R) as (g1 & m1 & ps & ph & Sm & RS & _ & _).
  rewrite <- (start_abs _ _ _ _ Sm). destruct (g_abs g1) eqn:A; auto. exfalso.
  destruct (start_spec _ _ _ _ Sm) as (_ & _ & [_ _ _ SS _] & _).
  assert (HH := rs_hist _ _ _ _ _ _ _ _ _ RS). assert (Y := rs_yields _ _ _ _ _ _ _ _ _ RS). rewrite A in *.
  destruct (hist_no_stamps _ _ _ _ _ HH) as [_ Z]; [congruence|]. congruence.
Qed.

(** ** Abandoned runs *)
Lemma tagged_bounds : forall abs P ps ph k s, In (k, s) (all_tagged abs P ps ph) -> P <= k <= P + length ps.
Proof.
  intros abs P ps ph k s H. unfold all_tagged in H. apply in_app_iff in H. destruct H as [H|H].
  - apply tags_bounds in H. lia.
  - apply in_map_iff in H. destruct H as (x & E & _). inversion E; subst. lia.
Qed.
Lemma pass_bounds : forall m0 g0 ts m g k s, running_in_passes m0 g0 ts m g -> g_pc g0 = PStart -> In (k, s) ts ->
  pass_number m0 (g_eid g0) <= k <= pass_number m (g_eid g0).
Proof.
  intros m0 g0 ts m g k s R P I. destruct (passes_history _ _ _ _ _ R P) as [(-> & _)|(g1 & m1 & ps & ph & RS & E)]; [contradiction|].
  rewrite (state_pass _ _ _ _ _ _ _ _ _ RS). subst ts. eapply tagged_bounds; eauto.
Qed.
Theorem abandoned : forall m0 g0 ts m g g0' ts' m' g' k s k' s', running_in_passes m0 g0 ts m g -> g_pc g0 = PStart ->
  running_in_passes m g0' ts' m' g' -> g_pc g0' = PStart -> g_eid g0' = g_eid g0 ->
  In (k, s) ts -> In (k', s') ts' -> k <= k'.
Proof.
  intros m0 g0 ts m g g0' ts' m' g' k s k' s' R P R' P' E I I'.
  pose proof (pass_bounds _ _ _ _ _ _ _ R P I). pose proof (pass_bounds _ _ _ _ _ _ _ R' P' I'). rewrite E in *. lia.
Qed.
Theorem abandoned_uncounted : forall m0 g0 ts m g g0' ts' m' g' h0, running_in_passes m0 g0 ts m g -> g_pc g0 = PStart -> ts <> [] ->
  running_in_passes m g0' ts' m' g' -> g_pc g0' = PStart -> g_eid g0' = g_eid g0 -> ts' <> [] ->
  clock_after ESU h0 (the_clock (m_ctxs m0 (g_eid g0))) ->
  exists ev, clock_after ESU (h0 ++ ev) (the_clock (m_ctxs m' (g_eid g0))) /\ Forall (fun s => ts_le s PASS) ev /\
    S (S (count CSE ev)) = length ts + length ts'.
Proof.
  intros m0 g0 ts m g g0' ts' m' g' h0 R P N R' P' E N' C.
  destruct (run_clock _ _ _ _ _ _ R P N C) as (ev & K & L & F & _). rewrite <- E in K.
  destruct (run_clock _ _ _ _ _ _ R' P' N' K) as (ev' & K' & L' & F' & _). rewrite E in K'.
  exists (ev ++ ev'). rewrite app_assoc. split; [auto|]. split; [apply Forall_app; auto|]. 
  unfold count in *. rewrite filter_app, app_length. lia.
Qed.

Theorem completed_pass : forall m0 g0 ys m l h0, returned m0 g0 ys m l -> g_pc g0 = PStart -> g_skip g0 = false ->
  clock_after ESU h0 (the_clock (m_ctxs m0 (g_eid g0))) -> pass_number m (g_eid g0) = 0.
Proof.
  intros m0 g0 ys m l h0 R P K C. destruct (returned_clock _ _ _ _ _ _ R P C) as (ev & K' & _). rewrite K in K'.
  unfold pass_number. rewrite (time_component ESU _ _ PASS [] K'); auto.
  split; [constructor|]. right. exists (h0 ++ ev), ESU. rewrite <- app_assoc. split; [auto|]. unfold ts_lt; simpl; lia.
Qed.

(** ** Cycles *)
Lemma add_defaults_ok : forall ns m, (forall n, In n ns -> aget n (m_graph m) <> None) -> exists m', add_defaults ns m = Ok m'.
Proof.
  induction ns as [|n r IH]; intros m H; simpl; eauto. destruct (ahas n (m_basic m)); [apply IH; intros; apply H; right; auto|].
  destruct (aget n (m_graph m)) as [ds|] eqn:A; [|exfalso; apply (H n); [left; auto|auto]].
  destruct (default_cond (m_next m) ds) as [c nx]. apply IH. intros n' I. apply (H n'); right; auto.
Qed.
Theorem cycle_raises : forall fuel m g, wf_graph (m_graph m) -> cyclic (m_graph m) -> g_pc g = PStart ->
  resume fuel m g = (m, at_pc g PDone, ORaise EScheduler).
Proof.
  intros fuel m g W C P. unfold resume. rewrite P, start_eq. rewrite (proj2 (toposort_cycle_iff _ W) C). auto.
Qed.
Theorem acyclic_starts : forall m g, wf_graph (m_graph m) -> ~ cyclic (m_graph m) -> (forall n, In n (m_nodes m) -> In n (gkeys (m_graph m))) ->
  initialised (m_ctxs m (g_eid g)) -> existsb is_absolute (map snd (m_basic m) ++ tc_list (run_tc m g)) = false ->
  exists g1 m1, start m g = (Ok g1, m1).
Proof.
  intros m g W C N (I1 & I2 & I3) A. rewrite start_eq. destruct (proj2 (toposort_ok_iff _ W) C) as (q & ->).
  destruct (add_defaults_ok (m_nodes m) m) as (mb & D).
  { intros n I. apply N in I. intros E. apply aget_None in E. auto. }
  rewrite D. destruct (add_defaults_rest _ _ _ D) as (_ & _ & Tc & X & _).
  unfold start_rest. cbv zeta. set (tcs := match g_tcarg g with None => m_tconds mb | Some a => combine_tconds (m_tconds mb) a end).
  assert (NA : forall k, absolute_conditions (set_clock mb (g_eid g) k) tcs = []).
  { intros k. unfold absolute_conditions. destruct (filter is_absolute _) as [|c l] eqn:F; auto. exfalso.
    assert (Ic : In c (filter is_absolute (map snd (m_basic mb) ++ tc_list tcs))) by (simpl in F; rewrite F; left; auto).
    apply filter_In in Ic. destruct Ic as [Ic Ac]. apply Bool.not_true_iff_false in A. apply A. apply existsb_exists. exists c. split; auto.
    apply in_app_iff in Ic. apply in_app_iff. destruct Ic as [Ic|Ic].
    - left. eapply add_defaults_absolute; eauto.
    - right. unfold tcs in Ic. rewrite Tc in Ic. exact Ic. }
  unfold setup_absolute. rewrite NA. set (m3 := set_clock _ _ _).
  assert (E3 : exists k, m_ctxs m3 (g_eid g) = mkCtx (x_total (m_ctxs m (g_eid g))) (x_use (m_ctxs m (g_eid g))) (x_list (m_ctxs m (g_eid g))) (x_stamps (m_ctxs m (g_eid g))) (Some k)).
  { unfold m3, set_clock. rewrite set_ctx_at. simpl. rewrite upd_same. simpl. rewrite X. eauto. }
  destruct E3 as (k & E3). unfold init_counts_base. rewrite E3. cbn [x_total x_use x_list x_stamps x_clock].
  destruct (x_total (m_ctxs m (g_eid g))); [|congruence]. destruct (x_use (m_ctxs m (g_eid g))); [|congruence]. destruct (x_list (m_ctxs m (g_eid g))); [|congruence].
  simpl. eauto.
Qed.

(** ** Schedulers with a default execution id *)
Lemma new_sched_ctxs : forall cyc arr input conds tc deid exact du ow nx w r d,
  new_sched cyc arr input conds tc deid exact du ow nx w = (r, d) -> d_ctxs d = upd (fun _ => ctx_none) deid fresh_ctx.
Proof.
  intros cyc arr input conds tc deid exact du ow nx w r d H. unfold new_sched in H. cbv zeta in H.
  destruct (arg_graph input) as [g|]; [|inversion H; auto].
  destruct conds as [|p l]; [inversion H; auto|]. unfold add_condition_set in H.
  destruct (cs_add_set _ _ _) as [[[u|ex] cs] ow']; [|inversion H; auto].
  destruct (sync_set_stack _ _ _ _ _ H) as (st & la & ->). reflexivity.
Qed.
Theorem default_id_unused : forall cyc arr input conds tc deid exact du ow nx w d fuel tc' skip,
  new_sched cyc arr input conds tc deid exact du ow nx w = (Ok tt, d) -> deid <> 0 ->
  (forall ex, snd (sresume cyc arr fuel d (new_gen deid 0 tc' skip)) <> ORaise ex) ->
  snd (sresume cyc arr fuel d (new_gen 0 0 tc' skip)) = ORaise EScheduler.
Proof.
  intros cyc arr input conds tc deid exact du ow nx w d fuel tc' skip H Ne N. apply new_sched_ctxs in H. unfold sresume in *.
  destruct (sync cyc arr d) as [[u|ex] d1] eqn:S; [|exfalso; eapply N; reflexivity].
  destruct (sync_set_stack _ _ _ _ _ S) as (st & la & ->).
  pose proof (unknown_base_error fuel (core_of (set_stack d st la)) 0 0 deid 0 tc' skip) as U.
  assert (Z : x_total (m_ctxs (core_of (set_stack d st la)) 0) = None) by (simpl; rewrite H; rewrite upd_other; auto).
  specialize (U Z Z). destruct (resume fuel (core_of (set_stack d st la)) (new_gen 0 0 tc' skip)) as [[m1 g1] o1].
  destruct (resume fuel (core_of (set_stack d st la)) (new_gen deid 0 tc' skip)) as [[m2 g2] o2]. simpl in *. auto.
Qed.
