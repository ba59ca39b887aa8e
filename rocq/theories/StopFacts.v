(** Termination conditions end a run; EveryNCalls spaces executions. *)
From Verif Require Export PureFacts.

Lemma check_tc_fst : forall m e tc s c, tc s = Some c ->
  fst (check_tc m e tc s) = is_satisfied (view_of m e) e (m_owners m) (m_cst m) c.
Proof. intros m e tc s c H. unfold check_tc, satisfied, is_satisfied. rewrite H. destruct (eval _ _ _ _ _); auto. Qed.
Lemma says_stop_terminated : forall m e tc, says_stop (view_of m e) e (m_owners m) tc -> fst (terminated m e tc) = Ok true.
Proof.
  intros m e tc [(c & T & H)|(c & c' & T & T' & H)]; unfold terminated.
  - pose proof (check_tc_fst m e tc ESU c T) as X. rewrite H in X. destruct (check_tc m e tc ESU) as [r m1]. simpl in X; subst; auto.
  - pose proof (check_tc_fst m e tc ESU c' T') as X. destruct (H (m_cst m)) as [_ [b Eb]]. rewrite Eb in X.
    destruct (check_tc m e tc ESU) as [r m1] eqn:C. simpl in X; subst. destruct b; auto.
    rewrite (check_tc_fst _ _ _ _ c T). destruct (check_tc_quiet (tc := tc) _ _ _ _ _ C) as [F E].
    assert (V : view_of m1 e = view_of m e).
    { unfold view_of, queue. rewrite E, (fr_nodes _ _ _ F), (fr_exact _ _ _ F), (fr_graph _ _ _ F), (fr_levels _ _ _ F); auto. }
    rewrite V, (fr_owners _ _ _ F). apply H.
Qed.
Lemma with_clock_set : forall m e k, view_of (set_clock m e k) e = with_clock (view_of m e) k.
Proof. intros m e k. unfold view_of, with_clock, set_clock. simpl. rewrite !upd_same. reflexivity. Qed.
Lemma finish_returns : forall m g, sequence_condition_total (g_eid g) (m_owners m) (g_tc g) ->
  (exists l, x_list (m_ctxs m (g_eid g)) = Some l) -> (exists h, clock_after ESU h (the_clock (m_ctxs m (g_eid g)))) ->
  exists m' g' l, finish m g = (m', g', OReturn l).
Proof.
  intros m g (c & T & H) (l & L) (h & K). unfold finish.
  assert (X : exists m1, (if g_skip g then Ok m else incr_clock ESU m (g_eid g)) = Ok m1 /\ x_list (m_ctxs m1 (g_eid g)) = Some l /\ m_owners m1 = m_owners m).
  { destruct (g_skip g); eauto. unfold incr_clock.
    destruct (clock_incr_succeeds _ _ _ ESU K) as (k1 & Ek); [unfold ts_lt; simpl; lia|]. rewrite Ek. eexists; split; eauto.
    unfold set_clock. rewrite set_ctx_at. auto. }
  destruct X as (m1 & -> & L1 & O1).
  pose proof (check_tc_fst m1 (g_eid g) (g_tc g) ES c T) as F. destruct (H (view_of m1 (g_eid g)) (m_cst m1)) as [b Eb].
  rewrite O1, Eb in F. destruct (check_tc m1 (g_eid g) (g_tc g) ES) as [r m2] eqn:C. simpl in F; subst.
  destruct (check_tc_quiet (tc := g_tc g) _ _ _ _ _ C) as [_ E2]. rewrite E2, L1. eauto.
Qed.
Lemma outer_stops : forall f m g, says_stop (view_of m (g_eid g)) (g_eid g) (m_owners m) (g_tc g) ->
  sequence_condition_total (g_eid g) (m_owners m) (g_tc g) ->
  (exists l, x_list (m_ctxs m (g_eid g)) = Some l) -> (exists h, clock_after ESU h (the_clock (m_ctxs m (g_eid g)))) ->
  exists m' g' l, outer (S f) m g = (m', g', OReturn l).
Proof.
  intros f m g S T L K. cbn [outer]. apply says_stop_terminated in S.
  destruct (terminated m (g_eid g) (g_tc g)) as [r m1] eqn:E. simpl in S; subst r.
  apply (terminated_quiet (tc := g_tc g)) in E. destruct E as [F E].
  apply finish_returns; rewrite ?E, ?(fr_owners _ _ _ F); auto.
Qed.

Theorem stops_at_start : forall m g g1 m1 fuel h0, g_pc g = PStart -> start m g = (Ok g1, m1) ->
  clock_after ESU h0 (the_clock (m_ctxs m (g_eid g))) ->
  says_stop (view_of m1 (g_eid g)) (g_eid g) (m_owners m1) (run_tc m g) ->
  sequence_condition_total (g_eid g) (m_owners m1) (run_tc m g) ->
  exists m' g' l, resume (S fuel) m g = (m', g', OReturn l).
Proof.
  intros m g g1 m1 fuel h0 Hp S K St T. pose proof (start_spec _ _ _ _ S) as (_ & _ & Sc & Ee & _).
  unfold resume. rewrite Hp, S. rewrite <- (start_tc _ _ _ _ S), <- Ee in *.
  apply outer_stops; auto.
  - destruct (st_list _ _ _ Sc) as (l & _ & E). eauto.
  - exists h0. rewrite Ee in *. apply (started_clock m g g1 m1); [|auto].
    exists m. split; auto. constructor; auto.
Qed.
Lemma inner_stops : forall m g rest i ch, says_stop (view_of m (g_eid g)) (g_eid g) (m_owners m) (g_tc g) ->
  exists m3, inner m g rest i ch = IEnd m3 ch /\ quiet (tc := g_tc g) (g_eid g) m m3.
Proof.
  intros m g [|lv rest] i ch S; cbn [inner].
  - eexists; split; auto. apply quiet_refl.
  - apply says_stop_terminated in S. destruct (terminated m (g_eid g) (g_tc g)) as [r m1] eqn:E. simpl in S; subst.
    apply (terminated_quiet (tc := g_tc g)) in E. eauto.
Qed.
Theorem stops_at_yield : forall m0 g0 ys m g fuel h0 k1 k2, running m0 g0 ys m g -> g_pc g0 = PStart -> ys <> [] ->
  clock_after ESU h0 (the_clock (m_ctxs m0 (g_eid g0))) ->
  clock_incr CSE (the_clock (m_ctxs m (g_eid g))) = Ok k1 -> clock_incr PASS k1 = Ok k2 ->
  says_stop (with_clock (view_of m (g_eid g)) k1) (g_eid g) (m_owners m) (g_tc g) ->
  says_stop (with_clock (view_of m (g_eid g)) k2) (g_eid g) (m_owners m) (g_tc g) ->
  sequence_condition_total (g_eid g) (m_owners m) (g_tc g) ->
  exists m' g' l, resume (S fuel) m g = (m', g', OReturn l).
Proof.
  intros m0 g0 ys m g fuel h0 k1 k2 R Hp Ne K I1 I2 S1 S2 T.
  destruct (run_history _ _ _ _ _ R Hp) as [(-> & _)|(g1 & m1 & ps & ph & St)]; [congruence|].
  assert (Ee : g_eid g = g_eid g0) by (rewrite (rs_gen _ _ _ _ _ _ _ _ _ St); apply (rs_eid _ _ _ _ _ _ _ _ _ St)).
  assert (Kc : exists h, clock_after ESU h (the_clock (m_ctxs m (g_eid g)))).
  { destruct (hist_clock _ _ _ _ _ _ h0 (rs_hist _ _ _ _ _ _ _ _ _ St) (started_clock _ _ _ _ _ (rs_started _ _ _ _ _ _ _ _ _ St) K)) as (K' & _).
    rewrite Ee. eauto. }
  assert (L : exists l, x_list (m_ctxs m (g_eid g)) = Some l).
  { assert (exists l, x_list (m_ctxs m1 (g_eid g0)) = Some l) as (l & E).
    { destruct (rs_started _ _ _ _ _ _ _ _ _ St) as (ms & _ & Sx). apply start_spec in Sx. destruct Sx as (_ & _ & Sc & _).
      destruct (st_list _ _ _ Sc) as (l & _ & E). eauto. }
    rewrite Ee. rewrite (hist_list _ _ _ _ _ _ l (rs_hist _ _ _ _ _ _ _ _ _ St) E). eauto. }
  destruct L as (l & L). destruct Kc as (h & Kc).
  assert (C1 : incr_clock CSE m (g_eid g) = Ok (set_clock m (g_eid g) k1)) by (unfold incr_clock; rewrite I1; auto).
  pose proof (rs_matches _ _ _ _ _ _ _ _ _ St) as M. unfold resume.
  inversion M as [p i s ch Hc Eq1 Eq2|Ha Eq1 Eq2].
  - rewrite C1. set (m2 := set_clock m (g_eid g) k1) in *.
    destruct (inner_stops m2 g (skipn (S i) (queue m2)) (S i) ch) as (m3 & -> & [F E]).
    { unfold m2. rewrite with_clock_set. auto. }
    assert (X2 : m_ctxs m2 (g_eid g) = ctx_clock k1 (m_ctxs m (g_eid g))) by (unfold m2, set_clock; rewrite set_ctx_at; auto).
    unfold pass_tail.
    assert (Z : negb ch && negb (g_abs g) = false).
    { destruct (g_abs g) eqn:Ea; [apply andb_false_r|]. rewrite Hc; auto. rewrite <- (state_abs _ _ _ _ _ _ _ _ _ St); auto. }
    rewrite Z. unfold incr_clock. rewrite E, X2. change (the_clock (ctx_clock k1 (m_ctxs m (g_eid g)))) with k1. rewrite I2.
    apply outer_stops.
    + rewrite with_clock_set. simpl. rewrite (fr_owners _ _ _ F).
      assert (V : view_of m3 (g_eid g) = with_clock (view_of m (g_eid g)) k1).
      { unfold view_of, queue. rewrite E, X2, (fr_nodes _ _ _ F), (fr_exact _ _ _ F), (fr_graph _ _ _ F), (fr_levels _ _ _ F); auto. }
      rewrite V. auto.
    + simpl. rewrite (fr_owners _ _ _ F). auto.
    + exists l. unfold set_clock. rewrite set_ctx_at, E, X2. auto.
    + exists ((h ++ [CSE]) ++ [PASS]). unfold set_clock. rewrite set_ctx_at. unfold the_clock; simpl. eapply ca_incr; eauto. eapply ca_incr; eauto.
  - rewrite C1. set (m2 := set_clock m (g_eid g) k1) in *. unfold incr_clock.
    assert (X2 : m_ctxs m2 (g_eid g) = ctx_clock k1 (m_ctxs m (g_eid g))) by (unfold m2, set_clock; rewrite set_ctx_at; auto).
    rewrite X2. change (the_clock (ctx_clock k1 (m_ctxs m (g_eid g)))) with k1. rewrite I2.
    apply outer_stops.
    + rewrite with_clock_set. unfold m2. rewrite with_clock_set. auto.
    + auto.
    + exists l. unfold set_clock. rewrite set_ctx_at, X2. auto.
    + exists ((h ++ [CSE]) ++ [PASS]). unfold set_clock. rewrite set_ctx_at. unfold the_clock; simpl. eapply ca_incr; eauto. eapply ca_incr; eauto.
Qed.

(** ** EveryNCalls *)
Lemma while_running : forall P m0 g0 ys m g, running_while P m0 g0 ys m g -> running m0 g0 ys m g.
Proof. intros P m0 g0 ys m g H; induction H; [constructor|eapply run_env; eauto|eapply run_yields; eauto]. Qed.
Theorem every_n_calls_spacing : forall m0 g0 ys m g b d k, running_while (every_n_calls b d k) m0 g0 ys m g -> g_pc g0 = PStart -> d <> b ->
  forall A B, concat ys = A ++ b :: B -> exists j, runs_since d b A j /\ k <= j.
Proof.
  intros m0 g0 ys m g b d k R Hp N. induction R as [Pm|ys m g m' R IH U Pm|ys m g fuel m' g' s R IH E Pm].
  - intros A B H. symmetry in H. apply app_eq_nil in H. destruct H; discriminate.
  - auto.
  - intros A B H. rewrite concat_app in H. simpl in H. rewrite app_nil_r in H.
    assert (X : (exists B', concat ys = A ++ b :: B') \/ exists p r, s = p ++ b :: r /\ A = concat ys ++ p).
    { clear - H. revert A H. induction (concat ys) as [|y l IHl]; intros A H; simpl in H.
      - right. exists A, B; auto.
      - destruct A as [|a A]; simpl in H; inversion H; subst.
        + left. exists l; auto.
        + destruct (IHl _ H2) as [(B' & ->)|(p & r & -> & ->)]; [left; exists B'; auto|right; exists p, r; auto]. }
    destruct X as [(B' & X)|(p & r & -> & ->)]; [eauto|].
    destruct (running_passes _ _ _ _ _ (while_running _ _ _ _ _ _ R)) as (ts & Es & R').
    destruct (yield_theorem _ _ _ _ _ _ _ _ _ R' Hp E) as (Ee & [(pp & i & _ & F)|(F & _)]); [|destruct p; discriminate].
    destruct (sf_sound _ _ _ _ _ _ _ _ _ F _ _ _ eq_refl) as (v & C & (c & st & st' & Ec & _ & Ev)).
    destruct Pm as (o & Eb & Eo). rewrite Eb in Ec. inversion Ec; subst c. simpl in Ev. rewrite Eo in Ev.
    destruct (cv_use _ _ _ _ _ _ C) as (u & Eu & [Uab _]). rewrite Es in Uab.
    unfold count_useable in Ev. rewrite Eu in Ev.
    destruct (mem d (v_nodes v)); [|inversion Ev]. destruct (mem b (v_nodes v)); [|inversion Ev]. simpl in Ev.
    inversion Ev as [[Le]]. apply Nat.leb_le in Le. exists (u d b). split; auto.
Qed.
Lemma runs_since_snoc_b : forall a b L j, runs_since a b (L ++ [b]) j -> j = 0.
Proof.
  intros a b L j (A2 & [E|(A1 & E)] & N & ->).
  - exfalso; apply N; subst. apply in_app_iff; right; left; auto.
  - destruct (rev A2) as [|x A3] eqn:R.
    + apply (f_equal (@rev node)) in R. rewrite rev_involutive in R. subst; auto.
    + apply (f_equal (@rev node)) in R. rewrite rev_involutive in R. simpl in R. subst A2.
      rewrite app_comm_cons, app_assoc in E. apply app_inj_tail in E. destruct E as [_ ->].
      exfalso; apply N, in_app_iff; right; left; auto.
Qed.
Lemma runs_since_snoc : forall a b L x j, x <> b -> runs_since a b (L ++ [x]) j ->
  runs_since a b L (j - (if Nat.eq_dec x a then 1 else 0)) /\ (if Nat.eq_dec x a then 1 else 0) <= j.
Proof.
  intros a b L x j Nx (A2 & C & N & ->).
  destruct (rev A2) as [|y A3] eqn:R.
  - apply (f_equal (@rev node)) in R. rewrite rev_involutive in R. simpl in R. subst. destruct C as [E|(A1 & E)].
    + apply app_eq_nil in E. destruct E; discriminate.
    + apply app_inj_tail in E. destruct E; congruence.
  - apply (f_equal (@rev node)) in R. rewrite rev_involutive in R. simpl in R. subst A2.
    assert (y = x) as ->.
    { destruct C as [E|(A1 & E)]; [apply app_inj_tail in E; destruct E; auto|].
      rewrite app_comm_cons, app_assoc in E. apply app_inj_tail in E; destruct E; auto. }
    assert (Ct : count_occ Nat.eq_dec (rev A3 ++ [x]) a = count_occ Nat.eq_dec (rev A3) a + (if Nat.eq_dec x a then 1 else 0)).
    { rewrite count_occ_app. f_equal. }
    rewrite Ct. split; [|lia]. exists (rev A3). split; [|split; [intros H; apply N, in_app_iff; auto|lia]].
    destruct C as [E|(A1 & E)]; [apply app_inj_tail in E; destruct E; auto|].
    rewrite app_comm_cons, app_assoc in E. apply app_inj_tail in E; destruct E; eauto.
Qed.
Lemma spacing_count : forall b d k L, d <> b -> (forall A B, L = A ++ b :: B -> exists j, runs_since d b A j /\ k <= j) ->
  forall j, runs_since d b L j -> k * count_occ Nat.eq_dec L b + j <= count_occ Nat.eq_dec L d.
Proof.
  intros b d k L N. induction L as [|x L IH] using rev_ind; intros H j R.
  - destruct R as (A2 & [<-|(A1 & E)] & _ & ->); [simpl; lia|]. symmetry in E; apply app_eq_nil in E; destruct E; discriminate.
  - assert (H' : forall A B, L = A ++ b :: B -> exists j, runs_since d b A j /\ k <= j).
    { intros A B ->. apply (H A (B ++ [x])). rewrite <- app_assoc; auto. }
    specialize (IH H'). rewrite !count_occ_app. simpl. unfold node in *.
    destruct (Nat.eq_dec x b) as [->|Nb].
    + apply runs_since_snoc_b in R. subst j. destruct (H L [] eq_refl) as (j & Rj & Lj). apply IH in Rj.
      destruct (Nat.eq_dec b d); [congruence|]. lia.
    + apply runs_since_snoc in R; auto. destruct R as [R Lj]. apply IH in R. destruct (Nat.eq_dec x d); lia.
Qed.
Lemma runs_since_exists : forall a b L, exists j, runs_since a b L j.
Proof.
  intros a b L; induction L as [|x L (j & IH)].
  - exists 0, []. splits.
  - destruct IH as (A2 & [->|(A1 & ->)] & N & ->).
    + destruct (Nat.eq_dec x b) as [->|Nb].
      * exists (count_occ Nat.eq_dec A2 a), A2. splits. right. exists []; auto.
      * exists (count_occ Nat.eq_dec (x :: A2) a), (x :: A2). splits. intros [E|E]; congruence.
    + exists (count_occ Nat.eq_dec A2 a), A2. splits. right. exists (x :: A1); auto.
Qed.
Theorem every_n_calls_total : forall m0 g0 ys m g b d k, running_while (every_n_calls b d k) m0 g0 ys m g -> g_pc g0 = PStart -> d <> b ->
  k * count_occ Nat.eq_dec (concat ys) b <= count_occ Nat.eq_dec (concat ys) d.
Proof.
  intros m0 g0 ys m g b d k R Hp N. destruct (runs_since_exists d b (concat ys)) as (j & Rj).
  pose proof (spacing_count b d k (concat ys) N (every_n_calls_spacing _ _ _ _ _ _ _ _ R Hp N) j Rj). lia.
Qed.
Lemma occurrences_concat : forall n ys, Forall (@NoDup node) ys -> occurrences n ys = count_occ Nat.eq_dec (concat ys) n.
Proof.
  intros n ys F; induction F as [|s l Hs Hl IH]; auto. simpl. rewrite count_occ_app. unfold node in *. rewrite <- IH. unfold occurrences; simpl.
  destruct (mem n s) eqn:M; simpl.
  - apply mem_In in M. assert (E : count_occ Nat.eq_dec s n = 1) by (apply NoDup_count_occ'; auto). unfold node in *. rewrite E; auto.
  - apply mem_In_false in M. assert (E : count_occ Nat.eq_dec s n = 0) by (apply count_occ_not_In; auto). unfold node in *. rewrite E; auto.
Qed.
Theorem every_n_calls_occurrences : forall m0 g0 ys m g b d k, running_while (every_n_calls b d k) m0 g0 ys m g -> g_pc g0 = PStart -> d <> b ->
  k * occurrences b ys <= occurrences d ys.
Proof.
  intros m0 g0 ys m g b d k R Hp N.
  assert (F : Forall (@NoDup node) ys).
  { apply Forall_forall. intros s I. apply (yield_one_level _ _ _ _ _ s (while_running _ _ _ _ _ _ R) Hp I). }
  rewrite !occurrences_concat by auto. eapply every_n_calls_total; eauto.
Qed.

(** ** Yields of runs whose conditions have no side effects *)
Lemma evolves_pure : forall (cs : cond -> Prop) e ow st st', (forall c, cs c -> observer e ow c) -> evolves cs e ow st st' -> st' = st.
Proof. intros cs e ow st st' P H; induction H; auto. subst. apply (ob_state _ _ _ (P _ H0)). Qed.
Lemma condition_was_pure : forall m m' g' v n b, (forall c, used m' (g_tc g') c -> observer (g_eid g') (m_owners m') c) ->
  condition_was m m' g' v n b -> exists c, aget n (m_basic m') = Some c /\ is_satisfied v (g_eid g') (m_owners m') (m_cst m) c = Ok b.
Proof.
  intros m m' g' v n b P (c & st & st' & E & Ev & H). exists c; split; auto.
  apply evolves_pure in Ev; auto. subst. unfold is_satisfied; rewrite H; auto.
Qed.

(** ** The statements used for the property theorems *)
Theorem sound : forall m0 g0 ys m g fuel m' g' s, running m0 g0 ys m g -> g_pc g0 = PStart ->
  resume fuel m g = (m', g', OYield s) ->
  forall b n r, s = b ++ n :: r -> exists v, considered m' (g_eid g0) ys s b v /\ condition_was m m' g' v n true.
Proof.
  intros m0 g0 ys m g fuel m' g' s R Hp E b n r ->.
  destruct (running_passes _ _ _ _ _ R) as (ts & Es & R').
  destruct (yield_theorem _ _ _ _ _ _ _ _ _ R' Hp E) as (Ee & [(pp & i & _ & F)|(F & _)]); [|destruct b; discriminate].
  destruct (sf_sound _ _ _ _ _ _ _ _ _ F _ _ _ eq_refl) as (v & C & W). rewrite Es, Ee in C. eauto.
Qed.
Theorem maximal : forall m0 g0 ys m g fuel m' g' s, running m0 g0 ys m g -> g_pc g0 = PStart ->
  resume fuel m g = (m', g', OYield s) -> s <> [] \/ g_abs g' = true ->
  exists i level, nth_error (queue m0) i = Some level /\ incl s level /\
    forall n, In n level -> ~ In n s -> exists v, considered m' (g_eid g0) ys s s v /\ condition_was m m' g' v n false.
Proof.
  intros m0 g0 ys m g fuel m' g' s R Hp E Ne.
  destruct (running_passes _ _ _ _ _ R) as (ts & Es & R').
  destruct (yield_theorem _ _ _ _ _ _ _ _ _ R' Hp E) as (Ee & [(pp & i & _ & F)|(F & _ & I)]).
  - destruct (sf_level _ _ _ _ _ _ _ _ _ F) as (lv & A & B & _ & D). rewrite Es, Ee in D. exists i, lv; auto.
  - destruct I as [I _]. destruct Ne; congruence.
Qed.
(** the levels passed over between the previous set of the pass and this one *)
Theorem skipped_levels : forall m0 g0 ts m g fuel m' g' s, running_in_passes m0 g0 ts m g -> g_pc g0 = PStart ->
  resume fuel m g = (m', g', OYield s) -> s <> [] \/ g_abs g' = true ->
  exists before i, map snd before = in_pass (pass_number m' (g_eid g0)) ts /\
    valid_pass (queue m0) (g_abs g') (before ++ [(i, s)]) /\
    forall k level n, (forall j, In j (map fst before) -> j < k) -> k < i -> nth_error (queue m0) k = Some level -> In n level ->
      exists v, considered m' (g_eid g0) (map snd ts) s [] v /\ condition_was m m' g' v n false.
Proof.
  intros m0 g0 ts m g fuel m' g' s R' Hp E Ne.
  destruct (yield_theorem _ _ _ _ _ _ _ _ _ R' Hp E) as (Ee & [(pp & i & Ep & F)|(F & _ & I)]).
  - exists pp, i. split; auto. split; [apply (sf_valid _ _ _ _ _ _ _ _ _ F)|]. rewrite <- Ee. apply (sf_skipped _ _ _ _ _ _ _ _ _ F).
  - destruct I as [I _]. destruct Ne; congruence.
Qed.
Theorem idle_yield : forall m0 g0 ys m g fuel m' g', running m0 g0 ys m g -> g_pc g0 = PStart ->
  resume fuel m g = (m', g', OYield []) -> g_abs g' = false ->
  (exists v c st st', considered m' (g_eid g0) ys [] [] v /\ (g_tc g' ESU = Some c \/ g_tc g' ES = Some c) /\
      evolves (used m' (g_tc g')) (g_eid g') (m_owners m') (m_cst m) st /\ eval v (g_eid g') (m_owners m') c st = (Ok true, st'))
  \/ forall level n, In level (queue m0) -> In n level ->
       exists v, considered m' (g_eid g0) ys [] [] v /\ condition_was m m' g' v n false.
Proof.
  intros m0 g0 ys m g fuel m' g' R Hp E Na.
  destruct (running_passes _ _ _ _ _ R) as (ts & Es & R').
  destruct (yield_theorem _ _ _ _ _ _ _ _ _ R' Hp E) as (Ee & [(pp & i & _ & F)|(F & _ & I)]).
  - destruct (sf_valid _ _ _ _ _ _ _ _ _ F) as [_ V]. destruct (V i []) as (_ & _ & X); [apply in_app_iff; right; left; auto|].
    exfalso; apply X; auto.
  - destruct I as [_ [(v & c & A & B & st & st' & C & D)|I]].
    + left. exists v, c, st, st'. rewrite <- Ee, <- Es. auto.
    + right. intros lv n L N. rewrite <- Ee, <- Es. eauto.
Qed.
Theorem termination_false : forall m0 g0 ys m g fuel m' g' s, running m0 g0 ys m g -> g_pc g0 = PStart ->
  resume fuel m g = (m', g', OYield s) -> s <> [] \/ g_abs g' = true ->
  exists v, considered m' (g_eid g0) ys s [] v /\ termination_was_false m m' g' v.
Proof.
  intros m0 g0 ys m g fuel m' g' s R Hp E Ne.
  destruct (running_passes _ _ _ _ _ R) as (ts & Es & R').
  destruct (yield_theorem _ _ _ _ _ _ _ _ _ R' Hp E) as (Ee & [(pp & i & _ & F)|(F & _ & I)]).
  - destruct (sf_term _ _ _ _ _ _ _ _ _ F) as (v & A & B). rewrite Es, Ee in A. eauto.
  - destruct I as [I _]. destruct Ne; congruence.
Qed.
(** a run returns only where a termination condition was true *)
Theorem returns_terminated : forall m0 g0 ys m1 g1 fuel m g l, running m0 g0 ys m1 g1 -> g_pc g0 = PStart -> resume fuel m1 g1 = (m, g, OReturn l) ->
  exists v ow c st st', (the_tc m1 g1 ESU = Some c \/ the_tc m1 g1 ES = Some c) /\
    view_at_return m0 m (g_eid g0) (g_skip g0) v /\ eval v (g_eid g0) ow c st = (Ok true, st').
Proof.
  intros m0 g0 ys m1' g1' fuel m g l R Hp E. destruct (return_history_at _ _ _ _ _ _ _ _ _ R E Hp) as (g1 & m1 & ps & mt & mt1 & Rr & Tc).
  destruct (terminated_true _ _ _ _ (rr_term _ _ _ _ _ _ _ _ _ _ Rr)) as (c & st & st' & A & _ & B).
  exists (view_of mt (g_eid g0)), (m_owners mt), c, st, st'. splits.
  - unfold the_tc. destruct Tc as [[P S]|[P S]].
    + rewrite P, <- (start_tc _ _ _ _ S). auto.
    + destruct (g_pc g1'); try congruence; rewrite <- S; auto.
  - pose proof (rr_static_t _ _ _ _ _ _ _ _ _ _ Rr) as Sm. pose proof (static_queue _ _ Sm) as Q. destruct Sm as [S1 S2 S3 S4].
    pose proof (rr_ctx _ _ _ _ _ _ _ _ _ _ Rr) as X. unfold view_of.
    destruct (g_skip g0); [constructor; cbn; congruence|]. destruct (tick_rest _ _ _ X) as (X1 & X2 & X3 & _). destruct X as (k & K & X).
    constructor; cbn; try congruence. rewrite X. cbn. auto.
Qed.
(** the clock between yields, counted within the current environment state update *)
Theorem run_clock_counts : forall m0 g0 ts m g h0, running_in_passes m0 g0 ts m g -> g_pc g0 = PStart -> ts <> [] ->
  clock_after ESU h0 (the_clock (m_ctxs m0 (g_eid g0))) -> h0 = [] \/ (exists h s, h0 = h ++ [s] /\ ts_le ESU s) ->
  clock_total_relative CSE ESU (the_clock (m_ctxs m (g_eid g0))) = Ok (length ts - 1) /\
  clock_total_relative PASS ESU (the_clock (m_ctxs m (g_eid g0))) = Ok (pass_number m (g_eid g0)) /\
  pass_number m0 (g_eid g0) = 0.
Proof.
  intros m0 g0 ts m g h0 R Hp Ne C B.
  destruct (run_clock _ _ _ _ _ _ R Hp Ne C) as (ev & K & Ec & F & Ep).
  assert (Sx : forall s ev, ts_le PASS s -> ts_le s ESU -> Forall (fun s => ts_le s PASS) ev -> Forall (fun x => ts_lt x ESU) ev).
  { intros s ev0 _ _ X. eapply Forall_impl; [|exact X]. intros a; unfold ts_le, ts_lt; simpl; lia. }
  assert (SA : since_at_least ESU (h0 ++ ev) ev).
  { split; [eapply (Sx PASS); auto; unfold ts_le; simpl; lia|]. destruct B as [->|(h & s & -> & L)]; [left; auto|].
    right. exists h, s. rewrite <- app_assoc; auto. }
  assert (P0 : pass_number m0 (g_eid g0) = 0).
  { unfold pass_number. rewrite (time_component ESU h0 _ PASS [] C); auto.
    split; [constructor|]. destruct B as [->|(h & s & -> & L)]; [left; auto|]. right. exists h, s. split; auto.
  }
  splits.
  - rewrite (total_relative ESU _ _ CSE ESU ev K); auto; try (unfold ts_lt, ts_le; simpl; lia). f_equal; lia.
  - rewrite (total_relative ESU _ _ PASS ESU ev K); auto; try (unfold ts_lt, ts_le; simpl; lia). f_equal. lia.
Qed.
