(** Conditions without side effects, and progress of runs in absolute time. *)
From Verif Require Export SpecCond YieldFacts.

Section CondInd.
Variable P : cond -> Prop.
Hypothesis Hatom : forall o a, P (CAtom o a).
Hypothesis Hall : forall o cs, Forall P cs -> P (CAll o cs).
Hypothesis Hany : forall o cs, Forall P cs -> P (CAny o cs).
Hypothesis Hnot : forall o c, P c -> P (CNot o c).
Hypothesis Hnwhen : forall o c n, P c -> P (CNWhen o c n).
Fixpoint cond_ind' (c : cond) : P c :=
  match c with
  | CAtom o a => Hatom o a
  | CAll o cs => Hall o cs ((fix go l : Forall P l := match l with [] => Forall_nil P | x :: r => Forall_cons x (cond_ind' x) (go r) end) cs)
  | CAny o cs => Hany o cs ((fix go l : Forall P l := match l with [] => Forall_nil P | x :: r => Forall_cons x (cond_ind' x) (go r) end) cs)
  | CNot o c => Hnot o c (cond_ind' c)
  | CNWhen o c n => Hnwhen o c n (cond_ind' c)
  end.
End CondInd.

Lemma same_view_refl : forall v, same_view v v.
Proof. intros v; constructor; auto; destruct v; simpl; [destruct v_total|destruct v_use]; auto. Qed.
Lemma count_total_same : forall v v' s d, same_view v v' -> count_total v' s d = count_total v s d.
Proof.
  intros v v' s d S. unfold count_total. rewrite (sv_nodes _ _ S). pose proof (sv_total _ _ S) as T.
  destruct (v_total v), (v_total v'); try tauto. rewrite T; auto.
Qed.
Lemma count_useable_same : forall v v' d w, same_view v v' -> count_useable v' d w = count_useable v d w.
Proof.
  intros v v' d w S. unfold count_useable. rewrite (sv_nodes _ _ S). pose proof (sv_use _ _ S) as T.
  destruct (v_use v), (v_use v'); try tauto. destruct w; auto. rewrite T; auto.
Qed.
Lemma sum_calls_same : forall v v' s ds a, same_view v v' -> sum_calls v' s ds a = sum_calls v s ds a.
Proof.
  induction ds as [|d r IH]; intros a S; simpl; auto. rewrite (count_total_same v v') by auto.
  destruct (count_total v s d); simpl; auto.
Qed.
Lemma all_have_run_same : forall v v' s ds, same_view v v' -> all_have_run v' s ds = all_have_run v s ds.
Proof.
  induction ds as [|d r IH]; intros S; simpl; auto. rewrite (count_total_same v v') by auto.
  destruct (count_total v s d); auto. rewrite IH; auto.
Qed.
Lemma eval_atom_same : forall v v' e own a w, plain (CAtom 0 a) = true -> same_view v v' ->
  eval_atom v' e own a w = eval_atom v e own a w /\ snd (eval_atom v e own a w) = w.
Proof.
  intros v v' e own a w Pl S. split; [|destruct a; simpl; auto; discriminate].
  destruct a; simpl in *; try discriminate; auto; unfold deps_or_nodes, time_interval, in_exact_time_mode;
  rewrite ?(sv_nodes _ _ S), ?(sv_clock _ _ S), ?(sv_list _ _ S), ?(sv_mode _ _ S), ?(sv_queue _ _ S), ?(count_total_same v v'),
    ?(count_useable_same v v'), ?(sum_calls_same v v'), ?(all_have_run_same v v') by auto; auto.

Qed.
Theorem eval_same : forall c v v' e ow st, plain c = true -> same_view v v' ->
  eval v' e ow c st = eval v e ow c st /\ snd (eval v e ow c st) = st.
Proof.
  intros c v v' e ow st Pl S. revert Pl st. induction c using cond_ind'; intros Pl st.
  - assert (Pl' : plain (CAtom 0 a) = true) by (destruct a; auto).
    destruct (eval_atom_same v v' e (ow o) a (s_world st) Pl' S) as [A B]. simpl. rewrite A.
    destruct (eval_atom v e (ow o) a (s_world st)); simpl in *. subst. destruct st; auto.
  - simpl in *. revert st. induction H as [|x l Hx Hl IH]; intros st; auto.
    simpl in Pl. apply andb_true_iff in Pl. destruct Pl as [Px Pl]. destruct (Hx Px st) as [A B]. rewrite A.
    destruct (eval v e ow x st) as [[[|]|ex] st1]; simpl in B; subst; auto.
  - simpl in *. revert st. induction H as [|x l Hx Hl IH]; intros st; auto.
    simpl in Pl. apply andb_true_iff in Pl. destruct Pl as [Px Pl]. destruct (Hx Px st) as [A B]. rewrite A.
    destruct (eval v e ow x st) as [[[|]|ex] st1]; simpl in B; subst; auto.
  - simpl in *. destruct (IHc Pl st) as [A B]. rewrite A. destruct (eval v e ow c st) as [[b|ex] st1]; auto.
  - discriminate.
Qed.
Theorem plain_observer : forall e ow c, plain c = true -> observer e ow c.
Proof.
  intros e ow c P; constructor.
  - intros v st. apply (eval_same c v v e ow st P (same_view_refl v)).
  - intros v v' st S. unfold is_satisfied. destruct (eval_same c v v' e ow st P S) as [-> _]; auto.
Qed.

(** ** Runs whose termination conditions are observers *)
Definition pure_tc (m : core) (e : eid) (tc : tconds) : Prop := forall s c, tc s = Some c -> observer e (m_owners m) c.
Lemma set_cst_same : forall m, set_cst m (m_cst m) = m.
Proof. destruct m; reflexivity. Qed.
Lemma check_tc_pure : forall m e tc s r m', pure_tc m e tc -> check_tc m e tc s = (r, m') -> m' = m.
Proof.
  intros m e tc s r m' P H. unfold check_tc in H. destruct (tc s) as [c|] eqn:E; [|inversion H; auto].
  unfold satisfied in H. pose proof (ob_state _ _ _ (P _ _ E) (view_of m e) (m_cst m)) as O. unfold state_after in O.
  destruct (eval _ _ _ _ _) as [x st]. simpl in O; subst. inversion H. apply set_cst_same.
Qed.
Lemma terminated_pure : forall m e tc r m', pure_tc m e tc -> terminated m e tc = (r, m') -> m' = m.
Proof.
  intros m e tc r m' P H. unfold terminated in H. destruct (check_tc m e tc ESU) as [[[|]|ex] m1] eqn:C;
  apply check_tc_pure in C; auto; subst; try (inversion H; auto; fail). eapply check_tc_pure; eauto.
Qed.
Lemma check_tc_view : forall m m' e tc s, pure_tc m e tc -> m_owners m' = m_owners m -> m_cst m' = m_cst m ->
  same_view (view_of m e) (view_of m' e) -> fst (check_tc m' e tc s) = fst (check_tc m e tc s).
Proof.
  intros m m' e tc s P O C V. unfold check_tc. destruct (tc s) as [c|] eqn:E; auto.
  unfold satisfied. rewrite O, C. pose proof (ob_view _ _ _ (P _ _ E) _ _ (m_cst m) V) as X. unfold is_satisfied in X.
  destruct (eval (view_of m e) _ _ _ _), (eval (view_of m' e) _ _ _ _); simpl in *; auto.
Qed.
Lemma terminated_view : forall m m' e tc, pure_tc m e tc -> m_owners m' = m_owners m -> m_cst m' = m_cst m ->
  same_view (view_of m e) (view_of m' e) -> fst (terminated m' e tc) = fst (terminated m e tc).
Proof.
  intros m m' e tc P O C V. unfold terminated.
  assert (P' : pure_tc m' e tc) by (intros s c E; rewrite O; eauto).
  pose proof (check_tc_view m m' e tc ESU P O C V) as A. pose proof (check_tc_view m m' e tc ES P O C V) as B.
  destruct (check_tc m e tc ESU) as [r m1] eqn:E1. destruct (check_tc m' e tc ESU) as [r' m1'] eqn:E2.
  apply check_tc_pure in E1; auto. apply check_tc_pure in E2; auto. simpl in A; subst.
  destruct r as [[|]|]; auto.
Qed.
Lemma reset_pass_cst : forall m e, m_cst (reset_counts_total PASS m e) = m_cst m. Proof. reflexivity. Qed.
Lemma reset_pass_owners : forall m e, m_owners (reset_counts_total PASS m e) = m_owners m. Proof. reflexivity. Qed.
Lemma finish_no_fuel : forall m g m' g', finish m g <> (m', g', OFuel).
Proof.
  intros m g m' g' H. unfold finish in H. destruct (if g_skip g then Ok m else incr_clock ESU m (g_eid g)) as [mm|]; [|inversion H].
  destruct (check_tc mm (g_eid g) (g_tc g) ES) as [[b|ex] m2]; [|inversion H].
  destruct (x_list (m_ctxs m2 (g_eid g))); inversion H.
Qed.
Lemma inner_abs_pure : forall m g lv rest i ch m3 ch', g_abs g = true -> pure_tc m (g_eid g) (g_tc g) ->
  inner m g (lv :: rest) i ch = IEnd m3 ch' -> m3 = m /\ ch' = ch /\ fst (terminated m (g_eid g) (g_tc g)) = Ok true.
Proof.
  intros m g lv rest i ch m3 ch' A P H. cbn [inner] in H.
  destruct (terminated m (g_eid g) (g_tc g)) as [[[|]|ex] m1] eqn:T; [|..|discriminate].
  - inversion H; subst. apply terminated_pure in T; auto.
  - destruct (do_level (S (length lv)) m1 (g_eid g) lv []) as [[[exec|ex] m2]|]; [|discriminate..].
    rewrite A, orb_true_r in H. destruct (append_exec m2 (g_eid g) true exec) as [[|] ?]; discriminate.
Qed.
Lemma outer_progress_abs : forall f m g m' g', g_abs g = true -> queue m <> [] -> pure_tc m (g_eid g) (g_tc g) ->
  outer (S (S f)) m g <> (m', g', OFuel).
Proof.
  intros f m g m' g' A Q P H. remember (S f) as f1. cbn [outer] in H.
  destruct (terminated m (g_eid g) (g_tc g)) as [[[|]|ex] m1] eqn:T; [eapply finish_no_fuel; eauto| |inversion H].
  apply terminated_pure in T as X; auto; subst m1. set (m2 := reset_counts_total PASS m (g_eid g)) in *.
  assert (Q2 : queue m2 = queue m) by reflexivity. rewrite Q2 in H. destruct (queue m) as [|lv rest] eqn:Eq; [congruence|].
  destruct (inner m2 g (lv :: rest) 0 false) as [m3 s i ch|m3 ch|m3 ex|m3] eqn:I; try (inversion H; fail).
  - assert (P2 : pure_tc m2 (g_eid g) (g_tc g)) by exact P.
    apply inner_abs_pure in I; auto. destruct I as (-> & -> & T2). unfold pass_tail in H. rewrite A in H. simpl in H.
    destruct (incr_clock PASS m2 (g_eid g)) as [m4|] eqn:Ic; [|inversion H].
    unfold incr_clock in Ic. destruct (clock_incr PASS (the_clock (m_ctxs m2 (g_eid g)))) as [k|]; inversion Ic; subst m4. clear Ic.
    set (m4 := set_clock m2 (g_eid g) k) in *. subst f1. cbn [outer] in H.
    assert (P4 : pure_tc m4 (g_eid g) (g_tc g)) by exact P.
    destruct (terminated m4 (g_eid g) (g_tc g)) as [[[|]|ex] m5] eqn:T4; [eapply finish_no_fuel; eauto| |inversion H].
    apply terminated_pure in T4 as X; auto; subst m5. set (m6 := reset_counts_total PASS m4 (g_eid g)) in *.
    assert (Q6 : queue m6 = lv :: rest) by (rewrite <- Eq; reflexivity). rewrite Q6 in H.
    destruct (inner m6 g (lv :: rest) 0 false) as [m7 s i ch|m7 ch|m7 ex|m7] eqn:I; try (inversion H; fail).
    + apply inner_abs_pure in I; auto. destruct I as (_ & _ & T6).
      assert (V : same_view (view_of m4 (g_eid g)) (view_of m6 (g_eid g))).
      { unfold m6, m4, m2, reset_counts_total, set_clock, view_of. constructor; try reflexivity.
        - simpl. repeat (rewrite upd_same; simpl). destruct (x_total (m_ctxs m (g_eid g))); simpl; auto.
          intros s0 n0. unfold reset_total. destruct (ts_leb s0 PASS); auto.
        - simpl. repeat (rewrite upd_same; simpl). destruct (x_use (m_ctxs m (g_eid g))); simpl; auto.
        - simpl. repeat (rewrite upd_same; simpl); auto.
        - simpl. repeat (rewrite upd_same; simpl); auto. }
      rewrite (terminated_view m4 m6) in T6; auto. rewrite T4 in T6. discriminate.
    + eapply inner_fuel; eauto.
  - eapply inner_fuel; eauto.
Qed.
Lemma pure_tc_owners : forall m m' e tc, pure_tc m e tc -> m_owners m' = m_owners m -> pure_tc m' e tc.
Proof. intros m m' e tc P O s c E. rewrite O. eauto. Qed.
Lemma start_tc : forall m g g1 m1, start m g = (Ok g1, m1) -> g_tc g1 = run_tc m g.
Proof. intros m g g1 m1 H. apply start_spec in H. destruct H as (_ & _ & _ & _ & _ & _ & ->). reflexivity. Qed.
Lemma incr_clock_inv : forall s m e m', incr_clock s m e = Ok m' -> exists k, m' = set_clock m e k.
Proof. intros s m e m' H. unfold incr_clock in H. destruct (clock_incr _ _); inversion H; eauto. Qed.
Theorem progress_abs : forall m0 g0 ys m g fuel, running m0 g0 ys m g -> g_pc g0 = PStart -> queue m <> [] ->
  (forall s c ow, the_tc m g s = Some c -> observer (g_eid g) ow c) -> snd (resume (S (S fuel)) m g) <> OFuel.
Proof.
  intros m0 g0 ys m g fuel R Hp Q P H.
  destruct (uses_absolute m g) eqn:UA; [|eapply progress; eauto].
  destruct (resume (S (S fuel)) m g) as [[m' g'] o] eqn:E. simpl in H; subst o.
  unfold resume in E.
  destruct (run_history _ _ _ _ _ R Hp) as [(-> & -> & U)|(g1 & m1 & ps & ph & St)].
  - rewrite Hp in E. unfold uses_absolute in UA; rewrite Hp in UA.
    destruct (start m g0) as [[g1|ex] m1] eqn:S; [|inversion E].
    rewrite <- (start_abs _ _ _ _ S) in UA. pose proof (start_spec _ _ _ _ S) as (Sm & _ & _ & Ee & _).
    eapply outer_progress_abs; [exact UA| | |exact E].
    + rewrite (static_queue _ _ Sm); auto.
    + intros s c Ec. rewrite Ee. apply (P s). unfold the_tc. rewrite Hp, <- (start_tc _ _ _ _ S). auto.
  - pose proof (rs_matches _ _ _ _ _ _ _ _ _ St) as M.
    assert (T : the_tc m g = g_tc g) by (unfold the_tc; inversion M; reflexivity). rewrite T in P.
    assert (A' : g_abs g = true) by (unfold uses_absolute in UA; inversion M as [p i s ch Hc Eq1 Eq2|Ha Eq1 Eq2]; rewrite <- Eq2 in UA; auto).
    assert (Pu : forall mm, pure_tc mm (g_eid g) (g_tc g)) by (intros mm s c Ec; apply (P s); auto).
    inversion M as [p i s ch Hc Eq1 Eq2|Ha Eq1 Eq2]; rewrite <- Eq2 in E.
    + destruct (incr_clock CSE m (g_eid g)) as [m2|ex] eqn:I2; [|inversion E]. apply incr_clock_inv in I2. destruct I2 as (k & ->).
      destruct (inner _ g _ (S i) ch) as [m3 s' i' ch'|m3 ch'|m3 ex|m3] eqn:I; try (inversion E; fail).
      * apply inner_end in I as I'. destruct I' as ((F & _) & _). 
        assert (Q3 : queue m3 = queue m) by (unfold queue; rewrite (fr_graph _ _ _ F), (fr_levels _ _ _ F), (fr_exact _ _ _ F); reflexivity).
        unfold pass_tail in E. rewrite A', andb_false_r in E. 
        destruct (incr_clock PASS m3 (g_eid g)) as [m4|] eqn:I4; [|inversion E]. apply incr_clock_inv in I4. destruct I4 as (k' & ->).
        eapply outer_progress_abs; [exact A'| | |exact E]; auto. change (queue (set_clock m3 (g_eid g) k')) with (queue m3). congruence.
      * eapply inner_fuel; eauto.
    + destruct (incr_clock CSE m (g_eid g)) as [m2|ex] eqn:I2; [|inversion E]. apply incr_clock_inv in I2. destruct I2 as (k & ->).
      destruct (incr_clock PASS _ (g_eid g)) as [m3|] eqn:I3; [|inversion E]. apply incr_clock_inv in I3. destruct I3 as (k' & ->).
      eapply outer_progress_abs; [exact A'| | |exact E]; auto.
Qed.
