(** Runs without absolute conditions: proofs. *)
From Verif Require Export SpecAbsMode.
From Verif Require Import BaseFacts RunProofs RunHist RunFacts RunProps YieldFacts PureFacts StopFacts IdFacts AbsFacts AbsRun.
From Coq Require Import Lia.
Open Scope nat_scope.

Lemma timed_absolute : forall x, timed x -> is_absolute x = true.
Proof. intros x (o & [(r & s & e & si & ei & ->)|(t & incl & ->)]); auto. Qed.
Lemma absolute_part : forall c, is_absolute c = true -> exists x, part_of x c /\ timed x.
Proof.
  induction c as [o a|o cs IH|o cs IH|o c IH|o c n IH] using cond_ind'; simpl; intros A; try discriminate.
  - exists (CAtom o a). split; [constructor|]. exists o. destruct a; try discriminate; eauto 10.
  - apply existsb_exists in A. destruct A as (c & Ic & A). rewrite Forall_forall in IH. destruct (IH c Ic A) as (x & P & T).
    exists x. split; auto. eapply po_all; eauto.
  - apply existsb_exists in A. destruct A as (c & Ic & A). rewrite Forall_forall in IH. destruct (IH c Ic A) as (x & P & T).
    exists x. split; auto. eapply po_any; eauto.
Qed.
Lemma timeless_start : forall ms g0 g1 m1, timeless ms g0 -> start ms g0 = (Ok g1, m1) -> g_abs g1 = false.
Proof.
  intros ms g0 g1 m1 T S. rewrite (start_abs _ _ _ _ S). destruct (existsb _ _) eqn:E; auto. exfalso.
  apply existsb_exists in E. destruct E as (c & Ic & A). destruct (absolute_part c A) as (x & P & X).
  apply (T c x); auto. apply in_app_or in Ic. destruct Ic as [I|I]; [left; auto|right; apply tc_list_in; auto].
Qed.
Lemma timeless_setup : forall ms g0 g1 m1, start ms g0 = (Ok g1, m1) -> g_abs g1 = false ->
  shown_time m1 (g_eid g0) = shown_time ms (g_eid g0) /\ step_length m1 (g_eid g0) = step_length ms (g_eid g0).
Proof.
  intros m g g1 m1 H Ha. unfold start in H.
  destruct (validate_run_state m) as [[u|ex] mv] eqn:V; [|inversion H].
  assert (Ev : m_ctxs mv = m_ctxs m).
  { unfold validate_run_state in V. destruct (toposort (m_graph m)); try (inversion V; fail).
    destruct (add_defaults (m_nodes m) m) as [m'|] eqn:A; inversion V; subst.
    apply add_defaults_spec in A. apply A. }
  destruct (setup_absolute _ _ _) as [m3|ex] eqn:S; [|inversion H].
  destruct (init_counts_base m3 _ _) as [[r|ex] m4] eqn:I; [|inversion H].
  set (tc := match g_tcarg g with None => m_tconds mv | Some a => combine_tconds (m_tconds mv) a end) in *.
  assert (En : nonempty (absolute_conditions (set_clock mv (g_eid g) (the_clock (m_ctxs mv (g_eid g)))) tc) = false).
  { inversion H; subst g1; auto. }
  assert (C3 : exists k, x_clock (m_ctxs m3 (g_eid g)) = Some k /\ t_abs (k_time k) = shown_time m (g_eid g) /\
     t_interval (k_time k) = step_length m (g_eid g)).
  { unfold setup_absolute in S. destruct (absolute_conditions _ _); [|discriminate].
    injection S as <-. set (m2 := set_clock mv (g_eid g) (the_clock (m_ctxs mv (g_eid g)))).
    assert (E2 : the_clock (m_ctxs m2 (g_eid g)) = the_clock (m_ctxs m (g_eid g))).
    { unfold m2, set_clock. rewrite set_ctx_at. unfold the_clock at 1. simpl. rewrite Ev. auto. }
    unfold set_clock at 1. rewrite set_ctx_at. cbn [x_clock]. eexists. split; [reflexivity|]. fold m2. cbn [k_time t_abs t_interval].
    unfold shown_time, step_length. rewrite <- E2. split; reflexivity. }
  destruct C3 as (k & X & E1 & E2).
  inversion H; subst g1 m1. unfold shown_time at 1, step_length at 1, reset_counts_total, reset_counts_useable.
  rewrite !set_ctx_at. unfold the_clock at 1 2; simpl.
  assert (Y : x_clock (m_ctxs m4 (g_eid g)) = Some k).
  { unfold init_counts_base in I. rewrite X in I. simpl in I. repeat (destruct (copy_entry _ _); try (inversion I; fail)).
    inversion I; subst. rewrite set_ctx_at. auto. }
  rewrite Y. auto.
Qed.
Lemma hist_no_stamps : forall q x0 ps ph x, hist q false x0 ps ph x -> x_stamps x = x_stamps x0.
Proof.
  intros q x0 ps ph x H. remember false as abs. induction H; subst; auto.
  - rewrite <- IHhist. destruct H1 as (l & _ & ->). simpl. apply (ctx_accepts_other s x).
  - apply tick_rest in H0. destruct H0 as (_ & _ & _ & ->). auto.
  - rewrite <- IHhist. destruct H1 as (l & _ & ->). auto.
  - apply tick_rest in H0. apply tick_rest in H1. destruct H0 as (_ & _ & _ & E0). destruct H1 as (_ & _ & _ & ->). rewrite E0. auto.
  - apply tick_rest in H1. destruct H1 as (_ & _ & _ & ->). auto.
Qed.
Lemma hist_frozen : forall q abs x0 ps ph x h0, hist q abs x0 ps ph x -> clock_after ESU h0 (the_clock x0) -> t_abs_enabled (k_time (the_clock x0)) = false ->
  t_abs (k_time (the_clock x)) = t_abs (k_time (the_clock x0)) /\ t_interval (k_time (the_clock x)) = t_interval (k_time (the_clock x0)).
Proof. intros q abs x0 ps ph x h0 H C D. destruct (hist_clock _ _ _ _ _ _ h0 H C) as (_ & Ei & _ & _ & X). auto. Qed.

Theorem frozen : forall P ms g0 ys m g h0, begun P ms g0 ys m g -> clock_after ESU h0 (the_clock (m_ctxs ms (g_eid g0))) -> timeless ms g0 ->
  shown_time m (g_eid g0) = shown_time ms (g_eid g0) /\ step_length m (g_eid g0) = step_length ms (g_eid g0) /\
  (forall ts, x_stamps (m_ctxs ms (g_eid g0)) = Some ts -> x_stamps (m_ctxs m (g_eid g0)) = Some ts).
Proof.
  intros P ms g0 ys m g h0 B C T. destruct (begun_start _ _ _ _ _ _ B) as (g1 & m1 & ps & ph & S & St).
  assert (Ha := timeless_start _ _ _ _ T S). destruct (timeless_setup _ _ _ _ S Ha) as (E1 & E2).
  assert (Sd := rs_started _ _ _ _ _ _ _ _ _ St). assert (C1 := started_clock _ _ _ _ _ Sd C).
  pose proof (rs_hist _ _ _ _ _ _ _ _ _ St) as H.
  destruct (hist_frozen _ _ _ _ _ _ h0 H C1) as (F1 & F2); [rewrite <- (setup_enabled _ _ _ _ S); auto|].
  splits.
  - unfold shown_time at 1. rewrite F1. auto.
  - unfold step_length at 1. rewrite F2. auto.
  - intros ts E. rewrite Ha in H. rewrite (hist_no_stamps _ _ _ _ _ H). pose proof (started_stamps _ _ _ _ Sd) as Es. rewrite E in Es. auto.
Qed.
Theorem frozen_return : forall P ms g0 ys m l h0, ended P ms g0 ys m l -> clock_after ESU h0 (the_clock (m_ctxs ms (g_eid g0))) -> timeless ms g0 ->
  shown_time m (g_eid g0) = shown_time ms (g_eid g0) /\ step_length m (g_eid g0) = step_length ms (g_eid g0) /\
  (forall ts, x_stamps (m_ctxs ms (g_eid g0)) = Some ts -> x_stamps (m_ctxs m (g_eid g0)) = Some ts).
Proof.
  intros P ms g0 ys m l h0 En C T. destruct (ended_returned _ _ _ _ _ _ En) as (g1 & m1 & ps & mt & mt1 & S & Rr).
  assert (Ha := timeless_start _ _ _ _ T S). destruct (timeless_setup _ _ _ _ S Ha) as (E1 & E2).
  assert (Sd := rr_started _ _ _ _ _ _ _ _ _ _ Rr). assert (C1 := started_clock _ _ _ _ _ Sd C).
  pose proof (rr_hist _ _ _ _ _ _ _ _ _ _ Rr) as H.
  destruct (hist_frozen _ _ _ _ _ _ h0 H C1) as (F1 & F2); [rewrite <- (setup_enabled _ _ _ _ S); auto|].
  assert (Em : shown_time m (g_eid g0) = shown_time mt (g_eid g0) /\ step_length m (g_eid g0) = step_length mt (g_eid g0) /\
     x_stamps (m_ctxs m (g_eid g0)) = x_stamps (m_ctxs mt (g_eid g0))).
  { unfold shown_time, step_length. pose proof (rr_ctx _ _ _ _ _ _ _ _ _ _ Rr) as Ec. destruct (g_skip g0); [rewrite Ec; auto|].
    assert (Ec' := Ec). apply tick_abs in Ec; [|discriminate]. apply tick_rest in Ec'. destruct Ec as (-> & ->). destruct Ec' as (_ & _ & _ & ->). auto. }
  destruct Em as (M1 & M2 & M3). splits.
  - rewrite M1. unfold shown_time at 1. rewrite F1. auto.
  - rewrite M2. unfold step_length at 1. rewrite F2. auto.
  - intros ts E. rewrite M3. rewrite Ha in H. rewrite (hist_no_stamps _ _ _ _ _ H). pose proof (started_stamps _ _ _ _ Sd) as Es. rewrite E in Es. auto.
Qed.

Lemma begun_each : forall P (K : list node -> Prop) ms g0 ys m g, begun P ms g0 ys m g ->
  (forall zs m2 g2 fuel m3 g3 s, running ms g0 zs m2 g2 -> resume fuel m2 g2 = (m3, g3, OYield s) -> begun P ms g0 (zs ++ [s]) m3 g3 -> P m3 -> K s) ->
  Forall K ys.
Proof.
  intros P K ms g0 ys m g (P0 & Hp & fuel & m1 & g1 & s & ys' & -> & Y & R) HK.
  assert (Ee : g_eid g1 = g_eid g0).
  { destruct (run_first ms g0 ms fuel m1 g1 s Hp (undisturbed_refl _ _) Y) as (g2 & m2 & ps & ph & _ & St & _).
    rewrite (rs_gen _ _ _ _ _ _ _ _ _ St). apply (rs_eid _ _ _ _ _ _ _ _ _ St). }
  assert (P1 : P m1) by (clear - R; induction R; auto).
  assert (B : forall zs n h, running_while P m1 g1 zs n h -> begun P ms g0 (s :: zs) n h).
  { intros zs n h Rz. unfold begun. splits. exists fuel, m1, g1, s, zs. auto. }
  induction R as [Pm|zs m g m' R IH U Pm|zs m g fu m' g' s' R IH E Pm].
  - constructor; [|constructor]. apply (HK [] ms g0 fuel m1 g1 s); auto. { constructor. } apply B. constructor; auto.
  - auto.
  - change (s :: zs ++ [s']) with ((s :: zs) ++ [s']). apply Forall_app. split; auto. constructor; [|constructor].
    apply (HK (s :: zs) m g fu m' g' s'); auto.
    + eapply begun_running. apply B. exact R.
    + apply (B (zs ++ [s'])). eapply rw_yields; eauto.
Qed.
Lemma interval_total : forall v own s e si ei, exists x, time_interval v own None s e si ei = Ok x /\
  (x = true <-> in_window None s e si ei (t_abs (k_time (v_clock v)))).
Proof.
  intros v own s e si ei. unfold time_interval. simpl. eexists. split; [reflexivity|].
  unfold in_window. rewrite andb_true_iff. split.
  - intros [A B]. split; [|split]; [| |discriminate].
    + intros q ->. destruct si; [apply Qle_bool_iff|apply Qltb_iff]; auto.
    + intros q ->. destruct ei; [apply Qle_bool_iff|apply Qltb_iff]; auto.
  - intros (A & B & _). split.
    + destruct s as [q|]; auto. specialize (A q eq_refl). destruct si; [apply Qle_bool_iff|apply Qltb_iff]; auto.
    + destruct e as [q|]; auto. specialize (B q eq_refl). destruct ei; [apply Qle_bool_iff|apply Qltb_iff]; auto.
Qed.
Theorem negation_blind : forall ms g0 ys m g h0 b s e si ei, begun (not_interval b s e si ei) ms g0 ys m g ->
  clock_after ESU h0 (the_clock (m_ctxs ms (g_eid g0))) -> timeless ms g0 ->
  in_window None s e si ei (shown_time ms (g_eid g0)) -> forall sy, In sy ys -> ~ In b sy.
Proof.
  intros ms g0 ys m g h0 b s e si ei B C T W. apply Forall_forall.
  apply (begun_each _ (fun sy => ~ In b sy) _ _ _ _ _ B). intros zs m2 g2 fuel m3 g3 sy R Y B3 (o & o' & Eb) Is.
  apply in_split in Is. destruct Is as (x & y & E).
  destruct (sound _ _ _ _ _ _ _ _ _ R (proj1 (proj2 B)) Y x b y E) as (v & Cv & (c & st & st' & Ec & _ & Ev)).
  rewrite Eb in Ec. injection Ec as <-. cbn [eval eval_atom] in Ev.
  destruct (interval_total v (m_owners m3 o') s e si ei) as (z & Ez & Iz). cbn -[time_interval] in Ev. rewrite Ez in Ev.
  destruct (frozen _ _ _ _ _ _ _ B3 C T) as (F & _). unfold shown_time at 1 in F. rewrite <- (cv_clock _ _ _ _ _ _ Cv) in F.
  rewrite F in Iz. apply Iz in W. subst z. simpl in Ev. injection Ev as Ev _. discriminate.
Qed.

Lemma add_defaults_owner : forall ns m m' o, add_defaults ns m = Ok m' -> o < m_next m -> m_owners m' o = m_owners m o.
Proof.
  induction ns as [|n r IH]; intros m m' o A L; simpl in A; [injection A as <-; auto|].
  destruct (ahas n (m_basic m)); [eapply IH; eauto|]. destruct (aget n (m_graph m)) as [ds|]; [|discriminate].
  pose proof (ResumeFrame.default_cond_oids (m_next m) ds) as O. pose proof (ResumeFrame.default_cond_next (m_next m) ds) as Lx.
  destruct (default_cond (m_next m) ds) as [c nx]. cbn [fst snd] in O, Lx.
  rewrite (IH _ _ o A); [|simpl; lia]. simpl. apply CondSetFacts.set_owner_other. intros X. apply O in X. lia.
Qed.
Lemma level_none : forall q i acc, owner_level i q None acc = acc.
Proof. induction q; intros i acc; simpl; auto. Qed.
Theorem interval_termination : forall fuel ms g0 r e, g_pc g0 = PStart -> stops_every r e ms g0 ->
  exists m g ex, resume (S fuel) ms g0 = (m, g, ORaise ex).
Proof.
  intros fuel ms g0 r e Hp (o & si & ei & Tc & Ow & L). unfold resume. rewrite Hp.
  destruct (start ms g0) as [[g1|ex] m1] eqn:S; [|eauto].
  assert (X : m_owners m1 o = None /\ g_tc g1 = run_tc ms g0).
  { clear - S L Ow. unfold start in S. destruct (validate_run_state ms) as [[u|ex] mv] eqn:V; [|inversion S].
    assert (Ev : m_owners mv o = m_owners ms o /\ m_tconds mv = m_tconds ms).
    { unfold validate_run_state in V. destruct (toposort (m_graph ms)); try (inversion V; fail).
      destruct (add_defaults (m_nodes ms) ms) as [m'|] eqn:A; inversion V; subst. split; [eapply add_defaults_owner; eauto|].
      apply add_defaults_spec in A. apply A. }
    destruct Ev as [E1 E2].
    destruct (setup_absolute _ _ _) as [m3|ex] eqn:Sa; [|inversion S].
    destruct (init_counts_base m3 _ _) as [[x|ex] m4] eqn:I; [|inversion S].
    injection S as <- <-. simpl. unfold run_tc. rewrite E2. split; auto.
    assert (O3 : m_owners m3 o = m_owners mv o).
    { unfold setup_absolute in Sa. destruct (absolute_conditions _ _); [injection Sa as <-; auto|].
      destruct (unit_of _ _); [injection Sa as <-; auto|discriminate]. }
    assert (O4 : m_owners m4 o = m_owners m3 o).
    { unfold init_counts_base in I. repeat (destruct (copy_entry _ _); try (injection I as _ <-; auto; fail); try discriminate). }
    congruence. }
  destruct X as [Ox Tx]. simpl. unfold terminated, check_tc. rewrite Tx, Tc. unfold satisfied. simpl.
  unfold time_interval. rewrite Ox, level_none. destruct (in_exact_time_mode _); simpl; eauto.
Qed.
Lemma timeless_intro : forall ms g0, existsb is_absolute (map snd (m_basic ms) ++ tc_list (run_tc ms g0)) = false -> timeless ms g0.
Proof.
  intros ms g0 E c x R P T. assert (A := part_abs _ _ P (timed_absolute _ T)).
  assert (existsb is_absolute (map snd (m_basic ms) ++ tc_list (run_tc ms g0)) = true); [|congruence].
  apply existsb_exists. exists c. split; auto. apply in_or_app. destruct R as [R|R]; [auto|right; apply tc_list_in; auto].
Qed.
Lemma not_interval_kept : forall b s e si ei fuel m g m' g' o, resume fuel m g = (m', g', o) -> not_interval b s e si ei m -> not_interval b s e si ei m'.
Proof. intros b s e si ei fuel m g m' g' o R (i & j & A). pose proof (ResumeFrame.grown_resume _ _ _ _ _ _ R) as G. exists i, j. apply (ResumeFrame.gw_kept _ _ _ G); auto. Qed.
