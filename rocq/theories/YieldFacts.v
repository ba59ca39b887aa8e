(** What the conditions were when a set was yielded. *)
From Verif Require Export RunProps.

Lemma start_cst : forall m g g1 m1, start m g = (Ok g1, m1) -> m_cst m1 = m_cst m.
Proof.
  intros m g g1 m1 H. unfold start in H.
  destruct (validate_run_state m) as [[u|ex] mv] eqn:V; [|inversion H].
  assert (Hv : m_cst mv = m_cst m).
  { unfold validate_run_state in V. destruct (toposort (m_graph m)); try (inversion V; fail).
    destruct (add_defaults (m_nodes m) m) as [m'|] eqn:A; inversion V; subst.
    apply add_defaults_spec in A. tauto. }
  destruct (setup_absolute _ _ _) as [m3|ex] eqn:S; [|inversion H].
  assert (H3 : m_cst m3 = m_cst m).
  { unfold setup_absolute in S. destruct (absolute_conditions _ _) in S.
    - inversion S; subst; auto.
    - destruct (unit_of _ _) in S; inversion S; subst; auto. }
  destruct (init_counts_base m3 _ _) as [[r|ex] m4] eqn:I; [|inversion H].
  assert (H4 : m_cst m4 = m_cst m).
  { unfold init_counts_base in I. repeat (destruct (copy_entry _ _); try (inversion I; fail)); inversion I; subst; auto. }
  inversion H; subst; auto.
Qed.

(** entries when the search for the next set began; ms is the state in which the run was started *)
Record before_set (hq q : list (list node)) (ms : core) (g0 : gen) (ys : list (list node)) (m m' : core) (g' : gen) (s : list node)
  (g1 : gen) (mm : core) (x0 : ctx) (ps : list pass) (ph : phase) : Prop := {
  bs_yielded : yielded hq q g1 x0 mm ps m' g' s ph;
  bs_started : exists m1, started ms g0 g1 m1 /\ x0 = m_ctxs m1 (g_eid g0);
  bs_eid : g_eid g1 = g_eid g0;
  bs_yields : ys ++ [s] = all_yields (g_abs g1) ps ph;
  bs_cst : m_cst mm = m_cst m
}.
Lemma before_set_intro : forall m0 g0 ys m m' g' s g1 m1 mm ps ph,
  yielded (queue m0) (queue m0) g1 (m_ctxs m1 (g_eid g0)) mm ps m' g' s ph -> run_state m0 g0 (ys ++ [s]) m' g' g1 m1 ps ph ->
  m_cst mm = m_cst m -> before_set (queue m0) (queue m0) m0 g0 ys m m' g' s g1 mm (m_ctxs m1 (g_eid g0)) ps ph.
Proof. intros m0 g0 ys m m' g' s g1 m1 mm ps ph Y [] E. constructor; eauto. Qed.
Lemma yield_facts : forall m0 g0 ys m g fuel m' g' s, running m0 g0 ys m g -> g_pc g0 = PStart ->
  resume fuel m g = (m', g', OYield s) ->
  exists g1 mm x0 ps ph, before_set (queue m0) (queue m0) m0 g0 ys m m' g' s g1 mm x0 ps ph.
Proof.
  intros m0 g0 ys m g fuel m' g' s R Hp H.
  destruct (run_history _ _ _ _ _ R Hp) as [(-> & -> & U)|(g1 & m1 & ps & ph & St)].
  - destruct (run_first _ _ _ _ _ _ _ Hp U H) as (g1 & m1 & ps & ph & S & R' & Y & _).
    exists g1, m1, (m_ctxs m1 (g_eid g0)), ps, ph. apply before_set_intro; auto. eapply start_cst; eauto.
  - destruct (run_next _ _ _ _ _ _ _ _ _ _ _ _ _ St H) as (ps' & ph' & R' & Y & _).
    exists g1, m, (m_ctxs m1 (g_eid g0)), ps', ph'. apply before_set_intro; auto.
Qed.

Lemma occ_one_diff : forall n p r, NoDup (p ++ r) ->
  occurrences n [p ++ r] = occurrences n [p] + (if mem n (p ++ r) && negb (mem n p) then 1 else 0).
Proof.
  intros n p r N. rewrite !occurrences_one. destruct (mem n p) eqn:E.
  - replace (mem n (p ++ r)) with true; auto. symmetry. apply mem_In. apply in_app_iff; left; apply mem_In; auto.
  - rewrite andb_true_r. destruct (mem n (p ++ r)); auto.
Qed.
Lemma NoDup_app_l : forall A (a b : list A), NoDup (a ++ b) -> NoDup a.
Proof. induction a; intros b N; simpl in *; [constructor|]. inversion N; subst. constructor; eauto. rewrite in_app_iff in *; tauto. Qed.
Lemma considered_intro : forall m0 g0 g1 m1 q abs ps p0 x m' mx p r,
  started m0 g0 g1 m1 -> hist q abs (m_ctxs m1 (g_eid g0)) ps (Open p0) x ->
  NoDup (p ++ r) -> appended abs (p ++ r) (ctx_accepts (p ++ r) x) (m_ctxs m' (g_eid g0)) ->
  static mx m' ->
  considered m' (g_eid g0) (all_yields abs ps (Open p0)) (p ++ r) p (view_of (set_ctx mx (g_eid g0) (ctx_accepts p x)) (g_eid g0)).
Proof.
  intros m0 g0 g1 m1 q abs ps p0 x m' mx p r Sd H N A Sc.
  assert (Sc' := Sc). destruct Sc' as [Sn Sg Sl Se].
  destruct (appended_list _ _ _ _ A) as (l & L1 & L2 & T & U & C).
  destruct (ctx_accepts_other (p ++ r) x) as (O1 & _ & O3). destruct (ctx_accepts_other p x) as (P1 & _ & P3).
  assert (Vx : view_of (set_ctx mx (g_eid g0) (ctx_accepts p x)) (g_eid g0) =
               mkView (m_nodes mx) (queue mx) (m_exact mx) (x_total (ctx_accepts p x)) (x_use (ctx_accepts p x)) (x_list x) (the_clock x)).
  { unfold view_of. rewrite set_ctx_at. unfold the_clock at 1. rewrite P1, P3. reflexivity. }
  rewrite Vx. clear Vx. constructor; simpl; auto.
  - symmetry; apply static_queue; auto.
  - unfold the_clock. rewrite C, O3; auto.
  - exists l. rewrite <- O1; auto.
  - assert (Sd' := Sd). destruct Sd' as (ms & Ud & S). destruct (start_spec _ _ _ _ S) as (_ & _ & [(t0 & _ & Et) _ _ _ _] & _).
    destruct (hist_total _ _ _ _ _ _ t0 H Et) as (t & Ht & _).
    destruct (ctx_accepts_total (p ++ r) x t Ht N) as (t' & E' & D').
    destruct (ctx_accepts_total p x t Ht) as (t'' & E'' & D''); [eapply NoDup_app_l; eauto|].
    exists t'', t'. splits; [congruence|]. intros sc n. rewrite D', D'', (occ_one_diff n p r N). lia.
  - destruct (hist_use _ _ _ _ _ _ H (started_use _ _ _ _ Sd)) as (u & Eu & Iu).
    destruct (ctx_accepts_use p x u _ Eu Iu) as (u' & Eu' & Iu'). eauto.
Qed.

Lemma condition_was_intro : forall tc e m mm mx m' g' x n b,
  g_tc g' = tc -> g_eid g' = e -> m_cst mm = m_cst m -> frame (tc := tc) e mm mx -> frame (tc := tc) e mx m' ->
  sat_at (tc := tc) mx e x n b -> condition_was m m' g' (view_of (set_ctx mx e x) e) n b.
Proof.
  intros tc e m mm mx m' g' x n b Ht He Ec F F' (c & st & st' & E & Ev & H). exists c, st, st'.
  assert (F2 := frame_trans _ _ _ _ F F').
  rewrite (fr_basic _ _ _ F'), (fr_owners _ _ _ F'), Ht, He, <- Ec. splits.
  apply (evolves_used (tc := tc) m' mx); [symmetry; apply (fr_basic _ _ _ F')|].
  eapply evolves_trans; [|exact Ev].
  apply (evolves_used (tc := tc) mx mm); [symmetry; apply (fr_basic _ _ _ F)|].
  rewrite (fr_owners _ _ _ F). apply (fr_cst _ _ _ F).
Qed.

Lemma yielded_gen : forall hq q g x0 m ps m' g' s ph, yielded hq q g x0 m ps m' g' s ph ->
  g_tc g' = g_tc g /\ g_eid g' = g_eid g /\ g_abs g' = g_abs g /\ g_skip g' = g_skip g.
Proof. intros hq q g x0 m ps m' g' s ph H; destruct H; simpl; auto. Qed.

Lemma termination_false_intro : forall tc e m mm mx mx1 m' g',
  g_tc g' = tc -> g_eid g' = e -> m_cst mm = m_cst m -> frame (tc := tc) e mm mx -> frame (tc := tc) e mx m' ->
  terminated mx e tc = (Ok false, mx1) -> termination_was_false m m' g' (view_of (set_ctx mx e (m_ctxs mx e)) e).
Proof.
  intros tc e m mm mx mx1 m' g' Ht He Ec F F' T.
  assert (V : view_of (set_ctx mx e (m_ctxs mx e)) e = view_of mx e).
  { unfold view_of. rewrite set_ctx_at. reflexivity. }
  rewrite V. unfold terminated in T.
  destruct (check_tc mx e tc ESU) as [[[|]|ex] ma] eqn:C1; try (inversion T; fail).
  unfold check_tc in C1, T. destruct (tc ESU) as [c1|] eqn:E1; [|inversion C1]. destruct (tc ES) as [c2|] eqn:E2; [|inversion T].
  unfold satisfied in C1. destruct (eval (view_of mx e) e (m_owners mx) c1 (m_cst mx)) as [r1 st1] eqn:Ev1. inversion C1; subst r1 ma. clear C1.
  unfold satisfied in T. simpl in T. change (view_of (set_cst mx st1) e) with (view_of mx e) in T.
  destruct (eval (view_of mx e) e (m_owners mx) c2 st1) as [r2 st2] eqn:Ev2. inversion T; subst.
  exists c1, c2, (m_cst mx), st1, st2. splits.
  - apply (evolves_used (tc := g_tc g') m' mm).
    + rewrite (fr_basic _ _ _ F'), (fr_basic _ _ _ F); auto.
    + rewrite (fr_owners _ _ _ F'), (fr_owners _ _ _ F), <- Ec. apply (fr_cst _ _ _ F).
  - rewrite (fr_owners _ _ _ F'); auto.
  - rewrite (fr_owners _ _ _ F'); auto.
Qed.

(** what held when the set s at position i of the queue was yielded, after the executions p of
    the same pass *)
Record set_facts (hq q : list (list node)) (m m' : core) (g' : gen) (ys : list (list node)) (p : pass) (i : nat) (s : list node) : Prop := {
  sf_level : exists level, nth_error q i = Some level /\ incl s level /\ NoDup s /\
      forall n, In n level -> ~ In n s -> exists v, considered m' (g_eid g') ys s s v /\ condition_was m m' g' v n false;
  sf_sound : forall b n r, s = b ++ n :: r -> exists v, considered m' (g_eid g') ys s b v /\ condition_was m m' g' v n true;
  sf_term : exists v, considered m' (g_eid g') ys s [] v /\ termination_was_false m m' g' v;
  sf_valid : valid_pass hq (g_abs g') (p ++ [(i, s)]);
  sf_skipped : forall k lv n, (forall j, In j (map fst p) -> j < k) -> k < i -> nth_error q k = Some lv -> In n lv ->
      exists v, considered m' (g_eid g') ys s [] v /\ condition_was m m' g' v n false
}.
(** what held when the empty set of an idle pass was yielded *)
Definition idle_facts (q : list (list node)) (m m' : core) (g' : gen) (ys : list (list node)) : Prop :=
  g_abs g' = false /\
  ((exists v c, considered m' (g_eid g') ys [] [] v /\ (g_tc g' ESU = Some c \/ g_tc g' ES = Some c) /\
      exists st st', evolves (used m' (g_tc g')) (g_eid g') (m_owners m') (m_cst m) st /\ eval v (g_eid g') (m_owners m') c st = (Ok true, st'))
   \/ forall lv n, In lv q -> In n lv ->
        exists v, considered m' (g_eid g') ys [] [] v /\ condition_was m m' g' v n false).

Lemma all_yields_inj : forall abs ps p i s ys, all_yields abs ps (AtYield (p ++ [(i, s)])) = ys ++ [s] -> all_yields abs ps (Open p) = ys.
Proof. intros abs ps p i s ys E. rewrite all_yields_exec in E. apply app_inv_tail in E. auto. Qed.

Lemma terminated_true : forall m e tc m1, terminated m e tc = (Ok true, m1) ->
  exists c st st', (tc ESU = Some c \/ tc ES = Some c) /\ evolves (used m tc) e (m_owners m) (m_cst m) st /\
    eval (view_of m e) e (m_owners m) c st = (Ok true, st').
Proof.
  intros m e tc m1 T. unfold terminated in T.
  destruct (check_tc m e tc ESU) as [[[|]|ex] ma] eqn:C1.
  - inversion T; subst. unfold check_tc in C1. destruct (tc ESU) as [c|] eqn:E; [|inversion C1]. unfold satisfied in C1.
    destruct (eval (view_of m e) e (m_owners m) c (m_cst m)) as [r st] eqn:Ev. inversion C1; subst.
    exists c, (m_cst m), st. splits; auto. constructor.
  - unfold check_tc in C1. destruct (tc ESU) as [c|] eqn:E; [|inversion C1]. unfold satisfied in C1.
    destruct (eval (view_of m e) e (m_owners m) c (m_cst m)) as [r st] eqn:Ev. inversion C1; subst.
    unfold check_tc in T. destruct (tc ES) as [c2|] eqn:E2; [|inversion T]. unfold satisfied in T. simpl in T.
    change (view_of (set_cst m st) e) with (view_of m e) in T.
    destruct (eval (view_of m e) e (m_owners m) c2 st) as [r2 st2] eqn:Ev2. inversion T; subst.
    exists c2, st, st2. splits; auto.
    replace st with (snd (eval (view_of m e) e (m_owners m) c (m_cst m))) by (rewrite Ev; auto).
    apply ev_eval; [constructor|]. right; eauto.
  - inversion T.
Qed.

Lemma yielded_facts : forall hq q m0 g0 ys m m' g' s g1 mm x0 ps ph, covers hq q ->
  before_set hq q m0 g0 ys m m' g' s g1 mm x0 ps ph ->
  (exists p i, ph = AtYield (p ++ [(i, s)]) /\ set_facts hq q m m' g' ys p i s) \/
  (ph = AtIdle /\ s = [] /\ idle_facts q m m' g' ys).
Proof.
  intros hq q m0 g0 ys m m' g' s g1 mm x0 ps ph Cov [Y (m1 & Sd & Ex) He Ys Ec].
  assert (G := yielded_gen _ _ _ _ _ _ _ _ _ _ Y). destruct G as (Gt & Ge & Ga & Gs).
  subst x0. destruct Y as [ps p i ch s mi m' Fi F' [(ma & mb & mc & level & H & Q0 & T & Q1 & E & L & F & A & Lt & NE & Sk)] Ch
                          |ps mi m' Fi F' Ha [(m3 & H & Q3 & D & F & A)]].
  - left. exists p, i. split; auto. symmetry in Ys. apply all_yields_inj in Ys.
    rewrite He in *.
    assert (Fa : frame (tc := g_tc g1) (g_eid g0) mm ma) by (eapply frame_trans; [exact Fi|apply Q0]).
    assert (Fb : frame (tc := g_tc g1) (g_eid g0) mm mb) by (eapply frame_trans; [exact Fa|apply Q1]).
    assert (Fc : frame (tc := g_tc g1) (g_eid g0) mb m') by (eapply frame_trans; [apply (ad_frame _ _ _ _ _ _ (lv_added _ _ _ _ _ L))|exact F]).
    assert (Fd : frame (tc := g_tc g1) (g_eid g0) ma m') by (eapply frame_trans; [apply Q1|exact Fc]).
    assert (Xa : m_ctxs ma (g_eid g0) = m_ctxs mi (g_eid g0)) by apply Q0.
    assert (Xb : m_ctxs mb (g_eid g0) = m_ctxs mi (g_eid g0)) by (destruct Q1 as [_ ->]; auto).
    assert (N : NoDup s) by (eapply level_nodup; eauto).
    rewrite (ad_ctx _ _ _ _ _ _ (lv_added _ _ _ _ _ L)), Xb in A.
    assert (Cv : forall a b mx, s = a ++ b -> static mx m' ->
              considered m' (g_eid g0) ys s a (view_of (set_ctx mx (g_eid g0) (ctx_accepts a (m_ctxs mi (g_eid g0)))) (g_eid g0))).
    { intros a b mx Es Fx. rewrite <- Ys. subst s. eapply considered_intro; eauto. }
    constructor; simpl; rewrite ?He.
    + exists level. splits; [apply (ad_incl _ _ _ _ _ _ (lv_added _ _ _ _ _ L))|].
      intros n I Nn. eexists. split; [apply (Cv s [] mb); [rewrite app_nil_r; auto|eapply static_frame; eauto]|].
      eapply condition_was_intro with (tc := g_tc g1) (mm := mm); simpl; auto.
      rewrite <- Xb. apply (lv_max _ _ _ _ _ L); auto.
    + intros b n r Es. eexists. split; [apply (Cv b (n :: r) mb); [auto|eapply static_frame; eauto]|].
      eapply condition_was_intro with (tc := g_tc g1) (mm := mm); simpl; auto.
      rewrite <- Xb. apply (ad_sound _ _ _ _ _ _ (lv_added _ _ _ _ _ L) b n r); auto.
    + eexists. split; [apply (Cv [] s ma); [auto|eapply static_frame; eauto]|]. simpl. rewrite <- Xa.
      eapply termination_false_intro with (tc := g_tc g1) (mm := mm); simpl; eauto.
    + destruct (hist_valid _ _ _ _ _ _ H) as [_ V]. simpl in V.
      destruct (Cov _ _ E) as (lv' & E' & Ic). eapply valid_pass_snoc; eauto.
      eapply incl_tran; [apply (ad_incl _ _ _ _ _ _ (lv_added _ _ _ _ _ L))|exact Ic].
    + intros k lv n Gt' Lk Ek In_. destruct (Sk k lv Gt' Lk Ek) as (sa & sb & Qa & Lv).
      (* the skipped level was processed in state sa *)
      assert (Fs : frame (tc := g_tc g1) (g_eid g0) mm sa) by (eapply frame_trans; [exact Fi|apply Qa]).
      assert (Xs : m_ctxs sa (g_eid g0) = m_ctxs mi (g_eid g0)) by apply Qa.
      assert (Fm : frame (tc := g_tc g1) (g_eid g0) mi m').
      { eapply frame_trans; [apply Q0|exact Fd]. }
      assert (Fw : condition_was m m' (at_pc g1 (PLevel i ch)) (view_of (set_ctx sa (g_eid g0) (ctx_accepts [] (m_ctxs sa (g_eid g0)))) (g_eid g0)) n false).
      { pose proof (lv_max _ _ _ _ _ Lv n In_ (fun z => z)) as (c & st & st' & E1 & E2 & E3).
        exists c, st, st'. simpl. rewrite He.
        assert (B1 : m_basic m' = m_basic sa) by (rewrite (fr_basic _ _ _ Fm); symmetry; destruct Qa as [Qf _]; apply (fr_basic _ _ _ Qf)).
        assert (B2 : m_owners m' = m_owners sa) by (rewrite (fr_owners _ _ _ Fm); symmetry; destruct Qa as [Qf _]; apply (fr_owners _ _ _ Qf)).
        rewrite B1, B2. splits.
        eapply evolves_trans; [|apply (evolves_used (tc := g_tc g1) m' sa); eauto].
        apply (evolves_used (tc := g_tc g1) m' mm); [rewrite B1; symmetry; apply (fr_basic _ _ _ Fs)|].
        rewrite (fr_owners _ _ _ Fs), <- Ec. apply (fr_cst _ _ _ Fs). }
      eexists. split; [|exact Fw]. rewrite Xs. apply (Cv [] s sa); auto.
      destruct Qa as [Qf _]. destruct Qf, Fm. constructor; congruence.
  - right. splits. split; auto. rewrite He in *.
    assert (Ey : all_yields (g_abs g1) ps (Open []) = ys).
    { rewrite all_yields_idle1 in Ys. symmetry in Ys. apply app_inv_tail in Ys. auto. }
    assert (X3 : m_ctxs m3 (g_eid g0) = m_ctxs mi (g_eid g0)) by apply Q3. rewrite X3 in A.
    assert (Fm : frame (tc := g_tc g1) (g_eid g0) mi m') by (eapply frame_trans; [apply Q3|exact F]).
    assert (Cv : forall mx, static mx m' ->
              considered m' (g_eid g0) ys [] [] (view_of (set_ctx mx (g_eid g0) (m_ctxs mi (g_eid g0))) (g_eid g0))).
    { intros mx Fx. rewrite <- Ey. rewrite Ha in *.
      apply (considered_intro m0 g0 g1 m1 hq false ps [] (m_ctxs mi (g_eid g0)) m' mx [] []); auto. constructor. }
    assert (Sx : forall sa, frame (tc := g_tc g1) (g_eid g0) mi sa -> static sa m' /\ m_basic m' = m_basic sa /\ m_owners m' = m_owners sa).
    { intros sa Fx. destruct Fx, Fm. splits; try congruence. constructor; congruence. }
    assert (Ev : forall sa, frame (tc := g_tc g1) (g_eid g0) mi sa ->
                 evolves (used m' (g_tc g1)) (g_eid g0) (m_owners m') (m_cst m) (m_cst sa)).
    { intros sa Fx. assert (Fs := frame_trans _ _ _ _ Fi Fx). destruct (Sx sa Fx) as (_ & B1 & B2).
      apply (evolves_used (tc := g_tc g1) m' mm); [rewrite B1; symmetry; apply (fr_basic _ _ _ Fs)|].
      rewrite B2, (fr_owners _ _ _ Fs), <- Ec. apply (fr_cst _ _ _ Fs). }
    simpl. rewrite He. destruct D as [(mt & Qt & T)|D].
    + left. destruct (terminated_true _ _ _ _ T) as (c & st & st' & Tc & Evt & Es).
      destruct Qt as [Ft Xt]. destruct (Sx mt Ft) as (Sm & B1 & B2).
      exists (view_of (set_ctx mt (g_eid g0) (m_ctxs mi (g_eid g0))) (g_eid g0)), c. splits.
      exists st, st'. split.
      * eapply evolves_trans; [apply (Ev mt Ft)|]. rewrite B2. apply (evolves_used (tc := g_tc g1) m' mt); auto.
      * rewrite B2. rewrite <- Xt.
        replace (view_of (set_ctx mt (g_eid g0) (m_ctxs mt (g_eid g0))) (g_eid g0)) with (view_of mt (g_eid g0)); auto.
        unfold view_of. rewrite set_ctx_at. reflexivity.
    + right. intros lv n Il In_. destruct (D lv Il) as (sa & sb & [Fa Xa] & Lv). destruct (Sx sa Fa) as (Sm & B1 & B2).
      exists (view_of (set_ctx sa (g_eid g0) (m_ctxs mi (g_eid g0))) (g_eid g0)). splits.
      pose proof (lv_max _ _ _ _ _ Lv n In_ (fun z => z)) as (c & st & st' & E1 & E2 & E3). rewrite Xa in E3.
      exists c, st, st'. simpl. rewrite He, B1, B2. splits.
      eapply evolves_trans; [rewrite <- B2; apply (Ev sa Fa)|]. apply (evolves_used (tc := g_tc g1) m' sa); auto.
Qed.

Lemma snoc_inj : forall A (a b : list A) x y, a ++ [x] = b ++ [y] -> a = b /\ x = y.
Proof. intros; apply app_inj_tail; auto. Qed.
Theorem yield_theorem : forall m0 g0 ts m g fuel m' g' s, running_in_passes m0 g0 ts m g -> g_pc g0 = PStart ->
  resume fuel m g = (m', g', OYield s) ->
  g_eid g' = g_eid g0 /\
  ((exists p i, map snd p = in_pass (pass_number m' (g_eid g0)) ts /\ set_facts (queue m0) (queue m0) m m' g' (map snd ts) p i s) \/
   (s = [] /\ in_pass (pass_number m' (g_eid g0)) ts = [] /\ idle_facts (queue m0) m m' g' (map snd ts))).
Proof.
  intros m0 g0 ts m g fuel m' g' s R Hp H.
  assert (X : exists g1 mm x0 ps ph, before_set (queue m0) (queue m0) m0 g0 (map snd ts) m m' g' s g1 mm x0 ps ph /\
     all_tagged (g_abs g1) (pass_number m0 (g_eid g0)) ps ph = ts ++ [(pass_number m' (g_eid g0), s)] /\
     in_pass (pass_number m' (g_eid g0)) (all_tagged (g_abs g1) (pass_number m0 (g_eid g0)) ps ph) = current (g_abs g1) ps ph /\ g_eid g' = g_eid g0).
  { destruct (passes_history _ _ _ _ _ R Hp) as [(-> & -> & U)|(g1 & m1 & ps & ph & St & Et)].
    - destruct (run_first _ _ _ _ _ _ _ Hp U H) as (g1 & m1 & ps & ph & S & R' & Y & T).
      exists g1, m1, (m_ctxs m1 (g_eid g0)), ps, ph. splits.
      + apply before_set_intro; auto. eapply start_cst; eauto.
      + rewrite T, (state_pass _ _ _ _ _ _ _ _ _ R'); auto.
      + rewrite (state_pass _ _ _ _ _ _ _ _ _ R'). apply current_in_pass. eapply matches_not_between; apply (rs_matches _ _ _ _ _ _ _ _ _ R').
      + destruct (yielded_gen _ _ _ _ _ _ _ _ _ _ Y) as (_ & -> & _). apply (rs_eid _ _ _ _ _ _ _ _ _ R').
    - destruct (run_next _ _ _ _ _ _ _ _ _ _ _ _ _ St H) as (ps' & ph' & R' & Y & T).
      exists g1, m, (m_ctxs m1 (g_eid g0)), ps', ph'. splits.
      + apply before_set_intro; auto.
      + rewrite T, (state_pass _ _ _ _ _ _ _ _ _ R'), <- Et; auto.
      + rewrite (state_pass _ _ _ _ _ _ _ _ _ R'). apply current_in_pass. eapply matches_not_between; apply (rs_matches _ _ _ _ _ _ _ _ _ R').
      + destruct (yielded_gen _ _ _ _ _ _ _ _ _ _ Y) as (_ & -> & _). apply (rs_eid _ _ _ _ _ _ _ _ _ R'). }
  destruct X as (g1 & mm & x0 & ps & ph & B & T & C & He). split; auto.
  rewrite T, in_pass_app in C.
  assert (One : in_pass (pass_number m' (g_eid g0)) [(pass_number m' (g_eid g0), s)] = [s]).
  { unfold in_pass; simpl. rewrite Nat.eqb_refl; auto. }
  rewrite One in C.
  destruct (yielded_facts _ _ _ _ _ _ _ _ _ _ _ _ _ _ (covers_refl _) B) as [(p & i & -> & F)|(-> & -> & F)]; simpl in C.
  - left. exists p, i. split; auto. rewrite map_app in C. simpl in C. apply snoc_inj in C. destruct C; auto.
  - right. splits. change [@nil node] with ([] ++ [@nil node]) in C. apply snoc_inj in C. tauto.
Qed.

(** ** Progress *)
Lemma outer_progress : forall f m g m' g', g_abs g = false -> outer (S f) m g <> (m', g', OFuel).
Proof.
  intros f m g m' g' Ha H. cbn [outer] in H.
  destruct (terminated m (g_eid g) (g_tc g)) as [[[|]|ex] m1].
  - unfold finish in H. destruct (if g_skip g then Ok m1 else incr_clock ESU m1 (g_eid g)) as [mm|]; [|inversion H].
    destruct (check_tc mm (g_eid g) (g_tc g) ES) as [[b|] m2]; [|inversion H].
    destruct (x_list (m_ctxs m2 (g_eid g))); inversion H.
  - destruct (inner (reset_counts_total PASS m1 (g_eid g)) g (queue (reset_counts_total PASS m1 (g_eid g))) 0 false) as [m3 s i ch|m3 ch|m3 ex|m3] eqn:I.
    + inversion H.
    + destruct (inner_end _ _ _ _ _ _ _ I) as (_ & -> & _).
      unfold pass_tail in H. rewrite Ha in H. simpl in H. destruct (append_exec m3 (g_eid g) false []) as [[r|ex] m4]; inversion H.
    + inversion H.
    + eapply inner_fuel; eauto.
  - inversion H.
Qed.
Lemma default_not_absolute : forall nx deps, is_absolute (fst (default_cond nx deps)) = false.
Proof.
  intros nx deps. destruct deps as [|d [|d' r]]; try reflexivity.
  assert (P : forall l n, existsb is_absolute (default_parts n l) = false).
  { induction l as [|a l IH]; intros n; simpl; auto. }
  unfold default_cond, fst, All, is_absolute; fold is_absolute. apply P.
Qed.
Lemma add_defaults_absolute : forall ns m m' c, add_defaults ns m = Ok m' -> In c (map snd (m_basic m')) -> is_absolute c = true ->
  In c (map snd (m_basic m)).
Proof.
  induction ns as [|n r IH]; intros m m' c H I A; simpl in H.
  - inversion H; subst; auto.
  - destruct (ahas n (m_basic m)); eauto. destruct (aget n (m_graph m)) as [deps|]; [|discriminate].
    destruct (default_cond (m_next m) deps) as [d nx] eqn:D. apply (IH _ _ c) in H; auto. simpl in H.
    assert (Z : forall (l : amap cond), In c (map snd (aset n d l)) -> c = d \/ In c (map snd l)).
    { induction l as [|[k x] l IHl]; simpl; intros Hi; [intuition|].
      destruct (Nat.eqb n k); simpl in *; intuition. }
    destruct (Z _ H) as [->|Z']; auto.
    pose proof (default_not_absolute (m_next m) deps) as N. rewrite D in N. simpl in N. congruence.
Qed.
Lemma add_defaults_keep : forall ns m m' c, add_defaults ns m = Ok m' -> In c (map snd (m_basic m)) -> In c (map snd (m_basic m')).
Proof.
  induction ns as [|n r IH]; intros ma mb c E I; simpl in E.
  - inversion E; subst; auto.
  - destruct (ahas n (m_basic ma)) eqn:Hh; eauto. destruct (aget n (m_graph ma)) as [deps|]; [|discriminate].
    destruct (default_cond (m_next ma) deps) as [d nx]. eapply IH; [exact E|]. simpl.
    assert (Z : forall (l : amap cond), ahas n l = false -> In c (map snd l) -> In c (map snd (aset n d l))).
    { induction l as [|[k x] l IHl]; simpl; intros Hn Hi; [intuition|]. unfold ahas in *. simpl in *.
      destruct (Nat.eqb_spec n k); simpl in *; [discriminate|intuition]. }
    auto.
Qed.
(** a run uses absolute time iff one of its conditions is absolute *)
Lemma filter_nonempty : forall A (f : A -> bool) l, nonempty (filter f l) = existsb f l.
Proof. induction l; simpl; auto. destruct (f a); auto. Qed.
Lemma start_abs : forall m g g1 m1, start m g = (Ok g1, m1) ->
  g_abs g1 = existsb is_absolute (map snd (m_basic m) ++ tc_list (run_tc m g)).
Proof.
  intros m g g1 m1 H. unfold start in H.
  destruct (validate_run_state m) as [[u|ex] mv] eqn:V; [|inversion H].
  assert (Hv : m_tconds mv = m_tconds m /\ forall c, is_absolute c = true -> In c (map snd (m_basic mv)) <-> In c (map snd (m_basic m))).
  { unfold validate_run_state in V. destruct (toposort (m_graph m)); try (inversion V; fail).
    destruct (add_defaults (m_nodes m) m) as [m'|] eqn:A; inversion V; subst.
    assert (A' := A). apply add_defaults_spec in A. destruct A as (_ & _ & A & _). split; auto. intros c Ac. split.
    - intros I. eapply add_defaults_absolute; eauto.
    - intros I. eapply add_defaults_keep; eauto. }
  destruct Hv as [Vt Vb].
  destruct (setup_absolute _ _ _) as [m3|ex] eqn:S; [|inversion H].
  destruct (init_counts_base m3 _ _) as [[r|ex] m4] eqn:I; [|inversion H].
  inversion H; subst; simpl. unfold absolute_conditions. rewrite filter_nonempty, Vt. simpl. fold (run_tc m g).
  rewrite !existsb_app. f_equal.
  destruct (existsb is_absolute (map snd (m_basic m))) eqn:E.
  - apply existsb_exists in E. destruct E as (c & Ic & Ac). apply existsb_exists. exists c; split; auto. apply Vb; auto.
  - destruct (existsb is_absolute (map snd (m_basic mv))) eqn:E'; auto.
    apply existsb_exists in E'. destruct E' as (c & Ic & Ac). apply Vb in Ic; auto.
    assert (existsb is_absolute (map snd (m_basic m)) = true) by (apply existsb_exists; eauto). congruence.
Qed.
Theorem progress : forall m0 g0 ys m g fuel, running m0 g0 ys m g -> g_pc g0 = PStart ->
  uses_absolute m g = false -> snd (resume (S fuel) m g) <> OFuel.
Proof.
  intros m0 g0 ys m g fuel R Hp A H.
  destruct (resume (S fuel) m g) as [[m' g'] o] eqn:E. simpl in H; subst o.
  unfold resume in E.
  destruct (run_history _ _ _ _ _ R Hp) as [(-> & -> & U)|(g1 & m1 & ps & ph & St)].
  - rewrite Hp in E. unfold uses_absolute in A; rewrite Hp in A.
    destruct (start m g0) as [[g1|ex] m1] eqn:S; [|inversion E].
    rewrite <- (start_abs _ _ _ _ S) in A. eapply outer_progress; [|exact E]; auto.
  - pose proof (rs_matches _ _ _ _ _ _ _ _ _ St) as M. pose proof (rs_gen _ _ _ _ _ _ _ _ _ St) as Eg.
    assert (A' : g_abs g = false) by (unfold uses_absolute in A; inversion M as [p i s ch Hc Eq1 Eq2|Ha Eq1 Eq2]; rewrite <- Eq2 in A; auto).
    assert (A1 : g_abs g1 = g_abs g) by (rewrite Eg; auto).
    inversion M as [p i s ch Hc Eq1 Eq2|Ha Eq1 Eq2]; rewrite <- Eq2 in E.
    + destruct (incr_clock CSE m (g_eid g)) as [m2|ex]; [|inversion E].
      destruct (inner m2 g (skipn (S i) (queue m2)) (S i) ch) as [m3 s' i' ch'|m3 ch'|m3 ex|m3] eqn:I; try (inversion E; fail).
      * destruct (inner_end _ _ _ _ _ _ _ I) as (_ & -> & _).
        unfold pass_tail in E. rewrite Hc in E by congruence. simpl in E.
        destruct (incr_clock PASS m3 (g_eid g)) as [m4|]; [|inversion E]. eapply outer_progress; [|exact E]; auto.
      * eapply inner_fuel; eauto.
    + destruct (incr_clock CSE m (g_eid g)) as [m2|ex]; [|inversion E].
      destruct (incr_clock PASS m2 (g_eid g)) as [m3|]; [|inversion E]. eapply outer_progress; [|exact E]; auto.
Qed.

(** ** Idle passes *)
Lemma state_abs : forall m0 g0 ys m g g1 m1 ps ph, run_state m0 g0 ys m g g1 m1 ps ph -> g_abs g = g_abs g1.
Proof. intros m0 g0 ys m g g1 m1 ps ph R. rewrite (rs_gen _ _ _ _ _ _ _ _ _ R). reflexivity. Qed.
Theorem idle_alone : forall m0 g0 ts m g i j k s, running_in_passes m0 g0 ts m g -> g_pc g0 = PStart -> g_abs g = false ->
  nth_error ts i = Some (k, []) -> nth_error ts j = Some (k, s) -> i = j.
Proof.
  assert (A : forall m0 g0 ts m g i j k s s', running_in_passes m0 g0 ts m g -> g_pc g0 = PStart -> g_abs g = false ->
    nth_error ts i = Some (k, s) -> nth_error ts j = Some (k, s') -> i < j -> s <> [] /\ s' <> []).
  { intros m0 g0 ts m g i j k s s' R Hp Ha Hi Hj L.
    destruct (passes_history _ _ _ _ _ R Hp) as [(-> & _)|(g1 & m1 & ps & ph & St & E)]; [destruct i; discriminate|].
    destruct (matches_so_far _ _ _ _ _ _ _ (pass_number m0 (g_eid g0)) (rs_hist _ _ _ _ _ _ _ _ _ St) (rs_matches _ _ _ _ _ _ _ _ _ St)) as [T V].
    rewrite T in E. subst ts. destruct (tags_order _ _ _ _ _ _ _ Hi Hj L) as [_ B]. simpl in *.
    destruct (B eq_refl) as (p & i' & j' & I & L' & Yi & Yj). rewrite Forall_forall in V.
    destruct (pass_yields_order _ _ _ _ _ _ _ (V _ I) L' Yi Yj) as (a & b & la & lb & _ & _ & _ & _ & _ & N).
    apply N. rewrite <- (state_abs _ _ _ _ _ _ _ _ _ St). auto. }
  intros m0 g0 ts m g i j k s R Hp Ha Hi Hj. destruct (Nat.lt_trichotomy i j) as [L|[L|L]]; auto; exfalso.
  - destruct (A _ _ _ _ _ _ _ _ _ _ R Hp Ha Hi Hj L) as [X _]; congruence.
  - destruct (A _ _ _ _ _ _ _ _ _ _ R Hp Ha Hj Hi L) as [_ X]; congruence.
Qed.
Lemma tags_every_pass : forall ps P k, P <= k < P + length ps -> exists i s, nth_error (tags false P ps) i = Some (k, s).
Proof.
  induction ps as [|p r IH]; intros P k L; simpl in *; [lia|].
  destruct (Nat.eq_dec P k) as [->|N].
  - exists 0. destruct p as [|[a s] p]; simpl; eauto.
  - change (match p with [] => [[]] | _ :: _ => map snd p end) with (pass_yields false p).
    destruct (IH (S P) k) as (i & s & E); [lia|]. exists (length (map (pair P) (pass_yields false p)) + i), s.
    rewrite nth_error_app2 by lia. rewrite Nat.add_comm, Nat.add_sub; auto.
Qed.
Theorem every_pass_yields : forall m0 g0 ts m g k, running_in_passes m0 g0 ts m g -> g_pc g0 = PStart -> g_abs g = false -> ts <> [] ->
  pass_number m0 (g_eid g0) <= k <= pass_number m (g_eid g0) -> exists i s, nth_error ts i = Some (k, s).
Proof.
  intros m0 g0 ts m g k R Hp Ha Ne L.
  destruct (passes_history _ _ _ _ _ R Hp) as [(-> & _)|(g1 & m1 & ps & ph & St & E)]; [congruence|].
  destruct (matches_so_far _ _ _ _ _ _ _ (pass_number m0 (g_eid g0)) (rs_hist _ _ _ _ _ _ _ _ _ St) (rs_matches _ _ _ _ _ _ _ _ _ St)) as [T V].
  rewrite T in E. rewrite <- (state_abs _ _ _ _ _ _ _ _ _ St), Ha in *. subst ts.
  apply tags_every_pass. rewrite (state_pass _ _ _ _ _ _ _ _ _ St) in L.
  assert (length (so_far ps ph) = S (length ps)).
  { pose proof (rs_matches _ _ _ _ _ _ _ _ _ St) as M. inversion M; simpl; rewrite app_length; simpl; lia. }
  lia.
Qed.
Theorem passes_numbered : forall m0 g0 ts m g i k s, running_in_passes m0 g0 ts m g -> g_pc g0 = PStart ->
  nth_error ts i = Some (k, s) -> pass_number m0 (g_eid g0) <= k <= pass_number m (g_eid g0).
Proof.
  intros m0 g0 ts m g i k s R Hp E.
  destruct (passes_history _ _ _ _ _ R Hp) as [(-> & _)|(g1 & m1 & ps & ph & St & Et)]; [destruct i; discriminate|].
  destruct (matches_so_far _ _ _ _ _ _ _ (pass_number m0 (g_eid g0)) (rs_hist _ _ _ _ _ _ _ _ _ St) (rs_matches _ _ _ _ _ _ _ _ _ St)) as [T V].
  rewrite T in Et. subst ts. apply nth_error_In, tags_bounds in E. rewrite (state_pass _ _ _ _ _ _ _ _ _ St).
  assert (length (so_far ps ph) = S (length ps)).
  { pose proof (rs_matches _ _ _ _ _ _ _ _ _ St) as M. inversion M; simpl; rewrite app_length; simpl; lia. }
  lia.
Qed.

(** ** Timestamps *)
Definition stamps_ok (n : nat) (x0 x : ctx) : Prop :=
  forall ts0, x_stamps x0 = Some ts0 -> exists ts, x_stamps x = Some (ts0 ++ ts) /\ length ts = n /\
    (t_abs_enabled (k_time (the_clock x0)) = true -> forall i t, nth_error ts i = Some t ->
      (t_abs t == t_abs (k_time (the_clock x0)) + inject_Z (Z.of_nat i) * t_interval (k_time (the_clock x0)))%Q).
Lemma hist_stamps : forall q x0 ps ph x h0, hist q true x0 ps ph x -> clock_after ESU h0 (the_clock x0) ->
  stamps_ok (length (all_yields true ps ph)) x0 x.
Proof.
  intros q x0 ps ph x h0 H C. remember true as abs. revert Heqabs; intros Heqabs; induction H.
  - intros ts0 E. exists []. rewrite app_nil_r. splits. intros _ i t Hi; destruct i; discriminate.
  - intros ts0 E. destruct (IHhist ts0 E) as (ts & A). exists ts. simpl. auto.
  - intros ts0 E. destruct (IHhist ts0 E) as (ts & A & B & D). subst abs.
    destruct H1 as (l & L & ts1 & S & ->). simpl.
    destruct (ctx_accepts_other s x) as (_ & O2 & O3). rewrite O2 in S. rewrite A in S. inversion S; subst ts1.
    exists (ts ++ [k_time (the_clock (ctx_accepts s x))]). rewrite app_assoc. splits.
    + rewrite all_yields_exec, !app_length, B. simpl; lia.
    + intros En i0 t Hi. apply nth_error_snoc in Hi. destruct Hi as [Hi|[-> ->]]; eauto.
      destruct (hist_clock _ _ _ _ _ _ h0 H C) as (_ & _ & _ & X & _).
      unfold the_clock at 1. rewrite O3. fold (the_clock x). rewrite X, B by auto.
      replace (count CSE (run_events true ps (Open p))) with (length (all_yields true ps (Open p))); [reflexivity|].
      unfold run_events, all_yields. rewrite count_app, app_length.
      assert (Ec := events_between true ps). unfold run_events, all_yields in Ec. simpl in Ec. rewrite !app_nil_r in Ec. rewrite Ec. f_equal.
      simpl. rewrite map_length. assert (R : forall n, count CSE (repeat CSE n) = n) by (unfold count; induction n; simpl; auto). auto.
  - intros ts0 E. destruct (IHhist ts0 E) as (ts & A & B & D). apply tick_rest in H0. destruct H0 as (_ & _ & _ & ->). eauto.
  - congruence.
  - rewrite (hist_idle_abs _ _ _ _ _ H) in Heqabs; discriminate.
  - intros ts0 E. destruct (IHhist ts0 E) as (ts & A & B & D). apply tick_rest in H1. destruct H1 as (_ & _ & _ & ->).
    exists ts. splits. rewrite all_yields_end; auto.
Qed.
Lemma setup_enabled : forall m g g1 m1, start m g = (Ok g1, m1) -> g_abs g1 = t_abs_enabled (k_time (the_clock (m_ctxs m1 (g_eid g)))).
Proof.
  intros m g g1 m1 H. unfold start in H.
  destruct (validate_run_state m) as [[u|ex] mv] eqn:V; [|inversion H].
  destruct (setup_absolute _ _ _) as [m3|ex] eqn:S; [|inversion H].
  destruct (init_counts_base m3 _ _) as [[r|ex] m4] eqn:I; [|inversion H].
  set (tc := match g_tcarg g with None => m_tconds mv | Some a => combine_tconds (m_tconds mv) a end) in *.
  assert (C3 : exists k, x_clock (m_ctxs m3 (g_eid g)) = Some k /\ t_abs_enabled (k_time k) =
     nonempty (absolute_conditions (set_clock mv (g_eid g) (the_clock (m_ctxs mv (g_eid g)))) tc)).
  { unfold setup_absolute in S. destruct (absolute_conditions _ _).
    - inversion S; subst. unfold set_clock. rewrite !set_ctx_at. simpl. eauto.
    - destruct (unit_of _ _); inversion S; subst. unfold set_clock. rewrite !set_ctx_at. simpl. eauto. }
  destruct C3 as (k & X & Ek).
  inversion H; subst g1 m1. unfold reset_counts_total, reset_counts_useable. rewrite !set_ctx_at. unfold the_clock at 1; simpl.
  assert (Y : x_clock (m_ctxs m4 (g_eid g)) = Some k).
  { unfold init_counts_base in I. rewrite X in I. simpl in I. repeat (destruct (copy_entry _ _); try (inversion I; fail)).
    inversion I; subst. rewrite set_ctx_at. auto. }
  rewrite Y. auto.
Qed.
Theorem run_stamps : forall m0 g0 ys m g h0 ts0, running m0 g0 ys m g -> g_pc g0 = PStart -> ys <> [] -> g_abs g = true ->
  clock_after ESU h0 (the_clock (m_ctxs m0 (g_eid g0))) -> x_stamps (m_ctxs m0 (g_eid g0)) = Some ts0 ->
  exists ts a iv, x_stamps (m_ctxs m (g_eid g0)) = Some (ts0 ++ ts) /\ length ts = length ys /\
    t_interval (k_time (the_clock (m_ctxs m (g_eid g0)))) = iv /\
    forall i t, nth_error ts i = Some t -> (t_abs t == a + inject_Z (Z.of_nat i) * iv)%Q.
Proof.
  intros m0 g0 ys m g h0 ts0 R Hp Ne Ha C E.
  destruct (run_history _ _ _ _ _ R Hp) as [(-> & _)|(g1 & m1 & ps & ph & St)]; [congruence|].
  assert (Sd := rs_started _ _ _ _ _ _ _ _ _ St). assert (C1 := started_clock _ _ _ _ _ Sd C).
  pose proof (rs_hist _ _ _ _ _ _ _ _ _ St) as H. rewrite <- (state_abs _ _ _ _ _ _ _ _ _ St), Ha in H.
  pose proof (started_stamps _ _ _ _ Sd) as Es. rewrite E in Es.
  destruct (hist_stamps _ _ _ _ _ _ H C1 ts0 Es) as (ts & A & B & D).
  destruct (hist_clock _ _ _ _ _ _ h0 H C1) as (_ & Ei & _).
  exists ts, (t_abs (k_time (the_clock (m_ctxs m1 (g_eid g0))))), (t_interval (k_time (the_clock (m_ctxs m (g_eid g0))))). splits.
  - rewrite (rs_yields _ _ _ _ _ _ _ _ _ St), <- (state_abs _ _ _ _ _ _ _ _ _ St), Ha. auto.
  - intros i t Hi. rewrite Ei. apply D; auto. destruct Sd as (ms & _ & S). rewrite <- (setup_enabled _ _ _ _ S).
    rewrite <- (state_abs _ _ _ _ _ _ _ _ _ St); auto.
Qed.
