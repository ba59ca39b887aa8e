(** Runs in absolute time in standard mode: proofs (C67). *)
From Verif Require Export SpecTimed.
From Verif Require Import BaseFacts RunProofs RunHist RunFacts RunProps YieldFacts PureFacts StopFacts IdFacts AbsFacts AbsRun PassFacts CondProofs.
From Coq Require Import Lqa Lia.
Open Scope nat_scope.

Section Timed.
Variables (e : eid) (q : list (list node)).
Definition tcs_last (g : gen) : Prop := forall s t, g_tc g s = Some t -> lasts t.
Definition ticking (x : ctx) : Prop := exists h, clock_after ESU h (the_clock x).
Lemma tick_ticking : forall s x x', tick s x x' -> ticking x -> ticking x'.
Proof. intros s x x' T (h & C). exists (h ++ [s]). eapply RunFacts.tick_clock; eauto. Qed.
Lemma ticking_same : forall x x', x_clock x' = x_clock x -> ticking x -> ticking x'.
Proof. intros x x' E (h & C). exists h. unfold the_clock in *. rewrite E; auto. Qed.
Lemma pass_same : forall x x', x_clock x' = x_clock x -> pass_of x' = pass_of x.
Proof. intros x x' E. unfold pass_of, the_clock. rewrite E; auto. Qed.
Lemma tick_stamps : forall s x x', tick s x x' -> x_stamps x' = x_stamps x.
Proof. intros s x x' (k & _ & ->). reflexivity. Qed.

Lemma stays : forall m0 g m3 m4 r m5, tcs_last g -> ticking (m_ctxs m0 e) ->
  terminated m0 e (g_tc g) = (Ok true, m3) -> new_pass (view_of m0 e) (view_of m4 e) ->
  terminated m4 e (g_tc g) = (r, m5) -> r <> Ok false.
Proof.
  intros m0 g m3 m4 r m5 Kt (h & Hh) T Np T' ->.
  assert (S : forall s t r m6 r' m7 m8 m8', g_tc g s = Some t -> view_of m8 e = view_of m0 e -> view_of m8' e = view_of m4 e ->
     satisfied m8 e t = (r, m6) -> satisfied m8' e t = (r', m7) -> r = Ok true -> r' = Ok true).
  { intros s t r m6 r' m7 m8 m8' Ec V8 V8' S S' ->. unfold satisfied in *. rewrite V8 in S. rewrite V8' in S'.
    destruct (eval (view_of m0 e) e (m_owners m8) t (m_cst m8)) as [r1 s1] eqn:E1.
    destruct (eval (view_of m4 e) e (m_owners m8') t (m_cst m8')) as [r2 s2] eqn:E2.
    injection S as -> _; injection S' as -> _. pose proof (Kt s t Ec (view_of m0 e) (view_of m4 e) e (m_owners m8) (m_owners m8') (m_cst m8) (m_cst m8') h Hh Np) as K.
    unfold is_satisfied in K. rewrite E1, E2 in K. auto. }
  unfold terminated, check_tc in T, T'.
  destruct (g_tc g ESU) as [c1|] eqn:E1; [|inversion T].
  destruct (satisfied m4 e c1) as [[[|]|] ma] eqn:S1; try (inversion T'; fail).
  destruct (g_tc g ES) as [c2|] eqn:E2; [|inversion T'].
  destruct (satisfied m0 e c1) as [[[|]|] mb] eqn:S2; try (inversion T; fail).
  - pose proof (S _ _ _ _ _ _ m0 m4 E1 eq_refl eq_refl S2 S1 eq_refl). discriminate.
  - pose proof (satisfied_cst _ _ _ _ _ S2) as K2. pose proof (satisfied_cst _ _ _ _ _ S1) as K1.
    assert (X := S ES c2 (Ok true) m3 (Ok false) m5 mb ma E2).
    rewrite (cst_only_view _ _ e K2), (cst_only_view _ _ e K1) in X.
    specialize (X eq_refl eq_refl T T' eq_refl). discriminate.
Qed.
Lemma outer_over : forall fuel m0 m3 m4 g m' g' s, g_eid g = e -> tcs_last g -> ticking (m_ctxs m0 e) ->
  terminated m0 e (g_tc g) = (Ok true, m3) -> new_pass (view_of m0 e) (view_of m4 e) -> outer fuel m4 g = (m', g', OYield s) -> False.
Proof.
  intros fuel m0 m3 m4 g m' g' s Ge Kt Ck T Np E. destruct fuel as [|f]; simpl in E; [inversion E|]. rewrite Ge in E.
  destruct (terminated m4 e (g_tc g)) as [[[|]|ex] m5] eqn:T5.
  - unfold finish in E.
    destruct (if g_skip g then Ok m5 else incr_clock ESU m5 (g_eid g)) as [mm|]; [|inversion E].
    destruct (check_tc mm (g_eid g) (g_tc g) ES) as [[x|] m2]; [|inversion E].
    destruct (x_list (m_ctxs m2 (g_eid g))); inversion E.
  - eapply stays; eauto.
  - inversion E.
Qed.
Lemma new_pass_tick : forall tc m0 m3 m4, view_of m3 e = view_of m0 e -> frame (tc := tc) e m3 m4 -> tick PASS (m_ctxs m3 e) (m_ctxs m4 e) ->
  new_pass (view_of m0 e) (view_of m4 e).
Proof.
  intros tc m0 m3 m4 V F T. destruct (tick_view e _ _ _ _ F T) as (k & Ck & V'). rewrite V in *. rewrite V'.
  unfold new_pass; simpl. splits.
Qed.

(** the consideration set at position i was executed, as s, from the state m to the state m' *)
Record took (tc : tconds) (m m' : core) (i : nat) (s : list node) : Prop := {
  tk_frame : frame (tc := tc) e m m';
  tk_clock : x_clock (m_ctxs m' e) = x_clock (m_ctxs m e);
  tk_stamps : exists ts, x_stamps (m_ctxs m e) = Some ts /\ x_stamps (m_ctxs m' e) = Some (ts ++ [k_time (the_clock (m_ctxs m' e))]);
  tk_level : exists level, nth_error q i = Some level /\ incl s level /\ forall n, In n level -> exists c v st st',
    aget n (m_basic m') = Some c /\ v_clock v = the_clock (m_ctxs m' e) /\ v_queue v = queue m' /\ v_exact_mode v = m_exact m' /\
    eval v e (m_owners m') c st = (Ok (mem n s), st')
}.
Lemma inner_took : forall m g i ch m3 s j ch', g_eid g = e -> g_abs g = true ->
  inner m g (skipn i q) i ch = IYield m3 s j ch' -> j = i /\ took (g_tc g) m m3 i s.
Proof.
  intros m g i ch m3 s j ch' Ge Ha I.
  destruct (inner_yield _ _ _ _ _ _ _ _ _ I) as (m0 & m1 & m2 & lv & L & E & Q & T & Q' & Lv & F & Ap & Ch & NE & Ab & Sk).
  rewrite Ge in *. specialize (Ab Ha). subst j. rewrite Nat.sub_diag in E. split; [auto|].
  assert (Ej : nth_error q i = Some lv) by (rewrite <- E, <- nth_skip; f_equal; lia).
  destruct Q as [F0 E0], Q' as [F1 E1]. destruct Lv as [Ad Mx]. pose proof (ad_frame _ _ _ _ _ _ Ad) as F2.
  assert (E1' : m_ctxs m1 e = m_ctxs m e) by congruence.
  assert (X2 : m_ctxs m2 e = ctx_accepts s (m_ctxs m e)) by (rewrite (ad_ctx _ _ _ _ _ _ Ad), E1'; auto).
  destruct (ctx_accepts_other s (m_ctxs m e)) as (O1 & O2 & O3).
  rewrite Ha in Ap. destruct Ap as (l & El & ts & Ets & Ex).
  assert (Cl : x_clock (m_ctxs m3 e) = x_clock (m_ctxs m e)) by (rewrite Ex; cbn [x_clock]; rewrite X2; auto).
  assert (F13 : frame (tc := g_tc g) e m1 m3) by (eapply frame_trans; eauto).
  assert (F03 : frame (tc := g_tc g) e m m3) by (eapply frame_trans; [|exact F13]; eapply frame_trans; eauto).
  assert (V : forall x n r, sat_at (tc := g_tc g) m1 e x n r -> x_clock x = x_clock (m_ctxs m e) -> exists c v st st',
    aget n (m_basic m3) = Some c /\ v_clock v = the_clock (m_ctxs m3 e) /\ v_queue v = queue m3 /\ v_exact_mode v = m_exact m3 /\
    eval v e (m_owners m3) c st = (Ok r, st')).
  { intros x n r (c & st & st' & Ec & _ & Ev) Xc. exists c, (view_of (set_ctx m1 e x) e), st, st'.
    rewrite (fr_basic _ _ _ F13), (fr_owners _ _ _ F13), (frame_queue _ _ _ F13), (fr_exact _ _ _ F13).
    split; [auto|]. split; [|auto]. unfold view_of. cbn [v_clock]. rewrite set_ctx_at. unfold the_clock. rewrite Xc, Cl. auto. }
  constructor.
  - exact F03.
  - exact Cl.
  - exists ts. rewrite <- O2, <- X2. split; [auto|]. rewrite Ex at 1. cbn [x_stamps]. rewrite Ex. reflexivity.
  - exists lv. split; [auto|]. split; [apply (ad_incl _ _ _ _ _ _ Ad)|]. intros n In_. destruct (mem n s) eqn:M.
    + apply mem_In in M. apply in_split in M. destruct M as (p & r & Es).
      apply (V _ n true (ad_sound _ _ _ _ _ _ Ad p n r Es)). rewrite E1'. apply ctx_accepts_other.
    + apply (V (ctx_accepts s (m_ctxs m1 e)) n false).
      * apply Mx; [auto|]. intros Is. apply mem_In in Is. congruence.
      * rewrite E1'. auto.
Qed.
Lemma inner_over : forall m g i ch m3 ch', g_eid g = e -> g_abs g = true -> inner m g (skipn i q) i ch = IEnd m3 ch' ->
  quiet (tc := g_tc g) e m m3 /\ ch' = ch /\
  (skipn i q = [] \/ exists m0, quiet (tc := g_tc g) e m m0 /\ terminated m0 e (g_tc g) = (Ok true, m3)).
Proof.
  intros m g i ch m3 ch' Ge Ha I. destruct (inner_end _ _ _ _ _ _ _ I) as (Q & C & D). rewrite Ge in *. splits.
  destruct D as [(m0 & Q0 & _ & T)|(N & _)]; [right; eauto|left; auto].
Qed.
(** mb is the state at the beginning of the pass *)
Lemma outer_took : forall fuel m g m' g' s, g_eid g = e -> g_abs g = true -> queue m = q -> tcs_last g -> ticking (m_ctxs m e) ->
  outer fuel m g = (m', g', OYield s) ->
  (exists ch, g_pc g' = PLevel 0 ch) /\ exists mb, x_clock (m_ctxs mb e) = x_clock (m_ctxs m e) /\ x_stamps (m_ctxs mb e) = x_stamps (m_ctxs m e) /\ took (g_tc g) mb m' 0 s.
Proof.
  induction fuel as [|f IH]; intros m g m' g' s Ge Ha Hq Kt Ck E; [simpl in E; inversion E|].
  cbn [outer] in E. rewrite Ge in E. destruct (terminated m e (g_tc g)) as [[[|]|ex] m1] eqn:T.
  - exfalso. unfold finish in E.
    destruct (if g_skip g then Ok m1 else incr_clock ESU m1 (g_eid g)) as [mm|]; [|inversion E].
    destruct (check_tc mm (g_eid g) (g_tc g) ES) as [[x|] m2]; [|inversion E].
    destruct (x_list (m_ctxs m2 (g_eid g))); inversion E.
  - assert (Q1 := terminated_quiet (tc := g_tc g) _ _ _ _ T).
    destruct (reset_spec (g_tc g) m1 e) as [Fr Xr]. set (m2 := reset_counts_total PASS m1 e) in *.
    assert (F2 : frame (tc := g_tc g) e m m2) by (eapply frame_trans; [apply Q1|auto]).
    assert (Hq2 : queue m2 = q) by (rewrite (frame_queue _ _ _ F2); auto). rewrite Hq2 in E.
    rewrite (quiet_at _ _ _ _ Q1) in Xr.
    assert (C2 : x_clock (m_ctxs m2 e) = x_clock (m_ctxs m e)) by (rewrite Xr; reflexivity).
    assert (S2 : x_stamps (m_ctxs m2 e) = x_stamps (m_ctxs m e)) by (rewrite Xr; reflexivity).
    change q with (skipn 0 q) in E. destruct (inner m2 g (skipn 0 q) 0 false) as [m3 s' i ch|m3 ch|m3 ex|m3] eqn:I.
    + injection E as <- <- <-. destruct (inner_took _ _ _ _ _ _ _ _ Ge Ha I) as (-> & A). split; [exists ch; reflexivity|]. exists m2. auto.
    + destruct (inner_over _ _ _ _ _ _ Ge Ha I) as (Q3 & -> & D).
      assert (V3 := quiet_view e _ _ _ Q3). assert (X3 := quiet_at _ _ _ _ Q3).
      unfold pass_tail in E. rewrite Ge, Ha in E. cbn [negb andb] in E.
      destruct (incr_clock PASS m3 e) as [m4|ex] eqn:Ic; [|inversion E].
      apply (incr_clock_spec (tc := g_tc g)) in Ic. destruct Ic as [F4 T4].
      assert (F24 : frame (tc := g_tc g) e m2 m4) by (eapply frame_trans; [apply Q3|auto]).
      exfalso. destruct D as [D|(m0 & Q0 & Tm)].
      * destruct (IH m4 g m' g' s) as (_ & mb & _ & _ & Tk); auto.
        -- rewrite (frame_queue _ _ _ F24); auto.
        -- eapply tick_ticking; eauto. rewrite X3. eapply ticking_same; eauto.
        -- destruct (tk_level _ _ _ _ _ Tk) as (lv & Lv & _). simpl in D. rewrite D in Lv. discriminate.
      * eapply (outer_over f m0 m3 m4 g); eauto.
        -- rewrite (quiet_at _ _ _ _ Q0). eapply ticking_same; eauto.
        -- apply (new_pass_tick (g_tc g) m0 m3 m4); auto. rewrite V3. symmetry. eapply quiet_view; eauto.
    + inversion E.
    + inversion E.
  - inversion E.
Qed.
(** what the next resumption does: the next position, or the first one of the next pass *)
Lemma resume_took : forall fuel m g m' g' s i ch, g_eid g = e -> g_abs g = true -> queue m = q -> tcs_last g -> ticking (m_ctxs m e) ->
  g_pc g = PLevel i ch -> S i <= length q -> resume fuel m g = (m', g', OYield s) ->
  exists i' ch' mb, g_pc g' = PLevel i' ch' /\ x_stamps (m_ctxs mb e) = x_stamps (m_ctxs m e) /\ took (g_tc g) mb m' i' s /\ S i' <= length q /\
  ((i' = S i /\ pass_of (m_ctxs m' e) = pass_of (m_ctxs m e)) \/
   (S i = length q /\ i' = 0 /\ pass_of (m_ctxs m' e) = S (pass_of (m_ctxs m e)))).
Proof.
  intros fuel m g m' g' s i ch Ge Ha Hq Kt Ck Epc Li E. unfold resume in E. rewrite Ge, Epc in E.
  destruct (incr_clock CSE m e) as [m1|ex] eqn:Ic; [|inversion E].
  apply (incr_clock_spec (tc := g_tc g)) in Ic. destruct Ic as [F1 T1].
  assert (Hq1 : queue m1 = q) by (rewrite (frame_queue _ _ _ F1); auto). rewrite Hq1 in E.
  assert (C1 := tick_ticking _ _ _ T1 Ck). assert (P1 := tick_cse _ _ T1). assert (S1 := tick_stamps _ _ _ T1).
  assert (Lt : forall mb mm j s', took (g_tc g) mb mm j s' -> S j <= length q).
  { intros mb mm j s' Tk. destruct (tk_level _ _ _ _ _ Tk) as (lv & Lv & _). apply nth_error_Some. congruence. }
  destruct (inner m1 g (skipn (S i) q) (S i) ch) as [m3 s' j ch'|m3 ch'|m3 ex|m3] eqn:I; cbv beta zeta iota in E.
  - injection E as <- <- <-. destruct (inner_took _ _ _ _ _ _ _ _ Ge Ha I) as (-> & A). exists (S i), ch', m1.
    split; [reflexivity|]. split; [auto|]. split; [auto|]. split; [eauto|]. left. split; [auto|]. rewrite (pass_same _ _ (tk_clock _ _ _ _ _ A)). auto.
  - destruct (inner_over _ _ _ _ _ _ Ge Ha I) as (Q3 & -> & D).
    assert (V3 := quiet_view e _ _ _ Q3). assert (X3 := quiet_at _ _ _ _ Q3).
    unfold pass_tail in E. rewrite Ge, Ha, andb_false_r in E.
    destruct (incr_clock PASS m3 e) as [m4|ex] eqn:Ic; [|inversion E].
    apply (incr_clock_spec (tc := g_tc g)) in Ic. destruct Ic as [F4 T4].
    assert (T4' := T4). rewrite X3 in T4'.
    assert (F14 : frame (tc := g_tc g) e m1 m4) by (eapply frame_trans; [apply Q3|auto]).
    destruct D as [D|(m0 & Q0 & T)].
    + destruct (outer_took fuel m4 g m' g' s) as ((ch' & Pc) & mb & B1 & B2 & Tk); auto.
      * rewrite (frame_queue _ _ _ F14); auto.
      * eapply tick_ticking; eauto.
      * exists 0, ch', mb. split; [auto|]. split; [rewrite B2, (tick_stamps _ _ _ T4'); auto|]. split; [auto|]. split; [eauto|].
        right. split; [|split; [auto|]].
        -- apply (f_equal (@length _)) in D. rewrite skipn_length in D. simpl in D. lia.
        -- rewrite (pass_same _ _ (tk_clock _ _ _ _ _ Tk)), (pass_same _ _ B1), (tick_next _ _ T4'). auto.
    + exfalso. eapply (outer_over fuel m0 m3 m4 g); eauto.
      * rewrite (quiet_at _ _ _ _ Q0); auto.
      * apply (new_pass_tick (g_tc g) m0 m3 m4); auto. rewrite V3. symmetry. eapply quiet_view; eauto.
  - inversion E.
  - inversion E.
Qed.
End Timed.

(** ** the whole run *)
Record step_facts (P : core -> Prop) (ms : core) (e : eid) (tc : tconds) (m1 : core) (p0 : nat) (j : nat) (t : Time) (s : list node) : Prop := {
  sf_pass : t_val t PASS = p0 + j / length (queue ms);
  sf_abs : (t_abs t == tick_time m1 e j)%Q;
  sf_step : t_interval t = step_length m1 e;
  sf_took : exists mb m3, took e (queue ms) tc mb m3 (j mod length (queue ms)) s /\ P m3 /\ static ms m3 /\ t = k_time (the_clock (m_ctxs m3 e))
}.
Record timed_state (P : core -> Prop) (ms : core) (e : eid) (tc : tconds) (m1 : core) (p0 : nat) (ts0 : list Time) (ys : list (list node)) (m : core) (g : gen) : Prop := {
  td_pc : exists ch, g_pc g = PLevel ((length ys - 1) mod length (queue ms)) ch;
  td_q : 0 < length (queue ms);
  td_pass : pass_of (m_ctxs m e) = p0 + (length ys - 1) / length (queue ms);
  td_stamps : exists ts, x_stamps (m_ctxs m e) = Some (ts0 ++ ts) /\ length ts = length ys /\
    forall j t s, nth_error ts j = Some t -> nth_error ys j = Some s -> step_facts P ms e tc m1 p0 j t s
}.
Lemma took_first : forall fuel m g m' g' s q, g_pc g = PStart -> resume fuel m g = (m', g', OYield s) -> queue m = q -> g_abs g' = true ->
  (forall h0, clock_after ESU h0 (the_clock (m_ctxs m (g_eid g))) -> ends_for_good m g ->
   (exists ch, g_pc g' = PLevel 0 ch) /\ exists mb, pass_of (m_ctxs mb (g_eid g)) = pass_of (m_ctxs m (g_eid g)) /\
     x_stamps (m_ctxs mb (g_eid g)) = x_stamps (m_ctxs m (g_eid g)) /\ took (g_eid g) q (run_tc m g) mb m' 0 s).
Proof.
  intros fuel m g m' g' s q Hp E Hq Ha h0 Ck Eg.
  destruct (run_first m g m fuel m' g' s Hp (undisturbed_refl _ _) E) as (g1 & m1 & ps & ph & S & St & _).
  unfold resume in E. rewrite Hp, S in E. destruct (start_spec _ _ _ _ S) as (Sst & _ & Sc & Ge & _ & _ & Gt).
  assert (Ck1 := started_clock _ _ _ _ _ (rs_started _ _ _ _ _ _ _ _ _ St) Ck).
  assert (Tc : g_tc g1 = run_tc m g) by (eapply start_tc; eauto).
  destruct (outer_took (g_eid g) q fuel m1 g1 m' g' s) as (Pc & mb & A & B & Tk); auto.
  - rewrite <- (state_abs _ _ _ _ _ _ _ _ _ St); auto.
  - rewrite <- Hq. apply static_queue; auto.
  - intros x t Ex. rewrite Tc in Ex. eapply Eg; eauto.
  - exists h0; auto.
  - split; [auto|]. exists mb. rewrite Tc in Tk. split; [|split; auto].
    + rewrite (pass_same _ _ A). destruct Sc as [_ _ _ _ (k & Ek & _ & _ & Ev & _)]. unfold pass_of, the_clock at 1. rewrite Ek. rewrite Ev. auto.
    + rewrite B. apply (st_stamps _ _ _ Sc).
Qed.
Lemma succ_mod : forall j n i, 0 < n -> i = j mod n -> S i = n -> S j mod n = 0 /\ S j / n = S (j / n).
Proof.
  intros j n i Hn -> E. pose proof (Nat.div_mod j n ltac:(lia)) as D.
  assert (X : S j = (S (j / n)) * n) by nia. rewrite X. split; [apply Nat.mod_mul; lia|apply Nat.div_mul; lia].
Qed.
Lemma succ_in : forall j n i, 0 < n -> i = j mod n -> S i < n -> S j mod n = S i /\ S j / n = j / n.
Proof.
  intros j n i Hn -> L. pose proof (Nat.div_mod j n ltac:(lia)) as D.
  split; [symmetry; apply (Nat.mod_unique _ _ (j / n)); lia|symmetry; apply (Nat.div_unique _ _ _ (S (j mod n))); lia].
Qed.
Theorem steps_history : forall P ms g0 ys m g h0 ts0, begun P ms g0 ys m g -> g_abs g = true ->
  clock_after ESU h0 (the_clock (m_ctxs ms (g_eid g0))) -> x_stamps (m_ctxs ms (g_eid g0)) = Some ts0 -> ends_for_good ms g0 ->
  exists g1 m1 ps ph, start ms g0 = (Ok g1, m1) /\ run_state ms g0 ys m g g1 m1 ps ph /\
    timed_state P ms (g_eid g0) (run_tc ms g0) m1 (pass_number ms (g_eid g0)) ts0 ys m g.
Proof.
  intros P ms g0 ys m g h0 ts0 B Ha C Es Eg.
  destruct B as (P0 & Hp & fuel & m1 & g1 & s & ys' & -> & Y & R).
  destruct (run_first ms g0 ms fuel m1 g1 s Hp (undisturbed_refl _ _) Y) as (g2 & m2 & ps & ph & Sm & St & _).
  assert (Ee : g_eid g1 = g_eid g0).
  { rewrite (rs_gen _ _ _ _ _ _ _ _ _ St). apply (rs_eid _ _ _ _ _ _ _ _ _ St). }
  assert (Tc : g_tc g2 = run_tc ms g0) by (eapply start_tc; eauto).
  assert (Ga : forall zs mz gz psz phz, run_state ms g0 zs mz gz g2 m2 psz phz -> g_tc gz = run_tc ms g0 /\ g_eid gz = g_eid g0 /\ g_abs gz = g_abs g2).
  { intros zs mz gz psz phz Sz. rewrite (rs_gen _ _ _ _ _ _ _ _ _ Sz). cbn. splits. apply (rs_eid _ _ _ _ _ _ _ _ _ St). }
  assert (Sf : forall zs mz gz psz phz mb j sz, run_state ms g0 zs mz gz g2 m2 psz phz -> g_abs gz = true -> length zs = Datatypes.S j ->
     pass_of (m_ctxs mz (g_eid g0)) = pass_number ms (g_eid g0) + j / length (queue ms) -> P mz ->
     took (g_eid g0) (queue ms) (run_tc ms g0) mb mz (j mod length (queue ms)) sz ->
     step_facts P ms (g_eid g0) (run_tc ms g0) m2 (pass_number ms (g_eid g0)) j (k_time (the_clock (m_ctxs mz (g_eid g0)))) sz).
  { intros zs mz gz psz phz mb j sz Sz Az Lz Pz Pm Tk. destruct (state_time _ _ _ _ _ _ _ _ _ _ Sz Az C) as (n & Ln & Tn & Sn).
    assert (n = j) by lia. subst n. constructor; [exact Pz|exact Tn|exact Sn|]. exists mb, mz. split; [auto|]. split; [auto|].
    split; [apply (rs_static _ _ _ _ _ _ _ _ _ Sz)|auto]. }
  assert (A2 : forall zs mz gz psz phz, run_state ms g0 zs mz gz g2 m2 psz phz -> g_abs gz = g_abs g2) by (intros; eapply Ga; eauto).
  exists g2, m2.
  assert (Inv : exists psz phz, run_state ms g0 (s :: ys') m g g2 m2 psz phz /\ (g_abs g2 = true ->
     timed_state P ms (g_eid g0) (run_tc ms g0) m2 (pass_number ms (g_eid g0)) ts0 (s :: ys') m g)).
  { clear Ha. induction R as [Pm|ys m g m' R IH U Pm|ys m g fu m' g' s' R IH E Pm].
    - exists ps, ph. split; [auto|]. intros Ab. assert (A1 : g_abs g1 = true) by (rewrite (A2 _ _ _ _ _ St); auto).
      destruct (took_first fuel ms g0 m1 g1 s (queue ms) Hp Y eq_refl A1 h0 C Eg) as ((ch & Pc) & mb & Pb & Sb & Tk).
      assert (Lq : 0 < length (queue ms)).
      { destruct (tk_level _ _ _ _ _ _ _ Tk) as (lv & Lv & _). assert (0 < length (queue ms)) by (apply nth_error_Some; congruence). auto. }
      assert (Ps : pass_of (m_ctxs m1 (g_eid g0)) = pass_number ms (g_eid g0) + 0 / length (queue ms)).
      { rewrite (pass_same _ _ (tk_clock _ _ _ _ _ _ _ Tk)), Pb, Nat.div_0_l by lia. unfold pass_number, pass_of. lia. }
      constructor.
      + exists ch. simpl. rewrite Nat.mod_0_l by lia. auto.
      + auto.
      + exact Ps.
      + destruct (tk_stamps _ _ _ _ _ _ _ Tk) as (ts & T1 & T2). assert (ts = ts0) by congruence. subst ts.
        exists [k_time (the_clock (m_ctxs m1 (g_eid g0)))]. split; [auto|]. split; [auto|].
        intros [|j] t s0 Hj Hs; [|destruct j; discriminate]. injection Hj as <-. injection Hs as <-.
        apply (Sf [s] m1 g1 ps ph mb); auto. rewrite Nat.mod_0_l by lia. auto.
    - destruct IH as (psz & phz & Sz & Iz). exists psz, phz. split; [eapply run_state_env; eauto; rewrite <- Ee; auto|].
      intros Ab. specialize (Iz Ab). rewrite Ee in U. destruct Iz as [I1 I2 I3 I4]. constructor; auto; rewrite (ud_ctx _ _ _ U); auto.
    - destruct IH as (psz & phz & Sz & Iz).
      destruct (run_next _ _ _ _ _ _ _ _ _ _ _ _ _ Sz E) as (ps' & ph' & Sn & _).
      change (s :: ys ++ [s']) with ((s :: ys) ++ [s']) in *. set (zs := s :: ys) in *.
      exists ps', ph'. split; [auto|]. intros Ab. destruct (Iz Ab) as [(ch & I1) I2 I3 (ts & I4 & I5 & I6)].
      destruct (Ga _ _ _ _ _ Sz) as (Gt & Ge & Gb). pose proof (rs_static _ _ _ _ _ _ _ _ _ Sz) as Stm.
      assert (Ckm : ticking (m_ctxs m (g_eid g0))).
      { destruct (hist_clock _ _ _ _ _ _ h0 (rs_hist _ _ _ _ _ _ _ _ _ Sz) (started_clock _ _ _ _ _ (rs_started _ _ _ _ _ _ _ _ _ Sz) C)) as (Ch & _). eexists; exact Ch. }
      destruct (resume_took (g_eid g0) (queue ms) fu m g m' g' s' ((length zs - 1) mod length (queue ms)) ch) as (i' & ch' & mb & Pc & Sb & Tk & Li & D);
        [auto|congruence|apply static_queue; auto| |auto|auto| |exact E|].
      { intros x t Ex. rewrite Gt in Ex. eapply Eg; eauto. }
      { pose proof (Nat.mod_upper_bound (length zs - 1) (length (queue ms)) ltac:(lia)). lia. }
      rewrite Gt in Tk.
      assert (Lz : length zs = Datatypes.S (length zs - 1)) by (subst zs; simpl; lia).
      assert (Pos : i' = length zs mod length (queue ms) /\ pass_of (m_ctxs m' (g_eid g0)) = pass_number ms (g_eid g0) + length zs / length (queue ms)).
      { rewrite Lz. destruct D as [(-> & Ep)|(Ei & -> & Ep)]; rewrite Ep, I3.
        - destruct (succ_in (length zs - 1) (length (queue ms)) _ I2 eq_refl) as (X1 & X2); [exact Li|]. rewrite X1, X2. auto.
        - destruct (succ_mod (length zs - 1) (length (queue ms)) _ I2 eq_refl Ei) as (X1 & X2). rewrite X1, X2. split; [auto|lia]. }
      destruct Pos as (-> & Ps). assert (Ln : length (zs ++ [s']) = Datatypes.S (length zs)) by (rewrite app_length; simpl; lia).
      assert (L1 : length (zs ++ [s']) - 1 = length zs) by lia.
      constructor; rewrite ?L1; auto.
      + eauto.
      + destruct (tk_stamps _ _ _ _ _ _ _ Tk) as (ts' & T1 & T2). rewrite Sb, I4 in T1. injection T1 as <-.
        exists (ts ++ [k_time (the_clock (m_ctxs m' (g_eid g0)))]). rewrite app_assoc. split; [auto|]. split; [rewrite !app_length, I5; reflexivity|].
        intros j t s0 Hj Hs. apply nth_error_snoc in Hj. apply nth_error_snoc in Hs. destruct Hj as [Hj|[Lj ->]], Hs as [Hs|[Ls ->]].
        * eauto.
        * exfalso. assert (j < length ts) by (apply nth_error_Some; congruence). lia.
        * exfalso. assert (j < length zs) by (apply nth_error_Some; congruence). lia.
        * rewrite Ls in *. apply (Sf (zs ++ [s']) m' g' ps' ph' mb); auto. rewrite (A2 _ _ _ _ _ Sn). auto. }
  destruct Inv as (psz & phz & Sz & Iz). exists psz, phz. split; [auto|]. split; [auto|]. apply Iz. rewrite <- (A2 _ _ _ _ _ Sz). auto.
Qed.

(** ** where the clock starts *)
Lemma first_stamp : forall ms g0 g1 m1, start ms g0 = (Ok g1, m1) -> g_abs g1 = true ->
  (shown_time ms (g_eid g0) <= shown_time m1 (g_eid g0))%Q /\
  ((exists c', registered ms (run_tc ms g0) c' /\ is_absolute c' = true /\ no_fixed_time c') -> (0 <= shown_time ms (g_eid g0))%Q ->
   (shown_time m1 (g_eid g0) == shown_time ms (g_eid g0))%Q).
Proof.
  intros ms g0 g1 m1 S A1. destruct (start_absolute _ _ _ _ S A1) as (mv & Rv & _ & _ & _ & _ & Ea). split.
  - rewrite Ea. destruct (Qmax_cases (shown_time ms (g_eid g0)) (first_time (absolute_conditions mv (run_tc ms g0)))) as [[-> _]|[-> X]]; [apply Qle_refl|apply Qlt_le_weak; auto].
  - intros (c' & R' & Ab & Nf) Z. rewrite Ea.
    destruct (Qmax_cases (shown_time ms (g_eid g0)) (first_time (absolute_conditions mv (run_tc ms g0)))) as [[-> _]|[-> X]]; [reflexivity|].
    assert (F : (first_time (absolute_conditions mv (run_tc ms g0)) <= 0)%Q).
    { apply (first_time_zero _ c'); [apply Rv; auto|]. destruct (absolute_fixed_points c') as [|q qs] eqn:Eq; auto. exfalso.
      assert (I : In q (absolute_fixed_points c')) by (rewrite Eq; left; auto). apply fixed_in in I. destruct I as (x & Px & Fx). apply (Nf x q); auto. }
    exfalso. lra.
Qed.
Lemma step_of : forall ms g0 ys m g g1 m1 ps ph h0, run_state ms g0 ys m g g1 m1 ps ph -> g_abs g = true ->
  clock_after ESU h0 (the_clock (m_ctxs ms (g_eid g0))) -> step_length m (g_eid g0) = step_length m1 (g_eid g0).
Proof. intros ms g0 ys m g g1 m1 ps ph h0 St Ha C. destruct (state_time _ _ _ _ _ _ _ _ _ _ St Ha C) as (n & _ & _ & E). exact E. Qed.
Lemma first_of : forall ts0 m1 e P ms tc p0 ys m g, timed_state P ms e tc m1 p0 ts0 ys m g -> ys <> [] -> exists ts t1, x_stamps (m_ctxs m e) = Some (ts0 ++ ts) /\
  length ts = length ys /\ hd_error ts = Some t1 /\ (t_abs t1 == shown_time m1 e)%Q /\
  forall j t s, nth_error ts j = Some t -> nth_error ys j = Some s -> step_facts P ms e tc m1 p0 j t s.
Proof.
  intros ts0 m1 e P ms tc p0 ys m g [_ _ _ (ts & A & B & C)] Ne. destruct ys as [|y ys]; [contradiction|]. destruct ts as [|t1 ts]; [discriminate|].
  exists (t1 :: ts), t1. split; [auto|]. split; [auto|]. split; [auto|]. split; [|auto].
  rewrite (sf_abs _ _ _ _ _ _ _ _ _ (C 0 t1 y eq_refl eq_refl)). unfold tick_time, nq. simpl. unfold inject_Z. ring.
Qed.
Lemma begun_some : forall P ms g0 ys m g, begun P ms g0 ys m g -> ys <> [].
Proof. intros P ms g0 ys m g (_ & _ & f & m1 & g1 & s & ys' & -> & _). discriminate. Qed.
Theorem absolute_steps : forall P ms g0 ys m g h0 ts0, begun P ms g0 ys m g -> g_abs g = true ->
  clock_after ESU h0 (the_clock (m_ctxs ms (g_eid g0))) -> x_stamps (m_ctxs ms (g_eid g0)) = Some ts0 -> ends_for_good ms g0 ->
  exists ts t1, x_stamps (m_ctxs m (g_eid g0)) = Some (ts0 ++ ts) /\ length ts = length ys /\ hd_error ts = Some t1 /\
    (shown_time ms (g_eid g0) <= t_abs t1)%Q /\
    ((exists c', registered ms (run_tc ms g0) c' /\ is_absolute c' = true /\ no_fixed_time c') -> (0 <= shown_time ms (g_eid g0))%Q ->
     (t_abs t1 == shown_time ms (g_eid g0))%Q) /\
    forall j t sy, nth_error ts j = Some t -> nth_error ys j = Some sy ->
      t_val t PASS = pass_number ms (g_eid g0) + j / length (queue ms) /\
      (t_abs t == t_abs t1 + inject_Z (Z.of_nat j) * step_length m (g_eid g0))%Q /\
      exists level, nth_error (queue ms) (j mod length (queue ms)) = Some level /\ incl sy level.
Proof.
  intros P ms g0 ys m g h0 ts0 B Ha C Es Eg.
  destruct (steps_history _ _ _ _ _ _ _ _ B Ha C Es Eg) as (g1 & m1 & ps & ph & S & St & T).
  destruct (first_of _ _ _ _ _ _ _ _ _ _ T (begun_some _ _ _ _ _ _ B)) as (ts & t1 & A1 & A2 & A3 & A4 & A5).
  assert (Ab : g_abs g1 = true) by (rewrite <- (state_abs _ _ _ _ _ _ _ _ _ St); auto).
  destruct (first_stamp _ _ _ _ S Ab) as (F1 & F2).
  exists ts, t1. do 3 (split; [auto|]). split; [rewrite A4; auto|]. split; [intros X Y; rewrite A4; auto|].
  intros j t sy Hj Hs. destruct (A5 j t sy Hj Hs) as [S1 S2 S3 (mb & m3 & Tk & _)]. split; [auto|]. split.
  - rewrite S2, A4, (step_of _ _ _ _ _ _ _ _ _ _ St Ha C). reflexivity.
  - destruct (tk_level _ _ _ _ _ _ _ Tk) as (lv & L1 & L2 & _). eauto.
Qed.

(** ** TimeInterval *)
Lemma owner_level_last : forall q i b acc, (forall lv, In lv q -> ~ In b lv) -> owner_level i q (Some b) acc = acc.
Proof.
  induction q as [|lv q IH]; intros i b acc H; simpl; auto. rewrite mem_not by (apply H; left; auto). apply IH. intros; apply H; right; auto.
Qed.
Lemma owner_level_at : forall q b i lv, (forall j lj, nth_error q j = Some lj -> In b lj -> j = i) -> nth_error q i = Some lv -> In b lv ->
  forall k acc, owner_level k q (Some b) acc = Some (k + i).
Proof.
  induction q as [|l q IH]; intros b i lv U E I k acc; [destruct i; discriminate|]. simpl. destruct i as [|i].
  - injection E as ->. assert (M : mem b lv = true) by (apply mem_In; auto). rewrite M, owner_level_last; [f_equal; lia|].
    intros lj Il Ib. apply In_nth_error in Il. destruct Il as (j & Ej). specialize (U (S j) lj Ej Ib). lia.
  - rewrite mem_not; [|intros Ib; specialize (U 0 l eq_refl Ib); lia].
    replace (k + S i) with (S k + i) by lia. apply (IH b i lv); auto. intros j lj Ej Ib. specialize (U (S j) lj Ej Ib). lia.
Qed.
Lemma interval_standard : forall v own r s e si ei x i, time_interval v own r s e si ei = Ok x -> in_exact_time_mode v = false ->
  owner_level 0 (v_queue v) own None = Some i ->
  (x = true <-> in_pass_window r s e si ei (t_abs (k_time (v_clock v)) - inject_Z (Z.of_nat i) * t_interval (k_time (v_clock v)))%Q (t_abs (k_time (v_clock v)))).
Proof.
  intros v own r s e si ei x i H Em Eo. unfold time_interval in H. rewrite Em, Eo in H. set (t := t_abs (k_time (v_clock v))) in *.
  set (b1 := match s with None => true | Some q => if si then Qle_bool (q_val q) t else Qltb (q_val q) t end) in *.
  set (b2 := match e with None => true | Some q => if ei then Qle_bool t (q_val q) else Qltb t (q_val q) end) in *.
  assert (B1 : b1 = true <-> forall q, s = Some q -> (if si then q_val q <= t else q_val q < t)%Q).
  { unfold b1. destruct s as [q|]; [|split; auto; intros; discriminate]. destruct si; [rewrite Qle_bool_iff|rewrite Qltb_iff]; split; auto; intros X q' [= <-]; auto. }
  assert (B2 : b2 = true <-> forall q, e = Some q -> (if ei then t <= q_val q else t < q_val q)%Q).
  { unfold b2. destruct e as [q|]; [|split; auto; intros; discriminate]. destruct ei; [rewrite Qle_bool_iff|rewrite Qltb_iff]; split; auto; intros X q' [= <-]; auto. }
  unfold in_pass_window. rewrite <- B1, <- B2. clearbody b1 b2.
  unfold bind in H. destruct r as [q|].
  - destruct (Qeq_bool (q_val q) 0) eqn:Z; [discriminate|]. apply Qeq_bool_neq in Z. injection H as <-.
    rewrite !andb_true_iff, int_quotient by auto. split; [intros [[X Y] W]; splits; intros q' [= <-]; auto|]. intros (X & Y & W). auto.
  - injection H as <-. cbn [andb]. rewrite andb_true_iff. split; [intros [X Y]; splits; intros; discriminate|tauto].
Qed.
Lemma pass_window_proper : forall r s e si ei t0 t0' t t', (t0 == t0')%Q -> (t == t')%Q -> in_pass_window r s e si ei t0 t -> in_pass_window r s e si ei t0' t'.
Proof.
  intros r s e si ei t0 t0' t t' E0 E (A & B & D). unfold in_pass_window. splits.
  - intros q Hq. specialize (A q Hq). destruct si; rewrite <- E; auto.
  - intros q Hq. specialize (B q Hq). destruct ei; rewrite <- E; auto.
  - intros q Hq. destruct (D q Hq) as (z & Hz). exists z. rewrite <- E0. auto.
Qed.
Theorem standard_interval : forall ms g0 ys m g h0 ts0 b r s e si ei i lb,
  begun (interval_condition b r s e si ei) ms g0 ys m g ->
  clock_after ESU h0 (the_clock (m_ctxs ms (g_eid g0))) -> x_stamps (m_ctxs ms (g_eid g0)) = Some ts0 -> ends_for_good ms g0 ->
  m_exact ms = false -> 1 < length (queue ms) -> queue_built ms -> nth_error (queue ms) i = Some lb -> In b lb ->
  exists ts t1, x_stamps (m_ctxs m (g_eid g0)) = Some (ts0 ++ ts) /\ length ts = length ys /\ hd_error ts = Some t1 /\
    forall j t sy, nth_error ts j = Some t -> nth_error ys j = Some sy ->
      (j mod length (queue ms) <> i -> ~ In b sy) /\
      (j mod length (queue ms) = i ->
       (In b sy <-> in_pass_window r s e si ei (t_abs t1 + inject_Z (Z.of_nat (j / length (queue ms))) * pass_length ms m (g_eid g0))%Q (t_abs t))).
Proof.
  intros ms g0 ys m g h0 ts0 b r s e si ei i lb B C Es Eg Ex Ln Qb Ei Ib.
  destruct (registered_basic _ _ _ _ _ _ _ (run_tc ms g0) (proj1 B)) as (o & Rg).
  assert (Ha := begun_abs _ _ _ _ _ _ _ B Rg eq_refl).
  destruct (steps_history _ _ _ _ _ _ _ _ B Ha C Es Eg) as (g1 & m1 & ps & ph & S & St & T).
  destruct (first_of _ _ _ _ _ _ _ _ _ _ T (begun_some _ _ _ _ _ _ B)) as (ts & t1 & A1 & A2 & A3 & A4 & A5).
  assert (Uq : forall j lj, nth_error (queue ms) j = Some lj -> In b lj -> j = i) by (intros; eapply queue_index_unique; eauto).
  exists ts, t1. do 3 (split; [auto|]). intros j t sy Hj Hs.
  destruct (A5 j t sy Hj Hs) as [S1 S2 S3 (mb & m3 & Tk & (o3 & Eb & Ow) & Sm & Et)].
  destruct (tk_level _ _ _ _ _ _ _ Tk) as (lv & L1 & L2 & L3). split.
  - intros N Is. apply N. eapply Uq; [exact L1|]. apply L2. auto.
  - intros Ej. rewrite Ej, Ei in L1. injection L1 as <-. destruct (L3 b Ib) as (c & v & st & st' & Ec & Vc & Vq & Vm & Ev).
    rewrite Eb in Ec. injection Ec as <-. apply atom_value in Ev. simpl in Ev. rewrite Ow in Ev.
    assert (Q3 : v_queue v = queue ms) by (rewrite Vq; apply static_queue; auto).
    assert (W := fun X Y => interval_standard _ _ _ _ _ _ _ _ i Ev X Y). rewrite Q3, (owner_level_at (queue ms) b i lb Uq Ei Ib) in W.
    assert (Em : in_exact_time_mode v = false).
    { unfold in_exact_time_mode. rewrite Vm, Q3, (sc_exact _ _ Sm), Ex. simpl. apply Nat.eqb_neq. lia. }
    specialize (W Em eq_refl). rewrite Vc, <- Et in W.
    rewrite <- mem_In, W.
    assert (Ez : (t_abs t - inject_Z (Z.of_nat i) * t_interval t == t_abs t1 + inject_Z (Z.of_nat (j / length (queue ms))) * pass_length ms m (g_eid g0))%Q).
    { rewrite S2, S3, A4. unfold tick_time, pass_length, nq. rewrite (step_of _ _ _ _ _ _ _ _ _ _ St Ha C).
      rewrite (Nat.div_mod j (length (queue ms))) at 1 by lia. rewrite Ej.
      rewrite Nat2Z.inj_add, Nat2Z.inj_mul, inject_Z_plus, inject_Z_mult. ring. }
    split; apply pass_window_proper; try reflexivity; [exact Ez|symmetry; exact Ez].
Qed.
(** a repeat interval is a whole number of passes *)
Theorem standard_repeat : forall ms g0 ys m g h0 ts0 b r si ei i lb mu,
  begun (interval_condition b (Some r) None None si ei) ms g0 ys m g ->
  clock_after ESU h0 (the_clock (m_ctxs ms (g_eid g0))) -> x_stamps (m_ctxs ms (g_eid g0)) = Some ts0 -> ends_for_good ms g0 ->
  m_exact ms = false -> 1 < length (queue ms) -> queue_built ms -> nth_error (queue ms) i = Some lb -> In b lb ->
  decimal_lengths mu ms g0 -> (0 < q_val r)%Q -> (shown_time ms (g_eid g0) == 0)%Q ->
  exists N, 0 < N /\ (q_val r == inject_Z (Z.of_nat N) * pass_length ms m (g_eid g0))%Q /\
    forall j sy, nth_error ys j = Some sy ->
      (In b sy <-> j mod length (queue ms) = i /\ Nat.divide N (j / length (queue ms))).
Proof.
  intros ms g0 ys m g h0 ts0 b r si ei i lb mu B C Es Eg Ex Ln Qb Ei Ib D Pr Sh.
  destruct (registered_basic _ _ _ _ _ _ _ (run_tc ms g0) (proj1 B)) as (o & Rg).
  assert (Ha := begun_abs _ _ _ _ _ _ _ B Rg eq_refl).
  assert (Rs : respected (m_exact ms) (CAtom o (ATimeInterval (Some r) None None si ei)) r).
  { exists (CAtom o (ATimeInterval (Some r) None None si ei)). split; [constructor|]. left. econstructor; reflexivity. }
  destruct (run_unit _ _ _ _ _ _ _ _ B Ha C D) as (U1 & _ & U3 & _).
  destruct (U1 _ _ Rg Rs) as (z & Hz).
  assert (Pi : (0 < step_length m (g_eid g0))%Q) by (apply (U3 _ _ Rg Rs); intros X; rewrite X in Pr; inversion Pr).
  assert (En : executions_per_pass ms = length (queue ms)) by (unfold executions_per_pass, queue; rewrite Ex; auto).
  rewrite En in Hz. fold (nq (length (queue ms))) in Hz. change (nq (length (queue ms)) * step_length m (g_eid g0))%Q with (pass_length ms m (g_eid g0)) in Hz.
  assert (Pl : (0 < pass_length ms m (g_eid g0))%Q).
  { unfold pass_length. apply Qmult_lt_0_compat; [|auto]. change 0%Q with (inject_Z 0). rewrite <- Zlt_Qlt. lia. }
  set (L := pass_length ms m (g_eid g0)) in *.
  assert (Zp : (0 < z)%Z).
  { destruct (Z_lt_le_dec 0 z) as [|Nz]; auto. exfalso. assert (X : (inject_Z z * L <= 0 * L)%Q).
    { apply Qmult_le_compat_r; [change 0%Q with (inject_Z 0); rewrite <- Zle_Qle; auto|apply Qlt_le_weak; auto]. }
    rewrite <- Hz in X. lra. }
  exists (Z.to_nat z). split; [lia|]. split; [rewrite Z2Nat.id by lia; auto|]. intros j sy Hs.
  destruct (standard_interval _ _ _ _ _ _ _ _ _ _ _ _ _ _ _ B C Es Eg Ex Ln Qb Ei Ib) as (ts & t1 & A1 & A2 & A3 & A4).
  destruct (absolute_steps _ _ _ _ _ _ _ _ B Ha C Es Eg) as (ts' & t1' & B1 & B2 & B3 & _ & B5 & _).
  rewrite A1 in B1. injection B1 as B1. apply app_inv_head in B1. subst ts'. rewrite A3 in B3. injection B3 as <-.
  assert (T1 : (t_abs t1 == 0)%Q).
  { rewrite B5; [auto| |rewrite Sh; apply Qle_refl]. exists (CAtom o (ATimeInterval (Some r) None None si ei)). split; [auto|]. split; [reflexivity|].
    intros x q Px Fx. inversion Px; subst. inversion Fx; discriminate. }
  assert (Lj : j < length ts) by (rewrite A2; apply nth_error_Some; congruence).
  destruct (nth_error ts j) as [t|] eqn:Et; [|apply nth_error_None in Et; lia].
  destruct (A4 j t sy Et Hs) as (N1 & N2). fold L in N2. clearbody L.
  assert (M : forall k : nat, multiple (t_abs t1 + inject_Z (Z.of_nat k) * L) (q_val r) <-> Nat.divide (Z.to_nat z) k).
  { intros k. split.
    - intros (y & Hy). rewrite T1, Hz in Hy.
      assert (Y : ((inject_Z (Z.of_nat k) - inject_Z (y * z)) * L == 0)%Q).
      { rewrite inject_Z_mult. transitivity ((0 + inject_Z (Z.of_nat k) * L) - inject_Z y * (inject_Z z * L))%Q; [ring|]. rewrite Hy. ring. }
      apply Qmult_integral in Y. destruct Y as [Y|Y]; [|exfalso; rewrite Y in Pl; inversion Pl].
      assert (Y' : (inject_Z (Z.of_nat k) == inject_Z (y * z))%Q) by lra. rewrite inject_Z_injective in Y'.
      assert (Y0 : (0 <= y)%Z) by (destruct (Z_lt_le_dec y 0) as [Ny|]; [exfalso; pose proof (Z.mul_neg_pos y z Ny Zp); lia|auto]). exists (Z.to_nat y). apply Nat2Z.inj. rewrite Nat2Z.inj_mul, !Z2Nat.id; lia.
    - intros (y & ->). exists (Z.of_nat y). rewrite T1, Hz, Nat2Z.inj_mul, Z2Nat.id by lia. rewrite inject_Z_mult. ring. }
  split.
  - intros Is. destruct (Nat.eq_dec (j mod length (queue ms)) i) as [Ej|Nj]; [|exfalso; apply (N1 Nj); auto]. split; [auto|].
    apply (N2 Ej) in Is. destruct Is as (_ & _ & W). apply M. apply W. reflexivity.
  - intros (Ej & Dv). apply (N2 Ej). split; [intros q [=]|]. split; [intros q [=]|]. intros q [= <-]. apply M. auto.
Qed.

(** ** termination conditions that stay true *)
Lemma holds_lasts : forall c, holds_on c -> lasts c.
Proof. intros c H v v' e ow ow' st st' h Hh Hn S. destruct (H v v' e ow ow' st st' h true Hh Hn S) as (b & E & T). rewrite E, T; auto. Qed.
Lemma new_next : forall v v', new_pass v v' -> next_pass v v'.
Proof. intros v v' (A & B & C & D & E & F & G). unfold next_pass. splits. Qed.
Lemma over_holds : forall c, settles_over c -> holds_on c.
Proof. intros c H v v' e ow ow' st st' h b Hh Hn S. eapply H; eauto. apply new_next; auto. Qed.
Lemma over_lasts : forall c, carries_over c -> lasts c.
Proof. intros c H v v' e ow ow' st st' h Hh Hn S. eapply H; eauto. apply new_next; auto. Qed.
Lemma pass_abs : forall k k', clock_incr PASS k = Ok k' -> t_abs (k_time k') = t_abs (k_time k).
Proof.
  intros k k' H. unfold clock_incr in H. destruct (tree_incr _ _ _) as [t|]; inversion H; subst k'. simpl. unfold time_incr. simpl.
  destruct (t_abs_enabled _); reflexivity.
Qed.
Lemma holds_time : forall o t incl, holds_on (CAtom o (ATimeTermination t incl)).
Proof.
  intros o t incl v v' e ow ow' st st' h b Hh (_ & _ & _ & _ & _ & _ & Ck) S. exists b. split; [|auto].
  unfold is_satisfied in *. simpl in *. rewrite (pass_abs _ _ Ck). exact S.
Qed.
Lemma lasts_all : forall o cs, (forall c, In c cs -> lasts c) -> lasts (CAll o cs).
Proof.
  intros o cs H v v' e ow ow' st st' h Hh Hn S. unfold is_satisfied in *. simpl in *.
  revert st st' S. induction cs as [|c cs IH]; intros st st' S; [auto|].
  destruct (eval v e ow c st) as [[[|]|] s1] eqn:E; simpl in S; try discriminate.
  assert (E' := H c (or_introl eq_refl) v v' e ow ow' st st' h Hh Hn). unfold is_satisfied in E'. rewrite E in E'. specialize (E' eq_refl).
  destruct (eval v' e ow' c st') as [r s2]. simpl in E'. subst r.
  apply (IH (fun c' I => H c' (or_intror I)) s1 s2 S).
Qed.
Lemma holds_any : forall o cs, (forall c, In c cs -> holds_on c) -> holds_on (CAny o cs).
Proof.
  intros o cs H v v' e ow ow' st st' h b Hh Hn S. unfold is_satisfied in *. simpl in *.
  revert st st' S. induction cs as [|c cs IH]; intros st st' S; [injection S as <-; exists false; simpl; auto|].
  destruct (eval v e ow c st) as [[[|]|] s1] eqn:E; simpl in S; try discriminate.
  - injection S as <-.
    destruct (H c (or_introl eq_refl) v v' e ow ow' st st' h true Hh Hn) as (b' & E' & T); [unfold is_satisfied; rewrite E; auto|].
    unfold is_satisfied in E'. destruct (eval v' e ow' c st') as [r s2]. simpl in E'. subst r. rewrite (T eq_refl). exists true; auto.
  - destruct (H c (or_introl eq_refl) v v' e ow ow' st st' h false Hh Hn) as (b' & E' & T); [unfold is_satisfied; rewrite E; auto|].
    unfold is_satisfied in E'. destruct (eval v' e ow' c st') as [r s2]. simpl in E'. subst r. destruct b'.
    + exists true. auto.
    + apply (IH (fun c' I => H c' (or_intror I)) s1 s2 S).
Qed.
