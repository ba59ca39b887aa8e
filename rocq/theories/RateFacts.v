(** The rate of EveryNCalls: invariant and proofs (C59). *)
From Verif Require Export SpecRate StopFacts.

Section Rate.
Variables (e : eid) (b d : node) (n : nat) (q : list (list node)) (id ib : nat).
Hypothesis Hn : 1 <= n.
Hypothesis Hdb : d <> b.
Hypothesis Hle : id <= ib.
Hypothesis Hib : exists lb, nth_error q ib = Some lb /\ In b lb.
Hypothesis Ud : forall i lv, nth_error q i = Some lv -> In d lv -> i = id.
Hypothesis Ub : forall i lv, nth_error q i = Some lv -> In b lv -> i = ib.

(** the counts of this run and of the runs of d since the last one of b fit *)
Definition bal (x : ctx) (u : nat) : Prop :=
  exists t f, x_total x = Some t /\ x_use x = Some f /\ t ESU d = n * t ESU b + u /\ f d b = u.
(** bound on u when the consideration set at position j is the next one *)
Definition bound (j u : nat) : Prop := (id < j -> j <= ib -> u <= n) /\ (j <= id \/ ib < j -> u < n).
Lemma bound_le : forall j u, bound j u -> u <= n.
Proof. intros j u [A B]. destruct (Nat.le_gt_cases j id); [lia|]. destruct (Nat.le_gt_cases j ib); auto. lia. Qed.
Lemma bound_start : forall u, u < n -> bound 0 u.
Proof. intros u H; split; intros; lia. Qed.

Lemma bal_accept_other : forall x u k, k <> d -> k <> b -> bal x u -> bal (ctx_accept k x) u.
Proof.
  intros x u k Nd Nb (t & f & Et & Ef & T & F). unfold bal, ctx_accept; simpl. rewrite Et, Ef; simpl.
  eexists; eexists; splits; unfold bump_total, spend_use.
  - rewrite !(proj2 (Nat.eqb_neq _ _)); auto.
  - rewrite !(proj2 (Nat.eqb_neq _ _)); auto.
Qed.
Lemma bal_accept_d : forall x u, bal x u -> bal (ctx_accept d x) (S u).
Proof.
  intros x u (t & f & Et & Ef & T & F). unfold bal, ctx_accept; simpl. rewrite Et, Ef; simpl.
  eexists; eexists; splits; unfold bump_total, spend_use.
  - rewrite Nat.eqb_refl, (proj2 (Nat.eqb_neq b d)) by auto. lia.
  - rewrite Nat.eqb_refl, (proj2 (Nat.eqb_neq b d)) by auto. lia.
Qed.
Lemma bal_accept_b : forall x, bal x n -> bal (ctx_accept b x) 0.
Proof.
  intros x (t & f & Et & Ef & T & F). unfold bal, ctx_accept; simpl. rewrite Et, Ef; simpl.
  eexists; eexists; splits; unfold bump_total, spend_use.
  - rewrite Nat.eqb_refl, (proj2 (Nat.eqb_neq d b)) by auto. lia.
  - rewrite Nat.eqb_refl, (proj2 (Nat.eqb_neq d b)) by auto. lia.
Qed.
Lemma bal_accepts : forall p x u, ~ In b p -> bal x u -> bal (ctx_accepts p x) (u + count_occ Nat.eq_dec p d).
Proof.
  induction p as [|k p IH]; intros x u N B; simpl.
  - rewrite Nat.add_0_r; auto.
  - change (ctx_accepts (k :: p) x) with (ctx_accepts p (ctx_accept k x)). unfold node in *. destruct (Nat.eq_dec k d) as [->|Nd].
    + replace (u + S (count_occ Nat.eq_dec p d)) with (S u + count_occ Nat.eq_dec p d) by lia.
      apply IH; [intros I; apply N; right; auto|apply bal_accept_d; auto].
    + apply IH; [intros I; apply N; right; auto|apply bal_accept_other; auto]. intros ->; apply N; left; auto.
Qed.
(** what the condition of b says in terms of u *)
Lemma sat_bal : forall tc m x u r, every_n_calls b d n m -> bal x u -> sat_at (tc := tc) m e x b r -> r = Nat.leb n u.
Proof.
  intros tc m x u r (o & Eb & Eo) (t & f & _ & Ef & _ & F) (c & st & st' & Ec & _ & Ev).
  rewrite Eb in Ec. inversion Ec; subst c. simpl in Ev. rewrite Eo in Ev. unfold count_useable in Ev.
  unfold view_of in Ev. rewrite set_ctx_at in Ev. simpl in Ev. rewrite Ef in Ev.
  destruct (mem d (m_nodes m)); [|inversion Ev]. destruct (mem b (m_nodes m)); [|inversion Ev]. simpl in Ev.
  inversion Ev. subst u. reflexivity.
Qed.
Lemma count_nodup : forall p, NoDup p -> count_occ Nat.eq_dec p d <= 1.
Proof. intros p N. apply (NoDup_count_occ Nat.eq_dec); auto. Qed.

Lemma level_rate : forall tc m level s m' j u, every_n_calls b d n m -> nth_error q j = Some level ->
  level_ok (tc := tc) m e level s m' -> bal (m_ctxs m e) u -> bound j u ->
  exists u', bal (m_ctxs m' e) u' /\ bound (S j) u' /\ (In b s -> u' = 0).
Proof.
  intros tc m level s m' j u Pm El L B Bd.
  assert (Nd := level_nodup _ _ _ _ _ L). destruct L as [A Mx].
  assert (Id : In d s -> j = id). { intros I. apply (Ud j level); auto. apply (ad_incl _ _ _ _ _ _ A); auto. }
  assert (Ib : In b s -> j = ib). { intros I. apply (Ub j level); auto. apply (ad_incl _ _ _ _ _ _ A); auto. }
  assert (C0 : j <> id -> count_occ Nat.eq_dec s d = 0). { intros Ne. apply count_occ_not_In. auto. }
  assert (C1 := count_nodup s Nd). rewrite (ad_ctx _ _ _ _ _ _ A). unfold bound in *. unfold node in *.
  destruct (in_dec Nat.eq_dec b s) as [I|I].
  - specialize (Ib I). destruct (in_split _ _ I) as (p & r & ->).
    assert (Nbr : ~ In b p /\ ~ In b r).
    { apply NoDup_remove_2 in Nd. split; intros X; apply Nd, in_app_iff; auto. }
    assert (S := sat_bal _ _ _ _ _ Pm (bal_accepts p _ _ (proj1 Nbr) B) (ad_sound _ _ _ _ _ _ A p b r eq_refl)).
    symmetry in S. apply Nat.leb_le in S. unfold node in *.
    rewrite count_occ_app in C0, C1. simpl in C0, C1. destruct (Nat.eq_dec b d); [congruence|].
    assert (X : u + count_occ Nat.eq_dec p d = n /\ count_occ Nat.eq_dec r d = 0).
    { destruct (Nat.eq_dec j id) as [Ej|Ej]; [|specialize (C0 Ej)]; lia. }
    destruct X as [X Y]. exists 0. split; [|split; [lia|auto]].
    change (p ++ b :: r) with (p ++ [b] ++ r). rewrite !ctx_accepts_app. replace 0 with (0 + count_occ Nat.eq_dec r d) by lia.
    apply bal_accepts; [tauto|]. change (ctx_accepts [b] ?x) with (ctx_accept b x). apply bal_accept_b. rewrite <- X. apply bal_accepts; tauto.
  - exists (u + count_occ Nat.eq_dec s d). split; [apply bal_accepts; auto|]. split; [|intros X; contradiction].
    destruct (Nat.eq_dec j ib) as [Ej|Ej].
    + destruct Hib as (lb & Elb & Ilb). subst j. rewrite Elb in El. inversion El; subst lb.
      assert (S := sat_bal _ _ _ _ _ Pm (bal_accepts s _ _ I B) (Mx b Ilb I)). symmetry in S. apply Nat.leb_gt in S. unfold node in *. lia.
    + destruct (Nat.eq_dec j id) as [Ei|Ei]; [|specialize (C0 Ei)]; lia.
Qed.
Lemma every_frame : forall tc m m', frame (tc := tc) e m m' -> every_n_calls b d n m -> every_n_calls b d n m'.
Proof. intros tc m m' F (o & A & B). exists o. rewrite (fr_basic _ _ _ F), (fr_owners _ _ _ F). auto. Qed.
Lemma skipped_rate : forall tc m level j u, every_n_calls b d n m -> nth_error q j = Some level ->
  skipped (tc := tc) e m level -> bal (m_ctxs m e) u -> bound j u -> bound (S j) u.
Proof.
  intros tc m level j u Pm El (ma & mb & [F E] & L) B Bd.
  destruct (level_rate tc ma level [] mb j u) as (u' & B' & Bd' & _); auto.
  - eapply every_frame; eauto.
  - rewrite E; auto.
  - rewrite (ad_ctx _ _ _ _ _ _ (lv_added _ _ _ _ _ L)) in B'. simpl in B'. rewrite E in B'.
    destruct B as (t & f & Et & Ef & _ & F1), B' as (t' & f' & Et' & Ef' & _ & F2).
    assert (f' = f) by congruence. subst f'. rewrite <- F1, F2. auto.
Qed.
Lemma skips_rate : forall tc m u k i, every_n_calls b d n m -> bal (m_ctxs m e) u -> bound i u ->
  (forall k' lv, k' < k -> nth_error (skipn i q) k' = Some lv -> skipped (tc := tc) e m lv) ->
  k <= length (skipn i q) -> bound (i + k) u.
Proof.
  intros tc m u k i Pm B Bd. induction k as [|k IH]; intros Sk L.
  - rewrite Nat.add_0_r; auto.
  - assert (Bk : bound (i + k) u) by (apply IH; [intros k' lv Lk' E'; apply (Sk k' lv); [lia|exact E']|lia]).
    rewrite Nat.add_succ_r. destruct (nth_error (skipn i q) k) as [lv|] eqn:E; [|apply nth_error_None in E; lia].
    apply (skipped_rate tc m lv (i + k) u); auto.
    + rewrite <- E. clear. revert i; induction q as [|x l IHl]; intros i; destruct i; simpl; auto. destruct k; auto.
    + eapply Sk; eauto.
Qed.
Lemma bal_fun : forall x u u', bal x u -> bal x u' -> u = u'.
Proof. intros x u u' (t & f & _ & Ef & _ & A) (t' & f' & _ & Ef' & _ & B). congruence. Qed.

Lemma inner_rate : forall m g i ch m3 s j ch' u, g_eid g = e -> every_n_calls b d n m -> bal (m_ctxs m e) u -> bound i u ->
  inner m g (skipn i q) i ch = IYield m3 s j ch' ->
  exists u', bal (m_ctxs m3 e) u' /\ bound (S j) u' /\ (In b s -> u' = 0).
Proof.
  intros m g i ch m3 s j ch' u Ge Pm B Bd I.
  destruct (inner_yield _ _ _ _ _ _ _ _ _ I) as (m0 & m1 & m2 & lv & L & E & Q & T & Q' & Lv & F & Ap & Ch & NE & Ab & Sk).
  rewrite Ge in *.
  assert (Lk : j - i < length (skipn i q)) by (apply nth_error_Some; congruence).
  assert (Bj : bound j u).
  { replace j with (i + (j - i)) by lia. eapply skips_rate; eauto. lia. }
  assert (Ej : nth_error q j = Some lv).
  { rewrite <- E. replace j with (i + (j - i)) at 1 by lia. generalize (j - i). clear. intros k. revert i; induction q as [|x l IHl]; intros i; destruct i; simpl; auto. destruct k; auto. }
  destruct Q as [F0 E0], Q' as [F1 E1].
  destruct (level_rate _ _ _ _ _ j u (every_frame _ _ _ (frame_trans _ _ _ _ F0 F1) Pm) Ej Lv) as (u' & B' & Bd' & Z'); auto.
  - rewrite E1, E0; auto.
  - exists u'. split; [|split; auto]. destruct B' as (t & f & Et & Ef & X). destruct (appended_list _ _ _ _ Ap) as (l & _ & _ & A1 & A2 & _).
    exists t, f. rewrite A1, A2. auto.
Qed.
Lemma inner_end_rate : forall m g i ch m3 ch' u, g_eid g = e -> every_n_calls b d n m -> bal (m_ctxs m e) u -> bound i u -> i <= length q ->
  inner m g (skipn i q) i ch = IEnd m3 ch' ->
  quiet (tc := g_tc g) e m m3 /\ ch' = ch /\
  (u < n \/ exists m0, quiet (tc := g_tc g) e m m0 /\ terminated m0 e (g_tc g) = (Ok true, m3)).
Proof.
  intros m g i ch m3 ch' u Ge Pm B Bd Li I.
  destruct (inner_end _ _ _ _ _ _ _ I) as (Q & C & D). rewrite Ge in *. splits.
  destruct D as [(m0 & Q0 & _ & T)|(_ & Sk)]; [right; eauto|left].
  assert (X : bound (i + length (skipn i q)) u).
  { eapply skips_rate; eauto. intros k' lv _ E. apply Sk. eapply nth_error_In; eauto. }
  rewrite skipn_length in X. replace (i + (length q - i)) with (length q) in X by lia. apply X. right.
  destruct Hib as (lb & Elb & _). apply nth_error_Some. congruence.
Qed.

(** the termination conditions cannot be true in the middle of a pass and false after it *)
Lemma terminated_stays : forall m g m3 m4 r m5, g_eid g = e -> (forall s c, g_tc g s = Some c -> keeps_true c) ->
  (exists h, clock_after ESU h (the_clock (m_ctxs m e))) ->
  terminated m e (g_tc g) = (Ok true, m3) -> incr_clock PASS m3 e = Ok m4 -> terminated m4 e (g_tc g) = (r, m5) -> r <> Ok false.
Proof.
  intros m g m3 m4 r m5 Ge Kt (h & Hh) T Ic T' ->.
  assert (Q := terminated_quiet (tc := g_tc g) _ _ _ _ T). destruct Q as [F Ex].
  unfold incr_clock in Ic. rewrite Ex in Ic. destruct (clock_incr PASS (the_clock (m_ctxs m e))) as [k|] eqn:Ck; inversion Ic; subst m4. clear Ic.
  assert (V : view_of (set_clock m3 e k) e = with_clock (view_of m e) k).
  { unfold view_of, with_clock, set_clock. rewrite set_ctx_at; simpl. rewrite Ex.
    rewrite <- (frame_queue _ _ _ F). unfold queue; simpl. rewrite (fr_nodes _ _ _ F), (fr_exact _ _ _ F). reflexivity. }
  assert (S : forall s c r m6 r' m7 m8 m8', g_tc g s = Some c -> view_of m8 e = view_of m e -> m_owners m8 = m_owners m ->
     view_of m8' e = with_clock (view_of m e) k -> m_owners m8' = m_owners m -> 
     satisfied m8 e c = (r, m6) -> satisfied m8' e c = (r', m7) -> r = Ok true -> r' = Ok true).
  { intros s c r m6 r' m7 m8 m8' Ec V8 O8 V8' O8' S S' ->. unfold satisfied in *. rewrite V8, O8 in S. rewrite V8', O8' in S'.
    destruct (eval (view_of m e) e (m_owners m) c (m_cst m8)) as [r1 s1] eqn:E1.
    destruct (eval (with_clock (view_of m e) k) e (m_owners m) c (m_cst m8')) as [r2 s2] eqn:E2.
    injection S as -> _; injection S' as -> _. pose proof (Kt s c Ec (view_of m e) e (m_owners m) (m_cst m8) (m_cst m8') h k Hh Ck) as K.
    unfold is_satisfied in K. rewrite E1, E2 in K. auto. }
  unfold terminated, check_tc in T, T'.
  destruct (g_tc g ESU) as [c1|] eqn:E1; [|inversion T].
  destruct (satisfied (set_clock m3 e k) e c1) as [[[|]|] ma] eqn:S1; try (inversion T'; fail).
  destruct (g_tc g ES) as [c2|] eqn:E2; [|inversion T'].
  destruct (satisfied m e c1) as [[[|]|] mb] eqn:S2; try (inversion T; fail).
  - pose proof (S _ _ _ _ _ _ m (set_clock m3 e k) E1 eq_refl eq_refl V (fr_owners _ _ _ F) S2 S1 eq_refl). discriminate.
  - pose proof (satisfied_cst _ _ _ _ _ S2) as K2. pose proof (satisfied_cst _ _ _ _ _ S1) as K1.
    assert (X := S ES c2 (Ok true) m3 (Ok false) m5 mb ma E2).
    rewrite (cst_only_view _ _ e K2), (cst_only_owners _ _ K2), (cst_only_view _ _ e K1), (cst_only_owners _ _ K1) in X.
    specialize (X eq_refl eq_refl V (fr_owners _ _ _ F) T T' eq_refl). discriminate.
Qed.
(** a suspended run *)
Record paced_at (m : core) (g : gen) (u : nat) : Prop := {
  pa_bal : bal (m_ctxs m e) u;
  pa_clock : exists h, clock_after ESU h (the_clock (m_ctxs m e));
  pa_pc : match g_pc g with
          | PLevel i ch => bound (S i) u /\ S i <= length q /\ (g_abs g = false -> ch = true)
          | PIdle => u < n
          | _ => False
          end
}.
Lemma appended_same : forall abs s x x', appended abs s x x' -> x_total x' = x_total x /\ x_use x' = x_use x /\ x_clock x' = x_clock x.
Proof. intros abs s x x' H. destruct (appended_list _ _ _ _ H) as (l & _ & _ & A & B & C). auto. Qed.
Lemma bal_same : forall x x' u, x_total x' = x_total x -> x_use x' = x_use x -> bal x u -> bal x' u.
Proof. intros x x' u A B (t & f & X). exists t, f. rewrite A, B; auto. Qed.
Lemma tick_bal : forall s x x' u, tick s x x' -> bal x u -> bal x' u.
Proof. intros s x x' u (k & _ & ->). apply bal_same; reflexivity. Qed.
Lemma tick_clock : forall s x x', tick s x x' -> (exists h, clock_after ESU h (the_clock x)) -> exists h, clock_after ESU h (the_clock x').
Proof. intros s x x' (k & Ck & ->) (h & H). exists (h ++ [s]). simpl. eapply ca_incr; eauto. Qed.
Lemma quiet_at : forall tc m m', quiet (tc := tc) e m m' -> m_ctxs m' e = m_ctxs m e.
Proof. intros tc m m' [_ H]; auto. Qed.

Lemma inner_yield_at : forall m g i ch m3 s j ch' u, g_eid g = e -> queue m = q -> every_n_calls b d n m -> bal (m_ctxs m e) u -> bound i u ->
  (exists h, clock_after ESU h (the_clock (m_ctxs m e))) ->
  inner m g (skipn i q) i ch = IYield m3 s j ch' -> exists u', paced_at m3 (at_pc g (PLevel j ch')) u' /\ (In b s -> u' = 0).
Proof.
  intros m g i ch m3 s j ch' u Ge Hq Pm B Bd Ck I.
  destruct (inner_rate _ _ _ _ _ _ _ _ _ Ge Pm B Bd I) as (u' & B' & Bd' & Z'). exists u'. split; [|exact Z']. constructor; auto.
  - destruct (inner_yield _ _ _ _ _ _ _ _ _ I) as (m0 & m1 & m2 & lv & L & E & [_ Q] & T & [_ Q'] & Lv & F & Ap & _).
    rewrite Ge in *. destruct (appended_same _ _ _ _ Ap) as (_ & _ & C). unfold the_clock. rewrite C.
    rewrite (ad_ctx _ _ _ _ _ _ (lv_added _ _ _ _ _ Lv)). destruct (ctx_accepts_other s (m_ctxs m1 e)) as (_ & _ & ->). rewrite Q', Q. exact Ck.
  - destruct (inner_yield _ _ _ _ _ _ _ _ _ I) as (m0 & m1 & m2 & lv & L & E & _ & _ & _ & _ & _ & _ & Ch & NE & _).
    simpl. split; auto. split.
    + assert (X : j - i < length (skipn i q)) by (apply nth_error_Some; congruence). rewrite skipn_length in X. lia.
    + intros Ha. rewrite Ch. specialize (NE Ha). destruct s; [congruence|]. simpl. apply orb_true_r.
Qed.
Lemma outer_rate : forall fuel m g m' g' s u, g_eid g = e -> queue m = q -> every_n_calls b d n m -> bal (m_ctxs m e) u -> u < n ->
  (exists h, clock_after ESU h (the_clock (m_ctxs m e))) ->
  outer fuel m g = (m', g', OYield s) -> exists u', paced_at m' g' u' /\ (In b s -> u' = 0).
Proof.
  induction fuel as [|f IH]; intros m g m' g' s u Ge Hq Pm B Lu Ck E; simpl in E; [inversion E|].
  rewrite Ge in E. destruct (terminated m e (g_tc g)) as [[[|]|ex] m1] eqn:T.
  - exfalso. unfold finish in E.
    destruct (if g_skip g then Ok m1 else incr_clock ESU m1 (g_eid g)) as [mm|]; [|inversion E].
    destruct (check_tc mm (g_eid g) (g_tc g) ES) as [[x|] m2]; [|inversion E].
    destruct (x_list (m_ctxs m2 (g_eid g))); inversion E.
  - assert (Q1 := terminated_quiet (tc := g_tc g) _ _ _ _ T).
    destruct (reset_spec (g_tc g) m1 e) as [Fr Xr]. set (m2 := reset_counts_total PASS m1 e) in *.
    assert (F2 : frame (tc := g_tc g) e m m2) by (eapply frame_trans; [apply Q1|auto]).
    assert (Hq2 : queue m2 = q) by (rewrite (frame_queue _ _ _ F2); auto). rewrite Hq2 in E.
    rewrite (quiet_at _ _ _ Q1) in Xr.
    assert (B2 : bal (m_ctxs m2 e) u).
    { rewrite Xr. destruct B as (t & ff & Et & Ef & Tt & Ff). unfold bal, ctx_reset; simpl. rewrite Et, Ef; simpl. eexists; eexists; splits. }
    assert (C2 : exists h, clock_after ESU h (the_clock (m_ctxs m2 e))) by (rewrite Xr; exact Ck).
    assert (P2 := every_frame _ _ _ F2 Pm).
    change q with (skipn 0 q) in E. destruct (inner m2 g (skipn 0 q) 0 false) as [m3 s' i ch|m3 ch|m3 ex|m3] eqn:I.
    + inversion E; subst. eapply inner_yield_at; eauto. apply bound_start; auto.
    + destruct (inner_end_rate _ _ _ _ _ _ _ Ge P2 B2 (bound_start _ Lu) (Nat.le_0_l _) I) as (Q3 & -> & _).
      unfold pass_tail in E. simpl in E. rewrite Ge in E. destruct (g_abs g) eqn:Ha; simpl in E.
      * destruct (incr_clock PASS m3 e) as [m4|ex] eqn:Ic; [|inversion E].
        apply (incr_clock_spec (tc := g_tc g)) in Ic. destruct Ic as [F4 T4]. rewrite (quiet_at _ _ _ Q3) in T4.
        assert (F34 : frame (tc := g_tc g) e m2 m4) by (eapply frame_trans; [apply Q3|auto]).
        apply (IH m4 g m' g' s u); auto.
        -- rewrite (frame_queue _ _ _ F34); auto.
        -- eapply every_frame; eauto.
        -- eapply tick_bal; eauto.
        -- eapply tick_clock; eauto.
      * destruct (append_exec m3 e false []) as [[r|ex] m4] eqn:Ap; inversion E; subst.
        apply (append_exec_spec (tc := g_tc g)) in Ap. destruct Ap as [_ A4]. rewrite (quiet_at _ _ _ Q3) in A4.
        destruct (appended_same _ _ _ _ A4) as (A & A' & A''). exists u. split; [|intros []]. constructor; auto.
        -- eapply bal_same; eauto.
        -- unfold the_clock. rewrite A''. exact C2.
    + inversion E.
    + inversion E.
  - inversion E.
Qed.
Lemma resume_rate : forall fuel m g m' g' s u, g_eid g = e -> queue m = q -> every_n_calls b d n m -> 
  (forall s c, g_tc g s = Some c -> keeps_true c) -> paced_at m g u ->
  resume fuel m g = (m', g', OYield s) ->
  (exists u', paced_at m' g' u' /\ (In b s -> u' = 0)) /\ (u < n \/ pass_number m' e = pass_number m e).
Proof.
  intros fuel m g m' g' s u Ge Hq Pm Kt [B Ck Hpc] E. unfold resume in E. rewrite Ge in E. destruct (g_pc g) as [|i ch| |] eqn:Epc; try contradiction.
  - destruct Hpc as (Bd & Li & Hch).
    destruct (incr_clock CSE m e) as [m1|ex] eqn:Ic; [|inversion E].
    assert (Ic' := Ic). apply (incr_clock_spec (tc := g_tc g)) in Ic. destruct Ic as [F1 T1].
    assert (Hq1 : queue m1 = q) by (rewrite (frame_queue _ _ _ F1); auto). rewrite Hq1 in E.
    assert (P1 := every_frame _ _ _ F1 Pm). assert (B1 := tick_bal _ _ _ _ T1 B). assert (C1 := tick_clock _ _ _ T1 Ck).
    destruct (inner m1 g (skipn (S i) q) (S i) ch) as [m3 s' j ch'|m3 ch'|m3 ex|m3] eqn:I; cbv beta zeta iota in E.
    + inversion E; subst m' g' s'. split; [eapply inner_yield_at; eauto|right].
      destruct (inner_yield _ _ _ _ _ _ _ _ _ I) as (ma & mb & mc & lv & L & El & [_ Q] & T & [_ Q'] & Lv & F & Ap & _).
      rewrite ?Ge in *. destruct (appended_same _ _ _ _ Ap) as (_ & _ & C). unfold pass_number, the_clock. rewrite C.
      rewrite (ad_ctx _ _ _ _ _ _ (lv_added _ _ _ _ _ Lv)). destruct (ctx_accepts_other s (m_ctxs mb e)) as (_ & _ & ->). rewrite Q', Q.
      destruct T1 as (k & Kk & Ek). rewrite Ek; simpl. unfold clock_incr in Kk.
      destruct (tree_incr _ _ _); inversion Kk; subst k; simpl. unfold time_incr; simpl. unfold the_clock. destruct (x_clock (m_ctxs m e)) as [k0|]; [destruct (t_abs_enabled (k_time k0)); reflexivity|reflexivity].
    + destruct (inner_end_rate _ _ _ _ _ _ _ Ge P1 B1 Bd Li I) as (Q3 & -> & D).
      unfold pass_tail in E. rewrite Ge in E. destruct (negb ch && negb (g_abs g)) eqn:C.
      { exfalso. apply andb_true_iff in C. destruct C as [D1 D2]. destruct (g_abs g); [discriminate|].
        rewrite (Hch eq_refl) in D1; discriminate. }
      destruct (incr_clock PASS m3 e) as [m4|ex] eqn:Ic; [|inversion E].
      destruct D as [Lu|(m0 & Q0 & T)].
      * apply (incr_clock_spec (tc := g_tc g)) in Ic. destruct Ic as [F4 T4]. rewrite (quiet_at _ _ _ Q3) in T4.
        assert (F34 : frame (tc := g_tc g) e m1 m4) by (eapply frame_trans; [apply Q3|auto]).
        split; [|auto]. apply (outer_rate fuel m4 g m' g' s u); auto.
        -- rewrite (frame_queue _ _ _ F34); auto.
        -- eapply every_frame; eauto.
        -- eapply tick_bal; eauto.
        -- eapply tick_clock; eauto.
      * exfalso. destruct fuel as [|f]; simpl in E; [inversion E|]. rewrite Ge in E.
        destruct (terminated m4 e (g_tc g)) as [[[|]|ex] m5] eqn:T5.
        -- unfold finish in E.
           destruct (if g_skip g then Ok m5 else incr_clock ESU m5 (g_eid g)) as [mm|]; [|inversion E].
           destruct (check_tc mm (g_eid g) (g_tc g) ES) as [[x|] m2]; [|inversion E].
           destruct (x_list (m_ctxs m2 (g_eid g))); inversion E.
        -- refine (terminated_stays m0 g m3 m4 (Ok false) m5 Ge Kt _ T Ic T5 eq_refl). rewrite (quiet_at _ _ _ Q0). exact C1.
        -- inversion E.
    + inversion E.
    + inversion E.
  - destruct (incr_clock CSE m e) as [m1|ex] eqn:Ic; [|inversion E].
    apply (incr_clock_spec (tc := g_tc g)) in Ic. destruct Ic as [F1 T1].
    destruct (incr_clock PASS m1 e) as [m2|ex] eqn:Ic; [|inversion E].
    apply (incr_clock_spec (tc := g_tc g)) in Ic. destruct Ic as [F2 T2].
    assert (F' : frame (tc := g_tc g) e m m2) by (eapply frame_trans; eauto).
    split; [|auto]. apply (outer_rate fuel m2 g m' g' s u); auto.
    + rewrite (frame_queue _ _ _ F'); auto.
    + eapply every_frame; eauto.
    + eapply tick_bal; eauto. eapply tick_bal; eauto.
    + eapply tick_clock; eauto. eapply tick_clock; eauto.
Qed.
End Rate.

Lemma esu_counts : forall m0 g0 ts m g, running_in_passes m0 g0 ts m g -> g_pc g0 = PStart -> ts <> [] ->
  exists t, x_total (m_ctxs m (g_eid g0)) = Some t /\ forall x, t ESU x = occurrences x (map snd ts).
Proof.
  intros m0 g0 ts m g R Hp Ne.
  destruct (passes_history _ _ _ _ _ R Hp) as [(-> & _)|(g1 & m1 & ps & ph & St & Et)]; [congruence|].
  destruct (rs_started _ _ _ _ _ _ _ _ _ St) as (ms & U & S).
  destruct (start_spec _ _ _ _ S) as (_ & _ & [(t & _ & Q) _ _ _ _] & _).
  destruct (hist_total _ _ _ _ _ _ t (rs_hist _ _ _ _ _ _ _ _ _ St) Q) as (t' & X & P).
  exists t'; split; auto. intros x. destruct (P x) as (_ & _ & C & _). rewrite (rs_yields _ _ _ _ _ _ _ _ _ St). auto.
Qed.
Lemma rwp_passes : forall P m0 g0 ts m g, running_while_in_passes P m0 g0 ts m g -> running_in_passes m0 g0 ts m g /\ P m.
Proof.
  intros P m0 g0 ts m g H; induction H.
  - split; auto. constructor.
  - split; auto. eapply rp_env; eauto. apply IHrunning_while_in_passes.
  - split; auto. eapply rp_yields; eauto. apply IHrunning_while_in_passes.
Qed.
Lemma before_pass_all : forall k ts, (forall a, In a ts -> fst a < k) -> before_pass k ts = map snd ts.
Proof.
  intros k ts H. unfold before_pass. f_equal. induction ts as [|a ts IH]; simpl; auto.
  rewrite (proj2 (Nat.ltb_lt _ _)) by (apply H; left; auto). f_equal. apply IH. intros; apply H; right; auto.
Qed.
Lemma before_pass_snoc : forall k ts j s, k <= j -> before_pass k (ts ++ [(j, s)]) = before_pass k ts.
Proof. intros k ts j s H. unfold before_pass. rewrite filter_app; simpl. rewrite (proj2 (Nat.ltb_ge _ _)) by auto. rewrite app_nil_r; auto. Qed.

(** what is known about a suspended run *)
Definition rate_state (m0 : core) (g0 : gen) (b d : node) (n i j : nat) (ts : list (nat * list node)) (m : core) (g : gen) : Prop :=
  (ts = [] /\ g = g0 /\ undisturbed (g_eid g0) m0 m) \/
  (ts <> [] /\ g_eid g = g_eid g0 /\ (forall s c, g_tc g s = Some c -> keeps_true c) /\ static m0 m /\
   exists u, paced_at (g_eid g0) b d n (queue m0) i j m g u /\ (forall k s ts', ts = ts' ++ [(k, s)] -> In b s -> u = 0)).
Theorem rate : forall m0 g0 ts m g b d n i j ld lb h0, running_while_in_passes (paced g0 b d n) m0 g0 ts m g -> g_pc g0 = PStart ->
  queue_built m0 -> nth_error (queue m0) i = Some ld -> In d ld -> nth_error (queue m0) j = Some lb -> In b lb -> i <= j ->
  d <> b -> 1 <= n -> clock_after ESU h0 (the_clock (m_ctxs m0 (g_eid g0))) ->
  rate_state m0 g0 b d n i j ts m g /\
  forall k, k <= pass_number m (g_eid g0) -> occurrences b (before_pass k ts) = occurrences d (before_pass k ts) / n.
Proof.
  intros m0 g0 ts m g b d n i j ld lb h0 R Hp Qb Hi Id Hj Ib Le Ndb Hn Ck.
  assert (Ud : forall a lv, nth_error (queue m0) a = Some lv -> In d lv -> a = i) by (intros; eapply queue_index_unique; eauto).
  assert (Ub : forall a lv, nth_error (queue m0) a = Some lv -> In b lv -> a = j) by (intros; eapply queue_index_unique; eauto).
  assert (Hb : exists lb, nth_error (queue m0) j = Some lb /\ In b lb) by eauto.
  induction R as [Pm|ts m g m' R IH U Pm|ts m g fuel m' g' s R IH E Pm].
  - split; [left; splits; apply undisturbed_refl|]. intros k _. simpl. unfold occurrences; simpl. rewrite Nat.div_0_l; auto; lia.
  - destruct IH as (IH & K). split.
    + destruct IH as [(-> & -> & U0)|(Ne & Ee & Kt & St & u & [B C P] & Z)].
      * left; splits. eapply undisturbed_trans; eauto.
      * right; splits.
        -- eapply static_trans; [eauto|eapply static_undisturbed; eauto].
        -- exists u. split; auto. constructor; rewrite ?(ud_ctx _ _ _ U); auto.
    + rewrite (undisturbed_pass _ _ _ U). auto.
  - destruct (rwp_passes _ _ _ _ _ _ R) as (Rp & Pm0).
    assert (Rp' : running_in_passes m0 g0 (ts ++ [(pass_number m' (g_eid g0), s)]) m' g') by (eapply rp_yields; eauto).
    destruct IH as (IH & K).
    assert (G : g_eid g' = g_eid g0 /\ static m0 m' /\ (forall s c, g_tc g' s = Some c -> keeps_true c) /\
                exists u', paced_at (g_eid g0) b d n (queue m0) i j m' g' u' /\ (In b s -> u' = 0)).
    { destruct IH as [(-> & -> & U)|(Ne & Ee & Kt & St & u & Pa & Z)].
      - destruct (run_first _ _ _ _ _ _ _ Hp U E) as (g1 & m1 & ps & ph & S & Rs & Y & _).
        destruct (start_spec _ _ _ _ S) as (Sst & _ & Sc & Ge & _ & _ & Gt).
        assert (Gg : g' = at_pc g1 (g_pc g')) by (apply (rs_gen _ _ _ _ _ _ _ _ _ Rs)).
        assert (F : frame (tc := g_tc g1) (g_eid g1) m1 m') by (inversion Y; subst; auto).
        assert (P1 : every_n_calls b d n m1).
        { destruct Pm as [(o & A & B) _]. exists o. rewrite <- (fr_basic _ _ _ F), <- (fr_owners _ _ _ F). auto. }
        assert (Q1 : queue m1 = queue m0).
        { rewrite (static_queue _ _ Sst). apply static_queue. eapply static_undisturbed; eauto. }
        split; [rewrite Gg; simpl; auto|]. split; [apply (rs_static _ _ _ _ _ _ _ _ _ Rs)|]. split.
        { rewrite Gg; simpl. rewrite Gt. destruct Pm0 as [_ T]. exact T. }
        unfold resume in E. rewrite Hp, S in E.
        apply (outer_rate (g_eid g0) b d n (queue m0) i j Hn Ndb Le Hb Ud Ub fuel m1 g1 m' g' s 0); auto.
        + destruct Sc as [(t & _ & Q) Su _ _ _]. exists (reset_total ESU t), zero_use. splits. unfold reset_total; simpl. lia.
        + exists h0. apply (started_clock m0 g0 g1 m1 h0); auto. exists m; auto.
      - destruct (passes_history _ _ _ _ _ Rp Hp) as [(-> & _)|(g1 & m1 & ps & ph & St1 & _)]; [congruence|].
        destruct (run_next _ _ _ _ _ _ _ _ _ _ _ _ _ St1 E) as (ps' & ph' & St2 & _ & _).
        assert (Gs : g_eid g' = g_eid g /\ g_tc g' = g_tc g).
        { rewrite (rs_gen _ _ _ _ _ _ _ _ _ St1), (rs_gen _ _ _ _ _ _ _ _ _ St2). simpl; auto. }
        destruct Gs as [Ge Gt]. split; [congruence|]. split; [apply (rs_static _ _ _ _ _ _ _ _ _ St2)|]. split; [rewrite Gt; auto|].
        destruct Pm0 as [P0 _].
        apply (resume_rate (g_eid g0) b d n (queue m0) i j Hn Ndb Le Hb Ud Ub fuel m g m' g' s u); auto.
        apply static_queue; auto. }
    destruct G as (Ge & St' & Kt' & u' & Pa' & Z'). split.
    + right. splits; [destruct ts; discriminate|]. exists u'. split; auto.
      intros k s0 ts' Et. apply app_inj_tail in Et. destruct Et as [_ Et]. inversion Et; subst; auto.
    + intros k Lk. rewrite before_pass_snoc by auto. destruct (Nat.le_gt_cases k (pass_number m (g_eid g0))) as [L|L]; [auto|].
      rewrite before_pass_all.
      2: { intros [a sa] Ia. apply In_nth_error in Ia. destruct Ia as (x & Ex).
           pose proof (passes_numbered _ _ _ _ _ _ _ _ Rp Hp Ex). simpl. lia. }
      destruct IH as [(-> & _)|(Ne & Ee & Kt & St & u & Pa & Z)].
      { unfold occurrences; simpl. rewrite Nat.div_0_l; auto; lia. }
      destruct Pm0 as [P0 _].
      destruct (resume_rate (g_eid g0) b d n (queue m0) i j Hn Ndb Le Hb Ud Ub fuel m g m' g' s u Ee (static_queue _ _ St) P0 Kt Pa E) as (_ & [Lu|X]); [|lia].
      destruct (esu_counts _ _ _ _ _ Rp Hp Ne) as (t & Et & Ht). destruct (pa_bal _ _ _ _ _ _ _ _ _ _ Pa) as (t' & f & Et' & _ & Bt & _).
      assert (t' = t) by congruence. subst t'. rewrite !Ht in Bt. rewrite Bt.
      apply (Nat.div_unique _ _ _ u); [exact Lu|reflexivity].
Qed.

Theorem rate_bounds : forall m0 g0 ts m g b d n h0, running_while_in_passes (paced g0 b d n) m0 g0 ts m g -> g_pc g0 = PStart ->
  queue_built m0 -> not_later (queue m0) d b -> d <> b -> 1 <= n -> clock_after ESU h0 (the_clock (m_ctxs m0 (g_eid g0))) ->
  (forall k, k <= pass_number m (g_eid g0) -> occurrences b (before_pass k ts) = occurrences d (before_pass k ts) / n) /\
  n * occurrences b (map snd ts) <= occurrences d (map snd ts) <= n * occurrences b (map snd ts) + n /\
  (forall k s ts', ts = ts' ++ [(k, s)] -> In b s -> occurrences d (map snd ts) = n * occurrences b (map snd ts)).
Proof.
  intros m0 g0 ts m g b d n h0 R Hp Qb (i & j & ld & lb & Hi & Id & Hj & Ib & Le) Ndb Hn Ck.
  destruct (rate _ _ _ _ _ _ _ _ _ _ _ _ _ R Hp Qb Hi Id Hj Ib Le Ndb Hn Ck) as (S & K). split; [exact K|].
  destruct S as [(-> & _)|(Ne & _ & _ & _ & u & Pa & Z)].
  - unfold occurrences; simpl. split; [lia|]. intros k s ts' X. destruct ts'; discriminate.
  - destruct (rwp_passes _ _ _ _ _ _ R) as (Rp & _).
    destruct (esu_counts _ _ _ _ _ Rp Hp Ne) as (t & Et & Ht). destruct (pa_bal _ _ _ _ _ _ _ _ _ _ Pa) as (t' & f & Et' & _ & Bt & _).
    assert (t' = t) by congruence. subst t'. rewrite !Ht in Bt. rewrite Bt.
    assert (Lu : u <= n).
    { pose proof (pa_pc _ _ _ _ _ _ _ _ _ _ Pa) as P. destruct (g_pc g); try contradiction; [|lia]. destruct P as (P & _). exact (bound_le b d n i j Hn Ndb Le _ _ P). }
    split; [lia|]. intros k s ts' X I. rewrite (Z _ _ _ X I). lia.
Qed.

(** ** Conditions that keep their truth over the end of a pass *)
Lemma settles_keeps : forall c, settles c -> keeps_true c.
Proof. intros c H v e ow st st' h k Hh Hk S. destruct (H _ _ _ _ st' _ _ _ Hh Hk S) as (b & E & T). rewrite E, T; auto. Qed.
(** conditions that look at neither the clock nor the outside world *)
Lemma settles_counts : forall o a, match a with
  | AAlways | ANever | ACalls _ _ _ _ | ACallsCombined _ _ _ | AEveryNCalls _ _ | AJustRan _ | AAllHaveRun _ _ => True
  | _ => False end -> settles (CAtom o a).
Proof.
  intros o a Ha v e ow st st' h k b Hh Hk S. exists b. split; [|auto].
  assert (C : forall ds s acc, sum_calls (with_clock v k) s ds acc = sum_calls v s ds acc).
  { induction ds as [|d ds IH]; intros s acc; simpl; auto. change (count_total (with_clock v k) s d) with (count_total v s d).
    destruct (count_total v s d); simpl; auto. }
  assert (A : forall ds s, all_have_run (with_clock v k) s ds = all_have_run v s ds).
  { induction ds as [|d ds IH]; intros s; simpl; auto. change (count_total (with_clock v k) s d) with (count_total v s d).
    destruct (count_total v s d) as [x|]; auto. destruct (Nat.ltb x 1); auto. }
  unfold is_satisfied in *. destruct a; try contradiction; simpl in *; rewrite ?C, ?A; exact S.
Qed.
Lemma settles_time : forall o c q n s, (c = Gt \/ c = Ge) -> ts_lt q s -> ts_le ESU s -> settles (CAtom o (ATime c q n s)).
Proof.
  intros o c q n s Hc Lq Ls v e ow st st' h k b Hh Hk S.
  unfold is_satisfied in *; simpl in *.
  destruct (since_at_least_exists s h) as (h2 & H2).
  assert (Hh' : clock_after ESU (h ++ [PASS]) k) by (eapply ca_incr; eauto).
  assert (H2' : since_at_least s (h ++ [PASS]) (h2 ++ [PASS])).
  { destruct H2 as [F D]. split; [apply Forall_app; split; auto; constructor; auto; unfold ts_lt, ts_le in *; simpl in *; lia|].
    destruct D as [->|(h1 & x & -> & Lx)]; [left; auto|right; exists h1, x; split; auto]. rewrite <- app_assoc; auto. }
  rewrite (total_relative _ _ _ _ _ _ Hh Lq Ls H2) in S. rewrite (total_relative _ _ _ _ _ _ Hh' Lq Ls H2').
  simpl in *. eexists; split; [reflexivity|]. injection S as S. intros ->.
  assert (L : count q h2 <= count q (h2 ++ [PASS])) by (unfold count; rewrite filter_app, app_length; lia).
  destruct Hc as [-> | ->]; simpl in *.
  - apply Nat.ltb_lt in S. apply Nat.ltb_lt. lia.
  - apply Nat.leb_le in S. apply Nat.leb_le. lia.
Qed.
Lemma keeps_all : forall o cs, (forall c, In c cs -> keeps_true c) -> keeps_true (CAll o cs).
Proof.
  intros o cs H v e ow st st' h k Hh Hk S. unfold is_satisfied in *. simpl in *.
  revert st st' S. induction cs as [|c cs IH]; intros st st' S; [auto|].
  destruct (eval v e ow c st) as [[[|]|] s1] eqn:E; simpl in S; try discriminate.
  assert (E' := H c (or_introl eq_refl) v e ow st st' h k Hh Hk). unfold is_satisfied in E'. rewrite E in E'. specialize (E' eq_refl).
  destruct (eval (with_clock v k) e ow c st') as [r s2]. simpl in E'. subst r.
  apply (IH (fun c' I => H c' (or_intror I)) s1 s2 S).
Qed.
Lemma settles_any : forall o cs, (forall c, In c cs -> settles c) -> settles (CAny o cs).
Proof.
  intros o cs H v e ow st st' h k b Hh Hk S. unfold is_satisfied in *. simpl in *.
  revert st st' S. induction cs as [|c cs IH]; intros st st' S; [injection S as <-; exists false; simpl; auto|].
  destruct (eval v e ow c st) as [[[|]|] s1] eqn:E; simpl in S; try discriminate.
  - injection S as <-.
    destruct (H c (or_introl eq_refl) v e ow st st' h k true Hh Hk) as (b' & E' & T); [unfold is_satisfied; rewrite E; auto|].
    unfold is_satisfied in E'. destruct (eval (with_clock v k) e ow c st') as [r s2]. simpl in E'. subst r. rewrite (T eq_refl). exists true; auto.
  - destruct (H c (or_introl eq_refl) v e ow st st' h k false Hh Hk) as (b' & E' & T); [unfold is_satisfied; rewrite E; auto|].
    unfold is_satisfied in E'. destruct (eval (with_clock v k) e ow c st') as [r s2]. simpl in E'. subst r.
    destruct b'; [exists true; simpl; auto|]. apply (IH (fun c' I => H c' (or_intror I)) s1 s2 S).
Qed.
Lemma Forall2_nth_l : forall A B (R : A -> B -> Prop) l l', Forall2 R l l' -> forall i a, nth_error l i = Some a ->
  exists b, nth_error l' i = Some b /\ R a b.
Proof. intros A B R l l' H. induction H; intros i a E; destruct i; simpl in *; try discriminate; eauto. inversion E; subst; eauto. Qed.
Lemma sender_not_later : forall m d b, queue_built m -> closed_graph (m_graph m) -> edge (m_graph m) d b -> d <> b -> not_later (queue m) d b.
Proof.
  intros m d b Qb Cl E N. assert (Id := Cl _ _ E). assert (Ib : In b (gkeys (m_graph m))).
  { destruct E as (l & El & _). apply aget_In in El. apply in_map_iff. exists (b, l); auto. }
  unfold queue. destruct (m_exact m).
  - exists 0, 0, (gkeys (m_graph m)), (gkeys (m_graph m)). splits.
  - assert (P : forall x, In x (gkeys (m_graph m)) -> exists i lv, nth_error (m_levels m) i = Some lv /\ In x lv).
    { destruct Qb as (W & q & Eq & F). destruct (toposort_partition_ex _ _ W Eq) as (_ & _ & Pt).
      intros x I. destruct (proj2 (Pt x) (or_introl I)) as (l & Il & Ix). apply In_nth_error in Il. destruct Il as (i & Ei).
      destruct (Forall2_nth_l _ _ _ _ _ F _ _ Ei) as (l' & Ei' & Pm). exists i, l'. split; auto. eapply Permutation_in; eauto. }
    destruct (P d Id) as (i & ld & Ei & Ild). destruct (P b Ib) as (j & lb & Ej & Ilb).
    exists i, j, ld, lb. splits. apply Nat.lt_le_incl. eapply (proj2 (levels_order m i j ld lb d b Qb Ei Ej Ild Ilb)); auto.
Qed.
