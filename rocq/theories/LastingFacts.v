(** Conditions about the whole life of an execution id settle (C90). *)
From Verif Require Import SpecLasting BaseFacts TimeProofs LedgerFacts ForwardFacts CustomFacts IdFacts.
From Verif Require HaltFacts ResumeFrame RunHist PureFacts ChangeFacts SchedThms.
Open Scope nat_scope.
Open Scope list_scope.

Record ever (v v' : view) : Prop := {
  ev_nodes : v_nodes v' = v_nodes v;
  ev_total : exists f f', v_total v = Some f /\ v_total v' = Some f' /\ forall s n, ts_leb ES s = true -> f s n <= f' s n;
  ev_clock : exists h h2, clock_after ESU h (v_clock v) /\ clock_after ESU (h ++ h2) (v_clock v') }.
Lemma no_life_after : forall md h k, clock_after md h k -> no_life h.
Proof.
  intros md h k H. apply clock_after_ok in H. destruct H as [_ _ _ F]. unfold no_life. rewrite <- (rev_involutive h). apply Forall_rev. exact F.
Qed.
Lemma sequences : forall md h k, clock_after md h k -> t_val (k_time k) ES = count ES h.
Proof.
  intros md h k H. eapply time_component; [exact H|]. split; [|auto].
  eapply Forall_impl; [|exact (no_life_after _ _ _ H)]. intros a L. unfold ts_lt, ts_le in *. simpl in *. lia.
Qed.
Lemma life_total : forall h k q b, clock_after ESU h k -> ts_lt q LIFE -> ts_le LIFE b -> clock_total_relative q b k = Ok (count q h).
Proof.
  intros h k q b H L B. assert (b = LIFE) as -> by (destruct b; unfold ts_le in B; simpl in B; try lia; auto).
  eapply total_relative; [exact H|exact L|unfold ts_le; simpl; lia|]. split; [exact (no_life_after _ _ _ H)|auto].
Qed.
Lemma cmp_turns : forall up k a b n, turns up k = true -> a <= b -> cmp_nat k a n = up -> cmp_nat k b n = up.
Proof.
  intros [] [] a b n T L; simpl in *; try discriminate; rewrite ?Nat.ltb_lt, ?Nat.leb_le, ?Nat.ltb_ge, ?Nat.leb_gt; lia.
Qed.
Section Views.
Variables v v' : view.
Hypothesis V : ever v v'.
Lemma ever_count : forall s d, mem d (v_nodes v) = true -> ts_leb ES s = true ->
  exists k k', count_total v s d = Ok k /\ count_total v' s d = Ok k' /\ k <= k'.
Proof.
  intros s d M L. destruct V as [N (f & f' & E & E' & Q) _]. unfold count_total. rewrite E, E', N, M. exists (f s d), (f' s d). auto.
Qed.
Lemma ever_sum : forall s ds, forallb (fun d => mem d (v_nodes v)) ds = true -> ts_leb ES s = true -> forall a a', a <= a' ->
  exists k k', sum_calls v s ds a = Ok k /\ sum_calls v' s ds a' = Ok k' /\ k <= k'.
Proof.
  intros s. induction ds as [|d r IH]; intros M L a a' A; simpl in *; [eauto|]. apply andb_true_iff in M. destruct M as [M Mr].
  destruct (ever_count s d M L) as (k & k' & -> & -> & G). simpl. apply IH; auto. lia.
Qed.
Lemma ever_have_run : forall s ds, forallb (fun d => mem d (v_nodes v)) ds = true -> ts_leb ES s = true ->
  exists b b', all_have_run v s ds = Ok b /\ all_have_run v' s ds = Ok b' /\ (b = true -> b' = true).
Proof.
  intros s. induction ds as [|d r IH]; intros M L; simpl in *; [eauto 6|]. apply andb_true_iff in M. destruct M as [M Mr].
  destruct (ever_count s d M L) as (k & k' & -> & -> & G). destruct (IH Mr L) as (b & b' & E & E' & B).
  destruct (Nat.ltb_spec k 1); [destruct (Nat.ltb_spec k' 1); [eauto 6|exists false, b'; intuition congruence]|].
  destruct (Nat.ltb_spec k' 1); [lia|eauto 6].
Qed.
Definition settled (up : bool) (c : cond) : Prop :=
  exists b b', (forall e ow st, eval v e ow c st = (Ok b, st)) /\ (forall e ow st, eval v' e ow c st = (Ok b', st)) /\ (b = up -> b' = up).
Lemma settled_atom : forall up a, settles (v_nodes v) up (CAtom 0 a) = true ->
  exists b b', (forall e own w, eval_atom v e own a w = (Ok b, w)) /\ (forall e own w, eval_atom v' e own a w = (Ok b', w)) /\ (b = up -> b' = up).
Proof.
  intros up a H. destruct a; cbn [settles] in H; try discriminate; cbn [eval_atom].
  - exists true, true. auto.
  - exists false, false. auto.
  - apply andb_true_iff in H. destruct H as [H Lb]. apply andb_true_iff in H. destruct H as [K Lq].
    apply ts_ltb_lt in Lq. unfold ts_leb in Lb. apply Nat.leb_le in Lb. destruct V as [_ _ (h & h2 & C & C')].
    rewrite (life_total _ _ _ _ C Lq Lb), (life_total _ _ _ _ C' Lq Lb). simpl. do 2 eexists. split; [reflexivity|]. split; [reflexivity|].
    intros E. eapply cmp_turns; [exact K| |exact E]. rewrite HaltFacts.count_app. lia.
  - destruct V as [_ _ (h & h2 & C & C')]. rewrite (sequences _ _ _ C), (sequences _ _ _ C'). do 2 eexists. split; [reflexivity|]. split; [reflexivity|].
    intros E. eapply cmp_turns; [exact H| |exact E]. rewrite HaltFacts.count_app. lia.
  - apply andb_true_iff in H. destruct H as [H Lb]. apply andb_true_iff in H. destruct H as [K M].
    destruct (ever_count s d M Lb) as (k & k' & -> & -> & G). simpl. do 2 eexists. split; [reflexivity|]. split; [reflexivity|].
    intros E. eapply cmp_turns; [exact K|exact G|exact E].
  - destruct n as [n|]; [|discriminate]. apply andb_true_iff in H. destruct H as [H Lb]. apply andb_true_iff in H. destruct H as [-> M].
    destruct (ever_sum s ds M Lb 0 0 (le_n _)) as (k & k' & -> & -> & G). simpl. do 2 eexists. split; [reflexivity|]. split; [reflexivity|].
    rewrite !Nat.leb_le. lia.
  - apply andb_true_iff in H. destruct H as [H Lb]. apply andb_true_iff in H. destruct H as [-> M].
    assert (D : deps_or_nodes v' ds = deps_or_nodes v ds) by (destruct V; destruct ds; simpl; auto).
    assert (M' : forallb (fun d => mem d (v_nodes v)) (deps_or_nodes v ds) = true) by (destruct ds; simpl; auto; apply HaltFacts.forallb_self).
    rewrite D. destruct (ever_have_run s _ M' Lb) as (b & b' & -> & -> & B). eauto 6.
Qed.
Theorem all_settled : forall c up, settles (v_nodes v) up c = true -> settled up c.
Proof.
  induction c as [o a|o cs IH|o cs IH|o c IH|o c n IH] using cond_ind'; intros up H.
  - destruct (settled_atom up a H) as (b & b' & A & A' & B). exists b, b'. split; [|split; [|exact B]]; intros e ow st; simpl; rewrite ?A, ?A'; destruct st; auto.
  - unfold settled. simpl in *. induction IH as [|x r Hx Hr I2]; [exists true, true; auto|]. simpl in H. apply andb_true_iff in H. destruct H as [Px Pr].
    destruct (Hx up Px) as (b & b' & A & A' & B). destruct (I2 Pr) as (b2 & b2' & A2 & A2' & B2).
    exists (b && b2), (b' && b2'). split; [|split].
    + intros e ow st. rewrite A. destruct b; simpl; auto. 
    + intros e ow st. rewrite A'. destruct b'; simpl; auto.
    + destruct up, b, b2, b', b2'; simpl in *; intuition congruence.
  - unfold settled. simpl in *. induction IH as [|x r Hx Hr I2]; [exists false, false; auto|]. simpl in H. apply andb_true_iff in H. destruct H as [Px Pr].
    destruct (Hx up Px) as (b & b' & A & A' & B). destruct (I2 Pr) as (b2 & b2' & A2 & A2' & B2).
    exists (b || b2), (b' || b2'). split; [|split].
    + intros e ow st. rewrite A. destruct b; simpl; auto. 
    + intros e ow st. rewrite A'. destruct b'; simpl; auto.
    + destruct up, b, b2, b', b2'; simpl in *; intuition congruence.
  - simpl in H. destruct (IH (negb up) H) as (b & b' & A & A' & B). exists (negb b), (negb b'). split; [|split].
    + intros e ow st. simpl. rewrite A. auto.
    + intros e ow st. simpl. rewrite A'. auto.
    + destruct up, b, b'; simpl in *; intuition congruence.
  - discriminate.
Qed.
End Views.

Lemma start_nodes : forall m g r m', start m g = (Ok r, m') -> m_nodes m' = m_nodes m.
Proof. intros m g r m' H. apply RunHist.start_spec in H. destruct H as (S & _). apply S. Qed.

Section Session.
Variable cyc : graph -> list (list node).
Variable arr : list (list node) -> list (list node).
Lemma after_nodes : forall k d, d_nodes (after cyc arr k d) = d_nodes d.
Proof.
  intros k d. destruct k as [[w a|s|a|w]| |t|f g|e]; simpl.
  - unfold add_condition. destruct (cs_add w a (d_cs d) (d_owners d)) as [[cs ow]|]; [|reflexivity]. apply (sync_nodes cyc arr (set_cs d cs ow)).
  - unfold add_condition_set. destruct (cs_add_set s (d_cs d) (d_owners d)) as [[[u'|] cs] ow]; [|reflexivity]. apply (sync_nodes cyc arr (set_cs d cs ow)).
  - unfold remove_condition. destruct (cs_remove_cond a (d_cs d) (d_owners d)) as [[[u|] cs] ow]; reflexivity.
  - unfold remove_condition_owner. destruct (cs_remove_owner w (d_cs d) (d_owners d)) as [[[u|] cs] ow]; reflexivity.
  - unfold get_graph. pose proof (sync_nodes cyc arr d) as E. destruct (sync cyc arr d) as [[u|] d1]; exact E.
  - unfold set_termination_conds. destruct t; reflexivity.
  - apply sresume_nodes.
  - unfold send_environment_sequence. destruct (end_environment_sequence (core_of d) e); reflexivity.
Qed.
Theorem session_nodes : forall ks d, d_nodes (after_all cyc arr ks d) = d_nodes d.
Proof. induction ks as [|k r IH]; intros d; [reflexivity|]. simpl. fold (after_all cyc arr r (after cyc arr k d)). rewrite IH. apply after_nodes. Qed.
Lemma session_ever : forall e ks d l t h, recorded (d_ctxs d e) l t -> clock_after ESU h (the_clock (d_ctxs d e)) ->
  stamped (d_ctxs d e) \/ timeless cyc arr e ks d -> ever (view_of (core_of d) e) (view_of (core_of (after_all cyc arr ks d)) e).
Proof.
  intros e ks d l t h R C U. destruct (session_books cyc arr e ks d l t R U) as (t' & [_ R'] & Q). destruct R as [_ R].
  destruct (session_history cyc arr e ks d h C) as (h2 & C'). constructor.
  - apply session_nodes.
  - exists t, t'. split; [exact R|]. split; [exact R'|]. intros s n L. specialize (Q s n L). lia.
  - exists h, h2. split; [exact C|exact C'].
Qed.
Theorem session_lasting : forall e ks d l t h up c, recorded (d_ctxs d e) l t -> clock_after ESU h (the_clock (d_ctxs d e)) ->
  stamped (d_ctxs d e) \/ timeless cyc arr e ks d -> settles (d_nodes d) up c = true ->
  says d e c = Ok up -> says (after_all cyc arr ks d) e c = Ok up.
Proof.
  intros e ks d l t h up c R C U S H. destruct (all_settled _ _ (session_ever e ks d l t h R C U) c up S) as (b & b' & A & A' & B).
  unfold says, is_satisfied in *. rewrite A in H. rewrite A'. simpl in *. injection H as H. f_equal. auto.
Qed.
(** ... and it always has an answer *)
Theorem session_answers : forall e ks d l t h up c, recorded (d_ctxs d e) l t -> clock_after ESU h (the_clock (d_ctxs d e)) ->
  stamped (d_ctxs d e) \/ timeless cyc arr e ks d -> settles (d_nodes d) up c = true ->
  exists b, says (after_all cyc arr ks d) e c = Ok b.
Proof.
  intros e ks d l t h up c R C U S. destruct (all_settled _ _ (session_ever e ks d l t h R C U) c up S) as (b & b' & A & A' & B).
  exists b'. unfold says, is_satisfied. rewrite A'. auto.
Qed.
Lemma after_all_app : forall ks ks2 d, after_all cyc arr (ks ++ ks2) d = after_all cyc arr ks2 (after_all cyc arr ks d).
Proof. intros. unfold after_all. apply fold_left_app. Qed.
Theorem own_lasting : forall input conds tc e exact du ow nx w r d ks ks2 up c,
  new_sched cyc arr input conds tc e exact du ow nx w = (r, d) -> settles (d_nodes d) up c = true ->
  says (after_all cyc arr ks d) e c = Ok up -> says (after_all cyc arr (ks ++ ks2) d) e c = Ok up.
Proof.
  intros input conds tc e exact du ow nx w r d ks ks2 up c H S Q.
  assert (X : d_ctxs d e = fresh_ctx) by (rewrite (new_sched_ctxs _ _ _ _ _ _ _ _ _ _ _ _ _ H), upd_same; auto).
  assert (R : recorded (d_ctxs d e) [] zero_total) by (rewrite X; split; reflexivity).
  assert (U : stamped (d_ctxs d e)) by (rewrite X; discriminate).
  assert (C : clock_after ESU [] (the_clock (d_ctxs d e))) by (rewrite X; apply ca_new; reflexivity).
  destruct (session_books cyc arr e ks d _ _ R (or_introl U)) as (t' & R' & _). destruct (session_history cyc arr e ks d _ C) as (h2 & C').
  rewrite after_all_app. eapply session_lasting; [exact R'|exact C'| |rewrite session_nodes; exact S|exact Q].
  left. exact (proj1 (session_stamped cyc arr e ks d _ _ R (or_introl U)) U).
Qed.
(** TimeTermination *)
Theorem session_time_over : forall e ks d o t incl, units_sound cyc arr e ks d -> (0 <= t_interval (time_of d e))%Q ->
  says d e (CAtom o (ATimeTermination t incl)) = Ok true -> says (after_all cyc arr ks d) e (CAtom o (ATimeTermination t incl)) = Ok true.
Proof.
  intros e ks d o t incl U N H. pose proof (session_absolute cyc arr e ks d U N) as A. unfold abs_not_later, time_of in A.
  unfold says, is_satisfied in *. simpl in *. injection H as H. f_equal.
  change (v_clock (view_of (core_of d) e)) with (the_clock (d_ctxs d e)) in *.
  change (v_clock (view_of (core_of (after_all cyc arr ks d)) e)) with (the_clock (d_ctxs (after_all cyc arr ks d) e)) in *.
  destruct incl.
  - apply Qle_bool_iff in H. apply Qle_bool_iff. eapply Qle_trans; eauto.
  - unfold Qltb in *. apply negb_true_iff in H. apply negb_true_iff. destruct (Qle_bool (t_abs (k_time (the_clock (d_ctxs (after_all cyc arr ks d) e)))) (q_val t)) eqn:E; auto.
    apply Qle_bool_iff in E. rewrite <- H. symmetry. apply Qle_bool_iff. eapply Qle_trans; eauto.
Qed.
(** a run whose condition of the environment sequence has settled yields nothing *)
Lemma check_settled : forall m e tc s b c, tc s = Some c -> (forall ow st, eval (view_of m e) e ow c st = (Ok b, st)) -> fst (check_tc m e tc s) = Ok b.
Proof. intros m e tc s b c E A. unfold check_tc. rewrite E. unfold satisfied. rewrite A. auto. Qed.
Lemma terminated_settled : forall m e tc c, tc ES = Some c -> (forall ow st, eval (view_of m e) e ow c st = (Ok true, st)) -> fst (terminated m e tc) <> Ok false.
Proof.
  intros m e tc c E A. unfold terminated. destruct (check_tc m e tc ESU) as [[[]|ex] m'] eqn:T; simpl; try discriminate.
  assert (V : view_of m' e = view_of m e).
  { unfold check_tc in T. destruct (tc ESU) as [c'|]; [|discriminate]. unfold satisfied in T. destruct (eval (view_of m e) e (m_owners m) c' (m_cst m)) as [r st].
    injection T as _ <-. reflexivity. }
  rewrite <- V in A. rewrite (check_settled _ _ _ _ _ _ E A). discriminate.
Qed.
Lemma finish_none : forall m g s, snd (finish m g) <> OYield s.
Proof.
  intros m g s. destruct (finish m g) as [[m3 g3] o] eqn:F. unfold finish in F.
  repeat match type of F with context [match ?x with _ => _ end] => destruct x; try (injection F as _ _ <-; simpl; discriminate) end.
Qed.
(** in m and in every later state of the run that is considered the condition says true *)
Definition over (m : core) (e : eid) (c : cond) : Prop :=
  settles (m_nodes m) true c = true /\ (exists l t, recorded (m_ctxs m e) l t) /\ (exists h, clock_after ESU h (the_clock (m_ctxs m e))) /\
  forall ow st, eval (view_of m e) e ow c st = (Ok true, st).
Lemma over_later : forall m m' e c, over m e c -> m_nodes m' = m_nodes m -> goes any_unit (m_ctxs m e) (m_ctxs m' e) ->
  booked [] [] (m_ctxs m e) (m_ctxs m' e) -> over m' e c.
Proof.
  intros m m' e c (S & (l & t & R) & (h & C) & A) N G (_ & t0 & t1 & l0 & R0 & R1 & Q).
  destruct (goes_history any_unit _ _ _ G C) as (h2 & C'). split; [rewrite N; auto|]. split; [eauto|]. split; [eauto|].
  assert (V : ever (view_of m e) (view_of m' e)).
  { constructor; [exact N| |exists h, h2; auto]. exists t0, t1. split; [apply R0|]. split; [apply R1|]. intros s' n L. rewrite (Q s' n L). lia. }
  destruct (all_settled _ _ V c true S) as (b & b' & B & B' & T). intros ow st. rewrite B'. f_equal. f_equal. apply T.
  specialize (A ow st). rewrite B in A. injection A as ->. auto.
Qed.
Lemma over_cst : forall m st e c, over m e c -> over (set_cst m st) e c.
Proof. intros m st e c O. exact O. Qed.
Lemma over_incr : forall s m e m' c, incr_clock s m e = Ok m' -> over m e c -> over m' e c.
Proof.
  intros s m e m' c I O. eapply over_later; [exact O| |eapply goes_incr; eauto|].
  - exact (ResumeFrame.fx_nodes _ _ _ (ResumeFrame.fixed_incr _ _ _ _ I)).
  - eapply booked_incr; eauto. destruct O as (_ & (l & t & R) & _). exists l, t. auto.
Qed.
Lemma over_terminated : forall m e tc c r m', tc ES = Some c -> over m e c -> terminated m e tc = (r, m') -> r <> Ok false /\ over m' e c.
Proof.
  intros m e tc c r m' E O T. pose proof (terminated_settled m e tc c E) as N. rewrite T in N. split; [apply N; destruct O as (_ & _ & _ & A); exact A|].
  assert (X : exists st, m' = set_cst m st).
  { unfold terminated, check_tc, satisfied in T. rewrite E in T. destruct (tc ESU) as [c'|]; [|injection T as _ <-; exists (m_cst m); destruct m; auto].
    destruct (eval _ _ _ _ _) as [[[]|] st]; try (injection T as _ <-; eauto). change (view_of (set_cst m st) e) with (view_of m e) in T.
    destruct O as (_ & _ & _ & A). rewrite A in T. injection T as _ <-. eexists. unfold set_cst; simpl. reflexivity. }
  destruct X as (st & ->). apply over_cst; auto.
Qed.
Lemma outer_over : forall fuel m g c s, g_tc g ES = Some c -> over m (g_eid g) c -> snd (outer fuel m g) <> OYield s.
Proof.
  intros [|f] m g c s E O; [discriminate|]. cbn [outer]. destruct (terminated m (g_eid g) (g_tc g)) as [r m1] eqn:T.
  destruct (over_terminated _ _ _ _ _ _ E O T) as [N _]. destruct r as [[]|]; [apply finish_none|congruence|discriminate].
Qed.
Lemma resume_over : forall fuel m g c s, as_left g -> the_tc m g ES = Some c -> over m (g_eid g) c -> snd (resume fuel m g) <> OYield s.
Proof.
  intros fuel m g c s P E O. unfold resume, as_left, the_tc in *. destruct (g_pc g) as [|i ch| |] eqn:Pc.
  - destruct (start m g) as [[g1|ex] m1] eqn:St; [|discriminate]. pose proof (RunHist.start_spec _ _ _ _ St) as (_ & _ & _ & Ee & _). pose proof (PureFacts.start_tc _ _ _ _ St) as Et.
    eapply outer_over; [rewrite Et; exact E|]. rewrite Ee. eapply over_later; [exact O|exact (start_nodes _ _ _ _ St)|exact (start_goes any_unit _ _ _ _ St (fun _ _ _ _ _ _ _ => I))|].
    eapply start_books; [exact St|]. destruct O as (_ & (l & t & R) & _). exists l, t. auto.
  - destruct (incr_clock CSE m (g_eid g)) as [m1|] eqn:I1; [|discriminate]. apply (over_incr _ _ _ _ _ I1) in O.
    assert (X : exists m2, inner m1 g (skipn (S i) (queue m1)) (S i) ch = IEnd m2 ch /\ over m2 (g_eid g) c \/ exists ex, inner m1 g (skipn (S i) (queue m1)) (S i) ch = IErr m2 ex).
    { destruct (skipn (S i) (queue m1)) as [|lv r]; cbn [inner]; [exists m1; left; auto|]. destruct (terminated m1 (g_eid g) (g_tc g)) as [r0 m2] eqn:T.
      destruct (over_terminated _ _ _ _ _ _ E O T) as [N O']. exists m2. destruct r0 as [[]|ex]; [left; auto|congruence|right; eauto]. }
    destruct X as (m2 & [(-> & O2)|(ex & ->)]); [|discriminate]. unfold pass_tail.
    assert (Z : negb ch && negb (g_abs g) = false) by (destruct ch, (g_abs g); auto; discriminate). rewrite Z.
    destruct (incr_clock PASS m2 (g_eid g)) as [m3|] eqn:I3; [|discriminate]. eapply outer_over; [exact E|]. eapply over_incr; eauto.
  - destruct (incr_clock CSE m (g_eid g)) as [m1|] eqn:I1; [|discriminate]. apply (over_incr _ _ _ _ _ I1) in O.
    destruct (incr_clock PASS m1 (g_eid g)) as [m2|] eqn:I2; [|discriminate]. apply (over_incr _ _ _ _ _ I2) in O. eapply outer_over; eauto.
  - discriminate.
Qed.
Theorem session_over : forall e ks d l t h c f g s, recorded (d_ctxs d e) l t -> clock_after ESU h (the_clock (d_ctxs d e)) ->
  stamped (d_ctxs d e) \/ timeless cyc arr e ks d -> settles (d_nodes d) true c = true -> says d e c = Ok true ->
  as_left g -> g_eid g = e -> the_tc (core_of (after_all cyc arr ks d)) g ES = Some c ->
  snd (sresume cyc arr f (after_all cyc arr ks d) g) <> OYield s.
Proof.
  intros e ks d l t h c f g s R C U S H P Ge E. subst e.
  assert (O : over (core_of (after_all cyc arr ks d)) (g_eid g) c).
  { destruct (all_settled _ _ (session_ever (g_eid g) ks d l t h R C U) c true S) as (b & b' & A & A' & B).
    destruct (session_books cyc arr (g_eid g) ks d l t R U) as (t' & R' & _). destruct (session_history cyc arr (g_eid g) ks d h C) as (h2 & C').
    split; [simpl; rewrite session_nodes; auto|]. split; [eexists; eexists; exact R'|]. split; [eexists; exact C'|].
    unfold says, is_satisfied in H. rewrite A in H. simpl in H. injection H as ->. rewrite (B eq_refl) in A'. auto. }
  clear R C U S H. revert E O. generalize (after_all cyc arr ks d) as d2. intros d2 E O.
  unfold sresume. destruct (sync cyc arr d2) as [[u|ex] d3] eqn:Sy.
  - destruct (resume f (core_of d3) g) as [[m g'] o] eqn:Re. simpl. replace o with (snd (resume f (core_of d3) g)) by (rewrite Re; auto). clear Re.
    destruct (SchedThms.sync_set_stack _ _ _ _ _ Sy) as (st & lst & ->).
    eapply resume_over; [exact P|exact E|]. eapply (over_later (core_of d2)); [exact O|reflexivity|apply goes_eq; reflexivity|].
    apply booked_refl. destruct O as (_ & (l' & t' & R) & _). exists l', t'. exact R.
  - unfold sresume_failed. destruct (g_pc g); try discriminate.
    + destruct (incr_clock CSE (core_of d2) (g_eid g)); discriminate.
    + destruct (incr_clock CSE (core_of d2) (g_eid g)) as [m1|]; [|discriminate]. destruct (incr_clock PASS m1 (g_eid g)) as [m2|]; [|discriminate].
      destruct (terminated m2 (g_eid g) (g_tc g)) as [[[]|] m3]; try discriminate. pose proof (finish_none m3 g s) as N. destruct (finish m3 g) as [[m4 g'] o]. exact N.
Qed.
(** next() leaves every generator so *)
Lemma inner_left : forall rest m g i ch m3 s i' ch', inner m g rest i ch = IYield m3 s i' ch' -> ch' || g_abs g = true.
Proof.
  induction rest as [|lv r IH]; intros m g i ch m3 s i' ch' H; cbn [inner] in H; [discriminate|].
  destruct (terminated m (g_eid g) (g_tc g)) as [[[]|] m1]; try discriminate.
  destruct (do_level _ m1 (g_eid g) lv []) as [[[exec|] m2]|]; try discriminate. destruct (nonempty exec || g_abs g) eqn:N; [|eapply IH; eauto].
  destruct (append_exec m2 (g_eid g) (g_abs g) exec) as [[u|] m4]; [|discriminate]. injection H as _ _ _ <-. rewrite <- orb_assoc, N. apply orb_true_r.
Qed.
Lemma at_left : forall g p, match p with PLevel _ ch => ch || g_abs g = true | _ => True end -> as_left (at_pc g p).
Proof. intros g p H. exact H. Qed.
Lemma finish_left : forall m g, as_left (snd (fst (finish m g))).
Proof.
  intros m g. destruct (finish m g) as [[m3 g3] o] eqn:F. unfold finish in F.
  repeat match type of F with context [match ?x with _ => _ end] => destruct x; try (injection F as _ <- _; apply at_left; exact I) end.
Qed.
Lemma outer_left : forall fuel m g, as_left g -> as_left (snd (fst (outer fuel m g))).
Proof.
  induction fuel as [|f IH]; intros m g G; [exact G|]. cbn [outer]. destruct (terminated m (g_eid g) (g_tc g)) as [[[]|] m1].
  - apply finish_left.
  - destruct (inner _ g _ 0 false) as [m3 s i ch|m3 ch|m3 ex|m3] eqn:N.
    + apply at_left. eapply inner_left; eauto.
    + destruct (pass_tail m3 g ch); [apply at_left; exact I|apply IH; auto|apply at_left; exact I].
    + apply at_left. exact I.
    + exact G.
  - apply at_left. exact I.
Qed.
Theorem sresume_left : forall f d g, as_left g -> as_left (snd (fst (sresume cyc arr f d g))).
Proof.
  intros f d g G. unfold sresume. destruct (sync cyc arr d) as [[u|ex] d1].
  - assert (X : forall m, as_left (snd (fst (resume f m g)))).
    { intros m. unfold resume. destruct (g_pc g) as [|i ch| |] eqn:Pc.
      - destruct (start m g) as [[g1|ex] m1] eqn:St; [|apply at_left; exact I]. apply outer_left.
        apply RunHist.start_spec in St. destruct St as (_ & _ & _ & _ & _ & P1 & _). unfold as_left. rewrite P1. exact I.
      - destruct (incr_clock CSE m (g_eid g)) as [m1|]; [|apply at_left; exact I].
        destruct (inner m1 g (skipn (S i) (queue m1)) (S i) ch) as [m3 s i' ch'|m3 ch'|m3 ex|m3] eqn:N.
        + apply at_left. eapply inner_left; eauto.
        + destruct (pass_tail m3 g ch'); [apply at_left; exact I|apply outer_left; auto|apply at_left; exact I].
        + apply at_left. exact I.
        + exact G.
      - destruct (incr_clock CSE m (g_eid g)) as [m1|]; [|apply at_left; exact I]. destruct (incr_clock PASS m1 (g_eid g)) as [m2|]; [apply outer_left; auto|apply at_left; exact I].
      - exact G. }
    specialize (X (core_of d1)). destruct (resume f (core_of d1) g) as [[m g'] o]. exact X.
  - unfold sresume_failed. destruct (g_pc g) eqn:Pc; simpl; auto; try (apply at_left; exact I).
    + destruct (incr_clock CSE (core_of d) (g_eid g)); apply at_left; exact I.
    + destruct (incr_clock CSE (core_of d) (g_eid g)) as [m1|]; [|apply at_left; exact I]. destruct (incr_clock PASS m1 (g_eid g)) as [m2|]; [|apply at_left; exact I].
      destruct (terminated m2 (g_eid g) (g_tc g)) as [[[]|] m3]; try (apply at_left; exact I). pose proof (finish_left m3 g) as N. destruct (finish m3 g) as [[m4 g'] o]. exact N.
Qed.
End Session.
