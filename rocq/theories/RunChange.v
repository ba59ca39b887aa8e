(** Runs during which graph and conditions change. *)
From Verif Require Import SpecChange RunProps YieldFacts StopFacts ResumeFrame.

Fixpoint merge (a b : list (list node)) : list (list node) :=
  match a, b with
  | [], _ => b
  | _, [] => a
  | x :: a', y :: b' => (x ++ y) :: merge a' b'
  end.
Lemma merge_covers : forall a b, covers (merge a b) a /\ covers (merge a b) b.
Proof.
  induction a as [|x a IH]; intros [|y b]; simpl; split; intros [|i] lv H; simpl in *; try discriminate;
    try (inversion H; subst; eexists; split; [reflexivity|]; auto using incl_refl, incl_appl, incl_appr; fail);
    try (eexists; split; [exact H|]; apply incl_refl).
  - apply (proj1 (IH b) _ _ H).
  - apply (proj2 (IH b) _ _ H).
Qed.
Lemma covers_valid : forall hq q abs p, covers hq q -> valid_pass q abs p -> valid_pass hq abs p.
Proof.
  intros hq q abs p C [A B]. split; auto. intros k s I. destruct (B k s I) as ((lv & E & In0) & N & NE). split; auto.
  destruct (C _ _ E) as (lv' & E' & In'). exists lv'; split; auto. eapply incl_tran; eauto.
Qed.
Lemma covers_hist : forall hq q abs x0 ps ph x, covers hq q -> hist q abs x0 ps ph x -> hist hq abs x0 ps ph x.
Proof. intros hq q abs x0 ps ph x C H. induction H; econstructor; eauto using covers_valid. Qed.

(** ** Prefixes *)
Record change_state (m0 : core) (g0 : gen) (ts : list (nat * list node)) (m : core) (g : gen)
  (ms : core) (g1 : gen) (m1 : core) (hq : list (list node)) (ps : list pass) (ph : phase) : Prop := {
  ct_ctx : m_ctxs ms (g_eid g0) = m_ctxs m0 (g_eid g0);
  ct_start : start ms g0 = (Ok g1, m1);
  ct_gen : g = at_pc g1 (g_pc g);
  ct_eid : g_eid g1 = g_eid g0;
  ct_skip : g_skip g1 = g_skip g0;
  ct_hist : hist hq (g_abs g1) (m_ctxs m1 (g_eid g0)) ps ph (m_ctxs m (g_eid g0));
  ct_tags : ts = all_tagged (g_abs g1) (pass_number m0 (g_eid g0)) ps ph;
  ct_matches : matches (g_abs g1) ph (g_pc g)
}.
Lemma start_started : forall m g g1 m1, start m g = (Ok g1, m1) -> started m g g1 m1.
Proof. intros m g g1 m1 S. exists m; split; auto. apply undisturbed_refl. Qed.
Lemma hist_number : forall hq abs m0 ms g0 g1 m1 ps ph m', m_ctxs ms (g_eid g0) = m_ctxs m0 (g_eid g0) -> start ms g0 = (Ok g1, m1) ->
  hist hq abs (m_ctxs m1 (g_eid g0)) ps ph (m_ctxs m' (g_eid g0)) ->
  pass_number m' (g_eid g0) = pass_number m0 (g_eid g0) + length ps.
Proof.
  intros hq abs m0 ms g0 g1 m1 ps ph m' B S H.
  assert (E : pass_number m1 (g_eid g0) = pass_number m0 (g_eid g0)).
  { rewrite (started_pass _ _ _ _ (start_started _ _ _ _ S)). unfold pass_number. rewrite B; auto. }
  rewrite <- E. apply hist_pass in H. exact H.
Qed.
Lemma change_first : forall m0 g0 m fuel m' g' s, g_pc g0 = PStart -> m_ctxs m (g_eid g0) = m_ctxs m0 (g_eid g0) ->
  resume fuel m g0 = (m', g', OYield s) ->
  exists g1 m1 ps ph, change_state m0 g0 [(pass_number m' (g_eid g0), s)] m' g' m g1 m1 (queue m) ps ph /\
    yielded (queue m) (queue m) g1 (m_ctxs m1 (g_eid g0)) m1 ps m' g' s ph.
Proof.
  intros m0 g0 m fuel m' g' s Hp U H.
  pose proof (resume_start _ _ _ _ _ _ Hp H) as (g1 & m1 & S & ps & ph & Y & E & Et).
  assert (Y' := start_spec _ _ _ _ S). destruct Y' as (St & _ & _ & Ee & Es & _ & _).
  destruct (yielded_matches _ _ _ _ _ _ _ _ _ _ Y) as [Mt Eg].
  exists g1, m1, ps, ph. split; auto.
  assert (Hh := yielded_hist _ _ _ _ _ _ _ _ _ _ (covers_refl _) Y). rewrite Ee in Hh.
  constructor; auto. rewrite Et, (hist_number _ _ _ _ _ _ _ _ _ _ U S Hh). auto.
Qed.
Lemma change_next : forall m0 g0 ts m g ms g1 m1 hq ps ph fuel m' g' s, change_state m0 g0 ts m g ms g1 m1 hq ps ph ->
  resume fuel m g = (m', g', OYield s) ->
  exists hq' ps' ph', covers hq' (queue m) /\ change_state m0 g0 (ts ++ [(pass_number m' (g_eid g0), s)]) m' g' ms g1 m1 hq' ps' ph' /\
    yielded hq' (queue m) g1 (m_ctxs m1 (g_eid g0)) m ps' m' g' s ph'.
Proof.
  intros m0 g0 ts m g ms g1 m1 hq ps ph fuel m' g' s [A0 A1 A2 A3 A4 A5 A6 A7] H0.
  set (hq' := merge hq (queue m)). destruct (merge_covers hq (queue m)) as [Ca Cb].
  rewrite A2 in H0. assert (A5' := covers_hist _ _ _ _ _ _ _ Ca A5).
  assert (H1 := resume_spec fuel m (at_pc g1 (g_pc g)) hq' (queue m) (m_ctxs m1 (g_eid g0)) ps ph m' g' (OYield s) eq_refl Cb).
  simpl in H1. rewrite A3 in H1. specialize (H1 A5' A7 H0). destruct H1 as (ps' & ph' & Y & Ey & Et).
  destruct (yielded_matches _ _ _ _ _ _ _ _ _ _ Y) as [Mt Eg]. simpl in *. apply yielded_at_pc in Y.
  exists hq', ps', ph'. splits.
  assert (Hh := yielded_hist _ _ _ _ _ _ _ _ _ _ Cb Y). rewrite A3 in Hh.
  constructor; auto. rewrite A6, Et, (hist_number _ _ _ _ _ _ _ _ _ _ A0 A1 Hh). auto.
Qed.
Theorem change_history : forall m0 g0 ts m g, running_changing m0 g0 ts m g -> g_pc g0 = PStart ->
  (ts = [] /\ g = g0 /\ m_ctxs m (g_eid g0) = m_ctxs m0 (g_eid g0)) \/
  (exists ms g1 m1 hq ps ph, change_state m0 g0 ts m g ms g1 m1 hq ps ph).
Proof.
  intros m0 g0 ts m g H Hp. induction H.
  - left; auto.
  - destruct IHrunning_changing as [(-> & -> & U)|(ms & g1 & m1 & hq & ps & ph & [A0 A1 A2 A3 A4 A5 A6 A7])].
    + left; splits; congruence.
    + right; exists ms, g1, m1, hq, ps, ph. constructor; auto. rewrite H0; auto.
  - right. destruct IHrunning_changing as [(-> & -> & U)|(ms & g1 & m1 & hq & ps & ph & St)].
    + destruct (change_first _ _ _ _ _ _ _ Hp U H0) as (g1 & m1 & ps & ph & X & _). simpl. eauto 10.
    + destruct (change_next _ _ _ _ _ _ _ _ _ _ _ _ _ _ _ St H0) as (hq' & ps' & ph' & _ & X & _). eauto 10.
Qed.
Lemma change_yields : forall m0 g0 ts m g ms g1 m1 hq ps ph, change_state m0 g0 ts m g ms g1 m1 hq ps ph ->
  map snd ts = all_yields (g_abs g1) ps ph.
Proof. intros m0 g0 ts m g ms g1 m1 hq ps ph S. rewrite (ct_tags _ _ _ _ _ _ _ _ _ _ _ S). apply all_tagged_snd. Qed.
Lemma change_number : forall m0 g0 ts m g ms g1 m1 hq ps ph, change_state m0 g0 ts m g ms g1 m1 hq ps ph ->
  pass_number m (g_eid g0) = pass_number m0 (g_eid g0) + length ps.
Proof. intros m0 g0 ts m g ms g1 m1 hq ps ph [A0 A1 A2 A3 A4 A5 A6 A7]. eapply hist_number; eauto. Qed.

(** ** Bookkeeping *)
Section State.
Context {m0 : core} {g0 : gen} {ts : list (nat * list node)} {m : core} {g : gen}.
Hypothesis R : running_changing m0 g0 ts m g.
Hypothesis Hp : g_pc g0 = PStart.
Theorem change_list : forall l0, x_list (m_ctxs m0 (g_eid g0)) = Some l0 -> x_list (m_ctxs m (g_eid g0)) = Some (l0 ++ map snd ts).
Proof.
  intros l0 E. destruct (change_history _ _ _ _ _ R Hp) as [(-> & _ & U)|(ms & g1 & m1 & hq & ps & ph & St)].
  - simpl. rewrite app_nil_r, U; auto.
  - rewrite (change_yields _ _ _ _ _ _ _ _ _ _ _ St). destruct St as [A0 A1 A2 A3 A4 A5 A6 A7]. eapply hist_list; eauto.
    eapply started_list; [apply start_started; eauto|]. rewrite A0; auto.
Qed.
Theorem change_counts : forall t0, ts <> [] -> x_total (m_ctxs m0 (g_eid g0)) = Some t0 ->
  exists t, x_total (m_ctxs m (g_eid g0)) = Some t /\ forall n,
    t LIFE n = t0 LIFE n + occurrences n (map snd ts) /\
    t ES n = t0 ES n + occurrences n (map snd ts) /\
    t ESU n = occurrences n (map snd ts) /\
    t PASS n = occurrences n (in_pass (pass_number m (g_eid g0)) ts) /\
    t CSE n = t PASS n.
Proof.
  intros t0 Ne E. destruct (change_history _ _ _ _ _ R Hp) as [(-> & _)|(ms & g1 & m1 & hq & ps & ph & St)]; [congruence|].
  assert (Y := change_yields _ _ _ _ _ _ _ _ _ _ _ St). assert (N := change_number _ _ _ _ _ _ _ _ _ _ _ St).
  destruct St as [A0 A1 A2 A3 A4 A5 A6 A7].
  assert (Et : x_total (m_ctxs m1 (g_eid g0)) = Some (reset_total ESU t0)).
  { eapply started_total; [apply start_started; eauto|]. rewrite A0; auto. }
  destruct (hist_total _ _ _ _ _ _ t0 A5 Et) as (t & X & P).
  exists t; split; auto. intros n. destruct (P n) as (A & B & C & D & F). rewrite Y, N. rewrite A6 at 1.
  rewrite current_in_pass by (eapply matches_not_between; eauto). splits. congruence.
Qed.
Theorem change_use : ts <> [] -> exists u, x_use (m_ctxs m (g_eid g0)) = Some u /\ use_is u (concat (map snd ts)).
Proof.
  intros Ne. destruct (change_history _ _ _ _ _ R Hp) as [(-> & _)|(ms & g1 & m1 & hq & ps & ph & St)]; [congruence|].
  rewrite (change_yields _ _ _ _ _ _ _ _ _ _ _ St). destruct St as [A0 A1 A2 A3 A4 A5 A6 A7].
  eapply hist_use; eauto. eapply started_use; apply start_started; eauto.
Qed.
Theorem change_agrees : history_agrees (m_ctxs m0 (g_eid g0)) -> history_agrees (m_ctxs m (g_eid g0)).
Proof.
  intros (t & l & Et & El & A). assert (L := change_list _ El).
  destruct ts as [|a r] eqn:E0.
  - destruct (change_history _ _ _ _ _ R Hp) as [(_ & _ & U)|(ms & g1 & m1 & hq & ps & ph & St)].
    + rewrite U. exists t, l; auto.
    + exfalso. destruct St as [A0 A1 A2 A3 A4 A5 A6 A7]. assert (X : map snd (all_tagged (g_abs g1) (pass_number m0 (g_eid g0)) ps ph) = []) by (rewrite <- A6; auto).
      rewrite all_tagged_snd in X. unfold all_yields in X. apply app_eq_nil in X. destruct X as [_ X].
      inversion A7; subst ph; simpl in X; [|discriminate]. rewrite map_app in X. destruct (map snd p); discriminate.
  - rewrite <- E0 in *. destruct (change_counts t) as (t' & X & P); auto. { rewrite E0; discriminate. }
    exists t', (l ++ map snd ts). splits. intros n. destruct (P n) as (B & _). rewrite B, occurrences_app, A. auto.
Qed.
Theorem change_clock : forall h0, ts <> [] -> clock_after ESU h0 (the_clock (m_ctxs m0 (g_eid g0))) ->
  exists ev, clock_after ESU (h0 ++ ev) (the_clock (m_ctxs m (g_eid g0))) /\
    S (count CSE ev) = length ts /\ Forall (fun s => ts_le s PASS) ev /\
    pass_number m (g_eid g0) = pass_number m0 (g_eid g0) + count PASS ev.
Proof.
  intros h0 Ne C. destruct (change_history _ _ _ _ _ R Hp) as [(-> & _)|(ms & g1 & m1 & hq & ps & ph & St)]; [congruence|].
  assert (Y := change_yields _ _ _ _ _ _ _ _ _ _ _ St). assert (N := change_number _ _ _ _ _ _ _ _ _ _ _ St).
  destruct St as [A0 A1 A2 A3 A4 A5 A6 A7].
  assert (C1 : clock_after ESU h0 (the_clock (m_ctxs m1 (g_eid g0)))).
  { eapply started_clock; [apply start_started; eauto|]. rewrite A0; auto. }
  destruct (hist_clock _ _ _ _ _ _ h0 A5 C1) as (K & _).
  exists (run_events (g_abs g1) ps ph). splits.
  - rewrite (events_cse _ _ _ _ A7), <- Y, map_length; auto.
  - apply events_fine.
  - rewrite events_pass. auto.
Qed.
Theorem change_stamps : forall h0 ts0, ts <> [] -> g_abs g = true ->
  clock_after ESU h0 (the_clock (m_ctxs m0 (g_eid g0))) -> x_stamps (m_ctxs m0 (g_eid g0)) = Some ts0 ->
  exists st a iv, x_stamps (m_ctxs m (g_eid g0)) = Some (ts0 ++ st) /\ length st = length ts /\
    t_interval (k_time (the_clock (m_ctxs m (g_eid g0)))) = iv /\
    forall i t, nth_error st i = Some t -> (t_abs t == a + inject_Z (Z.of_nat i) * iv)%Q.
Proof.
  intros h0 ts0 Ne Ha C E. destruct (change_history _ _ _ _ _ R Hp) as [(-> & _)|(ms & g1 & m1 & hq & ps & ph & St)]; [congruence|].
  assert (Y := change_yields _ _ _ _ _ _ _ _ _ _ _ St). destruct St as [A0 A1 A2 A3 A4 A5 A6 A7].
  assert (Ga : g_abs g1 = true) by (rewrite A2 in Ha; auto). rewrite Ga in *.
  assert (Sd := start_started _ _ _ _ A1).
  assert (C1 : clock_after ESU h0 (the_clock (m_ctxs m1 (g_eid g0)))) by (eapply started_clock; eauto; rewrite A0; auto).
  pose proof (started_stamps _ _ _ _ Sd) as Es. rewrite A0, E in Es.
  destruct (hist_stamps _ _ _ _ _ _ A5 C1 ts0 Es) as (st & A & B & D).
  destruct (hist_clock _ _ _ _ _ _ h0 A5 C1) as (_ & Ei & _).
  exists st, (t_abs (k_time (the_clock (m_ctxs m1 (g_eid g0))))), (t_interval (k_time (the_clock (m_ctxs m (g_eid g0))))). splits.
  - rewrite B, <- Y, map_length; auto.
  - intros i t Hi. rewrite Ei. apply D; auto. rewrite <- (setup_enabled _ _ _ _ A1); auto.
Qed.
(** passes *)
Theorem change_numbered : forall i k s, nth_error ts i = Some (k, s) -> pass_number m0 (g_eid g0) <= k <= pass_number m (g_eid g0).
Proof.
  intros i k s E. destruct (change_history _ _ _ _ _ R Hp) as [(-> & _)|(ms & g1 & m1 & hq & ps & ph & St)]; [destruct i; discriminate|].
  assert (N := change_number _ _ _ _ _ _ _ _ _ _ _ St). destruct St as [A0 A1 A2 A3 A4 A5 A6 A7].
  destruct (matches_so_far _ _ _ _ _ _ _ (pass_number m0 (g_eid g0)) A5 A7) as [T V].
  rewrite T in A6. rewrite A6 in E. apply nth_error_In, tags_bounds in E.
  assert (length (so_far ps ph) = S (length ps)) by (inversion A7; simpl; rewrite app_length; simpl; lia).
  lia.
Qed.
Theorem change_order : forall i j k k' s s', nth_error ts i = Some (k, s) -> nth_error ts j = Some (k', s') -> i < j ->
  k <= k' /\ (k = k' -> g_abs g = false -> s <> [] /\ s' <> []).
Proof.
  intros i j k k' s s' Hi Hj L. destruct (change_history _ _ _ _ _ R Hp) as [(-> & _)|(ms & g1 & m1 & hq & ps & ph & St)]; [destruct i; discriminate|].
  destruct St as [A0 A1 A2 A3 A4 A5 A6 A7].
  destruct (matches_so_far _ _ _ _ _ _ _ (pass_number m0 (g_eid g0)) A5 A7) as [T V].
  rewrite T in A6. rewrite A6 in Hi, Hj. destruct (tags_order _ _ _ _ _ _ _ Hi Hj L) as [O B]. simpl in *. split; auto.
  intros Ek Ha. destruct (B Ek) as (p & i' & j' & I & L' & Yi & Yj). rewrite Forall_forall in V.
  destruct (pass_yields_order _ _ _ _ _ _ _ (V _ I) L' Yi Yj) as (a & b & la & lb & _ & _ & _ & _ & _ & N).
  apply N. rewrite A2 in Ha; auto.
Qed.
Theorem change_every_pass : forall k, g_abs g = false -> ts <> [] ->
  pass_number m0 (g_eid g0) <= k <= pass_number m (g_eid g0) -> exists i s, nth_error ts i = Some (k, s).
Proof.
  intros k Ha Ne L. destruct (change_history _ _ _ _ _ R Hp) as [(-> & _)|(ms & g1 & m1 & hq & ps & ph & St)]; [congruence|].
  assert (N := change_number _ _ _ _ _ _ _ _ _ _ _ St). destruct St as [A0 A1 A2 A3 A4 A5 A6 A7].
  destruct (matches_so_far _ _ _ _ _ _ _ (pass_number m0 (g_eid g0)) A5 A7) as [T V].
  assert (Ga : g_abs g1 = false) by (rewrite A2 in Ha; auto). rewrite Ga in *. rewrite T in A6. rewrite A6.
  apply tags_every_pass. rewrite N in L.
  assert (length (so_far ps ph) = S (length ps)) by (inversion A7; simpl; rewrite app_length; simpl; lia).
  lia.
Qed.

(** ** The next yield *)
Theorem change_yield : forall fuel m' g' s, resume fuel m g = (m', g', OYield s) ->
  g_eid g' = g_eid g0 /\ exists hq,
  ((exists p i, map snd p = in_pass (pass_number m' (g_eid g0)) ts /\ set_facts hq (queue m) m m' g' (map snd ts) p i s) \/
   (s = [] /\ in_pass (pass_number m' (g_eid g0)) ts = [] /\ idle_facts (queue m) m m' g' (map snd ts))).
Proof.
  intros fuel m' g' s H.
  assert (X : exists hq ms g1 mm x0 ps ph, covers hq (queue m) /\ before_set hq (queue m) ms g0 (map snd ts) m m' g' s g1 mm x0 ps ph /\
     all_tagged (g_abs g1) (pass_number m0 (g_eid g0)) ps ph = ts ++ [(pass_number m' (g_eid g0), s)] /\
     in_pass (pass_number m' (g_eid g0)) (all_tagged (g_abs g1) (pass_number m0 (g_eid g0)) ps ph) = current (g_abs g1) ps ph /\ g_eid g' = g_eid g0).
  { destruct (change_history _ _ _ _ _ R Hp) as [(Et & Eg & U)|(ms & g1 & m1 & hq & ps & ph & St)].
    - rewrite Eg in H. destruct (change_first _ _ _ _ _ _ _ Hp U H) as (g1 & m1 & ps & ph & S & Y).
      assert (N := change_number _ _ _ _ _ _ _ _ _ _ _ S). assert (Ay := change_yields _ _ _ _ _ _ _ _ _ _ _ S).
      destruct S as [A0 A1 A2 A3 A4 A5 A6 A7].
      exists (queue m), m, g1, m1, (m_ctxs m1 (g_eid g0)), ps, ph. rewrite Et. splits.
      + apply covers_refl.
      + constructor; auto. * exists m1; split; auto. apply start_started; auto. * eapply start_cst; eauto.
      + rewrite N. apply current_in_pass. eapply matches_not_between; eauto.
      + destruct (yielded_gen _ _ _ _ _ _ _ _ _ _ Y) as (_ & -> & _). auto.
    - destruct (change_next _ _ _ _ _ _ _ _ _ _ _ _ _ _ _ St H) as (hq' & ps' & ph' & Cv & S & Y).
      assert (N := change_number _ _ _ _ _ _ _ _ _ _ _ S). assert (Ay := change_yields _ _ _ _ _ _ _ _ _ _ _ S).
      destruct S as [A0 A1 A2 A3 A4 A5 A6 A7].
      exists hq', ms, g1, m, (m_ctxs m1 (g_eid g0)), ps', ph'. splits.
      + constructor; auto. * exists m1; split; auto. apply start_started; auto. * rewrite <- Ay, map_app; auto.
      + rewrite N. apply current_in_pass. eapply matches_not_between; eauto.
      + destruct (yielded_gen _ _ _ _ _ _ _ _ _ _ Y) as (_ & -> & _). auto. }
  destruct X as (hq & ms & g1 & mm & x0 & ps & ph & Cv & B & T & C & He). split; auto. exists hq.
  rewrite T, in_pass_app in C.
  assert (One : in_pass (pass_number m' (g_eid g0)) [(pass_number m' (g_eid g0), s)] = [s]).
  { unfold in_pass; simpl. rewrite Nat.eqb_refl; auto. }
  rewrite One in C.
  destruct (yielded_facts _ _ _ _ _ _ _ _ _ _ _ _ _ _ Cv B) as [(p & i & -> & F)|(-> & -> & F)]; simpl in C.
  - left. exists p, i. split; auto. rewrite map_app in C. simpl in C. apply snoc_inj in C. destruct C; auto.
  - right. splits. change [@nil node] with ([] ++ [@nil node]) in C. apply snoc_inj in C. tauto.
Qed.
Theorem change_progress : forall fuel, uses_absolute m g = false -> snd (resume (S fuel) m g) <> OFuel.
Proof.
  intros fuel A H.
  destruct (resume (S fuel) m g) as [[m' g'] o] eqn:E. simpl in H; subst o.
  unfold resume in E.
  destruct (change_history _ _ _ _ _ R Hp) as [(Et & Eg & U)|(ms & g1 & m1 & hq & ps & ph & St)].
  - rewrite Eg, Hp in E. unfold uses_absolute in A; rewrite Eg, Hp in A.
    destruct (start m g0) as [[g1|ex] m1] eqn:S; [|inversion E].
    rewrite <- (start_abs _ _ _ _ S) in A. eapply outer_progress; [|exact E]; auto.
  - destruct St as [A0 A1 A2 A3 A4 A5 A6 M].
    assert (A' : g_abs g = false) by (unfold uses_absolute in A; inversion M as [p i s ch Hc Eq1 Eq2|Ha Eq1 Eq2]; rewrite <- Eq2 in A; auto).
    assert (Ga : g_abs g1 = g_abs g) by (rewrite A2; auto).
    inversion M as [p i s ch Hc Eq1 Eq2|Ha Eq1 Eq2]; rewrite <- Eq2 in E.
    + destruct (incr_clock CSE m (g_eid g)) as [m2|ex]; [|inversion E].
      destruct (inner m2 g (skipn (S i) (queue m2)) (S i) ch) as [m3 s' i' ch'|m3 ch'|m3 ex|m3] eqn:I; try (inversion E; fail).
      * destruct (inner_end _ _ _ _ _ _ _ I) as (_ & -> & _).
        unfold pass_tail in E. rewrite Hc in E by congruence. simpl in E.
        destruct (incr_clock PASS m3 (g_eid g)) as [m4|]; [|inversion E]. eapply outer_progress; [|exact E]; auto.
      * eapply inner_fuel; eauto.
    + destruct (incr_clock CSE m (g_eid g)) as [m2|ex]; [|inversion E].
      destruct (incr_clock PASS m2 (g_eid g)) as [m3|]; [|inversion E]. eapply outer_progress; [|exact E]; auto.
Qed.

(** ** Return *)
Lemma change_end : forall fuel m' g' l, resume fuel m g = (m', g', OReturn l) ->
  exists ms g1 m1 hq ps mt mt1, m_ctxs ms (g_eid g0) = m_ctxs m0 (g_eid g0) /\ start ms g0 = (Ok g1, m1) /\
    g_eid g1 = g_eid g0 /\ hist hq (g_abs g1) (m_ctxs m1 (g_eid g0)) ps Between (m_ctxs mt (g_eid g0)) /\
    map snd ts = all_yields (g_abs g1) ps Between /\ static m mt /\
    terminated mt (g_eid g0) (g_tc g1) = (Ok true, mt1) /\
    (if g_skip g0 then m_ctxs m' (g_eid g0) = m_ctxs mt (g_eid g0) else tick ESU (m_ctxs mt (g_eid g0)) (m_ctxs m' (g_eid g0))) /\
    x_list (m_ctxs m' (g_eid g0)) = Some l /\
    (g_pc g = PStart /\ start m g = (Ok g1, m1) \/ g_pc g <> PStart /\ g_tc g1 = g_tc g).
Proof.
  intros fuel m' g' l H.
  destruct (change_history _ _ _ _ _ R Hp) as [(Et & Eg & U)|(ms & g1 & m1 & hq & ps & ph & St)].
  - rewrite Eg in H. pose proof (resume_start _ _ _ _ _ _ Hp H) as (g1 & m1 & S & ps & mt & mt1 & Y & F & Hh & T & Fi).
    assert (Y' := start_spec _ _ _ _ S). destruct Y' as (Sx & _ & _ & Ee & Es & _ & _).
    destruct (finish_spec _ _ _ _ _ Fi) as (S2 & L & X & O & _).
    assert (Q := terminated_quiet _ _ _ _ T). destruct Q as [Fq Eq]. rewrite Ee, Es in *.
    exists m, g1, m1, (queue m), ps, mt, mt1. rewrite Et, Eg. splits.
    + eapply static_trans; [exact Sx|]. eapply static_frame; eauto.
    + destruct (g_skip g0); rewrite <- Eq; auto.
  - assert (Ys := change_yields _ _ _ _ _ _ _ _ _ _ _ St). destruct St as [A0 A1 A2 A3 A4 A5 A6 A7].
    set (hq' := merge hq (queue m)). destruct (merge_covers hq (queue m)) as [Ca Cb].
    assert (H' := H). rewrite A2 in H'. assert (A5' := covers_hist _ _ _ _ _ _ _ Ca A5).
    assert (H1 := resume_spec fuel m (at_pc g1 (g_pc g)) hq' (queue m) (m_ctxs m1 (g_eid g0)) ps ph m' g' (OReturn l) eq_refl Cb).
    simpl in H1. rewrite A3 in H1. specialize (H1 A5' A7 H').
    destruct H1 as (ps' & mt & mt1 & E & F & Hh & T & Fi). simpl in *.
    destruct (finish_spec _ _ _ _ _ Fi) as (S2 & L & X & O & _). simpl in *. rewrite A3, A4 in *.
    assert (Q := terminated_quiet _ _ _ _ T). destruct Q as [Fq Eq].
    exists ms, g1, m1, hq', ps', mt, mt1. splits.
    + congruence.
    + eapply static_frame; eauto.
    + destruct (g_skip g0); rewrite <- Eq; auto.
    + right; split; [|rewrite A2; auto]. intros Z. clear - A7 Z. inversion A7; congruence.
Qed.
Theorem change_returned_list : forall fuel m' g' l l0, resume fuel m g = (m', g', OReturn l) ->
  x_list (m_ctxs m0 (g_eid g0)) = Some l0 -> l = l0 ++ map snd ts /\ x_list (m_ctxs m' (g_eid g0)) = Some (l0 ++ map snd ts).
Proof.
  intros fuel m' g' l l0 H E.
  destruct (change_end _ _ _ _ H) as (ms & g1 & m1 & hq & ps & mt & mt1 & Ec & S & Ee & Hh & Y & Sm & T & X & L & _).
  assert (El : x_list (m_ctxs m1 (g_eid g0)) = Some l0) by (eapply started_list; [apply start_started; eauto|rewrite Ec; auto]).
  pose proof (hist_list _ _ _ _ _ _ l0 Hh El) as Lm. rewrite <- Y in Lm.
  assert (Z : x_list (m_ctxs m' (g_eid g0)) = Some (l0 ++ map snd ts)).
  { destruct (g_skip g0); [rewrite X; auto|]. apply tick_list in X. congruence. }
  split; congruence.
Qed.
Theorem change_returned_counts : forall fuel m' g' l t0, resume fuel m g = (m', g', OReturn l) ->
  x_total (m_ctxs m0 (g_eid g0)) = Some t0 ->
  exists t, x_total (m_ctxs m' (g_eid g0)) = Some t /\ forall n,
    t LIFE n = t0 LIFE n + occurrences n (map snd ts) /\ t ES n = t0 ES n + occurrences n (map snd ts) /\ t ESU n = occurrences n (map snd ts).
Proof.
  intros fuel m' g' l t0 H E.
  destruct (change_end _ _ _ _ H) as (ms & g1 & m1 & hq & ps & mt & mt1 & Ec & S & Ee & Hh & Y & Sm & T & X & L & _).
  assert (Et : x_total (m_ctxs m1 (g_eid g0)) = Some (reset_total ESU t0)) by (eapply started_total; [apply start_started; eauto|rewrite Ec; auto]).
  destruct (hist_total _ _ _ _ _ _ t0 Hh Et) as (t & Xt & P).
  exists t. split.
  - destruct (g_skip g0); [rewrite X; auto|]. apply tick_rest in X. destruct X as (_ & X & _). congruence.
  - intros n. destruct (P n) as (A & B & C & _). rewrite Y. auto.
Qed.
Theorem change_returned_clock : forall fuel m' g' l h0, resume fuel m g = (m', g', OReturn l) ->
  clock_after ESU h0 (the_clock (m_ctxs m0 (g_eid g0))) ->
  exists ev, clock_after ESU (h0 ++ ev ++ (if g_skip g0 then [] else [ESU])) (the_clock (m_ctxs m' (g_eid g0))) /\
    count CSE ev = length ts /\ Forall (fun s => ts_le s PASS) ev.
Proof.
  intros fuel m' g' l h0 H C.
  destruct (change_end _ _ _ _ H) as (ms & g1 & m1 & hq & ps & mt & mt1 & Ec & S & Ee & Hh & Y & Sm & T & X & L & _).
  assert (C1 : clock_after ESU h0 (the_clock (m_ctxs m1 (g_eid g0)))) by (eapply started_clock; [apply start_started; eauto|rewrite Ec; auto]).
  destruct (hist_clock _ _ _ _ _ _ h0 Hh C1) as (K & _).
  exists (run_events (g_abs g1) ps Between). splits.
  - destruct (g_skip g0).
    + rewrite app_nil_r, X; auto.
    + rewrite app_assoc. eapply tick_clock; eauto.
  - rewrite events_between, <- Y, map_length; auto.
  - apply events_fine.
Qed.
End State.
