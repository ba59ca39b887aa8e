(** Consequences of the run history, in the vocabulary of SpecRun.v. *)
From Verif Require Export RunFacts TopoProofs.

(** ** Pass numbers *)
Lemma hist_pass : forall q abs x0 ps ph x, hist q abs x0 ps ph x ->
  t_val (k_time (the_clock x)) PASS = t_val (k_time (the_clock x0)) PASS + length ps.
Proof.
  assert (T : forall s x x', tick s x x' -> t_val (k_time (the_clock x')) PASS =
              match s with CSE => t_val (k_time (the_clock x)) PASS | PASS => S (t_val (k_time (the_clock x)) PASS) | _ => t_val (k_time (the_clock x')) PASS end).
  { intros s x x' [k' [E ->]]. simpl. unfold clock_incr in E. destruct (tree_incr _ _ _); inversion E; subst; simpl. unfold time_incr; simpl. destruct (t_abs_enabled (k_time (the_clock x))), s; reflexivity. }
  intros q abs x0 ps ph x H. induction H; auto; rewrite ?app_length; simpl.
  - rewrite <- IHhist. destruct (appended_list _ _ _ _ H1) as (l & _ & _ & _ & _ & C). unfold the_clock. rewrite C.
    destruct (ctx_accepts_other s x) as (_ & _ & ->). reflexivity.
  - rewrite <- IHhist. apply T in H0; auto.
  - rewrite <- IHhist. destruct (appended_list _ _ _ _ H1) as (l & _ & _ & _ & _ & C). unfold the_clock. rewrite C. reflexivity.
  - apply T in H0. apply T in H1. rewrite H1, H0, IHhist. lia.
  - apply T in H1. rewrite H1, IHhist. lia.
Qed.

Lemma undisturbed_pass : forall e m m', undisturbed e m m' -> pass_number m' e = pass_number m e.
Proof. intros e m m' U; unfold pass_number. rewrite (ud_ctx _ _ _ U); auto. Qed.
Lemma started_pass : forall m0 g0 g1 m1, started m0 g0 g1 m1 -> pass_number m1 (g_eid g0) = pass_number m0 (g_eid g0).
Proof.
  intros m0 g0 g1 m1 (ms & U & S). destruct (start_spec _ _ _ _ S) as (_ & _ & [_ _ _ _ (k & Ek & _ & _ & T & _)] & _).
  rewrite <- (undisturbed_pass _ _ _ U). unfold pass_number. unfold the_clock at 1. rewrite Ek. rewrite T; auto.
Qed.
Lemma state_pass : forall m0 g0 ys m g g1 m1 ps ph, run_state m0 g0 ys m g g1 m1 ps ph ->
  pass_number m (g_eid g0) = pass_number m0 (g_eid g0) + length ps.
Proof.
  intros m0 g0 ys m g g1 m1 ps ph R. unfold pass_number at 1. rewrite (hist_pass _ _ _ _ _ _ (rs_hist _ _ _ _ _ _ _ _ _ R)).
  f_equal. apply (started_pass _ _ _ _ (rs_started _ _ _ _ _ _ _ _ _ R)).
Qed.

Lemma passes_running : forall m0 g0 ys m g, running_in_passes m0 g0 ys m g -> running m0 g0 (map snd ys) m g.
Proof.
  intros m0 g0 ys m g H; induction H; simpl.
  - apply run_created.
  - eapply run_env; eauto.
  - rewrite map_app; simpl. eapply run_yields; eauto.
Qed.
Lemma running_passes : forall m0 g0 ys m g, running m0 g0 ys m g -> exists ts, map snd ts = ys /\ running_in_passes m0 g0 ts m g.
Proof.
  intros m0 g0 ys m g H; induction H.
  - exists []; split; auto. apply rp_created.
  - destruct IHrunning as (ts & E & R). exists ts; split; auto. eapply rp_env; eauto.
  - destruct IHrunning as (ts & <- & R). eexists; split; [|eapply rp_yields; eauto]. rewrite map_app; auto.
Qed.
Theorem passes_history : forall m0 g0 ts m g, running_in_passes m0 g0 ts m g -> g_pc g0 = PStart ->
  (ts = [] /\ g = g0 /\ undisturbed (g_eid g0) m0 m) \/
  (exists g1 m1 ps ph, run_state m0 g0 (map snd ts) m g g1 m1 ps ph /\
     ts = all_tagged (g_abs g1) (pass_number m0 (g_eid g0)) ps ph).
Proof.
  intros m0 g0 ts m g H Hp. induction H.
  - left; splits; apply undisturbed_refl.
  - destruct IHrunning_in_passes as [(-> & -> & U)|(g1 & m1 & ps & ph & R & E)].
    + left; splits; eapply undisturbed_trans; eauto.
    + right; exists g1, m1, ps, ph. split; auto. eapply run_state_env; eauto.
  - right. rewrite map_app; simpl. destruct IHrunning_in_passes as [(-> & -> & U)|(g1 & m1 & ps & ph & R & E)].
    + destruct (run_first _ _ _ _ _ _ _ Hp U H0) as (g1 & m1 & ps & ph & _ & R & _ & T).
      exists g1, m1, ps, ph. split; auto. rewrite T, (state_pass _ _ _ _ _ _ _ _ _ R). auto.
    + destruct (run_next _ _ _ _ _ _ _ _ _ _ _ _ _ R H0) as (ps' & ph' & R' & _ & T).
      exists g1, m1, ps', ph'. split; auto. rewrite T, (state_pass _ _ _ _ _ _ _ _ _ R'), <- E. auto.
Qed.

(** ** The end of a run *)
Record run_returned (m0 : core) (g0 : gen) (ys : list (list node)) (m : core) (l : list (list node))
  (g1 : gen) (m1 : core) (ps : list pass) (mt mt1 : core) : Prop := {
  rr_started : started m0 g0 g1 m1;
  rr_eid : g_eid g1 = g_eid g0;
  rr_skip : g_skip g1 = g_skip g0;
  rr_hist : hist (queue m0) (g_abs g1) (m_ctxs m1 (g_eid g0)) ps Between (m_ctxs mt (g_eid g0));
  rr_yields : ys = all_yields (g_abs g1) ps Between;
  rr_term : terminated mt (g_eid g0) (g_tc g1) = (Ok true, mt1);
  rr_ctx : if g_skip g0 then m_ctxs m (g_eid g0) = m_ctxs mt (g_eid g0)
           else tick ESU (m_ctxs mt (g_eid g0)) (m_ctxs m (g_eid g0));
  rr_list : x_list (m_ctxs m (g_eid g0)) = Some l;
  rr_static : static m0 m;
  rr_static_t : static m0 mt
}.
Lemma finish_spec : forall m g m' g' l, finish m g = (m', g', OReturn l) ->
  static m m' /\ x_list (m_ctxs m' (g_eid g)) = Some l /\
  (if g_skip g then m_ctxs m' (g_eid g) = m_ctxs m (g_eid g) else tick ESU (m_ctxs m (g_eid g)) (m_ctxs m' (g_eid g))) /\
  (forall e', e' <> g_eid g -> m_ctxs m' e' = m_ctxs m e') /\ g' = at_pc g PDone.
Proof.
  intros m g m' g' l H. unfold finish in H.
  assert (X : exists m1, (if g_skip g then Ok m else incr_clock ESU m (g_eid g)) = Ok m1).
  { destruct (if g_skip g then Ok m else incr_clock ESU m (g_eid g)); eauto. inversion H. }
  destruct X as (m1 & X). rewrite X in H.
  destruct (check_tc m1 (g_eid g) (g_tc g) ES) as [[b|] m2] eqn:C; [|inversion H].
  apply (check_tc_quiet (tc := g_tc g)) in C. destruct C as [F2 E2].
  destruct (x_list (m_ctxs m2 (g_eid g))) eqn:L; inversion H; subst. clear H.
  destruct (g_skip g).
  - inversion X; subst. splits; [eapply static_frame; eauto|]. intros e' Ne. apply (fr_other _ _ _ F2 _ Ne).
  - apply (incr_clock_spec (tc := g_tc g)) in X. destruct X as [F1 T]. splits.
    + eapply static_frame; eapply frame_trans; eauto.
    + rewrite E2; auto.
    + intros e' Ne. rewrite (fr_other _ _ _ F2 _ Ne). apply (fr_other _ _ _ F1 _ Ne).
Qed.
Theorem return_history_at : forall m0 g0 ys mm g fuel m g2 l, running m0 g0 ys mm g -> resume fuel mm g = (m, g2, OReturn l) -> g_pc g0 = PStart ->
  exists g1 m1 ps mt mt1, run_returned m0 g0 ys m l g1 m1 ps mt mt1 /\
    (g_pc g = PStart /\ start mm g = (Ok g1, m1) \/ g_pc g <> PStart /\ g_tc g1 = g_tc g).
Proof.
  intros m0 g0 ys mm g fuel m g2 l R H Hp.
  destruct (run_history _ _ _ _ _ R Hp) as [(-> & -> & U)|(g1 & m1 & ps & ph & [A1 A2 A3 A4 A5 A6 A7 A8])].
  - pose proof (resume_start _ _ _ _ _ _ Hp H) as (g1 & m1 & S & ps & mt & mt1 & Y & F & Hh & T & Fi).
    assert (Y' := start_spec _ _ _ _ S). destruct Y' as (St & _ & _ & Ee & Es & _ & _).
    assert (Hq : queue mm = queue m0) by (apply static_queue; eapply static_undisturbed; eauto).
    destruct (finish_spec _ _ _ _ _ Fi) as (S2 & L & X & O & _).
    assert (Q := terminated_quiet _ _ _ _ T). destruct Q as [Fq Eq]. rewrite Ee, Es in *.
    exists g1, m1, ps, mt, mt1. split; [|left; auto]. constructor; auto.
    + exists mm; auto.
    + rewrite <- Hq; auto.
    + destruct (g_skip g0); rewrite <- Eq; auto.
    + eapply static_trans; [eapply static_undisturbed; eauto|]. eapply static_trans; [eauto|].
      eapply static_trans; [eapply static_frame; eauto|]. eapply static_trans; [eapply static_frame; eauto|auto].
    + eapply static_trans; [eapply static_undisturbed; eauto|]. eapply static_trans; [eauto|]. eapply static_frame; eauto.
  - assert (Hq : queue mm = queue m0) by (apply static_queue; auto). rewrite A2 in H.
    assert (H1 := resume_spec fuel mm (at_pc g1 (g_pc g)) (queue m0) (queue m0) (m_ctxs m1 (g_eid g0)) ps ph m g2 (OReturn l) Hq (covers_refl _)).
    simpl in H1. rewrite A3 in H1. specialize (H1 A5 A7 H).
    destruct H1 as (ps' & mt & mt1 & E & F & Hh & T & Fi). simpl in *.
    destruct (finish_spec _ _ _ _ _ Fi) as (S2 & L & X & O & _). simpl in *. rewrite A3, A4 in *.
    assert (Q := terminated_quiet _ _ _ _ T). destruct Q as [Fq Eq].
    exists g1, m1, ps', mt, mt1. split; [|right; split; [|rewrite A2; auto]].
    2:{ intros Z. clear - A7 Z. inversion A7; congruence. }
    constructor; auto.
    + congruence.
    + destruct (g_skip g0); rewrite <- Eq; auto.
    + eapply static_trans; [eauto|].
      eapply static_trans; [eapply static_frame; eauto|]. eapply static_trans; [eapply static_frame; eauto|auto].
    + eapply static_trans; [eauto|]. eapply static_frame; eauto.
Qed.
Theorem return_history : forall m0 g0 ys m l, returned m0 g0 ys m l -> g_pc g0 = PStart ->
  exists g1 m1 ps mt mt1, run_returned m0 g0 ys m l g1 m1 ps mt mt1.
Proof.
  intros m0 g0 ys m l (mm & g & fuel & g2 & R & H) Hp.
  destruct (return_history_at _ _ _ _ _ _ _ _ _ R H Hp) as (g1 & m1 & ps & mt & mt1 & X & _). exists g1, m1, ps, mt, mt1; auto.
Qed.

(** ** Passes *)
Lemma nth_error_app_cases : forall A (a b : list A) i x, nth_error (a ++ b) i = Some x ->
  (i < length a /\ nth_error a i = Some x) \/ (length a <= i /\ nth_error b (i - length a) = Some x).
Proof.
  intros A a b i x H. destruct (Nat.lt_ge_cases i (length a)).
  - left; split; auto. rewrite nth_error_app1 in H; auto.
  - right; split; auto. rewrite nth_error_app2 in H; auto.
Qed.
Lemma tags_bounds : forall abs ps P k s, In (k, s) (tags abs P ps) -> P <= k < P + length ps.
Proof.
  induction ps as [|p r IH]; intros P k s H; simpl in *; [contradiction|].
  apply in_app_iff in H. destruct H as [H|H].
  - apply in_map_iff in H. destruct H as (x & E & _). inversion E; subst; lia.
  - apply IH in H; lia.
Qed.
Lemma tags_order : forall abs ps P i j a b, nth_error (tags abs P ps) i = Some a -> nth_error (tags abs P ps) j = Some b -> i < j ->
  fst a <= fst b /\ (fst a = fst b -> exists p i' j', In p ps /\ i' < j' /\
     nth_error (pass_yields abs p) i' = Some (snd a) /\ nth_error (pass_yields abs p) j' = Some (snd b)).
Proof.
  induction ps as [|p r IH]; intros P i j a b Ha Hb L; simpl in *; [destruct i; discriminate|].
  apply nth_error_app_cases in Ha. apply nth_error_app_cases in Hb.
  destruct Ha as [[La Ha]|[La Ha]], Hb as [[Lb Hb]|[Lb Hb]].
  - rewrite nth_error_map in Ha, Hb.
    destruct (nth_error (pass_yields abs p) i) as [x|] eqn:Ex; [|discriminate].
    destruct (nth_error (pass_yields abs p) j) as [y|] eqn:Ey; [|discriminate].
    inversion Ha; inversion Hb; subst; simpl. split; auto. intros _. exists p, i, j; splits.
  - rewrite nth_error_map in Ha. destruct (nth_error (pass_yields abs p) i) as [x|] eqn:Ex; [|discriminate].
    inversion Ha; subst; simpl. destruct b as [k t]. apply nth_error_In, tags_bounds in Hb. simpl; split; [lia|]. intros; lia.
  - lia.
  - destruct (IH _ _ _ _ _ Ha Hb) as [A B]; [lia|]. split; auto. intros E. destruct (B E) as (p' & i' & j' & I & R). exists p', i', j'; split; auto.
Qed.
Lemma pass_yields_order : forall q abs p i j s s', valid_pass q abs p -> i < j ->
  nth_error (pass_yields abs p) i = Some s -> nth_error (pass_yields abs p) j = Some s' ->
  exists a b la lb, a < b /\ nth_error q a = Some la /\ incl s la /\ nth_error q b = Some lb /\ incl s' lb /\
    (abs = false -> s <> [] /\ s' <> []).
Proof.
  intros q abs p i j s s' [V1 V2] L Hi Hj.
  assert (E : pass_yields abs p = map snd p).
  { unfold pass_yields in *. destruct abs; auto. destruct p; auto. simpl in Hj.
    assert (j < 1) by (change 1 with (length [@nil node]); apply nth_error_Some; congruence). lia. }
  rewrite E, nth_error_map in Hi, Hj.
  destruct (nth_error p i) as [[a x]|] eqn:Ei; [|discriminate]. destruct (nth_error p j) as [[b y]|] eqn:Ej; [|discriminate].
  simpl in *. inversion Hi; inversion Hj; subst.
  destruct (V2 a s) as ((la & Ea & Ia) & _ & Na); [eapply nth_error_In; eauto|].
  destruct (V2 b s') as ((lb & Eb & Ib) & _ & Nb); [eapply nth_error_In; eauto|].
  exists a, b, la, lb. splits. apply (V1 i j (a, s) (b, s')); auto.
Qed.

(* the passes of a suspended run, including the current one *)
Definition so_far (ps : list pass) (ph : phase) : list pass :=
  match ph with AtYield p | Open p => ps ++ [p] | AtIdle => ps ++ [[]] | Between => ps end.
Lemma matches_so_far : forall q abs x0 ps ph x pc P, hist q abs x0 ps ph x -> matches abs ph pc ->
  all_tagged abs P ps ph = tags abs P (so_far ps ph) /\ Forall (valid_pass q abs) (so_far ps ph).
Proof.
  intros q abs x0 ps ph x pc0 P H M. destruct (hist_valid _ _ _ _ _ _ H) as [V V'].
  inversion M; subst; unfold all_tagged; simpl in *.
  - rewrite tags_app; simpl. rewrite pass_yields_level, app_nil_r. split; auto. apply Forall_app; auto.
  - rewrite tags_app; simpl. split; auto. apply Forall_app; split; auto. constructor; auto using valid_pass_nil.
Qed.

Theorem passes_order : forall m0 g0 ts m g i j k k' s s', running_in_passes m0 g0 ts m g -> g_pc g0 = PStart ->
  nth_error ts i = Some (k, s) -> nth_error ts j = Some (k', s') -> i < j ->
  pass_number m0 (g_eid g0) <= k <= k' /\
  (k = k' -> exists a b la lb, a < b /\ nth_error (queue m0) a = Some la /\ incl s la /\
                               nth_error (queue m0) b = Some lb /\ incl s' lb).
Proof.
  intros m0 g0 ts m g i j k k' s s' R Hp Hi Hj L.
  destruct (passes_history _ _ _ _ _ R Hp) as [(-> & _)|(g1 & m1 & ps & ph & St & E)]; [destruct i; discriminate|].
  destruct (matches_so_far _ _ _ _ _ _ _ (pass_number m0 (g_eid g0)) (rs_hist _ _ _ _ _ _ _ _ _ St) (rs_matches _ _ _ _ _ _ _ _ _ St)) as [T V].
  rewrite T in E. subst ts.
  destruct (tags_order _ _ _ _ _ _ _ Hi Hj L) as [A B]. simpl in *. split.
  - apply nth_error_In, tags_bounds in Hi. lia.
  - intros Ek. destruct (B Ek) as (p & i' & j' & I & L' & Yi & Yj).
    rewrite Forall_forall in V. destruct (pass_yields_order _ _ _ _ _ _ _ (V _ I) L' Yi Yj) as (a & b & la & lb & X & Y & Z & W & U & _).
    exists a, b, la, lb; splits.
Qed.
Theorem yield_one_level : forall m0 g0 ys m g s, running m0 g0 ys m g -> g_pc g0 = PStart -> In s ys ->
  NoDup s /\ (s = [] \/ exists i level, nth_error (queue m0) i = Some level /\ incl s level).
Proof.
  intros m0 g0 ys m g s R Hp I.
  destruct (run_history _ _ _ _ _ R Hp) as [(-> & _)|(g1 & m1 & ps & ph & St)]; [contradiction|].
  destruct (matches_so_far _ _ _ _ _ _ _ 0 (rs_hist _ _ _ _ _ _ _ _ _ St) (rs_matches _ _ _ _ _ _ _ _ _ St)) as [T V].
  rewrite (rs_yields _ _ _ _ _ _ _ _ _ St), <- (all_tagged_snd _ 0), T, tags_snd in I.
  apply in_concat in I. destruct I as (y & Iy & Is). apply in_map_iff in Iy. destruct Iy as (p & <- & Ip).
  rewrite Forall_forall in V. destruct (V _ Ip) as [_ V2].
  assert (D : s = [] /\ p = [] \/ In s (map snd p)).
  { unfold pass_yields in Is. destruct (g_abs g1); auto. destruct p; auto. destruct Is as [<-|[]]; auto. }
  destruct D as [[-> _]|D].
  - split; [constructor|auto].
  - apply in_map_iff in D. destruct D as ([k s'] & <- & D). destruct (V2 _ _ D) as ((lv & E & Il) & N & _). simpl. split; auto.
    right; exists k, lv; auto.
Qed.

(** ** Order of the consideration sets *)
Lemma Forall2_nth : forall A B (R : A -> B -> Prop) l l', Forall2 R l l' -> forall i b, nth_error l' i = Some b ->
  exists a, nth_error l i = Some a /\ R a b.
Proof. intros A B R l l' H. induction H; intros i b E; destruct i; simpl in *; try discriminate; eauto. inversion E; subst; eauto. Qed.
Lemma levels_order : forall m i j la lb a b, queue_built m ->
  nth_error (m_levels m) i = Some la -> nth_error (m_levels m) j = Some lb -> In a la -> In b lb ->
  (a = b -> i = j) /\ (edge (m_graph m) a b -> a <> b -> i < j).
Proof.
  intros m i j la lb a b (W & q & E & F) Hi Hj Ia Ib.
  destruct (Forall2_nth _ _ _ _ _ F _ _ Hi) as (la' & Hi' & Pa). destruct (Forall2_nth _ _ _ _ _ F _ _ Hj) as (lb' & Hj' & Pb).
  assert (Ia' : In a la') by (eapply Permutation_in; [apply Permutation_sym; eauto|auto]).
  assert (Ib' : In b lb') by (eapply Permutation_in; [apply Permutation_sym; eauto|auto]).
  destruct (toposort_partition_ex _ _ W E) as (_ & N & Pt).
  assert (Xa : aget a (queue_indices q) = Some i) by (apply queue_indices_spec; [auto|eexists; split; eauto]).
  assert (Xb : aget b (queue_indices q) = Some j) by (apply queue_indices_spec; [auto|eexists; split; eauto]).
  split.
  - intros ->. congruence.
  - intros Ed Ne. eapply senders_earlier; eauto.
Qed.
Lemma levels_nodup : forall m, queue_built m -> NoDup (concat (m_levels m)).
Proof.
  intros m (W & q & E & F). destruct (toposort_partition_ex _ _ W E) as (_ & N & _).
  eapply Permutation_NoDup; [|exact N]. clear - F. induction F; simpl; auto. apply Permutation_app; auto.
Qed.
Lemma queue_index_unique : forall m i j la lb n, queue_built m ->
  nth_error (queue m) i = Some la -> nth_error (queue m) j = Some lb -> In n la -> In n lb -> i = j.
Proof.
  intros m i j la lb n B Hi Hj Ia Ib. unfold queue in *. destruct (m_exact m).
  - assert (i < 1 /\ j < 1) by (split; change 1 with (length [gkeys (m_graph m)]); apply nth_error_Some; congruence). lia.
  - eapply levels_order; eauto.
Qed.

Theorem once_per_pass : forall m0 g0 ts m g i j k s s' n, queue_built m0 -> running_in_passes m0 g0 ts m g -> g_pc g0 = PStart ->
  nth_error ts i = Some (k, s) -> nth_error ts j = Some (k, s') -> In n s -> In n s' -> i = j.
Proof.
  assert (A : forall m0 g0 ts m g i j k s s' n, queue_built m0 -> running_in_passes m0 g0 ts m g -> g_pc g0 = PStart ->
    nth_error ts i = Some (k, s) -> nth_error ts j = Some (k, s') -> In n s -> In n s' -> i < j -> False).
  { intros m0 g0 ts m g i j k s s' n B R Hp Hi Hj I I' L.
    destruct (passes_order _ _ _ _ _ _ _ _ _ _ _ R Hp Hi Hj L) as (_ & X).
    destruct (X eq_refl) as (a & b & la & lb & Lab & Ea & Ia & Eb & Ib).
    assert (a = b) by (eapply queue_index_unique; eauto). lia. }
  intros. destruct (Nat.lt_trichotomy i j) as [L|[L|L]]; auto; exfalso; eauto.
Qed.
Theorem senders_first : forall m0 g0 ts m g i j k s s' a b, queue_built m0 -> m_exact m0 = false ->
  running_in_passes m0 g0 ts m g -> g_pc g0 = PStart ->
  nth_error ts i = Some (k, s) -> nth_error ts j = Some (k, s') -> In a s -> In b s' ->
  edge (m_graph m0) a b -> a <> b -> i < j.
Proof.
  intros m0 g0 ts m g i j k s s' a b B Mo R Hp Hi Hj I I' Ed Ne.
  assert (Hq : queue m0 = m_levels m0) by (unfold queue; rewrite Mo; auto).
  destruct (Nat.lt_trichotomy i j) as [L|[L|L]]; auto; exfalso.
  - subst. rewrite Hi in Hj; inversion Hj; subst s'.
    destruct (yield_one_level _ _ _ _ _ s (passes_running _ _ _ _ _ R) Hp) as (_ & [->|(x & lv & E & Il)]); auto.
    { apply in_map_iff. exists (k, s); split; auto. eapply nth_error_In; eauto. }
    rewrite Hq in E. destruct (levels_order m0 x x lv lv a b) as [_ X]; auto. specialize (X Ed Ne). lia.
  - destruct (passes_order _ _ _ _ _ _ _ _ _ _ _ R Hp Hj Hi L) as (_ & X).
    destruct (X eq_refl) as (x & y & lx & ly & Lt & Ex & Ix & Ey & Iy). rewrite Hq in *.
    destruct (levels_order m0 y x ly lx a b) as [_ Z]; auto. specialize (Z Ed Ne). lia.
Qed.
Theorem no_sender_with_receiver : forall m0 g0 ys m g s a b, queue_built m0 -> m_exact m0 = false ->
  running m0 g0 ys m g -> g_pc g0 = PStart -> In s ys -> In a s -> In b s -> edge (m_graph m0) a b -> a = b.
Proof.
  intros m0 g0 ys m g s a b B Mo R Hp I Ia Ib Ed.
  destruct (running_passes _ _ _ _ _ R) as (ts & <- & R').
  apply in_map_iff in I. destruct I as ([k s'] & <- & I). apply In_nth_error in I. destruct I as (i & I). simpl in *.
  destruct (Nat.eq_dec a b) as [->|Ne]; auto. assert (i < i) by (eapply (senders_first m0 g0 ts m g i i k s' s' a b); eauto). lia.
Qed.

(** ** Bookkeeping at a yield *)
Lemma started_list : forall m0 g0 g1 m1 l0, started m0 g0 g1 m1 -> x_list (m_ctxs m0 (g_eid g0)) = Some l0 ->
  x_list (m_ctxs m1 (g_eid g0)) = Some l0.
Proof.
  intros m0 g0 g1 m1 l0 (ms & U & S) E. destruct (start_spec _ _ _ _ S) as (_ & _ & [_ _ (l & D & Q) _ _] & _).
  rewrite (ud_ctx _ _ _ U), E in D. destruct D as [D|[D _]]; congruence.
Qed.
Lemma started_total : forall m0 g0 g1 m1 t0, started m0 g0 g1 m1 -> x_total (m_ctxs m0 (g_eid g0)) = Some t0 ->
  x_total (m_ctxs m1 (g_eid g0)) = Some (reset_total ESU t0).
Proof.
  intros m0 g0 g1 m1 t0 (ms & U & S) E. destruct (start_spec _ _ _ _ S) as (_ & _ & [(t & D & Q) _ _ _ _] & _).
  rewrite (ud_ctx _ _ _ U), E in D. destruct D as [D|[D _]]; congruence.
Qed.
Lemma started_use : forall m0 g0 g1 m1, started m0 g0 g1 m1 -> x_use (m_ctxs m1 (g_eid g0)) = Some zero_use.
Proof. intros m0 g0 g1 m1 (ms & U & S). destruct (start_spec _ _ _ _ S) as (_ & _ & [] & _); auto. Qed.
Lemma started_stamps : forall m0 g0 g1 m1, started m0 g0 g1 m1 -> x_stamps (m_ctxs m1 (g_eid g0)) = x_stamps (m_ctxs m0 (g_eid g0)).
Proof. intros m0 g0 g1 m1 (ms & U & S). destruct (start_spec _ _ _ _ S) as (_ & _ & [] & _). rewrite st_stamps, (ud_ctx _ _ _ U); auto. Qed.
Lemma started_clock : forall m0 g0 g1 m1 h0, started m0 g0 g1 m1 -> clock_after ESU h0 (the_clock (m_ctxs m0 (g_eid g0))) ->
  clock_after ESU h0 (the_clock (m_ctxs m1 (g_eid g0))).
Proof.
  intros m0 g0 g1 m1 h0 (ms & U & S) C. destruct (start_spec _ _ _ _ S) as (_ & _ & [_ _ _ _ (k & Ek & A & B & T & P)] & _).
  rewrite (ud_ctx _ _ _ U) in *. unfold the_clock at 1. rewrite Ek.
  destruct k as [kt kmd [v a i b] kp]. simpl in *.
  set (k0 := the_clock (m_ctxs m0 (g_eid g0))) in *. subst kt kmd v kp. apply ca_abs. auto.
Qed.

Theorem run_list : forall m0 g0 ys m g l0, running m0 g0 ys m g -> g_pc g0 = PStart ->
  x_list (m_ctxs m0 (g_eid g0)) = Some l0 -> x_list (m_ctxs m (g_eid g0)) = Some (l0 ++ ys).
Proof.
  intros m0 g0 ys m g l0 R Hp E.
  destruct (run_history _ _ _ _ _ R Hp) as [(-> & _ & U)|(g1 & m1 & ps & ph & St)].
  - rewrite app_nil_r, (ud_ctx _ _ _ U); auto.
  - rewrite (rs_yields _ _ _ _ _ _ _ _ _ St). eapply hist_list; [apply (rs_hist _ _ _ _ _ _ _ _ _ St)|].
    eapply started_list; eauto. apply (rs_started _ _ _ _ _ _ _ _ _ St).
Qed.
Lemma tick_list : forall s x x', tick s x x' -> x_list x' = x_list x.
Proof. intros s x x' T. apply tick_rest in T. tauto. Qed.
Theorem returned_list : forall m0 g0 ys m l l0, returned m0 g0 ys m l -> g_pc g0 = PStart ->
  x_list (m_ctxs m0 (g_eid g0)) = Some l0 -> l = l0 ++ ys /\ x_list (m_ctxs m (g_eid g0)) = Some (l0 ++ ys).
Proof.
  intros m0 g0 ys m l l0 R Hp E.
  destruct (return_history _ _ _ _ _ R Hp) as (g1 & m1 & ps & mt & mt1 & Rr).
  pose proof (hist_list _ _ _ _ _ _ l0 (rr_hist _ _ _ _ _ _ _ _ _ _ Rr) (started_list _ _ _ _ _ (rr_started _ _ _ _ _ _ _ _ _ _ Rr) E)) as L.
  rewrite <- (rr_yields _ _ _ _ _ _ _ _ _ _ Rr) in L.
  assert (X : x_list (m_ctxs m (g_eid g0)) = Some (l0 ++ ys)).
  { pose proof (rr_ctx _ _ _ _ _ _ _ _ _ _ Rr) as C. destruct (g_skip g0); [rewrite C; auto|]. apply tick_list in C. congruence. }
  rewrite (rr_list _ _ _ _ _ _ _ _ _ _ Rr) in X. inversion X. split; auto. rewrite (rr_list _ _ _ _ _ _ _ _ _ _ Rr); congruence.
Qed.

Lemma in_pass_app : forall k a b, in_pass k (a ++ b) = in_pass k a ++ in_pass k b.
Proof. intros; unfold in_pass. rewrite filter_app, map_app; auto. Qed.
Lemma in_pass_tags_lt : forall abs ps P k, P + length ps <= k -> in_pass k (tags abs P ps) = [].
Proof.
  intros abs ps P k L. unfold in_pass.
  assert (F : filter (fun a => Nat.eqb (fst a) k) (tags abs P ps) = []).
  { assert (B := tags_bounds abs ps P). revert B L. generalize (tags abs P ps).
    induction l as [|[x s] r IH]; intros B L; simpl; auto.
    destruct (Nat.eqb_spec x k); [exfalso; subst; specialize (B k s (or_introl eq_refl)); lia|].
    apply IH; auto. intros; apply (B k0 s0); right; auto. }
  rewrite F; auto.
Qed.
Lemma in_pass_same : forall k l, in_pass k (map (pair k) l) = l.
Proof. intros; unfold in_pass. induction l; simpl; auto. rewrite Nat.eqb_refl; simpl. rewrite IHl; auto. Qed.
Lemma current_in_pass : forall abs P ps ph, ph <> Between ->
  in_pass (P + length ps) (all_tagged abs P ps ph) = current abs ps ph.
Proof.
  intros abs P ps ph N. unfold all_tagged. rewrite in_pass_app, in_pass_tags_lt, in_pass_same by lia.
  destruct ph; auto. congruence.
Qed.
Lemma matches_not_between : forall abs ph pc, matches abs ph pc -> ph <> Between.
Proof. intros abs ph p M; inversion M; discriminate. Qed.

Theorem run_counts : forall m0 g0 ts m g t0, running_in_passes m0 g0 ts m g -> g_pc g0 = PStart -> ts <> [] ->
  x_total (m_ctxs m0 (g_eid g0)) = Some t0 ->
  exists t, x_total (m_ctxs m (g_eid g0)) = Some t /\ forall n,
    t LIFE n = t0 LIFE n + occurrences n (map snd ts) /\
    t ES n = t0 ES n + occurrences n (map snd ts) /\
    t ESU n = occurrences n (map snd ts) /\
    t PASS n = occurrences n (in_pass (pass_number m (g_eid g0)) ts) /\
    t CSE n = t PASS n.
Proof.
  intros m0 g0 ts m g t0 R Hp Ne E.
  destruct (passes_history _ _ _ _ _ R Hp) as [(-> & _)|(g1 & m1 & ps & ph & St & Et)]; [congruence|].
  destruct (hist_total _ _ _ _ _ _ t0 (rs_hist _ _ _ _ _ _ _ _ _ St) (started_total _ _ _ _ _ (rs_started _ _ _ _ _ _ _ _ _ St) E)) as (t & X & P).
  exists t; split; auto. intros n. destruct (P n) as (A & B & C & D & F).
  rewrite (rs_yields _ _ _ _ _ _ _ _ _ St), (state_pass _ _ _ _ _ _ _ _ _ St). rewrite Et at 1.
  rewrite current_in_pass by (eapply matches_not_between; apply (rs_matches _ _ _ _ _ _ _ _ _ St)). splits. congruence.
Qed.
Theorem returned_counts : forall m0 g0 ys m l t0, returned m0 g0 ys m l -> g_pc g0 = PStart ->
  x_total (m_ctxs m0 (g_eid g0)) = Some t0 ->
  exists t, x_total (m_ctxs m (g_eid g0)) = Some t /\ forall n,
    t LIFE n = t0 LIFE n + occurrences n ys /\ t ES n = t0 ES n + occurrences n ys /\ t ESU n = occurrences n ys.
Proof.
  intros m0 g0 ys m l t0 R Hp E.
  destruct (return_history _ _ _ _ _ R Hp) as (g1 & m1 & ps & mt & mt1 & Rr).
  destruct (hist_total _ _ _ _ _ _ t0 (rr_hist _ _ _ _ _ _ _ _ _ _ Rr) (started_total _ _ _ _ _ (rr_started _ _ _ _ _ _ _ _ _ _ Rr) E)) as (t & X & P).
  exists t. split.
  - pose proof (rr_ctx _ _ _ _ _ _ _ _ _ _ Rr) as C. destruct (g_skip g0); [rewrite C; auto|]. apply tick_rest in C. destruct C as (_ & C & _). congruence.
  - intros n. destruct (P n) as (A & B & C & _). rewrite (rr_yields _ _ _ _ _ _ _ _ _ _ Rr). auto.
Qed.
Theorem run_use : forall m0 g0 ys m g, running m0 g0 ys m g -> g_pc g0 = PStart -> ys <> [] ->
  exists u, x_use (m_ctxs m (g_eid g0)) = Some u /\ use_is u (concat ys).
Proof.
  intros m0 g0 ys m g R Hp Ne.
  destruct (run_history _ _ _ _ _ R Hp) as [(-> & _)|(g1 & m1 & ps & ph & St)]; [congruence|].
  rewrite (rs_yields _ _ _ _ _ _ _ _ _ St).
  eapply hist_use; [apply (rs_hist _ _ _ _ _ _ _ _ _ St)|eapply started_use; apply (rs_started _ _ _ _ _ _ _ _ _ St)].
Qed.
Theorem agrees_kept : forall m0 g0 ys m g, running m0 g0 ys m g -> g_pc g0 = PStart ->
  history_agrees (m_ctxs m0 (g_eid g0)) -> history_agrees (m_ctxs m (g_eid g0)).
Proof.
  intros m0 g0 ys m g R Hp (t & l & Et & El & A).
  destruct (run_history _ _ _ _ _ R Hp) as [(-> & _ & U)|(g1 & m1 & ps & ph & St)].
  - rewrite (ud_ctx _ _ _ U). exists t, l; auto.
  - assert (L := run_list _ _ _ _ _ _ R Hp El).
    destruct (hist_total _ _ _ _ _ _ t (rs_hist _ _ _ _ _ _ _ _ _ St) (started_total _ _ _ _ _ (rs_started _ _ _ _ _ _ _ _ _ St) Et)) as (t' & X & P).
    exists t', (l ++ ys). splits. intros n. destruct (P n) as (B & _). rewrite B, occurrences_app, A, (rs_yields _ _ _ _ _ _ _ _ _ St). auto.
Qed.
Theorem agrees_returned : forall m0 g0 ys m l, returned m0 g0 ys m l -> g_pc g0 = PStart ->
  history_agrees (m_ctxs m0 (g_eid g0)) -> history_agrees (m_ctxs m (g_eid g0)).
Proof.
  intros m0 g0 ys m l' R Hp (t & l & Et & El & A).
  destruct (returned_list _ _ _ _ _ _ R Hp El) as [_ L]. destruct (returned_counts _ _ _ _ _ _ R Hp Et) as (t' & X & P).
  exists t', (l ++ ys). splits. intros n. destruct (P n) as (B & _). rewrite B, occurrences_app, A. auto.
Qed.

(** ** The clock during a run *)
Lemma events_cse : forall abs ps ph pc, matches abs ph pc -> S (count CSE (run_events abs ps ph)) = length (all_yields abs ps ph).
Proof.
  intros abs ps ph p M. unfold run_events, all_yields. rewrite count_app, app_length.
  assert (E : forall ps, count CSE (concat (map (pass_events abs) ps)) = length (concat (map (pass_yields abs) ps))).
  { intros qs; induction qs as [|x r IH]; simpl; auto. rewrite count_app, app_length, IH. f_equal.
    unfold pass_events. rewrite count_app. change (count CSE [PASS]) with 0. rewrite Nat.add_0_r. unfold count.
    generalize (length (pass_yields abs x)). induction n; simpl; auto. }
  rewrite E. assert (R : forall n, count CSE (repeat CSE n) = n) by (unfold count; induction n; simpl; auto).
  inversion M; subst; simpl.
  - rewrite R, map_length, app_length; simpl. rewrite Nat.add_1_r; simpl. lia.
  - change (count CSE []) with 0. lia.
Qed.
Lemma events_fine : forall abs ps ph, Forall (fun s => ts_le s PASS) (run_events abs ps ph).
Proof.
  assert (R : forall n, Forall (fun s => ts_le s PASS) (repeat CSE n)) by (intros n; apply Forall_forall; intros x Hx; apply repeat_spec in Hx; subst; unfold ts_le; simpl; lia).
  intros abs ps ph. unfold run_events. apply Forall_app; split.
  - induction ps as [|p r IH]; simpl; auto. apply Forall_app; split; auto. unfold pass_events. apply Forall_app; split; auto.
    constructor; auto. unfold ts_le; lia.
  - destruct ph; simpl; auto.
Qed.
Lemma events_pass : forall abs ps ph, count PASS (run_events abs ps ph) = length ps.
Proof.
  assert (R : forall n, count PASS (repeat CSE n) = 0) by (unfold count; induction n; simpl; auto).
  intros abs ps ph. unfold run_events. rewrite count_app.
  assert (E : count PASS (phase_events ph) = 0) by (destruct ph; simpl; auto).
  rewrite E, Nat.add_0_r. induction ps as [|p r IH]; simpl; auto.
  rewrite count_app. unfold pass_events at 1. rewrite count_app, R, IH. reflexivity.
Qed.
(** [time_passed ev n p]: n consideration sets and p passes were completed, nothing coarser *)
Lemma events_between : forall abs ps, count CSE (run_events abs ps Between) = length (all_yields abs ps Between).
Proof.
  intros abs ps. unfold run_events, all_yields; simpl. rewrite !app_nil_r.
  induction ps as [|x r IH]; simpl; auto. rewrite count_app, app_length, IH. f_equal.
    unfold pass_events. rewrite count_app. change (count CSE [PASS]) with 0. rewrite Nat.add_0_r. unfold count.
    generalize (length (pass_yields abs x)). induction n; simpl; auto.
Qed.
Theorem run_clock : forall m0 g0 ts m g h0, running_in_passes m0 g0 ts m g -> g_pc g0 = PStart -> ts <> [] ->
  clock_after ESU h0 (the_clock (m_ctxs m0 (g_eid g0))) ->
  exists ev, clock_after ESU (h0 ++ ev) (the_clock (m_ctxs m (g_eid g0))) /\
    S (count CSE ev) = length ts /\ Forall (fun s => ts_le s PASS) ev /\
    pass_number m (g_eid g0) = pass_number m0 (g_eid g0) + count PASS ev.
Proof.
  intros m0 g0 ts m g h0 R Hp Ne C.
  destruct (passes_history _ _ _ _ _ R Hp) as [(-> & _)|(g1 & m1 & ps & ph & St & Et)]; [congruence|].
  destruct (hist_clock _ _ _ _ _ _ h0 (rs_hist _ _ _ _ _ _ _ _ _ St) (started_clock _ _ _ _ _ (rs_started _ _ _ _ _ _ _ _ _ St) C)) as (K & _).
  exists (run_events (g_abs g1) ps ph). splits.
  - rewrite (events_cse _ _ _ _ (rs_matches _ _ _ _ _ _ _ _ _ St)), <- (rs_yields _ _ _ _ _ _ _ _ _ St), map_length; auto.
  - apply events_fine.
  - rewrite events_pass. eapply state_pass; eauto.
Qed.
Theorem returned_clock : forall m0 g0 ys m l h0, returned m0 g0 ys m l -> g_pc g0 = PStart ->
  clock_after ESU h0 (the_clock (m_ctxs m0 (g_eid g0))) ->
  exists ev, clock_after ESU (h0 ++ ev ++ (if g_skip g0 then [] else [ESU])) (the_clock (m_ctxs m (g_eid g0))) /\
    count CSE ev = length ys /\ Forall (fun s => ts_le s PASS) ev.
Proof.
  intros m0 g0 ys m l h0 R Hp C.
  destruct (return_history _ _ _ _ _ R Hp) as (g1 & m1 & ps & mt & mt1 & Rr).
  destruct (hist_clock _ _ _ _ _ _ h0 (rr_hist _ _ _ _ _ _ _ _ _ _ Rr) (started_clock _ _ _ _ _ (rr_started _ _ _ _ _ _ _ _ _ _ Rr) C)) as (K & _).
  exists (run_events (g_abs g1) ps Between). splits.
  - pose proof (rr_ctx _ _ _ _ _ _ _ _ _ _ Rr) as X. destruct (g_skip g0).
    + rewrite app_nil_r, X; auto.
    + rewrite app_assoc. eapply tick_clock; eauto.
  - rewrite events_between, (rr_yields _ _ _ _ _ _ _ _ _ _ Rr); auto.
  - apply events_fine.
Qed.
