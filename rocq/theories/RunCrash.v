(** What a resumption that ends with an exception leaves behind. *)
From Verif Require Export RunIds RunExamples.

(** list kept, lifetime counts increased exactly for the nodes of extra *)
Definition kept_but (extra : list node) (x x' : ctx) : Prop :=
  x_list x' = x_list x /\ x_stamps x' = x_stamps x /\
  forall t, x_total x = Some t -> exists t', x_total x' = Some t' /\ forall n, t' LIFE n = t LIFE n + (if mem n extra then 1 else 0).
Ltac kb := unfold kept_but in *; splits.
Lemma kept_refl : forall x, kept_but [] x x.
Proof. intros x. kb. intros t E. exists t. split; [auto|]. intros n. simpl. lia. Qed.
Lemma kept_eq : forall x x', x' = x -> kept_but [] x x'.
Proof. intros; subst; apply kept_refl. Qed.
Lemma kept_trans : forall ex a b c, kept_but [] a b -> kept_but ex b c -> kept_but ex a c.
Proof.
  intros ex a b c (A1 & A2 & A3) (B1 & B2 & B3). kb; try congruence. intros t E. destruct (A3 t E) as (t1 & E1 & H1).
  destruct (B3 t1 E1) as (t2 & E2 & H2). exists t2. split; auto. intros n. rewrite H2, H1. simpl. lia.
Qed.
Lemma kept_after : forall ex a b c, kept_but ex a b -> kept_but [] b c -> kept_but ex a c.
Proof.
  intros ex a b c (A1 & A2 & A3) (B1 & B2 & B3). kb; try congruence. intros t E. destruct (A3 t E) as (t1 & E1 & H1).
  destruct (B3 t1 E1) as (t2 & E2 & H2). exists t2. split; auto. intros n. rewrite H2, H1. simpl. lia.
Qed.
Lemma kept_reset : forall x, kept_but [] x (ctx_reset x).
Proof. intros x. kb. intros t E. simpl. rewrite E. simpl. eexists; split; [reflexivity|]. intros n. unfold reset_total; simpl. lia. Qed.
Lemma kept_tick : forall s x x', tick s x x' -> kept_but [] x x'.
Proof. intros s x x' (k & _ & ->). kb. intros t E. exists t. split; [auto|]. intros n. simpl. lia. Qed.
Lemma kept_accepts : forall s x, NoDup s -> kept_but s x (ctx_accepts s x).
Proof.
  intros s x N. destruct (ctx_accepts_other s x) as (A & B & _). kb. intros t E.
  destruct (ctx_accepts_total s x t E N) as (t' & E' & H). exists t'. split; auto. intros n. rewrite H, occurrences_one. auto.
Qed.
Lemma kept_incr : forall s m e m', incr_clock s m e = Ok m' -> kept_but [] (m_ctxs m e) (m_ctxs m' e).
Proof. intros s m e m' H. apply (incr_clock_spec (tc := fun _ => None)) in H. destruct H as [_ H]. eapply kept_tick; eauto. Qed.

Section Crash.
Variables (q : list (list node)) (tc : tconds).
(** a round, a level, a pass that raises *)
Lemma round_err : forall level m e exec ch ex m', round m e level exec ch = (Err ex, m') ->
  exists added, added_ok (tc := tc) m e level exec added m'.
Proof.
  induction level as [|n r IH]; intros m e exec ch ex m' H; simpl in H; [discriminate|].
  destruct (mem n exec) eqn:M.
  - destruct (IH _ _ _ _ _ _ H) as (ad & A). exists ad. eapply added_ok_incl; [|exact A]. intros x Hx; right; auto.
  - destruct (aget n (m_basic m)) as [c|] eqn:Ec; [|inversion H; subst; exists []; apply added_ok_nil; auto using frame_refl].
    destruct (satisfied m e c) as [[[|]|ex1] m1] eqn:Es; assert (C1 := satisfied_cst _ _ _ _ _ Es);
      assert (G1 : frame (tc := tc) e m m1) by (eapply satisfied_frame; eauto; left; eauto).
    + destruct (mem n (m_nodes m1)); [|inversion H; subst; exists []; apply added_ok_nil; auto; rewrite (cst_only_ctxs _ _ C1); auto].
      destruct (accept_spec (tc := tc) m1 e n) as (F1 & X1 & _).
      destruct (IH _ _ _ _ _ _ H) as (ad & A). exists ([n] ++ ad). apply added_ok_app with (m1 := accept m1 e n).
      * constructor.
        -- eapply frame_trans; eauto.
        -- rewrite X1, (cst_only_ctxs _ _ C1); auto.
        -- intros x [->|[]]; left; auto.
        -- intros N; apply NoDup_app_intro; auto.
           ++ constructor; [intros []|constructor].
           ++ intros x Hx [->|[]]. apply mem_In in Hx; congruence.
        -- intros p n' r' E. destruct p as [|y p]; simpl in E.
           ++ inversion E; subst. eapply sat_at_intro; eauto. apply frame_refl.
           ++ destruct p; discriminate.
      * eapply added_ok_incl; [|exact A]. intros x Hx; right; auto.
    + destruct (IH _ _ _ _ _ _ H) as (ad & A). exists ([] ++ ad). apply added_ok_app with (m1 := m1).
      * apply added_ok_nil; auto. rewrite (cst_only_ctxs _ _ C1); auto.
      * rewrite app_nil_r. eapply added_ok_incl; [|exact A]. intros x Hx; right; auto.
    + inversion H; subst. exists []. apply added_ok_nil; auto. rewrite (cst_only_ctxs _ _ C1); auto.
Qed.
Lemma do_level_err : forall fuel m e level exec ex m', do_level fuel m e level exec = Some (Err ex, m') ->
  exists added, added_ok (tc := tc) m e level exec added m'.
Proof.
  induction fuel as [|f IH]; intros m e level exec ex m' H; simpl in H; [discriminate|].
  destruct (round m e level exec false) as [[[exec' [|]]|ex1] m1] eqn:R; [| |].
  - destruct (round_spec (tc := tc) _ _ _ _ _ _ _ _ R) as (a & -> & _ & A & _).
    destruct (IH _ _ _ _ _ _ H) as (b & B). exists (a ++ b). eapply added_ok_app; eauto.
  - discriminate.
  - inversion H; subst. eapply round_err; eauto.
Qed.
End Crash.

Definition crashed (q : list (list node)) (x x' : ctx) : Prop := exists extra, accepted_unyielded q extra /\ kept_but extra x x'.
Lemma crashed_kept : forall q x x', kept_but [] x x' -> crashed q x x'.
Proof. intros q x x' K. exists []. split; auto. split; [constructor|auto]. Qed.
Lemma crashed_eq : forall q x x', x' = x -> crashed q x x'.
Proof. intros; apply crashed_kept, kept_eq; auto. Qed.
Lemma crashed_trans : forall q a b c, kept_but [] a b -> crashed q b c -> crashed q a c.
Proof. intros q a b c K (ex & A & K2). exists ex. split; auto. eapply kept_trans; eauto. Qed.
Lemma append_err : forall m e abs s ex m', append_exec m e abs s = (Err ex, m') -> x_list (m_ctxs m e) <> None ->
  (abs = true -> x_stamps (m_ctxs m e) <> None) -> False.
Proof.
  intros m e abs s ex m' H L T. unfold append_exec in H. destruct (x_list (m_ctxs m e)); [|congruence].
  destruct abs; [|inversion H]. destruct (x_stamps (m_ctxs m e)); [inversion H|]. apply T; auto.
Qed.
Lemma inner_err : forall rest m g i ch m' ex, inner m g rest i ch = IErr m' ex ->
  x_list (m_ctxs m (g_eid g)) <> None -> (g_abs g = true -> x_stamps (m_ctxs m (g_eid g)) <> None) ->
  crashed rest (m_ctxs m (g_eid g)) (m_ctxs m' (g_eid g)).
Proof.
  induction rest as [|level rest IH]; intros m g i ch m' ex H L T; cbn [inner] in H; [discriminate|].
  destruct (terminated m (g_eid g) (g_tc g)) as [[[|]|ex1] m1] eqn:Tm; assert (Q1 := terminated_quiet _ _ _ _ Tm); try discriminate.
  - assert (X1 := proj2 Q1).
    destruct (do_level (S (length level)) m1 (g_eid g) level []) as [[[exec|ex1] m2]|] eqn:D; try discriminate.
    + apply (do_level_ok (tc := g_tc g)) in D. assert (A := lv_added _ _ _ _ _ D).
      assert (X2 := ad_ctx _ _ _ _ _ _ A). rewrite X1 in X2. destruct (ctx_accepts_other exec (m_ctxs m (g_eid g))) as (Y1 & Y2 & _).
      destruct (nonempty exec || g_abs g) eqn:C.
      * destruct (append_exec m2 (g_eid g) (g_abs g) exec) as [[r|ex2] m3] eqn:Ap; [discriminate|]. exfalso.
        eapply append_err; eauto; rewrite X2; [rewrite Y1|rewrite Y2]; auto.
      * apply orb_false_iff in C. destruct C as [C1 C2]. destruct exec; [|discriminate]. simpl in X2.
        destruct (IH _ _ _ _ _ _ H) as (ex' & (N & I) & K); [rewrite X2; auto|rewrite X2; auto|].
        rewrite X2 in K. exists ex'. split; auto. split; auto. destruct I as [->|(lv & I1 & I2)]; [left; auto|right; exists lv; split; auto; right; auto].
    + inversion H; subst. destruct (do_level_err (g_tc g) _ _ _ _ _ _ _ D) as (ad & A). exists ad. split.
      * split; [apply (ad_nodup _ _ _ _ _ _ A); constructor|]. right. exists level. split; [left; auto|]. apply (ad_incl _ _ _ _ _ _ A).
      * rewrite (ad_ctx _ _ _ _ _ _ A), X1. apply kept_accepts. apply (ad_nodup _ _ _ _ _ _ A). constructor.
  - inversion H; subst. apply crashed_eq. apply (proj2 Q1).
Qed.
Lemma finish_err : forall m g m' g' ex, finish m g = (m', g', ORaise ex) -> kept_but [] (m_ctxs m (g_eid g)) (m_ctxs m' (g_eid g)).
Proof.
  intros m g m' g' ex H. unfold finish in H. destruct (g_skip g).
  - destruct (check_tc m (g_eid g) (g_tc g) ES) as [[b|ex1] m2] eqn:C; apply check_tc_quiet in C.
    + destruct (x_list (m_ctxs m2 (g_eid g))); inversion H; subst. apply kept_eq, (proj2 C).
    + inversion H; subst. apply kept_eq, (proj2 C).
  - destruct (incr_clock ESU m (g_eid g)) as [m1|ex1] eqn:I; [|inversion H; subst; apply kept_refl].
    apply kept_incr in I. destruct (check_tc m1 (g_eid g) (g_tc g) ES) as [[b|ex1] m2] eqn:C; apply check_tc_quiet in C.
    + destruct (x_list (m_ctxs m2 (g_eid g))); inversion H; subst. eapply kept_trans; [exact I|apply kept_eq, (proj2 C)].
    + inversion H; subst. eapply kept_trans; [exact I|apply kept_eq, (proj2 C)].
Qed.
Definition ready (g : gen) (x : ctx) : Prop := x_list x <> None /\ (g_abs g = true -> x_stamps x <> None).
Lemma ready_kept : forall g x x' ex, ready g x -> kept_but ex x x' -> ready g x'.
Proof. intros g x x' ex [A B] (C & D & _). unfold ready. rewrite C, D; auto. Qed.
Lemma tail_kept : forall m g ch, ready g (m_ctxs m (g_eid g)) ->
  match pass_tail m g ch with TYield _ => True | TNext m' | TErr m' _ => kept_but [] (m_ctxs m (g_eid g)) (m_ctxs m' (g_eid g)) end.
Proof.
  intros m g ch [L T]. unfold pass_tail. destruct (negb ch && negb (g_abs g)).
  - destruct (append_exec m (g_eid g) false []) as [[r|ex] m'] eqn:A; auto. exfalso. eapply append_err; eauto; discriminate.
  - destruct (incr_clock PASS m (g_eid g)) eqn:I; [eapply kept_incr; eauto|apply kept_refl].
Qed.
Lemma crashed_incl : forall q q' x x', incl q q' -> crashed q x x' -> crashed q' x x'.
Proof.
  intros q q' x x' I (ex & (N & D) & K). exists ex. split; auto. split; auto. destruct D as [->|(lv & A & B)]; auto.
  right; exists lv; auto.
Qed.
Lemma outer_err : forall fuel m g m' g' ex, outer fuel m g = (m', g', ORaise ex) -> ready g (m_ctxs m (g_eid g)) ->
  crashed (queue m) (m_ctxs m (g_eid g)) (m_ctxs m' (g_eid g)) /\ g' = at_pc g PDone.
Proof.
  induction fuel as [|f IH]; intros m g m' g' ex H R; cbn [outer] in H; [discriminate|].
  destruct (terminated m (g_eid g) (g_tc g)) as [[[|]|ex1] m1] eqn:Tm; assert (Q1 := terminated_quiet _ _ _ _ Tm).
  - assert (G := finish_pc m1 g). rewrite H in G. apply finish_err in H. split; auto. apply crashed_kept. rewrite (proj2 Q1) in H. auto.
  - cbv zeta in H. destruct (reset_spec (g_tc g) m1 (g_eid g)) as [Fr Xr]. set (m2 := reset_counts_total PASS m1 (g_eid g)) in *.
    rewrite (proj2 Q1) in Xr. assert (K2 : kept_but [] (m_ctxs m (g_eid g)) (m_ctxs m2 (g_eid g))) by (rewrite Xr; apply kept_reset).
    assert (R2 := ready_kept _ _ _ _ R K2).
    assert (F2 : frame (tc := g_tc g) (g_eid g) m m2) by (eapply frame_trans; [apply Q1|auto]).
    rewrite (frame_queue _ _ _ F2) in H.
    destruct (inner m2 g (queue m) 0 false) as [x s i c|x c|x ex1|x] eqn:I; try discriminate.
    + destruct (inner_end _ _ _ _ _ _ _ I) as ([Fx Xx] & _ & _).
      assert (R3 : ready g (m_ctxs x (g_eid g))) by (rewrite Xx; auto).
      pose proof (tail_kept x g c R3) as TK. rewrite Xx in TK. assert (K3 := fun a b => kept_trans [] _ _ _ K2 (b : kept_but [] _ a)).
      pose proof (fixed_tail x g c) as FT.
      destruct (pass_tail x g c) as [y|y|y ey]; try discriminate.
      * specialize (K3 _ TK). destruct (IH _ _ _ _ _ H) as [C G]; [exact (ready_kept _ _ _ _ R K3)|]. split; auto.
        assert (Qy : queue y = queue m).
        { simpl in FT. unfold queue. rewrite (fx_exact _ _ _ FT), (fx_graph _ _ _ FT), (fx_levels _ _ _ FT).
          fold (queue x). rewrite (frame_queue _ _ _ Fx), (frame_queue _ _ _ F2); auto. }
        rewrite Qy in C. eapply crashed_trans; eauto.
      * inversion H; subst. split; auto. apply crashed_kept; auto.
    + inversion H; subst. split; auto. destruct R2 as [R2 R2']. eapply crashed_trans; [exact K2|]. eapply inner_err; eauto.
  - inversion H; subst. split; auto. apply crashed_eq, (proj2 Q1).
Qed.
Lemma start_err : forall m g ex m', start m g = (Err ex, m') -> x_total (m_ctxs m (g_eid g)) <> None -> x_list (m_ctxs m (g_eid g)) <> None ->
  kept_but [] (m_ctxs m (g_eid g)) (m_ctxs m' (g_eid g)).
Proof.
  intros m g ex m' H T L. rewrite start_eq in H.
  destruct (toposort (m_graph m)); try (inversion H; subst; apply kept_refl).
  destruct (add_defaults (m_nodes m) m) as [mb|] eqn:A; [|inversion H; subst; apply kept_refl].
  destruct (add_defaults_rest _ _ _ A) as (_ & _ & _ & X & _). rewrite <- X in *. clear A X. unfold start_rest in H. cbv zeta in H.
  set (tc := match g_tcarg g with None => m_tconds mb | Some a => combine_tconds (m_tconds mb) a end) in *.
  set (m2 := set_clock mb (g_eid g) (the_clock (m_ctxs mb (g_eid g)))) in *.
  assert (K2 : kept_but [] (m_ctxs mb (g_eid g)) (m_ctxs m2 (g_eid g))).
  { unfold m2, set_clock. rewrite set_ctx_at. kb. intros t E. exists t; split; [auto|]. intros; simpl; lia. }
  destruct (setup_absolute m2 (g_eid g) tc) as [m3|] eqn:Su; [|inversion H; subst; auto].
  apply setup_ctx in Su. destruct Su as (k & ->).
  assert (K3 : kept_but [] (m_ctxs mb (g_eid g)) (m_ctxs (set_clock m2 (g_eid g) k) (g_eid g))).
  { eapply kept_trans; [exact K2|]. unfold set_clock. rewrite set_ctx_at. kb. intros t E. exists t; split; [auto|]. intros; simpl; lia. }
  set (m3 := set_clock m2 (g_eid g) k) in *. clearbody m3. destruct (init_counts_base m3 (g_eid g) (g_base g)) as [[u|e2] m4] eqn:I; [inversion H|].
  inversion H; subst m'. eapply kept_trans; [exact K3|]. unfold init_counts_base in I. destruct K3 as (KL & KS & KT).
  destruct (x_total (m_ctxs mb (g_eid g))) as [t|] eqn:Et; [|congruence]. destruct (KT t eq_refl) as (t' & Et' & _). rewrite Et' in I. simpl in I.
  assert (G : forall u l k', l = x_list (m_ctxs m3 (g_eid g)) ->
     kept_but [] (m_ctxs m3 (g_eid g)) (mkCtx (Some t') u l (x_stamps (m_ctxs m3 (g_eid g))) k')).
  { intros u l k' ->. kb. intros t1 E1. simpl. exists t'. split; auto. intros. simpl. rewrite Et' in E1. inversion E1; subst. lia. }
  destruct (copy_entry (x_use _) _) as [ou|]; [|inversion I; subst; rewrite set_ctx_at; apply G; auto].
  destruct (x_list (m_ctxs m3 (g_eid g))) as [l|] eqn:El; [|congruence]. simpl in I.
  destruct (copy_entry (x_clock _) _) as [oc|]; inversion I; subst. rewrite set_ctx_at. apply G; auto.
Qed.
Lemma resume_err : forall fuel m g m' g' ex, resume fuel m g = (m', g', ORaise ex) -> g_pc g <> PStart -> ready g (m_ctxs m (g_eid g)) ->
  crashed (queue m) (m_ctxs m (g_eid g)) (m_ctxs m' (g_eid g)) /\ g' = at_pc g PDone.
Proof.
  intros fuel m g m' g' ex H P R. unfold resume in H. destruct (g_pc g) as [|i ch| |] eqn:E; [congruence| | |discriminate].
  - destruct (incr_clock CSE m (g_eid g)) as [m1|] eqn:I; [|inversion H; subst; split; auto; apply crashed_kept, kept_refl].
    assert (F1 := fixed_incr _ _ _ _ I). apply kept_incr in I.
    assert (R1 := ready_kept _ _ _ _ R I). cbv zeta in H.
    assert (Q1 : queue m1 = queue m) by (unfold queue; rewrite (fx_exact _ _ _ F1), (fx_graph _ _ _ F1), (fx_levels _ _ _ F1); auto).
    rewrite Q1 in H. destruct (inner m1 g (skipn (S i) (queue m)) (S i) ch) as [x s j c|x c|x ex1|x] eqn:In; try discriminate.
    + destruct (inner_end _ _ _ _ _ _ _ In) as ([Fx Xx] & _ & _).
      assert (R3 : ready g (m_ctxs x (g_eid g))) by (rewrite Xx; auto).
      pose proof (tail_kept x g c R3) as TK. rewrite Xx in TK. pose proof (fixed_tail x g c) as FT.
      destruct (pass_tail x g c) as [y|y|y ey]; try discriminate.
      * assert (K3 := kept_trans _ _ _ _ I TK). destruct (outer_err _ _ _ _ _ _ H) as [C G]; [exact (ready_kept _ _ _ _ R K3)|].
        split; auto. simpl in FT.
        assert (Qy : queue y = queue m).
        { unfold queue. rewrite (fx_exact _ _ _ FT), (fx_graph _ _ _ FT), (fx_levels _ _ _ FT).
          fold (queue x). rewrite (frame_queue _ _ _ Fx); auto. }
        rewrite Qy in C. eapply crashed_trans; eauto.
      * inversion H; subst. split; auto. apply crashed_kept. eapply kept_trans; eauto.
    + inversion H; subst. split; auto. eapply crashed_trans; [exact I|].
      apply (crashed_incl (skipn (S i) (queue m))); [|destruct R1; eapply inner_err; eauto].
      intros l Hl. rewrite <- (firstn_skipn (S i) (queue m)). apply in_app_iff; auto.
  - destruct (incr_clock CSE m (g_eid g)) as [m1|] eqn:I; [|inversion H; subst; split; auto; apply crashed_kept, kept_refl].
    assert (F1 := fixed_incr _ _ _ _ I). apply kept_incr in I.
    destruct (incr_clock PASS m1 (g_eid g)) as [m2|] eqn:I2; [|inversion H; subst; split; auto; apply crashed_kept; auto].
    assert (F2 := fixed_incr _ _ _ _ I2). apply kept_incr in I2. assert (K := kept_trans _ _ _ _ I I2).
    destruct (outer_err _ _ _ _ _ _ H) as [C G]; [exact (ready_kept _ _ _ _ R K)|]. split; auto.
    assert (Qy : queue m2 = queue m).
    { unfold queue. rewrite (fx_exact _ _ _ F2), (fx_graph _ _ _ F2), (fx_levels _ _ _ F2), (fx_exact _ _ _ F1), (fx_graph _ _ _ F1), (fx_levels _ _ _ F1); auto. }
    rewrite Qy in C. eapply crashed_trans; eauto.
Qed.
Lemma hist_stamps : forall q abs x0 ps ph x, hist q abs x0 ps ph x -> x_stamps x0 <> None -> x_stamps x <> None.
Proof.
  intros q abs x0 ps ph x H N.
  assert (A : forall b s x x', appended b s x x' -> x_stamps x <> None -> x_stamps x' <> None).
  { intros b s a a' (l & _ & D) Na. destruct b; [destruct D as (ts & _ & ->); discriminate|subst a'; auto]. }
  assert (Tk : forall s x x', tick s x x' -> x_stamps x <> None -> x_stamps x' <> None).
  { intros s a a' (k & _ & ->); auto. }
  induction H; eauto.
  - eapply A; eauto. destruct (ctx_accepts_other s x) as (_ & -> & _); auto.
Qed.
Theorem crash : forall m0 g0 ys m g fuel m' g' ex t0 l0, running m0 g0 ys m g -> g_pc g0 = PStart ->
  x_total (m_ctxs m0 (g_eid g0)) = Some t0 -> x_list (m_ctxs m0 (g_eid g0)) = Some l0 -> x_stamps (m_ctxs m0 (g_eid g0)) <> None ->
  resume fuel m g = (m', g', ORaise ex) ->
  exists extra t', accepted_unyielded (queue m0) extra /\
    x_list (m_ctxs m' (g_eid g0)) = Some (l0 ++ ys) /\
    x_total (m_ctxs m' (g_eid g0)) = Some t' /\
    (forall n, t' LIFE n = t0 LIFE n + occurrences n ys + (if mem n extra then 1 else 0)) /\
    forall fuel', resume fuel' m' g' = (m', g', OStop).
Proof.
  intros m0 g0 ys m g fuel m' g' ex t0 l0 R P T L St H.
  assert (Fin : crashed (queue m0) (m_ctxs m (g_eid g0)) (m_ctxs m' (g_eid g0)) /\ g' = at_pc g' PDone).
  { destruct (run_history _ _ _ _ _ R P) as [(-> & -> & U)|(g1 & m1 & ps & ph & RS)].
    - assert (X := ud_ctx _ _ _ U). assert (Qm : queue m = queue m0) by (apply static_queue, (static_undisturbed _ _ _ U)).
      unfold resume in H. rewrite P in H. destruct (start m g0) as [[g1|e1] m1] eqn:Sm.
      + assert (Ee := start_eid _ _ _ _ Sm). destruct (start_spec _ _ _ _ Sm) as (Sc & _ & [ST _ SL SS _] & _).
        rewrite X in ST, SL, SS. destruct SL as (l & [El|[El _]] & SL); [|congruence]. destruct ST as (t & [Et|[Et _]] & ST); [|congruence].
        destruct (outer_err _ _ _ _ _ _ H) as [C G].
        { rewrite Ee. split; [congruence|]. intros _. rewrite SS; auto. }
        rewrite Ee in C. rewrite (static_queue _ _ Sc), Qm in C. split; [|subst g'; auto]. eapply crashed_trans; [|exact C].
        unfold kept_but. rewrite SL, SS, X. splits. intros t1 E1. exists (reset_total ESU t). split; auto. intros n.
        unfold reset_total; simpl. rewrite Et in E1. inversion E1. lia.
      + inversion H; subst. split; auto. apply crashed_kept. eapply start_err; eauto; congruence.
    - assert (Ge := rs_gen _ _ _ _ _ _ _ _ _ RS). assert (Ee : g_eid g = g_eid g0) by (rewrite Ge; simpl; apply (rs_eid _ _ _ _ _ _ _ _ _ RS)).
      destruct (rs_started _ _ _ _ _ _ _ _ _ RS) as (ms & U & Sm). destruct (start_spec _ _ _ _ Sm) as (_ & _ & [_ _ (l & _ & SL) SS _] & _).
      assert (HH := rs_hist _ _ _ _ _ _ _ _ _ RS).
      assert (Rd : ready g (m_ctxs m (g_eid g))).
      { rewrite Ee. split; [rewrite (hist_list _ _ _ _ _ _ l HH SL); discriminate|]. intros _. eapply hist_stamps; eauto.
        rewrite SS, (ud_ctx _ _ _ U); auto. }
      assert (Np : g_pc g <> PStart) by (destruct (rs_matches _ _ _ _ _ _ _ _ _ RS); discriminate).
      destruct (resume_err _ _ _ _ _ _ H Np Rd) as [C G]. rewrite Ee, (static_queue _ _ (rs_static _ _ _ _ _ _ _ _ _ RS)) in C. split; auto. subst g'; auto. }
  destruct Fin as [(extra & A & (K1 & _ & K3)) G].
  assert (Lm : x_list (m_ctxs m (g_eid g0)) = Some (l0 ++ ys)) by (eapply run_list; eauto).
  assert (Tm : exists t, x_total (m_ctxs m (g_eid g0)) = Some t /\ forall n, t LIFE n = t0 LIFE n + occurrences n ys).
  { destruct (run_history _ _ _ _ _ R P) as [(-> & -> & U)|(g1 & m1 & ps & ph & RS)].
    - exists t0. rewrite (ud_ctx _ _ _ U). split; [auto|]. intros n. unfold occurrences; simpl. lia.
    - destruct (rs_started _ _ _ _ _ _ _ _ _ RS) as (ms & U & Sm). destruct (start_spec _ _ _ _ Sm) as (_ & _ & [(t & D & Et) _ _ _ _] & _).
      rewrite (ud_ctx _ _ _ U), T in D. destruct D as [D|[D _]]; [inversion D; subst t|discriminate].
      destruct (hist_total _ _ _ _ _ _ t0 (rs_hist _ _ _ _ _ _ _ _ _ RS) Et) as (t & E & HT). exists t. split; auto.
      intros n. rewrite (rs_yields _ _ _ _ _ _ _ _ _ RS). apply HT. }
  destruct Tm as (t & Et & Ht). destruct (K3 t Et) as (t' & Et' & H').
  exists extra, t'. split; [auto|]. split; [congruence|]. split; [auto|]. split; [intros n; rewrite H', Ht; auto|].
  intros f. rewrite G. reflexivity.
Qed.
