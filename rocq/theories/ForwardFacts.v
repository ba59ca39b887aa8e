(** Clocks and lists of times over a session. *)
From Verif Require Import SpecForward BaseFacts RunProofs RunHist RunFacts RunProps YieldFacts RunChange ResumeFrame CondSetFacts SchedFacts SchedThms ChangeFacts RunIds RunCrash AbsFacts.
From Verif Require AbsFacts.

(** [goes U x x']: clock and list of times of x' arise from those of x by increments, by setting up
    absolute time with intervals in U, and by noting the current time *)
Inductive goes (U : Q -> Prop) : ctx -> ctx -> Prop :=
| go_same : forall x x', the_clock x' = the_clock x -> x_stamps x' = x_stamps x -> goes U x x'
| go_incr : forall s x x', clock_incr s (the_clock x) = Ok (the_clock x') -> x_stamps x' = x_stamps x -> goes U x x'
| go_setup : forall a u b x x' k, k = the_clock x -> (t_abs (k_time k) <= a)%Q -> U u \/ u = t_interval (k_time k) ->
    the_clock x' = mkClock (k_tree k) (k_md k) (mkTime (t_val (k_time k)) a u b) (k_prev k) -> x_stamps x' = x_stamps x -> goes U x x'
| go_stamp : forall x x' ts, the_clock x' = the_clock x -> x_stamps x = Some ts -> x_stamps x' = Some (ts ++ [k_time (the_clock x)]) -> goes U x x'
| go_trans : forall x y z, goes U x y -> goes U y z -> goes U x z.
Lemma goes_eq : forall U x x', x' = x -> goes U x x'.
Proof. intros; subst; apply go_same; auto. Qed.
Lemma goes_clock : forall U x x', x_clock x' = x_clock x -> x_stamps x' = x_stamps x -> goes U x x'.
Proof. intros U x x' H S. apply go_same; auto. unfold the_clock. rewrite H; auto. Qed.
Lemma goes_accepts : forall U s x, goes U x (ctx_accepts s x).
Proof. intros U s x. destruct (ctx_accepts_other s x) as (_ & A & B). apply goes_clock; auto. Qed.
Lemma goes_incr : forall U s m e m', incr_clock s m e = Ok m' -> goes U (m_ctxs m e) (m_ctxs m' e).
Proof.
  intros U s m e m' H. unfold incr_clock in H. destruct (clock_incr s (the_clock (m_ctxs m e))) as [k|] eqn:E; [|discriminate]. injection H as <-.
  unfold set_clock. rewrite set_ctx_at. apply (go_incr U s); auto.
Qed.
Lemma goes_append : forall U m e abs s r m', append_exec m e abs s = (r, m') -> goes U (m_ctxs m e) (m_ctxs m' e).
Proof.
  intros U m e abs s r m' H. unfold append_exec in H. destruct (x_list (m_ctxs m e)) as [l|]; [|injection H as _ <-; apply goes_eq; auto].
  destruct abs; [destruct (x_stamps (m_ctxs m e)) as [ts|] eqn:E|]; injection H as _ <-; rewrite set_ctx_at.
  - apply (go_stamp U _ _ ts); auto.
  - apply goes_clock; simpl; auto.
  - apply goes_clock; auto.
Qed.
Section Run.
Variable U : Q -> Prop.
Notation goes := (goes U).
Lemma inner_goes : forall rest m g i ch, goes (m_ctxs m (g_eid g)) (m_ctxs (inner_core (inner m g rest i ch)) (g_eid g)).
Proof.
  induction rest as [|level rest IH]; intros m g i ch; cbn [inner]; [apply goes_eq; auto|].
  destruct (terminated m (g_eid g) (g_tc g)) as [[[|]|ex1] m1] eqn:Tm; pose proof (proj2 (terminated_quiet _ _ _ _ Tm)) as X1; try (apply goes_eq; auto; fail).
  destruct (do_level (S (length level)) m1 (g_eid g) level []) as [[[exec|ex1] m2]|] eqn:D; [| |apply goes_eq; auto].
  - apply (do_level_ok (tc := g_tc g)) in D. pose proof (ad_ctx _ _ _ _ _ _ (lv_added _ _ _ _ _ D)) as X2. rewrite X1 in X2.
    assert (G2 : goes (m_ctxs m (g_eid g)) (m_ctxs m2 (g_eid g))) by (rewrite X2; apply goes_accepts).
    cbv zeta. destruct (nonempty exec || g_abs g).
    + destruct (append_exec m2 (g_eid g) (g_abs g) exec) as [[r|e3] m3] eqn:Ap; simpl; (eapply go_trans; [exact G2|eapply goes_append; eauto]).
    + eapply go_trans; [exact G2|apply IH].
  - destruct (do_level_err (g_tc g) _ _ _ _ _ _ _ D) as (ad & A). simpl. rewrite (ad_ctx _ _ _ _ _ _ A), X1. apply goes_accepts.
Qed.
Lemma tail_goes : forall m g ch, goes (m_ctxs m (g_eid g)) (m_ctxs (tail_core (pass_tail m g ch)) (g_eid g)).
Proof.
  intros m g ch. unfold pass_tail. destruct (negb ch && negb (g_abs g)).
  - destruct (append_exec m (g_eid g) false []) as [[r|e3] m'] eqn:A; simpl; eapply goes_append; eauto.
  - destruct (incr_clock PASS m (g_eid g)) eqn:I; simpl; [eapply goes_incr; eauto|apply goes_eq; auto].
Qed.
Lemma finish_goes : forall m g, goes (m_ctxs m (g_eid g)) (m_ctxs (fst (fst (finish m g))) (g_eid g)).
Proof.
  intros m g. unfold finish.
  assert (H : forall m1, goes (m_ctxs m (g_eid g)) (m_ctxs m1 (g_eid g)) -> goes (m_ctxs m (g_eid g)) (m_ctxs (fst (fst (match check_tc m1 (g_eid g) (g_tc g) ES with
      | (Err ex, m2) => (m2, at_pc g PDone, ORaise ex)
      | (Ok _, m2) => match x_list (m_ctxs m2 (g_eid g)) with None => (m2, at_pc g PDone, ORaise EKey) | Some l => (m2, at_pc g PDone, OReturn l) end
      end))) (g_eid g))).
  { intros m1 B. destruct (check_tc m1 (g_eid g) (g_tc g) ES) as [[b|ex1] m2] eqn:C; apply check_tc_quiet in C; destruct C as [_ C]; rewrite <- C in B; auto.
    destruct (x_list (m_ctxs m2 (g_eid g))); auto. }
  destruct (g_skip g); [apply H, goes_eq; auto|].
  destruct (incr_clock ESU m (g_eid g)) as [m1|] eqn:I; [apply H; eapply goes_incr; eauto|]. apply goes_eq; auto.
Qed.
Lemma reset_goes : forall s m e, goes (m_ctxs m e) (m_ctxs (reset_counts_total s m e) e).
Proof. intros. unfold reset_counts_total. rewrite set_ctx_at. apply goes_clock; auto. Qed.
Lemma outer_goes : forall fuel m g, goes (m_ctxs m (g_eid g)) (m_ctxs (fst (fst (outer fuel m g))) (g_eid g)).
Proof.
  induction fuel as [|f IH]; intros m g; cbn [outer]; [apply goes_eq; auto|].
  destruct (terminated m (g_eid g) (g_tc g)) as [[[|]|ex1] m1] eqn:Tm; pose proof (proj2 (terminated_quiet _ _ _ _ Tm)) as X1; rewrite <- X1.
  - apply finish_goes.
  - cbv zeta. set (m2 := reset_counts_total PASS m1 (g_eid g)).
    assert (G2 : goes (m_ctxs m1 (g_eid g)) (m_ctxs m2 (g_eid g))) by apply reset_goes.
    assert (G3 := go_trans _ _ _ _ G2 (inner_goes (queue m2) m2 g 0 false)).
    destruct (inner m2 g (queue m2) 0 false) as [m3 s i c|m3 c|m3 ex|m3]; auto.
    simpl in G3. assert (G4 := go_trans _ _ _ _ G3 (tail_goes m3 g c)). destruct (pass_tail m3 g c) as [m4|m4|m4 ex]; auto.
    eapply go_trans; [exact G4|apply IH].
  - apply goes_eq; auto.
Qed.
Lemma set_clock_goes : forall m e, goes (m_ctxs m e) (m_ctxs (set_clock m e (the_clock (m_ctxs m e))) e).
Proof. intros. unfold set_clock. rewrite set_ctx_at. apply go_same; auto. Qed.
Lemma setup_goes : forall m e tc m', setup_absolute m e tc = Ok m' -> (forall u, absolute_conditions m tc <> [] -> unit_of m tc = Ok u -> U u) ->
  goes (m_ctxs m e) (m_ctxs m' e).
Proof.
  intros m e tc m' H Hu. unfold setup_absolute in H. destruct (absolute_conditions m tc) as [|c cs].
  - injection H as <-. unfold set_clock. rewrite set_ctx_at. eapply (go_setup U (t_abs (k_time (the_clock (m_ctxs m e))))); [reflexivity|apply Qle_refl|right; reflexivity|simpl; reflexivity|auto].
  - destruct (unit_of m tc) as [u|]; [|discriminate]. injection H as <-. unfold set_clock. rewrite set_ctx_at.
    eapply (go_setup U (Qmax' (t_abs (k_time (the_clock (m_ctxs m e)))) (first_time (c :: cs)))); [reflexivity| |left; apply Hu; [discriminate|reflexivity]|simpl; reflexivity|auto].
    unfold Qmax'. destruct (Qle_bool (first_time (c :: cs)) (t_abs (k_time (the_clock (m_ctxs m e))))) eqn:E; [apply Qle_refl|].
    apply Qlt_le_weak, Qnot_le_lt. intros L. apply Qle_bool_iff in L. congruence.
Qed.
Lemma start_goes : forall m g r m', start m g = (r, m') ->
  (forall mb tc u, add_defaults (m_nodes m) m = Ok mb -> tc = match g_tcarg g with None => m_tconds m | Some a => combine_tconds (m_tconds m) a end ->
     absolute_conditions mb tc <> [] -> unit_of mb tc = Ok u -> U u) ->
  goes (m_ctxs m (g_eid g)) (m_ctxs m' (g_eid g)).
Proof.
  intros m g r m' H Hu. rewrite start_eq in H.
  destruct (toposort (m_graph m)); try (injection H as _ <-; apply goes_eq; auto).
  destruct (add_defaults (m_nodes m) m) as [mb|] eqn:A; [|injection H as _ <-; apply goes_eq; auto].
  destruct (add_defaults_rest _ _ _ A) as (_ & _ & _ & X & _). pose proof (proj1 (proj2 (proj2 (add_defaults_spec _ _ _ A)))) as Tc. rewrite <- X in *. clear X. unfold start_rest in H. cbv zeta in H.
  pose proof (fun u => Hu mb _ u eq_refl eq_refl) as Hv. rewrite <- Tc in Hv. clear Hu.
  set (tc := match g_tcarg g with None => m_tconds mb | Some a => combine_tconds (m_tconds mb) a end) in *.
  set (m2 := set_clock mb (g_eid g) (the_clock (m_ctxs mb (g_eid g)))) in *.
  assert (B2 : goes (m_ctxs mb (g_eid g)) (m_ctxs m2 (g_eid g))) by apply set_clock_goes.
  destruct (setup_absolute m2 (g_eid g) tc) as [m3|] eqn:Su; [|injection H as _ <-; auto].
  assert (C3 : x_clock (m_ctxs m3 (g_eid g)) <> None) by (apply setup_ctx in Su; destruct Su as (k & ->); unfold set_clock; rewrite set_ctx_at; simpl; discriminate).
  apply setup_goes in Su; [|exact Hv].
  assert (B3 := go_trans _ _ _ _ B2 Su).
  assert (I4 : forall r4 m4, init_counts_base m3 (g_eid g) (g_base g) = (r4, m4) -> goes (m_ctxs m3 (g_eid g)) (m_ctxs m4 (g_eid g))).
  { intros r4 m4 I. unfold init_counts_base in I. destruct (copy_entry (x_total _) _); [|injection I as _ <-; apply goes_eq; auto].
    destruct (copy_entry (x_use _) _); [|injection I as _ <-; rewrite set_ctx_at; apply goes_clock; auto].
    destruct (copy_entry (x_list _) _); [|injection I as _ <-; rewrite set_ctx_at; apply goes_clock; auto].
    destruct (x_clock (m_ctxs m3 (g_eid g))) as [k|] eqn:E; [|congruence]. simpl in I. injection I as _ <-. rewrite set_ctx_at. apply goes_clock; auto. }
  destruct (init_counts_base m3 (g_eid g) (g_base g)) as [[u|e2] m4] eqn:I; assert (B4 := go_trans _ _ _ _ B3 (I4 _ _ eq_refl));
    [|injection H as _ <-; auto].
  injection H as _ <-. eapply go_trans; [exact B4|]. eapply go_trans; [|apply reset_goes]. unfold reset_counts_useable. rewrite set_ctx_at. apply goes_clock; auto.
Qed.
(** a suspended generator increments the clock first *)
Definition goes_on (x x' : ctx) : Prop := exists y k, clock_incr CSE (the_clock x) = Ok k /\ the_clock y = k /\ goes y x'.
Lemma resume_goes : forall fuel m g, (g_pc g = PStart -> forall mb tc u, add_defaults (m_nodes m) m = Ok mb ->
     tc = match g_tcarg g with None => m_tconds m | Some a => combine_tconds (m_tconds m) a end -> absolute_conditions mb tc <> [] -> unit_of mb tc = Ok u -> U u) ->
  goes (m_ctxs m (g_eid g)) (m_ctxs (fst (fst (resume fuel m g))) (g_eid g)).
Proof.
  intros fuel m g Hu. unfold resume. destruct (g_pc g) as [|i ch| |]; [| | |apply goes_eq; auto].
  - destruct (start m g) as [[g1|ex] m1] eqn:S; pose proof (start_goes _ _ _ _ S (Hu eq_refl)) as B; [|exact B].
    assert (Ge : g_eid g1 = g_eid g) by apply (start_spec _ _ _ _ S).
    eapply go_trans; [exact B|]. rewrite <- Ge. apply outer_goes.
  - destruct (incr_clock CSE m (g_eid g)) as [m1|] eqn:I; [|apply goes_eq; auto]. eapply go_trans; [eapply goes_incr; exact I|].
    cbv zeta. assert (G3 := inner_goes (skipn (S i) (queue m1)) m1 g (S i) ch).
    destruct (inner m1 g (skipn (S i) (queue m1)) (S i) ch) as [m3 s j c|m3 c|m3 ex|m3]; auto.
    simpl in G3. assert (G4 := go_trans _ _ _ _ G3 (tail_goes m3 g c)). destruct (pass_tail m3 g c) as [m4|m4|m4 ex]; auto.
    eapply go_trans; [exact G4|apply outer_goes].
  - destruct (incr_clock CSE m (g_eid g)) as [m1|] eqn:I; [|apply goes_eq; auto]. eapply go_trans; [eapply goes_incr; exact I|].
    destruct (incr_clock PASS m1 (g_eid g)) as [m2|] eqn:I2; [|apply goes_eq; auto]. eapply go_trans; [eapply goes_incr; exact I2|apply outer_goes].
Qed.
Lemma resume_goes_on : forall fuel m g m' g' s, resume fuel m g = (m', g', OYield s) -> g_pc g <> PStart -> goes_on (m_ctxs m (g_eid g)) (m_ctxs m' (g_eid g)).
Proof.
  intros fuel m g m' g' s H P. unfold resume in H. destruct (g_pc g) as [|i ch| |]; [congruence| | |discriminate].
  - destruct (incr_clock CSE m (g_eid g)) as [m1|] eqn:I; [|discriminate].
    assert (I' := I). unfold incr_clock in I'. destruct (clock_incr CSE (the_clock (m_ctxs m (g_eid g)))) as [k|] eqn:E; [|discriminate].
    exists (m_ctxs m1 (g_eid g)), k. split; [auto|]. split; [injection I' as <-; unfold set_clock; rewrite set_ctx_at; reflexivity|].
    cbv zeta in H. assert (G3 := inner_goes (skipn (S i) (queue m1)) m1 g (S i) ch).
    destruct (inner m1 g (skipn (S i) (queue m1)) (S i) ch) as [m3 s' j c|m3 c|m3 ex|m3]; try discriminate; [injection H as <- _ _; auto|].
    simpl in G3. assert (G4 := go_trans _ _ _ _ G3 (tail_goes m3 g c)). destruct (pass_tail m3 g c) as [m4|m4|m4 ex]; try discriminate; [injection H as <- _ _; auto|].
    eapply go_trans; [exact G4|]. assert (O := outer_goes fuel m4 g). rewrite H in O. exact O.
  - destruct (incr_clock CSE m (g_eid g)) as [m1|] eqn:I; [|discriminate].
    assert (I' := I). unfold incr_clock in I'. destruct (clock_incr CSE (the_clock (m_ctxs m (g_eid g)))) as [k|] eqn:E; [|discriminate].
    exists (m_ctxs m1 (g_eid g)), k. split; [auto|]. split; [injection I' as <-; unfold set_clock; rewrite set_ctx_at; reflexivity|].
    destruct (incr_clock PASS m1 (g_eid g)) as [m2|] eqn:I2; [|discriminate]. eapply go_trans; [eapply goes_incr; exact I2|].
    assert (O := outer_goes fuel m2 g). rewrite H in O. exact O.
Qed.
Lemma failed_goes : forall d d1 g ex, d_ctxs d1 = d_ctxs d -> goes (d_ctxs d (g_eid g)) (d_ctxs (fst (fst (sresume_failed d d1 g ex))) (g_eid g)).
Proof.
  intros d d1 g ex C. unfold sresume_failed. destruct (g_pc g) as [|i ch| |]; [apply goes_eq; simpl; rewrite C; auto| | |apply goes_eq; auto].
  - destruct (incr_clock CSE (core_of d) (g_eid g)) as [m1|] eqn:I; [|apply goes_eq; auto]. exact (goes_incr _ _ _ _ _ I).
  - destruct (incr_clock CSE (core_of d) (g_eid g)) as [m1|] eqn:I; [|apply goes_eq; auto].
    pose proof (goes_incr U _ _ _ _ I) as B1. simpl in B1.
    destruct (incr_clock PASS m1 (g_eid g)) as [m2|] eqn:I2; [|exact B1].
    assert (B2 := go_trans _ _ _ _ B1 (goes_incr U _ _ _ _ I2)).
    destruct (terminated m2 (g_eid g) (g_tc g)) as [[[|]|ex1] m3] eqn:Tm; pose proof (proj2 (terminated_quiet _ _ _ _ Tm)) as X1; rewrite <- X1 in B2.
    + pose proof (finish_goes m3 g) as Fi. destruct (finish m3 g) as [[m4 g4] o4]. eapply go_trans; eauto.
    + eapply go_trans; [exact B2|]. exact (reset_goes PASS m3 (g_eid g)).
    + exact B2.
Qed.
End Run.

(** ** what follows for the times *)
Lemma later_trans : forall a b c, not_later a b -> not_later b c -> not_later a c.
Proof.
  intros a b c [A|(s & L & E)] [B|(s' & L' & E')].
  - left. intros s. rewrite A, B; auto.
  - right. exists s'. split; [rewrite A; auto|]. intros t Ht. rewrite A; auto.
  - right. exists s. split; [rewrite <- B; auto|]. intros t Ht. rewrite E by auto. apply B.
  - right. unfold ts_lt in *. destruct (lt_eq_lt_dec (ts_val s) (ts_val s')) as [[H|H]|H].
    + exists s'. split; [rewrite (E s' H); auto|]. intros t Ht. unfold ts_lt in Ht. rewrite E by lia. apply E'. lia.
    + assert (s' = s) by (destruct s, s'; simpl in H; try discriminate; auto). subst. exists s. split; [lia|]. intros t Ht. unfold ts_lt in Ht. rewrite E by lia. apply E'. lia.
    + exists s. split; [rewrite <- (E' s H); auto|]. intros t Ht. unfold ts_lt in Ht. rewrite E by lia. apply E'. lia.
Qed.
Lemma earlier_later : forall a b c, earlier a b -> not_later b c -> earlier a c.
Proof.
  intros a b c A B. destruct (later_trans a b c (or_intror A) B) as [E|E]; auto. exfalso.
  destruct A as (s & L & E1). destruct B as [B|(s' & L' & E')].
  - specialize (E s). specialize (B s). lia.
  - unfold ts_lt in *. destruct (lt_eq_lt_dec (ts_val s) (ts_val s')) as [[H|H]|H].
    + specialize (E s'). rewrite (E1 s' H) in E. lia.
    + assert (s' = s) by (destruct s, s'; simpl in H; try discriminate; auto). subst. specialize (E s). lia.
    + specialize (E s). rewrite <- (E' s H) in E. lia.
Qed.
Lemma incr_earlier : forall s k k', clock_incr s k = Ok k' -> earlier (k_time k) (k_time k').
Proof.
  intros s k k' H. unfold clock_incr in H. destruct (tree_incr (k_md k) s (k_tree k)); [|discriminate]. injection H as <-. simpl.
  exists s. unfold time_incr, time_reset, upd_ts, ts_lt. simpl.
  destruct (t_abs_enabled (k_time k) && ts_eqb s CSE); (split; [destruct s; simpl; lia|intros s' L; destruct s, s'; simpl in *; try lia; auto]).
Qed.
Lemma goes_later : forall U x x', goes U x x' -> not_later (k_time (the_clock x)) (k_time (the_clock x')).
Proof.
  intros U x x' G. induction G as [x x' E _|s x x' E _|a u b x x' k -> _ _ E _|x x' ts E _ _|x y z _ IH1 _ IH2].
  - rewrite E. left; intros s; auto.
  - right. eapply incr_earlier; eauto.
  - rewrite E. left; intros s; auto.
  - rewrite E. left; intros s; auto.
  - eapply later_trans; eauto.
Qed.
Lemma goes_history : forall U x x' h, goes U x x' -> clock_after ESU h (the_clock x) -> exists h2, clock_after ESU (h ++ h2) (the_clock x').
Proof.
  intros U x x' h G. revert h. induction G as [x x' E _|s x x' E _|a u b x x' k -> _ _ E _|x x' ts E _ _|x y z _ IH1 _ IH2]; intros h C.
  - exists []. rewrite app_nil_r, E; auto.
  - exists [s]. eapply ca_incr; eauto.
  - exists []. rewrite app_nil_r, E. apply ca_abs; auto.
  - exists []. rewrite app_nil_r, E; auto.
  - destruct (IH1 h C) as (h1 & C1). destruct (IH2 _ C1) as (h2 & C2). exists (h1 ++ h2). rewrite app_assoc; auto.
Qed.
(** the list of times stays in order and before the clock *)
Definition timely (le : Time -> Time -> Prop) (x : ctx) : Prop :=
  forall ts, x_stamps x = Some ts -> in_order le ts /\ forall t, In t ts -> le t (k_time (the_clock x)).
Lemma timely_later : forall (le : Time -> Time -> Prop) x x', (forall a b c, le a b -> le b c -> le a c) -> le (k_time (the_clock x)) (k_time (the_clock x')) ->
  x_stamps x' = x_stamps x -> timely le x -> timely le x'.
Proof. intros le x x' Tr L S T ts E. rewrite S in E. destruct (T ts E) as [A B]. split; [auto|]. intros t Ht. eapply Tr; [apply B; auto|auto]. Qed.
Lemma in_order_snoc : forall (le : Time -> Time -> Prop) ts t, in_order le ts -> (forall a, In a ts -> le a t) -> in_order le (ts ++ [t]).
Proof.
  intros le ts t O A i j a b Ha Hb L. assert (J : j < length (ts ++ [t])) by (apply nth_error_Some; congruence). rewrite app_length in J. simpl in J.
  rewrite nth_error_app1 in Ha by lia. destruct (Nat.eq_dec j (length ts)) as [->|N].
  - rewrite nth_error_app2, Nat.sub_diag in Hb by lia. injection Hb as <-. apply A. eapply nth_error_In; eauto.
  - rewrite nth_error_app1 in Hb by lia. eapply O; eauto.
Qed.
Lemma timely_stamp : forall (le : Time -> Time -> Prop) x x' ts, (forall a, le a a) -> the_clock x' = the_clock x -> x_stamps x = Some ts ->
  x_stamps x' = Some (ts ++ [k_time (the_clock x)]) -> timely le x -> timely le x'.
Proof.
  intros le x x' ts R E S S' T ts' E'. rewrite S' in E'. injection E' as <-. rewrite E. destruct (T ts S) as [A B]. split; [apply in_order_snoc; auto|].
  intros t Ht. apply in_app_iff in Ht. destruct Ht as [Ht|[<-|[]]]; auto.
Qed.
Lemma goes_timely : forall U x x', goes U x x' -> timely not_later x -> timely not_later x'.
Proof.
  intros U x x' G. induction G as [x x' E S|s x x' E S|a u b x x' k -> _ _ E S|x x' ts E S S'|x y z _ IH1 _ IH2]; intros T; auto.
  - eapply timely_later; eauto using later_trans. rewrite E. left; intros s; auto.
  - eapply timely_later; eauto using later_trans. right. eapply incr_earlier; eauto.
  - eapply timely_later; eauto using later_trans. rewrite E. left; intros s; auto.
  - eapply timely_stamp; eauto. intros t. left; intros s; auto.
Qed.
(** absolute times *)
Lemma incr_abs : forall s k k', clock_incr s k = Ok k' -> (0 <= t_interval (k_time k))%Q -> abs_not_later (k_time k) (k_time k') /\ t_interval (k_time k') = t_interval (k_time k).
Proof.
  intros s k k' H N. unfold clock_incr in H. destruct (tree_incr (k_md k) s (k_tree k)); [|discriminate]. injection H as <-. simpl. unfold abs_not_later, time_incr, time_reset. simpl.
  destruct (t_abs_enabled (k_time k) && ts_eqb s CSE); simpl; split; auto; [|apply Qle_refl].
  rewrite <- (Qplus_0_r (t_abs (k_time k))) at 1. apply Qplus_le_compat; [apply Qle_refl|auto].
Qed.
Definition nonneg (u : Q) : Prop := (0 <= u)%Q.
Lemma goes_abs : forall x x', goes nonneg x x' -> nonneg (t_interval (k_time (the_clock x))) ->
  abs_not_later (k_time (the_clock x)) (k_time (the_clock x')) /\ nonneg (t_interval (k_time (the_clock x'))) /\ (timely abs_not_later x -> timely abs_not_later x').
Proof.
  assert (Tr : forall a b c, abs_not_later a b -> abs_not_later b c -> abs_not_later a c) by (intros a b c; apply Qle_trans).
  intros x x' G. induction G as [x x' E S|s x x' E S|a u b x x' k -> L V E S|x x' ts E S S'|x y z _ IH1 _ IH2]; intros N.
  - rewrite E. split; [apply Qle_refl|]. split; [auto|]. apply timely_later; auto. rewrite E. apply Qle_refl.
  - destruct (incr_abs _ _ _ E N) as [A I]. rewrite I. split; [auto|]. split; [auto|]. apply timely_later; auto.
  - rewrite E; simpl. split; [exact L|]. split; [destruct V as [V| ->]; auto|]. apply timely_later; auto. rewrite E. exact L.
  - rewrite E. split; [apply Qle_refl|]. split; [auto|]. eapply timely_stamp; eauto. intros t. apply Qle_refl.
  - destruct (IH1 N) as (A & B & C). destruct (IH2 B) as (A' & B' & C'). split; [eauto|]. split; auto.
Qed.

(** ** units *)
Lemma Qmin_list_pos : forall l z, (0 < z)%Q -> (forall q, In q l -> 0 < q)%Q -> (0 < Qmin_list l z)%Q.
Proof. intros l z Z H. destruct l as [|x r]; [auto|]. apply H. apply Qmin_list_in. discriminate. Qed.
Lemma gcd_nonneg : forall l, (0 <= fold_right Z.gcd 0 l)%Z.
Proof. destruct l; simpl; [lia|apply Z.gcd_nonneg]. Qed.
Lemma unit_nonneg : forall du ivs exact qlen u, absolute_unit du ivs exact qlen = Ok u -> nonneg (q_val du) -> (forall q, In q ivs -> (0 < q_unit q)%Q) -> nonneg u.
Proof.
  intros du ivs exact qlen u H N P. unfold absolute_unit in H. destruct ivs as [|i r]; [injection H as <-; auto|]. cbv zeta in H.
  destruct (if exact then 1 else qlen) as [|d]; [discriminate|]. injection H as <-. unfold nonneg.
  apply Qmult_le_0_compat.
  - unfold Qle. simpl. rewrite Z.mul_1_r. exact (gcd_nonneg (map _ (i :: r))).
  - apply Qlt_le_weak. apply (Qmin_list_pos (map q_unit (i :: r)) 1%Q); [reflexivity|]. intros q I. apply in_map_iff in I. destruct I as (y & <- & Iy). auto.
Qed.
Lemma core_unit : forall m mb g tc u, add_defaults (m_nodes m) m = Ok mb ->
  tc = match g_tcarg g with None => m_tconds m | Some a => combine_tconds (m_tconds m) a end ->
  unit_of mb tc = Ok u -> nonneg (q_val (m_default_unit m)) ->
  (forall c, In c (map snd (m_basic m)) -> positive_times c) -> (forall s c, m_tconds m s = Some c -> positive_times c) ->
  (forall tc s c, g_tcarg g = Some tc -> tc s = Some c -> positive_times c) -> nonneg u.
Proof.
  intros m mb g tc u A Et H N P1 P2 P3. unfold unit_of in H. cbv zeta in H.
  assert (Du : m_default_unit mb = m_default_unit m) by (apply (gw_unit 0 m mb), (grown_defaults 0 _ _ _ A)).
  rewrite Du in H. apply (unit_nonneg _ _ _ _ _ H); auto. intros q I.
  apply in_flat_map in I. destruct I as (c & Ic & Iq).
  assert (Pc : positive_times c).
  { unfold absolute_conditions in Ic. apply filter_In in Ic. destruct Ic as [Ic Ab]. apply in_app_iff in Ic. destruct Ic as [Ic|Ic].
    - apply P1. eapply add_defaults_absolute; eauto.
    - unfold tc_list in Ic. apply in_flat_map in Ic. destruct Ic as (s & _ & Is). destruct (tc s) as [c'|] eqn:E; [|destruct Is]. destruct Is as [->|[]].
      subst tc. destruct (g_tcarg g) as [a|] eqn:Eg; [|eauto]. unfold combine_tconds in E. destruct (a s) as [c'|] eqn:Ea; [injection E as ->; eauto|eauto]. }
  apply Pc. apply AbsFacts.respected_in. apply in_app_iff in Iq. apply in_app_iff. destruct Iq as [Iq|Iq]; auto. destruct (m_exact mb); [auto|destruct Iq].
Qed.

(** a generator that has yielded is suspended in a run of the same execution id *)
Lemma outer_pc : forall fuel m g m' g' s, outer fuel m g = (m', g', OYield s) -> g_eid g' = g_eid g /\ g_pc g' <> PStart.
Proof.
  induction fuel as [|f IH]; intros m g m' g' s H; cbn [outer] in H; [discriminate|].
  destruct (terminated m (g_eid g) (g_tc g)) as [[[|]|ex1] m1]; [| |discriminate].
  - exfalso. unfold finish in H. destruct (if g_skip g then _ else _); [destruct (check_tc _ _ _ _) as [[|] ?]; [destruct (x_list _)|]|]; discriminate.
  - cbv zeta in H. destruct (inner _ _ _ _ _) as [m3 s3 i c|m3 c|m3 ex|m3]; try discriminate; [injection H as _ <- _; split; [auto|discriminate]|].
    destruct (pass_tail m3 g c); try discriminate; [injection H as _ <- _; split; [auto|discriminate]|eauto].
Qed.
Lemma yield_pc : forall fuel m g m' g' s, resume fuel m g = (m', g', OYield s) -> g_eid g' = g_eid g /\ g_pc g' <> PStart.
Proof.
  intros fuel m g m' g' s H. unfold resume in H. destruct (g_pc g) as [|i ch| |]; [| | |discriminate].
  - destruct (start m g) as [[g1|ex] m1] eqn:S; [|discriminate]. rewrite <- (proj1 (proj2 (proj2 (proj2 (start_spec _ _ _ _ S))))). eapply outer_pc; eauto.
  - destruct (incr_clock CSE m (g_eid g)) as [m1|]; [|discriminate]. cbv zeta in H.
    destruct (inner _ _ _ _ _) as [m3 s3 j c|m3 c|m3 ex|m3]; try discriminate; [injection H as _ <- _; split; [auto|discriminate]|].
    destruct (pass_tail m3 g c); try discriminate; [injection H as _ <- _; split; [auto|discriminate]|eapply outer_pc; eauto].
  - destruct (incr_clock CSE m (g_eid g)) as [m1|]; [|discriminate]. destruct (incr_clock PASS m1 (g_eid g)) as [m2|]; [|discriminate]. eapply outer_pc; eauto.
Qed.

(** ** sessions *)
Section Sessions.
Variable cyc : graph -> list (list node).
Variable arr : list (list node) -> list (list node).
Lemma call_goes : forall (U : Q -> Prop) e k d,
  (forall f g, k = CNext f g -> g_eid g = e -> g_pc g = PStart -> (forall u, U u) \/ (sound_units d g /\ forall u, nonneg u -> U u)) ->
  goes U (d_ctxs d e) (d_ctxs (after cyc arr k d) e).
Proof.
  intros U e k d H. destruct k as [k| |t|f g|e']; try (apply goes_eq, after_elsewhere; exact I).
  - destruct (Nat.eq_dec (g_eid g) e) as [Ge|N]; [|apply goes_eq, after_elsewhere; exact N]. specialize (H f g eq_refl Ge). subst e.
    simpl. unfold sresume. destruct (sync cyc arr d) as [[r|ex] d1] eqn:S; pose proof (sync_ctxs _ _ _ _ _ S) as C; [|apply failed_goes; auto].
    pose proof (sync_set_stack _ _ _ _ _ S) as (st & l & Ed).
    pose proof (resume_goes U f (core_of d1) g) as R. destruct (resume f (core_of d1) g) as [[m g'] o]. simpl in *. rewrite C in R. apply R.
    intros P mb tc u A Et _ Hu. destruct (H P) as [H'|[Su Hn]]; [auto|]. apply Hn. destruct Su as (S1 & S2 & S3 & S4).
    apply (core_unit (core_of d1) mb g tc u A Et Hu); subst d1; simpl; eauto.
    intros c Ic. apply in_map_iff in Ic. destruct Ic as ([n c'] & <- & Ic). eauto.
  - destruct (Nat.eq_dec e' e) as [->|N]; [|apply goes_eq, after_elsewhere; exact N]. simpl. unfold send_environment_sequence, end_environment_sequence.
    destruct (incr_clock ES (core_of d) e) as [m1|] eqn:I; simpl; [exact (goes_incr _ _ _ _ _ I)|apply goes_eq; auto].
Qed.
Definition any_unit (u : Q) : Prop := True.
Lemma session_goes : forall e ks d, goes any_unit (d_ctxs d e) (d_ctxs (after_all cyc arr ks d) e).
Proof.
  intros e. induction ks as [|k r IH]; intros d; [apply goes_eq; auto|]. eapply go_trans; [|apply (IH (after cyc arr k d))].
  apply call_goes. intros. left. exact (fun _ => I).
Qed.
Lemma session_goes_sound : forall e ks d, units_sound cyc arr e ks d -> goes nonneg (d_ctxs d e) (d_ctxs (after_all cyc arr ks d) e).
Proof.
  intros e. induction ks as [|k r IH]; intros d S; [apply goes_eq; auto|]. destruct S as [S1 S2]. eapply go_trans; [|apply (IH (after cyc arr k d) S2)].
  apply call_goes. intros f g -> Ge P. right. auto.
Qed.
Theorem session_forward : forall e ks d, not_later (time_of d e) (time_of (after_all cyc arr ks d) e).
Proof. intros. eapply goes_later, session_goes. Qed.
Theorem session_history : forall e ks d h, clock_after ESU h (the_clock (d_ctxs d e)) ->
  exists h2, clock_after ESU (h ++ h2) (the_clock (d_ctxs (after_all cyc arr ks d) e)).
Proof. intros e ks d h C. eapply goes_history; [apply session_goes|auto]. Qed.
Theorem session_absolute : forall e ks d, units_sound cyc arr e ks d -> nonneg (t_interval (time_of d e)) -> abs_not_later (time_of d e) (time_of (after_all cyc arr ks d) e).
Proof. intros e ks d S N. apply (goes_abs _ _ (session_goes_sound e ks d S) N). Qed.
Theorem yields_apart : forall fuel d g d1 g1 s ks fuel' d2 g2 s', sresume cyc arr fuel d g = (d1, g1, OYield s) ->
  sresume cyc arr fuel' (after_all cyc arr ks d1) g1 = (d2, g2, OYield s') -> earlier (time_of d1 (g_eid g)) (time_of d2 (g_eid g)).
Proof.
  intros fuel d g d1 g1 s ks fuel' d2 g2 s' H H'.
  assert (G1 : g_eid g1 = g_eid g /\ g_pc g1 <> PStart).
  { destruct (sresume_parts _ _ _ _ _ _ _ _ H) as (r & d0 & _ & R & _). exact (yield_pc _ _ _ _ _ _ R). }
  destruct G1 as [Ge Pc]. rewrite <- Ge.
  destruct (sresume_parts _ _ _ _ _ _ _ _ H') as (r & d0 & S & R & E).
  destruct (resume_goes_on any_unit _ _ _ _ _ _ R Pc) as (y & k & I & Y & G). simpl in I, G. rewrite (sync_ctxs _ _ _ _ _ S) in I.
  pose proof (incr_earlier _ _ _ I) as L1. pose proof (goes_later _ _ _ G) as L2. rewrite Y in L2.
  pose proof (session_forward (g_eid g1) ks d1) as L0. unfold time_of in *.
  assert (L3 : earlier (k_time (the_clock (d_ctxs (after_all cyc arr ks d1) (g_eid g1)))) (k_time (the_clock (d_ctxs d2 (g_eid g1))))) by (eapply earlier_later; eauto).
  destruct L0 as [L0|L0]; [|eapply earlier_later; [exact L0|right; exact L3]].
  destruct L3 as (sc & A & B). exists sc. split; [rewrite (L0 sc); auto|]. intros s1 Hs. rewrite (L0 s1). auto.
Qed.
Theorem session_stamps : forall e ks d, timely not_later (d_ctxs d e) -> timely not_later (d_ctxs (after_all cyc arr ks d) e).
Proof. intros e ks d T. eapply goes_timely; [apply session_goes|auto]. Qed.
Theorem session_stamps_absolute : forall e ks d, units_sound cyc arr e ks d -> nonneg (t_interval (time_of d e)) ->
  timely abs_not_later (d_ctxs d e) -> timely abs_not_later (d_ctxs (after_all cyc arr ks d) e).
Proof. intros e ks d S N. apply (goes_abs _ _ (session_goes_sound e ks d S) N). Qed.
End Sessions.
