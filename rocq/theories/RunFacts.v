(** Counts, lists and clocks along a run. *)
From Verif Require Export RunHist.

(** the sets yielded in the current (or, between passes, the last) pass *)
Definition current (abs : bool) (ps : list pass) (ph : phase) : list (list node) :=
  match ph with
  | Between => match rev ps with [] => [] | p :: _ => pass_yields abs p end
  | _ => phase_yields abs ph
  end.

Lemma occurrences_app : forall n a b, occurrences n (a ++ b) = occurrences n a + occurrences n b.
Proof. intros; unfold occurrences; rewrite filter_app, app_length; auto. Qed.
Lemma occurrences_one : forall n s, occurrences n [s] = if mem n s then 1 else 0.
Proof. intros; unfold occurrences; simpl; destruct (mem n s); auto. Qed.

(** ** execution_list *)
Lemma appended_list : forall abs s x x', appended abs s x x' ->
  exists l, x_list x = Some l /\ x_list x' = Some (l ++ [s]) /\ x_total x' = x_total x /\ x_use x' = x_use x /\ x_clock x' = x_clock x.
Proof. intros abs s x x' (l & E & H). exists l. destruct abs; [destruct H as (ts & Et & ->)|subst x']; simpl; auto. Qed.
Lemma tick_rest : forall s x x', tick s x x' -> x_list x' = x_list x /\ x_total x' = x_total x /\ x_use x' = x_use x /\ x_stamps x' = x_stamps x.
Proof. intros s x x' (k & E & ->); simpl; auto. Qed.

Lemma all_yields_end : forall abs ps p, abs = true \/ p <> [] -> all_yields abs (ps ++ [p]) Between = all_yields abs ps (Open p).
Proof.
  intros abs ps p H. unfold all_yields. rewrite map_app, concat_app; simpl. rewrite !app_nil_r. f_equal.
  unfold pass_yields. destruct abs; auto. destruct p; auto. destruct H; congruence.
Qed.
Lemma all_yields_idle : forall ps, all_yields false (ps ++ [[]]) Between = all_yields false ps AtIdle.
Proof. intros. unfold all_yields. rewrite map_app, concat_app; simpl. rewrite !app_nil_r. auto. Qed.
Lemma all_yields_exec : forall abs ps p i s, all_yields abs ps (AtYield (p ++ [(i, s)])) = all_yields abs ps (Open p) ++ [s].
Proof. intros. unfold all_yields; simpl. rewrite map_app, app_assoc; auto. Qed.
Lemma all_yields_idle1 : forall abs ps, all_yields abs ps AtIdle = all_yields abs ps (Open []) ++ [[]].
Proof. intros. unfold all_yields; simpl. rewrite app_nil_r; auto. Qed.
Lemma hist_idle_abs : forall q abs x0 ps x, hist q abs x0 ps AtIdle x -> abs = false.
Proof. intros q abs x0 ps x H; inversion H; auto. Qed.

Theorem hist_list : forall q abs x0 ps ph x l0, hist q abs x0 ps ph x -> x_list x0 = Some l0 ->
  x_list x = Some (l0 ++ all_yields abs ps ph).
Proof.
  intros q abs x0 ps ph x l0 H E. induction H.
  - rewrite app_nil_r; auto.
  - simpl. rewrite IHhist. reflexivity.
  - destruct (ctx_accepts_other s x) as (A & _). destruct (appended_list _ _ _ _ H1) as (l & B & C & _).
    rewrite C. rewrite A, IHhist in B. inversion B; subst. rewrite all_yields_exec, app_assoc; auto.
  - destruct (tick_rest _ _ _ H0) as (A & _). rewrite A, IHhist; auto.
  - destruct (appended_list _ _ _ _ H1) as (l & B & C & _). rewrite C. rewrite IHhist in B. inversion B; subst.
    rewrite all_yields_idle1, app_assoc; auto.
  - destruct (tick_rest _ _ _ H0) as (A & _), (tick_rest _ _ _ H1) as (B & _).
    rewrite B, A, IHhist. rewrite (hist_idle_abs _ _ _ _ _ H), all_yields_idle. auto.
  - destruct (tick_rest _ _ _ H1) as (A & _). rewrite A, IHhist, all_yields_end; auto.
Qed.

(** ** counts_total *)
Lemma ctx_accepts_total : forall s x t, x_total x = Some t -> NoDup s ->
  exists t', x_total (ctx_accepts s x) = Some t' /\ forall sc n, t' sc n = t sc n + occurrences n [s].
Proof.
  induction s as [|a s IH]; intros x t E N.
  - exists t; split; auto. 
  - inversion N; subst. change (ctx_accepts (a :: s) x) with (ctx_accepts s (ctx_accept a x)).
    destruct (IH (ctx_accept a x) (bump_total a t)) as (t' & E' & P); auto.
    + simpl; rewrite E; auto.
    + exists t'; split; auto. intros sc n. rewrite P. unfold bump_total. rewrite !occurrences_one.
      unfold mem; simpl. rewrite (Nat.eqb_sym n a). destruct (Nat.eqb_spec a n); simpl.
      * subst. fold (mem n s). destruct (mem n s) eqn:M; [apply mem_In in M; contradiction|lia].
      * fold (mem n s). destruct (mem n s); lia.
Qed.
Definition total_is (abs : bool) (t0 t : timescale -> node -> nat) ps ph : Prop := forall n,
  t LIFE n = t0 LIFE n + occurrences n (all_yields abs ps ph) /\
  t ES n = t0 ES n + occurrences n (all_yields abs ps ph) /\
  t ESU n = occurrences n (all_yields abs ps ph) /\
  t PASS n = occurrences n (current abs ps ph) /\
  t CSE n = occurrences n (current abs ps ph).
Lemma current_end : forall abs ps p, current abs (ps ++ [p]) Between = pass_yields abs p.
Proof. intros; unfold current. rewrite rev_unit; auto. Qed.
Lemma occurrences_pass : forall abs n p, occurrences n (pass_yields abs p) = occurrences n (map snd p).
Proof. intros abs n p; unfold pass_yields. destruct abs; auto. destruct p; auto. Qed.

Theorem hist_total : forall q abs x0 ps ph x t0, hist q abs x0 ps ph x -> x_total x0 = Some (reset_total ESU t0) ->
  exists t, x_total x = Some t /\ total_is abs t0 t ps ph.
Proof.
  intros q abs x0 ps ph x t0 H E. induction H.
  - eexists; split; eauto. intros n; unfold all_yields; simpl. unfold reset_total; simpl; splits; lia.
  - destruct IHhist as (t & Et & P). simpl. rewrite Et. eexists; split; [reflexivity|].
    intros n. destruct (P n) as (A & B & C & D & F). unfold reset_total; simpl.
    unfold all_yields in *; simpl in *; splits; auto.
  - destruct IHhist as (t & Et & P). 
    assert (N : NoDup s). { destruct H0 as [_ V]. apply (V i s). apply in_app_iff; right; left; auto. }
    destruct (ctx_accepts_total s x t Et N) as (t' & Et' & P').
    destruct (appended_list _ _ _ _ H1) as (l & _ & _ & T & _). exists t'. rewrite T; split; auto.
    intros n. destruct (P n) as (A & B & C & D & F). rewrite !P', all_yields_exec, occurrences_app.
    simpl. rewrite map_app, occurrences_app. simpl in D, F. simpl map. splits; lia.
  - destruct IHhist as (t & Et & P). destruct (tick_rest _ _ _ H0) as (_ & T & _). exists t. rewrite T; split; auto.
  - destruct IHhist as (t & Et & P). destruct (appended_list _ _ _ _ H1) as (l & _ & _ & T & _). exists t. rewrite T; split; auto.
    intros n. destruct (P n) as (A & B & C & D & F). rewrite all_yields_idle1, occurrences_app, occurrences_one. simpl.
    simpl in D, F. unfold occurrences in *; simpl in *. splits; lia.
  - destruct IHhist as (t & Et & P). destruct (tick_rest _ _ _ H0) as (_ & T & _), (tick_rest _ _ _ H1) as (_ & T' & _).
    exists t. rewrite T', T; split; auto. assert (Ha := hist_idle_abs _ _ _ _ _ H); subst abs.
    intros n. destruct (P n) as (A & B & C & D & F). rewrite all_yields_idle, current_end. splits.
  - destruct IHhist as (t & Et & P). destruct (tick_rest _ _ _ H1) as (_ & T & _). exists t. rewrite T; split; auto.
    intros n. destruct (P n) as (A & B & C & D & F). rewrite all_yields_end, current_end, occurrences_pass by auto. splits.
Qed.

(** ** counts_useable *)
Lemma use_is_step : forall u A n, use_is u A -> use_is (spend_use n u) (A ++ [n]).
Proof.
  intros u A n [H1 H2]; split.
  - intros a b Ne. destruct (H1 a b Ne) as (A2 & D & N & E). unfold spend_use.
    destruct (Nat.eqb_spec b n).
    + subst. exists []. splits; [right; exists A; auto|]. destruct (Nat.eqb_spec a n); [contradiction|auto].
    + exists (A2 ++ [n]). splits.
      * destruct D as [->|(A1 & ->)]; auto. right; exists A1. rewrite <- app_assoc; auto.
      * rewrite in_app_iff; intros [?|[?|[]]]; auto.
      * rewrite E. pose proof (count_occ_app Nat.eq_dec A2 [n] a) as X. unfold node in *. rewrite X. simpl. destruct (Nat.eqb_spec a n), (Nat.eq_dec n a); subst; try congruence; lia.
  - intros a. unfold spend_use. unfold mem. rewrite existsb_app. simpl. rewrite orb_false_r.
    destruct (Nat.eqb_spec a n); [rewrite orb_true_r; auto|]. rewrite orb_false_r. apply H2.
Qed.
Lemma ctx_accepts_use : forall s x u A, x_use x = Some u -> use_is u A ->
  exists u', x_use (ctx_accepts s x) = Some u' /\ use_is u' (A ++ s).
Proof.
  induction s as [|n s IH]; intros x u A E U.
  - rewrite app_nil_r; eauto.
  - change (ctx_accepts (n :: s) x) with (ctx_accepts s (ctx_accept n x)).
    replace (A ++ n :: s) with ((A ++ [n]) ++ s) by (rewrite <- app_assoc; auto).
    apply (IH _ (spend_use n u)); [simpl; rewrite E; auto|apply use_is_step; auto].
Qed.
Lemma use_is_nil : use_is zero_use [].
Proof. split; auto. intros a b Ne. exists []. splits. Qed.
Theorem hist_use : forall q abs x0 ps ph x, hist q abs x0 ps ph x -> x_use x0 = Some zero_use ->
  exists u, x_use x = Some u /\ use_is u (concat (all_yields abs ps ph)).
Proof.
  intros q abs x0 ps ph x H E. induction H.
  - exists zero_use; split; auto. apply use_is_nil.
  - destruct IHhist as (u & Eu & P). exists u. simpl. rewrite Eu. split; auto.
  - destruct IHhist as (u & Eu & P). destruct (appended_list _ _ _ _ H1) as (l & _ & _ & _ & U & _).
    destruct (ctx_accepts_use s x u _ Eu P) as (u' & Eu' & P'). exists u'. rewrite U; split; auto.
    rewrite all_yields_exec, concat_app; simpl. rewrite app_nil_r; auto.
  - destruct IHhist as (u & Eu & P). destruct (tick_rest _ _ _ H0) as (_ & _ & U & _). exists u. rewrite U; auto.
  - destruct IHhist as (u & Eu & P). destruct (appended_list _ _ _ _ H1) as (l & _ & _ & _ & U & _). exists u. rewrite U; split; auto.
    rewrite all_yields_idle1, concat_app; simpl. rewrite app_nil_r; auto.
  - destruct IHhist as (u & Eu & P). destruct (tick_rest _ _ _ H0) as (_ & _ & U & _), (tick_rest _ _ _ H1) as (_ & _ & U' & _).
    exists u. rewrite U', U; split; auto. assert (Ha := hist_idle_abs _ _ _ _ _ H); subst abs. rewrite all_yields_idle; auto.
  - destruct IHhist as (u & Eu & P). destruct (tick_rest _ _ _ H1) as (_ & _ & U & _). exists u. rewrite U, all_yields_end; auto.
Qed.

(** ** the clock *)
(** the clock increments of a pass *)
Definition pass_events (abs : bool) (p : pass) : list timescale := repeat CSE (length (pass_yields abs p)) ++ [PASS].
Definition phase_events (ph : phase) : list timescale :=
  match ph with Open p => repeat CSE (length p) | AtYield p => repeat CSE (pred (length p)) | _ => [] end.
Definition run_events (abs : bool) (ps : list pass) (ph : phase) : list timescale :=
  concat (map (pass_events abs) ps) ++ phase_events ph.
(** the absolute time after k consideration set executions of the run *)
Definition abs_time_ok (k0 k : clock) (n : nat) : Prop :=
  t_interval (k_time k) = t_interval (k_time k0) /\ t_abs_enabled (k_time k) = t_abs_enabled (k_time k0) /\
  (t_abs_enabled (k_time k0) = true -> (t_abs (k_time k) == t_abs (k_time k0) + inject_Z (Z.of_nat n) * t_interval (k_time k0))%Q) /\
  (t_abs_enabled (k_time k0) = false -> t_abs (k_time k) = t_abs (k_time k0)).
Lemma abs_time_incr : forall k0 k n s k', abs_time_ok k0 k n -> clock_incr s k = Ok k' ->
  abs_time_ok k0 k' (if ts_eqb s CSE then S n else n).
Proof.
  intros k0 k n s k' (A & B & C & D) H. unfold clock_incr in H. destruct (tree_incr _ _ _); inversion H; subst. simpl.
  unfold abs_time_ok; simpl. unfold time_incr; simpl. rewrite B.
  destruct (t_abs_enabled (k_time k0)) eqn:En; simpl.
  - destruct (ts_eqb s CSE); simpl; splits; try congruence.
    intros _. rewrite C, A by auto. rewrite Zpos_P_of_succ_nat. unfold Z.succ. rewrite inject_Z_plus. ring.
  - splits; congruence.
Qed.
Lemma tick_clock : forall s x x' h, clock_after ESU h (the_clock x) -> tick s x x' -> clock_after ESU (h ++ [s]) (the_clock x').
Proof. intros s x x' h H (k & E & ->). eapply ca_incr; eauto. Qed.
Lemma repeat_snoc : forall A (a : A) n, repeat a n ++ [a] = repeat a (S n).
Proof. induction n; simpl; auto. rewrite IHn; auto. Qed.
Theorem hist_clock : forall q abs x0 ps ph x h0, hist q abs x0 ps ph x -> clock_after ESU h0 (the_clock x0) ->
  clock_after ESU (h0 ++ run_events abs ps ph) (the_clock x) /\
  abs_time_ok (the_clock x0) (the_clock x) (count CSE (run_events abs ps ph)).
Proof.
  intros q abs x0 ps ph x h0 H E. induction H.
  - split; [rewrite app_nil_r; auto|]. unfold abs_time_ok; simpl; splits. intros _. ring.
  - destruct IHhist as [A B]; split; auto.
  - destruct IHhist as [A B]. destruct (appended_list _ _ _ _ H1) as (l & _ & _ & _ & _ & K).
    destruct (ctx_accepts_other s x) as (_ & _ & C).
    assert (Ek : the_clock x' = the_clock x) by (unfold the_clock; rewrite K, C; auto). rewrite Ek.
    assert (Ee : run_events abs ps (AtYield (p ++ [(i, s)])) = run_events abs ps (Open p)).
    { unfold run_events; simpl. rewrite app_length; simpl. rewrite Nat.add_1_r; simpl; auto. }
    rewrite Ee; auto.
  - destruct IHhist as [A B].
    assert (Ee : run_events abs ps (Open p) = run_events abs ps (AtYield p) ++ [CSE]).
    { inversion H; subst. unfold run_events; simpl. rewrite <- app_assoc, repeat_snoc. f_equal. f_equal.
      rewrite app_length; simpl; lia. }
    rewrite Ee, app_assoc, count_app. split; [eapply tick_clock; eauto|].
    destruct H0 as (k & Ek & ->). simpl. apply (abs_time_incr _ _ _ _ _ B) in Ek. simpl in Ek. rewrite Nat.add_1_r; auto.
  - destruct IHhist as [A B]. destruct (appended_list _ _ _ _ H1) as (l & _ & _ & _ & _ & K).
    assert (Ek : the_clock x' = the_clock x) by (unfold the_clock; rewrite K; auto). rewrite Ek. auto.
  - destruct IHhist as [A B]. assert (Ha := hist_idle_abs _ _ _ _ _ H); subst abs.
    assert (Ee : run_events false (ps ++ [[]]) Between = (run_events false ps AtIdle ++ [CSE]) ++ [PASS]).
    { unfold run_events; simpl. rewrite map_app, concat_app; simpl. rewrite !app_nil_r, <- app_assoc; auto. }
    rewrite Ee, !app_assoc, !count_app. split.
    + eapply tick_clock; eauto. eapply tick_clock; eauto.
    + destruct H0 as (k & Ek & ->). apply (abs_time_incr _ _ _ _ _ B) in Ek. 
      destruct H1 as (k' & Ek' & ->). simpl in Ek'. apply (abs_time_incr _ _ _ _ _ Ek) in Ek'. simpl in *.
      rewrite Nat.add_1_r, Nat.add_0_r; auto.
  - destruct IHhist as [A B].
    assert (Ee : run_events abs (ps ++ [p]) Between = run_events abs ps (Open p) ++ [PASS]).
    { unfold run_events; simpl. rewrite map_app, concat_app; simpl. rewrite !app_nil_r. unfold pass_events.
      rewrite <- app_assoc. f_equal. f_equal. f_equal. f_equal. unfold pass_yields. destruct abs; [apply map_length|].
      destruct p; [destruct H0; congruence|apply map_length]. }
    rewrite Ee, app_assoc, count_app. split; [eapply tick_clock; eauto|].
    destruct H1 as (k & Ek & ->). apply (abs_time_incr _ _ _ _ _ B) in Ek. simpl in *. rewrite Nat.add_0_r; auto.
Qed.
