(** Every run prefix follows the abstract history of RunProofs.v. *)
From Verif Require Export RunProofs.

(** hq has at every position of q a set that contains the one of q *)
Definition covers (hq q : list (list node)) : Prop :=
  forall i lv, nth_error q i = Some lv -> exists lv', nth_error hq i = Some lv' /\ incl lv lv'.
Lemma covers_refl : forall q, covers q q.
Proof. intros q i lv E; exists lv; split; auto using incl_refl. Qed.

(** what it means that the set s at position i of the queue was executed: [mi] is the state
    when the search for the next consideration set began, [m0] when this one was reached; q is the
    queue at this moment, hq covers the queues of the earlier yields *)
Record executed (hq q : list (list node)) (abs : bool) (e : eid) (tc : tconds) (x0 : ctx)
  (ps : list pass) (p : pass) (i : nat) (s : list node) (mi m' : core) : Prop := {
  ex_intro : exists m0 m1 m2 level,
    hist hq abs x0 ps (Open p) (m_ctxs mi e) /\ quiet (tc := tc) e mi m0 /\
    terminated m0 e tc = (Ok false, m1) /\ quiet (tc := tc) e m0 m1 /\
    nth_error q i = Some level /\ level_ok (tc := tc) m1 e level s m2 /\
    frame (tc := tc) e m2 m' /\ appended abs s (m_ctxs m2 e) (m_ctxs m' e) /\
    (forall k, In k (map fst p) -> k < i) /\ (abs = false -> s <> []) /\
    (forall k lv, (forall j, In j (map fst p) -> j < k) -> k < i -> nth_error q k = Some lv -> skipped (tc := tc) e mi lv)
}.
(** a pass in which nothing was executed *)
Record idled (hq q : list (list node)) (abs : bool) (e : eid) (tc : tconds) (x0 : ctx)
  (ps : list pass) (mi m' : core) : Prop := {
  id_intro : exists m3,
    hist hq abs x0 ps (Open []) (m_ctxs mi e) /\ quiet (tc := tc) e mi m3 /\
    ((exists m0, quiet (tc := tc) e mi m0 /\ terminated m0 e tc = (Ok true, m3)) \/ (forall lv, In lv q -> skipped (tc := tc) e mi lv)) /\
    frame (tc := tc) e m3 m' /\ appended false [] (m_ctxs m3 e) (m_ctxs m' e)
}.

Lemma executed_hist : forall hq q abs e tc x0 ps p i s mi m', covers hq q ->
  executed hq q abs e tc x0 ps p i s mi m' -> hist hq abs x0 ps (AtYield (p ++ [(i, s)])) (m_ctxs m' e).
Proof.
  intros hq q abs e tc x0 ps p i s mi m' Cv [(m0 & m1 & m2 & level & H & Q0 & T & Q1 & E & L & F & A & Lt & NE & _)].
  eapply h_exec with (x := m_ctxs mi e); auto.
  - destruct (hist_valid _ _ _ _ _ _ H) as [_ V]. simpl in V.
    destruct (Cv _ _ E) as (lv' & E' & Ic). eapply valid_pass_snoc; eauto.
    + eapply incl_tran; [apply (ad_incl _ _ _ _ _ _ (lv_added _ _ _ _ _ L))|exact Ic].
    + eapply level_nodup; eauto.
  - rewrite (ad_ctx _ _ _ _ _ _ (lv_added _ _ _ _ _ L)) in A.
    destruct Q0 as [_ E0], Q1 as [_ E1]. rewrite E1, E0 in A. auto.
Qed.
Lemma idled_hist : forall hq q abs e tc x0 ps mi m', abs = false ->
  idled hq q abs e tc x0 ps mi m' -> hist hq abs x0 ps AtIdle (m_ctxs m' e).
Proof.
  intros hq q abs e tc x0 ps mi m' Ha [(m3 & H & [_ Q] & _ & F & A)]. rewrite Q in A. eapply h_idle; eauto.
Qed.

Lemma reset_spec : forall tc m e, frame (tc := tc) e m (reset_counts_total PASS m e) /\
  m_ctxs (reset_counts_total PASS m e) e = ctx_reset (m_ctxs m e).
Proof. intros; unfold reset_counts_total; split; [apply frame_set_ctx|rewrite set_ctx_at; reflexivity]. Qed.

Lemma inner_first_yield : forall hq q m g ps x0 m3 s j ch',
  hist hq (g_abs g) x0 ps (Open []) (m_ctxs m (g_eid g)) ->
  inner m g q 0 false = IYield m3 s j ch' ->
  executed hq q (g_abs g) (g_eid g) (g_tc g) x0 ps [] j s m m3 /\ (g_abs g = false -> ch' = true) /\ frame (tc := g_tc g) (g_eid g) m m3.
Proof.
  intros hq q m g ps x0 m3 s j ch' H I.
  destruct (inner_yield _ _ _ _ _ _ _ _ _ I) as (m0 & m1 & m2 & lv & L & E & Q & T & Q' & Lv & F & Ap & Ch & NE & Ab & Sk).
  rewrite Nat.sub_0_r in *. splits.
  - constructor. exists m0, m1, m2, lv. splits.
    + intros k [].
    + intros k lv' _ Lk Ek. eapply Sk; eauto.
  - intros Ha. subst ch'. specialize (NE Ha). destruct s; auto; congruence.
  - eapply frame_trans; [apply Q|]. eapply frame_trans; [apply Q'|].
    eapply frame_trans; [apply (ad_frame _ _ _ _ _ _ (lv_added _ _ _ _ _ Lv))|auto].
Qed.
Lemma inner_next_yield : forall hq q m g ps p i s0 x0 m3 s j ch ch',
  hist hq (g_abs g) x0 ps (Open (p ++ [(i, s0)])) (m_ctxs m (g_eid g)) -> (g_abs g = false -> ch = true) ->
  inner m g (skipn (S i) q) (S i) ch = IYield m3 s j ch' ->
  executed hq q (g_abs g) (g_eid g) (g_tc g) x0 ps (p ++ [(i, s0)]) j s m m3 /\ (g_abs g = false -> ch' = true) /\ frame (tc := g_tc g) (g_eid g) m m3.
Proof.
  intros hq q m g ps p i s0 x0 m3 s j ch ch' H Hch I.
  destruct (inner_yield _ _ _ _ _ _ _ _ _ I) as (m0 & m1 & m2 & lv & L & E & Q & T & Q' & Lv & F & Ap & Ch & NE & Ab & Sk).
  assert (Sn : forall A (l : list A) a b, nth_error (skipn a l) b = nth_error l (a + b)).
  { intros A l a; revert l; induction a as [|a IH]; intros l b; auto. destruct l; simpl; auto. destruct b; auto. }
  assert (Mono : forall k, In k (map fst (p ++ [(i, s0)])) -> k <= i).
  { destruct (hist_valid _ _ _ _ _ _ H) as [_ [V _]]. intros k Hk. apply in_map_iff in Hk. destruct Hk as ([k' s'] & <- & Hk).
    apply In_nth_error in Hk. destruct Hk as (a & Ha). assert (Ha' := Ha).
    apply nth_error_snoc in Ha. destruct Ha as [Ha|[-> E']].
    - assert (a < length p) by (apply nth_error_Some; congruence).
      assert (X : fst (k', s') < fst (i, s0)).
      { eapply (V a (length p)); eauto. rewrite nth_error_app2 by lia. rewrite Nat.sub_diag; auto. }
      simpl in *; lia.
    - inversion E'; subst; simpl; lia. }
  splits.
  - constructor. exists m0, m1, m2, lv. splits.
    + rewrite Sn in E. replace (S i + (j - S i)) with j in E by lia. auto.
    + intros k Hk. apply Mono in Hk. lia.
    + intros k lv' Gt Lk Ek. assert (i < k).
      { apply Gt. apply in_map_iff. exists (i, s0); split; auto. apply in_app_iff; right; left; auto. }
      apply (Sk (k - S i)); [lia|]. rewrite Sn. replace (S i + (k - S i)) with k by lia. auto.
  - intros Ha. subst ch'. rewrite (Hch Ha); auto.
  - eapply frame_trans; [apply Q|]. eapply frame_trans; [apply Q'|].
    eapply frame_trans; [apply (ad_frame _ _ _ _ _ _ (lv_added _ _ _ _ _ Lv))|auto].
Qed.

(** what a yield of the generator means *)
Inductive yielded (hq q : list (list node)) (g : gen) (x0 : ctx) (m : core) : list pass -> core -> gen -> list node -> phase -> Prop :=
| y_exec : forall ps p i ch s mi m', frame (tc := g_tc g) (g_eid g) m mi -> frame (tc := g_tc g) (g_eid g) m m' ->
    executed hq q (g_abs g) (g_eid g) (g_tc g) x0 ps p i s mi m' -> (g_abs g = false -> ch = true) ->
    yielded hq q g x0 m ps m' (at_pc g (PLevel i ch)) s (AtYield (p ++ [(i, s)]))
| y_idle : forall ps mi m', frame (tc := g_tc g) (g_eid g) m mi -> frame (tc := g_tc g) (g_eid g) m m' -> g_abs g = false ->
    idled hq q (g_abs g) (g_eid g) (g_tc g) x0 ps mi m' ->
    yielded hq q g x0 m ps m' (at_pc g PIdle) [] AtIdle.
Lemma yielded_frame : forall hq q g x0 m m1 ps m' g' s ph, frame (tc := g_tc g) (g_eid g) m m1 ->
  yielded hq q g x0 m1 ps m' g' s ph -> yielded hq q g x0 m ps m' g' s ph.
Proof.
  intros hq q g x0 m m1 ps m' g' s ph F H. destruct H.
  - eapply y_exec with (mi := mi); eauto using frame_trans.
  - eapply y_idle with (mi := mi); eauto using frame_trans.
Qed.
Lemma yielded_hist : forall hq q g x0 m ps m' g' s ph, covers hq q -> yielded hq q g x0 m ps m' g' s ph ->
  hist hq (g_abs g) x0 ps ph (m_ctxs m' (g_eid g)).
Proof. intros hq q g x0 m ps m' g' s ph Cv H; destruct H. - eapply executed_hist; eauto. - eapply idled_hist; eauto. Qed.

(** passes without a yield (only with absolute conditions) *)
Definition silent (abs : bool) (ps ps' : list pass) : Prop :=
  exists k, ps' = ps ++ repeat [] k /\ (abs = false -> k = 0).
Lemma silent_refl : forall abs ps, silent abs ps ps.
Proof. intros; exists 0; simpl; rewrite app_nil_r; auto. Qed.
Lemma silent_step : forall ps ps', silent true (ps ++ [[]]) ps' -> silent true ps ps'.
Proof. intros ps ps' (k & -> & _). exists (S k). split; [|discriminate]. rewrite <- app_assoc; auto. Qed.
Lemma silent_yields : forall abs ps ps', silent abs ps ps' -> concat (map (pass_yields abs) ps') = concat (map (pass_yields abs) ps).
Proof.
  intros abs ps ps' (k & -> & H). destruct abs.
  - rewrite map_app, concat_app. clear H. induction k; simpl; rewrite ?app_nil_r in *; auto.
  - rewrite (H eq_refl); simpl; rewrite app_nil_r; auto.
Qed.

(** the first yield of a pass *)
Definition first_phase (s : list node) (ph : phase) : Prop := ph = AtIdle /\ s = [] \/ exists i, ph = AtYield [(i, s)].
(** what the outer loop does *)
Lemma outer_spec : forall fuel m g hq q x0 ps m' g' o, queue m = q -> covers hq q ->
  hist hq (g_abs g) x0 ps Between (m_ctxs m (g_eid g)) ->
  outer fuel m g = (m', g', o) ->
  match o with
  | OYield s => exists ps' ph, silent (g_abs g) ps ps' /\ yielded hq q g x0 m ps' m' g' s ph /\ first_phase s ph
  | OReturn l => exists ps' mt m1, silent (g_abs g) ps ps' /\ frame (tc := g_tc g) (g_eid g) m mt /\
      hist hq (g_abs g) x0 ps' Between (m_ctxs mt (g_eid g)) /\
      terminated mt (g_eid g) (g_tc g) = (Ok true, m1) /\ finish m1 g = (m', g', OReturn l)
  | OStop => False
  | _ => True
  end.
Proof.
  induction fuel as [|f IH]; intros m g hq q x0 ps m' g' o Hq Cv H E; simpl in E.
  - inversion E; subst; auto.
  - destruct (terminated m (g_eid g) (g_tc g)) as [[[|]|ex] m1] eqn:T.
    + assert (E2 := E). unfold finish in E2.
      destruct o; auto.
      * destruct (if g_skip g then Ok m1 else incr_clock ESU m1 (g_eid g)) as [mm|]; [|inversion E2].
        destruct (check_tc mm (g_eid g) (g_tc g) ES) as [[b|] m2]; [|inversion E2].
        destruct (x_list (m_ctxs m2 (g_eid g))); inversion E2.
      * exists ps, m, m1. splits; [apply silent_refl|apply frame_refl].
      * destruct (if g_skip g then Ok m1 else incr_clock ESU m1 (g_eid g)) as [mm|]; [|inversion E2].
        destruct (check_tc mm (g_eid g) (g_tc g) ES) as [[b|] m2]; [|inversion E2].
        destruct (x_list (m_ctxs m2 (g_eid g))); inversion E2.
    + assert (Q1 := terminated_quiet _ _ _ _ T).
      destruct (reset_spec (g_tc g) m1 (g_eid g)) as [Fr Xr]. set (m2 := reset_counts_total PASS m1 (g_eid g)) in *.
      assert (F2 : frame (tc := g_tc g) (g_eid g) m m2) by (eapply frame_trans; [apply Q1|auto]).
      assert (H2 : hist hq (g_abs g) x0 ps (Open []) (m_ctxs m2 (g_eid g))).
      { rewrite Xr. destruct Q1 as [_ ->]. apply h_begin; auto. }
      assert (Hq2 : queue m2 = q) by (rewrite (frame_queue _ _ _ F2); auto). rewrite Hq2 in E.
      destruct (inner m2 g q 0 false) as [m3 s i ch|m3 ch|m3 ex|m3] eqn:I.
      * inversion E; subst o m' g'. exists ps, (AtYield ([] ++ [(i, s)])). split; [apply silent_refl|].
        destruct (inner_first_yield _ _ _ _ _ _ _ _ _ _ H2 I) as (X & C & F).
        split; [eapply y_exec with (mi := m2); eauto using frame_trans|]. right; exists i; reflexivity.
      * destruct (inner_end _ _ _ _ _ _ _ I) as (Q3 & -> & D).
        unfold pass_tail in E. simpl in E. destruct (g_abs g) eqn:Ha; simpl in E.
        -- destruct (incr_clock PASS m3 (g_eid g)) as [m4|ex] eqn:Ic.
           ++ apply (incr_clock_spec (tc := g_tc g)) in Ic. destruct Ic as [F4 T4].
              assert (F' : frame (tc := g_tc g) (g_eid g) m m4).
              { eapply frame_trans; [apply F2|]. eapply frame_trans; [apply Q3|auto]. }
              assert (H4 : hist hq (g_abs g) x0 (ps ++ [[]]) Between (m_ctxs m4 (g_eid g))).
              { rewrite Ha. eapply h_end; eauto. destruct Q3 as [_ <-]. exact T4. }
              rewrite Ha in H4. rewrite <- Ha in H4.
              assert (Hq4 : queue m4 = q) by (rewrite (frame_queue _ _ _ F'); auto).
              specialize (IH m4 g hq q x0 (ps ++ [[]]) m' g' o Hq4 Cv H4 E). rewrite Ha in IH.
              destruct o; auto.
              ** destruct IH as (ps' & ph & S & Y & Fp). exists ps', ph. splits; [apply silent_step; auto|].
                 eapply yielded_frame; eauto.
              ** destruct IH as (ps' & mt & mt1 & S & Ft & Ht & Tt & Fi). exists ps', mt, mt1. splits.
                 --- apply silent_step; auto.
                 --- eapply frame_trans; eauto.
           ++ inversion E; subst; auto.
        -- destruct (append_exec m3 (g_eid g) false []) as [[r|ex] m4] eqn:Ap; inversion E; subst; auto.
           apply (append_exec_spec (tc := g_tc g)) in Ap. destruct Ap as [F4 A4].
           exists ps, AtIdle. split; [apply silent_refl|]. split; [|left; auto].
           eapply y_idle with (mi := m2); auto.
           ++ eapply frame_trans; [apply F2|]. eapply frame_trans; [apply Q3|auto].
           ++ constructor. exists m3. rewrite Ha. splits.
              destruct D as [(ma & Qa & _ & Ta)|(_ & S)]; eauto.
      * inversion E; subst; auto.
      * inversion E; subst; auto.
    + inversion E; subst; auto.
Qed.

(** the phase and the program counter agree *)
Inductive matches (abs : bool) : phase -> pc -> Prop :=
| mt_level : forall p i s ch, (abs = false -> ch = true) -> matches abs (AtYield (p ++ [(i, s)])) (PLevel i ch)
| mt_idle : abs = false -> matches abs AtIdle PIdle.
Lemma yielded_matches : forall hq q g x0 m ps m' g' s ph, yielded hq q g x0 m ps m' g' s ph ->
  matches (g_abs g) ph (g_pc g') /\ g' = at_pc g (g_pc g').
Proof. intros hq q g x0 m ps m' g' s ph H; destruct H; simpl; split; auto; constructor; auto. Qed.
Lemma yielded_yields : forall hq q g x0 m ps m' g' s ph, yielded hq q g x0 m ps m' g' s ph ->
  exists p, phase_yields (g_abs g) ph = map snd p ++ [s] /\ (ph = AtIdle /\ p = [] \/ exists i, ph = AtYield (p ++ [(i, s)])).
Proof.
  intros hq q g x0 m ps m' g' s ph H; destruct H; simpl.
  - exists p. rewrite map_app; simpl. split; eauto.
  - exists []; auto.
Qed.

Lemma phase_first : forall abs s ph, first_phase s ph -> phase_yields abs ph = [s].
Proof. intros abs s ph [[-> ->]|(i & ->)]; auto. Qed.
Lemma all_yields_next : forall abs ps ps' p ph ph' s, silent abs (ps ++ [p]) ps' -> first_phase s ph' ->
  pass_yields abs p = phase_yields abs ph -> all_yields abs ps' ph' = all_yields abs ps ph ++ [s].
Proof.
  intros abs ps ps' p ph ph' s S F E. unfold all_yields. rewrite (phase_first _ _ _ F), (silent_yields _ _ _ S).
  rewrite map_app, concat_app; simpl. rewrite app_nil_r, E. auto.
Qed.
Lemma silent_tags : forall abs P ps ps', silent abs ps ps' -> tags abs P ps' = tags abs P ps.
Proof.
  intros abs P ps ps' (k & -> & H). destruct abs.
  - clear H. rewrite tags_app. rewrite <- (app_nil_r (tags true P ps)) at 2. f_equal.
    generalize (P + length ps). induction k; intros; simpl; auto.
  - rewrite (H eq_refl); simpl; rewrite app_nil_r; auto.
Qed.
Lemma all_tagged_next : forall abs P ps ps' p ph ph' s, silent abs (ps ++ [p]) ps' -> first_phase s ph' ->
  pass_yields abs p = phase_yields abs ph -> all_tagged abs P ps' ph' = all_tagged abs P ps ph ++ [(P + length ps', s)].
Proof.
  intros abs P ps ps' p ph ph' s S F E. unfold all_tagged. rewrite (phase_first _ _ _ F), (silent_tags _ _ _ _ S).
  rewrite tags_app; simpl. rewrite app_nil_r, E. auto.
Qed.
Lemma pass_yields_level : forall abs p a, pass_yields abs (p ++ [a]) = map snd (p ++ [a]).
Proof. intros abs p a; unfold pass_yields. destruct abs; auto. destruct p; auto. Qed.

Lemma at_pc_same : forall g p, g_eid (at_pc g p) = g_eid g /\ g_tc (at_pc g p) = g_tc g /\ g_abs (at_pc g p) = g_abs g /\ g_skip (at_pc g p) = g_skip g.
Proof. intros; simpl; auto. Qed.

(** the next yield of a run, and its end *)
Definition next_yield (hq q : list (list node)) (g : gen) (x0 : ctx) (m : core) (ps : list pass) (ph : phase)
  (m' : core) (g' : gen) (s : list node) : Prop :=
  exists ps' ph', yielded hq q g x0 m ps' m' g' s ph' /\ all_yields (g_abs g) ps' ph' = all_yields (g_abs g) ps ph ++ [s] /\
    forall P, all_tagged (g_abs g) P ps' ph' = all_tagged (g_abs g) P ps ph ++ [(P + length ps', s)].
Definition run_end (hq : list (list node)) (g : gen) (x0 : ctx) (m : core) (ps : list pass) (ph : phase)
  (m' : core) (g' : gen) (l : list (list node)) : Prop :=
  exists ps' mt m1, all_yields (g_abs g) ps' Between = all_yields (g_abs g) ps ph /\ frame (tc := g_tc g) (g_eid g) m mt /\
    hist hq (g_abs g) x0 ps' Between (m_ctxs mt (g_eid g)) /\
    terminated mt (g_eid g) (g_tc g) = (Ok true, m1) /\ finish m1 g = (m', g', OReturn l).

(** a resumption from a yield point *)
Lemma outer_next : forall fuel m g hq q x0 ps p ph m0 m' g' o, queue m = q -> covers hq q -> frame (tc := g_tc g) (g_eid g) m0 m ->
  hist hq (g_abs g) x0 (ps ++ [p]) Between (m_ctxs m (g_eid g)) -> pass_yields (g_abs g) p = phase_yields (g_abs g) ph ->
  outer fuel m g = (m', g', o) ->
  match o with
  | OYield s => next_yield hq q g x0 m0 ps ph m' g' s
  | OReturn l => run_end hq g x0 m0 ps ph m' g' l
  | OStop => False
  | _ => True
  end.
Proof.
  intros fuel m g hq q x0 ps p ph m0 m' g' o Hq Cv F H Ep E.
  pose proof (outer_spec _ _ _ _ _ _ _ _ _ _ Hq Cv H E) as S. destruct o; auto.
  - destruct S as (ps' & ph' & S & Y & Fp). exists ps', ph'. splits; [eapply yielded_frame; eauto| |].
    + eapply all_yields_next; eauto.
    + intros P; eapply all_tagged_next; eauto.
  - destruct S as (ps' & mt & m1 & S & Ft & Ht & Tt & Fi). exists ps', mt, m1. splits.
    + unfold all_yields. rewrite (silent_yields _ _ _ S), map_app, concat_app; simpl. rewrite !app_nil_r, Ep; auto.
    + eapply frame_trans; eauto.
Qed.
Lemma resume_spec : forall fuel m g hq q x0 ps ph m' g' o, queue m = q -> covers hq q ->
  hist hq (g_abs g) x0 ps ph (m_ctxs m (g_eid g)) -> matches (g_abs g) ph (g_pc g) ->
  resume fuel m g = (m', g', o) ->
  match o with
  | OYield s => next_yield hq q g x0 m ps ph m' g' s
  | OReturn l => run_end hq g x0 m ps ph m' g' l
  | OStop => False
  | _ => True
  end.
Proof.
  intros fuel m g hq q x0 ps ph m' g' o Hq Cv H M E. unfold resume in E.
  inversion M as [p i s ch Hch Eph Epc|Ha Eph Epc]; subst ph; rewrite <- Epc in E.
  - destruct (incr_clock CSE m (g_eid g)) as [m1|ex] eqn:Ic; [|inversion E; subst; auto].
    apply (incr_clock_spec (tc := g_tc g)) in Ic. destruct Ic as [F1 T1].
    assert (H1 : hist hq (g_abs g) x0 ps (Open (p ++ [(i, s)])) (m_ctxs m1 (g_eid g))) by (eapply h_tick; eauto).
    assert (Hq1 : queue m1 = q) by (rewrite (frame_queue _ _ _ F1); auto). rewrite Hq1 in E.
    destruct (inner m1 g (skipn (S i) q) (S i) ch) as [m3 s' j ch'|m3 ch'|m3 ex|m3] eqn:I; simpl in E.
    + inversion E; subst o m' g'. destruct (inner_next_yield _ _ _ _ _ _ _ _ _ _ _ _ _ _ H1 Hch I) as (X & C & F).
      exists ps, (AtYield ((p ++ [(i, s)]) ++ [(j, s')])). splits.
      * eapply y_exec; eauto using frame_trans.
      * unfold all_yields; simpl. rewrite (map_app snd (p ++ [(i, s)])), app_assoc; auto.
      * intros P; unfold all_tagged; simpl. rewrite (map_app snd (p ++ [(i, s)])), (map_app (pair _) (map snd _)), app_assoc; auto.
    + destruct (inner_end _ _ _ _ _ _ _ I) as (Q3 & -> & D).
      unfold pass_tail in E. destruct (negb ch && negb (g_abs g)) eqn:C.
      { exfalso. apply andb_true_iff in C. destruct C as [C1 C2]. destruct (g_abs g); [discriminate|].
        rewrite (Hch eq_refl) in C1; discriminate. }
      destruct (incr_clock PASS m3 (g_eid g)) as [m4|ex] eqn:Ic; [|inversion E; subst; auto].
      apply (incr_clock_spec (tc := g_tc g)) in Ic. destruct Ic as [F4 T4].
      assert (F' : frame (tc := g_tc g) (g_eid g) m m4).
      { eapply frame_trans; [apply F1|]. eapply frame_trans; [apply Q3|auto]. }
      eapply outer_next with (m := m4) (p := p ++ [(i, s)]); eauto.
      * rewrite (frame_queue _ _ _ F'); auto.
      * eapply h_end; eauto.
        -- right; destruct p; discriminate.
        -- destruct Q3 as [_ <-]; exact T4.
      * apply pass_yields_level.
    + inversion E; subst; auto.
    + inversion E; subst; auto.
  - destruct (incr_clock CSE m (g_eid g)) as [m1|ex] eqn:Ic; [|inversion E; subst; auto].
    apply (incr_clock_spec (tc := g_tc g)) in Ic. destruct Ic as [F1 T1].
    destruct (incr_clock PASS m1 (g_eid g)) as [m2|ex] eqn:Ic; [|inversion E; subst; auto].
    apply (incr_clock_spec (tc := g_tc g)) in Ic. destruct Ic as [F2 T2].
    assert (F' : frame (tc := g_tc g) (g_eid g) m m2) by (eapply frame_trans; eauto).
    eapply outer_next with (m := m2) (p := []); eauto.
    + rewrite (frame_queue _ _ _ F'); auto.
    + eapply h_idle_end; eauto.
    + rewrite Ha; auto.
Qed.

(** ** The start of a run *)
Record static (m m' : core) : Prop := {
  sc_nodes : m_nodes m' = m_nodes m;
  sc_graph : m_graph m' = m_graph m;
  sc_levels : m_levels m' = m_levels m;
  sc_exact : m_exact m' = m_exact m
}.
Lemma static_refl : forall m, static m m.
Proof. intros; constructor; auto. Qed.
Lemma static_trans : forall a b c, static a b -> static b c -> static a c.
Proof. intros a b c [] []; constructor; congruence. Qed.
Lemma static_queue : forall m m', static m m' -> queue m' = queue m.
Proof. intros m m' []; unfold queue; rewrite sc_exact0, sc_graph0, sc_levels0; auto. Qed.
Lemma static_frame : forall tc e m m', frame (tc := tc) e m m' -> static m m'.
Proof. intros tc e m m' []; constructor; auto. Qed.
Lemma static_undisturbed : forall e m m', undisturbed e m m' -> static m m'.
Proof. intros e m m' []; constructor; auto. Qed.

Lemma add_defaults_spec : forall ns m m', add_defaults ns m = Ok m' ->
  m_ctxs m' = m_ctxs m /\ static m m' /\ m_tconds m' = m_tconds m /\ m_default_unit m' = m_default_unit m /\ m_cst m' = m_cst m.
Proof.
  induction ns as [|n r IH]; intros m m' H; simpl in H.
  - inversion H; subst. splits; apply static_refl.
  - destruct (ahas n (m_basic m)); auto. destruct (aget n (m_graph m)) as [deps|]; [|discriminate].
    destruct (default_cond (m_next m) deps) as [c nx]. apply IH in H. destruct H as (A & B & C & D & E). splits.
    eapply static_trans; [|exact B]. constructor; auto.
Qed.

(** the entries of e after start: counts of the current run are zero, the rest is kept, or
    copied from the base execution id when missing *)
Record started_ctx (x b x' : ctx) : Prop := {
  st_total : exists t, (x_total x = Some t \/ x_total x = None /\ x_total b = Some t) /\ x_total x' = Some (reset_total ESU t);
  st_use : x_use x' = Some zero_use;
  st_list : exists l, (x_list x = Some l \/ x_list x = None /\ x_list b = Some l) /\ x_list x' = Some l;
  st_stamps : x_stamps x' = x_stamps x;
  st_clock : exists k, x_clock x' = Some k /\ k_tree k = k_tree (the_clock x) /\ k_md k = k_md (the_clock x) /\
             t_val (k_time k) = t_val (k_time (the_clock x)) /\ k_prev k = k_prev (the_clock x)
}.
Lemma copy_entry_spec : forall A (x b r : option A), copy_entry x b = Ok r ->
  exists t, (x = Some t \/ x = None /\ b = Some t) /\ r = Some t.
Proof. intros A [x|] [b|] r H; simpl in H; inversion H; subst; eauto. Qed.
Lemma start_spec : forall m g g1 m1, start m g = (Ok g1, m1) ->
  static m m1 /\ (forall e', e' <> g_eid g -> m_ctxs m1 e' = m_ctxs m e') /\
  started_ctx (m_ctxs m (g_eid g)) (m_ctxs m (g_base g)) (m_ctxs m1 (g_eid g)) /\
  g_eid g1 = g_eid g /\ g_skip g1 = g_skip g /\ g_pc g1 = PStart /\
  g_tc g1 = match g_tcarg g with None => m_tconds m | Some a => combine_tconds (m_tconds m) a end.
Proof.
  intros m g g1 m1 H. unfold start in H.
  destruct (validate_run_state m) as [[u|ex] mv] eqn:V; [|inversion H].
  assert (Hv : m_ctxs mv = m_ctxs m /\ static m mv /\ m_tconds mv = m_tconds m).
  { unfold validate_run_state in V. destruct (toposort (m_graph m)); try (inversion V; fail).
    destruct (add_defaults (m_nodes m) m) as [m'|] eqn:A; inversion V; subst.
    apply add_defaults_spec in A. destruct A as (A & B & C & _); auto. }
  destruct Hv as (Vc & Vs & Vt). clear V.
  set (e := g_eid g) in *. set (m2 := set_clock mv e (the_clock (m_ctxs mv e))) in *.
  set (tc := match g_tcarg g with None => m_tconds mv | Some a => combine_tconds (m_tconds mv) a end) in *.
  destruct (setup_absolute m2 e tc) as [m3|ex] eqn:S; [|inversion H].
  assert (X2 : m_ctxs m2 e = ctx_clock (the_clock (m_ctxs m e)) (m_ctxs m e)).
  { unfold m2, set_clock. rewrite set_ctx_at, Vc. reflexivity. }
  assert (K2 : the_clock (m_ctxs m2 e) = the_clock (m_ctxs m e)) by (rewrite X2; reflexivity).
  assert (S3 : frame (tc := tc) e mv m3 /\ exists k, m_ctxs m3 e = ctx_clock k (m_ctxs m e) /\ k_tree k = k_tree (the_clock (m_ctxs m e)) /\ k_md k = k_md (the_clock (m_ctxs m e)) /\
             t_val (k_time k) = t_val (k_time (the_clock (m_ctxs m e))) /\ k_prev k = k_prev (the_clock (m_ctxs m e))).
  { assert (F2 : frame (tc := tc) e mv m2) by apply frame_set_ctx.
    unfold setup_absolute in S. rewrite K2 in S. destruct (absolute_conditions m2 tc) as [|c cs].
    - inversion S; subst m3. split; [eapply frame_trans; [exact F2|apply frame_set_ctx]|].
      eexists. split; [unfold set_clock; rewrite set_ctx_at, X2; reflexivity|]. simpl; auto.
    - destruct (unit_of m2 tc) as [u'|]; [|discriminate]. inversion S; subst m3.
      split; [eapply frame_trans; [exact F2|apply frame_set_ctx]|].
      eexists. split; [unfold set_clock; rewrite set_ctx_at, X2; reflexivity|]. simpl; auto. }
  destruct S3 as (F3 & k & X3 & K).
  destruct (init_counts_base m3 e (g_base g)) as [[[]|ex] m4] eqn:I; [|inversion H].
  assert (B3 : g_base g <> e -> m_ctxs m3 (g_base g) = m_ctxs m (g_base g)).
  { intros Ne. rewrite (fr_other _ _ _ F3 _ Ne), Vc; auto. }
  assert (I4 : frame (tc := tc) e m3 m4 /\ exists t u l, 
     (x_total (m_ctxs m e) = Some t \/ x_total (m_ctxs m e) = None /\ x_total (m_ctxs m (g_base g)) = Some t) /\
     (x_list (m_ctxs m e) = Some l \/ x_list (m_ctxs m e) = None /\ x_list (m_ctxs m (g_base g)) = Some l) /\
     m_ctxs m4 e = mkCtx (Some t) u (Some l) (x_stamps (m_ctxs m e)) (Some k)).
  { unfold init_counts_base in I. rewrite X3 in I. simpl in I.
    assert (BT : x_total (m_ctxs m3 (g_base g)) = x_total (m_ctxs m (g_base g))).
    { destruct (Nat.eq_dec (g_base g) e) as [->|Ne]; [rewrite X3; reflexivity|rewrite B3; auto]. }
    assert (BL : x_list (m_ctxs m3 (g_base g)) = x_list (m_ctxs m (g_base g))).
    { destruct (Nat.eq_dec (g_base g) e) as [->|Ne]; [rewrite X3; reflexivity|rewrite B3; auto]. }
    rewrite BT, BL in I.
    destruct (copy_entry (x_total (m_ctxs m e)) _) as [ot|] eqn:C1; [|inversion I].
    destruct (copy_entry (x_use (m_ctxs m e)) _) as [ou|] eqn:C2; [|inversion I].
    destruct (copy_entry (x_list (m_ctxs m e)) _) as [ol|] eqn:C3; [|inversion I].
    apply copy_entry_spec in C1. apply copy_entry_spec in C3.
    destruct C1 as (t & Ct & ->), C3 as (l & Cl & ->). inversion I; subst m4.
    split; [apply frame_set_ctx|]. exists t, ou, l. splits. rewrite set_ctx_at; auto. }
  destruct I4 as (F4 & t & u' & l & Ht & Hl & X4).
  inversion H; subst g1 m1. clear H.
  assert (F6 : frame (tc := tc) e m3 (reset_counts_total ESU (reset_counts_useable m4 e) e)).
  { eapply frame_trans; [exact F4|]. eapply frame_trans; [unfold reset_counts_useable; apply frame_set_ctx|].
    unfold reset_counts_total; apply frame_set_ctx. }
  assert (F36 := frame_trans _ _ _ _ F3 F6).
  splits.
  - eapply static_trans; [exact Vs|]. eapply static_frame; eauto.
  - intros e' Ne. rewrite (fr_other _ _ _ F36 _ Ne), Vc; auto.
  - unfold reset_counts_total, reset_counts_useable. rewrite !set_ctx_at, X4. constructor; simpl; eauto.
  - simpl. unfold tc. rewrite Vt; auto.
Qed.

(** ** Run prefixes *)
(** the state right after the start of the run *)
Definition started (m0 : core) (g0 : gen) (g1 : gen) (m1 : core) : Prop :=
  exists ms, undisturbed (g_eid g0) m0 ms /\ start ms g0 = (Ok g1, m1).

Lemma undisturbed_refl : forall e m, undisturbed e m m.
Proof. intros; constructor; auto. Qed.
Lemma undisturbed_trans : forall e a b c, undisturbed e a b -> undisturbed e b c -> undisturbed e a c.
Proof. intros e a b c [] []; constructor; congruence. Qed.

Lemma resume_start : forall fuel m g m' g' o, g_pc g = PStart -> resume fuel m g = (m', g', o) ->
  match o with
  | OYield s => exists g1 m1, start m g = (Ok g1, m1) /\
       next_yield (queue m) (queue m) g1 (m_ctxs m1 (g_eid g)) m1 [] Between m' g' s
  | OReturn l => exists g1 m1, start m g = (Ok g1, m1) /\
       run_end (queue m) g1 (m_ctxs m1 (g_eid g)) m1 [] Between m' g' l
  | OStop => False
  | _ => True
  end.
Proof.
  intros fuel m g m' g' o Hp E. unfold resume in E. rewrite Hp in E.
  destruct (start m g) as [[g1|ex] m1] eqn:S; [|inversion E; subst; auto].
  destruct (start_spec _ _ _ _ S) as (St & _ & _ & Ee & _ & _ & _).
  assert (Hq : queue m1 = queue m) by (apply static_queue; auto).
  assert (H : hist (queue m) (g_abs g1) (m_ctxs m1 (g_eid g)) [] Between (m_ctxs m1 (g_eid g1))).
  { rewrite Ee. apply h_start. }
  pose proof (outer_spec _ _ _ _ _ _ _ _ _ _ Hq (covers_refl _) H E) as O. destruct o; auto.
  - exists g1, m1; split; auto. destruct O as (ps' & ph & Si & Y & Fp). exists ps', ph. splits.
    + unfold all_yields. rewrite (silent_yields _ _ _ Si), (phase_first (g_abs g1) _ _ Fp). auto.
    + intros P. unfold all_tagged. rewrite (silent_tags _ _ _ _ Si), (phase_first (g_abs g1) _ _ Fp). auto.
  - exists g1, m1; split; auto. destruct O as (ps' & mt & m2 & Si & Ft & Ht & Tt & Fi).
    exists ps', mt, m2. splits. unfold all_yields. rewrite (silent_yields _ _ _ Si). auto.
Qed.

Record run_state (m0 : core) (g0 : gen) (ys : list (list node)) (m : core) (g : gen)
  (g1 : gen) (m1 : core) (ps : list pass) (ph : phase) : Prop := {
  rs_started : started m0 g0 g1 m1;
  rs_gen : g = at_pc g1 (g_pc g);
  rs_eid : g_eid g1 = g_eid g0;
  rs_skip : g_skip g1 = g_skip g0;
  rs_hist : hist (queue m0) (g_abs g1) (m_ctxs m1 (g_eid g0)) ps ph (m_ctxs m (g_eid g0));
  rs_yields : ys = all_yields (g_abs g1) ps ph;
  rs_matches : matches (g_abs g1) ph (g_pc g);
  rs_static : static m0 m
}.
Lemma yielded_at_pc : forall hq q g p x0 m ps m' g' s ph, yielded hq q (at_pc g p) x0 m ps m' g' s ph -> yielded hq q g x0 m ps m' g' s ph.
Proof.
  intros hq q g p x0 m ps m' g' s ph H; destruct H; simpl in *.
  - apply (y_exec hq q g x0 m ps p0 i ch s mi m'); auto.
  - apply (y_idle hq q g x0 m ps mi m'); auto.
Qed.
Lemma run_first : forall m0 g0 m fuel m' g' s, g_pc g0 = PStart -> undisturbed (g_eid g0) m0 m ->
  resume fuel m g0 = (m', g', OYield s) ->
  exists g1 m1 ps' ph', start m g0 = (Ok g1, m1) /\ run_state m0 g0 [s] m' g' g1 m1 ps' ph' /\
    yielded (queue m0) (queue m0) g1 (m_ctxs m1 (g_eid g0)) m1 ps' m' g' s ph' /\
    forall P, all_tagged (g_abs g1) P ps' ph' = [(P + length ps', s)].
Proof.
  intros m0 g0 m fuel m' g' s Hp U H0.
  pose proof (resume_start _ _ _ _ _ _ Hp H0) as (g1 & m1 & S & ps & ph & Y & E & Et).
  assert (Y' := start_spec _ _ _ _ S). destruct Y' as (St & _ & _ & Ee & Es & _ & _).
  destruct (yielded_matches _ _ _ _ _ _ _ _ _ _ Y) as [Mt Eg].
  assert (Hq : queue m = queue m0) by (apply static_queue; eapply static_undisturbed; eauto).
  rewrite Hq in Y. exists g1, m1, ps, ph. splits. constructor; auto.
  * exists m; auto.
  * apply yielded_hist in Y; [|apply covers_refl]. rewrite Ee in Y. auto.
  * eapply static_trans; [eapply static_undisturbed; eauto|].
    eapply static_trans; [eauto|]. destruct Y; eapply static_frame; eauto.
Qed.
Lemma run_next : forall m0 g0 ys m g g1 m1 ps ph fuel m' g' s, run_state m0 g0 ys m g g1 m1 ps ph ->
  resume fuel m g = (m', g', OYield s) ->
  exists ps' ph', run_state m0 g0 (ys ++ [s]) m' g' g1 m1 ps' ph' /\
    yielded (queue m0) (queue m0) g1 (m_ctxs m1 (g_eid g0)) m ps' m' g' s ph' /\
    forall P, all_tagged (g_abs g1) P ps' ph' = all_tagged (g_abs g1) P ps ph ++ [(P + length ps', s)].
Proof.
  intros m0 g0 ys m g g1 m1 ps ph fuel m' g' s [A1 A2 A3 A4 A5 A6 A7 A8] H0.
  assert (Hq : queue m = queue m0) by (apply static_queue; auto).
  rewrite A2 in H0.
  assert (H1 := resume_spec fuel m (at_pc g1 (g_pc g)) (queue m0) (queue m0) (m_ctxs m1 (g_eid g0)) ps ph m' g' (OYield s) Hq (covers_refl _)).
  simpl in H1. rewrite A3 in H1. specialize (H1 A5 A7 H0).
  destruct H1 as (ps' & ph' & Y & E & Et).
  destruct (yielded_matches _ _ _ _ _ _ _ _ _ _ Y) as [Mt Eg]. simpl in *. apply yielded_at_pc in Y.
  exists ps', ph'. splits. constructor; auto.
  * apply yielded_hist in Y; [|apply covers_refl]. rewrite A3 in Y. auto.
  * rewrite A6, E; auto.
  * eapply static_trans; [eauto|]. destruct Y; simpl in *; eapply static_frame; eauto.
Qed.
Lemma run_state_env : forall m0 g0 ys m g g1 m1 ps ph m', run_state m0 g0 ys m g g1 m1 ps ph ->
  undisturbed (g_eid g0) m m' -> run_state m0 g0 ys m' g g1 m1 ps ph.
Proof.
  intros m0 g0 ys m g g1 m1 ps ph m' [A1 A2 A3 A4 A5 A6 A7 A8] H0. constructor; auto.
  * rewrite (ud_ctx _ _ _ H0); auto.
  * eapply static_trans; [eauto|eapply static_undisturbed; eauto].
Qed.
Theorem run_history : forall m0 g0 ys m g, running m0 g0 ys m g -> g_pc g0 = PStart ->
  (ys = [] /\ g = g0 /\ undisturbed (g_eid g0) m0 m) \/
  (exists g1 m1 ps ph, run_state m0 g0 ys m g g1 m1 ps ph).
Proof.
  intros m0 g0 ys m g H Hp. induction H.
  - left; splits; apply undisturbed_refl.
  - destruct IHrunning as [(-> & -> & U)|(g1 & m1 & ps & ph & R)].
    + left; splits; eapply undisturbed_trans; eauto.
    + right; exists g1, m1, ps, ph. eapply run_state_env; eauto.
  - right. destruct IHrunning as [(-> & -> & U)|(g1 & m1 & ps & ph & R)].
    + destruct (run_first _ _ _ _ _ _ _ Hp U H0) as (g1 & m1 & ps & ph & _ & R & _). eauto 10.
    + destruct (run_next _ _ _ _ _ _ _ _ _ _ _ _ _ R H0) as (ps' & ph' & R' & _). eauto 10.
Qed.
