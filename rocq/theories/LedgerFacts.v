(** The records of an execution id over a session. *)
From Verif Require Import SpecLedger BaseFacts RunProofs RunHist RunFacts RunProps YieldFacts RunChange ResumeFrame CondSetFacts SchedFacts SchedThms ChangeFacts RunIds RunCrash.

(** [booked ys ex x x']: between x and x' the sets ys were recorded, and the nodes of ex
    counted without being recorded *)
Definition booked (ys : list (list node)) (ex : list node) (x x' : ctx) : Prop :=
  (stamped x -> stamped x') /\ exists t t' l, recorded x l t /\ recorded x' (l ++ ys) t' /\
    forall s n, ts_leb ES s = true -> t' s n = t s n + occurrences n ys + (if mem n ex then 1 else 0).
Definition full (x : ctx) : Prop := exists l t, recorded x l t.
Lemma booked_full : forall ys ex x x', booked ys ex x x' -> full x'.
Proof. intros ys ex x x' (_ & t & t' & l & _ & R & _). exists (l ++ ys), t'. auto. Qed.
Lemma booked_refl : forall x, full x -> booked [] [] x x.
Proof. intros x (l & t & R). split; [auto|]. exists t, t, l. rewrite app_nil_r. split; [auto|]. split; [auto|]. intros. simpl. unfold occurrences; simpl. lia. Qed.
Lemma booked_eq : forall x x', full x -> x' = x -> booked [] [] x x'.
Proof. intros; subst; apply booked_refl; auto. Qed.
Lemma booked_trans : forall ys zs ex a b c, booked ys [] a b -> booked zs ex b c -> booked (ys ++ zs) ex a c.
Proof.
  intros ys zs ex a b c (St & t & t1 & l & R & R1 & H) (St' & t1' & t2 & l1 & R1' & R2 & H').
  assert (E1 : l1 = l ++ ys) by (destruct R1 as (A & _), R1' as (B & _); congruence).
  assert (E2 : t1' = t1) by (destruct R1 as (_ & A), R1' as (_ & B); congruence). subst.
  split; [auto|]. exists t, t2, l. split; [auto|]. split; [rewrite app_assoc; auto|]. intros s n L. rewrite (H' s n L), (H s n L), occurrences_app. simpl. lia.
Qed.
Lemma booked_kept : forall ex a b c, booked [] [] a b -> booked [] ex b c -> booked [] ex a c.
Proof. intros ex a b c A B. exact (booked_trans [] [] ex a b c A B). Qed.
Lemma booked_step : forall ys ex x x' l t, recorded x l t -> x_list x' = Some (l ++ ys) -> (stamped x -> stamped x') ->
  (exists t', x_total x' = Some t' /\ forall s n, ts_leb ES s = true -> t' s n = t s n + occurrences n ys + (if mem n ex then 1 else 0)) ->
  booked ys ex x x'.
Proof. intros ys ex x x' l t R L S (t' & T & H). split; [auto|]. exists t, t', l. split; [auto|]. split; [unfold recorded; auto|auto]. Qed.
Lemma booked_same : forall x x', full x -> x_list x' = x_list x -> x_stamps x' = x_stamps x -> x_total x' = x_total x -> booked [] [] x x'.
Proof.
  intros x x' (l & t & A & B) L S T. apply (booked_step _ _ _ _ l t); [unfold recorded; auto|rewrite app_nil_r; congruence|unfold stamped; congruence|].
  exists t. split; [congruence|]. intros. unfold occurrences; simpl. lia.
Qed.
Lemma booked_reset : forall s x u k, full x -> ts_leb ES s = false ->
  booked [] [] x (mkCtx (option_map (reset_total s) (x_total x)) u (x_list x) (x_stamps x) k).
Proof.
  intros s x u k (l & t & A & B) Hs. apply (booked_step _ _ _ _ l t); [unfold recorded; auto|simpl; rewrite app_nil_r; auto|auto|].
  rewrite B. simpl. exists (reset_total s t). split; [auto|]. intros s' n L. unfold reset_total. unfold occurrences; simpl.
  destruct s, s'; simpl in *; try discriminate; lia.
Qed.
Lemma booked_accepts : forall s x, full x -> NoDup s -> booked [] s x (ctx_accepts s x).
Proof.
  intros s x (l & t & A & B) N. destruct (ctx_accepts_other s x) as (O1 & O2 & _).
  destruct (ctx_accepts_total s x t B N) as (t' & E' & H). apply (booked_step _ _ _ _ l t); [unfold recorded; auto|rewrite app_nil_r; congruence|unfold stamped; congruence|].
  exists t'. split; auto. intros sc n _. rewrite H, occurrences_one. unfold occurrences; simpl. lia.
Qed.
Lemma booked_incr : forall s m e m', incr_clock s m e = Ok m' -> full (m_ctxs m e) -> booked [] [] (m_ctxs m e) (m_ctxs m' e).
Proof.
  intros s m e m' H F. unfold incr_clock in H. destruct (clock_incr s _) as [k|]; [|discriminate]. injection H as <-.
  unfold set_clock. rewrite set_ctx_at. apply booked_same; auto.
Qed.
(** a generator in absolute time mode finds a list of times *)
Definition usable (g : gen) (x : ctx) : Prop := g_abs g = true -> stamped x.
Lemma usable_booked : forall g ys ex x x', usable g x -> booked ys ex x x' -> usable g x'.
Proof. intros g ys ex x x' U [S _] A. auto. Qed.
Lemma append_books : forall m e abs s r m', append_exec m e abs s = (r, m') -> full (m_ctxs m e) -> (abs = true -> stamped (m_ctxs m e)) ->
  exists m1, r = Ok m1 /\ x_total (m_ctxs m' e) = x_total (m_ctxs m e) /\ (stamped (m_ctxs m e) -> stamped (m_ctxs m' e)) /\
    forall l, x_list (m_ctxs m e) = Some l -> x_list (m_ctxs m' e) = Some (l ++ [s]).
Proof.
  intros m e abs s r m' H (l & t & A & B) C. unfold append_exec in H. rewrite A in H. unfold stamped in *. destruct abs.
  - specialize (C eq_refl). destruct (x_stamps (m_ctxs m e)) as [ts|]; [|congruence]. injection H as <- <-. eexists. split; [reflexivity|]. rewrite set_ctx_at. simpl.
    split; [auto|]. split; [discriminate|]. intros l' E. congruence.
  - injection H as <- <-. eexists. split; [reflexivity|]. rewrite set_ctx_at. simpl. split; [auto|]. split; [auto|]. intros l' E. congruence.
Qed.
(** the nodes accepted and the set appended *)
Lemma booked_append : forall m e abs s r m' x, append_exec m e abs s = (r, m') -> full x -> (abs = true -> stamped x) -> booked [] s x (m_ctxs m e) ->
  (exists m1, r = Ok m1) /\ booked [s] [] x (m_ctxs m' e).
Proof.
  intros m e abs s r m' x H F U (St & t & t' & l & R & R' & Hc). rewrite app_nil_r in R'.
  destruct (append_books _ _ _ _ _ _ H) as (m1 & -> & T & S & L); [exists l, t'; auto|auto|]. split; [eauto|].
  apply (booked_step _ _ _ _ l t); auto.
  - apply L. apply R'.
  - exists t'. split; [rewrite T; apply R'|]. intros sc n Ls. rewrite (Hc sc n Ls), occurrences_one. unfold occurrences; simpl. lia.
Qed.
Lemma inner_books : forall rest m g i ch, full (m_ctxs m (g_eid g)) -> usable g (m_ctxs m (g_eid g)) ->
  match inner m g rest i ch with
  | IYield m' s _ _ => booked [s] [] (m_ctxs m (g_eid g)) (m_ctxs m' (g_eid g))
  | IEnd m' _ | IFuel m' => booked [] [] (m_ctxs m (g_eid g)) (m_ctxs m' (g_eid g))
  | IErr m' _ => exists ex, booked [] ex (m_ctxs m (g_eid g)) (m_ctxs m' (g_eid g))
  end.
Proof.
  induction rest as [|level rest IH]; intros m g i ch F U; cbn [inner]; [apply booked_refl; auto|].
  destruct (terminated m (g_eid g) (g_tc g)) as [[[|]|ex1] m1] eqn:Tm; pose proof (proj2 (terminated_quiet _ _ _ _ Tm)) as X1.
  - apply booked_eq; auto.
  - destruct (do_level (S (length level)) m1 (g_eid g) level []) as [[[exec|ex1] m2]|] eqn:D.
    + apply (do_level_ok (tc := g_tc g)) in D. pose proof (level_nodup _ _ _ _ _ D) as N.
      pose proof (ad_ctx _ _ _ _ _ _ (lv_added _ _ _ _ _ D)) as X2. rewrite X1 in X2.
      pose proof (booked_accepts exec _ F N) as Bk. rewrite <- X2 in Bk.
      destruct (nonempty exec || g_abs g) eqn:C.
      * destruct (append_exec m2 (g_eid g) (g_abs g) exec) as [r m3] eqn:Ap.
        destruct (booked_append _ _ _ _ _ _ _ Ap F U Bk) as [(m4 & ->) B]. exact B.
      * apply orb_false_iff in C. destruct C as [C1 C2]. destruct exec; [|discriminate].
        specialize (IH m2 g (S i) (ch || nonempty (@nil node)) (booked_full _ _ _ _ Bk) (usable_booked _ _ _ _ _ U Bk)).
        destruct (inner m2 g rest (S i) (ch || nonempty [])) as [m' s j c|m' c|m' ex|m'].
        -- exact (booked_trans [] [s] [] _ _ _ Bk IH).
        -- exact (booked_trans [] [] [] _ _ _ Bk IH).
        -- destruct IH as (ex' & IH). exists ex'. exact (booked_trans [] [] ex' _ _ _ Bk IH).
        -- exact (booked_trans [] [] [] _ _ _ Bk IH).
    + destruct (do_level_err (g_tc g) _ _ _ _ _ _ _ D) as (ad & A). exists ad.
      rewrite (ad_ctx _ _ _ _ _ _ A), X1. apply booked_accepts; auto. apply (ad_nodup _ _ _ _ _ _ A). constructor.
    + apply booked_eq; auto.
  - exists []. apply booked_eq; auto.
Qed.
Lemma tail_books : forall m g ch, full (m_ctxs m (g_eid g)) ->
  match pass_tail m g ch with
  | TYield m' => booked [[]] [] (m_ctxs m (g_eid g)) (m_ctxs m' (g_eid g))
  | TNext m' | TErr m' _ => booked [] [] (m_ctxs m (g_eid g)) (m_ctxs m' (g_eid g))
  end.
Proof.
  intros m g ch F. unfold pass_tail. destruct (negb ch && negb (g_abs g)).
  - destruct (append_exec m (g_eid g) false []) as [r m'] eqn:A.
    destruct (booked_append _ _ _ _ _ _ _ A F ltac:(discriminate) (booked_refl _ F)) as [(m4 & ->) B]. exact B.
  - destruct (incr_clock PASS m (g_eid g)) eqn:I; [eapply booked_incr; eauto|apply booked_refl; auto].
Qed.
Definition yields (o : outcome) : list (list node) := match o with OYield s => [s] | _ => [] end.
(** how a resumption that ended with o changed the records *)
Definition books (o : outcome) (x x' : ctx) : Prop :=
  (exists ex, booked (yields o) ex x x' /\ (ex = [] \/ exists er, o = ORaise er)) /\ forall l, o = OReturn l -> x_list x' = Some l.
Lemma books_intro : forall o x x', booked (yields o) [] x x' -> (forall l, o <> OReturn l) -> books o x x'.
Proof. intros o x x' B N. split; [exists []; auto|]. intros l E. destruct (N l E). Qed.
Lemma books_err : forall ex x x' l, booked [] l x x' -> books (ORaise ex) x x'.
Proof. intros ex x x' l B. split; [exists l; eauto|]. discriminate. Qed.
Lemma books_after : forall o a b c, booked [] [] a b -> books o b c -> books o a c.
Proof. intros o a b c A [(ex & B & E) R]. split; [exists ex; split; [exact (booked_trans [] (yields o) ex a b c A B)|auto]|auto]. Qed.
Lemma finish_books : forall m g, full (m_ctxs m (g_eid g)) ->
  let '(m', _, o) := finish m g in books o (m_ctxs m (g_eid g)) (m_ctxs m' (g_eid g)).
Proof.
  intros m g F. unfold finish.
  assert (H : forall m1, booked [] [] (m_ctxs m (g_eid g)) (m_ctxs m1 (g_eid g)) ->
    let '(m', _, o) := match check_tc m1 (g_eid g) (g_tc g) ES with
      | (Err ex, m2) => (m2, at_pc g PDone, ORaise ex)
      | (Ok _, m2) => match x_list (m_ctxs m2 (g_eid g)) with None => (m2, at_pc g PDone, ORaise EKey) | Some l => (m2, at_pc g PDone, OReturn l) end
      end in books o (m_ctxs m (g_eid g)) (m_ctxs m' (g_eid g))).
  { intros m1 B. destruct (check_tc m1 (g_eid g) (g_tc g) ES) as [[b|ex1] m2] eqn:C; apply check_tc_quiet in C; destruct C as [_ C].
    - rewrite <- C in B. destruct (x_list (m_ctxs m2 (g_eid g))) as [l|] eqn:E; [|eapply books_err; eauto].
      split; [exists []; auto|]. intros l' El. congruence.
    - rewrite <- C in B. eapply books_err; eauto. }
  destruct (g_skip g); [apply H, booked_refl; auto|].
  destruct (incr_clock ESU m (g_eid g)) as [m1|] eqn:I; [apply H; eapply booked_incr; eauto|]. eapply books_err, booked_refl; auto.
Qed.
Lemma outer_books : forall fuel m g, full (m_ctxs m (g_eid g)) -> usable g (m_ctxs m (g_eid g)) ->
  let '(m', _, o) := outer fuel m g in books o (m_ctxs m (g_eid g)) (m_ctxs m' (g_eid g)).
Proof.
  induction fuel as [|f IH]; intros m g F U; cbn [outer]; [apply books_intro; [apply booked_refl; auto|discriminate]|].
  destruct (terminated m (g_eid g) (g_tc g)) as [[[|]|ex1] m1] eqn:Tm; pose proof (proj2 (terminated_quiet _ _ _ _ Tm)) as X1.
  - rewrite <- X1 in *. apply finish_books; auto.
  - cbv zeta. set (m2 := reset_counts_total PASS m1 (g_eid g)).
    assert (B2 : booked [] [] (m_ctxs m (g_eid g)) (m_ctxs m2 (g_eid g))).
    { unfold m2, reset_counts_total. rewrite set_ctx_at. rewrite <- X1 in *. apply booked_reset; auto. }
    pose proof (inner_books (queue m2) m2 g 0 false (booked_full _ _ _ _ B2) (usable_booked _ _ _ _ _ U B2)) as In.
    destruct (inner m2 g (queue m2) 0 false) as [m3 s i c|m3 c|m3 ex|m3].
    + apply books_intro; [exact (booked_trans [] [s] [] _ _ _ B2 In)|discriminate].
    + pose proof (booked_kept _ _ _ _ B2 In) as B3. pose proof (tail_books m3 g c (booked_full _ _ _ _ B3)) as T.
      destruct (pass_tail m3 g c) as [m4|m4|m4 ex].
      * apply books_intro; [exact (booked_trans [] [[]] [] _ _ _ B3 T)|discriminate].
      * pose proof (booked_kept _ _ _ _ B3 T) as B4. specialize (IH m4 g (booked_full _ _ _ _ B4) (usable_booked _ _ _ _ _ U B4)).
        destruct (outer f m4 g) as [[m5 g5] o5]. eapply books_after; eauto.
      * eapply books_err. eapply booked_kept; eauto.
    + destruct In as (l & In). eapply books_err. eapply booked_kept; eauto.
    + apply books_intro; [eapply booked_kept; eauto|discriminate].
  - rewrite <- X1 in *. eapply books_err, booked_refl; auto.
Qed.
Lemma set_clock_books : forall m e k, full (m_ctxs m e) -> booked [] [] (m_ctxs m e) (m_ctxs (set_clock m e k) e).
Proof. intros m e k F. unfold set_clock. rewrite set_ctx_at. apply booked_same; auto. Qed.
Lemma start_books : forall m g r m', start m g = (r, m') -> full (m_ctxs m (g_eid g)) ->
  booked [] [] (m_ctxs m (g_eid g)) (m_ctxs m' (g_eid g)).
Proof.
  intros m g r m' H F. rewrite start_eq in H.
  destruct (toposort (m_graph m)); try (injection H as _ <-; apply booked_refl; auto).
  destruct (add_defaults (m_nodes m) m) as [mb|] eqn:A; [|injection H as _ <-; apply booked_refl; auto].
  destruct (add_defaults_rest _ _ _ A) as (_ & _ & _ & X & _). rewrite <- X in *. clear A X. unfold start_rest in H. cbv zeta in H.
  set (tc := match g_tcarg g with None => m_tconds mb | Some a => combine_tconds (m_tconds mb) a end) in *.
  set (m2 := set_clock mb (g_eid g) (the_clock (m_ctxs mb (g_eid g)))) in *.
  assert (B2 : booked [] [] (m_ctxs mb (g_eid g)) (m_ctxs m2 (g_eid g))) by (apply set_clock_books; auto).
  destruct (setup_absolute m2 (g_eid g) tc) as [m3|] eqn:Su; [|injection H as _ <-; auto].
  apply setup_ctx in Su. destruct Su as (k & ->).
  pose proof (booked_kept _ _ _ _ B2 (set_clock_books m2 (g_eid g) k (booked_full _ _ _ _ B2))) as B3.
  set (m3 := set_clock m2 (g_eid g) k) in *. clearbody m3.
  assert (I4 : forall r4 m4, init_counts_base m3 (g_eid g) (g_base g) = (r4, m4) -> booked [] [] (m_ctxs m3 (g_eid g)) (m_ctxs m4 (g_eid g))).
  { intros r4 m4 I. pose proof (booked_full _ _ _ _ B3) as (l & t & L & T). unfold init_counts_base in I. rewrite T in I. simpl in I.
    assert (G : forall u k', booked [] [] (m_ctxs m3 (g_eid g)) (mkCtx (Some t) u (Some l) (x_stamps (m_ctxs m3 (g_eid g))) k')).
    { intros u k'. apply booked_same; simpl; auto. exists l, t. unfold recorded; auto. }
    rewrite L in I. simpl in I. destruct (copy_entry (x_use _) _) as [u|]; [|injection I as _ <-; rewrite set_ctx_at; apply G].
    destruct (copy_entry (x_clock _) _) as [kk|]; injection I as _ <-; rewrite set_ctx_at; apply G. }
  destruct (init_counts_base m3 (g_eid g) (g_base g)) as [[u|e2] m4] eqn:I; pose proof (booked_kept _ _ _ _ B3 (I4 _ _ eq_refl)) as B4;
    [|injection H as _ <-; auto].
  injection H as _ <-. eapply booked_kept; [exact B4|]. pose proof (booked_full _ _ _ _ B4) as F4.
  unfold reset_counts_total. rewrite set_ctx_at. unfold reset_counts_useable. rewrite set_ctx_at. simpl.
  apply booked_reset; auto.
Qed.
(** time mode of the generator *)
Lemma finish_abs : forall m g, g_abs (snd (fst (finish m g))) = g_abs g.
Proof. intros m g. unfold finish. destruct (if g_skip g then _ else _); [destruct (check_tc _ _ _ _) as [[|] ?]; [destruct (x_list _)|]|]; reflexivity. Qed.
Lemma outer_abs : forall fuel m g, g_abs (snd (fst (outer fuel m g))) = g_abs g.
Proof.
  induction fuel as [|f IH]; intros m g; cbn [outer]; [reflexivity|]. destruct (terminated m (g_eid g) (g_tc g)) as [[[|]|ex1] m1]; [apply finish_abs| |reflexivity].
  cbv zeta. destruct (inner _ _ _ _ _) as [m3 s i c|m3 c|m3 ex|m3]; try reflexivity. destruct (pass_tail m3 g c); try reflexivity. apply IH.
Qed.
Lemma resume_books : forall fuel m g, full (m_ctxs m (g_eid g)) ->
  stamped (m_ctxs m (g_eid g)) \/ g_abs (snd (fst (resume fuel m g))) = false ->
  let '(m', _, o) := resume fuel m g in books o (m_ctxs m (g_eid g)) (m_ctxs m' (g_eid g)).
Proof.
  intros fuel m g F U'.
  assert (U : g_pc g <> PStart -> usable g (m_ctxs m (g_eid g))).
  { intros P A. destruct U' as [U'|U']; [auto|exfalso]. revert U'. unfold resume. cbv zeta. destruct (g_pc g) as [|i ch| |]; [congruence| | |simpl; congruence].
    - destruct (incr_clock CSE m (g_eid g)) as [m1|]; [|simpl; congruence]. destruct (inner _ _ _ _ _) as [m3 s j c|m3 c|m3 ex|m3]; simpl; try congruence.
      destruct (pass_tail m3 g c); simpl; try congruence. rewrite outer_abs. congruence.
    - destruct (incr_clock CSE m (g_eid g)) as [m1|]; [|simpl; congruence]. destruct (incr_clock PASS m1 (g_eid g)) as [m2|]; [|simpl; congruence].
      rewrite outer_abs. congruence. }
  revert U'. unfold resume. destruct (g_pc g) as [|i ch| |]; intros U'; [clear U|specialize (U ltac:(discriminate))..].
  - destruct (start m g) as [[g1|ex] m1] eqn:S; pose proof (start_books _ _ _ _ S F) as B; [|eapply books_err; eauto].
    assert (Ge : g_eid g1 = g_eid g) by apply (start_spec _ _ _ _ S).
    assert (U : usable g1 (m_ctxs m (g_eid g))) by (rewrite outer_abs in U'; intros A; destruct U'; [auto|congruence]).
    pose proof (outer_books fuel m1 g1) as O. rewrite Ge in O. specialize (O (booked_full _ _ _ _ B) (usable_booked _ _ _ _ _ U B)).
    destruct (outer fuel m1 g1) as [[m5 g5] o5]. eapply books_after; eauto.
  - destruct (incr_clock CSE m (g_eid g)) as [m1|] eqn:I; [|eapply books_err, booked_refl; auto].
    pose proof (booked_incr _ _ _ _ I F) as B1.
    pose proof (inner_books (skipn (S i) (queue m1)) m1 g (S i) ch (booked_full _ _ _ _ B1) (usable_booked _ _ _ _ _ U B1)) as In.
    destruct (inner m1 g (skipn (S i) (queue m1)) (S i) ch) as [m3 s j c|m3 c|m3 ex|m3].
    + apply books_intro; [exact (booked_trans [] [s] [] _ _ _ B1 In)|discriminate].
    + pose proof (booked_kept _ _ _ _ B1 In) as B3. pose proof (tail_books m3 g c (booked_full _ _ _ _ B3)) as T.
      destruct (pass_tail m3 g c) as [m4|m4|m4 ex].
      * apply books_intro; [exact (booked_trans [] [[]] [] _ _ _ B3 T)|discriminate].
      * pose proof (booked_kept _ _ _ _ B3 T) as B4. pose proof (outer_books fuel m4 g (booked_full _ _ _ _ B4) (usable_booked _ _ _ _ _ U B4)) as O.
        destruct (outer fuel m4 g) as [[m5 g5] o5]. eapply books_after; eauto.
      * eapply books_err. eapply booked_kept; eauto.
    + destruct In as (l & In). eapply books_err. eapply booked_kept; eauto.
    + apply books_intro; [eapply booked_kept; eauto|discriminate].
  - destruct (incr_clock CSE m (g_eid g)) as [m1|] eqn:I; [|eapply books_err, booked_refl; auto].
    pose proof (booked_incr _ _ _ _ I F) as B1.
    destruct (incr_clock PASS m1 (g_eid g)) as [m2|] eqn:I2; [|eapply books_err; eauto].
    pose proof (booked_kept _ _ _ _ B1 (booked_incr _ _ _ _ I2 (booked_full _ _ _ _ B1))) as B2.
    pose proof (outer_books fuel m2 g (booked_full _ _ _ _ B2) (usable_booked _ _ _ _ _ U B2)) as O.
    destruct (outer fuel m2 g) as [[m5 g5] o5]. eapply books_after; eauto.
  - apply books_intro; [apply booked_refl; auto|discriminate].
Qed.
Lemma failed_books : forall d d1 g ex, d_ctxs d1 = d_ctxs d -> full (d_ctxs d (g_eid g)) ->
  let '(d', _, o) := sresume_failed d d1 g ex in books o (d_ctxs d (g_eid g)) (d_ctxs d' (g_eid g)).
Proof.
  intros d d1 g ex C F. unfold sresume_failed. destruct (g_pc g) as [|i ch| |].
  - rewrite C. eapply books_err, booked_refl; auto.
  - destruct (incr_clock CSE (core_of d) (g_eid g)) as [m1|] eqn:I; [|eapply books_err, booked_refl; auto].
    eapply books_err. exact (booked_incr _ _ _ _ I F).
  - destruct (incr_clock CSE (core_of d) (g_eid g)) as [m1|] eqn:I; [|eapply books_err, booked_refl; auto].
    pose proof (booked_incr _ _ _ _ I F) as B1. simpl in B1.
    destruct (incr_clock PASS m1 (g_eid g)) as [m2|] eqn:I2; [|eapply books_err; exact B1].
    pose proof (booked_kept _ _ _ _ B1 (booked_incr _ _ _ _ I2 (booked_full _ _ _ _ B1))) as B2.
    destruct (terminated m2 (g_eid g) (g_tc g)) as [[[|]|ex1] m3] eqn:Tm; pose proof (proj2 (terminated_quiet _ _ _ _ Tm)) as X1; rewrite <- X1 in B2.
    + pose proof (finish_books m3 g (booked_full _ _ _ _ B2)) as Fi. destruct (finish m3 g) as [[m4 g4] o4]. eapply books_after; eauto.
    + eapply books_err. simpl. rewrite upd_same. eapply booked_kept; [exact B2|]. apply booked_reset; [eapply booked_full; eauto|auto].
    + eapply books_err; eauto.
  - apply books_intro; [apply booked_refl; auto|discriminate].
Qed.

Section Sessions.
Variable cyc : graph -> list (list node).
Variable arr : list (list node) -> list (list node).
Lemma sresume_books : forall fuel d g, full (d_ctxs d (g_eid g)) ->
  stamped (d_ctxs d (g_eid g)) \/ g_abs (snd (fst (sresume cyc arr fuel d g))) = false ->
  let '(d', _, o) := sresume cyc arr fuel d g in books o (d_ctxs d (g_eid g)) (d_ctxs d' (g_eid g)).
Proof.
  intros fuel d g F. unfold sresume. destruct (sync cyc arr d) as [[r|ex] d1] eqn:S; pose proof (sync_ctxs _ _ _ _ _ S) as C.
  - pose proof (resume_books fuel (core_of d1) g) as R. simpl in R. rewrite C in R. specialize (R F).
    destruct (resume fuel (core_of d1) g) as [[m g'] o]. exact R.
  - intros _. apply failed_books; auto.
Qed.
Lemma end_books : forall e d, full (d_ctxs d e) -> booked [] [] (d_ctxs d e) (d_ctxs (after cyc arr (CEndSequence e) d) e).
Proof.
  intros e d F. simpl. unfold send_environment_sequence, end_environment_sequence.
  destruct (incr_clock ES (core_of d) e) as [m1|] eqn:I; simpl; [exact (booked_incr _ _ _ _ I F)|apply booked_refl; auto].
Qed.
(** one call *)
Lemma call_books : forall e k d, full (d_ctxs d e) -> stamped (d_ctxs d e) \/ timeless cyc arr e [k] d ->
  exists ex, booked (if concerns e k then match told cyc arr k d with Some (OYield s) => [s] | _ => [] end else []) ex
               (d_ctxs d e) (d_ctxs (after cyc arr k d) e) /\
    (ex = [] \/ (if concerns e k then match told cyc arr k d with Some (ORaise _) => 1 | _ => 0 end else 0) = 1).
Proof.
  intros e k d F U. destruct (concerns e k) eqn:C.
  - destruct k as [| | |f g|]; try discriminate. simpl in C. apply Nat.eqb_eq in C. subst e.
    pose proof (sresume_books f d g F) as B. assert (U1 : stamped (d_ctxs d (g_eid g)) \/ g_abs (snd (fst (sresume cyc arr f d g))) = false) by (destruct U as [U|[U _]]; auto). specialize (B U1). clear U U1. cbn [told after]. destruct (sresume cyc arr f d g) as [[d' g'] o] eqn:E. simpl.
    destruct B as [(ex & B & X) _]. exists ex. destruct o; simpl in B; (split; [exact B|]); destruct X as [X|(er & X)]; auto; try discriminate.
  - exists []. split; auto. destruct k as [k| |t|f g|e']; try (apply booked_eq; [auto|]; apply after_elsewhere; exact I).
    + simpl in C. apply Nat.eqb_neq in C. apply booked_eq; auto. apply after_elsewhere. exact C.
    + destruct (Nat.eq_dec e' e) as [->|N]; [apply end_books; auto|]. apply booked_eq; auto. apply after_elsewhere; auto.
Qed.
Theorem session_books : forall e ks d l t, recorded (d_ctxs d e) l t -> stamped (d_ctxs d e) \/ timeless cyc arr e ks d ->
  exists t', recorded (d_ctxs (after_all cyc arr ks d) e) (l ++ received cyc arr e ks d) t' /\
    forall s n, ts_leb ES s = true ->
      t s n + occurrences n (received cyc arr e ks d) <= t' s n <= t s n + occurrences n (received cyc arr e ks d) + failures cyc arr e ks d.
Proof.
  intros e. induction ks as [|k r IH]; intros d l t R U.
  - simpl. exists t. rewrite app_nil_r. split; [auto|]. intros s n _. unfold occurrences; simpl. lia.
  - destruct (call_books e k d) as (ex & (St & t0 & t1 & l0 & R0 & R1 & H) & X); [exists l, t; auto|destruct U as [U|[U _]]; [auto|right; split; [exact U|exact I]]|].
    assert (l0 = l /\ t0 = t) as [-> ->] by (destruct R as (A & B), R0 as (A' & B'); split; congruence).
    destruct (IH _ _ _ R1) as (t2 & R2 & H2); [destruct U as [U|[_ U]]; auto|]. exists t2. cbn [received failures]. rewrite app_assoc. split; [exact R2|].
    intros s n L. specialize (H s n L). specialize (H2 s n L). rewrite occurrences_app. simpl after_all in *.
    destruct X as [->|X]; [simpl in H; lia|]. rewrite X. destruct (mem n ex); lia.
Qed.
Lemma session_stamped : forall e ks d l t, recorded (d_ctxs d e) l t -> stamped (d_ctxs d e) \/ timeless cyc arr e ks d ->
  (stamped (d_ctxs d e) -> stamped (d_ctxs (after_all cyc arr ks d) e)) /\ exists t', recorded (d_ctxs (after_all cyc arr ks d) e) (l ++ received cyc arr e ks d) t'.
Proof.
  intros e ks d l t R U. split; [|destruct (session_books e ks d l t R U) as (t' & R' & _); eauto].
  intros S. clear U. revert d l t R S. induction ks as [|k r IH]; intros d l t R S; [exact S|].
  destruct (call_books e k d) as (ex & (St & t0 & t1 & l0 & R0 & R1 & H) & X); [exists l, t; auto|auto|].
  exact (IH _ _ _ R1 (St S)).
Qed.
Theorem session_returns : forall e ks d l t f g d' g' out, recorded (d_ctxs d e) l t -> g_eid g = e ->
  stamped (d_ctxs d e) \/ timeless cyc arr e (ks ++ [CNext f g]) d ->
  sresume cyc arr f (after_all cyc arr ks d) g = (d', g', OReturn out) -> out = l ++ received cyc arr e ks d.
Proof.
  intros e ks d l t f g d' g' out R Ge U H.
  assert (U1 : (stamped (d_ctxs d e) \/ timeless cyc arr e ks d) /\ (stamped (d_ctxs d e) \/ g_abs g' = false)).
  { destruct U as [U|U]; [auto|]. assert (T : timeless cyc arr e ks d /\ timeless cyc arr e [CNext f g] (after_all cyc arr ks d)).
    { clear H R. revert d U. induction ks as [|k r IH]; intros d U; [split; [exact I|exact U]|]. destruct U as [U1 U2]. destruct (IH _ U2) as [A B]. split; [split; auto|exact B]. }
    destruct T as [T1 [T2 _]]. specialize (T2 Ge). rewrite H in T2. auto. }
  destruct U1 as [U1 U2]. destruct (session_stamped e ks d l t R U1) as (St & t' & R').
  subst e. pose proof (sresume_books f (after_all cyc arr ks d) g) as B. rewrite H in B.
  destruct B as [(ex & (_ & t0 & t1 & l0 & R0 & R1 & _) & _) L]; [exists (l ++ received cyc arr (g_eid g) ks d), t'; auto|simpl; destruct U2; auto|].
  specialize (L out eq_refl). simpl in R1. rewrite app_nil_r in R1. destruct R1 as (A & _), R0 as (B & _), R' as (C & _). congruence.
Qed.
End Sessions.
