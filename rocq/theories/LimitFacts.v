(** A node whose condition limits its calls is not called more often (C91). *)
From Verif Require Import BaseFacts SpecLimit SpecRun ResumeFrame RunIds LedgerFacts IdFacts ChangeFacts SchedThms.
Open Scope nat_scope.
Open Scope list_scope.

Section Limit.
Variables (s : timescale) (n : node) (N : nat).
Lemma ts_val_inj : forall a b, Nat.eqb (ts_val a) (ts_val b) = true -> a = b.
Proof. intros [] []; simpl; intros H; try discriminate; auto. Qed.
Lemma limits_total : forall c v e ow st st' f, limits s n N c = true -> eval v e ow c st = (Ok true, st') -> v_total v = Some f -> f s n < N.
Proof.
  induction c as [o a|o cs IH|o cs IH|o c IH|o c k IH] using cond_ind'; intros v e ow st st' f L H T; simpl in L; try discriminate.
  - simpl in H. destruct (eval_atom v e (ow o) a (s_world st)) as [r w] eqn:A. injection H as -> _. destruct a as [| |?|?| |c0 d k s'|?|?|?|?|?|?|?|?|?|?|?]; try discriminate.
    assert (X : forall b, Nat.eqb d n && Nat.eqb (ts_val s') (ts_val s) && b = true -> d = n /\ s' = s /\ b = true).
    { intros b E. apply andb_true_iff in E. destruct E as [E B]. apply andb_true_iff in E. destruct E as [E1 E2]. apply Nat.eqb_eq in E1. apply ts_val_inj in E2. auto. }
    simpl in A. unfold count_total in A. rewrite T in A. destruct (mem d (v_nodes v)); [|discriminate]. simpl in A. injection A as A _.
    destruct c0; try discriminate; apply X in L; destruct L as (-> & -> & B); simpl in A;
      rewrite ?Nat.eqb_eq, ?Nat.leb_le, ?Nat.ltb_lt in *; lia.
  - simpl in H. revert st H. induction IH as [|x r Hx Hr I2]; intros st H; simpl in L; [discriminate|]. apply orb_true_iff in L.
    destruct (eval v e ow x st) as [[[]|] st1] eqn:E; try discriminate. destruct L as [L|L]; [eapply Hx; eauto|eapply I2; eauto].
  - simpl in H. revert st H. induction IH as [|x r Hx Hr I2]; intros st H; simpl in L; [discriminate|]. apply andb_true_iff in L. destruct L as [L1 L2].
    destruct (eval v e ow x st) as [[[]|] st1] eqn:E; try discriminate; [eapply Hx; eauto|eapply I2; eauto].
  - destruct c as [o' a| | | |]; try discriminate. clear IH. destruct a as [| |?|?| |c0 d k s'|?|?|?|?|?|?|?|?|?|?|?]; try discriminate.
    assert (X : forall b, Nat.eqb d n && Nat.eqb (ts_val s') (ts_val s) && b = true -> d = n /\ s' = s /\ b = true).
    { intros b E. apply andb_true_iff in E. destruct E as [E B]. apply andb_true_iff in E. destruct E as [E1 E2]. apply Nat.eqb_eq in E1. apply ts_val_inj in E2. auto. }
    simpl in H. unfold count_total in H. rewrite T in H. destruct (mem d (v_nodes v)); [|discriminate]. simpl in H. injection H as H _.
    destruct c0; try discriminate; apply X in L; destruct L as (-> & -> & B); simpl in H;
      rewrite ?negb_true_iff, ?Nat.leb_le, ?Nat.ltb_lt, ?Nat.leb_gt, ?Nat.ltb_ge in *; lia.
Qed.
Definition capx (x : ctx) : Prop := forall t, x_total x = Some t -> t s n <= N.
Record inv (m : core) : Prop := {
  iv_cap : forall e, capx (m_ctxs m e);
  iv_has : exists c, aget n (m_basic m) = Some c /\ limits s n N c = true }.
Lemma inv_ctx : forall m e x, inv m -> capx x -> inv (set_ctx m e x).
Proof.
  intros m e x [C H] X. constructor; [|exact H]. intros e'. simpl. destruct (Nat.eq_dec e' e) as [->|D]; [rewrite upd_same; auto|rewrite upd_other by auto; auto].
Qed.
Lemma inv_same : forall m e x, inv m -> x_total x = x_total (m_ctxs m e) -> inv (set_ctx m e x).
Proof. intros m e x I E. apply inv_ctx; auto. intros t T. rewrite E in T. exact (iv_cap _ I e t T). Qed.
Lemma inv_cst : forall m st, inv m -> inv (set_cst m st).
Proof. intros m st [C H]. constructor; auto. Qed.
Lemma inv_satisfied : forall m e c r m', satisfied m e c = (r, m') -> inv m -> inv m'.
Proof. intros m e c r m' H I. unfold satisfied in H. destruct (eval _ _ _ _ _). injection H as _ <-. apply inv_cst; auto. Qed.
Lemma inv_round : forall level m e exec ch r m', round m e level exec ch = (r, m') -> inv m -> inv m'.
Proof.
  induction level as [|x l IH]; intros m e exec ch r m' H I; simpl in H; [injection H as _ <-; auto|].
  destruct (mem x exec); [eauto|]. destruct (aget x (m_basic m)) as [c|] eqn:A; [|injection H as _ <-; auto].
  destruct (satisfied m e c) as [[[|]|] m1] eqn:S; pose proof (inv_satisfied _ _ _ _ _ S I) as I1; [|eauto|injection H as _ <-; auto].
  destruct (mem x (m_nodes m1)); [|injection H as _ <-; auto]. eapply IH; [exact H|]. unfold accept. apply inv_ctx; auto.
  intros t T. simpl in T. destruct (x_total (m_ctxs m1 e)) as [f|] eqn:F; [|discriminate]. injection T as <-. unfold bump_total.
  destruct (Nat.eqb_spec n x) as [D|D]; [subst x|exact (iv_cap _ I1 e f F)].
  unfold satisfied in S. destruct (eval (view_of m e) e (m_owners m) c (m_cst m)) as [r0 st] eqn:E. injection S as -> <-.
  destruct (iv_has _ I) as (c' & A' & L). assert (c' = c) by congruence. subst c'. exact (limits_total c _ _ _ _ _ f L E F).
Qed.
Lemma inv_level : forall fuel m e level exec r m', do_level fuel m e level exec = Some (r, m') -> inv m -> inv m'.
Proof.
  induction fuel as [|f IH]; intros m e level exec r m' H I; simpl in H; [discriminate|].
  destruct (round m e level exec false) as [[[ex [|]]|] m1] eqn:R; pose proof (inv_round _ _ _ _ _ _ _ R I) as I1; [eauto|injection H as _ <-; auto..].
Qed.
Lemma inv_tc : forall m e tc s' r m', check_tc m e tc s' = (r, m') -> inv m -> inv m'.
Proof. intros m e tc s' r m' H I. unfold check_tc in H. destruct (tc s'); [eapply inv_satisfied; eauto|injection H as _ <-; auto]. Qed.
Lemma inv_terminated : forall m e tc r m', terminated m e tc = (r, m') -> inv m -> inv m'.
Proof.
  intros m e tc r m' H I. unfold terminated in H. destruct (check_tc m e tc ESU) as [[[|]|] m1] eqn:C; pose proof (inv_tc _ _ _ _ _ _ C I) as I1;
    [injection H as _ <-; auto|eapply inv_tc; eauto|injection H as _ <-; auto].
Qed.
Lemma inv_append : forall m e abs x r m', append_exec m e abs x = (r, m') -> inv m -> inv m'.
Proof.
  intros m e abs x r m' H I. unfold append_exec in H. destruct (x_list _); [|injection H as _ <-; auto].
  destruct abs; [destruct (x_stamps _)|]; injection H as _ <-; apply inv_same; auto.
Qed.
Lemma inv_clock : forall m e k, inv m -> inv (set_clock m e k).
Proof. intros m e k I. apply inv_same; auto. Qed.
Lemma inv_incr : forall s' m e m', incr_clock s' m e = Ok m' -> inv m -> inv m'.
Proof. intros s' m e m' H I. unfold incr_clock in H. destruct (clock_incr _ _); [|discriminate]. injection H as <-. apply inv_clock; auto. Qed.
Lemma inv_reset : forall s' m e, inv m -> inv (reset_counts_total s' m e).
Proof.
  intros s' m e I. unfold reset_counts_total. apply inv_ctx; auto. intros t T. simpl in T. destruct (x_total (m_ctxs m e)) as [f|] eqn:F; [|discriminate].
  injection T as <-. unfold reset_total. destruct (ts_leb s s'); [lia|exact (iv_cap _ I e f F)].
Qed.
Lemma inv_inner : forall rest m g i ch, inv m -> inv (inner_core (inner m g rest i ch)).
Proof.
  induction rest as [|level rest IH]; intros m g i ch I; cbn [inner]; auto.
  destruct (terminated m (g_eid g) (g_tc g)) as [[[|]|] m1] eqn:T; pose proof (inv_terminated _ _ _ _ _ T I) as I1; auto.
  destruct (do_level (S (length level)) m1 (g_eid g) level []) as [[[exec|] m2]|] eqn:D; auto; pose proof (inv_level _ _ _ _ _ _ _ D I1) as I2; auto.
  cbv zeta. destruct (nonempty exec || g_abs g); [|apply IH; auto].
  destruct (append_exec m2 (g_eid g) (g_abs g) exec) as [[|] m3] eqn:A; simpl; eapply inv_append; eauto.
Qed.
Lemma inv_tail : forall m g ch, inv m -> inv (tail_core (pass_tail m g ch)).
Proof.
  intros m g ch I. unfold pass_tail. destruct (negb ch && negb (g_abs g)).
  - destruct (append_exec m (g_eid g) false []) as [[|] m'] eqn:A; simpl; eapply inv_append; eauto.
  - destruct (incr_clock PASS m (g_eid g)) eqn:E; simpl; auto. eapply inv_incr; eauto.
Qed.
Lemma inv_finish : forall m g, inv m -> inv (fst (fst (finish m g))).
Proof.
  intros m g I. unfold finish. destruct (if g_skip g then Ok m else incr_clock ESU m (g_eid g)) as [m1|] eqn:E; auto.
  assert (I1 : inv m1) by (destruct (g_skip g); [injection E as <-; auto|eapply inv_incr; eauto]).
  destruct (check_tc m1 (g_eid g) (g_tc g) ES) as [[b|] m2] eqn:C; pose proof (inv_tc _ _ _ _ _ _ C I1) as I2; auto. destruct (x_list _); auto.
Qed.
Lemma inv_outer : forall fuel m g, inv m -> inv (fst (fst (outer fuel m g))).
Proof.
  induction fuel as [|f IH]; intros m g I; cbn [outer]; auto.
  destruct (terminated m (g_eid g) (g_tc g)) as [[[|]|] m1] eqn:T; pose proof (inv_terminated _ _ _ _ _ T I) as I1; [apply inv_finish; auto| |auto].
  cbv zeta. pose proof (inv_inner (queue (reset_counts_total PASS m1 (g_eid g))) (reset_counts_total PASS m1 (g_eid g)) g 0 false (inv_reset _ _ _ I1)) as I2.
  destruct (inner _ g _ 0 false) as [m3 x i c|m3 c|m3 ex|m3]; auto. simpl in I2. pose proof (inv_tail m3 g c I2) as I3. destruct (pass_tail m3 g c); auto.
Qed.
Lemma inv_init : forall m e b r m', init_counts_base m e b = (r, m') -> inv m -> inv m'.
Proof.
  intros m e b r m' H I. unfold init_counts_base in H. destruct (copy_entry (x_total _) _) as [t|] eqn:C; [|injection H as _ <-; auto].
  assert (X : forall u l st k, capx (mkCtx t u l st k)).
  { intros u l st k t' T. simpl in T. subst t. unfold copy_entry in C. destruct (x_total (m_ctxs m e)) as [f|] eqn:F; [injection C as <-; exact (iv_cap _ I e f F)|].
    destruct (x_total (m_ctxs m b)) as [f|] eqn:F'; [|discriminate]. injection C as <-. exact (iv_cap _ I b f F'). }
  destruct (copy_entry (x_use _) _); [|injection H as _ <-; apply inv_ctx; auto]. destruct (copy_entry (x_list _) _); [|injection H as _ <-; apply inv_ctx; auto].
  destruct (copy_entry (x_clock _) _); injection H as _ <-; apply inv_ctx; auto.
Qed.
Lemma inv_start : forall m g r m', start m g = (r, m') -> inv m -> inv m'.
Proof.
  intros m g r m' H I. rewrite start_eq in H. destruct (toposort (m_graph m)); try (injection H as _ <-; auto; fail).
  destruct (add_defaults (m_nodes m) m) as [mb|] eqn:A; [|injection H as _ <-; auto].
  assert (Ib : inv mb).
  { destruct (add_defaults_rest _ _ _ A) as (_ & _ & _ & X & _). constructor; [rewrite X; exact (iv_cap _ I)|].
    destruct (iv_has _ I) as (c & E & L). exists c. split; auto. exact (gw_kept 0 _ _ (grown_defaults 0 _ _ _ A) _ _ E). }
  unfold start_rest in H. cbv zeta in H.
  destruct (setup_absolute _ _ _) as [m3|] eqn:Su; [|injection H as _ <-; apply inv_clock; auto].
  assert (I3 : inv m3) by (apply setup_ctx in Su; destruct Su as (k & ->); apply inv_clock, inv_clock; auto).
  destruct (init_counts_base m3 (g_eid g) (g_base g)) as [[u|] m4] eqn:In; pose proof (inv_init _ _ _ _ _ In I3) as I4; injection H as _ <-; auto.
  apply inv_reset. apply inv_same; auto.
Qed.
Lemma inv_resume : forall fuel m g, inv m -> inv (fst (fst (resume fuel m g))).
Proof.
  intros fuel m g I. unfold resume. destruct (g_pc g) as [|i ch| |]; auto.
  - destruct (start m g) as [[g1|] m1] eqn:S; pose proof (inv_start _ _ _ _ S I) as I1; auto. apply inv_outer; auto.
  - destruct (incr_clock CSE m (g_eid g)) as [m1|] eqn:E; auto. pose proof (inv_incr _ _ _ _ E I) as I1.
    pose proof (inv_inner (skipn (S i) (queue m1)) m1 g (S i) ch I1) as I2. destruct (inner _ _ _ _ _) as [m3 x j c|m3 c|m3 ex|m3]; auto.
    simpl in I2. pose proof (inv_tail m3 g c I2) as I3. destruct (pass_tail m3 g c); auto. apply inv_outer; auto.
  - destruct (incr_clock CSE m (g_eid g)) as [m1|] eqn:E; auto. pose proof (inv_incr _ _ _ _ E I) as I1.
    destruct (incr_clock PASS m1 (g_eid g)) as [m2|] eqn:E2; auto. apply inv_outer. eapply inv_incr; eauto.
Qed.
Lemma inv_failed : forall d d1 g ex, d_ctxs d1 = d_ctxs d -> inv (core_of d) -> within s n N (fst (fst (sresume_failed d d1 g ex))).
Proof.
  intros d d1 g ex C I. pose proof (iv_cap _ I) as W. unfold sresume_failed. destruct (g_pc g) as [|i ch| |]; try exact W.
  - unfold within. simpl. rewrite C. exact W.
  - destruct (incr_clock CSE (core_of d) (g_eid g)) as [m1|] eqn:E; [|exact W]. exact (iv_cap _ (inv_incr _ _ _ _ E I)).
  - destruct (incr_clock CSE (core_of d) (g_eid g)) as [m1|] eqn:E; [|exact W]. pose proof (inv_incr _ _ _ _ E I) as I1.
    destruct (incr_clock PASS m1 (g_eid g)) as [m2|] eqn:E2; [|exact (iv_cap _ I1)]. pose proof (inv_incr _ _ _ _ E2 I1) as I2.
    destruct (terminated m2 (g_eid g) (g_tc g)) as [[[|]|] m3] eqn:T; pose proof (inv_terminated _ _ _ _ _ T I2) as I3; [|exact (iv_cap _ (inv_reset PASS _ (g_eid g) I3))|exact (iv_cap _ I3)].
    pose proof (inv_finish m3 g I3) as I4. destruct (finish m3 g) as [[m4 g4] o4]. exact (iv_cap _ I4).
Qed.
Section Session.
Variable cyc : graph -> list (list node).
Variable arr : list (list node) -> list (list node).
Lemma call_within : forall k d, within s n N d -> match k with CNext _ _ => limited s n N d | _ => True end -> within s n N (after cyc arr k d).
Proof.
  intros k d W L. destruct k as [k| |t|f g|e'].
  - intros e. rewrite (after_elsewhere cyc arr e (CSet k) d) by exact I. apply W.
  - intros e. rewrite (after_elsewhere cyc arr e CLook d) by exact I. apply W.
  - intros e. rewrite (after_elsewhere cyc arr e (CTerm t) d) by exact I. apply W.
  - simpl. unfold sresume. destruct (sync cyc arr d) as [[r|ex] d1] eqn:S; pose proof (sync_ctxs _ _ _ _ _ S) as C.
    + pose proof (sync_set_stack _ _ _ _ _ S) as (st & l & ->).
      assert (I : inv (core_of (set_stack d st l))) by (constructor; [exact W|exact L]).
      pose proof (inv_resume f _ g I) as I2. destruct (resume f (core_of (set_stack d st l)) g) as [[m g'] o]. exact (iv_cap _ I2).
    + apply inv_failed; auto. constructor; [exact W|exact L].
  - intros e. simpl. unfold send_environment_sequence, end_environment_sequence, incr_clock. destruct (clock_incr _ _) as [k|]; [|apply W].
    simpl. unfold upd. destruct (Nat.eqb e e') eqn:E; [apply Nat.eqb_eq in E; subst e'; simpl; apply W|apply W].
Qed.
Theorem session_within : forall ks d, within s n N d -> stays_limited cyc arr s n N ks d -> within s n N (after_all cyc arr ks d).
Proof.
  induction ks as [|k r IH]; intros d W L; [exact W|]. destruct L as [L Lr]. apply (IH (after cyc arr k d)); auto. apply call_within; auto.
Qed.
End Session.
End Limit.
Section New.
Variable cyc : graph -> list (list node).
Variable arr : list (list node) -> list (list node).
Theorem own_limit : forall s n N input conds tc e exact du ow nx w r d ks,
  new_sched cyc arr input conds tc e exact du ow nx w = (r, d) -> ts_leb ES s = true -> stays_limited cyc arr s n N ks d ->
  occurrences n (received cyc arr e ks d) <= N.
Proof.
  intros s n N input conds tc e exact du ow nx w r d ks H Ls L.
  pose proof (new_sched_ctxs _ _ _ _ _ _ _ _ _ _ _ _ _ H) as X.
  assert (W : within s n N d).
  { intros e' t T. rewrite X in T. unfold upd in T. destruct (Nat.eqb e' e); [|discriminate T]. simpl in T. injection T as <-. unfold zero_total. lia. }
  assert (X' : d_ctxs d e = fresh_ctx) by (rewrite X, upd_same; auto).
  destruct (session_books cyc arr e ks d [] zero_total) as (t' & (_ & T') & Q); [rewrite X'; split; reflexivity|left; rewrite X'; discriminate|].
  pose proof (session_within s n N cyc arr ks d W L e t' T') as B. specialize (Q s n Ls). lia.
Qed.
(** any execution id, from a state in which it has records *)
Theorem id_limit : forall s n N e ks d l t, within s n N d -> recorded (d_ctxs d e) l t -> stamped (d_ctxs d e) \/ timeless cyc arr e ks d ->
  ts_leb ES s = true -> stays_limited cyc arr s n N ks d -> t s n + occurrences n (received cyc arr e ks d) <= N.
Proof.
  intros s n N e ks d l t W R U Ls L. destruct (session_books cyc arr e ks d l t R U) as (t' & (_ & T') & Q).
  pose proof (session_within s n N cyc arr ks d W L e t' T') as B. specialize (Q s n Ls). lia.
Qed.
End New.
