(** How often conditions are evaluated: theorems (C83). *)
From Verif Require Export CallsRun CondProofs.
From Verif Require Import BaseFacts RunIds.
From Verif Require PureFacts.
Open Scope nat_scope.

Lemma outer_gen : forall fuel m g m' g' s, outer fuel m g = (m', g', OYield s) -> exists p, g' = at_pc g p /\ p <> PStart.
Proof.
  induction fuel as [|f IH]; intros m g m' g' s E; [discriminate|]. cbn [outer] in E. destruct (terminated m (g_eid g) (g_tc g)) as [[[|]|ex] m1]; [| |discriminate].
  { unfold finish in E. destruct (if g_skip g then _ else _) as [mm|]; [|discriminate]. destruct (check_tc mm (g_eid g) (g_tc g) ES) as [[x|] m2]; [|discriminate]. destruct (x_list _); discriminate. }
  destruct (inner _ g _ 0 false) as [m3 s3 j ch3|m3 ch3|m3 ex|m3]; try discriminate; [injection E as _ <- _; eexists; split; [reflexivity|discriminate]|].
  destruct (pass_tail m3 g ch3) as [m4|m4|m4 ex]; [injection E as _ <- _; eexists; split; [reflexivity|discriminate]|eauto|discriminate].
Qed.
Lemma resume_gen : forall fuel m g m' g' s, resume fuel m g = (m', g', OYield s) -> g_pc g <> PStart -> exists p, g' = at_pc g p /\ p <> PStart.
Proof.
  intros fuel m g m' g' s E NS. unfold resume in E. destruct (g_pc g); [congruence| | |discriminate].
  - destruct (incr_clock CSE m (g_eid g)) as [m1|]; [|discriminate]. destruct (inner m1 g _ _ _) as [m3 s3 j ch3|m3 ch3|m3 ex|m3]; try discriminate; [injection E as _ <- _; eexists; split; [reflexivity|discriminate]|].
    destruct (pass_tail m3 g ch3) as [m4|m4|m4 ex]; [injection E as _ <- _; eexists; split; [reflexivity|discriminate]|eapply outer_gen; eauto|discriminate].
  - destruct (incr_clock CSE m (g_eid g)) as [m1|]; [|discriminate]. destruct (incr_clock PASS m1 (g_eid g)) as [m2|]; [|discriminate]. eapply outer_gen; eauto.
Qed.

(** ** The start of a run *)
Definition keeps_all (k : nat) (m : core) : Prop := forall n c, aget n (m_basic m) = Some c -> keeps k c.
Lemma no_function_keeps : forall k c, no_function c = true -> keeps k c.
Proof.
  intros k c H v e ow. revert H. induction c as [o a|o cs IH|o cs IH|o c IH|o c n IH] using PureFacts.cond_ind'; intros H st.
  - unfold tally. destruct a; try discriminate; reflexivity.
  - cbn [no_function] in H. cbn [eval]. revert st H. induction cs as [|x cs IHl]; intros st H; [reflexivity|]. simpl in H. apply andb_true_iff in H. destruct H as [H1 H2].
    apply Forall_cons_iff in IH. destruct IH as [IHx IHr]. assert (X := IHx H1 st). destruct (eval v e ow x st) as [[[|]|ex] st1]; simpl in X; auto. rewrite <- X. apply IHl; auto.
  - cbn [no_function] in H. cbn [eval]. revert st H. induction cs as [|x cs IHl]; intros st H; [reflexivity|]. simpl in H. apply andb_true_iff in H. destruct H as [H1 H2].
    apply Forall_cons_iff in IH. destruct IH as [IHx IHr]. assert (X := IHx H1 st). destruct (eval v e ow x st) as [[[|]|ex] st1]; simpl in X; auto. rewrite <- X. apply IHl; auto.
  - cbn [eval]. simpl in H. specialize (IH H st). destruct (eval v e ow c st) as [[b|ex] st1]; auto.
  - cbn [eval]. simpl in H. specialize (IH H st). destruct (Nat.ltb (s_sats st o e) n); auto. destruct (eval v e ow c st) as [[[|]|ex] st1]; auto.
Qed.
Lemma defaults_keep : forall k ns m m', add_defaults ns m = Ok m' ->
  (forall n c, aget n (m_basic m) = Some c -> aget n (m_basic m') = Some c) /\
  (forall n c, aget n (m_basic m') = Some c -> aget n (m_basic m) = Some c \/ keeps k c) /\ queue m' = queue m.
Proof.
  intros k. induction ns as [|n ns IH]; intros m m' E; simpl in E; [injection E as <-; auto|]. destruct (ahas n (m_basic m)) eqn:A; [eauto|].
  destruct (aget n (m_graph m)) as [deps|]; [|discriminate]. assert (NF : no_function (fst (default_cond (m_next m) deps)) = true).
  { clear. generalize (m_next m) as j. intros j. destruct deps as [|d [|d2 l]]; auto. simpl. generalize (S (S (S j))) as i. induction l as [|x l IHl]; intros i; simpl; auto. }
  destruct (default_cond (m_next m) deps) as [c nx]. destruct (IH _ _ E) as (I1 & I2 & I3). simpl in I1, I2. split; [|split; [|exact I3]].
  - intros n0 c0 H. apply I1. rewrite aget_aset. destruct (Nat.eqb n0 n) eqn:N; auto. apply Nat.eqb_eq in N. subst. unfold ahas in A. rewrite H in A. discriminate.
  - intros n0 c0 H. apply I2 in H. destruct H as [H|H]; auto. rewrite aget_aset in H. destruct (Nat.eqb n0 n); auto. injection H as <-. right. apply no_function_keeps. auto.
Qed.
Lemma start_state : forall k m g g1 m1, start m g = (Ok g1, m1) ->
  g_eid g1 = g_eid g /\ g_tc g1 = run_tc m g /\ g_pc g1 = PStart /\ calls k m1 = calls k m /\ queue m1 = queue m /\ pass_number m1 (g_eid g) = pass_number m (g_eid g) /\
  (forall n c, aget n (m_basic m) = Some c -> aget n (m_basic m1) = Some c) /\
  (forall n c, aget n (m_basic m1) = Some c -> aget n (m_basic m) = Some c \/ keeps k c).
Proof.
  intros k m g g1 m1 H. assert (T := PureFacts.start_tc _ _ _ _ H). rewrite start_eq in H. destruct (toposort (m_graph m)); try discriminate.
  destruct (add_defaults (m_nodes m) m) as [mb|] eqn:A; [|discriminate]. destruct (defaults_keep k _ _ _ A) as (D1 & D2 & D3). destruct (add_defaults_rest _ _ _ A) as (_ & _ & _ & X & C).
  unfold start_rest in H. cbv zeta in H. set (e := g_eid g) in *. set (m2 := set_clock mb e (the_clock (m_ctxs mb e))) in *. set (tc := match g_tcarg g with None => _ | Some a => _ end) in *.
  assert (S3 : forall m3, setup_absolute m2 e tc = Ok m3 -> m_cst m3 = m_cst m /\ m_basic m3 = m_basic mb /\ queue m3 = queue m /\ x_clock (m_ctxs m3 e) <> None /\ pass_number m3 e = pass_number m e).
  { intros m3 S. unfold setup_absolute in S. assert (TC : the_clock (m_ctxs m2 e) = the_clock (m_ctxs m e)) by (unfold m2, set_clock, set_ctx; simpl; rewrite upd_same; unfold the_clock; simpl; rewrite X; auto).
    rewrite TC in S. destruct (absolute_conditions m2 tc); [|destruct (unit_of m2 tc); [|discriminate]]; injection S as <-; (split; [exact C|split; [reflexivity|split; [exact D3|]]]);
      unfold pass_number, set_clock, set_ctx; simpl; rewrite upd_same; simpl; (split; [discriminate|reflexivity]). }
  destruct (setup_absolute m2 e tc) as [m3|ex]; [|discriminate]. destruct (S3 m3 eq_refl) as (C3 & B3 & Q3 & K3 & P3). clear S3. clearbody m2.
  assert (S4 : forall m4, init_counts_base m3 e (g_base g) = (Ok tt, m4) -> m_cst m4 = m_cst m3 /\ m_basic m4 = m_basic m3 /\ queue m4 = queue m3 /\ the_clock (m_ctxs m4 e) = the_clock (m_ctxs m3 e)).
  { intros m4 S. unfold init_counts_base in S. destruct (copy_entry (x_total _) _); [|discriminate]. destruct (copy_entry (x_use _) _); [|discriminate]. destruct (copy_entry (x_list _) _); [|discriminate].
    destruct (x_clock (m_ctxs m3 e)) as [kk|] eqn:XC; [|congruence]. cbn [copy_entry] in S. injection S as <-. split; [auto|]. split; [auto|]. split; [auto|].
    unfold set_ctx; simpl. rewrite upd_same. unfold the_clock at 2. rewrite XC. reflexivity. }
  destruct (init_counts_base m3 e (g_base g)) as [[[]|ex] m4]; [|discriminate]. destruct (S4 m4 eq_refl) as (C4 & B4 & Q4 & P4). clear S4.
  injection H as <- <-. split; [reflexivity|]. split; [exact T|]. split; [reflexivity|]. split; [unfold calls; simpl; congruence|]. split; [transitivity (queue m4); [reflexivity|congruence]|].
  split; [|simpl; rewrite B4, B3; auto]. rewrite <- P3. unfold pass_number. rewrite <- P4. unfold reset_counts_total, reset_counts_useable, set_ctx. simpl. rewrite !upd_same. reflexivity.
Qed.

(** ** One resumption, also the first *)
Section Resume.
Variables (k : nat) (tc : tconds) (lo hi : nat -> nat) (lt ht : nat) (e : eid).
Lemma resume_any : forall fuel m g m' g' s, resume fuel m g = (m', g', OYield s) -> g_eid g = e -> the_tc m g = tc -> in_queue m g ->
  (forall m1 r m', terminated m1 e tc = (Ok r, m') -> calls k m' <= calls k m1 + ht /\ (r = false -> calls k m1 + lt <= calls k m')) ->
  (forall B, (forall n c, aget n (m_basic m) = Some c -> aget n B = Some c) -> (forall n c, aget n B = Some c -> aget n (m_basic m) = Some c \/ keeps k c) ->
     forall j lv fuel m1 s m', m_basic m1 = B -> nth_error (queue m) j = Some lv -> do_level fuel m1 e lv [] = Some (Ok s, m') -> calls k m1 + lo j <= calls k m' <= calls k m1 + hi j) ->
  queue m' = queue m /\ in_queue m' g' /\
  (calls k m' + pot e (queue m) ht hi m (g_pc g) <= calls k m + pot e (queue m) ht hi m' (g_pc g')) /\
  (quiet_tc e tc -> calls k m + pot e (queue m) lt lo m' (g_pc g') <= calls k m' + pot e (queue m) lt lo m (g_pc g)) /\
  g_eid g' = e /\ the_tc m' g' = tc /\
  (forall n c, aget n (m_basic m) = Some c -> aget n (m_basic m') = Some c) /\ (forall n c, aget n (m_basic m') = Some c -> aget n (m_basic m) = Some c \/ keeps k c).
Proof.
  intros fuel m g m' g' s E Ge Gt IQ HT HL. assert (D : g_pc g = PStart \/ g_pc g <> PStart) by (destruct (g_pc g); auto; right; discriminate). destruct D as [P|P].
  - assert (E' := E). unfold resume in E'. rewrite P in E'. destruct (start m g) as [[g1|ex] m1] eqn:S; [|discriminate]. clear E.
    destruct (start_state k _ _ _ _ S) as (E1 & T1 & P1 & C1 & Q1 & N1 & D1 & D2). rewrite Ge in *. unfold the_tc in Gt. rewrite P in Gt.
    destruct (outer_cost e k (m_basic m1) (queue m) tc lo hi lt ht (HL _ D1 D2) HT _ _ _ _ _ _ E' E1 (eq_trans T1 Gt) (conj eq_refl Q1)) as ((B' & Q') & I' & U' & W').
    destruct (outer_gen _ _ _ _ _ _ E') as (p & -> & NP). rewrite B'. unfold pot in *. rewrite N1 in U', W'. rewrite P. cbn [at_pc g_pc g_eid] in *.
    split; [auto|]. split; [auto|]. split; [lia|]. split; [intros Q; specialize (W' Q); lia|]. split; [auto|]. split; [|auto].
    unfold the_tc. cbn [at_pc g_pc g_tc]. destruct p; congruence.
  - unfold the_tc in Gt. assert (Gt' : g_tc g = tc) by (destruct (g_pc g); congruence).
    destruct (resume_cost e k (m_basic m) (queue m) tc lo hi lt ht (HL _ (fun n c H => H) (fun n c H => or_introl H)) HT _ _ _ _ _ _ E Ge Gt' (conj eq_refl eq_refl) IQ P) as ((B' & Q') & I' & U' & W').
    destruct (resume_gen _ _ _ _ _ _ E P) as (p & -> & NP). rewrite B'. cbn [at_pc g_pc g_eid] in *.
    split; [auto|]. split; [auto|]. split; [lia|]. split; [auto|]. split; [auto|]. split; [|auto]. unfold the_tc. cbn [at_pc g_pc g_tc]. destruct p; congruence.
Qed.
End Resume.

(** ** Whole runs *)
Section Counting.
Variables (k : nat) (P : core -> gen -> Prop) (q : list (list node)) (lo hi : nat -> nat) (lt ht : nat) (e : eid).
Hypothesis PT : forall m g, P m g -> forall m1 r m', terminated m1 e (the_tc m g) = (Ok r, m') -> calls k m' <= calls k m1 + ht /\ (r = false -> calls k m1 + lt <= calls k m').
Hypothesis PL : forall m g, P m g -> forall B, (forall n c, aget n (m_basic m) = Some c -> aget n B = Some c) -> (forall n c, aget n B = Some c -> aget n (m_basic m) = Some c \/ keeps k c) ->
  forall j lv fuel m1 s m', m_basic m1 = B -> nth_error q j = Some lv -> do_level fuel m1 e lv [] = Some (Ok s, m') -> calls k m1 + lo j <= calls k m' <= calls k m1 + hi j.
Hypothesis PS : forall m g m' g', P m g -> the_tc m' g' = the_tc m g -> (forall n c, aget n (m_basic m) = Some c -> aget n (m_basic m') = Some c) ->
  (forall n c, aget n (m_basic m') = Some c -> aget n (m_basic m) = Some c \/ keeps k c) -> P m' g'.
Lemma counting_cost : forall m0 g0 m g, counting k P m0 g0 m g -> g_eid g0 = e -> queue m0 = q ->
  P m g /\ queue m = q /\ in_queue m g /\ g_eid g = e /\
  (calls k m + pot e q ht hi m0 (g_pc g0) <= calls k m0 + pot e q ht hi m (g_pc g)) /\
  ((forall m g, P m g -> quiet_tc e (the_tc m g)) -> calls k m0 + pot e q lt lo m (g_pc g) <= calls k m + pot e q lt lo m0 (g_pc g0)).
Proof.
  intros m0 g0 m g C Ge Q. induction C as [P0 I0|m g m' C IH U P' K|m g fuel m' g' s C IH R].
  - split; [auto|]. split; [auto|]. split; [auto|]. split; [auto|]. split; [lia|]. intros _. lia.
  - destruct IH as (_ & Qm & Im & Gm & Up & Lw). destruct U as [Un Ug Ul Ux Uc].
    assert (Q' : queue m' = queue m) by (unfold queue; rewrite Ug, Ul, Ux; auto). rewrite Ge in Uc.
    assert (PN : pass_number m' e = pass_number m e) by (unfold pass_number; rewrite Uc; auto).
    split; [auto|]. split; [congruence|]. split; [unfold in_queue in *; rewrite Q'; auto|]. split; [auto|]. unfold pot in *. rewrite PN, K. auto.
  - destruct IH as (Pm & Qm & Im & Gm & Up & Lw).
    assert (HL := PL m g Pm). rewrite <- Qm in HL.
    destruct (resume_any k (the_tc m g) lo hi lt ht e fuel m g m' g' s R Gm eq_refl Im (PT m g Pm) HL) as (Q' & I' & U' & W' & G' & T' & D1 & D2).
    split; [eapply PS; eauto|]. split; [congruence|]. split; [auto|]. split; [auto|]. rewrite Qm in U', W'. split; [lia|]. intros QT. specialize (Lw QT). specialize (W' (QT m g Pm)). lia.
Qed.
End Counting.

(** the costs of a node *)
Definition here (ib c j : nat) : nat := if Nat.eqb j ib then c else 0.
Lemma acc_here : forall ib c n, acc 0 (here ib c) n = if Nat.ltb ib n then c else 0.
Proof.
  intros ib c n. induction n as [|n IH]; [reflexivity|]. cbn [acc]. rewrite IH. unfold here. destruct (Nat.eqb n ib) eqn:E.
  - apply Nat.eqb_eq in E. subst. rewrite (proj2 (Nat.ltb_ge ib ib)), (proj2 (Nat.ltb_lt ib (S ib))) by lia. lia.
  - apply Nat.eqb_neq in E. destruct (Nat.ltb ib n) eqn:L; [apply Nat.ltb_lt in L; rewrite (proj2 (Nat.ltb_lt ib (S n))) by lia; lia|].
    apply Nat.ltb_ge in L. rewrite (proj2 (Nat.ltb_ge ib (S n))) by lia. lia.
Qed.
Lemma pot_here : forall q ib c m g, ib < length q -> pot (g_eid g) q 0 (here ib c) m (g_pc g) = c * turns ib m g.
Proof.
  intros q ib c m g L. unfold pot, turns, whole. rewrite acc_here, (proj2 (Nat.ltb_lt _ _) L). cbn [plus]. rewrite Nat.mul_add_distr_l, (Nat.mul_comm c (pass_number m (g_eid g))). f_equal.
  destruct (g_pc g) as [|i ch| |]; unfold place, whole; rewrite ?acc_here; cbn [plus]; try lia.
  - unfold Nat.ltb. cbn [Nat.leb]. destruct (Nat.leb ib i); lia.
  - rewrite (proj2 (Nat.ltb_lt _ _) L). lia.
Qed.
Lemma term_keeps : forall k e tc m r m', (forall s c, tc s = Some c -> keeps k c) -> terminated m e tc = (Ok r, m') -> calls k m' = calls k m.
Proof.
  intros k e tc m r m' H E. unfold terminated, check_tc in E. destruct (tc ESU) as [c1|] eqn:E1; [|discriminate].
  destruct (satisfied m e c1) as [[[|]|ex] m1] eqn:S1; [|destruct (calls_sat e k _ _ _ _ S1) as [K _]; rewrite <- (K (H _ _ E1))|discriminate].
  { injection E as _ <-. apply (proj1 (calls_sat e k _ _ _ _ S1)). eauto. }
  destruct (tc ES) as [c2|] eqn:E2; [|discriminate]. apply (proj1 (calls_sat e k _ _ _ _ E)). eauto.
Qed.
Lemma queue_nodup : forall m, queue_built m -> NoDup (concat (queue m)).
Proof.
  intros m B. unfold queue. destruct (m_exact m); [simpl; rewrite app_nil_r; apply (proj1 B)|apply RunProps.levels_nodup; auto].
Qed.
Lemma nodup_level : forall (q : list (list node)) j lv, NoDup (concat q) -> nth_error q j = Some lv -> NoDup lv.
Proof.
  induction q as [|x q IH]; intros [|j] lv N E; simpl in *; try discriminate.
  - injection E as <-. revert N. generalize (concat q). clear. intros r. induction x as [|y x IH]; intros N; simpl in *; [constructor|]. apply NoDup_cons_iff in N. destruct N as [A N].
    constructor; auto. intros X. apply A, in_or_app. auto.
  - apply (IH j); auto. clear -N. induction x as [|y x IH]; simpl in N; auto. apply NoDup_cons_iff in N. apply IH, N.
Qed.
Lemma never_quiet : forall e tc, (forall s c, tc s = Some c -> never_true c) -> quiet_tc e tc.
Proof.
  intros e tc N m2 m3 T. unfold terminated, check_tc in T.
  assert (NS : forall c m4 m5 e0, never_true c -> satisfied m4 e0 c <> (Ok true, m5)).
  { intros c m4 m5 e0 H S. unfold satisfied in S. specialize (H (view_of m4 e0) e0 (m_owners m4) (m_cst m4)). destruct (eval _ _ _ _ _) as [r st]. simpl in H. injection S as -> _. auto. }
  destruct (tc ESU) as [c1|] eqn:E1; [|discriminate]. destruct (satisfied m2 _ c1) as [[[|]|ex] m6] eqn:S1; [exact (NS _ _ _ _ (N _ _ E1) S1)| |discriminate].
  destruct (tc ES) as [c2|] eqn:E2; [|discriminate]. exact (NS _ _ _ _ (N _ _ E2) T).
Qed.
Section Node.
Variables (k : nat) (b : node) (m0 : core) (g0 : gen) (ib : nat) (lv : list node).
Hypothesis QB : queue_built m0.
Hypothesis HB : nth_error (queue m0) ib = Some lv.
Hypothesis IB : In b lv.
Notation e := (g_eid g0).
Lemma nc_pt : forall m g, node_counted k b m g -> forall m1 r m', terminated m1 e (the_tc m g) = (Ok r, m') -> calls k m' <= calls k m1 + 0 /\ (r = false -> calls k m1 + 0 <= calls k m').
Proof. intros m g [O R T] m1 r m' E. apply (term_keeps k) in E; auto. split; [lia|]. intros _. lia. Qed.
Lemma nc_pl : forall m g, node_counted k b m g -> forall B, (forall n c, aget n (m_basic m) = Some c -> aget n B = Some c) -> (forall n c, aget n B = Some c -> aget n (m_basic m) = Some c \/ keeps k c) ->
  forall j l fuel m1 s m', m_basic m1 = B -> nth_error (queue m0) j = Some l -> do_level fuel m1 e l [] = Some (Ok s, m') -> calls k m1 + here ib 1 j <= calls k m' <= calls k m1 + here ib (length lv) j.
Proof.
  intros m g [(c & A & T) O _] B B1 B2 j l fuel m1 s m' Em Ej D. assert (NQ := queue_nodup _ QB). assert (NL := nodup_level _ _ _ NQ Ej).
  assert (ON : only k b m1). { split; rewrite Em; [exists c; auto|]. intros n c0 A0 Nn. apply B2 in A0. destruct A0; eauto. }
  unfold here. destruct (Nat.eqb j ib) eqn:Q.
  - apply Nat.eqb_eq in Q. subst j. assert (l = lv) by congruence. subst l. destruct (level_counts e k b _ _ _ _ _ _ D ON NL IB) as [X Y]; [intros []|].
    assert (Z : forall r, left_of r [] = length r) by (intros r; unfold left_of; induction r as [|y r IHr]; simpl; [auto|f_equal; auto]).
    rewrite Z in Y. lia.
  - apply Nat.eqb_neq in Q. assert (X : calls k m' = calls k m1); [|lia].
    eapply level_keeps; eauto. intros n c0 I _ A0. apply (proj2 ON n c0 A0). intros ->. apply Q. eapply RunProps.queue_index_unique; eauto.
Qed.
Lemma nc_ps : forall m g m' g', node_counted k b m g -> the_tc m' g' = the_tc m g -> (forall n c, aget n (m_basic m) = Some c -> aget n (m_basic m') = Some c) ->
  (forall n c, aget n (m_basic m') = Some c -> aget n (m_basic m) = Some c \/ keeps k c) -> node_counted k b m' g'.
Proof.
  intros m g m' g' [(c & A & T) O E] Q B1 B2. constructor; [exists c; auto| |rewrite Q; auto]. intros n c0 A0 N. apply B2 in A0. destruct A0; eauto.
Qed.
Lemma ib_len : ib < length (queue m0).
Proof. apply nth_error_Some. congruence. Qed.
Theorem node_at_most : forall m g, counting k (node_counted k b) m0 g0 m g -> calls k m + length lv * turns ib m0 g0 <= calls k m0 + length lv * turns ib m g.
Proof.
  intros m g C. destruct (counting_cost k (node_counted k b) (queue m0) (here ib 1) (here ib (length lv)) 0 0 e nc_pt nc_pl nc_ps m0 g0 m g C eq_refl eq_refl) as (_ & _ & _ & Ge & U & _).
  rewrite (pot_here (queue m0) ib _ m0 g0 ib_len) in U. rewrite <- Ge in U. rewrite (pot_here (queue m0) ib _ m g ib_len) in U. exact U.
Qed.
Theorem node_quiet : forall m g, counting k (fun m g => node_counted k b m g /\ forall s c, the_tc m g s = Some c -> never_true c) m0 g0 m g ->
  calls k m0 + turns ib m g <= calls k m + turns ib m0 g0.
Proof.
  intros m g C. destruct (counting_cost k (fun m g => node_counted k b m g /\ forall s c, the_tc m g s = Some c -> never_true c) (queue m0) (here ib 1) (here ib (length lv)) 0 0 e) with (5 := @eq_refl eid e) (4 := C) as (_ & _ & _ & Ge & _ & W); auto.
  - intros m1 g1 (H & _). apply (nc_pt m1 g1 H).
  - intros m1 g1 (H & _). apply (nc_pl m1 g1 H).
  - intros m1 g1 m2 g2 (H & N) Q B1 B2. split; [eapply nc_ps; eauto|]. rewrite Q. auto.
  - rewrite (pot_here (queue m0) ib _ m0 g0 ib_len) in W. rewrite <- Ge in W. rewrite (pot_here (queue m0) ib _ m g ib_len), !Nat.mul_1_l in W. apply W.
    intros m1 g1 (_ & N). apply never_quiet. exact N.
Qed.
End Node.
