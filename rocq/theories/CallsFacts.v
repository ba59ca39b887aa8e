(** How often conditions are evaluated: proofs (C83). *)
From Verif Require Export SpecCalls HaltFacts RunProofs.
Open Scope nat_scope.

(** ** What stays while conditions are evaluated *)
Lemma sat_set : forall m e c r m', satisfied m e c = (r, m') -> m' = set_cst m (snd (eval (view_of m e) e (m_owners m) c (m_cst m))).
Proof. intros m e c r m' E. unfold satisfied in E. destruct (eval _ _ _ _ _) as [r' st]. injection E as _ <-. auto. Qed.
Record fixed (e : eid) (m m' : core) : Prop := {
  fx_basic : m_basic m' = m_basic m;
  fx_queue : queue m' = queue m;
  fx_pass : pass_number m' e = pass_number m e }.
Lemma fixed_refl : forall e m, fixed e m m.
Proof. constructor; auto. Qed.
Lemma fixed_trans : forall e a b c, fixed e a b -> fixed e b c -> fixed e a c.
Proof. intros e a b c [] []. constructor; congruence. Qed.
Lemma fixed_sat : forall m e c r m', satisfied m e c = (r, m') -> fixed e m m'.
Proof. intros m e c r m' E. apply sat_set in E. subst. constructor; auto. Qed.
Lemma fixed_ctx : forall m e x, the_clock x = the_clock (m_ctxs m e) -> fixed e m (set_ctx m e x).
Proof. intros m e x E. constructor; auto. unfold pass_number, set_ctx. simpl. rewrite upd_same, E. auto. Qed.
Lemma fixed_check : forall m e tc s r m', check_tc m e tc s = (r, m') -> fixed e m m'.
Proof. intros m e tc s r m' E. unfold check_tc in E. destruct (tc s); [eapply fixed_sat; eauto|injection E as _ <-; apply fixed_refl]. Qed.
Lemma fixed_term : forall m e tc r m', terminated m e tc = (r, m') -> fixed e m m'.
Proof.
  intros m e tc r m' E. unfold terminated in E. destruct (check_tc m e tc ESU) as [[[|]|ex] m1] eqn:E1; try (injection E as _ <-; eapply fixed_check; eauto).
  eapply fixed_trans; eapply fixed_check; eauto.
Qed.
Lemma fixed_round : forall level m e exec ch r m', round m e level exec ch = (r, m') -> fixed e m m'.
Proof.
  induction level as [|n level IH]; intros m e exec ch r m' E; simpl in E; [injection E as _ <-; apply fixed_refl|].
  destruct (mem n exec); [eauto|]. destruct (aget n (m_basic m)) as [c|]; [|injection E as _ <-; apply fixed_refl].
  destruct (satisfied m e c) as [[[|]|ex] m1] eqn:ES; apply fixed_sat in ES.
  - destruct (mem n (m_nodes m1)); [|injection E as _ <-; auto]. eapply fixed_trans; [exact ES|]. eapply fixed_trans; [|eapply IH; eauto]. apply fixed_ctx. auto.
  - eapply fixed_trans; eauto.
  - injection E as _ <-. auto.
Qed.
Lemma fixed_level : forall fuel m e level exec r m', do_level fuel m e level exec = Some (r, m') -> fixed e m m'.
Proof.
  induction fuel as [|f IH]; intros m e level exec r m' E; simpl in E; [discriminate|].
  destruct (round m e level exec false) as [[[ex [|]]|x] m1] eqn:R; apply fixed_round in R; [eapply fixed_trans; eauto| |]; injection E as _ <-; auto.
Qed.
Lemma fixed_append : forall m e abs s r m', append_exec m e abs s = (r, m') -> fixed e m m' /\ m_cst m' = m_cst m.
Proof.
  intros m e abs s r m' E. unfold append_exec in E. destruct (x_list (m_ctxs m e)); [|injection E as _ <-; split; [apply fixed_refl|auto]].
  destruct abs; [destruct (x_stamps (m_ctxs m e))|]; injection E as _ <-; (split; [apply fixed_ctx; auto|auto]).
Qed.
Lemma pass_incr : forall s m e m', incr_clock s m e = Ok m' -> m_cst m' = m_cst m /\ m_basic m' = m_basic m /\ queue m' = queue m /\
  (s = CSE -> pass_number m' e = pass_number m e) /\ (s = PASS -> pass_number m' e = S (pass_number m e)).
Proof.
  intros s m e m' E. unfold incr_clock in E. destruct (clock_incr s (the_clock (m_ctxs m e))) as [k|] eqn:C; [|discriminate]. injection E as <-.
  split; [auto|]. split; [auto|]. split; [auto|]. unfold pass_number, set_clock, set_ctx. simpl. rewrite upd_same. unfold the_clock at 1 3. simpl.
  unfold clock_incr in C. destruct (tree_incr _ _ _) as [t|]; [|discriminate]. injection C as <-. simpl.
  split; intros ->; unfold time_incr; simpl; destruct (t_abs_enabled _); reflexivity.
Qed.

(** ** One level *)
Section Level.
Variables (e : eid) (k : nat).
Lemma calls_sat : forall m c r m', satisfied m e c = (r, m') -> (keeps k c -> calls k m' = calls k m) /\ (tallies k c -> calls k m' = S (calls k m)).
Proof. intros m c r m' E. apply sat_set in E. subst. unfold calls, set_cst. simpl. split; intros H; apply H. Qed.
(** no condition of the level counts *)
Lemma round_keeps : forall level m exec ch r m', round m e level exec ch = (r, m') ->
  (forall n c, In n level -> ~ In n exec -> aget n (m_basic m) = Some c -> keeps k c) -> calls k m' = calls k m.
Proof.
  induction level as [|n level IH]; intros m exec ch r m' E H; simpl in E; [injection E as _ <-; auto|].
  destruct (mem n exec) eqn:M.
  { eapply IH; eauto. intros n0 c I. apply H. right; auto. }
  assert (M' : ~ In n exec) by (intros I; apply mem_In in I; congruence).
  destruct (aget n (m_basic m)) as [c|] eqn:A; [|injection E as _ <-; auto].
  destruct (satisfied m e c) as [[[|]|ex] m1] eqn:ES; pose proof (fx_basic _ _ _ (fixed_sat _ _ _ _ _ ES)) as FB; destruct (calls_sat _ _ _ _ ES) as [K _];
    assert (K' := K (H n c (or_introl eq_refl) M' A)).
  - destruct (mem n (m_nodes m1)); [|injection E as _ <-; auto]. apply IH in E; [unfold accept, calls, set_ctx in E; simpl in E; unfold calls in *; congruence|].
    intros n0 c0 I0 N0 A0. simpl in A0. rewrite FB in A0. apply (H n0 c0); auto; [right; auto|]. intros X. apply N0, in_or_app. auto.
  - apply IH in E; [congruence|]. intros n0 c0 I0 N0 A0. rewrite FB in A0. apply (H n0 c0); auto. right; auto.
  - injection E as _ <-. auto.
Qed.
(** what is executed is added *)
Lemma round_grows : forall level m exec ch exec' ch' m', round m e level exec ch = (Ok (exec', ch'), m') -> NoDup level ->
  exists a, exec' = exec ++ a /\ incl a level /\ NoDup a /\ (forall n, In n a -> ~ In n exec) /\ (ch' = ch || nonempty a).
Proof.
  induction level as [|n level IH]; intros m exec ch exec' ch' m' E ND; simpl in E.
  { injection E as <- <- <-. exists []. rewrite app_nil_r, orb_false_r. split; [auto|]. split; [intros x []|]. split; [constructor|]. split; [intros x []|auto]. }
  apply NoDup_cons_iff in ND. destruct ND as [Nn ND].
  destruct (mem n exec) eqn:M.
  { destruct (IH _ _ _ _ _ _ E ND) as (a & -> & I & Na & D & C). exists a. split; [auto|]. split; [intros x X; right; auto|auto]. }
  assert (M' : ~ In n exec) by (intros I; apply mem_In in I; congruence).
  destruct (aget n (m_basic m)) as [c|]; [|discriminate]. destruct (satisfied m e c) as [[[|]|ex] m1]; [|destruct (IH _ _ _ _ _ _ E ND) as (a & -> & I & Na & D & C); exists a; (split; [auto|]; split; [intros x X; right; auto|auto])|discriminate].
  destruct (mem n (m_nodes m1)); [|discriminate]. destruct (IH _ _ _ _ _ _ E ND) as (a & -> & I & Na & D & C). exists (n :: a). rewrite <- app_assoc. split; [auto|]. split.
  { intros x [<-|X]; [left; auto|right; auto]. }
  split; [constructor; auto|]. split; [|subst ch'; simpl; rewrite orb_true_r; auto].
  intros x [<-|X]; auto. intros Y. apply (D x X). apply in_or_app. auto.
Qed.
Variable b : node.
Definition only (m : core) : Prop := (exists c, aget b (m_basic m) = Some c /\ tallies k c) /\ forall n c, aget n (m_basic m) = Some c -> n <> b -> keeps k c.
Lemma only_fixed : forall m m', m_basic m' = m_basic m -> only m -> only m'.
Proof. intros m m' E [A B]. split; rewrite E; auto. Qed.
(** a round asks b once, unless it has been added already *)
Lemma round_once : forall level m exec ch r m', round m e level exec ch = (Ok r, m') -> only m -> NoDup level -> In b level -> ~ In b exec ->
  calls k m' = S (calls k m).
Proof.
  induction level as [|n level IH]; intros m exec ch r m' E O ND I J; [destruct I|]. simpl in E. apply NoDup_cons_iff in ND. destruct ND as [Nn ND].
  destruct (mem n exec) eqn:M; [apply mem_In in M; destruct I as [<-|I]; [contradiction|eauto]|].
  destruct (aget n (m_basic m)) as [c|] eqn:A; [|discriminate].
  assert (REST : forall m2 exec2 ch2, m_basic m2 = m_basic m -> n = b -> round m2 e level exec2 ch2 = (Ok r, m') -> calls k m' = calls k m2).
  { intros m2 exec2 ch2 B2 -> R2. eapply round_keeps; eauto. intros n0 c0 I0 _ A0. rewrite B2 in A0. apply (proj2 O n0 c0 A0). intros ->. contradiction. }
  destruct (Nat.eq_dec n b) as [->|Nb].
  - destruct O as [(cb & Ab & T) O]. assert (c = cb) by congruence. subst cb.
    destruct (satisfied m e c) as [[[|]|ex] m1] eqn:ES; [| |discriminate]; pose proof (fx_basic _ _ _ (fixed_sat _ _ _ _ _ ES)) as FB; destruct (calls_sat _ _ _ _ ES) as [_ K]; specialize (K T).
    + destruct (mem b (m_nodes m1)); [|discriminate]. apply REST in E; auto. unfold accept, calls, set_ctx in *. simpl in *. congruence.
    + apply REST in E; auto. congruence.
  - destruct I as [X|I]; [contradiction|]. assert (Kc := proj2 O n c A Nb).
    destruct (satisfied m e c) as [[[|]|ex] m1] eqn:ES; [| |discriminate]; pose proof (fx_basic _ _ _ (fixed_sat _ _ _ _ _ ES)) as FB; destruct (calls_sat _ _ _ _ ES) as [K _]; specialize (K Kc).
    + destruct (mem n (m_nodes m1)); [|discriminate]. apply IH in E; auto.
      * unfold accept, calls, set_ctx in *. simpl in *. congruence.
      * apply (only_fixed m); auto.
      * intros X. apply in_app_or in X. destruct X as [X|[X|[]]]; auto.
    + apply IH in E; auto; [congruence|apply (only_fixed m); auto].
Qed.
Lemma level_keeps : forall fuel m level exec r m', do_level fuel m e level exec = Some (r, m') ->
  (forall n c, In n level -> ~ In n exec -> aget n (m_basic m) = Some c -> keeps k c) -> NoDup level -> calls k m' = calls k m.
Proof.
  induction fuel as [|f IH]; intros m level exec r m' E H ND; simpl in E; [discriminate|].
  destruct (round m e level exec false) as [[[ex [|]]|x] m1] eqn:R; pose proof (round_keeps _ _ _ _ _ _ R H) as K.
  - destruct (round_grows _ _ _ _ _ _ _ R ND) as (a & -> & _). apply IH in E; auto; [congruence|].
    intros n c I J A. rewrite (fx_basic _ _ _ (fixed_round _ _ _ _ _ _ _ R)) in A. apply (H n c); auto. intros X. apply J, in_or_app. auto.
  - injection E as _ <-. auto.
  - injection E as _ <-. auto.
Qed.
Definition left_of (level exec : list node) : nat := length (filter (fun n => negb (mem n exec)) level).
Lemma left_less : forall level exec a, a <> [] -> incl a level -> NoDup a -> (forall n, In n a -> ~ In n exec) -> left_of level (exec ++ a) < left_of level exec.
Proof.
  intros level exec a Na Ia NDa Da. destruct a as [|x a]; [congruence|]. unfold left_of.
  assert (LE : forall l, length (filter (fun n => negb (mem n (exec ++ x :: a))) l) <= length (filter (fun n => negb (mem n exec)) l)).
  { induction l as [|y l IHl]; simpl; auto. destruct (mem y exec) eqn:M.
    - assert (mem y (exec ++ x :: a) = true) as -> by (apply mem_In, in_or_app; left; apply mem_In; auto). simpl. auto.
    - destruct (mem y (exec ++ x :: a)); simpl; lia. }
  assert (I : In x level) by (apply Ia; left; auto). clear Ia. induction level as [|y level IH]; [destruct I|]. simpl.
  destruct (Nat.eq_dec y x) as [->|Ny].
  - assert (mem x (exec ++ x :: a) = true) as -> by (apply mem_In, in_or_app; right; left; auto).
    assert (mem x exec = false) as -> by (destruct (mem x exec) eqn:M; auto; apply mem_In in M; destruct (Da x (or_introl eq_refl) M)). simpl. specialize (LE level). lia.
  - destruct I as [X|I]; [congruence|]. specialize (IH I). destruct (mem y exec) eqn:M.
    + assert (mem y (exec ++ x :: a) = true) as -> by (apply mem_In, in_or_app; left; apply mem_In; auto). simpl. auto.
    + destruct (mem y (exec ++ x :: a)); simpl; lia.
Qed.
Lemma level_counts : forall fuel m level exec s m', do_level fuel m e level exec = Some (Ok s, m') -> only m -> NoDup level -> In b level -> ~ In b exec ->
  S (calls k m) <= calls k m' <= calls k m + left_of level exec.
Proof.
  induction fuel as [|f IH]; intros m level exec s m' E O ND I J; simpl in E; [discriminate|].
  destruct (round m e level exec false) as [[[ex ch]|x] m1] eqn:R; [|discriminate].
  pose proof (round_once _ _ _ _ _ _ R O ND I J) as K. destruct (round_grows _ _ _ _ _ _ _ R ND) as (a & -> & Ia & Na & Da & C).
  pose proof (fx_basic _ _ _ (fixed_round _ _ _ _ _ _ _ R)) as FB.
  assert (P : 1 <= left_of level exec).
  { unfold left_of. clear -I J. induction level as [|y l IHl]; [destruct I|]. simpl. destruct I as [->|I].
    - assert (mem b exec = false) as -> by (destruct (mem b exec) eqn:M; auto; apply mem_In in M; contradiction). simpl. lia.
    - specialize (IHl I). destruct (mem y exec); simpl; lia. }
  destruct ch.
  - assert (NE : a <> []) by (intros ->; discriminate). pose proof (left_less level exec a NE Ia Na Da) as LL.
    destruct (in_dec Nat.eq_dec b (exec ++ a)) as [Ib|Ib].
    + apply level_keeps in E; auto; [lia|]. intros n c In_ Nn A. rewrite FB in A. apply (proj2 O n c A). intros ->. contradiction.
    + apply IH in E; auto; [lia|apply (only_fixed m); auto].
  - injection E as <- <-. lia.
Qed.
End Level.
