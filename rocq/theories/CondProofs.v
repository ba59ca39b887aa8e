(** Conditions against histories. *)
From Verif Require Export SpecCond TimeProofs.

Lemma cmp_nat_lt : forall a b, cmp_nat Lt a b = true <-> a < b.
Proof. intros; apply Nat.ltb_lt. Qed.
Lemma cmp_nat_le : forall a b, cmp_nat Le a b = true <-> a <= b.
Proof. intros; apply Nat.leb_le. Qed.
Lemma cmp_nat_gt : forall a b, cmp_nat Gt a b = true <-> a > b.
Proof. intros; apply Nat.ltb_lt. Qed.
Lemma cmp_nat_ge : forall a b, cmp_nat Ge a b = true <-> a >= b.
Proof. intros; apply Nat.leb_le. Qed.
Lemma cmp_nat_eq : forall a b, cmp_nat Eq a b = true <-> a = b.
Proof. intros; apply Nat.eqb_eq. Qed.

Lemma eval_time : forall c q n s v e ow st o h k, clock_after ESU h (v_clock v) ->
  ts_lt q s -> ts_le ESU s -> units_within q s h k ->
  eval v e ow (CAtom o (ATime c q n s)) st = (Ok (cmp_nat c k n), st).
Proof.
  intros c q n s v e ow st o h k H L1 L2 (h2 & S & ->). simpl.
  rewrite (total_relative ESU h _ q s h2) by auto. simpl. destruct st; auto.
Qed.

Theorem time_conditions : forall q s v e ow st o n h k, clock_after ESU h (v_clock v) ->
  ts_lt q s -> ts_le ESU s -> units_within q s h k ->
  decides (is_satisfied v e ow st (CAtom o (ATime Lt q n s))) (k < n) /\
  decides (is_satisfied v e ow st (CAtom o (ATime Eq q n s))) (k = n) /\
  decides (is_satisfied v e ow st (CAtom o (ATime Gt q n s))) (k > n) /\
  decides (is_satisfied v e ow st (CAtom o (ATime Ge q n s))) (k >= n).
Proof.
  intros q s v e ow st o n h k H L1 L2 U. unfold is_satisfied.
  rewrite !(eval_time _ q n s v e ow st o h k) by auto.
  repeat split; eexists; (split; [reflexivity|]);
  auto using cmp_nat_lt, cmp_nat_eq, cmp_nat_gt, cmp_nat_ge.
Qed.
Theorem every_n_passes : forall s v e ow st o n h k, clock_after ESU h (v_clock v) ->
  ts_le ESU s -> units_within PASS s h k -> n > 0 ->
  decides (is_satisfied v e ow st (EveryNPasses o n s)) (Nat.divide n k).
Proof.
  intros s v e ow st o n h k H L (h2 & S & ->) P. unfold is_satisfied; simpl.
  rewrite (total_relative ESU h _ PASS s h2) by (auto; unfold ts_lt, ts_le in *; simpl in *; lia). simpl.
  destruct n as [|n]; [lia|]. eexists; split; [reflexivity|].
  rewrite Nat.eqb_eq. rewrite Nat.mod_divide by lia. tauto.
Qed.
Theorem sequence_conditions : forall v e ow st o n h, clock_after ESU h (v_clock v) ->
  decides (is_satisfied v e ow st (AtEnvironmentSequence o n)) (count ES h = n) /\
  decides (is_satisfied v e ow st (AfterEnvironmentSequence o n)) (count ES h > n) /\
  decides (is_satisfied v e ow st (AfterNEnvironmentSequences o n)) (count ES h >= n).
Proof.
  intros v e ow st o n h H. unfold is_satisfied; simpl.
  assert (S : since_coarser ES h h).
  { split; auto. apply clock_after_ok in H. destruct H as [_ _ _ F].
    apply Forall_rev in F. rewrite rev_involutive in F. eapply Forall_impl; [|exact F].
    intros a; unfold ts_lt, ts_le; simpl; lia. }
  rewrite (time_component _ _ _ _ _ H S).
  repeat split; eexists; (split; [reflexivity|]);
  first [exact (cmp_nat_eq _ _) | exact (cmp_nat_gt _ _) | exact (cmp_nat_ge _ _)].
Qed.
Theorem time_pure : forall c q n s v e ow st o, state_after v e ow st (CAtom o (ATime c q n s)) = st.
Proof. intros; unfold state_after; simpl; destruct st; auto. Qed.
Lemma units_within_exists : forall q s h, exists k, units_within q s h k.
Proof. intros. destruct (since_at_least_exists s h) as (h2 & S). exists (count q h2), h2; auto. Qed.
Theorem cse_conditions : forall v e ow st o n s h k,
  clock_after ESU h (v_clock v) -> ts_le ESU s -> units_within CSE s h k ->
  decides (is_satisfied v e ow st (BeforeConsiderationSetExecution o n s)) (k < n) /\
  decides (is_satisfied v e ow st (AtConsiderationSetExecution o n s)) (k = n) /\
  decides (is_satisfied v e ow st (AfterConsiderationSetExecution o n s)) (k > n) /\
  decides (is_satisfied v e ow st (AfterNConsiderationSetExecutions o n s)) (k >= n).
Proof. intros; eapply time_conditions; eauto. unfold ts_le, ts_lt in *; simpl in *; lia. Qed.
Theorem pass_conditions : forall v e ow st o n s h k,
  clock_after ESU h (v_clock v) -> ts_le ESU s -> units_within PASS s h k ->
  decides (is_satisfied v e ow st (BeforePass o n s)) (k < n) /\
  decides (is_satisfied v e ow st (AtPass o n s)) (k = n) /\
  decides (is_satisfied v e ow st (AfterPass o n s)) (k > n) /\
  decides (is_satisfied v e ow st (AfterNPasses o n s)) (k >= n) /\
  (n > 0 -> decides (is_satisfied v e ow st (EveryNPasses o n s)) (Nat.divide n k)).
Proof.
  intros v e ow st o n s h k H L U.
  assert (L2 : ts_lt PASS s) by (unfold ts_le, ts_lt in *; simpl in *; lia).
  destruct (time_conditions PASS s v e ow st o n h k H L2 L U) as (A & B & C & D).
  repeat split; auto. intros; eapply every_n_passes; eauto.
Qed.
Theorem esu_conditions : forall v e ow st o n s h k,
  clock_after ESU h (v_clock v) -> ts_le ES s -> units_within ESU s h k ->
  decides (is_satisfied v e ow st (BeforeEnvironmentStateUpdate o n s)) (k < n) /\
  decides (is_satisfied v e ow st (AtEnvironmentStateUpdate o n s)) (k = n) /\
  decides (is_satisfied v e ow st (AfterEnvironmentStateUpdate o n s)) (k > n) /\
  decides (is_satisfied v e ow st (AfterNEnvironmentStateUpdates o n s)) (k >= n).
Proof. intros; eapply time_conditions; eauto; unfold ts_le, ts_lt in *; simpl in *; lia. Qed.
