(** Number theory and absolute time: proofs. *)
From Verif Require Export SpecAbs.
From Verif Require Import BaseFacts RunProofs RunHist RunFacts RunProps YieldFacts PureFacts StopFacts IdFacts.
From Coq Require Import Lqa Lia.
Open Scope nat_scope.

(** ** rationals *)
Lemma Qis_int_iff : forall q, Qis_int q = true <-> exists z, (q == inject_Z z)%Q.
Proof.
  intros [n d]. unfold Qis_int; simpl. rewrite Z.eqb_eq. split.
  - intros H. exists (n / Z.pos d)%Z. unfold Qeq; simpl. pose proof (Z.div_mod n (Z.pos d) ltac:(lia)). nia.
  - intros [z H]. unfold Qeq in H; simpl in H. rewrite Z.mul_1_r in H. rewrite H. apply Z.mod_mul. lia.
Qed.
Lemma Qtrunc_int : forall q z, (q == inject_Z z)%Q -> Qtrunc q = z.
Proof.
  intros [n d] z H. unfold Qeq in H; simpl in H. unfold Qtrunc; simpl. rewrite Z.mul_1_r in H. rewrite H.
  apply Z.quot_mul. lia.
Qed.
Lemma Qltb_iff : forall a b, Qltb a b = true <-> (a < b)%Q.
Proof.
  intros a b. unfold Qltb. rewrite negb_true_iff. split; intros H.
  - apply Qnot_le_lt. intros L. apply Qle_bool_iff in L. congruence.
  - destruct (Qle_bool b a) eqn:E; auto. apply Qle_bool_iff in E. apply Qlt_not_le in H. contradiction.
Qed.
Lemma Qltb_false : forall a b, Qltb a b = false <-> (b <= a)%Q.
Proof. intros a b. unfold Qltb. rewrite negb_false_iff. apply Qle_bool_iff. Qed.
Lemma Qmin_fold : forall r x, In (fold_left Qmin' r x) (x :: r) /\ forall y, In y (x :: r) -> (fold_left Qmin' r x <= y)%Q.
Proof.
  induction r as [|a r IH]; intros x; cbn [fold_left].
  - split; [left; auto|]. intros y [->|[]]. apply Qle_refl.
  - destruct (IH (Qmin' x a)) as [A B]. split.
    + destruct A as [A|A]; [|right; right; auto]. rewrite <- A. unfold Qmin'. destruct (Qltb a x); simpl; auto.
    + assert (C : (Qmin' x a <= x /\ Qmin' x a <= a)%Q).
      { unfold Qmin'. destruct (Qltb a x) eqn:E.
        - apply Qltb_iff in E. split; [apply Qlt_le_weak; auto|apply Qle_refl].
        - apply Qltb_false in E. split; [apply Qle_refl|auto]. }
      assert (D := B (Qmin' x a) (or_introl eq_refl)). destruct C as [C1 C2].
      intros y [->|[->|I]].
      * eapply Qle_trans; eauto.
      * eapply Qle_trans; eauto.
      * apply B. right; auto.
Qed.
Lemma Qmin_list_in : forall l d, l <> [] -> In (Qmin_list l d) l.
Proof. intros [|x r] d H; [congruence|]. apply Qmin_fold. Qed.
Lemma Qmin_list_le : forall l d y, In y l -> (Qmin_list l d <= y)%Q.
Proof. intros [|x r] d y H; [destruct H|]. apply Qmin_fold; auto. Qed.
Lemma Qmax_cases : forall a b, (Qmax' a b = a /\ (b <= a)%Q) \/ (Qmax' a b = b /\ (a < b)%Q).
Proof.
  intros a b. unfold Qmax'. destruct (Qle_bool b a) eqn:E.
  - left. split; auto. apply Qle_bool_iff; auto.
  - right. split; auto. apply Qnot_le_lt. intros L. apply Qle_bool_iff in L. congruence.
Qed.

(** ** multiples *)
Global Instance multiple_proper : Proper (Qeq ==> Qeq ==> iff) multiple.
Proof. intros x x' Ex u u' Eu. unfold multiple. split; intros [z H]; exists z; [rewrite <- Ex, <- Eu|rewrite Ex, Eu]; auto. Qed.
Lemma multiple_0 : forall u, multiple 0 u.
Proof. intros u. exists 0%Z. unfold inject_Z. ring. Qed.
Lemma multiple_refl : forall u, multiple u u.
Proof. intros u. exists 1%Z. unfold inject_Z. ring. Qed.
Lemma multiple_add : forall x y u, multiple x u -> multiple y u -> multiple (x + y) u.
Proof. intros x y u [a A] [b B]. exists (a + b)%Z. rewrite inject_Z_plus, A, B. ring. Qed.
Lemma multiple_opp : forall x u, multiple x u -> multiple (- x) u.
Proof. intros x u [a A]. exists (- a)%Z. rewrite inject_Z_opp, A. ring. Qed.
Lemma multiple_sub : forall x y u, multiple x u -> multiple y u -> multiple (x - y) u.
Proof. intros x y u A B. apply multiple_add; auto. apply multiple_opp; auto. Qed.
Lemma multiple_scale : forall z x u, multiple x u -> multiple (inject_Z z * x) u.
Proof. intros z x u [a A]. exists (z * a)%Z. rewrite inject_Z_mult, A. ring. Qed.
Lemma multiple_trans : forall x y u, multiple x y -> multiple y u -> multiple x u.
Proof. intros x y u [a A] B. rewrite A. apply multiple_scale; auto. Qed.
Lemma multiple_gcd : forall l mu w, (forall x, In x l -> multiple (inject_Z x * mu) w) ->
  multiple (inject_Z (fold_right Z.gcd 0%Z l) * mu) w.
Proof.
  induction l as [|x l IH]; intros mu w H; simpl.
  - assert (E : (inject_Z 0 * mu == 0)%Q) by (unfold inject_Z; ring). rewrite E. apply multiple_0.
  - destruct (Z.gcd_bezout x (fold_right Z.gcd 0%Z l) _ eq_refl) as (a & b & E). rewrite <- E.
    assert (F : (inject_Z (a * x + b * fold_right Z.gcd 0%Z l) * mu == inject_Z a * (inject_Z x * mu) + inject_Z b * (inject_Z (fold_right Z.gcd 0%Z l) * mu))%Q).
    { rewrite inject_Z_plus, !inject_Z_mult. ring. }
    rewrite F. apply multiple_add; apply multiple_scale; auto. apply H; left; auto. apply IH. intros; apply H; right; auto.
Qed.
Lemma gcd_divides : forall l x, In x l -> (fold_right Z.gcd 0%Z l | x)%Z.
Proof.
  induction l as [|y l IH]; intros x Hx; [destruct Hx|]. destruct Hx as [->|H]; simpl.
  - apply Z.gcd_divide_l.
  - eapply Z.divide_trans; [apply Z.gcd_divide_r|auto].
Qed.
Lemma gcd_nonneg : forall l, (0 <= fold_right Z.gcd 0%Z l)%Z.
Proof. intros [|x l]; simpl; [lia|apply Z.gcd_nonneg]. Qed.

(** ** the rounded logarithm *)
Lemma round_log10_from_pow : forall d fuel k r2, (r2 == inject_Z (10 ^ Z.of_nat (2 * d)))%Q -> k <= d -> d - k < fuel ->
  round_log10_from fuel k r2 = d.
Proof.
  intros d fuel. induction fuel as [|f IH]; intros k r2 E L F; [lia|]. cbn [round_log10_from].
  destruct (Qltb r2 (inject_Z (10 ^ Z.of_nat (2 * k + 1)))) eqn:B.
  - apply Qltb_iff in B. rewrite E in B. rewrite <- Zlt_Qlt in B.
    apply Z.pow_lt_mono_r_iff in B; lia.
  - apply Qltb_false in B. rewrite E in B. rewrite <- Zle_Qle in B.
    apply Z.pow_le_mono_r_iff in B; try lia. apply IH; auto; lia.
Qed.
Lemma round_log10_pow : forall r d, (r == inject_Z (10 ^ Z.of_nat d))%Q -> round_log10 r = d.
Proof.
  intros r d E. unfold round_log10. cbv zeta.
  assert (E2 : (r * r == inject_Z (10 ^ Z.of_nat (2 * d)))%Q).
  { rewrite E, <- inject_Z_mult, <- Z.pow_add_r by lia. replace (Z.of_nat d + Z.of_nat d)%Z with (Z.of_nat (2 * d)) by lia. apply Qeq_refl. }
  apply round_log10_from_pow; auto; [lia|]. set (q := (r * r)%Q) in *. clearbody q.
  assert (L : (10 ^ Z.of_nat (2 * d) <= Qnum q)%Z).
  { destruct q as [n p]. unfold Qeq in E2; simpl in *. assert (0 < 10 ^ Z.of_nat (2 * d))%Z by (apply Z.pow_pos_nonneg; lia). nia. }
  assert (G : (Z.of_nat (2 * d) <= Z.log2_up (Qnum q + 1))%Z).
  { replace (Z.of_nat (2 * d)) with (Z.log2_up (2 ^ Z.of_nat (2 * d))) at 1 by (apply Z.log2_up_pow2; lia).
    apply Z.log2_up_le_mono. assert (2 ^ Z.of_nat (2 * d) <= 10 ^ Z.of_nat (2 * d))%Z by (apply Z.pow_le_mono_l; lia). lia. }
  lia.
Qed.

(** ** the length of a consideration set execution *)
Lemma decimal_convert : forall mu lo a, (0 < mu)%Q -> decimal mu a -> (exists k, (lo == inject_Z (10 ^ Z.of_nat k) * mu)%Q) ->
  (lo <= q_unit a)%Q -> (inject_Z (convert_interval lo a) * lo == q_val a)%Q.
Proof.
  intros mu lo a Hm (z & k & Ez & Eu) (k0 & E0) L. unfold convert_interval.
  assert (P : forall j, (0 < inject_Z (10 ^ Z.of_nat j))%Q).
  { intros j. change 0%Q with (inject_Z 0). rewrite <- Zlt_Qlt. apply Z.pow_pos_nonneg; lia. }
  assert (K : k0 <= k).
  { rewrite E0, Eu in L. apply Qmult_le_r in L; auto. rewrite <- Zle_Qle in L. apply Z.pow_le_mono_r_iff in L; lia. }
  assert (R : (q_unit a / lo == inject_Z (10 ^ Z.of_nat (k - k0)))%Q).
  { rewrite Eu, E0. replace k with (k - k0 + k0) at 1 by lia. rewrite Nat2Z.inj_add, Z.pow_add_r by lia.
    rewrite inject_Z_mult. field. split; [apply Qnot_eq_sym, Qlt_not_eq; auto|]. intros X. specialize (P k0). rewrite X in P. discriminate. }
  rewrite (round_log10_pow _ _ R), (Qtrunc_int _ _ Ez). unfold q_val. rewrite Ez, Eu, E0.
  replace (inject_Z (10 ^ Z.of_nat k)) with (inject_Z (10 ^ Z.of_nat (k - k0) * 10 ^ Z.of_nat k0)).
  - rewrite !inject_Z_mult. ring.
  - f_equal. rewrite <- Z.pow_add_r by lia. f_equal. lia.
Qed.
Definition nq (n : nat) : Q := inject_Z (Z.of_nat n).
Theorem unit_divides : forall mu du ivs exact qlen u, absolute_unit du ivs exact qlen = Ok u -> ivs <> [] ->
  (0 < mu)%Q -> (forall a, In a ivs -> decimal mu a) ->
  let n := if exact then 1 else qlen in
  (forall a, In a ivs -> multiple (q_val a) (nq n * u)) /\
  (forall w, (forall a, In a ivs -> multiple (q_val a) (nq n * w)) -> multiple u w) /\
  (0 <= u)%Q /\ (forall a, In a ivs -> ~ (q_val a == 0)%Q -> (0 < u)%Q).
Proof.
  intros mu du ivs exact qlen u E Ne Hm D. unfold absolute_unit in E.
  destruct ivs as [|i0 rest]; [congruence|]. set (ivs := i0 :: rest) in *.
  set (lo := Qmin_list (map q_unit ivs) 1%Q) in *.
  assert (Lo : exists k, (lo == inject_Z (10 ^ Z.of_nat k) * mu)%Q).
  { assert (I : In lo (map q_unit ivs)) by (apply Qmin_list_in; discriminate). apply in_map_iff in I.
    destruct I as (a & Ea & Ia). destruct (D _ Ia) as (z & k & _ & Eu). exists k. rewrite <- Ea. auto. }
  assert (Lpos : (0 < lo)%Q).
  { destruct Lo as (k & ->). apply Qmult_lt_0_compat; auto. change 0%Q with (inject_Z 0). rewrite <- Zlt_Qlt. apply Z.pow_pos_nonneg; lia. }
  assert (Cv : forall a, In a ivs -> (inject_Z (convert_interval lo a) * lo == q_val a)%Q).
  { intros a Ia. apply (decimal_convert mu); auto. apply Qmin_list_le. apply in_map; auto. }
  set (g := fold_right Z.gcd 0%Z (map (convert_interval lo) ivs)) in *.
  set (n := if exact then 1 else qlen) in *. cbv zeta.
  destruct n as [|d]; [discriminate|]. injection E as <-.
  assert (Eu : (nq (S d) * ((g # Pos.of_succ_nat d) * lo) == inject_Z g * lo)%Q).
  { unfold nq. rewrite Qmult_assoc. apply Qmult_comp; [|apply Qeq_refl]. unfold Qeq; cbn -[Z.mul]. ring. }
  assert (Eg : (((g # Pos.of_succ_nat d) * lo) == (/ nq (S d)) * (inject_Z g * lo))%Q).
  { rewrite <- Eu. field. unfold nq. intros X. unfold Qeq in X; simpl in X. lia. }
  splits.
  - intros a Ia. rewrite Eu, <- (Cv a Ia). destruct (gcd_divides (map (convert_interval lo) ivs) (convert_interval lo a)) as [z Hz].
    { apply in_map; auto. }
    exists z. rewrite Hz. fold g. rewrite inject_Z_mult. ring.
  - intros w Hw. rewrite Eg.
    assert (M : multiple (inject_Z g * lo) (nq (S d) * w)).
    { apply multiple_gcd. intros x Ix. apply in_map_iff in Ix. destruct Ix as (a & <- & Ia). rewrite (Cv a Ia). auto. }
    destruct M as (z & M). exists z. rewrite M. field. unfold nq. intros X. unfold Qeq in X; simpl in X. lia.
  - assert (0 <= g)%Z by apply gcd_nonneg. apply Qmult_le_0_compat; [|apply Qlt_le_weak; auto]. unfold Qle; simpl. lia.
  - intros a Ia Na.
    assert (0 <= g)%Z by apply gcd_nonneg. assert (g <> 0)%Z.
    { intros X. apply Na. rewrite <- (Cv a Ia). destruct (gcd_divides (map (convert_interval lo) ivs) (convert_interval lo a)) as [z Hz].
      { apply in_map; auto. } fold g in Hz. rewrite Hz, X, Z.mul_0_r. unfold inject_Z; ring. }
    apply Qmult_lt_0_compat; auto. unfold Qlt; simpl. lia.
Qed.

(** ** what the conditions register *)
Lemma part_abs : forall x c, part_of x c -> is_absolute x = true -> is_absolute c = true.
Proof. intros x c H A. induction H; auto; simpl; apply existsb_exists; eauto. Qed.
Lemma repeats_in : forall c q, In q (absolute_intervals c) <-> exists x, part_of x c /\ repeats x q.
Proof.
  intros c q. induction c as [o a|o cs IH|o cs IH|o c IH|o c n IH] using cond_ind'.
  - split.
    + intros H. exists (CAtom o a). split; [constructor|]. destruct a; simpl in H; try (destruct H; fail).
      destruct repeat; simpl in H; [|destruct H]. destruct H as [->|[]]. econstructor; reflexivity.
    + intros (x & H & [o' s e si ei E]). subst x. inversion H; subst. simpl; auto.
  - simpl. rewrite in_flat_map. rewrite Forall_forall in IH. split.
    + intros (y & Iy & Hy). destruct (is_absolute y); [|destruct Hy]. apply IH in Hy; auto. destruct Hy as (x & P & R).
      exists x. split; auto. eapply po_all; eauto.
    + intros (x & P & R). inversion P as [|? ? y Iy Py|]; subst; [inversion R; discriminate|]. exists y. split; auto.
      rewrite (part_abs x y); auto; [apply IH; eauto|]. inversion R; subst; auto.
  - simpl. rewrite in_flat_map. rewrite Forall_forall in IH. split.
    + intros (y & Iy & Hy). destruct (is_absolute y); [|destruct Hy]. apply IH in Hy; auto. destruct Hy as (x & P & R).
      exists x. split; auto. eapply po_any; eauto.
    + intros (x & P & R). inversion P as [| |? ? y Iy Py]; subst; [inversion R; discriminate|]. exists y. split; auto.
      rewrite (part_abs x y); auto; [apply IH; eauto|]. inversion R; subst; auto.
  - simpl. split; [tauto|]. intros (x & P & R). inversion P; subst. inversion R; discriminate.
  - simpl. split; [tauto|]. intros (x & P & R). inversion P; subst. inversion R; discriminate.
Qed.
Lemma fixed_in : forall c q, In q (absolute_fixed_points c) <-> exists x, part_of x c /\ fixed_at x q.
Proof.
  assert (A : forall x q, fixed_at x q -> is_absolute x = true) by (intros x q H; inversion H; subst; auto).
  intros c q. induction c as [o a|o cs IH|o cs IH|o c IH|o c n IH] using cond_ind'.
  - split.
    + intros H. exists (CAtom o a). split; [constructor|]. destruct a; simpl in H; try (destruct H; fail).
      * apply in_app_iff in H. destruct H as [H|H].
        -- destruct start_inclusive; [|destruct H]. destruct start; [|destruct H]. destruct H as [->|[]]. eapply fx_start; reflexivity.
        -- destruct end_inclusive; [|destruct H]. destruct stop; [|destruct H]. destruct H as [->|[]]. eapply fx_end; reflexivity.
      * destruct inclusive; [|destruct H]. destruct H as [->|[]]. eapply fx_term; reflexivity.
    + intros (x & H & R). inversion H; subst. inversion R as [o' r e ei E|o' r s si E|o' E]; inversion E; subst; simpl; auto.
      apply in_or_app. right; simpl; auto.
  - simpl. rewrite in_flat_map. rewrite Forall_forall in IH. split.
    + intros (y & Iy & Hy). destruct (is_absolute y); [|destruct Hy]. apply IH in Hy; auto. destruct Hy as (x & P & R).
      exists x. split; auto. eapply po_all; eauto.
    + intros (x & P & R). inversion P as [|? ? y Iy Py|]; subst; [inversion R; discriminate|]. exists y. split; auto.
      rewrite (part_abs x y); eauto. apply IH; eauto.
  - simpl. rewrite in_flat_map. rewrite Forall_forall in IH. split.
    + intros (y & Iy & Hy). destruct (is_absolute y); [|destruct Hy]. apply IH in Hy; auto. destruct Hy as (x & P & R).
      exists x. split; auto. eapply po_any; eauto.
    + intros (x & P & R). inversion P as [| |? ? y Iy Py]; subst; [inversion R; discriminate|]. exists y. split; auto.
      rewrite (part_abs x y); eauto. apply IH; eauto.
  - simpl. split; [tauto|]. intros (x & P & R). inversion P; subst. inversion R; discriminate.
  - simpl. split; [tauto|]. intros (x & P & R). inversion P; subst. inversion R; discriminate.
Qed.
Lemma respected_in : forall (exact : bool) c q, In q (absolute_intervals c ++ (if exact then absolute_fixed_points c else [])) <-> respected exact c q.
Proof.
  intros exact c q. rewrite in_app_iff, repeats_in. unfold respected. split.
  - intros [(x & P & R)|H]; [exists x; auto|]. destruct exact; [|destruct H]. apply fixed_in in H. destruct H as (x & P & R). exists x; auto.
  - intros (x & P & [R|[-> R]]); [left; eauto|right]. apply fixed_in. exists x; auto.
Qed.
Lemma respected_abs : forall exact c q, respected exact c q -> is_absolute c = true.
Proof.
  intros exact c q (x & P & H). apply (part_abs x); auto. destruct H as [[]|[_ []]]; subst; auto.
Qed.
Lemma tc_list_in : forall tc c, In c (tc_list tc) <-> exists s, tc s = Some c.
Proof.
  intros tc c. unfold tc_list. rewrite in_flat_map. split.
  - intros (s & _ & H). destruct (tc s) eqn:E; simpl in H; [|tauto]. destruct H as [->|[]]. eauto.
  - intros (s & E). exists s. split; [destruct s; simpl; auto 10|]. rewrite E. simpl; auto.
Qed.

(** ** the start of a run in absolute time *)
Lemma init_counts_clock : forall m e b r m' k, init_counts_base m e b = (Ok r, m') -> x_clock (m_ctxs m e) = Some k ->
  x_clock (m_ctxs m' e) = Some k.
Proof.
  intros m e b r m' k I X. unfold init_counts_base in I. rewrite X in I. simpl in I.
  repeat (destruct (copy_entry _ _); try (inversion I; fail)). inversion I; subst. rewrite set_ctx_at. auto.
Qed.
Lemma start_absolute : forall ms g0 g1 m1, start ms g0 = (Ok g1, m1) -> g_abs g1 = true ->
  exists mv, (forall c, In c (absolute_conditions mv (run_tc ms g0)) <-> is_absolute c = true /\ registered ms (run_tc ms g0) c) /\
    m_exact mv = m_exact ms /\ queue mv = queue ms /\ m_default_unit mv = m_default_unit ms /\
    unit_of mv (run_tc ms g0) = Ok (step_length m1 (g_eid g0)) /\
    shown_time m1 (g_eid g0) = Qmax' (shown_time ms (g_eid g0)) (first_time (absolute_conditions mv (run_tc ms g0))).
Proof.
  intros m g g1 m1 H Ha. unfold start in H.
  destruct (validate_run_state m) as [[u|ex] mv] eqn:V; [|inversion H].
  assert (Hv : m_tconds mv = m_tconds m /\ (forall c, is_absolute c = true -> In c (map snd (m_basic mv)) <-> In c (map snd (m_basic m))) /\
    m_exact mv = m_exact m /\ queue mv = queue m /\ m_default_unit mv = m_default_unit m /\ m_ctxs mv = m_ctxs m).
  { unfold validate_run_state in V. destruct (toposort (m_graph m)); try (inversion V; fail).
    destruct (add_defaults (m_nodes m) m) as [m'|] eqn:A; inversion V; subst.
    assert (A' := A). apply RunHist.add_defaults_spec in A. destruct A as (A1 & A2 & A3 & A4 & _).
    assert (Q : queue mv = queue m) by (apply static_queue; auto). splits.
    - intros c Ac. split.
      + intros I. eapply add_defaults_absolute; eauto.
      + intros I. eapply add_defaults_keep; eauto.
    - destruct A2; auto. }
  destruct Hv as (Vt & Vb & Vx & Vq & Vd & Vc). rewrite Vt in H. change (match g_tcarg g with None => m_tconds m | Some a => combine_tconds (m_tconds m) a end) with (run_tc m g) in H. set (tc := run_tc m g) in *.
  set (m2 := set_clock mv (g_eid g) (the_clock (m_ctxs mv (g_eid g)))) in *.
  destruct (setup_absolute m2 (g_eid g) tc) as [m3|ex] eqn:S; [|inversion H].
  destruct (init_counts_base m3 (g_eid g) (g_base g)) as [[r|ex] m4] eqn:I; [|inversion H].
  injection H as <- <-. cbn [g_abs] in Ha.
  assert (K : exists k w, x_clock (m_ctxs m3 (g_eid g)) = Some k /\ unit_of mv tc = Ok w /\ t_interval (k_time k) = w /\
     t_abs (k_time k) = Qmax' (shown_time m (g_eid g)) (first_time (absolute_conditions mv tc))).
  { unfold setup_absolute in S. change (absolute_conditions m2 tc) with (absolute_conditions mv tc) in *.
    destruct (absolute_conditions mv tc) as [|c0 cs]; [discriminate|].
    change (unit_of m2 tc) with (unit_of mv tc) in S. destruct (unit_of mv tc) as [w|]; [|discriminate]. injection S as <-.
    unfold set_clock at 1. rewrite set_ctx_at. eexists. exists w. split; [reflexivity|]. split; [reflexivity|]. split; [reflexivity|]. cbn [k_time t_abs]. f_equal.
    unfold shown_time, m2, set_clock. simpl. rewrite upd_same, Vc. reflexivity. }
  destruct K as (k & w & K1 & K2 & K3 & K4). apply (init_counts_clock _ _ _ _ _ k) in I; auto.
  exists mv. splits.
  - intros c. unfold absolute_conditions, registered. rewrite filter_In, in_app_iff, tc_list_in.
    split; [intros [B A]|intros [A B]]; split; auto; destruct B as [B|B]; auto; left; apply Vb; auto.
  - rewrite K2. f_equal. unfold step_length, reset_counts_total, reset_counts_useable. rewrite !set_ctx_at. unfold the_clock; cbn [x_clock].
    simpl. rewrite I. auto.
  - rewrite <- K4. unfold shown_time, reset_counts_total, reset_counts_useable. rewrite !set_ctx_at. unfold the_clock; cbn [x_clock].
    simpl. rewrite I. auto.
Qed.
