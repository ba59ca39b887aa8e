(** Runs in absolute time: proofs. *)
From Verif Require Export AbsFacts.
From Verif Require Import BaseFacts RunProofs RunHist RunFacts RunProps YieldFacts PureFacts StopFacts IdFacts.
From Coq Require Import Lqa Lia Qround.
Open Scope nat_scope.

(** the i-th consideration set execution of the run takes place at a + i * iv *)
Definition tick_time (m1 : core) (e : eid) (i : nat) : Q := (shown_time m1 e + nq i * step_length m1 e)%Q.
Lemma state_time : forall m0 g0 ys m g g1 m1 ps ph h0, run_state m0 g0 ys m g g1 m1 ps ph -> g_abs g = true ->
  clock_after ESU h0 (the_clock (m_ctxs m0 (g_eid g0))) ->
  exists n, length ys = S n /\ (shown_time m (g_eid g0) == tick_time m1 (g_eid g0) n)%Q /\ step_length m (g_eid g0) = step_length m1 (g_eid g0).
Proof.
  intros m0 g0 ys m g g1 m1 ps ph h0 St Ha C.
  assert (Sd := rs_started _ _ _ _ _ _ _ _ _ St). assert (C1 := started_clock _ _ _ _ _ Sd C).
  pose proof (rs_hist _ _ _ _ _ _ _ _ _ St) as H.
  destruct (hist_clock _ _ _ _ _ _ h0 H C1) as (_ & Ei & _ & X & _).
  exists (count CSE (run_events (g_abs g1) ps ph)). splits.
  - rewrite (rs_yields _ _ _ _ _ _ _ _ _ St). symmetry. eapply events_cse. exact (rs_matches _ _ _ _ _ _ _ _ _ St).
  - unfold shown_time, tick_time, nq. rewrite X; [reflexivity|]. destruct Sd as (ms & _ & S). rewrite <- (setup_enabled _ _ _ _ S).
    rewrite <- (state_abs _ _ _ _ _ _ _ _ _ St); auto.
Qed.
Lemma running_app : forall m0 g0 xs m1 g1 ys m g, running m0 g0 xs m1 g1 -> g_eid g1 = g_eid g0 -> running m1 g1 ys m g ->
  running m0 g0 (xs ++ ys) m g.
Proof.
  intros m0 g0 xs m1 g1 ys m g R E R'. induction R' as [|ys m g m' R' IH U|ys m g fuel m' g' s R' IH Y].
  - rewrite app_nil_r; auto.
  - eapply run_env; eauto. rewrite <- E; auto.
  - rewrite app_assoc. eapply run_yields; eauto.
Qed.
Lemma begun_running : forall P ms g0 ys m g, begun P ms g0 ys m g -> running ms g0 ys m g.
Proof.
  intros P ms g0 ys m g (_ & Hp & fuel & m1 & g1 & s & ys' & -> & Y & R).
  change (s :: ys') with ([s] ++ ys'). apply (running_app ms g0 [s] m1 g1).
  - eapply (run_yields ms g0 [] ms g0); eauto. constructor.
  - destruct (run_first ms g0 ms fuel m1 g1 s Hp (undisturbed_refl _ _) Y) as (g2 & m2 & ps & ph & _ & St & _).
    rewrite (rs_gen _ _ _ _ _ _ _ _ _ St). apply (rs_eid _ _ _ _ _ _ _ _ _ St).
  - eapply while_running; eauto.
Qed.
Theorem timed_history : forall P (K : Q -> list node -> Prop) ms g0 ys m g h0,
  begun P ms g0 ys m g -> g_abs g = true ->
  clock_after ESU h0 (the_clock (m_ctxs ms (g_eid g0))) ->
  (forall t t' s, (t == t')%Q -> K t s -> K t' s) ->
  (forall zs m2 g2 fuel m3 g3 s, running ms g0 zs m2 g2 -> resume fuel m2 g2 = (m3, g3, OYield s) -> P m3 -> static ms m3 ->
     g_abs g3 = true -> run_tc ms g0 = g_tc g3 -> g_eid g3 = g_eid g0 -> K (shown_time m3 (g_eid g0)) s) ->
  exists g1 m1 ps ph, start ms g0 = (Ok g1, m1) /\ run_state ms g0 ys m g g1 m1 ps ph /\
    forall i s, nth_error ys i = Some s -> K (tick_time m1 (g_eid g0) i) s.
Proof.
  intros P K ms g0 ys m g h0 B Ha C KP KY.
  destruct B as (P0 & Hp & fuel & m1 & g1 & s & ys' & -> & Y & R).
  destruct (run_first ms g0 ms fuel m1 g1 s Hp (undisturbed_refl _ _) Y) as (g2 & m2 & ps & ph & Sm & St & _).
  assert (Ee : g_eid g1 = g_eid g0).
  { rewrite (rs_gen _ _ _ _ _ _ _ _ _ St). apply (rs_eid _ _ _ _ _ _ _ _ _ St). }
  assert (R1 : running ms g0 [s] m1 g1) by (eapply (run_yields ms g0 [] ms g0); eauto; constructor).
  assert (Tc : g_tc g2 = run_tc ms g0) by (eapply start_tc; eauto).
  assert (Ga : forall zs mz gz psz phz, run_state ms g0 zs mz gz g2 m2 psz phz -> g_tc gz = run_tc ms g0 /\ g_eid gz = g_eid g0 /\ g_abs gz = g_abs g2).
  { intros zs mz gz psz phz Sz. rewrite (rs_gen _ _ _ _ _ _ _ _ _ Sz). cbn. splits. apply (rs_eid _ _ _ _ _ _ _ _ _ St). }
  assert (Pk : P m1) by (clear - R; induction R; auto).
  assert (G2 : g_abs g2 = true -> K (shown_time m1 (g_eid g0)) s).
  { intros A2. destruct (Ga _ _ _ _ _ St) as (E1 & E2 & E3). apply (KY [] ms g0 fuel m1 g1 s); auto; try congruence; [constructor|]. apply (rs_static _ _ _ _ _ _ _ _ _ St). }
  assert (Inv : exists psz phz, run_state ms g0 (s :: ys') m g g2 m2 psz phz /\
     (g_abs g2 = true -> forall i s', nth_error (s :: ys') i = Some s' -> K (tick_time m2 (g_eid g0) i) s')).
  { clear Ha. induction R as [Pm|ys m g m' R IH U Pm|ys m g fu m' g' s' R IH E Pm].
    - exists ps, ph. split; auto. intros A2 i s' Hi.
      assert (A1 : g_abs g1 = true) by (destruct (Ga _ _ _ _ _ St) as (_ & _ & ->); auto).
      destruct (state_time _ _ _ _ _ _ _ _ _ _ St A1 C) as (n & Ln & Tn & _). simpl in Ln. injection Ln as <-.
      destruct i as [|i]; [|destruct i; discriminate]. injection Hi as <-. eapply KP; [exact Tn|auto].
    - destruct (IH) as (psz & phz & Sz & Kz). exists psz, phz. split; auto. eapply run_state_env; eauto. rewrite <- Ee; auto.
    - destruct IH as (psz & phz & Sz & Kz).
      destruct (run_next _ _ _ _ _ _ _ _ _ _ _ _ _ Sz E) as (ps' & ph' & Sn & _).
      exists ps', ph'. split; auto. intros A2 i x Hi. change (s :: ys ++ [s']) with ((s :: ys) ++ [s']) in *.
      apply nth_error_snoc in Hi. destruct Hi as [Hi|[Li ->]]; [auto|].
      destruct (Ga _ _ _ _ _ Sn) as (E1 & E2 & E3).
      assert (A1 : g_abs g' = true) by congruence.
      destruct (state_time _ _ _ _ _ _ _ _ _ _ Sn A1 C) as (n & Ln & Tn & _). rewrite app_length in Ln. simpl in Ln.
      assert (n = i) by (simpl in Li; lia). subst n. eapply KP; [exact Tn|].
      apply (KY (s :: ys) m g fu m' g' s'); auto; [|apply (rs_static _ _ _ _ _ _ _ _ _ Sn)].
      change (s :: ys) with ([s] ++ ys). eapply running_app; eauto. eapply while_running; eauto. }
  destruct Inv as (psz & phz & Sz & Kz). exists g2, m2, psz, phz. splits. apply Kz. destruct (Ga _ _ _ _ _ Sz) as (_ & _ & <-); auto.
Qed.

(** ** the length of an execution *)
Lemma unit_of_start : forall ms g0 g1 m1 mu, start ms g0 = (Ok g1, m1) -> g_abs g1 = true -> decimal_lengths mu ms g0 ->
  let iv := step_length m1 (g_eid g0) in let n := executions_per_pass ms in
  (forall c q, registered ms (run_tc ms g0) c -> respected (m_exact ms) c q -> multiple (q_val q) (nq n * iv)) /\
  ((exists c q, registered ms (run_tc ms g0) c /\ respected (m_exact ms) c q) ->
   (forall w, (forall c q, registered ms (run_tc ms g0) c -> respected (m_exact ms) c q -> multiple (q_val q) (nq n * w)) -> multiple iv w) /\
   (0 <= iv)%Q) /\
  (forall c q, registered ms (run_tc ms g0) c -> respected (m_exact ms) c q -> ~ (q_val q == 0)%Q -> (0 < iv)%Q) /\
  ((forall c q, registered ms (run_tc ms g0) c -> ~ respected (m_exact ms) c q) -> iv = q_val (m_default_unit ms)).
Proof.
  intros ms g0 g1 m1 mu S Ha (Hm & D). cbv zeta.
  destruct (start_absolute _ _ _ _ S Ha) as (mv & Rg & Ex & Qu & Du & Un & _).
  set (tc := run_tc ms g0) in *. set (iv := step_length m1 (g_eid g0)) in *. unfold unit_of in Un. rewrite Ex, Qu, Du in Un.
  set (ivs := flat_map _ (absolute_conditions mv tc)) in *.
  assert (In' : forall q, In q ivs <-> exists c, registered ms tc c /\ respected (m_exact ms) c q).
  { intros q. unfold ivs. rewrite in_flat_map. split.
    - intros (c & Ic & Iq). apply Rg in Ic. apply respected_in in Iq. exists c. intuition.
    - intros (c & R & Rq). exists c. split; [|apply respected_in; auto]. apply Rg. split; auto. eapply respected_abs; eauto. }
  assert (En : (if m_exact ms then 1 else length (queue ms)) = executions_per_pass ms).
  { unfold executions_per_pass, queue. destruct (m_exact ms); auto. }
  clearbody ivs.
  destruct ivs as [|q0 rest].
  - splits; try (intros c q R Rq; exfalso; apply (In' q); eauto).
    + intros (c & q & R & Rq). exfalso. apply (In' q); eauto.
    + simpl in Un. injection Un as Un. auto.
  - assert (Ne : q0 :: rest <> []) by discriminate. set (ivs := q0 :: rest) in *. clearbody ivs.
    destruct (unit_divides mu _ _ _ _ _ Un Ne Hm) as (U1 & U2 & U3 & U4).
    { intros a Ia. apply In' in Ia. destruct Ia as (c & R & Rq). eauto. }
    rewrite En in *. splits.
    + intros c q R Rq. apply U1. apply In'. eauto.
    + intros _. split; auto. intros w Hw. apply U2. intros a Ia. apply In' in Ia. destruct Ia as (c & R & Rq). eauto.
    + intros c q R Rq N. apply (U4 q); auto. apply In'. eauto.
    + intros N. exfalso. destruct ivs as [|x r]; [congruence|]. destruct (proj1 (In' x) (or_introl eq_refl)) as (c & R & Rq). eapply N; eauto.
Qed.
Theorem run_unit : forall P ms g0 ys m g mu h0, begun P ms g0 ys m g -> g_abs g = true ->
  clock_after ESU h0 (the_clock (m_ctxs ms (g_eid g0))) -> decimal_lengths mu ms g0 ->
  let iv := step_length m (g_eid g0) in let n := executions_per_pass ms in
  (forall c q, registered ms (run_tc ms g0) c -> respected (m_exact ms) c q -> multiple (q_val q) (nq n * iv)) /\
  ((exists c q, registered ms (run_tc ms g0) c /\ respected (m_exact ms) c q) ->
   (forall w, (forall c q, registered ms (run_tc ms g0) c -> respected (m_exact ms) c q -> multiple (q_val q) (nq n * w)) -> multiple iv w) /\
   (0 <= iv)%Q) /\
  (forall c q, registered ms (run_tc ms g0) c -> respected (m_exact ms) c q -> ~ (q_val q == 0)%Q -> (0 < iv)%Q) /\
  ((forall c q, registered ms (run_tc ms g0) c -> ~ respected (m_exact ms) c q) -> iv = q_val (m_default_unit ms)).
Proof.
  intros P ms g0 ys m g mu h0 B Ha C D.
  destruct (timed_history P (fun _ _ => True) ms g0 ys m g h0 B Ha C) as (g1 & m1 & ps & ph & S & St & _); auto.
  destruct (state_time _ _ _ _ _ _ _ _ _ _ St Ha C) as (n & _ & _ & ->).
  eapply unit_of_start; eauto. rewrite <- (state_abs _ _ _ _ _ _ _ _ _ St); auto.
Qed.

(** ** where the clock starts *)
Lemma first_time_cases : forall cs, (first_time cs == 0)%Q \/ exists c q, In c cs /\ In q (absolute_fixed_points c) /\ first_time cs = q_val q.
Proof.
  intros cs. unfold first_time. destruct cs as [|c0 r]; [left; reflexivity|]. set (cs := c0 :: r).
  assert (I : In (Qmin_list (map (fun c => Qmin_list (map q_val (absolute_fixed_points c)) 0%Q) cs) 0%Q) (map (fun c => Qmin_list (map q_val (absolute_fixed_points c)) 0%Q) cs)).
  { apply Qmin_list_in. discriminate. }
  apply in_map_iff in I. destruct I as (c & <- & Ic). destruct (absolute_fixed_points c) as [|q0 qs] eqn:E; [left; reflexivity|].
  right. assert (J : In (Qmin_list (map q_val (q0 :: qs)) 0%Q) (map q_val (q0 :: qs))) by (apply Qmin_list_in; discriminate).
  apply in_map_iff in J. destruct J as (q & <- & Iq). exists c, q. rewrite E. auto.
Qed.
Lemma first_time_le : forall cs c q, In c cs -> In q (absolute_fixed_points c) -> (first_time cs <= q_val q)%Q.
Proof.
  intros cs c q Ic Iq. unfold first_time. eapply Qle_trans.
  - apply Qmin_list_le. apply in_map_iff. exists c. split; [reflexivity|auto].
  - apply Qmin_list_le. apply in_map; auto.
Qed.
Lemma first_time_zero : forall cs c, In c cs -> absolute_fixed_points c = [] -> (first_time cs <= 0)%Q.
Proof.
  intros cs c Ic E. unfold first_time. eapply Qle_trans.
  - apply Qmin_list_le. apply in_map_iff. exists c. split; [reflexivity|auto].
  - rewrite E. simpl. apply Qle_refl.
Qed.

(** ** TimeInterval *)
Lemma window_proper : forall r s e si ei t t', (t == t')%Q -> in_window r s e si ei t -> in_window r s e si ei t'.
Proof.
  intros r s e si ei t t' E (A & B & D). unfold in_window. splits.
  - intros q Hq. specialize (A q Hq). destruct si; rewrite <- E; auto.
  - intros q Hq. specialize (B q Hq). destruct ei; rewrite <- E; auto.
  - intros q Hq. rewrite <- E. auto.
Qed.
Lemma int_quotient : forall x r, ~ (r == 0)%Q -> Qis_int (x / r) = true <-> multiple x r.
Proof.
  intros x r N. rewrite Qis_int_iff. unfold multiple. split; intros [z H]; exists z.
  - rewrite <- H. field. auto.
  - rewrite H. field. auto.
Qed.
Lemma interval_window : forall v own r s e si ei x off, time_interval v own r s e si ei = Ok x ->
  (match in_exact_time_mode v, s with
   | true, Some q => Some (q_val q)
   | _, _ => match owner_level 0 (v_queue v) own None with
             | Some i => Some (inject_Z (Z.of_nat i) * t_interval (k_time (v_clock v)))%Q
             | None => None
             end
   end = Some off) -> (off == match s with Some p => q_val p | None => 0 end)%Q ->
  (x = true <-> in_window r s e si ei (t_abs (k_time (v_clock v)))).
Proof.
  intros v own r s e si ei x off H Eo Ez. unfold time_interval in H. rewrite Eo in H. set (t := t_abs (k_time (v_clock v))) in *.
  set (b1 := match s with None => true | Some q => if si then Qle_bool (q_val q) t else Qltb (q_val q) t end) in *.
  set (b2 := match e with None => true | Some q => if ei then Qle_bool t (q_val q) else Qltb t (q_val q) end) in *.
  assert (B1 : b1 = true <-> forall q, s = Some q -> (if si then q_val q <= t else q_val q < t)%Q).
  { unfold b1. destruct s as [q|]; [|split; auto; intros; discriminate]. destruct si; [rewrite Qle_bool_iff|rewrite Qltb_iff]; split; auto; intros X q' [= <-]; auto. }
  assert (B2 : b2 = true <-> forall q, e = Some q -> (if ei then t <= q_val q else t < q_val q)%Q).
  { unfold b2. destruct e as [q|]; [|split; auto; intros; discriminate]. destruct ei; [rewrite Qle_bool_iff|rewrite Qltb_iff]; split; auto; intros X q' [= <-]; auto. }
  unfold in_window. rewrite <- B1, <- B2. clearbody b1 b2. set (z := match s with Some p => q_val p | None => 0%Q end) in *. clearbody z.
  unfold bind in H. destruct r as [q|].
  - destruct (Qeq_bool (q_val q) 0) eqn:Z; [discriminate|]. apply Qeq_bool_neq in Z. injection H as <-.
    assert (M : Qis_int ((t - off) / q_val q) = true <-> multiple (t - z) (q_val q)).
    { rewrite int_quotient by auto. rewrite Ez. tauto. }
    rewrite !andb_true_iff, M. split; [intros [[X Y] W]; splits; intros q' [= <-]; auto|]. intros (X & Y & W). auto.
  - injection H as <-. simpl. rewrite andb_true_iff. split; [intros [X Y]; splits; intros; discriminate|tauto].
Qed.
Lemma atom_value : forall v e ow o a st x st', eval v e ow (CAtom o a) st = (x, st') -> fst (eval_atom v e (ow o) a (s_world st)) = x.
Proof. intros v e ow o a st x st' H. simpl in H. destruct (eval_atom _ _ _ _ _) as [r w]. injection H as <- _. auto. Qed.
Lemma interval_yield : forall ms g0 zs m2 g2 fuel m3 g3 sy b r s e si ei, running ms g0 zs m2 g2 -> g_pc g0 = PStart ->
  resume fuel m2 g2 = (m3, g3, OYield sy) -> interval_condition b r s e si ei m3 -> static ms m3 -> g_abs g3 = true ->
  forall lb, queue ms = [lb] -> In b lb -> (In b sy <-> in_window r s e si ei (shown_time m3 (g_eid g0))).
Proof.
  intros ms g0 zs m2 g2 fuel m3 g3 sy b r s e si ei R Hp Y (o & Eb & Ow) St Ha lb Qs Ib.
  assert (Q3 : queue m3 = [lb]) by (rewrite <- Qs; apply static_queue; auto).
  assert (W : forall x p v, considered m3 (g_eid g0) zs sy p v -> condition_was m2 m3 g3 v b x ->
     (x = true <-> in_window r s e si ei (shown_time m3 (g_eid g0)))).
  { intros x p v C (c & st & st' & Ec & _ & Ev). rewrite Eb in Ec. injection Ec as <-. apply atom_value in Ev. simpl in Ev. rewrite Ow in Ev.
    unfold shown_time. rewrite <- (cv_clock _ _ _ _ _ _ C).
    apply (interval_window _ _ _ _ _ _ _ _ (match s with Some q => q_val q | None => inject_Z 0 * t_interval (k_time (v_clock v)) end)%Q Ev).
    - unfold in_exact_time_mode. rewrite (cv_queue _ _ _ _ _ _ C), Q3. simpl. rewrite orb_true_r.
      assert (Mb : mem b lb = true) by (apply mem_In; auto). rewrite Mb. destruct s as [q|]; reflexivity.
    - destruct s; [reflexivity|]. simpl. unfold inject_Z. ring. }
  split.
  - intros Is. apply in_split in Is. destruct Is as (x & y & ->).
    destruct (sound _ _ _ _ _ _ _ _ _ R Hp Y x b y eq_refl) as (v & C & Cw). eapply W; eauto.
  - intros Hw. destruct (in_dec Nat.eq_dec b sy) as [I|N]; auto. exfalso.
    destruct (maximal _ _ _ _ _ _ _ _ _ R Hp Y (or_intror Ha)) as (i & level & El & _ & M).
    rewrite Qs in El. destruct i as [|i]; [|destruct i; discriminate]. injection El as <-.
    destruct (M b Ib N) as (v & C & Cw). assert (false = true) by (eapply W; eauto). discriminate.
Qed.
Lemma registered_basic : forall b r s e si ei ms tc, interval_condition b r s e si ei ms ->
  exists o, registered ms tc (CAtom o (ATimeInterval r s e si ei)).
Proof.
  intros b r s e si ei ms tc (o & E & _). exists o. left. apply in_map_iff. exists (b, CAtom o (ATimeInterval r s e si ei)).
  split; auto. apply aget_In; auto.
Qed.
Lemma begun_start : forall P ms g0 ys m g, begun P ms g0 ys m g ->
  exists g1 m1 ps ph, start ms g0 = (Ok g1, m1) /\ run_state ms g0 ys m g g1 m1 ps ph.
Proof.
  intros P ms g0 ys m g (P0 & Hp & fuel & m1 & g1 & s & ys' & -> & Y & R).
  destruct (run_first ms g0 ms fuel m1 g1 s Hp (undisturbed_refl _ _) Y) as (g2 & m2 & ps & ph & Sm & St & _).
  assert (Ee : g_eid g1 = g_eid g0).
  { rewrite (rs_gen _ _ _ _ _ _ _ _ _ St). apply (rs_eid _ _ _ _ _ _ _ _ _ St). }
  exists g2, m2. induction R as [Pm|ys m g m' R IH U Pm|ys m g fu m' g' s' R IH E Pm].
  - exists ps, ph. auto.
  - destruct IH as (psz & phz & _ & Sz). exists psz, phz. split; auto. eapply run_state_env; eauto. rewrite <- Ee; auto.
  - destruct IH as (psz & phz & _ & Sz).
    destruct (run_next _ _ _ _ _ _ _ _ _ _ _ _ _ Sz E) as (ps' & ph' & Sn & _). eauto.
Qed.
Lemma begun_abs : forall P ms g0 ys m g c, begun P ms g0 ys m g -> registered ms (run_tc ms g0) c -> is_absolute c = true -> g_abs g = true.
Proof.
  intros P ms g0 ys m g c B Rg A. destruct (begun_start _ _ _ _ _ _ B) as (g1 & m1 & ps & ph & S & St).
  rewrite (state_abs _ _ _ _ _ _ _ _ _ St), (start_abs _ _ _ _ S). apply existsb_exists. exists c. split; auto.
  apply in_or_app. destruct Rg as [H|H]; auto. right. apply tc_list_in; auto.
Qed.
(** the timestamps of the run *)
Theorem begun_stamps : forall P ms g0 ys m g h0 ts0 g1 m1 ps ph, begun P ms g0 ys m g -> g_abs g = true ->
  start ms g0 = (Ok g1, m1) -> run_state ms g0 ys m g g1 m1 ps ph ->
  clock_after ESU h0 (the_clock (m_ctxs ms (g_eid g0))) -> x_stamps (m_ctxs ms (g_eid g0)) = Some ts0 ->
  exists ts, x_stamps (m_ctxs m (g_eid g0)) = Some (ts0 ++ ts) /\ length ts = length ys /\
    forall i t, nth_error ts i = Some t -> (t_abs t == tick_time m1 (g_eid g0) i)%Q.
Proof.
  intros P ms g0 ys m g h0 ts0 g1 m1 ps ph B Ha S St C E.
  assert (Sd := rs_started _ _ _ _ _ _ _ _ _ St). assert (C1 := started_clock _ _ _ _ _ Sd C).
  pose proof (rs_hist _ _ _ _ _ _ _ _ _ St) as H. rewrite <- (state_abs _ _ _ _ _ _ _ _ _ St), Ha in H.
  pose proof (started_stamps _ _ _ _ Sd) as Es. rewrite E in Es.
  destruct (YieldFacts.hist_stamps _ _ _ _ _ _ H C1 ts0 Es) as (ts & A & Bl & D).
  exists ts. splits.
  - rewrite (rs_yields _ _ _ _ _ _ _ _ _ St), <- (state_abs _ _ _ _ _ _ _ _ _ St), Ha. auto.
  - intros i t Hi. unfold tick_time, nq, shown_time, step_length. apply D; auto. rewrite <- (setup_enabled _ _ _ _ S).
    rewrite <- (state_abs _ _ _ _ _ _ _ _ _ St); auto.
Qed.
Theorem interval_single : forall ms g0 ys m g h0 ts0 b r s e si ei lb,
  begun (interval_condition b r s e si ei) ms g0 ys m g ->
  clock_after ESU h0 (the_clock (m_ctxs ms (g_eid g0))) -> x_stamps (m_ctxs ms (g_eid g0)) = Some ts0 ->
  queue ms = [lb] -> In b lb ->
  exists ts, x_stamps (m_ctxs m (g_eid g0)) = Some (ts0 ++ ts) /\ length ts = length ys /\
    forall i t sy, nth_error ts i = Some t -> nth_error ys i = Some sy -> (In b sy <-> in_window r s e si ei (t_abs t)).
Proof.
  intros ms g0 ys m g h0 ts0 b r s e si ei lb B C E Ex Ib. assert (Hp := proj1 (proj2 B)).
  destruct (registered_basic _ _ _ _ _ _ _ (run_tc ms g0) (proj1 B)) as (o & Rg).
  assert (Ha := begun_abs _ _ _ _ _ _ _ B Rg eq_refl).
  destruct (timed_history _ (fun t sy => In b sy <-> in_window r s e si ei t) ms g0 ys m g h0 B Ha C) as (g1 & m1 & ps & ph & S & St & K).
  { intros t t' sy Et H. rewrite H. split; apply window_proper; auto. symmetry; auto. }
  { intros zs m2 g2 fuel m3 g3 sy R Y P3 S3 A3 _ _. eapply interval_yield; eauto. }
  destruct (begun_stamps _ _ _ _ _ _ _ _ _ _ _ _ B Ha S St C E) as (ts & Et & Lt & Dt).
  exists ts. splits. intros i t sy Hi Hy. rewrite (K i sy Hy). split; apply window_proper; [symmetry|]; auto.
Qed.
Theorem interval_executed : forall ms g0 ys m g h0 ts0 b r s e si ei,
  begun (interval_condition b r s e si ei) ms g0 ys m g ->
  clock_after ESU h0 (the_clock (m_ctxs ms (g_eid g0))) -> x_stamps (m_ctxs ms (g_eid g0)) = Some ts0 ->
  m_exact ms = true -> In b (gkeys (m_graph ms)) ->
  exists ts, x_stamps (m_ctxs m (g_eid g0)) = Some (ts0 ++ ts) /\ length ts = length ys /\
    forall i t sy, nth_error ts i = Some t -> nth_error ys i = Some sy -> (In b sy <-> in_window r s e si ei (t_abs t)).
Proof.
  intros ms g0 ys m g h0 ts0 b r s e si ei B C E Ex Ib. eapply interval_single; eauto. unfold queue. rewrite Ex. auto.
Qed.

(** every multiple of the length of an execution from the first to the last time is visited *)
Lemma grid : forall a iv n w, (0 <= iv)%Q -> multiple (w - a) iv -> (a <= w)%Q -> (w <= a + nq n * iv)%Q ->
  exists i, i <= n /\ (w == a + nq i * iv)%Q.
Proof.
  intros a iv n w Hiv (z & Ez) L U.
  destruct (Qlt_le_dec 0 iv) as [Pos|Np].
  - assert (Z0 : (0 <= z)%Z).
    { destruct (Z_lt_le_dec z 0) as [Neg|]; auto. exfalso. assert (X : (inject_Z z <= inject_Z (-1))%Q) by (rewrite <- Zle_Qle; lia).
      assert (Y : (inject_Z z * iv <= inject_Z (-1) * iv)%Q) by (apply Qmult_le_compat_r; [auto|apply Qlt_le_weak; auto]).
      rewrite <- Ez in Y. assert (Z1 : (inject_Z (-1) * iv == - iv)%Q) by (unfold inject_Z; ring). rewrite Z1 in Y. lra. }
    exists (Z.to_nat z). split.
    + assert (X : (inject_Z z * iv <= nq n * iv)%Q) by (rewrite <- Ez; lra). apply Qmult_le_r in X; auto. unfold nq in X. rewrite <- Zle_Qle in X. lia.
    + unfold nq. rewrite Z2Nat.id by auto. rewrite <- Ez. ring.
  - assert (Z : (iv == 0)%Q) by (apply Qle_antisym; auto). exists 0. split; [lia|].
    assert (X : (w - a == 0)%Q) by (rewrite Ez, Z; ring). unfold nq; simpl. assert (w == a)%Q by lra. rewrite H. unfold inject_Z. ring.
Qed.
Lemma last_time : forall P ms g0 ys m g h0 g1 m1 ps ph, begun P ms g0 ys m g -> g_abs g = true ->
  start ms g0 = (Ok g1, m1) -> run_state ms g0 ys m g g1 m1 ps ph ->
  clock_after ESU h0 (the_clock (m_ctxs ms (g_eid g0))) -> (0 <= step_length m (g_eid g0))%Q ->
  forall w, multiple (w - shown_time m1 (g_eid g0)) (step_length m (g_eid g0)) -> (shown_time m1 (g_eid g0) <= w)%Q ->
    (w <= shown_time m (g_eid g0))%Q -> exists i, i < length ys /\ (w == tick_time m1 (g_eid g0) i)%Q.
Proof.
  intros P ms g0 ys m g h0 g1 m1 ps ph B Ha S St C Hi w M L U.
  destruct (state_time _ _ _ _ _ _ _ _ _ _ St Ha C) as (n & Ln & Tn & Es). rewrite Es in *. rewrite Tn in U. unfold tick_time in *.
  destruct (grid _ _ n w Hi M L U) as (i & Li & Ei). exists i. split; auto. lia.
Qed.
Lemma first_multiple : forall ms g0 g1 m1 mu, start ms g0 = (Ok g1, m1) -> g_abs g1 = true -> decimal_lengths mu ms g0 ->
  m_exact ms = true -> multiple (shown_time ms (g_eid g0)) (step_length m1 (g_eid g0)) ->
  multiple (shown_time m1 (g_eid g0)) (step_length m1 (g_eid g0)).
Proof.
  intros ms g0 g1 m1 mu S Ha D Ex M. destruct (unit_of_start _ _ _ _ _ S Ha D) as (U1 & _). unfold executions_per_pass in U1. rewrite Ex in U1.
  destruct (start_absolute _ _ _ _ S Ha) as (mv & Rg & _ & _ & _ & _ & ->).
  destruct (Qmax_cases (shown_time ms (g_eid g0)) (first_time (absolute_conditions mv (run_tc ms g0)))) as [[-> _]|[-> _]]; auto.
  destruct (first_time_cases (absolute_conditions mv (run_tc ms g0))) as [Z|(c & q & Ic & Iq & ->)]; [rewrite Z; apply multiple_0|].
  apply Rg in Ic. apply fixed_in in Iq. destruct Iq as (x & Px & Fx).
  assert (X : multiple (q_val q) (nq 1 * step_length m1 (g_eid g0))) by (apply (U1 c); [tauto|exists x; auto]).
  assert (E1 : (nq 1 * step_length m1 (g_eid g0) == step_length m1 (g_eid g0))%Q) by (unfold nq, inject_Z; simpl; ring).
  rewrite E1 in X. auto.
Qed.
Theorem interval_visited : forall ms g0 ys m g h0 ts0 b r s e si ei mu,
  begun (interval_condition b (Some r) s e si ei) ms g0 ys m g ->
  clock_after ESU h0 (the_clock (m_ctxs ms (g_eid g0))) -> x_stamps (m_ctxs ms (g_eid g0)) = Some ts0 ->
  m_exact ms = true -> In b (gkeys (m_graph ms)) -> decimal_lengths mu ms g0 ->
  multiple (shown_time ms (g_eid g0)) (step_length m (g_eid g0)) -> (s <> None -> si = true) ->
  exists ts, x_stamps (m_ctxs m (g_eid g0)) = Some (ts0 ++ ts) /\ length ts = length ys /\
    forall w, in_window (Some r) s e si ei w -> (w <= shown_time m (g_eid g0))%Q ->
      ((exists t, hd_error ts = Some t /\ (t_abs t <= w)%Q) \/
       (shown_time ms (g_eid g0) <= w)%Q /\ (s <> None \/ (0 <= shown_time ms (g_eid g0))%Q /\ (e = None \/ ei = false))) ->
      exists i t sy, nth_error ts i = Some t /\ nth_error ys i = Some sy /\ (t_abs t == w)%Q /\ In b sy.
Proof.
  intros ms g0 ys m g h0 ts0 b r s e si ei mu B C E Ex Ib D M0 Hs.
  destruct (registered_basic _ _ _ _ _ _ _ (run_tc ms g0) (proj1 B)) as (o & Rg).
  assert (Ha := begun_abs _ _ _ _ _ _ _ B Rg eq_refl).
  destruct (interval_executed _ _ _ _ _ _ _ _ _ _ _ _ _ B C E Ex Ib) as (ts' & Et' & Lt' & K).
  destruct (begun_start _ _ _ _ _ _ B) as (g1 & m1 & ps & ph & S & St).
  destruct (begun_stamps _ _ _ _ _ _ _ _ _ _ _ _ B Ha S St C E) as (ts & Et & Lt & Dt).
  assert (ts' = ts) by (rewrite Et in Et'; injection Et' as X; apply app_inv_head in X; auto). subst ts'.
  exists ts. split; [auto|]. split; [auto|]. intros w Hw U L.
  assert (Ha1 : g_abs g1 = true) by (rewrite <- (state_abs _ _ _ _ _ _ _ _ _ St); auto).
  destruct (unit_of_start _ _ _ _ _ S Ha1 D) as (U1 & U2 & _). unfold executions_per_pass in U1. rewrite Ex in *.
  destruct (state_time _ _ _ _ _ _ _ _ _ _ St Ha C) as (n & Ln & Tn & Es). rewrite Es in *.
  set (iv := step_length m1 (g_eid g0)) in *. set (a := shown_time m1 (g_eid g0)) in *.
  assert (E1 : (nq 1 * iv == iv)%Q) by (unfold nq, inject_Z; simpl; ring).
  set (c := CAtom o (ATimeInterval (Some r) s e si ei)) in *.
  assert (Rr : respected true c r) by (exists c; split; [constructor|left; econstructor; reflexivity]).
  assert (Mr : multiple (q_val r) iv) by (rewrite <- E1; eapply U1; eauto).
  assert (Mw : multiple w iv).
  { destruct Hw as (_ & _ & W). specialize (W r eq_refl). destruct s as [q|].
    - assert (Mq : multiple (q_val q) iv).
      { rewrite <- E1. apply (U1 c); auto. exists c. split; [constructor|]. right. split; auto. assert (Si : si = true) by (apply Hs; discriminate). subst si. eapply fx_start; reflexivity. }
      assert (Ew : (w == (w - q_val q) + q_val q)%Q) by ring. rewrite Ew. apply multiple_add; auto. eapply multiple_trans; eauto.
    - assert (Ew : (w == w - 0)%Q) by ring. rewrite Ew. eapply multiple_trans; eauto. }
  assert (Ma : multiple a iv) by (eapply first_multiple; eauto).
  assert (La : (a <= w)%Q).
  { destruct L as [(t & Ht & L)|[L0 L]].
    - destruct ts as [|t' ts]; [discriminate|]. injection Ht as ->. specialize (Dt 0 t eq_refl). rewrite Dt in L. unfold tick_time, nq in L. fold a iv in L.
      assert (Z : (a + inject_Z (Z.of_nat 0) * iv == a)%Q) by (unfold inject_Z; simpl; ring). rewrite Z in L. auto.
    - destruct (start_absolute _ _ _ _ S Ha1) as (mv & Rv & _ & _ & _ & _ & Ea). fold a in Ea. rewrite Ea.
      destruct (Qmax_cases (shown_time ms (g_eid g0)) (first_time (absolute_conditions mv (run_tc ms g0)))) as [[-> _]|[-> _]]; auto.
      assert (Ic : In c (absolute_conditions mv (run_tc ms g0))) by (apply Rv; auto).
      destruct s as [q|].
      + assert (Si : si = true) by (apply Hs; discriminate). subst si. apply Qle_trans with (q_val q); [|apply Hw; auto].
        apply (first_time_le _ c); auto. simpl. auto.
      + destruct L as [L|[L1 L2]]; [congruence|]. apply Qle_trans with 0%Q; [|eapply Qle_trans; eauto].
        apply (first_time_zero _ c); auto. unfold c. simpl. destruct L2 as [L2|L2]; rewrite L2; destruct si; simpl; auto; destruct ei; auto. }
  assert (Hi : (0 <= iv)%Q) by (apply U2; eauto).
  assert (Hi' : (0 <= step_length m (g_eid g0))%Q) by (rewrite Es; auto).
  destruct (last_time _ _ _ _ _ _ _ _ _ _ _ B Ha S St C Hi' w) as (i & Li & Ei); auto.
  { rewrite Es. apply multiple_sub; auto. }
  destruct (nth_error ts i) as [t|] eqn:Hti; [|apply nth_error_None in Hti; lia].
  destruct (nth_error ys i) as [sy|] eqn:Hyi; [|apply nth_error_None in Hyi; lia].
  exists i, t, sy. assert (Tw : (t_abs t == w)%Q) by (rewrite (Dt _ _ Hti); symmetry; auto). splits.
  apply (K i t sy Hti Hyi). eapply window_proper; [symmetry; exact Tw|auto].
Qed.
(** start, end and termination times (inclusive ones) are visited *)
Theorem fixed_visited : forall P ms g0 ys m g h0 ts0 mu c q, begun P ms g0 ys m g ->
  clock_after ESU h0 (the_clock (m_ctxs ms (g_eid g0))) -> x_stamps (m_ctxs ms (g_eid g0)) = Some ts0 ->
  m_exact ms = true -> decimal_lengths mu ms g0 -> multiple (shown_time ms (g_eid g0)) (step_length m (g_eid g0)) ->
  registered ms (run_tc ms g0) c -> respected true c q ->
  exists ts t1, x_stamps (m_ctxs m (g_eid g0)) = Some (ts0 ++ ts) /\ length ts = length ys /\ hd_error ts = Some t1 /\
    ((t_abs t1 <= q_val q)%Q -> (q_val q <= shown_time m (g_eid g0))%Q -> exists i t, nth_error ts i = Some t /\ (t_abs t == q_val q)%Q).
Proof.
  intros P ms g0 ys m g h0 ts0 mu c q B C E Ex D M0 Rg Rq.
  assert (Ha := begun_abs _ _ _ _ _ _ _ B Rg (respected_abs _ _ _ Rq)).
  destruct (begun_start _ _ _ _ _ _ B) as (g1 & m1 & ps & ph & S & St).
  destruct (begun_stamps _ _ _ _ _ _ _ _ _ _ _ _ B Ha S St C E) as (ts & Et & Lt & Dt).
  assert (Ha1 : g_abs g1 = true) by (rewrite <- (state_abs _ _ _ _ _ _ _ _ _ St); auto).
  destruct (unit_of_start _ _ _ _ _ S Ha1 D) as (U1 & U2 & _). unfold executions_per_pass in U1. rewrite Ex in *.
  destruct (state_time _ _ _ _ _ _ _ _ _ _ St Ha C) as (n & Ln & Tn & Es). rewrite Es in *.
  destruct ts as [|t1 ts]; [simpl in Lt; lia|]. exists (t1 :: ts), t1. splits.
  intros L U. set (iv := step_length m1 (g_eid g0)) in *.
  assert (E1 : (nq 1 * iv == iv)%Q) by (unfold nq, inject_Z; simpl; ring).
  assert (Mq : multiple (q_val q) iv) by (rewrite <- E1; eapply U1; eauto).
  assert (Ma : multiple (shown_time m1 (g_eid g0)) iv) by (eapply first_multiple; eauto).
  assert (Hi' : (0 <= step_length m (g_eid g0))%Q) by (rewrite Es; apply U2; eauto).
  destruct (last_time _ _ _ _ _ _ _ _ _ _ _ B Ha S St C Hi' (q_val q)) as (i & Li & Ei); auto.
  { rewrite Es. apply multiple_sub; auto. }
  { specialize (Dt 0 t1 eq_refl). rewrite Dt in L. unfold tick_time, nq in L.
    assert (Z : (shown_time m1 (g_eid g0) + inject_Z (Z.of_nat 0) * step_length m1 (g_eid g0) == shown_time m1 (g_eid g0))%Q) by (unfold inject_Z; simpl; ring).
    rewrite Z in L. auto. }
  destruct (nth_error (t1 :: ts) i) as [t|] eqn:Hti; [|apply nth_error_None in Hti; lia].
  exists i, t. split; auto. rewrite (Dt _ _ Hti). symmetry; auto.
Qed.

(** ** TimeTermination *)
Lemma before_proper : forall t incl x y, (x == y)%Q -> before t incl x -> before t incl y.
Proof. intros t incl x y E H. unfold before in *. destruct incl; rewrite <- E; auto. Qed.
Lemma ends_at_false : forall t incl c, ends_at t incl c -> forall v e ow st st', eval v e ow c st = (Ok false, st') ->
  before t incl (t_abs (k_time (v_clock v))).
Proof.
  intros t incl c H. induction H as [o|o cs c I H IH]; intros v e ow st st' E.
  - apply atom_value in E. simpl in E. injection E as E. unfold before. destruct incl.
    + apply Qnot_le_lt. intros L. apply Qle_bool_iff in L. congruence.
    + apply Qltb_false; auto.
  - simpl in E. revert st E. induction cs as [|x cs IHc]; intros st E; [destruct I|]. 
    destruct (eval v e ow x st) as [[[]|ex] s1] eqn:Ex; try (inversion E; fail).
    destruct I as [->|I]; eauto.
Qed.
Lemma ends_at_abs : forall t incl c, ends_at t incl c -> is_absolute c = true.
Proof. intros t incl c H. induction H; auto. simpl. apply existsb_exists. eauto. Qed.
Lemma termination_yield : forall ms g0 zs m2 g2 fuel m3 g3 sy t incl c, running ms g0 zs m2 g2 -> g_pc g0 = PStart ->
  resume fuel m2 g2 = (m3, g3, OYield sy) -> g_abs g3 = true -> g_tc g3 ESU = Some c \/ g_tc g3 ES = Some c -> ends_at t incl c ->
  before t incl (shown_time m3 (g_eid g0)).
Proof.
  intros ms g0 zs m2 g2 fuel m3 g3 sy t incl c R Hp Y Ha Tc En.
  destruct (termination_false _ _ _ _ _ _ _ _ _ R Hp Y (or_intror Ha)) as (v & C & c1 & c2 & st & st1 & st2 & T1 & T2 & _ & V1 & V2).
  unfold shown_time. rewrite <- (cv_clock _ _ _ _ _ _ C).
  destruct Tc as [Tc|Tc]; [rewrite T1 in Tc|rewrite T2 in Tc]; injection Tc as ->; eapply ends_at_false; eauto.
Qed.
Theorem termination_before : forall P ms g0 ys m g h0 ts0 t incl c, begun P ms g0 ys m g ->
  clock_after ESU h0 (the_clock (m_ctxs ms (g_eid g0))) -> x_stamps (m_ctxs ms (g_eid g0)) = Some ts0 ->
  run_tc ms g0 ESU = Some c \/ run_tc ms g0 ES = Some c -> ends_at t incl c ->
  exists ts, x_stamps (m_ctxs m (g_eid g0)) = Some (ts0 ++ ts) /\ length ts = length ys /\
    forall x, In x ts -> before t incl (t_abs x).
Proof.
  intros P ms g0 ys m g h0 ts0 t incl c B C E Tc En. assert (Hp := proj1 (proj2 B)).
  assert (Rg : registered ms (run_tc ms g0) c) by (right; destruct Tc; eauto).
  assert (Ha := begun_abs _ _ _ _ _ _ _ B Rg (ends_at_abs _ _ _ En)).
  destruct (timed_history P (fun x _ => before t incl x) ms g0 ys m g h0 B Ha C) as (g1 & m1 & ps & ph & S & St & K).
  { intros x y _. apply before_proper. }
  { intros zs m2 g2 fuel m3 g3 sy R Y _ _ A3 T3 _. eapply termination_yield; eauto. rewrite <- T3; auto. }
  destruct (begun_stamps _ _ _ _ _ _ _ _ _ _ _ _ B Ha S St C E) as (ts & Et & Lt & Dt).
  exists ts. splits. intros x Hx. apply In_nth_error in Hx. destruct Hx as (i & Hi).
  destruct (nth_error ys i) as [sy|] eqn:Hy.
  - eapply before_proper; [symmetry; apply (Dt _ _ Hi)|eauto].
  - apply nth_error_None in Hy. assert (nth_error ts i <> None) by congruence. apply nth_error_Some in H. lia.
Qed.
(** the number of executions is bounded *)
Lemma archimedes : forall x iv, (0 < iv)%Q -> exists N, (x < nq N * iv)%Q.
Proof.
  intros x iv H. exists (S (Z.to_nat (Qceiling (x / iv)))).
  assert (A : (x / iv <= inject_Z (Qceiling (x / iv)))%Q) by apply Qle_ceiling.
  assert (Bq : (inject_Z (Qceiling (x / iv)) < nq (S (Z.to_nat (Qceiling (x / iv)))))%Q) by (unfold nq; rewrite <- Zlt_Qlt; lia).
  assert (Cq : (x / iv < nq (S (Z.to_nat (Qceiling (x / iv)))))%Q) by (eapply Qle_lt_trans; eauto).
  apply (Qmult_lt_r _ _ iv) in Cq; auto. assert (E : (x / iv * iv == x)%Q) by (field; intros X; rewrite X in H; discriminate). rewrite E in Cq. auto.
Qed.
Lemma positive_start : forall ms g0 g1 m1 mu, start ms g0 = (Ok g1, m1) -> g_abs g1 = true -> decimal_lengths mu ms g0 ->
  positive_step ms g0 -> (0 < step_length m1 (g_eid g0))%Q.
Proof.
  intros ms g0 g1 m1 mu S Ha D Pz. destruct (unit_of_start _ _ _ _ _ S Ha D) as (_ & _ & U3 & U4).
  destruct Pz as [(c & q & R & Rq & N)|[N Du]]; [eauto|]. rewrite U4; auto.
Qed.
Theorem termination_bounded : forall ms g0 h0 t incl c mu,
  clock_after ESU h0 (the_clock (m_ctxs ms (g_eid g0))) ->
  run_tc ms g0 ESU = Some c \/ run_tc ms g0 ES = Some c -> ends_at t incl c ->
  decimal_lengths mu ms g0 -> positive_step ms g0 ->
  exists N, forall P ys m g, begun P ms g0 ys m g -> length ys <= N.
Proof.
  intros ms g0 h0 t incl c mu C Tc En D Pz.
  destruct (start ms g0) as [[g1|ex] m1] eqn:S.
  - assert (A1 : g_abs g1 = true).
    { rewrite (start_abs _ _ _ _ S). apply existsb_exists. exists c. split; [|eapply ends_at_abs; eauto].
      apply in_or_app. right. apply tc_list_in. destruct Tc; eauto. }
    pose proof (positive_start _ _ _ _ _ S A1 D Pz) as Pi.
    destruct (archimedes (q_val t - shown_time m1 (g_eid g0)) _ Pi) as (N & HN). exists N. intros P ys m g B.
    destruct (begun_start _ _ _ _ _ _ B) as (g1' & m1' & ps & ph & S' & St). rewrite S in S'. injection S' as <- <-.
    assert (Ha : g_abs g = true) by (rewrite (state_abs _ _ _ _ _ _ _ _ _ St); auto). assert (Hp := proj1 (proj2 B)).
    destruct (timed_history P (fun x _ => before t incl x) ms g0 ys m g h0 B Ha C) as (g1' & m1' & ps' & ph' & S' & St' & K).
    { intros x y _. apply before_proper. }
    { intros zs m2 g2 fuel m3 g3 sy R Y _ _ A3 T3 _. eapply termination_yield; eauto. rewrite <- T3; auto. }
    rewrite S in S'. injection S' as <- <-.
    destruct (le_lt_dec (length ys) N) as [|L]; auto. exfalso.
    destruct (nth_error ys N) as [sy|] eqn:Hy; [|apply nth_error_None in Hy; lia]. specialize (K _ _ Hy). unfold tick_time in K.
    unfold before in K. destruct incl; lra.
  - exists 0. intros P ys m g B. destruct (begun_start _ _ _ _ _ _ B) as (g1 & m1' & ps & ph & S' & St). congruence.
Qed.
Lemma begun_next : forall P ms g0 ys m g fuel m' g' s, begun P ms g0 ys m g -> resume fuel m g = (m', g', OYield s) -> P m' ->
  begun P ms g0 (ys ++ [s]) m' g'.
Proof.
  intros P ms g0 ys m g fuel m' g' s (P0 & Hp & fu & m1 & g1 & s1 & ys' & -> & Y & R) E Pm. unfold begun. splits.
  exists fu, m1, g1, s1, (ys' ++ [s]). splits. eapply rw_yields; eauto.
Qed.
Definition any_state (m : core) : Prop := True.
Lemma drive_fuel : forall n fuel ms g0 acc, g_pc g0 = PStart -> snd (drive (S n) fuel ms g0 acc) = OFuel ->
  snd (resume fuel ms g0) = OFuel \/
  (exists ys m g, begun any_state ms g0 ys m g /\ (length ys = S n \/ snd (resume fuel m g) = OFuel)).
Proof.
  assert (G : forall n fuel ms g0 ys m g acc, begun any_state ms g0 ys m g -> snd (drive n fuel m g acc) = OFuel ->
    exists zs m' g', begun any_state ms g0 zs m' g' /\ (length zs = length ys + n \/ snd (resume fuel m' g') = OFuel)).
  { induction n as [|n IH]; intros fuel m0 g0 ys m g acc R H.
    - exists ys, m, g. split; auto.
    - cbn [drive] in H. destruct (resume fuel m g) as [[m' g'] o] eqn:E. destruct o as [s|l|ex| |]; try discriminate.
      + destruct (IH fuel m0 g0 (ys ++ [s]) m' g' (acc ++ [s])) as (zs & a & b & Ra & La); auto.
        * eapply begun_next; eauto. constructor.
        * exists zs, a, b. split; auto. rewrite app_length in La. simpl in La. destruct La; auto. left; lia.
      + exists ys, m, g. split; auto. rewrite E. auto. }
  intros n fuel ms g0 acc Hp H. cbn [drive] in H. destruct (resume fuel ms g0) as [[m' g'] o] eqn:E. destruct o as [s|l|ex| |]; try discriminate; auto.
  right. destruct (G n fuel ms g0 [s] m' g' (acc ++ [s])) as (zs & X); auto; [|exists zs; auto].
  unfold begun. split; [exact Logic.I|]. split; [auto|]. exists fuel, m', g', s, []. split; [auto|]. split; [auto|]. constructor. exact Logic.I.
Qed.
Theorem termination_ends : forall ms g0 h0 t incl c mu, g_pc g0 = PStart ->
  clock_after ESU h0 (the_clock (m_ctxs ms (g_eid g0))) ->
  run_tc ms g0 ESU = Some c \/ run_tc ms g0 ES = Some c -> ends_at t incl c ->
  decimal_lengths mu ms g0 -> positive_step ms g0 -> queue ms <> [] ->
  (forall s c ow, run_tc ms g0 s = Some c -> observer (g_eid g0) ow c) ->
  exists N, forall n fuel, N < n -> snd (drive n (S (S fuel)) ms g0 []) <> OFuel.
Proof.
  intros ms g0 h0 t incl c mu Hp C Tc En D Pz Qn Ob.
  destruct (termination_bounded ms g0 h0 t incl c mu C Tc En D Pz) as (N & HN). exists N. intros n fuel Ln H.
  destruct n as [|n]; [lia|]. apply drive_fuel in H; auto. destruct H as [H|(ys & m & g & B & [L|H])].
  - revert H. eapply progress_abs; eauto; [constructor|]. intros s c' ow T. unfold the_tc in T. rewrite Hp in T. eauto.
  - apply HN in B. lia.
  - destruct (begun_start _ _ _ _ _ _ B) as (g1 & m1 & ps & ph & S & St). revert H. eapply progress_abs; eauto.
    + eapply begun_running; eauto.
    + rewrite (static_queue _ _ (rs_static _ _ _ _ _ _ _ _ _ St)). auto.
    + intros s c' ow T. assert (Eg := rs_gen _ _ _ _ _ _ _ _ _ St).
      assert (Ee : g_eid g = g_eid g0) by (rewrite Eg; apply (rs_eid _ _ _ _ _ _ _ _ _ St)). rewrite Ee.
      assert (Et : the_tc m g = run_tc ms g0).
      { rewrite <- (start_tc _ _ _ _ S). unfold the_tc. pose proof (rs_matches _ _ _ _ _ _ _ _ _ St) as M.
        inversion M as [p i s' ch Hc Eq1 Eq2|Ha Eq1 Eq2]; rewrite Eg; reflexivity. }
      rewrite Et in T. eauto.
Qed.

(** ** a run that only its TimeTermination can end *)
Lemma state_return : forall m0 g0 ys mm g g1 m1 ps ph fuel m g2 l, run_state m0 g0 ys mm g g1 m1 ps ph ->
  resume fuel mm g = (m, g2, OReturn l) -> exists ps' mt mt1, run_returned m0 g0 ys m l g1 m1 ps' mt mt1.
Proof.
  intros m0 g0 ys mm g g1 m1 ps ph fuel m g2 l [A1 A2 A3 A4 A5 A6 A7 A8] H.
  assert (Hq : queue mm = queue m0) by (apply static_queue; auto). rewrite A2 in H.
  assert (H1 := resume_spec fuel mm (at_pc g1 (g_pc g)) (queue m0) (queue m0) (m_ctxs m1 (g_eid g0)) ps ph m g2 (OReturn l) Hq (covers_refl _)).
  simpl in H1. rewrite A3 in H1. specialize (H1 A5 A7 H).
  destruct H1 as (ps' & mt & mt1 & E & F & Hh & T & Fi). simpl in *.
  destruct (finish_spec _ _ _ _ _ Fi) as (S2 & L & X & O & _). simpl in *. rewrite A3, A4 in *.
  assert (Q := terminated_quiet _ _ _ _ T). destruct Q as [Fq Eq].
  exists ps', mt, mt1. constructor; auto.
  + congruence.
  + destruct (g_skip g0); rewrite <- Eq; auto.
  + eapply static_trans; [eauto|].
    eapply static_trans; [eapply static_frame; eauto|]. eapply static_trans; [eapply static_frame; eauto|auto].
  + eapply static_trans; [eauto|]. eapply static_frame; eauto.
Qed.
Lemma start_return : forall m0 g0 fuel m g2 l, g_pc g0 = PStart -> resume fuel m0 g0 = (m, g2, OReturn l) ->
  exists g1 m1 ps mt mt1, start m0 g0 = (Ok g1, m1) /\ run_returned m0 g0 [] m l g1 m1 ps mt mt1.
Proof.
  intros m0 g0 fuel m g2 l Hp H.
  pose proof (resume_start _ _ _ _ _ _ Hp H) as (g1 & m1 & S & ps & mt & mt1 & Y & F & Hh & T & Fi).
  assert (Y' := start_spec _ _ _ _ S). destruct Y' as (St & _ & _ & Ee & Es & _ & _).
  destruct (finish_spec _ _ _ _ _ Fi) as (S2 & L & X & O & _).
  assert (Q := terminated_quiet _ _ _ _ T). destruct Q as [Fq Eq]. rewrite Ee, Es in *.
  exists g1, m1, ps, mt, mt1. split; auto. constructor; auto.
  + exists m0; split; auto. apply undisturbed_refl.
  + destruct (g_skip g0); rewrite <- Eq; auto.
  + eapply static_trans; [eauto|].
    eapply static_trans; [eapply static_frame; eauto|]. eapply static_trans; [eapply static_frame; eauto|auto].
  + eapply static_trans; [eauto|]. eapply static_frame; eauto.
Qed.
Lemma ended_returned : forall P ms g0 ys m l, ended P ms g0 ys m l -> exists g1 m1 ps mt mt1,
  start ms g0 = (Ok g1, m1) /\ run_returned ms g0 ys m l g1 m1 ps mt mt1.
Proof.
  intros P ms g0 ys m l (fuel & g2 & [(-> & P0 & Hp & E)|(mm & g & B & E)]).
  - eapply start_return; eauto.
  - destruct (begun_start _ _ _ _ _ _ B) as (g1 & m1 & ps & ph & S & St).
    destruct (state_return _ _ _ _ _ _ _ _ _ _ _ _ _ St E) as (ps' & mt & mt1 & Rr). eauto 10.
Qed.
Lemma tick_abs : forall s x x', tick s x x' -> s <> CSE -> t_abs (k_time (the_clock x')) = t_abs (k_time (the_clock x)) /\
  t_interval (k_time (the_clock x')) = t_interval (k_time (the_clock x)).
Proof.
  intros s x x' (k & Ek & ->) N. unfold the_clock at 1 3; simpl. unfold clock_incr in Ek.
  destruct (tree_incr _ _ _); inversion Ek; subst. simpl. unfold time_incr; simpl.
  destruct s; simpl; try congruence; destruct (t_abs_enabled _); auto.
Qed.
Lemma return_time : forall m0 g0 ys m l g1 m1 ps mt mt1 h0, run_returned m0 g0 ys m l g1 m1 ps mt mt1 -> g_abs g1 = true ->
  start m0 g0 = (Ok g1, m1) -> clock_after ESU h0 (the_clock (m_ctxs m0 (g_eid g0))) ->
  (shown_time m (g_eid g0) == tick_time m1 (g_eid g0) (length ys))%Q /\ shown_time m (g_eid g0) = shown_time mt (g_eid g0) /\
  step_length m (g_eid g0) = step_length m1 (g_eid g0).
Proof.
  intros m0 g0 ys m l g1 m1 ps mt mt1 h0 Rr Ha S C.
  assert (C1 := started_clock _ _ _ _ _ (rr_started _ _ _ _ _ _ _ _ _ _ Rr) C).
  destruct (hist_clock _ _ _ _ _ _ h0 (rr_hist _ _ _ _ _ _ _ _ _ _ Rr) C1) as (_ & Ei & _ & X & _).
  assert (Em : shown_time m (g_eid g0) = shown_time mt (g_eid g0) /\ step_length m (g_eid g0) = step_length mt (g_eid g0)).
  { unfold shown_time, step_length. pose proof (rr_ctx _ _ _ _ _ _ _ _ _ _ Rr) as Ec. destruct (g_skip g0); [rewrite Ec; auto|].
    apply tick_abs in Ec; [auto|discriminate]. }
  destruct Em as [Em1 Em2]. rewrite Em2. splits. rewrite Em1. unfold shown_time at 1. rewrite X by (rewrite <- (setup_enabled _ _ _ _ S); auto).
  unfold tick_time, nq. rewrite (rr_yields _ _ _ _ _ _ _ _ _ _ Rr). 
  rewrite (events_between (g_abs g1) ps). reflexivity.
Qed.
Theorem termination_count : forall P ms g0 ys m l h0 t incl c mu, ended P ms g0 ys m l ->
  clock_after ESU h0 (the_clock (m_ctxs ms (g_eid g0))) ->
  run_tc ms g0 ESU = Some c \/ run_tc ms g0 ES = Some c -> ends_at t incl c ->
  (forall c', run_tc ms g0 ESU = Some c' \/ run_tc ms g0 ES = Some c' -> only_ends t incl c') ->
  decimal_lengths mu ms g0 -> positive_step ms g0 ->
  exists a, (shown_time ms (g_eid g0) <= a)%Q /\
    ((exists c', registered ms (run_tc ms g0) c' /\ is_absolute c' = true /\ no_fixed_time c') -> (0 <= shown_time ms (g_eid g0))%Q -> (a == shown_time ms (g_eid g0))%Q) /\
    (shown_time m (g_eid g0) == a + nq (length ys) * step_length m (g_eid g0))%Q /\
    forall i, i < length ys <-> before t incl (a + nq i * step_length m (g_eid g0))%Q.
Proof.
  intros P ms g0 ys m l h0 t incl c mu En C Tc Ec On D Pz.
  destruct (ended_returned _ _ _ _ _ _ En) as (g1 & m1 & ps & mt & mt1 & S & Rr).
  assert (A1 : g_abs g1 = true).
  { rewrite (start_abs _ _ _ _ S). apply existsb_exists. exists c. split; [|eapply ends_at_abs; eauto].
    apply in_or_app. right. apply tc_list_in. destruct Tc; eauto. }
  destruct (return_time _ _ _ _ _ _ _ _ _ _ _ Rr A1 S C) as (Tm & Tt & Es).
  pose proof (positive_start _ _ _ _ _ S A1 D Pz) as Pi. rewrite Es.
  exists (shown_time m1 (g_eid g0)). fold (tick_time m1 (g_eid g0) (length ys)).
  destruct (start_absolute _ _ _ _ S A1) as (mv & Rv & _ & _ & _ & _ & Ea).
  assert (Nb : ~ before t incl (shown_time m (g_eid g0))).
  { rewrite Tt. destruct (terminated_true _ _ _ _ (rr_term _ _ _ _ _ _ _ _ _ _ Rr)) as (c' & st & st' & A & _ & V).
    rewrite (start_tc _ _ _ _ S) in A. destruct (On _ A) as [(o & ->)|(o & ->)]; apply atom_value in V; simpl in V; [|discriminate].
    injection V as V. unfold before, shown_time. destruct incl.
    - apply Qle_bool_iff in V. apply Qle_not_lt; auto.
    - apply Qltb_iff in V. apply Qlt_not_le; auto. }
  splits.
  - rewrite Ea. destruct (Qmax_cases (shown_time ms (g_eid g0)) (first_time (absolute_conditions mv (run_tc ms g0)))) as [[-> _]|[-> X]]; [apply Qle_refl|apply Qlt_le_weak; auto].
  - intros (c' & R' & Ab & Nf) Z. rewrite Ea.
    destruct (Qmax_cases (shown_time ms (g_eid g0)) (first_time (absolute_conditions mv (run_tc ms g0)))) as [[-> _]|[-> X]]; [reflexivity|].
    assert (F : (first_time (absolute_conditions mv (run_tc ms g0)) <= 0)%Q).
    { apply (first_time_zero _ c'); [apply Rv; auto|]. destruct (absolute_fixed_points c') as [|q qs] eqn:Eq; auto. exfalso.
      assert (I : In q (absolute_fixed_points c')) by (rewrite Eq; left; auto). apply fixed_in in I. destruct I as (x & Px & Fx). apply (Nf x q); auto. }
    exfalso. lra.
  - intros i. split.
    + intros Li. destruct En as (fuel & g2 & [(-> & _)|(mm & g & B & _)]); [simpl in Li; lia|].
      destruct (begun_start _ _ _ _ _ _ B) as (g1' & m1' & ps' & ph & S' & St). rewrite S in S'. injection S' as <- <-.
      assert (Ha : g_abs g = true) by (rewrite (state_abs _ _ _ _ _ _ _ _ _ St); auto). assert (Hp := proj1 (proj2 B)).
      destruct (timed_history P (fun x _ => before t incl x) ms g0 ys mm g h0 B Ha C) as (g1' & m1' & ps2 & ph2 & S' & St' & K).
      { intros x y _. apply before_proper. }
      { intros zs m2 g3 fu m3 g4 sy R Y _ _ A3 T3 _. eapply termination_yield; eauto. rewrite <- T3; auto. }
      rewrite S in S'. injection S' as <- <-.
      destruct (nth_error ys i) as [sy|] eqn:Hy; [|apply nth_error_None in Hy; lia]. exact (K _ _ Hy).
    + intros Bf. destruct (lt_dec i (length ys)) as [|Ge]; auto. exfalso. apply Nb.
      assert (Lq : (shown_time m (g_eid g0) <= shown_time m1 (g_eid g0) + nq i * step_length m1 (g_eid g0))%Q).
      { rewrite Tm. unfold tick_time. apply Qplus_le_r. apply Qmult_le_compat_r; [|apply Qlt_le_weak; auto].
        unfold nq. rewrite <- Zle_Qle. lia. }
      unfold before in *. destruct incl; lra.
Qed.

(** ** parsing of lengths *)
Theorem reduce_value : forall units q, (forall u, In u units -> (0 < u)%Q) -> (q_val (reduce_quantity units q) == q_val q)%Q.
Proof.
  induction units as [|u r IH]; intros q H; cbn [reduce_quantity]; [reflexivity|].
  assert (Pu : (0 < u)%Q) by (apply H; left; auto). assert (Hr : forall v, In v r -> (0 < v)%Q) by (intros; apply H; right; auto).
  destruct (Qle_bool u (q_unit q)); [|auto]. unfold as_integer_in. destruct (Qis_int (q_val q / u)) eqn:I; [|auto].
  apply Qis_int_iff in I. destruct I as (z & Ez). unfold q_val at 1. simpl. rewrite (Qtrunc_int _ _ Ez), <- Ez. field.
  intros X. rewrite X in Pu. discriminate.
Qed.
Theorem reduce_largest : forall units q, (forall u, In u units -> (0 < u)%Q) ->
  (exists bigger u smaller z, units = bigger ++ u :: smaller /\ (u <= q_unit q)%Q /\ q_unit (reduce_quantity units q) = u /\
     (q_mag (reduce_quantity units q) == inject_Z z)%Q /\
     forall v, In v bigger -> (v <= q_unit q)%Q -> ~ multiple (q_val q) v) \/
  (reduce_quantity units q = q /\ forall v, In v units -> (v <= q_unit q)%Q -> ~ multiple (q_val q) v).
Proof.
  induction units as [|u r IH]; intros q H; cbn [reduce_quantity]; [right; split; auto; intros v []|].
  assert (Pu : (0 < u)%Q) by (apply H; left; auto). assert (Hr : forall v, In v r -> (0 < v)%Q) by (intros; apply H; right; auto).
  assert (Nu : ~ (u == 0)%Q) by (intros X; rewrite X in Pu; discriminate).
  assert (Skip : ((u <= q_unit q)%Q -> ~ multiple (q_val q) u) ->
    (exists bigger u' smaller z, u :: r = bigger ++ u' :: smaller /\ (u' <= q_unit q)%Q /\ q_unit (reduce_quantity r q) = u' /\
     (q_mag (reduce_quantity r q) == inject_Z z)%Q /\
     forall v, In v bigger -> (v <= q_unit q)%Q -> ~ multiple (q_val q) v) \/
    (reduce_quantity r q = q /\ forall v, In v (u :: r) -> (v <= q_unit q)%Q -> ~ multiple (q_val q) v)).
  { intros N. destruct (IH q Hr) as [(bg & u' & sm & z & -> & A & B & D & F)|[A B]].
    - left. exists (u :: bg), u', sm, z. splits. intros v [<-|Iv]; auto.
    - right. split; auto. intros v [<-|Iv]; auto. }
  destruct (Qle_bool u (q_unit q)) eqn:L.
  - apply Qle_bool_iff in L. unfold as_integer_in. destruct (Qis_int (q_val q / u)) eqn:I.
    + left. assert (J := I). apply Qis_int_iff in J. destruct J as (z & Ez). exists [], u, r, z. splits.
      simpl. rewrite (Qtrunc_int _ _ Ez). reflexivity.
    + apply Skip. intros _ M. apply int_quotient in M; auto. congruence.
  - apply Skip. intros X. apply Qle_bool_iff in X. congruence.
Qed.
