(** Runs with the default termination conditions (C76). *)
From Verif Require Import BaseFacts SpecEnd TimeProofs RunProofs RunHist RunProps StopFacts DefaultFacts PassFacts ResumeFrame Sched SchedThms SafeFacts.
Open Scope nat_scope.

Lemma in_occurrences : forall b l, In b (concat l) <-> 1 <= occurrences b l.
Proof.
  intros b l. split.
  - intros I. destruct (occurrences b l) eqn:E; [|lia]. exfalso. exact (occurrences_not b l E I).
  - intros H. unfold occurrences in H. destruct (filter (mem b) l) as [|s r] eqn:F; [simpl in H; lia|].
    assert (I : In s (filter (mem b) l)) by (rewrite F; simpl; auto). apply filter_In in I. destruct I as [I M].
    apply in_concat. exists s. split; auto. apply mem_In; auto.
Qed.
Lemma all_have_run_true : forall v s t ds, v_total v = Some t -> incl ds (v_nodes v) -> (forall d, In d ds -> 1 <= t s d) -> all_have_run v s ds = Ok true.
Proof.
  intros v s t ds T. induction ds as [|x r IH]; intros I H; simpl; auto. unfold count_total. rewrite T.
  assert (M : mem x (v_nodes v) = true) by (apply mem_In, I; simpl; auto). rewrite M.
  pose proof (H x (or_introl eq_refl)). destruct (Nat.ltb_spec (t s x) 1); [lia|]. apply IH; [intros y Y; apply I; simpl; auto|intros; apply H; simpl; auto].
Qed.
Theorem all_ran_at_return : forall m0 g0 ys m g ds fuel m' g' l, running m0 g0 ys m g -> g_pc g0 = PStart -> x_total (m_ctxs m0 (g_eid g0)) <> None ->
  until_all_have_run ds m g -> resume fuel m g = (m', g', OReturn l) -> incl (awaited ds m0) (concat ys).
Proof.
  intros m0 g0 ys m g ds fuel m' g' l R Hp T0 ((oA & T1) & (oN & T2)) E. destruct (x_total (m_ctxs m0 (g_eid g0))) as [t0|] eqn:Et0; [|congruence].
  destruct (returned_counts m0 g0 ys m' l t0) as (t & Et & C); auto; [exists m, g, fuel, g'; auto|].
  destruct (returns_terminated _ _ _ _ _ _ _ _ _ R Hp E) as (v & ow & c & st & st' & [A|A] & V & Ev).
  - rewrite T1 in A. injection A as <-. cbn in Ev. injection Ev as Ev _. unfold deps_or_nodes in Ev.
    intros b Ib. apply in_occurrences. destruct (C b) as (_ & _ & X). rewrite <- X.
    apply (all_have_run_all _ _ t) with (d := b) in Ev; auto.
    + rewrite (vr_total _ _ _ _ _ V). auto.
    + unfold awaited in Ib. rewrite (vr_nodes _ _ _ _ _ V). exact Ib.
  - rewrite T2 in A. injection A as <-. cbn in Ev. discriminate.
Qed.
Theorem returns_at_once : forall m0 g0 ys m g ds fuel h0, running m0 g0 ys m g -> g_pc g0 = PStart -> ys <> [] -> x_total (m_ctxs m0 (g_eid g0)) <> None ->
  clock_after ESU h0 (the_clock (m_ctxs m0 (g_eid g0))) -> until_all_have_run ds m g -> incl ds (m_nodes m0) ->
  incl (awaited ds m0) (concat ys) -> exists m' g' l, resume (S fuel) m g = (m', g', OReturn l).
Proof.
  intros m0 g0 ys m g ds fuel h0 R Hp Ne T0 K ((oA & T1) & (oN & T2)) Id I. destruct (x_total (m_ctxs m0 (g_eid g0))) as [t0|] eqn:Et0; [|congruence].
  destruct (running_passes _ _ _ _ _ R) as (ts & Es & Rp). assert (Nt : ts <> []) by (intros ->; apply Ne; rewrite <- Es; reflexivity).
  destruct (run_counts _ _ _ _ _ t0 Rp Hp Nt Et0) as (t & Et & C).
  destruct (run_clock _ _ _ _ _ _ Rp Hp Nt K) as (ev & K' & _).
  destruct (running_nodes _ _ _ _ _ R Hp) as [Nn _].
  destruct (clock_incr_succeeds _ _ _ CSE K') as (k1 & I1); [vm_compute; auto|].
  assert (K1 : clock_after ESU ((h0 ++ ev) ++ [CSE]) k1) by (eapply ca_incr; eauto).
  destruct (clock_incr_succeeds _ _ _ PASS K1) as (k2 & I2); [vm_compute; auto|].
  assert (EG : g_eid g = g_eid g0 /\ g_pc g <> PStart).
  { destruct (run_history _ _ _ _ _ R Hp) as [(-> & _)|(g1 & m1 & ps & ph & St)]; [congruence|]. split.
    - rewrite (rs_gen _ _ _ _ _ _ _ _ _ St). simpl. apply (rs_eid _ _ _ _ _ _ _ _ _ St).
    - intros X. pose proof (rs_matches _ _ _ _ _ _ _ _ _ St) as M. rewrite X in M. inversion M. }
  destruct EG as [EG NP]. unfold the_tc in T1, T2. destruct (g_pc g) eqn:Pg; [congruence| | |].
  all: assert (S : forall k, says_stop (with_clock (view_of m (g_eid g)) k) (g_eid g) (m_owners m) (g_tc g));
    [intros k; left; exists (AllHaveRun oA ds ESU); split; [exact T1|]; intros st; unfold is_satisfied; cbn; unfold deps_or_nodes;
     rewrite (all_have_run_true _ _ t); [reflexivity|cbn; rewrite EG; exact Et| |];
     [cbn; rewrite Nn; destruct ds; [apply incl_refl|exact Id]|
      cbn; rewrite Nn; intros d D; destruct (C d) as (_ & _ & X & _); rewrite X, Es; apply in_occurrences, I; destruct ds; exact D]|].
  all: rewrite <- EG in I1; apply (stops_at_yield m0 g0 ys m g fuel h0 k1 k2 R Hp Ne K I1 I2 (S k1) (S k2));
    exists (Never oN); split; [exact T2|]; intros v st; exists false; reflexivity.
Qed.
Lemma running_queue : forall m0 g0 ys m g, running m0 g0 ys m g -> g_pc g0 = PStart -> queue m = queue m0.
Proof.
  intros m0 g0 ys m g R Hp. destruct (run_history _ _ _ _ _ R Hp) as [(_ & _ & U)|(g1 & m1 & ps & ph & St)].
  - apply static_queue, (static_undisturbed _ _ _ U).
  - apply static_queue, (rs_static _ _ _ _ _ _ _ _ _ St).
Qed.
Theorem shut_out_never : forall b m0 g0 ys m g, running_while (shut_out b) m0 g0 ys m g -> g_pc g0 = PStart -> ~ In b (concat ys).
Proof.
  intros b m0 g0 ys m g R Hp. induction R as [P|ys m g m' R IH U P|ys m g fuel m' g' s R IH E P]; [intros []|exact IH|].
  rewrite concat_app. simpl. rewrite app_nil_r. intros I. apply in_app_or in I. destruct I as [I|I]; [exact (IH I)|].
  pose proof (while_running _ _ _ _ _ _ R) as Rn. destruct P as [Q|(c & A & N)].
  - assert (R2 : running m0 g0 (ys ++ [s]) m' g') by (eapply run_yields; eauto).
    destruct (yield_one_level _ _ _ _ _ s R2 Hp) as (_ & [->|(i & lv & El & Il)]); [apply in_or_app; simpl; auto|destruct I|].
    apply Q. apply in_concat. exists lv. split; [|auto]. apply nth_error_In with i.
    rewrite (running_queue _ _ _ _ _ R2 Hp). exact El.
  - apply in_split in I. destruct I as (p & r & ->). destruct (sound _ _ _ _ _ _ _ _ _ Rn Hp E _ _ _ eq_refl) as (v & _ & (c' & st & st' & A' & _ & Ev)).
    rewrite A in A'. injection A' as <-. exact (N _ _ _ _ _ Ev).
Qed.
Theorem shut_out_forever : forall b m0 g0 ys m g ds fuel m' g' l, running_while (shut_out b) m0 g0 ys m g -> g_pc g0 = PStart ->
  x_total (m_ctxs m0 (g_eid g0)) <> None -> until_all_have_run ds m g -> In b (awaited ds m0) -> resume fuel m g <> (m', g', OReturn l).
Proof.
  intros b m0 g0 ys m g ds fuel m' g' l R Hp T U I E. apply (shut_out_never _ _ _ _ _ _ R Hp).
  apply (all_ran_at_return _ _ _ _ _ ds _ _ _ _ (while_running _ _ _ _ _ _ R) Hp T U E). exact I.
Qed.
(** the termination conditions of a generator are fixed when it starts *)
Lemma outer_gen : forall fuel m g m' g' s, outer fuel m g = (m', g', OYield s) -> exists p, g' = at_pc g p /\ p <> PStart.
Proof.
  induction fuel as [|f IH]; intros m g m' g' s H; cbn [outer] in H; [discriminate|].
  destruct (terminated m (g_eid g) (g_tc g)) as [[[|]|] m1]; [| |discriminate].
  - unfold finish in H. destruct (if g_skip g then Ok m1 else _); [|discriminate]. destruct (check_tc _ _ _ _) as [[|] ?]; [|discriminate].
    destruct (x_list _); discriminate.
  - cbv zeta in H. set (m2 := reset_counts_total PASS m1 (g_eid g)) in *.
    destruct (inner m2 g (queue m2) 0 false) as [m3 s3 i ch|m3 ch|m3 ex|m3]; try discriminate.
    + injection H as _ <- _. eexists; split; [reflexivity|discriminate].
    + destruct (pass_tail m3 g ch) as [m4|m4|m4 ex]; try discriminate.
      * injection H as _ <- _. eexists; split; [reflexivity|discriminate].
      * eauto.
Qed.
Lemma resume_tc : forall fuel m g m' g' s, resume fuel m g = (m', g', OYield s) -> the_tc m' g' = the_tc m g.
Proof.
  assert (D : forall (m m' : core) g p, p <> PStart -> the_tc m' (at_pc g p) = g_tc g) by (intros m m' g [| | |] N; try congruence; reflexivity).
  intros fuel m g m' g' s H. unfold resume in H. cbv zeta in H. unfold the_tc at 2. destruct (g_pc g) as [|i ch| |]; [| | |discriminate].
  - destruct (start m g) as [[g1|] m1] eqn:S; [|discriminate]. destruct (outer_gen _ _ _ _ _ _ H) as (p & -> & N). rewrite (D m) by auto.
    apply start_spec in S. apply S.
  - destruct (incr_clock CSE m (g_eid g)) as [m1|]; [|discriminate].
    destruct (inner m1 g (skipn (S i) (queue m1)) (S i) ch) as [m3 s3 j ch'|m3 ch'|m3 ex|m3]; try discriminate.
    + injection H as _ <- _. reflexivity.
    + destruct (pass_tail m3 g ch') as [m4|m4|m4 ex]; try discriminate.
      * injection H as _ <- _. reflexivity.
      * destruct (outer_gen _ _ _ _ _ _ H) as (p & -> & N). apply (D m); auto.
  - destruct (incr_clock CSE m (g_eid g)) as [m1|]; [|discriminate]. destruct (incr_clock PASS m1 (g_eid g)) as [m2|]; [|discriminate].
    destruct (outer_gen _ _ _ _ _ _ H) as (p & -> & N). apply (D m); auto.
Qed.
Lemma drive_all_ran : forall m0 g0 ds fuel steps m g acc m' g' ys l, g_pc g0 = PStart -> x_total (m_ctxs m0 (g_eid g0)) <> None ->
  running m0 g0 acc m g -> until_all_have_run ds m g -> drive steps fuel m g acc = (m', g', ys, OReturn l) -> incl (awaited ds m0) (concat ys).
Proof.
  intros m0 g0 ds fuel. induction steps as [|k IH]; intros m g acc m' g' ys l Hp T R U H; cbn [drive] in H; [discriminate|].
  destruct (resume fuel m g) as [[m1 g1] o] eqn:E. destruct o as [s|l'| | |]; try discriminate.
  - apply (IH m1 g1 (acc ++ [s]) m' g' ys l Hp T); auto; [eapply run_yields; eauto|].
    unfold until_all_have_run. rewrite (resume_tc _ _ _ _ _ _ E). exact U.
  - injection H as <- <- <- <-. eapply all_ran_at_return; eauto.
Qed.
Lemma sdrive_yields : forall cyc arr fuel steps d g acc, settled d -> snd (fst (sdrive cyc arr steps fuel d g acc)) = snd (fst (drive steps fuel (core_of d) g acc)).
Proof.
  intros cyc arr fuel. induction steps as [|k IH]; intros d g acc E; cbn [drive sdrive]; [auto|]. unfold sresume. rewrite (settled_sync _ _ _ E).
  destruct (resume fuel (core_of d) g) as [[m' g'] o] eqn:R. pose proof (core_of_put _ _ _ (grown_resume _ _ _ _ _ _ R)) as C.
  destruct o; auto. rewrite IH; [rewrite C; auto|]. destruct E as (l & L & E). exists l. auto.
Qed.
Theorem sched_all_ran : forall cyc arr fuel steps d g d1 u d' g' ys l ds, sync cyc arr d = (Ok u, d1) -> g_pc g = PStart ->
  x_total (d_ctxs d (g_eid g)) <> None -> until_all_have_run ds (core_of d1) g ->
  sdrive cyc arr steps fuel d g [] = (d', g', ys, OReturn l) -> incl (match ds with [] => d_nodes d | _ => ds end) (concat ys).
Proof.
  intros cyc arr fuel steps d g d1 u d' g' ys l ds S Hp T U H. pose proof (sync_settled _ _ _ _ _ S) as Se.
  assert (E : sdrive cyc arr steps fuel d g [] = sdrive cyc arr steps fuel d1 g [] \/ steps = 0).
  { destruct steps as [|k]; [auto|]. left. cbn [sdrive]. unfold sresume. rewrite S, (settled_sync _ _ _ Se). reflexivity. }
  destruct E as [E| ->]; [|discriminate]. rewrite E in H. pose proof (sdrive_yields cyc arr fuel steps d1 g [] Se) as Y. pose proof (sdrive_settled cyc arr fuel steps d1 g [] Se) as O.
  rewrite H in Y, O. cbn [fst snd] in Y, O. destruct (drive steps fuel (core_of d1) g []) as [[[m2 g2] ys2] o2] eqn:D. cbn [fst snd] in Y, O. subst ys2 o2.
  destruct (sync_set_stack _ _ _ _ _ S) as (st & la & ->).
  apply (drive_all_ran (core_of (set_stack d st la)) g ds fuel steps _ _ _ _ _ _ _ Hp T (run_created _ _) U D).
Qed.
Lemma unsatisfiable_never : forall o, unsatisfiable (Never o).
Proof. intros o v e ow st st' H. discriminate. Qed.
Lemma unsatisfiable_all : forall o cs c, In c cs -> unsatisfiable c -> unsatisfiable (All o cs).
Proof.
  intros o cs c I U v e ow st st' H. unfold All in H. cbn [eval] in H. revert st H. induction cs as [|x cs IH]; intros st H; [destruct I|].
  destruct (eval v e ow x st) as [[[|]|] st1] eqn:E; try discriminate. destruct I as [->|I]; [exact (U _ _ _ _ _ E)|]. eapply IH; eauto.
Qed.
Lemma unsatisfiable_any : forall o cs, (forall c, In c cs -> unsatisfiable c) -> unsatisfiable (Any o cs).
Proof.
  intros o cs U v e ow st st' H. unfold Any in H. cbn [eval] in H. revert st H. induction cs as [|x cs IH]; intros st H; [discriminate|].
  destruct (eval v e ow x st) as [[[|]|] st1] eqn:E; try discriminate; [exact (U x (or_introl eq_refl) _ _ _ _ _ E)|].
  apply (IH (fun c I => U c (or_intror I)) st1 H).
Qed.
Lemma unsatisfiable_nwhen : forall o c n, unsatisfiable c \/ n = 0 -> unsatisfiable (NWhen o c n).
Proof.
  intros o c n [U| ->] v e ow st st' H; unfold NWhen in H; cbn [eval] in H.
  - destruct (Nat.ltb _ _); [|discriminate]. destruct (eval v e ow c st) as [[[|]|] st1] eqn:E; try discriminate. exact (U _ _ _ _ _ E).
  - discriminate.
Qed.
Lemma unsatisfiable_not_always : forall o o', unsatisfiable (Not o (Always o')).
Proof. intros o o' v e ow st st' H. discriminate. Qed.
