(** Property theorems about absolute time in standard mode (C67). *)
From Verif Require Import SpecTimed TimedFacts AbsFacts AbsRun YieldFacts RunHist PureFacts ResumeFrame PassFacts RunExamples AbsExamples.
From Coq Require Import Lia.
Open Scope nat_scope.

(** ** C67: TimeInterval in standard mode *)
(** In a run in absolute time each consideration set execution takes one step of the clock: the
    (j+1)-th set yielded is drawn from the consideration set at position j mod n (n being their
    number), in the pass j / n after the first, j steps after the first.  The first set is at the
    time shown before the run, if that is not negative and some time condition of the run has no
    fixed times. *)
Theorem C67_steps : forall P ms g0 ys m g h0 ts0, begun P ms g0 ys m g -> g_abs g = true ->
  clock_after ESU h0 (the_clock (m_ctxs ms (g_eid g0))) -> x_stamps (m_ctxs ms (g_eid g0)) = Some ts0 -> ends_for_good ms g0 ->
  exists ts t1, x_stamps (m_ctxs m (g_eid g0)) = Some (ts0 ++ ts) /\ length ts = length ys /\ hd_error ts = Some t1 /\
    (shown_time ms (g_eid g0) <= t_abs t1)%Q /\
    ((exists c', registered ms (run_tc ms g0) c' /\ is_absolute c' = true /\ no_fixed_time c') -> (0 <= shown_time ms (g_eid g0))%Q ->
     (t_abs t1 == shown_time ms (g_eid g0))%Q) /\
    forall j t sy, nth_error ts j = Some t -> nth_error ys j = Some sy ->
      t_val t PASS = pass_number ms (g_eid g0) + j / length (queue ms) /\
      (t_abs t == t_abs t1 + inject_Z (Z.of_nat j) * step_length m (g_eid g0))%Q /\
      exists level, nth_error (queue ms) (j mod length (queue ms)) = Some level /\ incl sy level.
Proof. exact absolute_steps. Qed.
Print Assumptions C67_steps.
(** In standard mode, with at least two consideration sets, a node at position i whose condition
    is a TimeInterval is executed in a pass iff the time at which the pass began is a whole number
    of the repeat interval and the time of the node's own turn (i steps later) is not before start
    and not after end. *)
Theorem C67_interval : forall ms g0 ys m g h0 ts0 b r s e si ei i lb,
  begun (interval_condition b r s e si ei) ms g0 ys m g ->
  clock_after ESU h0 (the_clock (m_ctxs ms (g_eid g0))) -> x_stamps (m_ctxs ms (g_eid g0)) = Some ts0 -> ends_for_good ms g0 ->
  m_exact ms = false -> 1 < length (queue ms) -> queue_built ms -> nth_error (queue ms) i = Some lb -> In b lb ->
  exists ts t1, x_stamps (m_ctxs m (g_eid g0)) = Some (ts0 ++ ts) /\ length ts = length ys /\ hd_error ts = Some t1 /\
    forall j t sy, nth_error ts j = Some t -> nth_error ys j = Some sy ->
      (j mod length (queue ms) <> i -> ~ In b sy) /\
      (j mod length (queue ms) = i ->
       (In b sy <-> in_pass_window r s e si ei (t_abs t1 + inject_Z (Z.of_nat (j / length (queue ms))) * pass_length ms m (g_eid g0))%Q (t_abs t))).
Proof. exact standard_interval. Qed.
Print Assumptions C67_interval.
(** With a single consideration set it is executed, as in exact time mode (C43), iff the time is in
    the interval and a whole number of repeat intervals after start. *)
Theorem C67_single : forall ms g0 ys m g h0 ts0 b r s e si ei lb,
  begun (interval_condition b r s e si ei) ms g0 ys m g ->
  clock_after ESU h0 (the_clock (m_ctxs ms (g_eid g0))) -> x_stamps (m_ctxs ms (g_eid g0)) = Some ts0 ->
  m_exact ms = false -> queue ms = [lb] -> In b lb ->
  exists ts, x_stamps (m_ctxs m (g_eid g0)) = Some (ts0 ++ ts) /\ length ts = length ys /\
    forall i t sy, nth_error ts i = Some t -> nth_error ys i = Some sy -> (In b sy <-> in_window r s e si ei (t_abs t)).
Proof. intros ms g0 ys m g h0 ts0 b r s e si ei lb B C E _. apply (interval_single _ _ _ _ _ _ _ _ _ _ _ _ _ _ B C E). Qed.
Print Assumptions C67_single.
(** TimeInterval(repeat=r) in a run from time 0: r is a whole number N of passes long, and the node
    is executed in every N-th pass, beginning with the first, and in no other. *)
Theorem C67_repeat : forall ms g0 ys m g h0 ts0 b r si ei i lb mu,
  begun (interval_condition b (Some r) None None si ei) ms g0 ys m g ->
  clock_after ESU h0 (the_clock (m_ctxs ms (g_eid g0))) -> x_stamps (m_ctxs ms (g_eid g0)) = Some ts0 -> ends_for_good ms g0 ->
  m_exact ms = false -> 1 < length (queue ms) -> queue_built ms -> nth_error (queue ms) i = Some lb -> In b lb ->
  decimal_lengths mu ms g0 -> (0 < q_val r)%Q -> (shown_time ms (g_eid g0) == 0)%Q ->
  exists N, 0 < N /\ (q_val r == inject_Z (Z.of_nat N) * pass_length ms m (g_eid g0))%Q /\
    forall j sy, nth_error ys j = Some sy ->
      (In b sy <-> j mod length (queue ms) = i /\ Nat.divide N (j / length (queue ms))).
Proof. exact standard_repeat. Qed.
Print Assumptions C67_repeat.
(** The termination conditions meant by [ends_for_good]: TimeTermination, any condition that keeps
    its truth until the next pass (C60), All of them, and Any of those that also raise no
    exception later. *)
Theorem C67_lasts : (forall o t incl, holds_on (CAtom o (ATimeTermination t incl))) /\
  (forall c, settles_over c -> holds_on c) /\ (forall c, carries_over c -> lasts c) /\ (forall c, holds_on c -> lasts c) /\
  (forall o cs, (forall c, In c cs -> lasts c) -> lasts (CAll o cs)) /\
  (forall o cs, (forall c, In c cs -> holds_on c) -> holds_on (CAny o cs)).
Proof.
  split; [exact holds_time|]. split; [exact over_holds|]. split; [exact over_lasts|]. split; [exact holds_lasts|].
  split; [exact lasts_all|exact holds_any].
Qed.
Print Assumptions C67_lasts.

(** A -> B, A every 4 ms, B every 6 ms, until 13 ms: a pass takes 2 ms *)
Definition std_ex : core := core_of (t_sched gAB [(tA, TimeInterval 10 (Some (ms 4)) None None true true); (tB, TimeInterval 11 (Some (ms 6)) None None true true)]).
Definition std_gen : gen := until (TimeTermination 91 (ms 13) true).
Definition std_yields : list (list node) := [[tA]; [tB]; []; []; [tA]; []; []; [tB]; [tA]; []; []; []; [tA]].
Lemma std_ends : ends_for_good std_ex std_gen.
Proof.
  intros s t E. destruct s; vm_compute in E; try discriminate E; injection E as <-; apply holds_lasts; [apply holds_time|].
  apply over_holds. apply over_counts. exact Logic.I.
Qed.
Lemma std_begun : begun (interval_condition tB (Some (ms 6)) None None true true) std_ex std_gen std_yields (ex_state 13 std_ex std_gen) (ex_at 13 std_ex std_gen).
Proof.
  apply (ex_begun (fresh_interval tB (Some (ms 6)) None None true true)).
  - intros. eapply fresh_kept; eauto.
  - intros m (o & A & B & _). exists o. auto.
  - reflexivity.
  - exists 11. splits; vm_compute; try reflexivity. lia.
  - vm_compute. reflexivity.
  - discriminate.
Qed.
Example ex_C67 : begun (interval_condition tB (Some (ms 6)) None None true true) std_ex std_gen std_yields (ex_state 13 std_ex std_gen) (ex_at 13 std_ex std_gen) /\
  g_abs (ex_at 13 std_ex std_gen) = true /\ clock_after ESU [] (the_clock (m_ctxs std_ex (g_eid std_gen))) /\ x_stamps (m_ctxs std_ex (g_eid std_gen)) = Some [] /\
  ends_for_good std_ex std_gen /\ m_exact std_ex = false /\ length (queue std_ex) = 2 /\ queue_built std_ex /\ nth_error (queue std_ex) 1 = Some [tB] /\
  decimal_lengths 1 std_ex std_gen /\ (shown_time std_ex (g_eid std_gen) == 0)%Q /\ (q_val (ms 6) == inject_Z 3 * pass_length std_ex (ex_state 13 std_ex std_gen) (g_eid std_gen))%Q.
Proof.
  split; [exact std_begun|]. split; [vm_compute; reflexivity|]. split; [apply ca_new; reflexivity|]. split; [reflexivity|].
  split; [apply std_ends|]. split; [reflexivity|]. split; [reflexivity|].
  split. { split; [vm_compute; repeat constructor; simpl; intuition; try discriminate|]. eexists. split; [vm_compute; reflexivity|]. vm_compute. repeat constructor. }
  split; [reflexivity|]. split; [apply (ex_decimal _ _ [4; 6]%Z); vm_compute; reflexivity|]. split; vm_compute; reflexivity.
Qed.

(** A and B, which are independent, every 2 ms and every 3 ms, A from 3 ms on, until 10 ms *)
Definition single_ex : core := core_of (t_sched [(tA, []); (tB, [])]
  [(tA, TimeInterval 10 (Some (ms 2)) (Some (ms 3)) None true true); (tB, TimeInterval 11 (Some (ms 3)) None None true true)]).
Definition single_gen : gen := until (TimeTermination 91 (ms 10) true).
Definition single_yields : list (list node) := [[tB]; []; []; [tA; tB]; []; [tA]; [tB]; [tA]; []; [tA; tB]].
Example ex_C67_single : begun (interval_condition tA (Some (ms 2)) (Some (ms 3)) None true true) single_ex single_gen single_yields
    (ex_state 10 single_ex single_gen) (ex_at 10 single_ex single_gen) /\
  clock_after ESU [] (the_clock (m_ctxs single_ex (g_eid single_gen))) /\ x_stamps (m_ctxs single_ex (g_eid single_gen)) = Some [] /\
  m_exact single_ex = false /\ queue single_ex = [[tA; tB]].
Proof.
  split.
  { apply (ex_begun (fresh_interval tA (Some (ms 2)) (Some (ms 3)) None true true)).
    - intros. eapply fresh_kept; eauto.
    - intros m (o & A & B & _). exists o. auto.
    - reflexivity.
    - exists 10. splits; vm_compute; try reflexivity. lia.
    - vm_compute. reflexivity.
    - discriminate. }
  split; [apply ca_new; reflexivity|]. split; [reflexivity|]. split; reflexivity.
Qed.

(** In standard mode start is not where the repetition is counted from, although the documentation
    of TimeInterval says "every repeat units of time at/after start": with repeat = 2 ms and start =
    3 ms node A is not executed in this run from 3 ms to 12 ms, although each of its turns, at 3, 5,
    7, 9 and 11 ms, is at such a time. *)
Definition late_ex : core := core_of (t_sched gAB [(tA, TimeInterval 10 (Some (ms 2)) (Some (ms 3)) None true true); (tB, TimeInterval 11 (Some (ms 2)) (Some (ms 3)) None true true)]).
Lemma late_ends : ends_for_good late_ex std_gen.
Proof.
  intros s t E. destruct s; vm_compute in E; try discriminate E; injection E as <-; apply holds_lasts; [apply holds_time|].
  apply over_holds. apply over_counts. exact Logic.I.
Qed.
Theorem C67_start_refuted : exists m0 g0 ys m g ts, begun (interval_condition tA (Some (ms 2)) (Some (ms 3)) None true true) m0 g0 ys m g /\
  m_exact m0 = false /\ ends_for_good m0 g0 /\ nth_error (queue m0) 0 = Some [tA] /\ length (queue m0) = 2 /\
  x_stamps (m_ctxs m (g_eid g0)) = Some ts /\ length ts = 10 /\ length ys = 10 /\
  forall j t sy, nth_error ts j = Some t -> nth_error ys j = Some sy -> ~ In tA sy /\
    (j mod 2 = 0 -> in_window (Some (ms 2)) (Some (ms 3)) None true true (t_abs t)).
Proof.
  exists late_ex, std_gen, (repeat [] 10), (ex_state 10 late_ex std_gen), (ex_at 10 late_ex std_gen). eexists.
  split.
  { apply (ex_begun (fresh_interval tA (Some (ms 2)) (Some (ms 3)) None true true)).
    - intros. eapply fresh_kept; eauto.
    - intros m (o & A & B & _). exists o. auto.
    - reflexivity.
    - exists 10. splits; vm_compute; try reflexivity. lia.
    - vm_compute. reflexivity.
    - discriminate. }
  split; [reflexivity|]. split; [apply late_ends|]. split; [reflexivity|]. split; [reflexivity|]. split; [vm_compute; reflexivity|].
  split; [reflexivity|]. split; [reflexivity|].
  intros j t sy Hj Hs. split.
  - intros I. apply nth_error_In in Hs. apply repeat_spec in Hs. subst sy. destruct I.
  - intros Ev. do 10 (destruct j as [|j]; [first [discriminate Ev|injection Hj as <-; cbn [t_abs]; unfold in_window;
      split; [intros q [= <-]; vm_compute; discriminate|split; [intros q [=]|intros q [= <-]; unfold multiple;
        first [exists 0%Z; vm_compute; reflexivity|exists 1%Z; vm_compute; reflexivity|exists 2%Z; vm_compute; reflexivity|
               exists 3%Z; vm_compute; reflexivity|exists 4%Z; vm_compute; reflexivity]]]]|]).
    destruct j; discriminate.
Qed.
Print Assumptions C67_start_refuted.
