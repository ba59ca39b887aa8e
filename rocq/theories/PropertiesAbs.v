(** Property theorems about absolute time (C42 - C44). *)
From Verif Require Import SpecAbs AbsFacts AbsRun YieldFacts RunHist PureFacts ResumeFrame RunExamples AbsExamples.
From Coq Require Import Lia.
Open Scope nat_scope.

(** ** C42: the length of a consideration set execution *)
(** n consideration set executions (n = 1 in exact time mode, the number of consideration sets in
    standard mode) together divide every repeat interval and, in exact time mode, every inclusive
    start, end and termination time. *)
Theorem C42_divides : forall P ms g0 ys m g mu h0 c q, begun P ms g0 ys m g -> g_abs g = true ->
  clock_after ESU h0 (the_clock (m_ctxs ms (g_eid g0))) -> decimal_lengths mu ms g0 ->
  registered ms (run_tc ms g0) c -> respected (m_exact ms) c q ->
  multiple (q_val q) (inject_Z (Z.of_nat (executions_per_pass ms)) * step_length m (g_eid g0)).
Proof. intros P ms g0 ys m g mu h0 c q B Ha C D. apply (run_unit P ms g0 ys m g mu h0 B Ha C D). Qed.
Print Assumptions C42_divides.
(** ... and it is the longest such length: every other is a fraction 1/z of it *)
Theorem C42_longest : forall P ms g0 ys m g mu h0, begun P ms g0 ys m g -> g_abs g = true ->
  clock_after ESU h0 (the_clock (m_ctxs ms (g_eid g0))) -> decimal_lengths mu ms g0 ->
  (exists c q, registered ms (run_tc ms g0) c /\ respected (m_exact ms) c q) -> forall w,
  (forall c q, registered ms (run_tc ms g0) c -> respected (m_exact ms) c q ->
     multiple (q_val q) (inject_Z (Z.of_nat (executions_per_pass ms)) * w)) ->
  multiple (step_length m (g_eid g0)) w.
Proof. intros P ms g0 ys m g mu h0 B Ha C D X. apply (run_unit P ms g0 ys m g mu h0 B Ha C D); auto. Qed.
Print Assumptions C42_longest.
(** It is positive if one of these times is not 0, and the default unit if there are none. *)
Theorem C42_positive : forall P ms g0 ys m g mu h0 c q, begun P ms g0 ys m g -> g_abs g = true ->
  clock_after ESU h0 (the_clock (m_ctxs ms (g_eid g0))) -> decimal_lengths mu ms g0 ->
  registered ms (run_tc ms g0) c -> respected (m_exact ms) c q -> ~ (q_val q == 0)%Q -> (0 < step_length m (g_eid g0))%Q.
Proof. intros P ms g0 ys m g mu h0 c q B Ha C D. apply (run_unit P ms g0 ys m g mu h0 B Ha C D). Qed.
Print Assumptions C42_positive.
Theorem C42_default : forall P ms g0 ys m g mu h0, begun P ms g0 ys m g -> g_abs g = true ->
  clock_after ESU h0 (the_clock (m_ctxs ms (g_eid g0))) -> decimal_lengths mu ms g0 ->
  (forall c q, registered ms (run_tc ms g0) c -> ~ respected (m_exact ms) c q) -> step_length m (g_eid g0) = q_val (m_default_unit ms).
Proof. intros P ms g0 ys m g mu h0 B Ha C D. apply (run_unit P ms g0 ys m g mu h0 B Ha C D). Qed.
Print Assumptions C42_default.
(** How a given length is stored: the value is kept, ... *)
Theorem C42_parse_value : forall units q, (forall u, In u units -> (0 < u)%Q) -> (q_val (reduce_quantity units q) == q_val q)%Q.
Proof. exact reduce_value. Qed.
Print Assumptions C42_parse_value.
(** ... as a whole number of the first unit in the list (not above the unit given) which divides
    it, unchanged if there is none. *)
Theorem C42_parse_unit : forall units q, (forall u, In u units -> (0 < u)%Q) ->
  (exists bigger u smaller z, units = bigger ++ u :: smaller /\ (u <= q_unit q)%Q /\ q_unit (reduce_quantity units q) = u /\
     (q_mag (reduce_quantity units q) == inject_Z z)%Q /\
     forall v, In v bigger -> (v <= q_unit q)%Q -> ~ multiple (q_val q) v) \/
  (reduce_quantity units q = q /\ forall v, In v units -> (v <= q_unit q)%Q -> ~ multiple (q_val q) v).
Proof. exact reduce_largest. Qed.
Print Assumptions C42_parse_unit.
(** Without [decimal_lengths] the claim fails: 8 days are stored as 675 kibiseconds (1024 s),
    which the conversion to seconds treats as 10^3 s; together with an interval of 1000 s one
    consideration set execution takes 1000 s, which does not divide 8 days. *)
Definition days (n : Z) : quantity := mkQuantity (inject_Z n) (inject_Z 86400).
Definition secs (n : Z) : quantity := mkQuantity (inject_Z n) 1%Q.
Definition pint_units : list Q := [inject_Z 1024; inject_Z 1000; inject_Z 100; inject_Z 10; 1%Q; 1 # 10; 1 # 100; 1 # 1000].
Theorem C42_binary_prefix_refuted : exists ivs u, ivs = map (reduce_quantity pint_units) [days 8; secs 1000] /\
  absolute_unit (secs 1) ivs true 1 = Ok u /\ ~ multiple (q_val (days 8)) u.
Proof.
  eexists. eexists. split; [reflexivity|]. split; [vm_compute; reflexivity|].
  intros [z H]. unfold Qeq in H. simpl in H. lia.
Qed.
Print Assumptions C42_binary_prefix_refuted.

(** A every 2 ms, B every 3 ms from 1 ms to 7 ms, until 9 ms: executions take 1 ms *)
Example ex_C42 : begun (interval_condition tB (Some (ms 3)) (Some (ms 1)) (Some (ms 7)) true true)
    exact_ex exact_gen exact_yields (ex_state 9 exact_ex exact_gen) (ex_at 9 exact_ex exact_gen) /\
  g_abs (ex_at 9 exact_ex exact_gen) = true /\ clock_after ESU [] (the_clock (m_ctxs exact_ex (g_eid exact_gen))) /\
  decimal_lengths 1 exact_ex exact_gen /\ (step_length (ex_state 9 exact_ex exact_gen) 0%nat == 1)%Q /\
  exists c, registered exact_ex (run_tc exact_ex exact_gen) c /\ respected (m_exact exact_ex) c (ms 7).
Proof.
  split; [exact exact_begun_B|]. split; [vm_compute; reflexivity|]. split; [exact exact_clock|]. split; [exact exact_decimal|].
  split; [vm_compute; reflexivity|]. apply all_lengths_in. vm_compute. auto 10.
Qed.

(** ** C43: TimeInterval in exact time mode *)
(** The i-th set yielded contains b iff its timestamp is one of the times described by the
    TimeInterval that is b's condition. *)
Theorem C43_executed : forall ms g0 ys m g h0 ts0 b r s e si ei,
  begun (interval_condition b r s e si ei) ms g0 ys m g ->
  clock_after ESU h0 (the_clock (m_ctxs ms (g_eid g0))) -> x_stamps (m_ctxs ms (g_eid g0)) = Some ts0 ->
  m_exact ms = true -> In b (gkeys (m_graph ms)) ->
  exists ts, x_stamps (m_ctxs m (g_eid g0)) = Some (ts0 ++ ts) /\ length ts = length ys /\
    forall i t sy, nth_error ts i = Some t -> nth_error ys i = Some sy -> (In b sy <-> in_window r s e si ei (t_abs t)).
Proof. exact interval_executed. Qed.
Print Assumptions C43_executed.
(** Every such time from the first timestamp up to the current time is visited, and from the time
    the clock showed before the run if the start is given (inclusively) or no inclusive end is. *)
Theorem C43_visited : forall ms g0 ys m g h0 ts0 b r s e si ei mu,
  begun (interval_condition b (Some r) s e si ei) ms g0 ys m g ->
  clock_after ESU h0 (the_clock (m_ctxs ms (g_eid g0))) -> x_stamps (m_ctxs ms (g_eid g0)) = Some ts0 ->
  m_exact ms = true -> In b (gkeys (m_graph ms)) -> decimal_lengths mu ms g0 ->
  multiple (shown_time ms (g_eid g0)) (step_length m (g_eid g0)) -> (s <> None -> si = true) ->
  exists ts, x_stamps (m_ctxs m (g_eid g0)) = Some (ts0 ++ ts) /\ length ts = length ys /\
    forall w, in_window (Some r) s e si ei w -> (w <= shown_time m (g_eid g0))%Q ->
      ((exists t, hd_error ts = Some t /\ (t_abs t <= w)%Q) \/
       (shown_time ms (g_eid g0) <= w)%Q /\ (s <> None \/ (0 <= shown_time ms (g_eid g0))%Q /\ (e = None \/ ei = false))) ->
      exists i t sy, nth_error ts i = Some t /\ nth_error ys i = Some sy /\ (t_abs t == w)%Q /\ In b sy.
Proof. exact interval_visited. Qed.
Print Assumptions C43_visited.
(** Inclusive start, end and termination times (and whole intervals) of any condition in use are
    visited. *)
Theorem C43_fixed_points : forall P ms g0 ys m g h0 ts0 mu c q, begun P ms g0 ys m g ->
  clock_after ESU h0 (the_clock (m_ctxs ms (g_eid g0))) -> x_stamps (m_ctxs ms (g_eid g0)) = Some ts0 ->
  m_exact ms = true -> decimal_lengths mu ms g0 -> multiple (shown_time ms (g_eid g0)) (step_length m (g_eid g0)) ->
  registered ms (run_tc ms g0) c -> respected true c q ->
  exists ts t1, x_stamps (m_ctxs m (g_eid g0)) = Some (ts0 ++ ts) /\ length ts = length ys /\ hd_error ts = Some t1 /\
    ((t_abs t1 <= q_val q)%Q -> (q_val q <= shown_time m (g_eid g0))%Q -> exists i t, nth_error ts i = Some t /\ (t_abs t == q_val q)%Q).
Proof. exact fixed_visited. Qed.
Print Assumptions C43_fixed_points.

Example ex_C43 : begun (interval_condition tB (Some (ms 3)) (Some (ms 1)) (Some (ms 7)) true true)
    exact_ex exact_gen exact_yields (ex_state 9 exact_ex exact_gen) (ex_at 9 exact_ex exact_gen) /\
  x_stamps (m_ctxs exact_ex (g_eid exact_gen)) = Some [] /\ m_exact exact_ex = true /\ In tB (gkeys (m_graph exact_ex)) /\
  decimal_lengths 1 exact_ex exact_gen /\
  multiple (shown_time exact_ex (g_eid exact_gen)) (step_length (ex_state 9 exact_ex exact_gen) (g_eid exact_gen)) /\
  in_window (Some (ms 3)) (Some (ms 1)) (Some (ms 7)) true true (inject_Z 4) /\
  (inject_Z 4 <= shown_time (ex_state 9 exact_ex exact_gen) 0%nat)%Q.
Proof.
  split; [exact exact_begun_B|]. split; [reflexivity|]. split; [reflexivity|]. split; [vm_compute; auto|].
  split; [exact exact_decimal|]. split; [exists 0%Z; vm_compute; reflexivity|]. split; [|vm_compute; discriminate].
  split; [intros q E; injection E as <-; vm_compute; discriminate|]. split; [intros q E; injection E as <-; vm_compute; discriminate|].
  intros q E; injection E as <-. exists 1%Z. vm_compute. reflexivity.
Qed.
(** An exclusive start is not among the times the length of an execution has to divide:
    TimeInterval(repeat=2, start=1, start_inclusive=False) never holds, as only 0, 2, 4, ... are
    visited until 10. *)
Definition exclusive_ex : core :=
  exact_time [(tA, [])] [(tA, TimeInterval 10 (Some (ms 2)) (Some (ms 1)) None false true)].
Theorem C43_exclusive_start_refuted :
  snd (fst (drive 20 5 exclusive_ex (until (TimeTermination 91 (ms 10) true)) [])) = [[]; []; []; []; []] /\
  snd (drive 20 5 exclusive_ex (until (TimeTermination 91 (ms 10) true)) []) = OReturn [[]; []; []; []; []] /\
  in_window (Some (ms 2)) (Some (ms 1)) None false true (inject_Z 3) /\ before (ms 10) true (inject_Z 3).
Proof.
  split; [vm_compute; reflexivity|]. split; [vm_compute; reflexivity|]. split; [|reflexivity].
  split; [intros q E; injection E as <-; reflexivity|]. split; [discriminate|].
  intros q E; injection E as <-. exists 1%Z. vm_compute. reflexivity.
Qed.
Print Assumptions C43_exclusive_start_refuted.
(** An inclusive end without a start makes the clock start at the end:
    TimeInterval(repeat=1, end=3) until 5 executes A at 3 but not at 0, 1 and 2. *)
Definition end_ex : core := exact_time [(tA, [])] [(tA, TimeInterval 10 (Some (ms 1)) None (Some (ms 3)) true true)].
Theorem C43_end_refuted :
  snd (drive 20 5 end_ex (until (TimeTermination 91 (ms 5) true)) []) = OReturn [[tA]; []] /\
  (forall z, (0 <= z <= 3)%Z -> in_window (Some (ms 1)) None (Some (ms 3)) true true (inject_Z z)).
Proof.
  split; [vm_compute; reflexivity|]. intros z [A B]. split; [discriminate|].
  split; [intros q E; injection E as <-; unfold q_val, Qle; simpl; lia|]. intros q E; injection E as <-. exists z. unfold q_val; simpl. ring.
Qed.
Print Assumptions C43_end_refuted.

(** ** C44: TimeTermination *)
Theorem C44_before : forall P ms g0 ys m g h0 ts0 t incl c, begun P ms g0 ys m g ->
  clock_after ESU h0 (the_clock (m_ctxs ms (g_eid g0))) -> x_stamps (m_ctxs ms (g_eid g0)) = Some ts0 ->
  run_tc ms g0 ESU = Some c \/ run_tc ms g0 ES = Some c -> ends_at t incl c ->
  exists ts, x_stamps (m_ctxs m (g_eid g0)) = Some (ts0 ++ ts) /\ length ts = length ys /\
    forall x, In x ts -> before t incl (t_abs x).
Proof. exact termination_before. Qed.
Print Assumptions C44_before.
(** the run ends: there is a bound on the number of sets it yields, whatever happens between the
    yields, ... *)
Theorem C44_bounded : forall ms g0 h0 t incl c mu,
  clock_after ESU h0 (the_clock (m_ctxs ms (g_eid g0))) ->
  run_tc ms g0 ESU = Some c \/ run_tc ms g0 ES = Some c -> ends_at t incl c ->
  decimal_lengths mu ms g0 -> positive_step ms g0 ->
  exists N, forall P ys m g, begun P ms g0 ys m g -> length ys <= N.
Proof. exact termination_bounded. Qed.
Print Assumptions C44_bounded.
(** ... and iterating over it ends, if there are nodes and the termination conditions do not
    change the state they depend on *)
Theorem C44_ends : forall ms g0 h0 t incl c mu, g_pc g0 = PStart ->
  clock_after ESU h0 (the_clock (m_ctxs ms (g_eid g0))) ->
  run_tc ms g0 ESU = Some c \/ run_tc ms g0 ES = Some c -> ends_at t incl c ->
  decimal_lengths mu ms g0 -> positive_step ms g0 -> queue ms <> [] ->
  (forall s c ow, run_tc ms g0 s = Some c -> observer (g_eid g0) ow c) ->
  exists N, forall n fuel, N < n -> snd (drive n (S (S fuel)) ms g0 []) <> OFuel.
Proof. exact termination_ends. Qed.
Print Assumptions C44_ends.
(** If only the TimeTermination can end the run, it executes a set at each of the times a, a + d,
    a + 2 d, ... (d the length of an execution) that come before t and at no others; a is the time
    the clock showed, provided some absolute condition has no inclusive start, end or t. *)
Theorem C44_count : forall P ms g0 ys m l h0 t incl c mu, ended P ms g0 ys m l ->
  clock_after ESU h0 (the_clock (m_ctxs ms (g_eid g0))) ->
  run_tc ms g0 ESU = Some c \/ run_tc ms g0 ES = Some c -> ends_at t incl c ->
  (forall c', run_tc ms g0 ESU = Some c' \/ run_tc ms g0 ES = Some c' -> only_ends t incl c') ->
  decimal_lengths mu ms g0 -> positive_step ms g0 ->
  exists a, (shown_time ms (g_eid g0) <= a)%Q /\
    ((exists c', registered ms (run_tc ms g0) c' /\ is_absolute c' = true /\ no_fixed_time c') ->
       (0 <= shown_time ms (g_eid g0))%Q -> (a == shown_time ms (g_eid g0))%Q) /\
    (shown_time m (g_eid g0) == a + inject_Z (Z.of_nat (length ys)) * step_length m (g_eid g0))%Q /\
    forall i, i < length ys <-> before t incl (a + inject_Z (Z.of_nat i) * step_length m (g_eid g0))%Q.
Proof. exact termination_count. Qed.
Print Assumptions C44_count.
(** standard mode: A every 2 ms, B every 3 ms, until 6 ms *)
Example ex_C44 : g_pc ex_abs_gen = PStart /\ clock_after ESU [] (the_clock (m_ctxs ex_abs_core (g_eid ex_abs_gen))) /\
  x_stamps (m_ctxs ex_abs_core (g_eid ex_abs_gen)) = Some [] /\
  run_tc ex_abs_core ex_abs_gen ESU = Some (TimeTermination 91 (ms 6) true) /\
  ends_at (ms 6) true (TimeTermination 91 (ms 6) true) /\
  (forall c', run_tc ex_abs_core ex_abs_gen ESU = Some c' \/ run_tc ex_abs_core ex_abs_gen ES = Some c' -> only_ends (ms 6) true c') /\
  decimal_lengths 1 ex_abs_core ex_abs_gen /\ positive_step ex_abs_core ex_abs_gen /\ queue ex_abs_core <> [] /\
  (forall s c ow, run_tc ex_abs_core ex_abs_gen s = Some c -> observer (g_eid ex_abs_gen) ow c) /\
  (exists c', registered ex_abs_core (run_tc ex_abs_core ex_abs_gen) c' /\ is_absolute c' = true /\ no_fixed_time c') /\
  exists m l, ended (fun _ => True) ex_abs_core ex_abs_gen [[tA; tB]; []; [tA]; [tB]; [tA]; []] m l.
Proof.
  split; [reflexivity|]. split; [apply ca_new; reflexivity|]. split; [reflexivity|]. split; [reflexivity|]. split; [constructor|].
  split. { intros c [E|E]; vm_compute in E; injection E as <-; [left|right]; eexists; reflexivity. }
  split; [apply (ex_decimal _ _ [2; 3]%Z); vm_compute; reflexivity|].
  split. { left. assert (X : In (ms 2) (all_lengths ex_abs_core ex_abs_gen)) by (vm_compute; auto).
    apply all_lengths_in in X. destruct X as (c & A & B). exists c, (ms 2). split; auto. split; auto. vm_compute. discriminate. }
  split; [vm_compute; discriminate|].
  split. { intros s c ow E. destruct s; vm_compute in E; try discriminate; injection E as <-; apply plain_observer; reflexivity. }
  split. { eexists. split; [left; left; reflexivity|]. split; [reflexivity|]. intros x q P F. inversion P; subst. inversion F; discriminate. }
  assert (B : begun (fun _ => True) ex_abs_core ex_abs_gen [[tA; tB]; []; [tA]; [tB]; [tA]; []] (ex_state 6 ex_abs_core ex_abs_gen) (ex_at 6 ex_abs_core ex_abs_gen)).
  { apply (ex_begun (fun _ => True)); auto. discriminate. }
  destruct (resume 5 (ex_state 6 ex_abs_core ex_abs_gen) (ex_at 6 ex_abs_core ex_abs_gen)) as [[m g] o] eqn:E.
  assert (X : exists l, snd (resume 5 (ex_state 6 ex_abs_core ex_abs_gen) (ex_at 6 ex_abs_core ex_abs_gen)) = OReturn l) by (eexists; vm_compute; reflexivity).
  destruct X as (l & X). rewrite E in X. cbn [snd] in X. subst o. exists m, l, 5, g. right. eauto.
Qed.
(** If the (inclusive) TimeTermination is the only absolute condition, the clock starts at its
    time: nothing is executed at all. *)
Theorem C44_alone_refuted :
  snd (drive 20 5 (core_of (t_sched gAB [(tA, Always 10); (tB, Always 11)])) (until (TimeTermination 91 (ms 5) true)) []) = OReturn [] /\
  before (ms 5) true 0.
Proof. split; vm_compute; reflexivity. Qed.
Print Assumptions C44_alone_refuted.
