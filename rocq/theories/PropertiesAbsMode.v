(** Property theorems about runs with and without absolute conditions (C74). *)
From Verif Require Import SpecAbsMode AbsMode AbsRun RunExamples AbsExamples ResumeFrame.
Open Scope nat_scope.

(** ** C74: absolute time passes only in runs with absolute conditions *)
(** While a run in which neither a node's condition nor a termination condition is, or combines
    with All and Any, a TimeInterval or TimeTermination, the clock shows the same absolute time,
    and no timestamps are recorded; ... *)
Theorem C74_frozen : forall P ms g0 ys m g h0, begun P ms g0 ys m g ->
  clock_after ESU h0 (the_clock (m_ctxs ms (g_eid g0))) -> timeless ms g0 ->
  shown_time m (g_eid g0) = shown_time ms (g_eid g0) /\ step_length m (g_eid g0) = step_length ms (g_eid g0) /\
  (forall ts, x_stamps (m_ctxs ms (g_eid g0)) = Some ts -> x_stamps (m_ctxs m (g_eid g0)) = Some ts).
Proof. exact frozen. Qed.
Print Assumptions C74_frozen.
(** ... also when it has ended. *)
Theorem C74_frozen_on_return : forall P ms g0 ys m l h0, ended P ms g0 ys m l ->
  clock_after ESU h0 (the_clock (m_ctxs ms (g_eid g0))) -> timeless ms g0 ->
  shown_time m (g_eid g0) = shown_time ms (g_eid g0) /\ step_length m (g_eid g0) = step_length ms (g_eid g0) /\
  (forall ts, x_stamps (m_ctxs ms (g_eid g0)) = Some ts -> x_stamps (m_ctxs m (g_eid g0)) = Some ts).
Proof. exact frozen_return. Qed.
Print Assumptions C74_frozen_on_return.
(** Not and NWhen do not count as such combinations: a node whose condition is Not(TimeInterval(...))
    with the current time in the interval never runs. *)
Theorem C74_negation : forall ms g0 ys m g h0 b s e si ei, begun (not_interval b s e si ei) ms g0 ys m g ->
  clock_after ESU h0 (the_clock (m_ctxs ms (g_eid g0))) -> timeless ms g0 ->
  in_window None s e si ei (shown_time ms (g_eid g0)) -> forall sy, In sy ys -> ~ In b sy.
Proof. exact negation_blind. Qed.
Print Assumptions C74_negation.

(** A in every pass, B from 3 ms on, expressed as Not(TimeInterval(end=3, end_inclusive=False)); until A
    has run 5 times *)
Definition blind_ex : core := exact_time gA_B [(tA, CAtom 10 AAlways); (tB, CNot 11 (TimeInterval 12 None None (Some (ms 3)) true false))].
Definition blind_gen : gen := until (CAtom 91 (ACalls Ge tA 5 ESU)).
Lemma blind_begun : begun (not_interval tB None (Some (ms 3)) true false) blind_ex blind_gen [[tA]; [tA]; [tA]] (ex_state 3 blind_ex blind_gen) (ex_at 3 blind_ex blind_gen).
Proof.
  apply (ex_begun (not_interval tB None (Some (ms 3)) true false)).
  - intros. eapply not_interval_kept; eauto.
  - auto.
  - reflexivity.
  - exists 11, 12. vm_compute. reflexivity.
  - vm_compute. reflexivity.
  - discriminate.
Qed.
Lemma blind_timeless : timeless blind_ex blind_gen.
Proof. apply timeless_intro. vm_compute. reflexivity. Qed.
Lemma blind_clock : clock_after ESU [] (the_clock (m_ctxs blind_ex (g_eid blind_gen))).
Proof. apply ca_new. reflexivity. Qed.
Example ex_C74 : begun (not_interval tB None (Some (ms 3)) true false) blind_ex blind_gen [[tA]; [tA]; [tA]] (ex_state 3 blind_ex blind_gen) (ex_at 3 blind_ex blind_gen) /\
  clock_after ESU [] (the_clock (m_ctxs blind_ex (g_eid blind_gen))) /\ timeless blind_ex blind_gen /\
  in_window None None (Some (ms 3)) true false (shown_time blind_ex (g_eid blind_gen)) /\
  ended any_state blind_ex blind_gen [[tA]; [tA]; [tA]; [tA]; [tA]] (fst (fst (resume 5 (ex_state 5 blind_ex blind_gen) (ex_at 5 blind_ex blind_gen)))) [[tA]; [tA]; [tA]; [tA]; [tA]].
Proof.
  split; [exact blind_begun|]. split; [exact blind_clock|]. split; [exact blind_timeless|]. split.
  - split; [discriminate|]. split; [|discriminate]. intros q E; injection E as <-. reflexivity.
  - assert (B : begun any_state blind_ex blind_gen [[tA]; [tA]; [tA]; [tA]; [tA]] (ex_state 5 blind_ex blind_gen) (ex_at 5 blind_ex blind_gen)).
    { apply (ex_begun any_state any_state); [intros; exact Logic.I|intros; exact Logic.I|reflexivity|exact Logic.I|vm_compute; reflexivity|discriminate]. }
    exists 5. destruct (resume 5 (ex_state 5 blind_ex blind_gen) (ex_at 5 blind_ex blind_gen)) as [[m g] o] eqn:E.
    assert (Eo : snd (resume 5 (ex_state 5 blind_ex blind_gen) (ex_at 5 blind_ex blind_gen)) = OReturn [[tA]; [tA]; [tA]; [tA]; [tA]]) by (vm_compute; reflexivity).
    rewrite E in Eo. simpl in Eo. subst o. exists g. right. exists (ex_state 5 blind_ex blind_gen), (ex_at 5 blind_ex blind_gen). auto.
Qed.
(** The same condition does hold from 3 ms on if another condition makes the run keep absolute
    time: what a node does depends on unrelated conditions. *)
Definition seeing_ex : core := exact_time gA_B [(tA, TimeInterval 10 (Some (ms 1)) None None true true);
  (tB, CNot 11 (TimeInterval 12 None None (Some (ms 3)) true false))].
Theorem C74_mode_refuted :
  (forall P ys m g, begun P blind_ex blind_gen ys m g -> shown_time m 0 = 0%Q) /\
  (forall ys m g sy, begun (not_interval tB None (Some (ms 3)) true false) blind_ex blind_gen ys m g -> In sy ys -> ~ In tB sy) /\
  snd (drive 20 5 seeing_ex blind_gen []) = OReturn [[tA]; [tA]; [tA]; [tA; tB]; [tA; tB]].
Proof.
  split; [|split].
  - intros P ys m g B. destruct (frozen _ _ _ _ _ _ [] B blind_clock blind_timeless) as (E & _). exact E.
  - intros ys m g sy B. apply (negation_blind _ _ _ _ _ [] _ _ _ _ _ B blind_clock blind_timeless).
    split; [discriminate|]. split; [|discriminate]. intros q E; injection E as <-. reflexivity.
  - vm_compute. reflexivity.
Qed.
Print Assumptions C74_mode_refuted.

(** ** C43: TimeInterval(repeat=...) as a termination condition makes every run raise *)
Theorem C43_termination_refuted :
  (forall fuel ms g0 r e, g_pc g0 = PStart -> stops_every r e ms g0 -> exists m g ex, resume (S fuel) ms g0 = (m, g, ORaise ex)) /\
  snd (drive 20 5 exact_ex (until (TimeInterval 91 (Some (ms 9)) None None true true)) []) = ORaise EUnboundLocal /\
  stops_every (ms 9) None exact_ex (until (TimeInterval 91 (Some (ms 9)) None None true true)).
Proof.
  split; [exact interval_termination|]. split; [vm_compute; reflexivity|]. exists 91, true, true.
  split; [vm_compute; reflexivity|]. split; [vm_compute; reflexivity|]. apply Nat.leb_le. vm_compute. reflexivity.
Qed.
Print Assumptions C43_termination_refuted.
