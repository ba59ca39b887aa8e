(** Property C90: conditions about the whole life of an execution id settle: what has happened has happened. *)
From Verif Require Import BaseFacts LastingFacts RunExamples SpecLasting.
Open Scope nat_scope.
Open Scope list_scope.

(** C90: over any session (any public calls, see C87), a condition of the forms [settles true]
    (After... at the scale of sequences or the life, and All and Any of such) that is satisfied
    for an execution id is satisfied at any later moment, and one of the forms [settles false]
    (Before..., Not(After...)) that is not satisfied never is again. *)
Theorem C90_lasting : forall cyc arr e ks d l t h up c, recorded (d_ctxs d e) l t -> clock_after ESU h (the_clock (d_ctxs d e)) ->
  stamped (d_ctxs d e) \/ timeless cyc arr e ks d -> settles (d_nodes d) up c = true ->
  says d e c = Ok up -> says (after_all cyc arr ks d) e c = Ok up.
Proof. exact session_lasting. Qed.
Print Assumptions C90_lasting.
(** They always have an answer. *)
Theorem C90_answers : forall cyc arr e ks d l t h up c, recorded (d_ctxs d e) l t -> clock_after ESU h (the_clock (d_ctxs d e)) ->
  stamped (d_ctxs d e) \/ timeless cyc arr e ks d -> settles (d_nodes d) up c = true ->
  exists b, says (after_all cyc arr ks d) e c = Ok b.
Proof. exact session_answers. Qed.
Print Assumptions C90_answers.
(** For the own execution id of a scheduler this holds from its creation on. *)
Theorem C90_own : forall cyc arr input conds tc e exact du ow nx w r d ks ks2 up c,
  new_sched cyc arr input conds tc e exact du ow nx w = (r, d) -> settles (d_nodes d) up c = true ->
  says (after_all cyc arr ks d) e c = Ok up -> says (after_all cyc arr (ks ++ ks2) d) e c = Ok up.
Proof. exact own_lasting. Qed.
Print Assumptions C90_own.
(** TimeTermination stays satisfied too, as long as units of time are positive. *)
Theorem C90_time_over : forall cyc arr e ks d o t incl, units_sound cyc arr e ks d -> (0 <= t_interval (time_of d e))%Q ->
  says d e (CAtom o (ATimeTermination t incl)) = Ok true -> says (after_all cyc arr ks d) e (CAtom o (ATimeTermination t incl)) = Ok true.
Proof. exact session_time_over. Qed.
Print Assumptions C90_time_over.
(** When the termination condition of the environment sequence is such a condition and is
    satisfied, no generator of the execution id that goes by it yields anything any more, neither
    one that is under way nor one that is started later, even after end_environment_sequence: it
    returns or raises. *)
Theorem C90_over : forall cyc arr e ks d l t h c f g s, recorded (d_ctxs d e) l t -> clock_after ESU h (the_clock (d_ctxs d e)) ->
  stamped (d_ctxs d e) \/ timeless cyc arr e ks d -> settles (d_nodes d) true c = true -> says d e c = Ok true ->
  as_left g -> g_eid g = e -> the_tc (core_of (after_all cyc arr ks d)) g ES = Some c ->
  snd (sresume cyc arr f (after_all cyc arr ks d) g) <> OYield s.
Proof. exact session_over. Qed.
Print Assumptions C90_over.
(** Every generator is as required there: a new one, and one that next() leaves. *)
Theorem C90_as_left : (forall e base tc skip, as_left (new_gen e base tc skip)) /\
  forall cyc arr f d g, as_left g -> as_left (snd (fst (sresume cyc arr f d g))).
Proof. split; [intros; exact I|exact sresume_left]. Qed.
Print Assumptions C90_as_left.

Notation last_after ks d := (after_all ref_simple_cycles (fun q => q) ks d).
Definition last_d : sched := t_sched [(tA, []); (tB, [tA])] [].
(** a run in which A is executed, twice; then the next run starts *)
Definition last_g : gen := new_gen 0 0 (Some (t_tc None (Some (AfterNCalls 90 tA 2 LIFE)))) false.
Definition last_g1 : gen := snd (fst (sresume ref_simple_cycles (fun q => q) 5 last_d last_g)).
Definition last_ks : list call := [CNext 5 last_g; CNext 5 last_g1; CNext 5 last_g1; CEndSequence 0].
(** AfterNCalls(A, 2, LIFE) and Not(BeforeNCalls(A, 2, LIFE)) *)
Definition last_c : cond := CAll 30 [AfterNCalls 31 tA 2 LIFE; CNot 32 (CAtom 33 (ACalls Lt tA 2 LIFE))].
Example ex_C90 : settles (d_nodes last_d) true last_c = true /\ says last_d 0 last_c = Ok false /\ says (last_after last_ks last_d) 0 last_c = Ok true /\
  (exists t, recorded (d_ctxs (last_after last_ks last_d) 0) [[tA]; [tB]; [tA]] t) /\ stamped (d_ctxs (last_after last_ks last_d) 0) /\
  settles (d_nodes last_d) false (CNot 34 last_c) = true /\ says (last_after last_ks last_d) 0 (CNot 34 last_c) = Ok false /\
  the_tc (core_of (last_after last_ks last_d)) (new_gen 0 0 (Some (t_tc (Some last_c) None)) false) ES = Some last_c.
Proof.
  split; [vm_compute; reflexivity|]. split; [vm_compute; reflexivity|]. split; [vm_compute; reflexivity|].
  split; [eexists; split; vm_compute; reflexivity|]. split; [vm_compute; discriminate|]. repeat split; vm_compute; reflexivity.
Qed.
(** At a finer scale it is not so: AfterNCalls(A, 1, ESU) is no longer satisfied once the next run has begun. *)
Theorem C90_finer_refuted : exists d ks l t, recorded (d_ctxs d 0) l t /\ stamped (d_ctxs d 0) /\ settles (d_nodes d) true (AfterNCalls 31 tA 1 LIFE) = true /\
  says d 0 (AfterNCalls 31 tA 1 ESU) = Ok true /\
  says (after_all ref_simple_cycles (fun q => q) ks d) 0 (AfterNCalls 31 tA 1 ESU) = Ok false.
Proof.
  exists (last_after last_ks last_d), [CNext 5 last_g], [[tA]; [tB]; [tA]]. eexists. split; [split; vm_compute; reflexivity|].
  split; [vm_compute; discriminate|]. repeat split; vm_compute; reflexivity.
Qed.
Print Assumptions C90_finer_refuted.
(** Nor does a condition that asks for an exact count last. *)
Theorem C90_exact_refuted : exists d ks l t, recorded (d_ctxs d 0) l t /\ stamped (d_ctxs d 0) /\
  says d 0 (CAtom 31 (ACalls Eq tA 1 LIFE)) = Ok true /\
  says (after_all ref_simple_cycles (fun q => q) ks d) 0 (CAtom 31 (ACalls Eq tA 1 LIFE)) = Ok false.
Proof.
  exists (last_after [CNext 5 last_g] last_d), [CNext 5 last_g1; CNext 5 last_g1], [[tA]]. eexists. split; [split; vm_compute; reflexivity|].
  split; [vm_compute; discriminate|]. repeat split; vm_compute; reflexivity.
Qed.
Print Assumptions C90_exact_refuted.
