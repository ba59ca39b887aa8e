(** Property C88: over any session with a scheduler, the clock of an execution id only moves forward. *)
From Verif Require AbsFacts.
From Verif Require Import BaseFacts SpecForward ForwardFacts IdFacts RunExamples.
Open Scope nat_scope.
Open Scope list_scope.

(** C88: whatever public calls are made on a scheduler (see C87), the time of every execution id
    afterwards is the same as before or later: at the coarsest scale at which they differ, the count
    is greater. *)
Theorem C88_forward : forall cyc arr e ks d, not_later (time_of d e) (time_of (after_all cyc arr ks d) e).
Proof. exact session_forward. Qed.
Print Assumptions C88_forward.
(** Two sets yielded by the same generator have different times, whatever happens in between. *)
Theorem C88_apart : forall cyc arr fuel d g d1 g1 s ks fuel' d2 g2 s', sresume cyc arr fuel d g = (d1, g1, OYield s) ->
  sresume cyc arr fuel' (after_all cyc arr ks d1) g1 = (d2, g2, OYield s') -> earlier (time_of d1 (g_eid g)) (time_of d2 (g_eid g)).
Proof. exact yields_apart. Qed.
Print Assumptions C88_apart.
(** The history of the clock is only ever extended. *)
Theorem C88_history : forall cyc arr e ks d h, clock_after ESU h (the_clock (d_ctxs d e)) ->
  exists h2, clock_after ESU (h ++ h2) (the_clock (d_ctxs (after_all cyc arr ks d) e)).
Proof. exact session_history. Qed.
Print Assumptions C88_history.
(** Absolute time does not go back either, as long as units of time are positive. *)
Theorem C88_absolute : forall cyc arr e ks d, units_sound cyc arr e ks d -> (0 <= t_interval (time_of d e))%Q ->
  (t_abs (time_of d e) <= t_abs (time_of (after_all cyc arr ks d) e))%Q.
Proof. exact session_absolute. Qed.
Print Assumptions C88_absolute.
(** The times in execution_timestamps of a new scheduler are in order, in both senses, and not after
    its clock. *)
Theorem C88_timestamps : forall cyc arr input conds tc e exact du ow nx w r d ks ts,
  new_sched cyc arr input conds tc e exact du ow nx w = (r, d) -> x_stamps (d_ctxs (after_all cyc arr ks d) e) = Some ts ->
  in_order not_later ts /\ (forall t, In t ts -> not_later t (time_of (after_all cyc arr ks d) e)) /\
  (units_sound cyc arr e ks d -> in_order abs_not_later ts /\ forall t, In t ts -> abs_not_later t (time_of (after_all cyc arr ks d) e)).
Proof.
  intros cyc arr input conds tc e exact du ow nx w r d ks ts H St.
  assert (X : d_ctxs d e = fresh_ctx) by (rewrite (new_sched_ctxs _ _ _ _ _ _ _ _ _ _ _ _ _ H), upd_same; auto).
  assert (T : forall le, timely le (d_ctxs d e)).
  { intros le ts' E. rewrite X in E. simpl in E. injection E as <-. split; [intros [|i] j a b Hi; discriminate|intros t []]. }
  destruct (session_stamps cyc arr e ks d (T _) ts St) as [A B]. split; [exact A|]. split; [exact B|]. intros U.
  apply (session_stamps_absolute cyc arr e ks d U); auto. unfold time_of. rewrite X. vm_compute. discriminate.
Qed.
Print Assumptions C88_timestamps.
(** Sets yielded by different generators of one execution id may have the same time. *)
Notation fwd_next d g := (sresume ref_simple_cycles (fun q => q) 5 d g).
Notation fwd_after ks d := (after_all ref_simple_cycles (fun q => q) ks d).
Definition fwd_ti (o : oid) (n : Z) : cond := CAtom o (ATimeInterval (Some (ms n)) None None true true).
Definition fwd_d : sched := t_sched [(tA, []); (tB, [tA])] [(tA, fwd_ti 10 2); (tB, fwd_ti 11 4)].
Definition fwd_g : gen := new_gen 0 0 (Some (t_tc None (Some (AfterNCalls 90 tA 5 ESU)))) false.
Definition fwd_g1 : gen := snd (fst (fwd_next fwd_d fwd_g)).
Theorem C88_apart_refuted : exists d g d1 g1 s h d2 g2 s', sresume ref_simple_cycles (fun q => q) 5 d g = (d1, g1, OYield s) /\
  g_eid h = g_eid g /\ sresume ref_simple_cycles (fun q => q) 5 d1 h = (d2, g2, OYield s') /\ same_time (time_of d1 (g_eid g)) (time_of d2 (g_eid g)).
Proof.
  exists fwd_d, fwd_g, (fst (fst (fwd_next fwd_d fwd_g))), fwd_g1, [tA], fwd_g,
    (fst (fst (fwd_next (fst (fst (fwd_next fwd_d fwd_g))) fwd_g))), (snd (fst (fwd_next (fst (fst (fwd_next fwd_d fwd_g))) fwd_g))), [tA].
  assert (O1 : snd (fwd_next fwd_d fwd_g) = OYield [tA]) by (vm_compute; reflexivity).
  assert (O2 : snd (fwd_next (fst (fst (fwd_next fwd_d fwd_g))) fwd_g) = OYield [tA]) by (vm_compute; reflexivity).
  split; [|split; [reflexivity|split]].
  - unfold fwd_g1. rewrite <- O1. destruct (fwd_next fwd_d fwd_g) as [[d1 g1] o]. reflexivity.
  - rewrite <- O2. generalize (fst (fst (fwd_next fwd_d fwd_g))). intros d1. destruct (fwd_next d1 fwd_g) as [[d2 g2] o]. reflexivity.
  - intros []; vm_compute; reflexivity.
Qed.
Print Assumptions C88_apart_refuted.
(** A session in absolute time: two generators of execution id 0, a sequence ended in between. *)
Definition fwd_ks : list call := [CNext 5 fwd_g; CNext 5 fwd_g1; CEndSequence 0; CNext 5 fwd_g; CNext 5 fwd_g1].
Lemma fwd_sound : forall d, cs_basic (d_cs d) = [(tA, fwd_ti 10 2); (tB, fwd_ti 11 4)] -> d_unit d = ms 1 -> (forall s, d_tc d s = default_tc 0 1 s) -> sound_units d fwd_g.
Proof.
  intros d B U T. split; [rewrite U; vm_compute; discriminate|]. split; [|split].
  - rewrite B. intros n c [E|[E|[]]]; injection E as <- <-; intros q R; apply AbsFacts.respected_in in R; destruct R as [<-|[]]; vm_compute; reflexivity.
  - intros s c E. rewrite T in E. destruct s; try discriminate E; injection E as <-; intros q R; apply AbsFacts.respected_in in R; destruct R.
  - intros tc s c E Es. injection E as <-. destruct s; try discriminate Es. injection Es as <-. intros q R; apply AbsFacts.respected_in in R; destruct R.
Qed.
Example ex_C88 : units_sound ref_simple_cycles (fun q => q) 0 fwd_ks fwd_d /\ (0 <= t_interval (time_of fwd_d 0%nat))%Q /\
  option_map (map (fun t => (t_val t ES, t_val t CSE, Qred (t_abs t)))) (x_stamps (d_ctxs (fwd_after fwd_ks fwd_d) 0)) =
    Some [(0, 0, 0%Q); (0, 1, 1%Q); (1, 0, 1%Q); (1, 1, 2%Q)] /\
  Qred (t_abs (time_of (fwd_after fwd_ks fwd_d) 0%nat)) = 2%Q.
Proof.
  split; [|split; [vm_compute; discriminate|split; vm_compute; reflexivity]].
  split; [|split; [|split; [|split; [|split]]]].
  - intros _ _. apply fwd_sound; [vm_compute; reflexivity|vm_compute; reflexivity|intros []; vm_compute; reflexivity].
  - intros _ P. exfalso. revert P. vm_compute. discriminate.
  - exact I.
  - intros _ _. apply fwd_sound; [vm_compute; reflexivity|vm_compute; reflexivity|intros []; vm_compute; reflexivity].
  - intros _ P. exfalso. revert P. vm_compute. discriminate.
  - exact I.
Qed.
