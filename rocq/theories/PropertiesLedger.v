(** Property C87: over any session with a scheduler, the records of an execution id agree with
    what the callers of its generators received. *)
From Verif Require Import BaseFacts SpecLedger LedgerFacts IdFacts RunExamples.
Open Scope nat_scope.
Open Scope list_scope.

(** C87: whatever public calls are made on a scheduler - conditions added and removed, graphs looked at,
    termination conditions set, environment sequences ended, and generators of any execution ids, several of
    the same one among them, resumed in any order, abandoned, or ended by exceptions which the caller
    catches - the list of executions of e grows by exactly the sets the generators of e yielded, in
    that order ...  e is the scheduler's own execution id, or any other for which a run was started, as long
    as that has no runs in absolute time mode. *)
Theorem C87_list : forall cyc arr e ks d l t, recorded (d_ctxs d e) l t -> stamped (d_ctxs d e) \/ timeless cyc arr e ks d ->
  x_list (d_ctxs (after_all cyc arr ks d) e) = Some (l ++ received cyc arr e ks d).
Proof. intros cyc arr e ks d l t R U. destruct (session_books cyc arr e ks d l t R U) as (t' & (L & _) & _). exact L. Qed.
Print Assumptions C87_list.
(** ... and the numbers of executions of every node in the environment sequence scale and over the
    scheduler's life grow by the number of those sets that contain it, plus at most one for every
    exception (nodes accepted for a set that was never yielded). *)
Theorem C87_counts : forall cyc arr e ks d l t, recorded (d_ctxs d e) l t -> stamped (d_ctxs d e) \/ timeless cyc arr e ks d ->
  exists t', x_total (d_ctxs (after_all cyc arr ks d) e) = Some t' /\
  forall s n, s = ES \/ s = LIFE ->
    t s n + occurrences n (received cyc arr e ks d) <= t' s n <= t s n + occurrences n (received cyc arr e ks d) + failures cyc arr e ks d.
Proof.
  intros cyc arr e ks d l t R U. destruct (session_books cyc arr e ks d l t R U) as (t' & (_ & T) & H). exists t'. split; [exact T|].
  intros s n [->| ->]; apply H; reflexivity.
Qed.
Print Assumptions C87_counts.
(** Without exceptions the counts are exact. *)
Theorem C87_exact : forall cyc arr e ks d l t, recorded (d_ctxs d e) l t -> stamped (d_ctxs d e) \/ timeless cyc arr e ks d -> failures cyc arr e ks d = 0 ->
  exists t', x_total (d_ctxs (after_all cyc arr ks d) e) = Some t' /\
  forall s n, s = ES \/ s = LIFE -> t' s n = t s n + occurrences n (received cyc arr e ks d).
Proof.
  intros cyc arr e ks d l t R U F. destruct (C87_counts cyc arr e ks d l t R U) as (t' & T & H). exists t'. split; [exact T|].
  intros s n S. specialize (H s n S). lia.
Qed.
Print Assumptions C87_exact.
(** A generator that returns gives the whole list: everything received for its execution id, not
    only what it yielded itself. *)
Theorem C87_returns : forall cyc arr e ks d l t f g d' g' out, recorded (d_ctxs d e) l t -> g_eid g = e -> stamped (d_ctxs d e) \/ timeless cyc arr e (ks ++ [CNext f g]) d ->
  sresume cyc arr f (after_all cyc arr ks d) g = (d', g', OReturn out) -> out = l ++ received cyc arr e ks d.
Proof. exact session_returns. Qed.
Print Assumptions C87_returns.
(** A new scheduler has empty records for its own execution id: from its creation on, its list is
    what was received, and its counts are the numbers of occurrences in it. *)
Theorem C87_new : forall cyc arr input conds tc e exact du ow nx w r d ks,
  new_sched cyc arr input conds tc e exact du ow nx w = (r, d) -> failures cyc arr e ks d = 0 ->
  x_list (d_ctxs (after_all cyc arr ks d) e) = Some (received cyc arr e ks d) /\ history_agrees (d_ctxs (after_all cyc arr ks d) e).
Proof.
  intros cyc arr input conds tc e exact du ow nx w r d ks H F.
  assert (R : recorded (d_ctxs d e) [] zero_total /\ stamped (d_ctxs d e)).
  { rewrite (new_sched_ctxs _ _ _ _ _ _ _ _ _ _ _ _ _ H), upd_same. unfold recorded, stamped, fresh_ctx; simpl. repeat split. discriminate. }
  destruct R as [R S]. pose proof (C87_list cyc arr e ks d _ _ R (or_introl S)) as L. simpl in L. destruct (C87_exact cyc arr e ks d _ _ R (or_introl S) F) as (t' & T & C).
  split; [exact L|]. exists t', (received cyc arr e ks d). split; [exact T|]. split; [exact L|]. intros n. rewrite (C LIFE n); auto.
Qed.
Print Assumptions C87_new.
(** The generators of one execution id do disturb each other, though: with B behind A, a second
    run of the same id makes the first one yield something else than when it is alone. *)
Definition led_d : sched := t_sched [(tA, []); (tB, [tA])] [(tA, Always 10); (tB, EveryNCalls 11 tA 1)].
Notation led_after ks d := (after_all ref_simple_cycles (fun q => q) ks d).
Notation led_next d g := (sresume ref_simple_cycles (fun q => q) 5 d g).
Definition led_g : gen := new_gen 0 0 (Some (t_tc None (Some (AfterNCalls 90 tA 5 ESU)))) false.
Definition led_g1 : gen := snd (fst (led_next led_d led_g)).
Theorem C87_independent_refuted : exists d g g1 d1, sresume ref_simple_cycles (fun q => q) 5 d g = (d1, g1, OYield [tA]) /\
  snd (sresume ref_simple_cycles (fun q => q) 5 d1 g1) = OYield [tB] /\
  (let d2 := after_all ref_simple_cycles (fun q => q) [CNext 5 g; CNext 5 g1] d1 in
   snd (sresume ref_simple_cycles (fun q => q) 5 d2 g1) <> OYield [tB]).
Proof.
  exists led_d, led_g, led_g1, (fst (fst (led_next led_d led_g))). split; [|split].
  - unfold led_g1. assert (O : snd (led_next led_d led_g) = OYield [tA]) by (vm_compute; reflexivity).
    rewrite <- O. destruct (led_next led_d led_g) as [[d1 g1] o]. reflexivity.
  - vm_compute; reflexivity.
  - vm_compute; discriminate.
Qed.
Print Assumptions C87_independent_refuted.
(** Two generators of execution id 0 and one of another id, interleaved, with a condition added in between and
    a node whose condition raises. *)
Definition led_bad : anycond := Basic (CAtom 20 (ACustom (fun _ _ _ w => (Err (EUser 1), w)))).
Definition led_ks : list call :=
  [CNext 5 led_g; CNext 5 led_g; CNext 5 (new_gen 1 0 None false); CEndSequence 0; CNext 5 led_g1; CSet (SAdd tB led_bad); CNext 5 led_g1].
Example ex_C87 : recorded (d_ctxs led_d 0) [] zero_total /\ stamped (d_ctxs led_d 0) /\
  received ref_simple_cycles (fun q => q) 0 led_ks led_d = [[tA]; [tA]; [tB]] /\ failures ref_simple_cycles (fun q => q) 0 led_ks led_d = 1 /\
  x_list (d_ctxs (led_after led_ks led_d) 0) = Some [[tA]; [tA]; [tB]] /\
  option_map (fun t => (t LIFE tA, t ES tB)) (x_total (d_ctxs (led_after led_ks led_d) 0)) = Some (2, 1).
Proof. repeat split; try (vm_compute; reflexivity); vm_compute; discriminate. Qed.
(** the same calls again, for the other execution id: it inherited a list when its run was started *)
Example ex_C87_other : let d := led_after led_ks led_d in
  (exists t, recorded (d_ctxs d 1) [[tA]; [tA]; [tA]] t) /\ ~ stamped (d_ctxs d 1) /\
  timeless ref_simple_cycles (fun q => q) 1 (led_ks ++ [CNext 5 (new_gen 1 0 None false)]) d /\
  received ref_simple_cycles (fun q => q) 1 (led_ks ++ [CNext 5 (new_gen 1 0 None false)]) d = [[tA]; [tA]].
Proof.
  split; [eexists; split; vm_compute; reflexivity|]. split; [intros H; apply H; vm_compute; reflexivity|].
  split; [|vm_compute; reflexivity]. repeat split; try (intros E; discriminate E); intros _; vm_compute; reflexivity.
Qed.
(** In absolute time mode another execution id has no list of times: the first set is recorded, an
    exception is raised, and the caller never receives it. *)
Definition led_abs : sched := t_sched [(tA, [])] [(tA, CAtom 10 (ATimeInterval (Some (ms 2)) None None true true))].
Theorem C87_untimed_refuted : exists d ks l t, recorded (d_ctxs d 1) l t /\
  x_list (d_ctxs (after_all ref_simple_cycles (fun q => q) ks d) 1) <> Some (l ++ received ref_simple_cycles (fun q => q) 1 ks d).
Proof.
  exists (led_after [CNext 5 (new_gen 1 0 None false)] led_abs), [CNext 5 (new_gen 1 0 None false)], [[tA]].
  eexists. split; [split; vm_compute; reflexivity|vm_compute; discriminate].
Qed.
Print Assumptions C87_untimed_refuted.
