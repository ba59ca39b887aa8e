(** C81: termination conditions that stay true only decide when a run ends *)
From Verif Require Import SpecHalt HaltFacts Tests.
From Verif Require RegisteredFacts SpecRegistered.

(** Two runs of a scheduler from the same state, with different conditions for ending, each of
    which can always be evaluated and stays true for the rest of the run once it is true (and
    with or without advancing the clock at the end).  One of the two runs yields what the other
    yields and ends in the same way, or it returns after a beginning of what the other yields. *)
Theorem C81_compare : forall cyc arr d e, can_run (core_of d) e ->
  forall steps fuel b a a' skip skip', ends_for_good d a -> ends_for_good d a' ->
  let r := result_of (sdrive cyc arr steps fuel d (new_gen e b a skip) []) in
  let r' := result_of (sdrive cyc arr steps fuel d (new_gen e b a' skip') []) in
  shorter r r' \/ shorter r' r.
Proof. exact sched_compare. Qed.
Print Assumptions C81_compare.
(** Conditions that are true together give the same run. *)
Theorem C81_same : forall cyc arr d e, can_run (core_of d) e ->
  forall steps fuel b a a' skip skip', ends_for_good d a -> ends_for_good d a' ->
  (forall v ow, view_in_run (d_nodes d) v -> holds v e ow (in_force (core_of d) a) <-> holds v e ow (in_force (core_of d) a')) ->
  same_result (result_of (sdrive cyc arr steps fuel d (new_gen e b a skip) [])) (result_of (sdrive cyc arr steps fuel d (new_gen e b a' skip') [])).
Proof. exact sched_same. Qed.
Print Assumptions C81_same.
(** run(termination_conds={ESU: Any(c1, c2)}) is the shorter of the runs with c1 and with c2, *)
Theorem C81_any : forall cyc arr d e, can_run (core_of d) e ->
  forall steps fuel b o c1 c2 skip, ends_for_good d None -> stays_true (d_nodes d) c1 -> stays_true (d_nodes d) c2 ->
  let r c := result_of (sdrive cyc arr steps fuel d (new_gen e b (at_update c) skip) []) in
  (same_result (r c1) (r (Any o [c1; c2])) /\ shorter (r c1) (r c2)) \/ (same_result (r c2) (r (Any o [c1; c2])) /\ shorter (r c2) (r c1)).
Proof. exact sched_any. Qed.
Print Assumptions C81_any.
(** and that with All(c1, c2) is the longer of the two. *)
Theorem C81_all : forall cyc arr d e, can_run (core_of d) e ->
  forall steps fuel b o c1 c2 skip, ends_for_good d None -> stays_true (d_nodes d) c1 -> stays_true (d_nodes d) c2 ->
  let r c := result_of (sdrive cyc arr steps fuel d (new_gen e b (at_update c) skip) []) in
  (same_result (r c1) (r (All o [c1; c2])) /\ shorter (r c2) (r c1)) \/ (same_result (r c2) (r (All o [c1; c2])) /\ shorter (r c1) (r c2)).
Proof. exact sched_all. Qed.
Print Assumptions C81_all.
(** Which of the two time scales has which condition makes no difference. *)
Theorem C81_scale : forall cyc arr d e, can_run (core_of d) e ->
  forall steps fuel b c c' skip skip', ends_for_good d (at_both c c') ->
  same_result (result_of (sdrive cyc arr steps fuel d (new_gen e b (at_both c c') skip) [])) (result_of (sdrive cyc arr steps fuel d (new_gen e b (at_both c' c) skip') [])).
Proof. exact sched_swap. Qed.
Print Assumptions C81_scale.
(** Which conditions stay true is seen from their form: AfterNCalls, AfterNPasses, AllHaveRun
    and the like for the update or a coarser scale, and All and Any of such. *)
Theorem C81_conditions : forall ns c, only_grows ns c = true -> stays_true ns c.
Proof. exact grows_stays. Qed.
Print Assumptions C81_conditions.
(** A new scheduler whose conditions do not use absolute time, with the default termination
    conditions or such conditions. *)
Theorem C81_new_scheduler : forall cyc arr input base conds tc deid exact du ow nx w r d e, arg_graph input = Ok base ->
  new_sched cyc arr input conds tc deid exact du ow nx w = (Ok r, d) ->
  (forall n c, In (n, c) (cs_basic (d_cs d)) -> is_absolute c = false) ->
  (forall t s c, tc = Some t -> t s = Some c -> only_grows (gkeys base) c = true) ->
  can_run (core_of d) e /\ ends_for_good d None.
Proof.
  intros cyc arr input base conds tc deid exact du ow nx w r d e AG E B T.
  destruct (RegisteredFacts.new_sched_facts _ _ _ _ _ _ _ _ _ _ _ _ _ _ AG E) as (N & _ & _ & _ & _ & X & TC & _).
  split; [constructor; auto|].
  - exists []. constructor. cbn [core_of m_ctxs]. rewrite X. unfold upd. destruct (Nat.eqb _ _); reflexivity.
  - unfold ends_for_good, in_force, stay_true. cbn [core_of m_tconds]. rewrite N, !TC.
    assert (D : forall s c, default_tc 0 1 s = Some c -> stays_true (gkeys base) c).
    { intros s c H. apply grows_stays. destruct s; try discriminate H; injection H as H; subst c; reflexivity. }
    unfold SpecRegistered.given_first. destruct tc as [t|].
    + unfold SpecRegistered.over. split; [destruct (t ESU); discriminate|]. split; [destruct (t ES); discriminate|].
      intros s c H. rewrite TC in H. unfold SpecRegistered.given_first, SpecRegistered.over in H. destruct (t s) as [c'|] eqn:Q; [injection H as <-; apply grows_stays; eauto|eapply D; eauto].
    + split; [discriminate|]. split; [discriminate|]. intros s c H. rewrite TC in H. eapply D; eauto.
Qed.
Print Assumptions C81_new_scheduler.

(** A -> B -> C, B after every two calls of A, C after every two of B.  The run with "C has been called once"
    yields a beginning of that with "A has been called 6 times", so Any of the two is the first
    and All the second. *)
Definition ex_halt_new := new_sched ref_simple_cycles (fun q => q) (t_graph gABC)
  [(tA, One (Basic (Always 10))); (tB, One (Basic (EveryNCalls 12 tA 2))); (tC, One (Basic (EveryNCalls 13 tB 2)))]
  None 0 false (ms 1) (fun _ => None) 100 t_world.
Definition ex_halt : sched := snd ex_halt_new.
Definition ex_halt1 : cond := AfterNCalls 91 tC 1 ESU.
Definition ex_halt2 : cond := AfterNCalls 92 tA 6 ESU.
Example ex_C81 : can_run (core_of ex_halt) 0 /\ ends_for_good ex_halt None /\ stays_true (d_nodes ex_halt) ex_halt1 /\ stays_true (d_nodes ex_halt) ex_halt2 /\
  ends_for_good ex_halt (at_both ex_halt1 ex_halt2) /\
  t_out (at_update ex_halt1) ex_halt = [[tA]; [tA]; [tB]; [tA]; [tA]; [tB]; [tC]] /\
  t_out (at_update ex_halt2) ex_halt = [[tA]; [tA]; [tB]; [tA]; [tA]; [tB]; [tC]; [tA]; [tA]] /\
  t_out (at_update (Any 93 [ex_halt1; ex_halt2])) ex_halt = t_out (at_update ex_halt1) ex_halt /\
  t_out (at_update (All 93 [ex_halt1; ex_halt2])) ex_halt = t_out (at_update ex_halt2) ex_halt /\
  t_out (at_both ex_halt1 ex_halt2) ex_halt = t_out (at_update ex_halt1) ex_halt.
Proof.
  assert (N : ex_halt_new = (Ok tt, ex_halt)) by (vm_compute; reflexivity).
  assert (X : can_run (core_of ex_halt) 0 /\ ends_for_good ex_halt None).
  { eapply (C81_new_scheduler _ _ (t_graph gABC) gABC); [reflexivity|exact N| |discriminate].
    intros n c H. vm_compute in H. repeat (destruct H as [H|H]; [injection H as <- <-; reflexivity|]). destruct H. }
  assert (S1 : stays_true (d_nodes ex_halt) ex_halt1) by (apply grows_stays; vm_compute; reflexivity).
  assert (S2 : stays_true (d_nodes ex_halt) ex_halt2) by (apply grows_stays; vm_compute; reflexivity).
  destruct X as [X Y]. split; [exact X|]. split; [exact Y|]. split; [exact S1|]. split; [exact S2|].
  split; [|repeat (split; [vm_compute; reflexivity|]); vm_compute; reflexivity].
  split; [discriminate|]. split; [discriminate|]. intros s c H.
  assert (Z : s = ESU /\ c = ex_halt1 \/ s = ES /\ c = ex_halt2).
  { clear - H. destruct s; [..|]; try (left; split; [reflexivity|]; injection H as <-; reflexivity); try (right; split; [reflexivity|]; injection H as <-; reflexivity); vm_compute in H; discriminate. }
  destruct Z as [[_ ->]|[_ ->]]; [exact S1|exact S2].
Qed.

(** A condition that becomes false again does not only decide when the run ends: "A has been
    called, and this is pass 0" is true after the first A, so that the pass ends there; in the
    next pass it is false, and the run goes on.  B is left out of the first pass, and neither
    run yields a beginning of what the other yields (see also C09). *)
Definition ex_mid : cond := All 94 [AtPass 95 0 ESU; AfterNCalls 92 tA 1 ESU].
Theorem C81_mid_pass_refuted :
  let d := t_sched gAB [(tA, Always 10); (tB, Always 12)] in
  let two := AfterNPasses 91 2 ESU in
  let r c := result_of (t_run (at_update c) d) in
  fst (r two) = [[tA]; [tB]; [tA]; [tB]] /\ fst (r (Any 93 [two; ex_mid])) = [[tA]; [tA]; [tB]] /\
  ~ shorter (r two) (r (Any 93 [two; ex_mid])) /\ ~ shorter (r (Any 93 [two; ex_mid])) (r two) /\
  can_run (core_of d) 0 /\ ends_for_good d None /\ stays_true (d_nodes d) two.
Proof.
  intros d two r.
  assert (R1 : fst (r two) = [[tA]; [tB]; [tA]; [tB]]) by (vm_compute; reflexivity).
  assert (R2 : fst (r (Any 93 [two; ex_mid])) = [[tA]; [tA]; [tB]]) by (vm_compute; reflexivity).
  assert (N : new_sched ref_simple_cycles (fun q => q) (t_graph gAB) [(tA, One (Basic (Always 10))); (tB, One (Basic (Always 12)))] None 0 false (ms 1) (fun _ => None) 100 t_world = (Ok tt, d)) by (vm_compute; reflexivity).
  assert (X : can_run (core_of d) 0 /\ ends_for_good d None).
  { eapply (C81_new_scheduler _ _ (t_graph gAB) gAB); [reflexivity|exact N| |discriminate].
    intros n c H. vm_compute in H. repeat (destruct H as [H|H]; [injection H as <- <-; reflexivity|]). destruct H. }
  split; [exact R1|]. split; [exact R2|]. unfold shorter, no_more_than. rewrite R1, R2.
  split; [intros [[H _]|(x & l & H & _)]; discriminate|]. split; [intros [[H _]|(x & l & H & _)]; discriminate|].
  destruct X as [X Y]. split; [exact X|]. split; [exact Y|]. apply grows_stays. vm_compute. reflexivity.
Qed.
Print Assumptions C81_mid_pass_refuted.
