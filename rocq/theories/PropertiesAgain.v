(** C80: runs whose conditions speak about the run only go the same way every time *)
From Verif Require Import SpecAgain AgainFacts Tests.

(** A run of execution id e whose conditions (of the nodes, and for termination) depend on the
    current run only, and that starts at the beginning of an environment state update.  If it
    returns having yielded ys, then the next run of e with the same arguments yields ys again;
    the list that it returns is the earlier one followed by ys; and the run after it is in the
    same position. *)
Theorem C80_again : forall cyc arr steps fuel d e b tcarg d1 g1 ys l, repeatable (core_of d) e b tcarg ->
  sdrive cyc arr steps fuel d (new_gen e b tcarg false) [] = (d1, g1, ys, OReturn l) ->
  repeatable (core_of d1) e b tcarg /\
  forall b', exists d2 g2, sdrive cyc arr steps fuel d1 (new_gen e b' tcarg false) [] = (d2, g2, ys, OReturn (l ++ ys)).
Proof. exact again_sched. Qed.
Print Assumptions C80_again.
(** Hence list(run(...)) n times gives the same list of sets n times. *)
Theorem C80_every_time : forall cyc arr steps fuel d e b tcarg d1 g1 ys l, repeatable (core_of d) e b tcarg ->
  sdrive cyc arr steps fuel d (new_gen e b tcarg false) [] = (d1, g1, ys, OReturn l) ->
  forall n, exists d2, runs_in_turn cyc arr steps fuel (new_gen e b tcarg false) n d (repeat ys n) d2.
Proof. exact every_time. Qed.
Print Assumptions C80_every_time.
(** Runs of two schedulers that are set up in the same way, with any pasts and under any
    execution ids, each at the beginning of an environment state update: the same sets and the
    same ending. *)
Theorem C80_two_runs : forall steps fuel m m' e e' b b' tcarg skip,
  same_set_up m m' -> all_about_the_run m tcarg -> same_world e e' (m_cst m) (m_cst m') ->
  at_beginning m e -> at_beginning m' e' -> has_records m e b -> has_records m' e' b' ->
  let '(_, _, ys, o) := drive steps fuel m (new_gen e b tcarg skip) [] in
  let '(_, _, ys', o') := drive steps fuel m' (new_gen e' b' tcarg skip) [] in
  ys' = ys /\ same_outcome o o'.
Proof. exact two_runs. Qed.
Print Assumptions C80_two_runs.
(** Which conditions depend on the run only is seen from their form. *)
Theorem C80_conditions : forall c, speaks_of_the_run c = true -> of_the_run c /\ no_side_effects c.
Proof. intros c H. split; [exact (speaks_of _ H)|exact (speaks_quiet _ H)]. Qed.
Print Assumptions C80_conditions.
(** A new scheduler with such conditions, run under its default execution id, or under another
    one based on it. *)
Theorem C80_new_scheduler : forall cyc arr input base conds tc deid exact du ow nx w r d e b tcarg, arg_graph input = Ok base ->
  new_sched cyc arr input conds tc deid exact du ow nx w = (Ok r, d) -> (e = deid \/ b = deid) ->
  (forall n c, In (n, c) (cs_basic (d_cs d)) -> speaks_of_the_run c = true) ->
  (forall t s c, tc = Some t \/ tcarg = Some t -> t s = Some c -> speaks_of_the_run c = true) ->
  repeatable (core_of d) e b tcarg.
Proof. exact again_new. Qed.
Print Assumptions C80_new_scheduler.

(** A -> B -> C: A not in pass 1, B after every two calls of A, C when B has been called
    twice in the run; the run ends when C has been called once *)
Definition ex_again_new := new_sched ref_simple_cycles (fun q => q) (t_graph gABC)
  [(tA, One (Basic (Not 10 (AtPass 11 1 ESU)))); (tB, One (Basic (EveryNCalls 12 tA 2))); (tC, One (Basic (AfterNCalls 13 tB 2 ESU)))]
  None 0 false (ms 1) (fun _ => None) 100 t_world.
Definition ex_again : sched := snd ex_again_new.
Definition ex_again_tc : option tconds := Some (t_tc None (Some (AfterNCalls 91 tC 1 ESU))).
Definition ex_again_sets : list (list node) := [[tA]; []; [tA]; [tB]; [tA]; [tA]; [tB]; [tC]].
Example ex_C80 : repeatable (core_of ex_again) 0 0 ex_again_tc /\
  t_out ex_again_tc ex_again = ex_again_sets /\ t_out ex_again_tc (t_after ex_again_tc ex_again) = ex_again_sets /\
  (forall n, exists d2, runs_in_turn ref_simple_cycles (fun q => q) 200 5 (new_gen 0 0 ex_again_tc false) n ex_again (repeat ex_again_sets n) d2).
Proof.
  assert (N : ex_again_new = (Ok tt, ex_again)) by (vm_compute; reflexivity).
  assert (R : repeatable (core_of ex_again) 0 0 ex_again_tc).
  { eapply (C80_new_scheduler _ _ (t_graph gABC) gABC); [reflexivity|exact N|auto| |].
    - intros n c H. vm_compute in H. repeat (destruct H as [H|H]; [injection H as <- <-; reflexivity|]). destruct H.
    - intros t s c [H|H] H'; [discriminate|]. injection H as <-. destruct s; simpl in H'; try discriminate; injection H' as <-; reflexivity. }
  split; [exact R|]. split; [vm_compute; reflexivity|]. split; [vm_compute; reflexivity|].
  destruct (sdrive ref_simple_cycles (fun q => q) 200 5 ex_again (new_gen 0 0 ex_again_tc false) []) as [[[d1 g1] ys] o] eqn:E.
  assert (O : (let '(_, _, ys, o) := sdrive ref_simple_cycles (fun q => q) 200 5 ex_again (new_gen 0 0 ex_again_tc false) [] in (ys, o)) = (ex_again_sets, OReturn ex_again_sets)) by (vm_compute; reflexivity).
  rewrite E in O. injection O as -> ->. exact (C80_every_time _ _ _ _ _ _ _ _ _ _ _ _ R E).
Qed.

(** What the hypotheses exclude does differ from run to run.  With NWhen (which counts its
    satisfactions per execution id and is never reset): A at most once runs once in the first
    run and not at all in the second.  With skip_environment_state_update_time_increment=True,
    the clock stays where the first run ended, so that passes are not counted from 0 in the
    second: "after 2 passes" holds at once, and the second run yields nothing. *)
Definition ex_again_tc2 : option tconds := Some (t_tc None (Some (AfterNPasses 91 2 ESU))).
Definition ex_nwhen : sched := t_sched gAB [(tA, NWhen 10 (Always 11) 1); (tB, Always 12)].
Theorem C80_nwhen_refuted :
  t_out ex_again_tc2 ex_nwhen = [[tA]; [tB]; [tB]] /\ t_out ex_again_tc2 (t_after ex_again_tc2 ex_nwhen) = [[tB]; [tB]].
Proof. split; vm_compute; reflexivity. Qed.
Print Assumptions C80_nwhen_refuted.
Definition ex_skip_run (d : sched) := sdrive ref_simple_cycles (fun q => q) 200 5 d (new_gen 0 0 ex_again_tc2 true) [].
Theorem C80_skip_refuted :
  let d := t_sched gAB [(tA, Always 10); (tB, Always 12)] in
  (let '(_, _, ys, _) := ex_skip_run d in ys) = [[tA]; [tB]; [tA]; [tB]] /\
  (let '(_, _, ys, _) := ex_skip_run (let '(d1, _, _, _) := ex_skip_run d in d1) in ys) = [] /\
  speaks_of_the_run (Always 10) = true /\ speaks_of_the_run (AfterNPasses 91 2 ESU) = true.
Proof. split; [|split; [|split]]; vm_compute; reflexivity. Qed.
Print Assumptions C80_skip_refuted.
