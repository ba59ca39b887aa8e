(** C77: what changing yielded sets or execution_list does to a run *)
From Verif Require Import SpecTamper TamperFacts RunExamples.

(** Whatever a user does to the contents of execution_list between receiving sets, in
    particular to the sets received, the run goes on as if they had not: the same sets in the
    same order, the same counts, times and conditions, and the same ending but for the list
    that is returned; provided no condition reads execution_list. *)
Theorem C77_schedule : forall t steps fuel m e base tcarg skip,
  (forall k x, same_but_lists x (t k x)) ->
  (forall n c, aget n (m_basic m) = Some c -> ignores_lists c) -> all_ignore (m_tconds m) ->
  (forall tc, tcarg = Some tc -> all_ignore tc) ->
  match drive steps fuel m (new_gen e base tcarg skip) [], drive_tampering t steps fuel m (new_gen e base tcarg skip) [] with
  | (m1, g1, ys1, o1), (m2, g2, ys2, o2) => ys2 = ys1 /\ g2 = g1 /\ same_outcome o1 o2 /\ same_but_lists m1 m2
  end.
Proof.
  intros t steps fuel m e base tcarg skip HT B MT TA.
  assert (G : gen_ignores (new_gen e base tcarg skip)) by (split; [intros s c; simpl; discriminate|exact TA]).
  assert (R : ign m m) by (split; [apply sb_refl|exact B]).
  pose proof (drive_keeps t steps fuel m m (new_gen e base tcarg skip) [] HT R MT G) as P.
  destruct (drive _ _ _ _ _) as [[[m1 g1] ys1] o1], (drive_tampering _ _ _ _ _ _) as [[[m2 g2] ys2] o2].
  destruct P as (I1 & -> & -> & O). split; auto. split; auto. split; auto. apply I1.
Qed.
Print Assumptions C77_schedule.
(** JustRan is the only condition of the library that reads it. *)
Theorem C77_built_in : forall c, without_just_ran c = true -> ignores_lists c.
Proof. exact built_in_ignores. Qed.
Print Assumptions C77_built_in.
(** Changing the set received last is such a change. *)
Theorem C77_yielded_set : forall f e m, same_but_lists m (change_last f e m).
Proof. exact change_last_lists. Qed.
Print Assumptions C77_yielded_set.

(* a user who empties every set they receive *)
Definition emptying (k : nat) (m : core) : core := match k with 0 => m | _ => change_last (fun _ => []) 0 m end.
Definition ex_drive := drive 20 5 ex_core ex_gen [].
Definition ex_emptied := drive_tampering emptying 20 5 ex_core ex_gen [].
(** finding: the sets yielded are those of execution_list, which a user therefore changes
    with them: emptied after use they are empty in the list that run returns *)
Theorem C77_execution_list_refuted :
  (forall k x, same_but_lists x (emptying k x)) /\
  snd (fst ex_emptied) = snd (fst ex_drive) /\ snd ex_drive = OReturn (snd (fst ex_drive)) /\ length (snd (fst ex_drive)) = 7 /\
  snd ex_emptied = OReturn (repeat [] 7).
Proof.
  split; [intros [|k] x; [apply sb_refl|apply change_last_lists]|]. split; [vm_compute; reflexivity|]. split; [vm_compute; reflexivity|]. split; vm_compute; reflexivity.
Qed.
Print Assumptions C77_execution_list_refuted.
(** finding: with JustRan they even change the schedule.  A -> B, B with JustRan(A): B runs
    after A, but not if the user has emptied the set in which they received A *)
Definition jr_core : core := core_of (t_sched gAB [(tA, Always 10); (tB, JustRan 11 tA)]).
Definition jr_gen : gen := new_gen 0 0 (Some (t_tc None (Some (AfterNCalls 91 tA 2 ESU)))) false.
Theorem C77_just_ran_refuted :
  snd (fst (drive 20 5 jr_core jr_gen [])) = [[tA]; [tB]; [tA]] /\
  snd (fst (drive_tampering emptying 20 5 jr_core jr_gen [])) = [[tA]; [tA]].
Proof. split; vm_compute; reflexivity. Qed.
Print Assumptions C77_just_ran_refuted.

(** the example of C77_execution_list_refuted meets the hypotheses of C77_schedule *)
Example ex_C77 : (forall n c, aget n (m_basic ex_core) = Some c -> ignores_lists c) /\ all_ignore (m_tconds ex_core) /\
  (forall tc, g_tcarg ex_gen = Some tc -> all_ignore tc).
Proof.
  split; [|split].
  - intros n c H. apply built_in_ignores. apply aget_In in H. vm_compute in H. repeat (destruct H as [H|H]; [injection H as _ <-; reflexivity|]). destruct H.
  - intros s c H. apply built_in_ignores. destruct s; vm_compute in H; try discriminate; injection H as <-; reflexivity.
  - intros tc E s c H. apply built_in_ignores. injection E as <-. destruct s; vm_compute in H; try discriminate; injection H as <-; reflexivity.
Qed.
