(** Property C56: runs during which graph, conditions or anything else but the run's own
    entries are changed while the generator is suspended.

    [srunning cyc arr d0 g0 ts d g] (SpecChange.v): the generator g0 was created in scheduler
    state d0 and has yielded the sets [map snd ts], in the passes [map fst ts]; between
    the yields the scheduler may have been brought into any state in which the entries
    (clock, counts, execution list) of the generator's execution id are the same. *)
From Verif Require Import SpecChange RunProofs RunChange ChangeFacts Tests.

(** Adding and removing conditions of all kinds, reading the graph, setting termination
    conditions, and running or ending sequences with other execution ids are such changes,
    also when they raise. *)
Theorem C56_calls_allowed : forall cyc arr e k d, elsewhere e k -> d_ctxs (after cyc arr k d) e = d_ctxs d e.
Proof. exact after_elsewhere. Qed.
Print Assumptions C56_calls_allowed.

(** What is yielded: a duplicate-free part of one set of the consideration queue of that moment ... *)
Theorem C56_one_level : forall cyc arr d0 g0 ts d g fuel d' g' s, srunning cyc arr d0 g0 ts d g -> g_pc g0 = PStart ->
  sresume cyc arr fuel d g = (d', g', OYield s) ->
  NoDup s /\ exists q, fst (get_queue cyc arr d) = Ok q /\ (s = [] \/ exists i level, nth_error q i = Some level /\ incl s level).
Proof. intros cyc arr d0 g0 ts d g fuel d' g' s R Hp. exact (schange_one_level cyc arr R Hp fuel d' g' s). Qed.
Print Assumptions C56_one_level.
(** ... that holds no sender with its receiver in the graph of that moment; ... *)
Theorem C56_no_sender_with_receiver : forall cyc arr d0 g0 ts d g fuel d' g' s gr a b, srunning cyc arr d0 g0 ts d g -> g_pc g0 = PStart ->
  sresume cyc arr fuel d g = (d', g', OYield s) ->
  queue_built (core_of d') -> d_exact d' = false -> fst (get_graph cyc arr d) = Ok gr ->
  In a s -> In b s -> edge gr a b -> a = b.
Proof. intros cyc arr d0 g0 ts d g fuel d' g' s gr a b R Hp. exact (schange_no_sender cyc arr R Hp fuel d' g' s gr a b). Qed.
Print Assumptions C56_no_sender_with_receiver.
(** ... the conditions of the nodes in it, as they are registered at that moment, were true, ... *)
Theorem C56_sound : forall cyc arr d0 g0 ts d g fuel d' g' s, srunning cyc arr d0 g0 ts d g -> g_pc g0 = PStart ->
  sresume cyc arr fuel d g = (d', g', OYield s) ->
  forall b n r, s = b ++ n :: r -> exists v, considered (core_of d') (g_eid g0) (map snd ts) s b v /\
    condition_was (core_of d) (core_of d') g' v n true.
Proof. intros cyc arr d0 g0 ts d g fuel d' g' s R Hp. exact (schange_sound cyc arr R Hp fuel d' g' s). Qed.
Print Assumptions C56_sound.
(** ... those of the other nodes of the level were false, and so were the termination conditions *)
Theorem C56_maximal : forall cyc arr d0 g0 ts d g fuel d' g' s, srunning cyc arr d0 g0 ts d g -> g_pc g0 = PStart ->
  sresume cyc arr fuel d g = (d', g', OYield s) -> s <> [] \/ g_abs g' = true ->
  exists q i level, fst (get_queue cyc arr d) = Ok q /\ nth_error q i = Some level /\ incl s level /\
    (forall n, In n level -> ~ In n s -> exists v, considered (core_of d') (g_eid g0) (map snd ts) s s v /\ condition_was (core_of d) (core_of d') g' v n false) /\
    (exists v, considered (core_of d') (g_eid g0) (map snd ts) s [] v /\ termination_was_false (core_of d) (core_of d') g' v).
Proof. intros cyc arr d0 g0 ts d g fuel d' g' s R Hp. exact (schange_maximal cyc arr R Hp fuel d' g' s). Qed.
Print Assumptions C56_maximal.
(** an empty set means that a termination condition was true during the pass or that no condition was *)
Theorem C56_empty_set : forall cyc arr d0 g0 ts d g fuel d' g', srunning cyc arr d0 g0 ts d g -> g_pc g0 = PStart ->
  sresume cyc arr fuel d g = (d', g', OYield []) -> g_abs g' = false ->
  in_pass (s_pass d' (g_eid g0)) ts = [] /\
  ((exists v c st st', considered (core_of d') (g_eid g0) (map snd ts) [] [] v /\ (g_tc g' ESU = Some c \/ g_tc g' ES = Some c) /\
      evolves (used (core_of d') (g_tc g')) (g_eid g') (d_owners d') (d_cst d) st /\ eval v (g_eid g') (d_owners d') c st = (Ok true, st'))
  \/ exists q, fst (get_queue cyc arr d) = Ok q /\ forall level n, In level q -> In n level ->
       exists v, considered (core_of d') (g_eid g0) (map snd ts) [] [] v /\ condition_was (core_of d) (core_of d') g' v n false).
Proof. intros cyc arr d0 g0 ts d g fuel d' g' R Hp. exact (schange_idle cyc arr R Hp fuel d' g'). Qed.
Print Assumptions C56_empty_set.
(** resuming never hangs (without absolute time) *)
Theorem C56_progress : forall cyc arr d0 g0 ts d g fuel, srunning cyc arr d0 g0 ts d g -> g_pc g0 = PStart ->
  uses_absolute (core_of d) g = false -> snd (sresume cyc arr (S fuel) d g) <> OFuel.
Proof. intros cyc arr d0 g0 ts d g fuel R Hp. exact (schange_progress cyc arr R Hp fuel). Qed.
Print Assumptions C56_progress.

(** The records stay exact: execution list, counts, clock, timestamps, passes. *)
Theorem C56_execution_list : forall cyc arr d0 g0 ts d g l0, srunning cyc arr d0 g0 ts d g -> g_pc g0 = PStart ->
  x_list (d_ctxs d0 (g_eid g0)) = Some l0 -> x_list (d_ctxs d (g_eid g0)) = Some (l0 ++ map snd ts).
Proof. intros cyc arr d0 g0 ts d g l0 R Hp. exact (change_list (changing _ _ _ _ _ _ _ R) Hp l0). Qed.
Print Assumptions C56_execution_list.
Theorem C56_counts : forall cyc arr d0 g0 ts d g t0, srunning cyc arr d0 g0 ts d g -> g_pc g0 = PStart -> ts <> [] ->
  x_total (d_ctxs d0 (g_eid g0)) = Some t0 ->
  exists t, x_total (d_ctxs d (g_eid g0)) = Some t /\ forall n,
    t LIFE n = t0 LIFE n + occurrences n (map snd ts) /\
    t ES n = t0 ES n + occurrences n (map snd ts) /\
    t ESU n = occurrences n (map snd ts) /\
    t PASS n = occurrences n (in_pass (s_pass d (g_eid g0)) ts) /\
    t CSE n = t PASS n.
Proof. intros cyc arr d0 g0 ts d g t0 R Hp. exact (change_counts (changing _ _ _ _ _ _ _ R) Hp t0). Qed.
Print Assumptions C56_counts.
Theorem C56_agreement_kept : forall cyc arr d0 g0 ts d g, srunning cyc arr d0 g0 ts d g -> g_pc g0 = PStart ->
  history_agrees (d_ctxs d0 (g_eid g0)) -> history_agrees (d_ctxs d (g_eid g0)).
Proof. intros cyc arr d0 g0 ts d g R Hp. exact (change_agrees (changing _ _ _ _ _ _ _ R) Hp). Qed.
Print Assumptions C56_agreement_kept.
Theorem C56_useable : forall cyc arr d0 g0 ts d g, srunning cyc arr d0 g0 ts d g -> g_pc g0 = PStart -> ts <> [] ->
  exists u, x_use (d_ctxs d (g_eid g0)) = Some u /\ use_is u (concat (map snd ts)).
Proof. intros cyc arr d0 g0 ts d g R Hp. exact (change_use (changing _ _ _ _ _ _ _ R) Hp). Qed.
Print Assumptions C56_useable.
Theorem C56_clock : forall cyc arr d0 g0 ts d g h0, srunning cyc arr d0 g0 ts d g -> g_pc g0 = PStart -> ts <> [] ->
  clock_after ESU h0 (the_clock (d_ctxs d0 (g_eid g0))) ->
  exists ev, clock_after ESU (h0 ++ ev) (the_clock (d_ctxs d (g_eid g0))) /\
    S (count CSE ev) = length ts /\ Forall (fun s => ts_le s PASS) ev /\
    s_pass d (g_eid g0) = s_pass d0 (g_eid g0) + count PASS ev.
Proof. intros cyc arr d0 g0 ts d g h0 R Hp. exact (change_clock (changing _ _ _ _ _ _ _ R) Hp h0). Qed.
Print Assumptions C56_clock.
Theorem C56_timestamps : forall cyc arr d0 g0 ts d g h0 ts0, srunning cyc arr d0 g0 ts d g -> g_pc g0 = PStart -> ts <> [] -> g_abs g = true ->
  clock_after ESU h0 (the_clock (d_ctxs d0 (g_eid g0))) -> x_stamps (d_ctxs d0 (g_eid g0)) = Some ts0 ->
  exists st a iv, x_stamps (d_ctxs d (g_eid g0)) = Some (ts0 ++ st) /\ length st = length ts /\
    t_interval (k_time (the_clock (d_ctxs d (g_eid g0)))) = iv /\
    forall i t, nth_error st i = Some t -> (t_abs t == a + inject_Z (Z.of_nat i) * iv)%Q.
Proof. intros cyc arr d0 g0 ts d g h0 ts0 R Hp. exact (change_stamps (changing _ _ _ _ _ _ _ R) Hp h0 ts0). Qed.
Print Assumptions C56_timestamps.
(** pass numbers never decrease; an empty set is alone in its pass; every pass yields *)
Theorem C56_passes : forall cyc arr d0 g0 ts d g i j k k' s s', srunning cyc arr d0 g0 ts d g -> g_pc g0 = PStart ->
  nth_error ts i = Some (k, s) -> nth_error ts j = Some (k', s') -> i < j ->
  s_pass d0 (g_eid g0) <= k <= k' /\ k' <= s_pass d (g_eid g0) /\
  (k = k' -> g_abs g = false -> s <> [] /\ s' <> []).
Proof.
  intros cyc arr d0 g0 ts d g i j k k' s s' R Hp Hi Hj L. apply changing in R.
  destruct (change_order R Hp i j k k' s s' Hi Hj L) as [A B].
  pose proof (change_numbered R Hp _ _ _ Hi) as [C _]. pose proof (change_numbered R Hp _ _ _ Hj) as [_ D]. splits.
Qed.
Print Assumptions C56_passes.
Theorem C56_every_pass_yields : forall cyc arr d0 g0 ts d g k, srunning cyc arr d0 g0 ts d g -> g_pc g0 = PStart -> g_abs g = false -> ts <> [] ->
  s_pass d0 (g_eid g0) <= k <= s_pass d (g_eid g0) -> exists i s, nth_error ts i = Some (k, s).
Proof. intros cyc arr d0 g0 ts d g k R Hp. exact (change_every_pass (changing _ _ _ _ _ _ _ R) Hp k). Qed.
Print Assumptions C56_every_pass_yields.
Theorem C56_returned : forall cyc arr d0 g0 ys d l l0 t0 h0, sreturned cyc arr d0 g0 ys d l -> g_pc g0 = PStart ->
  x_list (d_ctxs d0 (g_eid g0)) = Some l0 -> x_total (d_ctxs d0 (g_eid g0)) = Some t0 ->
  clock_after ESU h0 (the_clock (d_ctxs d0 (g_eid g0))) ->
  (l = l0 ++ ys /\ x_list (d_ctxs d (g_eid g0)) = Some (l0 ++ ys)) /\
  (exists t, x_total (d_ctxs d (g_eid g0)) = Some t /\ forall n,
    t LIFE n = t0 LIFE n + occurrences n ys /\ t ES n = t0 ES n + occurrences n ys /\ t ESU n = occurrences n ys) /\
  (exists ev, clock_after ESU (h0 ++ ev ++ (if g_skip g0 then [] else [ESU])) (the_clock (d_ctxs d (g_eid g0))) /\
    count CSE ev = length ys /\ Forall (fun s => ts_le s PASS) ev).
Proof.
  intros cyc arr d0 g0 ys d l l0 t0 h0 R Hp El Et C. split; [|split].
  - exact (sreturned_list cyc arr R Hp _ El).
  - exact (sreturned_counts cyc arr R Hp _ Et).
  - exact (sreturned_clock cyc arr R Hp _ C).
Qed.
Print Assumptions C56_returned.

(** ** Examples: a script of resumptions and of calls made while the generator is suspended *)
Inductive act := Resume | Do (k : call).
Definition ex_cyc := ref_simple_cycles.
Definition ex_arr (q : list (list node)) := q.
Fixpoint script (l : list act) (d : sched) (g : gen) (ts : list (nat * list node)) : option (list (nat * list node) * sched * gen) :=
  match l with
  | [] => Some (ts, d, g)
  | Do k :: r => script r (after ex_cyc ex_arr k d) g ts
  | Resume :: r => match sresume ex_cyc ex_arr 5 d g with
                   | (d', g', OYield s) => script r d' g' (ts ++ [(s_pass d' (g_eid g), s)])
                   | _ => None
                   end
  end.
Lemma script_running : forall d0 g0 l d g ts ts' d' g', g_pc g0 = PStart -> srunning ex_cyc ex_arr d0 g0 ts d g -> g_eid g = g_eid g0 ->
  Forall (fun a => match a with Do k => elsewhere (g_eid g0) k | Resume => True end) l ->
  script l d g ts = Some (ts', d', g') -> srunning ex_cyc ex_arr d0 g0 ts' d' g' /\ g_eid g' = g_eid g0.
Proof.
  intros d0 g0 l d g ts ts' d' g' Hp. revert d g ts. induction l as [|[|k] l IH]; intros d g ts R Ee F H; inversion F as [|x y F1 F2]; subst; cbn [script] in H.
  - inversion H; subst; auto.
  - destruct (sresume ex_cyc ex_arr 5 d g) as [[d1 g1] o] eqn:E. destruct o; try discriminate. rewrite Ee in H.
    apply IH in H; auto; [eapply sr_yields; eauto|].
    apply (schange_yield ex_cyc ex_arr R Hp _ _ _ _ E).
  - apply IH in H; auto. eapply sr_env; eauto. apply after_elsewhere; auto.
Qed.
Definition ex_script (l : list act) (d : sched) (g : gen) := script l d g [].
Definition s_yields (x : option (list (nat * list node) * sched * gen)) := match x with Some (ts, _, _) => Some ts | None => None end.
Definition ex_always : list node -> list (node * cond) := map (fun n => (n, Always (10 + n))).
Definition ex_gen4 : gen := new_gen 0 0 (Some (t_tc None (Some (AfterNPasses 91 4 ESU)))) false.
Lemma script_gives : forall l d g ts, g_pc g = PStart -> Forall (fun a => match a with Do k => elsewhere (g_eid g) k | Resume => True end) l ->
  s_yields (ex_script l d g) = Some ts -> exists d' g', ex_script l d g = Some (ts, d', g') /\ srunning ex_cyc ex_arr d g ts d' g'.
Proof.
  intros l d g ts Hp F H. unfold ex_script in *. destruct (script l d g []) as [[[t d'] g']|] eqn:E; [|discriminate]. inversion H; subst t.
  exists d', g'. split; auto. eapply script_running; eauto. constructor.
Qed.
(** levels [[A;C];[B]]; after the first pass an edge from A to C is added and B gets another condition *)
Definition ex_grow : list act :=
  [Resume; Resume; Do (CSet (SAdd tA (Struct (mkS 40 (GAddEdgeTo tC))))); Do (CSet (SAdd tB (Basic (AfterNCalls 41 tC 2 ESU)))); Resume; Resume].
Example ex_C56 : exists d g, srunning ex_cyc ex_arr (t_sched [(tA, []); (tB, [tA]); (tC, [])] (ex_always [tA; tB; tC])) ex_gen4
  [(0, [tA; tC]); (0, [tB]); (1, [tA]); (1, [tC; tB])] d g.
Proof.
  edestruct (script_gives ex_grow (t_sched [(tA, []); (tB, [tA]); (tC, [])] (ex_always [tA; tB; tC])) ex_gen4) as (d & g & _ & R);
    [reflexivity|repeat constructor|vm_compute; reflexivity|]. eauto.
Qed.

(** ** Findings *)
(** finding: the position in the consideration queue is kept although the queue changes: a node
    that already ran in this pass can run again in it when its level moves up, ... *)
Theorem C56_once_per_pass_refuted : exists d0 g0 ts d g i j k s s' n, srunning ex_cyc ex_arr d0 g0 ts d g /\ g_pc g0 = PStart /\
  nth_error ts i = Some (k, s) /\ nth_error ts j = Some (k, s') /\ In n s /\ In n s' /\ i <> j.
Proof.
  edestruct (script_gives [Resume; Do (CSet (SAdd tA (Struct (mkS 40 (GAddEdgeTo tC))))); Resume]
    (t_sched [(tA, []); (tB, [tA]); (tC, [])] (ex_always [tA; tB; tC])) ex_gen4) as (d & g & _ & R); [reflexivity|repeat constructor|vm_compute; reflexivity|].
  exists (t_sched [(tA, []); (tB, [tA]); (tC, [])] (ex_always [tA; tB; tC])), ex_gen4, [(0, [tA; tC]); (0, [tB; tC])], d, g, 0, 1, 0, [tA; tC], [tB; tC], tC.
  splits; simpl; auto.
Qed.
Print Assumptions C56_once_per_pass_refuted.
(** ... and a node is passed over in a pass when its level moves down, although its condition is Always *)
Theorem C56_passed_over_refuted : exists d0 g0 ts d g k n o, srunning ex_cyc ex_arr d0 g0 ts d g /\ g_pc g0 = PStart /\
  s_pass d0 (g_eid g0) <= k < s_pass d (g_eid g0) /\ aget n (cs_basic (d_cs d0)) = Some (Always o) /\ aget n (cs_basic (d_cs d)) = Some (Always o) /\
  forall s, In (k, s) ts -> ~ In n s.
Proof.
  edestruct (script_gives [Resume; Do (CSet (SAdd tB (Struct (mkS 40 (GRemoveEdgeFrom tA))))); Resume; Resume]
    (t_sched [(tA, []); (tB, [tA]); (tC, [tB])] (ex_always [tA; tB; tC])) ex_gen4) as (d & g & E & R); [reflexivity|repeat constructor|vm_compute; reflexivity|].
  exists (t_sched [(tA, []); (tB, [tA]); (tC, [tB])] (ex_always [tA; tB; tC])), ex_gen4, [(0, [tA]); (0, [tC]); (1, [tA; tB])], d, g, 0, tB, 11.
  assert (Ed : Some d = match ex_script [Resume; Do (CSet (SAdd tB (Struct (mkS 40 (GRemoveEdgeFrom tA))))); Resume; Resume]
    (t_sched [(tA, []); (tB, [tA]); (tC, [tB])] (ex_always [tA; tB; tC])) ex_gen4 with Some (_, d, _) => Some d | None => None end) by (rewrite E; auto).
  assert (X : forall (P : sched -> Prop), match ex_script [Resume; Do (CSet (SAdd tB (Struct (mkS 40 (GRemoveEdgeFrom tA))))); Resume; Resume]
    (t_sched [(tA, []); (tB, [tA]); (tC, [tB])] (ex_always [tA; tB; tC])) ex_gen4 with Some (_, d, _) => P d | None => False end -> P d).
  { intros P H. rewrite E in H. exact H. }
  splits.
  - apply (X (fun d => s_pass (t_sched [(tA, []); (tB, [tA]); (tC, [tB])] (ex_always [tA; tB; tC])) 0 <= 0 < s_pass d 0)). vm_compute. split; auto.
  - apply (X (fun d => aget tB (cs_basic (d_cs d)) = Some (Always 11))). vm_compute. reflexivity.
  - clear. intros s [I|[I|[I|[]]]]; try discriminate; injection I as <-; intros [B|B]; try discriminate; destruct B.
Qed.
Print Assumptions C56_passed_over_refuted.
(** finding: default conditions are only created when a run starts; when the condition of a node
    is removed while a run is suspended, resuming the run raises KeyError *)
Theorem C56_removed_condition_refuted : exists d0 g0 ts d g d' r, srunning ex_cyc ex_arr d0 g0 ts d g /\ g_pc g0 = PStart /\
  remove_condition_owner tB d = (Ok r, d') /\ snd (sresume ex_cyc ex_arr 5 d' g) = ORaise EKey /\
  exists d1, performs ex_cyc ex_arr [CSet (SRemoveOwner tB)] d0 = Some d1 /\
    forall ex, snd (sdrive ex_cyc ex_arr 20 5 d1 g0 []) <> ORaise ex.
Proof.
  set (dd := t_sched [(tA, []); (tB, [tA]); (tC, [tB])] (ex_always [tA; tB; tC])).
  edestruct (script_gives [Resume] dd ex_gen4) as (d & g & E & R); [reflexivity|repeat constructor|vm_compute; reflexivity|].
  destruct (remove_condition_owner tB d) as [rr d'] eqn:Rm.
  assert (X : match ex_script [Resume] dd ex_gen4 with
              | Some (_, d, g) => match remove_condition_owner tB d with
                                  | (Ok _, d') => snd (sresume ex_cyc ex_arr 5 d' g) = ORaise EKey
                                  | _ => False end
              | None => False end) by (vm_compute; reflexivity).
  rewrite E, Rm in X. destruct rr as [r|]; [|contradiction].
  exists dd, ex_gen4, [(0, [tA])], d, g, d', r. split; [exact R|]. split; [reflexivity|]. split; [exact Rm|]. split; [exact X|].
  destruct (performs ex_cyc ex_arr [CSet (SRemoveOwner tB)] dd) as [d1|] eqn:P.
  - exists d1. split; auto. intros ex Z.
    assert (Y : match performs ex_cyc ex_arr [CSet (SRemoveOwner tB)] dd with
                | Some d1 => match snd (sdrive ex_cyc ex_arr 20 5 d1 ex_gen4 []) with OReturn _ => True | _ => False end
                | None => False end) by (vm_compute; exact I).
    rewrite P, Z in Y. exact Y.
  - assert (Y : match performs ex_cyc ex_arr [CSet (SRemoveOwner tB)] dd with Some _ => True | None => False end) by (vm_compute; exact I).
    rewrite P in Y. contradiction.
Qed.
Print Assumptions C56_removed_condition_refuted.

(** When structural conditions have been left behind that cannot be applied to the graph (an
    add_condition that raised keeps the condition registered), no run goes on: next() on a
    generator yields nothing, adds to no execution list and leaves the generator finished; one that was finished before
    stops as always. *)
Theorem C56_unusable : forall cyc arr fuel d g d' g' o ex,
  fst (get_graph cyc arr d) = Err ex -> sresume cyc arr fuel d g = (d', g', o) ->
  (forall s, o <> OYield s) /\ g_pc g' = PDone /\ (forall e, x_list (d_ctxs d' e) = x_list (d_ctxs d e)) /\
  (g_pc g = PDone -> o = OStop /\ d' = d /\ g' = g).
Proof. exact unusable. Qed.
Print Assumptions C56_unusable.
(** such a call changes no record of what ran: the execution lists, the timestamps and the counts
    over every scale coarser than a pass, in all execution ids, are as before *)
Theorem C56_unusable_records : forall cyc arr fuel d g d' g' o ex,
  fst (get_graph cyc arr d) = Err ex -> sresume cyc arr fuel d g = (d', g', o) ->
  forall e, x_use (d_ctxs d' e) = x_use (d_ctxs d e) /\ x_list (d_ctxs d' e) = x_list (d_ctxs d e) /\ x_stamps (d_ctxs d' e) = x_stamps (d_ctxs d e) /\
    forall t, x_total (d_ctxs d e) = Some t -> exists t', x_total (d_ctxs d' e) = Some t' /\ forall s n, ts_lt PASS s -> t' s n = t s n.
Proof. exact unusable_records. Qed.
Print Assumptions C56_unusable_records.
(** A new run raises the exception that reading the graph raises, and changes no entry of any
    execution id. *)
Theorem C56_unusable_new : forall cyc arr fuel d g d' g' o ex,
  fst (get_graph cyc arr d) = Err ex -> g_pc g = PStart -> sresume cyc arr fuel d g = (d', g', o) ->
  o = ORaise ex /\ d_ctxs d' = d_ctxs d.
Proof. exact unusable_new. Qed.
Print Assumptions C56_unusable_new.
(** A run suspended after a set that was not empty raises it too; the execution of that set is
    still counted by the clock. *)
Theorem C56_unusable_after_set : forall cyc arr d0 g0 ts k s d g h0 fuel d' g' o ex,
  srunning cyc arr d0 g0 (ts ++ [(k, s)]) d g -> g_pc g0 = PStart -> s <> [] ->
  clock_after ESU h0 (the_clock (d_ctxs d0 (g_eid g0))) ->
  fst (get_graph cyc arr d) = Err ex -> sresume cyc arr fuel d g = (d', g', o) ->
  o = ORaise ex /\ exists h, clock_after ESU h (the_clock (d_ctxs d (g_eid g0))) /\
    clock_after ESU (h ++ [CSE]) (the_clock (d_ctxs d' (g_eid g0))).
Proof. exact unusable_after_set. Qed.
Print Assumptions C56_unusable_after_set.
(** A run suspended after an empty set (not in absolute time) first counts the set and the pass.
    If it is then to end it returns its execution list all the same (unless testing the
    termination condition of the environment sequence raises); otherwise it raises too. *)
Theorem C56_unusable_after_idle : forall cyc arr d0 g0 ts k d g h0 l0 fuel d' g' o ex c1 c2 b1 st1,
  srunning cyc arr d0 g0 (ts ++ [(k, [])]) d g -> g_pc g0 = PStart -> g_abs g = false ->
  clock_after ESU h0 (the_clock (d_ctxs d0 (g_eid g0))) -> x_list (d_ctxs d0 (g_eid g0)) = Some l0 ->
  fst (get_graph cyc arr d) = Err ex -> sresume cyc arr fuel d g = (d', g', o) -> g_tc g ESU = Some c1 -> g_tc g ES = Some c2 ->
  exists h k2, clock_after ESU h (the_clock (d_ctxs d (g_eid g0))) /\ clock_after ESU (h ++ [CSE; PASS]) k2 /\
    let v := view_of (set_clock (core_of d) (g_eid g0) k2) (g_eid g0) in
    (eval v (g_eid g0) (d_owners d) c1 (d_cst d) = (Ok b1, st1) ->
     (b1 = true -> o = OReturn (l0 ++ map snd ts ++ [[]]) \/
        exists v' ex' st2, eval v' (g_eid g0) (d_owners d) c2 st1 = (Err ex', st2) /\ o = ORaise ex') /\
     (b1 = false -> forall st2, eval v (g_eid g0) (d_owners d) c2 st1 = (Ok false, st2) ->
        o = ORaise ex /\ the_clock (d_ctxs d' (g_eid g0)) = k2)).
Proof. exact unusable_after_idle. Qed.
Print Assumptions C56_unusable_after_idle.
(** after the first set A gets a condition that names a node that is not there: add_condition
    raises, and so does next(); the clock has counted the set *)
Definition ex_broken : list act := [Resume; Do (CSet (SAdd tA (Struct (mkS 40 (GAddEdgeTo 9)))))].
Example ex_C56_unusable : match ex_script ex_broken (t_sched [(tA, []); (tB, [tA]); (tC, [tB])] (ex_always [tA; tB; tC])) ex_gen4 with
  | Some (ts, d, g) => map snd ts = [[tA]] /\ fst (get_graph ex_cyc ex_arr d) = Err ECondition /\
      let '(d', g', o) := sresume ex_cyc ex_arr 5 d g in
      o = ORaise ECondition /\ x_list (d_ctxs d' 0) = Some [[tA]] /\
      t_val (k_time (the_clock (d_ctxs d 0))) CSE = 0 /\ t_val (k_time (the_clock (d_ctxs d' 0))) CSE = 1 /\
      snd (sresume ex_cyc ex_arr 5 d' g') = OStop
  | None => False end.
Proof. vm_compute. auto 10. Qed.
(** the same with nodes that never run, for which the first set is empty; a run of one pass
    returns, a run of four passes raises *)
Definition ex_passes (n : nat) : gen := new_gen 0 0 (Some (t_tc None (Some (AfterNPasses 91 n ESU)))) false.
Definition ex_idle (n : nat) := ex_script ex_broken (t_sched [(tA, []); (tB, [tA])] [(tA, Never 10); (tB, Never 11)]) (ex_passes n).
Example ex_C56_unusable_idle :
  match ex_idle 1 with
  | Some (ts, d, g) => map snd ts = [[]] /\ g_abs g = false /\ fst (get_graph ex_cyc ex_arr d) = Err ECondition /\ snd (sresume ex_cyc ex_arr 5 d g) = OReturn [[]]
  | None => False end /\
  match ex_idle 4 with
  | Some (ts, d, g) => map snd ts = [[]] /\ snd (sresume ex_cyc ex_arr 5 d g) = ORaise ECondition
  | None => False end.
Proof. vm_compute. auto 10. Qed.
