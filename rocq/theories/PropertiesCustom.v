(** Property C75: custom graph structure conditions. *)
From Verif Require Import BaseFacts SpecCustom SpecSched SpecGSC HeapFacts SchedFacts EdgeFacts CustomFacts Tests.

(** the function is called once with a private copy of the graph, preceded by the condition if its
    first parameter is called self (the model passes the owner, which is what self gives access
    to), and what it returns or raises is the outcome, whatever it is; with a parameter self in
    another place, or without an owner, a ConditionError is raised and the function is not called *)
Theorem C75_receives : forall cyc u w h, exists c, private_copy h c /\
  (forall a, called_with u w a -> modify_graph_in cyc (Some w) (GCustom u) h = u_call u a c) /\
  (forall k, u_self u = Some (S k) -> modify_graph_in cyc (Some w) (GCustom u) h = Err ECondition) /\
  modify_graph_in cyc None (GCustom u) h = Err ECondition.
Proof. exact receives. Qed.
Print Assumptions C75_receives.
(** a function that changes the graph it is given in place does not change the caller's graph *)
Theorem C75_untouched : forall cyc u w h r, touches_only_argument u -> NoDup (akeys (h_refs h)) ->
  (forall n l, aget n (h_refs h) = Some l -> l < length (h_store h)) ->
  modify_graph_in cyc (Some w) (GCustom u) h = Ok r -> unload (mkH (h_refs h) (h_store r)) = unload h.
Proof. intros cyc u w h r T ND L. exact (untouched_graph cyc u w h r T L ND). Qed.
Print Assumptions C75_untouched.
(** added to a scheduler in any state, for a node w: the graph of the scheduler is then what the
    function makes of a copy of its graph before; if the function raises, so does add_condition *)
Theorem C75_scheduler : forall cyc arr is_s nx input base conds tc deid exact du ow w0 r d0 ks d w o u g,
  arg_graph input = Ok base -> new_sched cyc arr input conds tc deid exact du ow nx w0 = (Ok r, d0) ->
  performs cyc arr ks d0 = Some d ->
  well_kinded is_s nx (SAddSet conds :: set_calls ks ++ [SAdd w (Struct (mkS o (GCustom u)))]) ->
  added_once (SAddSet conds :: set_calls ks ++ [SAdd w (Struct (mkS o (GCustom u)))]) ->
  fst (get_graph cyc arr d) = Ok g ->
  exists c d', private_copy (load g) c /\
    (forall a, called_with u w a ->
      match u_call u a c with
      | Ok h => add_condition cyc arr w (Struct (mkS o (GCustom u))) d = (Ok tt, d') /\ fst (get_graph cyc arr d') = Ok (unload h)
      | Err ex => add_condition cyc arr w (Struct (mkS o (GCustom u))) d = (Err ex, d')
      end) /\
    (forall k, u_self u = Some (S k) -> add_condition cyc arr w (Struct (mkS o (GCustom u))) d = (Err ECondition, d')).
Proof.
  intros cyc arr is_s nx input base conds tc deid exact du ow w0 r d0 ks d w o u g AG N P WK AO G.
  destruct (receives cyc u w (load g)) as (c & PC & A & B & _).
  assert (OK : gsc_owner_ok (sc_gsc (mkS o (GCustom u))) w = true) by reflexivity.
  exists c. exists (snd (add_condition cyc arr w (Struct (mkS o (GCustom u))) d)). split; [exact PC|]. split.
  - intros a C. specialize (A a C). destruct (u_call u a c) as [h|ex] eqn:E.
    + destruct (add_structural AG N P WK AO g (unload h) OK G) as (d' & AD & GD & _).
      { simpl. unfold modify_graph. rewrite A. reflexivity. }
      rewrite AD. auto.
    + destruct (add_structural_raises AG N P WK AO g ex OK G) as (d' & AD).
      { simpl. unfold modify_graph. rewrite A. reflexivity. }
      rewrite AD. reflexivity.
  - intros k Us. destruct (add_structural_raises AG N P WK AO g ECondition OK G) as (d' & AD).
    { simpl. unfold modify_graph. rewrite (B k Us). reflexivity. }
    rewrite AD. reflexivity.
Qed.
Print Assumptions C75_scheduler.

(** whatever the functions return, and whatever conditions are added, only nodes of the graph the
    scheduler was made with are executed *)
Theorem C75_only_nodes : forall cyc arr input base conds tc deid exact du ow nx w r d0 ks d fuel g d' g' s, arg_graph input = Ok base ->
  new_sched cyc arr input conds tc deid exact du ow nx w = (Ok r, d0) -> performs cyc arr ks d0 = Some d ->
  sresume cyc arr fuel d g = (d', g', OYield s) -> incl s (gkeys base).
Proof. exact only_nodes. Qed.
Print Assumptions C75_only_nodes.

(** def f(self, graph): graph[self.owner].add(C); return graph *)
Definition ex_insert : custom := mkCustom (Some 0) (fun a h => match a with Some w => Ok (hmut h w (s_add tC)) | None => Err EType end).
Definition ex_three : graph := [(tA, []); (tB, []); (tC, [])].
Lemma ex_insert_touches : touches_only_argument ex_insert.
Proof.
  intros [w|] c r E; simpl in E; [|discriminate]. injection E as <-. unfold hmut. simpl. rewrite s_put_length. split; [lia|].
  intros l L N. apply s_get_put_other. unfold hloc. destruct (aget w (h_refs c)) as [l'|] eqn:A; [|lia]. intros ->. exact (N w A).
Qed.
Example ex_C75 : let d := snd (add_condition ref_simple_cycles (fun q => q) tA (Struct (mkS 40 (GCustom ex_insert))) (t_sched ex_three [])) in
  touches_only_argument ex_insert /\ called_with ex_insert tA (Some tA) /\
  modify_graph_in ref_simple_cycles (Some tA) (GCustom ex_insert) (load ex_three) = Ok (mkH [(tA, 3); (tB, 4); (tC, 5)] [[]; []; []; [tC]; []; []]) /\
  fst (get_graph ref_simple_cycles (fun q => q) d) = Ok [(tA, [tC]); (tB, []); (tC, [])] /\
  fst (get_graph ref_simple_cycles (fun q => q) (snd (remove_condition (Struct (mkS 40 (GCustom ex_insert))) d))) = Ok ex_three.
Proof. split; [exact ex_insert_touches|]. split; [right; auto|]. repeat split; vm_compute; reflexivity. Qed.

(** Neither the nodes nor anything else of the result is checked.  A function that leaves out a
    node: the run raises a KeyError if the node has no condition, and otherwise goes on without
    the node.  A function that brings in a node: the run raises a KeyError, with
    or without a condition for the node. *)
Definition ex_drop (n : node) : custom := mkCustom None (fun _ h => Ok (mkH (adel n (h_refs h)) (h_store h))).
Definition ex_bring (n : node) : custom := mkCustom None (fun _ h => Ok (hnew h n [])).
Definition ex_with (u : custom) : sched := snd (add_condition ref_simple_cycles (fun q => q) tA (Struct (mkS 40 (GCustom u))) (t_sched ex_three [])).
Definition first_result (d : sched) : outcome := snd (sresume ref_simple_cycles (fun q => q) 5 d (new_gen 0 0 None false)).
Theorem C75_validated_refuted :
  (fst (get_graph ref_simple_cycles (fun q => q) (ex_with (ex_drop tB))) = Ok [(tA, []); (tC, [])] /\
   first_result (ex_with (ex_drop tB)) = ORaise EKey /\
   first_result (snd (add_condition ref_simple_cycles (fun q => q) tB (Basic (Always 50)) (ex_with (ex_drop tB)))) = OYield [tA; tC]) /\
  (fst (get_graph ref_simple_cycles (fun q => q) (ex_with (ex_bring tD))) = Ok [(tA, []); (tB, []); (tC, []); (tD, [])] /\
   first_result (ex_with (ex_bring tD)) = ORaise EKey /\
   first_result (snd (add_condition ref_simple_cycles (fun q => q) tD (Basic (Always 50)) (ex_with (ex_bring tD)))) = ORaise EKey /\
   first_result (snd (add_condition ref_simple_cycles (fun q => q) tD (Basic (EveryNCalls 50 tA 1)) (ex_with (ex_bring tD)))) = ORaise EKey).
Proof. repeat split; vm_compute; reflexivity. Qed.
Print Assumptions C75_validated_refuted.
(** a custom function that keeps the nodes meets the hypothesis of C33_runs and its like *)
Example ex_C75_keeps : keeps_nodes (GCustom (mkCustom None (fun _ h => Ok (load (map (fun p => (fst p, [])) (unload h)))))).
Proof.
  intros u E w c r M W C. injection E as <-. cbn [u_call] in M. injection M as <-.
  assert (U : unload (load (map (fun p => (fst p, [])) (unload c))) = map (fun p : node * list node => (fst p, [])) (unload c)) by apply (unload_hload []).
  rewrite U.
  assert (K : gkeys (map (fun p : node * list node => (fst p, @nil node)) (unload c)) = gkeys (unload c)) by (unfold gkeys, akeys; rewrite map_map; reflexivity).
  unfold wf_graph. rewrite K. split; [exact W|]. split; [|reflexivity].
  intros a b (l & A & I). apply aget_In in A. apply in_map_iff in A. destruct A as (p & X & _). injection X as _ <-. destruct I.
Qed.
