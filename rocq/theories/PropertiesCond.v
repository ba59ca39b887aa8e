(** Property theorems about conditions (C19 - C22, C55). *)
From Verif Require Import DefaultFacts RunExamples.

(** ** C19: for every view a condition can be evaluated in, with t the table of call counts *)
Theorem C19_call_counts : forall v e ow st o d n s t, v_total v = Some t -> In d (v_nodes v) ->
  decides (is_satisfied v e ow st (BeforeNCalls o d n s)) (t s d < n) /\
  decides (is_satisfied v e ow st (AtNCalls o d n s)) (t s d = n) /\
  decides (is_satisfied v e ow st (AfterCall o d n s)) (t s d > n) /\
  decides (is_satisfied v e ow st (AfterNCalls o d n s)) (t s d >= n).
Proof. exact call_conditions. Qed.
Print Assumptions C19_call_counts.
Theorem C19_combined : forall v e ow st o ds n s t, v_total v = Some t -> incl ds (v_nodes v) ->
  decides (is_satisfied v e ow st (AfterNCallsCombined o ds (Some n) s)) (sum_over (t s) ds >= n).
Proof. exact combined_condition. Qed.
Print Assumptions C19_combined.
Theorem C19_all_have_run : forall v e ow st o ds s t, v_total v = Some t -> incl ds (v_nodes v) ->
  decides (is_satisfied v e ow st (AllHaveRun o ds s)) (forall d, In d (match ds with [] => v_nodes v | _ => ds end) -> t s d >= 1).
Proof. exact all_have_run_condition. Qed.
Print Assumptions C19_all_have_run.
Theorem C19_just_ran : forall v e ow st o d l last, v_list v = Some (l ++ [last]) ->
  decides (is_satisfied v e ow st (JustRan o d)) (In d last).
Proof. exact just_ran_condition. Qed.
Print Assumptions C19_just_ran.
(** what these tables are while the set s is being assembled and its nodes p have been added:
    the numbers of sets that contained the node, in the run, in the pass, or over the life *)
Theorem C19_counts_are_calls : forall m0 g0 ts m g fuel m' g' s p v t0, running_in_passes m0 g0 ts m g -> g_pc g0 = PStart ->
  resume fuel m g = (m', g', OYield s) -> considered m' (g_eid g0) (map snd ts) s p v -> incl p s ->
  x_total (m_ctxs m0 (g_eid g0)) = Some t0 ->
  exists t, v_total v = Some t /\ forall d,
    t ESU d = occurrences d (map snd ts ++ [p]) /\
    t LIFE d = t0 LIFE d + occurrences d (map snd ts ++ [p]) /\
    t ES d = t0 ES d + occurrences d (map snd ts ++ [p]) /\
    t PASS d = occurrences d (in_pass (pass_number m' (g_eid g0)) ts ++ [p]) /\
    t CSE d = t PASS d.
Proof. exact counts_in_view. Qed.
Print Assumptions C19_counts_are_calls.
Example ex_C19 : exists m' g' s v, resume 5 (ex_state 4 ex_core ex_gen) (ex_at 4 ex_core ex_gen) = (m', g', OYield s) /\ s = [tA] /\
  considered m' 0 (map snd (firstn 4 ex_yields)) s [] v.
Proof.
  assert (R : running_in_passes ex_core ex_gen (firstn 4 ex_yields) (ex_state 4 ex_core ex_gen) (ex_at 4 ex_core ex_gen)) by (apply ex_running; vm_compute; reflexivity).
  destruct (resume 5 (ex_state 4 ex_core ex_gen) (ex_at 4 ex_core ex_gen)) as [[m' g'] o] eqn:E.
  assert (X : snd (resume 5 (ex_state 4 ex_core ex_gen) (ex_at 4 ex_core ex_gen)) = OYield [tA]) by (vm_compute; reflexivity).
  rewrite E in X. simpl in X. subst o.
  destruct (termination_false _ _ _ _ _ _ _ _ _ (passes_running _ _ _ _ _ R) eq_refl E) as (v & C & _); [left; discriminate|].
  exists m', g', [tA], v. splits.
Qed.

(** ** C20 *)
Theorem C20_nwhen : forall o c n e h st, ~ In o (oids c) -> nwhen_history o c n e h st ->
  length (filter snd h) = Nat.min n (length (filter fst h)) /\ length (filter snd h) <= n /\
  forall b r, In (b, r) h -> r = true -> b = true.
Proof. exact nwhen_at_most. Qed.
Print Assumptions C20_nwhen.
(** evaluating anything but the object itself, or for another execution id, keeps its counter *)
Theorem C20_counter_frame : forall v e ow c st o e', ~ In o (oids c) \/ e' <> e -> s_sats (snd (eval v e ow c st)) o e' = s_sats st o e'.
Proof. exact eval_keeps_sats. Qed.
Print Assumptions C20_counter_frame.
Example ex_C20 : exists st, nwhen_history 11 (Always 12) 1 0 [(true, true); (true, false)] st.
Proof.
  set (v := view_of ex_core 0). set (st0 := mkCstate (fun _ _ => 0) t_world).
  eexists. apply (nh_eval 11 (Always 12) 1 0 [(true, true)] (snd (eval v 0 (fun _ => None) (CNWhen 11 (Always 12) 1) st0)) v (fun _ => None)).
  - apply (nh_eval 11 (Always 12) 1 0 [] st0 v (fun _ => None)); [apply nh_new; reflexivity|reflexivity|reflexivity].
  - reflexivity.
  - reflexivity.
Qed.

(** ** C21 *)
Theorem C21_connectives : forall v e ow st o cs (P : cond -> Prop), (forall c, In c cs -> observer e ow c) ->
  (forall c, In c cs -> decides (is_satisfied v e ow st c) (P c)) ->
  decides (is_satisfied v e ow st (All o cs)) (forall c, In c cs -> P c) /\
  decides (is_satisfied v e ow st (Any o cs)) (exists c, In c cs /\ P c) /\
  (forall c, In c cs -> decides (is_satisfied v e ow st (Not o c)) (~ P c)).
Proof. exact all_any_not. Qed.
Print Assumptions C21_connectives.
(** so the theorem applies to every nesting *)
Theorem C21_composites_observe : forall e ow o cs c, (forall x, In x cs -> observer e ow x) -> observer e ow c ->
  observer e ow (All o cs) /\ observer e ow (Any o cs) /\ observer e ow (Not o c).
Proof. exact composites_observe. Qed.
Print Assumptions C21_composites_observe.
(** the arguments [rest] after the deciding one have no influence, not even by side effects *)
Theorem C21_short_circuit : forall v e ow o cs c rest st st1 st2,
  (eval v e ow (All o cs) st = (Ok true, st1) -> eval v e ow c st1 = (Ok false, st2) ->
     eval v e ow (All o (cs ++ c :: rest)) st = (Ok false, st2)) /\
  (eval v e ow (Any o cs) st = (Ok false, st1) -> eval v e ow c st1 = (Ok true, st2) ->
     eval v e ow (Any o (cs ++ c :: rest)) st = (Ok true, st2)).
Proof. exact short_circuit. Qed.
Print Assumptions C21_short_circuit.
Example ex_C21 : let v := view_of (ex_state 7 ex_core ex_gen) 0 in
  decides (is_satisfied v 0 (fun _ => None) (m_cst ex_core) (AfterNCalls 1 tA 3 ESU)) True /\
  decides (is_satisfied v 0 (fun _ => None) (m_cst ex_core) (AfterNCalls 1 tC 3 ESU)) False /\
  observer 0 (fun _ => None) (AfterNCalls 1 tA 3 ESU).
Proof.
  split; [|split].
  - exists true. split; [vm_compute; reflexivity|tauto].
  - exists false. split; [vm_compute; reflexivity|]. split; [discriminate|tauto].
  - apply plain_observer; reflexivity.
Qed.

(** ** C22 *)
Theorem C22_start : forall m g g1 m1, start m g = (Ok g1, m1) -> fresh_ids m ->
  (forall n c, aget n (m_basic m) = Some c -> aget n (m_basic m1) = Some c) /\
  (forall o, o < m_next m -> m_owners m1 o = m_owners m o) /\ m_next m <= m_next m1 /\ fresh_ids m1 /\
  (forall n, In n (m_nodes m) -> aget n (m_basic m) = None -> exists ds, aget n (m_graph m) = Some ds /\ waits_for n ds m1).
Proof. exact start_defaults. Qed.
Print Assumptions C22_start.
(** each execution of a node b with its default condition comes after a run of each of its
    senders since the previous execution of b *)
Theorem C22_senders_since : forall m0 g0 ys m g b ds, running_while (default_state b ds) m0 g0 ys m g -> g_pc g0 = PStart ->
  In b (m_nodes m0) -> aget b (m_graph m0) = Some ds -> incl ds (m_nodes m0) ->
  forall A B d, concat ys = A ++ b :: B -> In d ds -> (d <> b /\ exists j, runs_since d b A j /\ 1 <= j) \/ (d = b /\ In b A).
Proof. exact senders_since. Qed.
Print Assumptions C22_senders_since.
Theorem C22_default_state_kept : forall m0 g0 ys m g fuel m' g' s b ds, running m0 g0 ys m g -> g_pc g0 = PStart ->
  In b (m_nodes m0) -> aget b (m_graph m0) = Some ds -> default_state b ds m ->
  resume fuel m g = (m', g', OYield s) -> default_state b ds m'.
Proof. exact default_state_kept. Qed.
Print Assumptions C22_default_state_kept.
Example ex_C22 : fresh_ids (core_of (t_sched gABC [])) /\ aget tB (m_basic (core_of (t_sched gABC []))) = None /\
  exists g1 m1, start (core_of (t_sched gABC [])) (new_gen 0 0 None false) = (Ok g1, m1) /\ waits_for tB [tA] m1.
Proof.
  assert (F : fresh_ids (core_of (t_sched gABC []))) by (intros o _; reflexivity). split; [exact F|]. split; [reflexivity|].
  destruct (start (core_of (t_sched gABC [])) (new_gen 0 0 None false)) as [[g1|] m1] eqn:S; [|vm_compute in S; discriminate].
  exists g1, m1. split; auto. destruct (start_defaults _ _ _ _ S F) as (_ & _ & _ & _ & D).
  destruct (D tB) as (ds & G & W); [vm_compute; auto|reflexivity|]. vm_compute in G. inversion G; subst. exact W.
Qed.
(** finding: an edge added after the first run is not taken into account; b runs before its
    sender a has ever run *)
Theorem C22_follows_graph_refuted : exists d1 d2 a b ds d3 g3 s,
  let d0 := t_sched gA_B [(tA, Never 10)] in
  aget b (cs_basic (d_cs d0)) = None /\
  d1 = t_after (Some (t_tc None (Some (AfterNCalls 91 tB 1 ESU)))) d0 /\
  add_graph_edge ref_simple_cycles (fun q => q) 50 a b d1 = (Ok tt, d2) /\
  aget b (top_graph d2) = Some ds /\ In a ds /\
  sresume ref_simple_cycles (fun q => q) 5 d2 (new_gen 0 0 None false) = (d3, g3, OYield s) /\ In b s /\
  option_map (occurrences a) (x_list (d_ctxs d3 0)) = Some 0.
Proof.
  set (d0 := t_sched gA_B [(tA, Never 10)]). set (d1 := t_after (Some (t_tc None (Some (AfterNCalls 91 tB 1 ESU)))) d0).
  destruct (add_graph_edge ref_simple_cycles (fun q => q) 50 tA tB d1) as [r d2] eqn:E2.
  destruct (sresume ref_simple_cycles (fun q => q) 5 d2 (new_gen 0 0 None false)) as [[d3 g3] o] eqn:E3.
  assert (X2 : fst (add_graph_edge ref_simple_cycles (fun q => q) 50 tA tB d1) = Ok tt) by (vm_compute; reflexivity).
  assert (Y2 : d2 = snd (add_graph_edge ref_simple_cycles (fun q => q) 50 tA tB d1)) by (rewrite E2; auto).
  rewrite E2 in X2. simpl in X2. subst r.
  assert (X3 : snd (sresume ref_simple_cycles (fun q => q) 5 (snd (add_graph_edge ref_simple_cycles (fun q => q) 50 tA tB d1)) (new_gen 0 0 None false)) = OYield [tB]) by (vm_compute; reflexivity).
  assert (Y3 : d3 = fst (fst (sresume ref_simple_cycles (fun q => q) 5 (snd (add_graph_edge ref_simple_cycles (fun q => q) 50 tA tB d1)) (new_gen 0 0 None false)))) by (rewrite <- Y2, E3; auto).
  rewrite <- Y2, E3 in X3. simpl in X3. subst o.
  exists d1, d2, tA, tB, [tA], d3, g3, [tB]. cbv zeta. fold d0.
  split; [reflexivity|]. split; [reflexivity|]. split; [exact E2|].
  split; [rewrite Y2; vm_compute; reflexivity|]. split; [left; reflexivity|]. split; [exact E3|]. split; [left; reflexivity|].
  rewrite Y3. vm_compute. reflexivity.
Qed.
Print Assumptions C22_follows_graph_refuted.

(** ** C25: self-loops
    finding: a node that is its own sender and has no condition is never executed, and a run with
    the default termination conditions then never returns *)
Theorem C25_self_loop_refuted : forall m0 g0 ys m g b ds oN oA t0 fuel m' g' l, running_while (default_state b ds) m0 g0 ys m g -> g_pc g0 = PStart ->
  In b (m_nodes m0) -> aget b (m_graph m0) = Some ds -> incl ds (m_nodes m0) -> In b ds -> x_total (m_ctxs m0 (g_eid g0)) = Some t0 ->
  the_tc m g ESU = Some (AllHaveRun oA [] ESU) -> the_tc m g ES = Some (Never oN) ->
  ~ In b (concat ys) /\ resume fuel m g <> (m', g', OReturn l).
Proof. intros; split; [eapply self_loop_never|eapply self_loop_forever]; eauto. Qed.
Print Assumptions C25_self_loop_refuted.
(** the scheduler of {a: {}, b: {a, b}} *)
Definition gLoop : graph := [(tA, []); (tB, [tA; tB])].
Example ex_C25_self_loop : let m0 := core_of (t_sched gLoop []) in let g0 := new_gen 0 0 None false in
  default_state tB [tA; tB] m0 /\ In tB (m_nodes m0) /\ aget tB (m_graph m0) = Some [tA; tB] /\ incl [tA; tB] (m_nodes m0) /\
  x_total (m_ctxs m0 0) <> None /\ the_tc m0 g0 ESU = Some (AllHaveRun 1 [] ESU) /\ the_tc m0 g0 ES = Some (Never 0) /\
  snd (fst (drive 4 5 m0 g0 [])) = [[tA]; [tA]; [tA]; [tA]].
Proof.
  cbv zeta. assert (X : In tB (m_nodes (core_of (t_sched gLoop []))) /\ incl [tA; tB] (m_nodes (core_of (t_sched gLoop [])))).
  { assert (E : m_nodes (core_of (t_sched gLoop [])) = [tA; tB]) by (vm_compute; reflexivity). rewrite E. split; [simpl; auto|apply incl_refl]. }
  destruct X. split; [split; [intros o _; reflexivity|left; reflexivity]|]. split; [auto|]. split; [vm_compute; reflexivity|]. split; [auto|].
  split; [discriminate|]. split; [reflexivity|]. split; [reflexivity|]. vm_compute. reflexivity.
Qed.

(** ** C55 *)
Theorem C55_threshold : forall v e ow st o d par t c ix atol rtol p x, w_param (s_world st) d par = Some p ->
  at_index p (match ix with None => [] | Some l => l end) (PNum x) ->
  decides (is_satisfied v e ow st (Threshold o d par t c ix atol rtol)) (compares c x t atol rtol).
Proof. exact threshold_condition. Qed.
Print Assumptions C55_threshold.
Example ex_C55 : at_index (PSeq [PNum 1; PSeq [PNum 2; PNum 3]])%Q [1; -1]%Z (PNum 3)%Q /\ compares Le 3 (7 # 2) 0 0 /\ ~ compares Eq 3 (7 # 2) 0 0 /\ compares Eq 3 (7 # 2) (1 # 2) 0.
Proof.
  split; [|split; [|split]].
  - eapply ai_sub; [exists 1; split; [reflexivity|left; reflexivity]|]. eapply ai_sub; [exists 1; split; [reflexivity|right; reflexivity]|]. apply ai_here.
  - vm_compute. discriminate.
  - vm_compute. intros H; apply H; reflexivity.
  - vm_compute. discriminate.
Qed.
