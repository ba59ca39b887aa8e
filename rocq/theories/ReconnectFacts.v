(** Facts about reconnecting receivers of a displaced owner (condition.py 2981-3002). *)
From Verif Require Import Base BaseFacts SpecGraph GraphFacts GSC SpecGSC HeapFacts GSCFacts GSCModify GSCProps GSCThms SpecReconnect.
Require Import Lia.

Lemma reach_sub : forall g g' : graph, (forall a b, edge g a b -> edge g' a b) -> forall a b, reach g a b -> reach g' a b.
Proof. intros g g' H a b R. induction R; [apply reach_edge; auto|eapply reach_step; eauto]. Qed.

Lemma linked_sub : forall g g' w s r, (forall a b, edge g a b -> edge g' a b) -> in_between g w s r -> in_between g' w s r.
Proof. intros g g' w s r H [[A B]|[A|[N A]]]; [left; auto|right; left; auto|right; right; split; auto; eapply reach_sub; eauto]. Qed.

Section Reconnect.
Variables (p : opcond) (w : node) (K : list node) (st : store) (base : graph).
Hypothesis NK : NoDup K.
Hypothesis CK : forall n x, In x (senders base n) -> In x K.
Hypothesis KK : incl (gkeys base) K.

Lemma step_inside : forall h s r, inside st K h -> In s (senders base w) -> inside st K (hmut h r (s_add s)).
Proof. intros h s r I S. apply inside_hmut; auto. apply okset_add; eauto. eapply hget_ok; eauto. Qed.
Lemma reconnect1_inside : forall h e, inside st K h -> inside st K (reconnect1 p w base h e).
Proof.
  intros h [s r] I. unfold reconnect1. match goal with |- context [if ?b then _ else _] => destruct b eqn:Q end; auto.
  rewrite !andb_true_iff, !mem_In in Q. apply step_inside; tauto.
Qed.
Lemma reconnect1_super : forall h e a b, inside st K h -> edge (unload h) a b -> edge (unload (reconnect1 p w base h e)) a b.
Proof.
  intros h [s r] a b I E. rewrite edge_unload in *. unfold reconnect1. match goal with |- context [if ?b then _ else _] => destruct b end; auto.
  eapply hmut_add_super; eauto.
Qed.
Lemma reconnect1_done : forall h s r, inside st K h -> In s (senders base w) -> In w (senders base r) -> ~ In r (p_nodes p) ->
  in_between (unload (reconnect1 p w base h (s, r))) w s r.
Proof.
  intros h s r I S R N. unfold in_between, reconnect1.
  assert (RK : In r K). { apply KK. apply edge_aget in R. destruct R as (l & R & _). apply (aget_Some_key _ r base); eauto. }
  match goal with |- context [if ?b then _ else _] => destruct b eqn:Q end.
  - right; left. apply edge_unload. rewrite (hget_hmut_same st K) by auto. apply s_add_In. auto.
  - assert (W : wf_graph (unload h)) by (unfold wf_graph; rewrite (inside_unload _ _ _ I); auto).
    apply mem_In in S, R. apply mem_In_false in N. rewrite S, R, N in Q. cbn [negb andb] in Q.
    destruct (mem w (hget h r)) eqn:E1, (mem s (hget h w)) eqn:E2; cbn [negb orb andb] in Q; apply mem_In in E1 || clear E1; apply mem_In in E2 || clear E2.
    + left. rewrite !edge_unload. auto.
    + apply negb_false_iff in Q. apply mem_In in Q. apply descendants_of_spec in Q; auto. 
    + apply negb_false_iff in Q. apply mem_In in Q. apply descendants_of_spec in Q; auto.
    + apply negb_false_iff in Q. apply mem_In in Q. apply descendants_of_spec in Q; auto.
Qed.
Lemma fold_reconnect : forall l h, inside st K h ->
  inside st K (fold_left (reconnect1 p w base) l h) /\ (forall a b, edge (unload h) a b -> edge (unload (fold_left (reconnect1 p w base) l h)) a b) /\
  forall s r, In (s, r) l -> In s (senders base w) -> In w (senders base r) -> ~ In r (p_nodes p) -> in_between (unload (fold_left (reconnect1 p w base) l h)) w s r.
Proof.
  induction l as [|[s0 r0] l IH]; intros h I; [split; auto; split; auto; intros s r []|]. cbn [fold_left].
  destruct (IH (reconnect1 p w base h (s0, r0)) (reconnect1_inside _ _ I)) as (A & B & C). split; [exact A|]. split; [intros a b E; apply B, reconnect1_super; auto|].
  intros s r [X|X] S R N; [|auto]. injection X as -> ->. eapply linked_sub; [exact B|]. apply reconnect1_done; auto.
Qed.
(** what is added, if no two nodes share a set *)
Lemma reconnect_only : forall h, inside st K h -> unaliased h -> forall a b, edge (unload (reconnect p w base h)) a b ->
  edge (unload h) a b \/ (p_reconnect p = true /\ In a (senders base w) /\ In w (senders base b) /\ ~ In b (p_nodes p) /\ ~ (edge (unload h) a w /\ edge (unload h) w b) /\
    ~ (a <> b /\ reach (unload h) b a)).
Proof.
  intros h I U. unfold reconnect. destruct (p_reconnect p) eqn:PR; [|auto].
  assert (G : forall l x, inside st K x -> unaliased x -> (forall a b, edge (unload h) a b -> edge (unload x) a b) ->
    (forall a b, edge (unload x) a b -> edge (unload h) a b \/ (true = true /\ In a (senders base w) /\ In w (senders base b) /\ ~ In b (p_nodes p) /\ ~ (edge (unload h) a w /\ edge (unload h) w b) /\
      ~ (a <> b /\ reach (unload h) b a))) ->
    forall a b, edge (unload (fold_left (reconnect1 p w base) l x)) a b -> edge (unload h) a b \/ (true = true /\ In a (senders base w) /\ In w (senders base b) /\ ~ In b (p_nodes p) /\ ~ (edge (unload h) a w /\ edge (unload h) w b) /\
      ~ (a <> b /\ reach (unload h) b a))).
  2: { intros a b. apply G; auto. }
  induction l as [|[s r] l IH]; intros x IX UX SUP H; [exact H|]. cbn [fold_left]. apply IH.
  - apply reconnect1_inside; auto.
  - unfold reconnect1. match goal with |- context [if ?b then _ else _] => destruct b end; [apply unaliased_hmut|]; auto.
  - intros a b E. apply reconnect1_super; auto.
  - intros a b E. unfold reconnect1 in E. match type of E with context [if ?b then _ else _] => destruct b eqn:Q end; [|auto].
    rewrite !andb_true_iff, orb_true_iff, !negb_true_iff, !mem_In_false, !mem_In in Q. destruct Q as ((((N & R) & S) & D) & F).
    assert (RK : In r K). { apply KK. apply edge_aget in R. destruct R as (l' & R & _). apply (aget_Some_key _ r base); eauto. }
    apply edge_unload in E. rewrite (hget_hmut_In _ _ _ _ _ _ IX UX RK) in E. destruct (Nat.eqb_spec b r) as [->|D1]; [|apply H, edge_unload; auto].
    rewrite s_add_In in E. destruct E as [->|E]; [|apply H, edge_unload; auto].
    right. split; [auto|]. split; [auto|]. split; [auto|]. split; [auto|]. split.
    + intros [A B]. apply SUP in A, B. rewrite edge_unload in A, B. tauto.
    + intros [A B]. apply F. apply descendants_of_spec; [unfold wf_graph; rewrite (inside_unload _ _ _ IX); auto|]. split; auto. eapply reach_sub; [|exact B]. exact SUP.
Qed.
End Reconnect.

(** ** the whole condition *)
Lemma prune_pass_cut : forall cyc p w base todo cycles h, prune_pass cyc (cut_only p) w base todo cycles h = prune_pass cyc p w base todo cycles h.
Proof.
  induction todo as [|c r IH]; intros cycles h; auto. cbn [prune_pass]. change (prune_cycle (cut_only p) w base c h) with (prune_cycle p w base c h).
  destruct (cycle_in c cycles); auto.
Qed.
Lemma prune_loop_cut : forall cyc p w base fuel prev h, prune_loop cyc fuel (cut_only p) w base prev h = prune_loop cyc fuel p w base prev h.
Proof.
  induction fuel as [|f IH]; intros prev h; cbn [prune_loop]; destruct prev as [|c prev]; auto. rewrite prune_pass_cut.
  destruct (prune_pass cyc p w base _ _ h) as [h' cycles]. destruct (cycles_eqb _ cycles); auto.
Qed.
Lemma subject_results_cut : forall p w g recv gl ns h a b, subject_results (cut_only p) w g recv gl ns h a b = subject_results p w g recv gl ns h a b.
Proof.
  induction ns as [|n ns IH]; intros h a b; auto. cbn [subject_results cut_only p_subject_senders p_subject_receivers].
  destruct (subject_operation (p_subject_senders p) n); cbn [bind]; auto. destruct (subject_operation (p_subject_receivers p) n); cbn [bind]; auto.
  destruct (op_object _ h _ _ _). apply IH.
Qed.
Lemma process_cut : forall p w h, process (cut_only p) w h = process p w h.
Proof.
  intros p w h. unfold process, process_ops. cbn [cut_only p_kind p_nodes p_owner_senders p_owner_receivers p_ignore_conflicts]. destruct (op_object _ _ _ _ _). rewrite subject_results_cut. reflexivity.
Qed.
Lemma modify_two : forall cyc p w h K, NoDup K -> In w K -> incl (p_nodes p) K -> ~ In w (p_nodes p) -> wf_heap h -> akeys (h_refs h) = K ->
  (forall e, modify_ops cyc p w h = Err e <-> modify_ops cyc (cut_only p) w h = Err e) /\
  forall r, modify_ops cyc p w h = Ok r -> exists r0 st base, modify_ops cyc (cut_only p) w h = Ok r0 /\ inside st K r0 /\ (no_alias p -> unaliased r0) /\
    (forall a b, In a (senders base b) <-> In a (hget h b)) /\ incl (gkeys base) K /\ gkeys base = K /\
    (r = reconnect p w base r0 \/ (r = r0 /\ forall a b, In a (hget r0 b) <-> In a (hget h b))).
Proof.
  intros cyc p w h K NK WK SK WS W EK.
  assert (G : forall h0, wf_heap h0 -> akeys (h_refs h0) = K -> (forall a b, In a (hget h0 b) <-> In a (hget h b)) ->
    let X := bind (process p w (preprocess p w (hclone h0))) (fun r => postprocess cyc p w (unload (mkH (h_refs h0) (h_store r))) r) in
    let Y := bind (process p w (preprocess p w (hclone h0))) (fun r => postprocess cyc (cut_only p) w (unload (mkH (h_refs h0) (h_store r))) r) in
    (forall e, X = Err e <-> Y = Err e) /\
    forall r, X = Ok r -> exists r0 st base, Y = Ok r0 /\ inside st K r0 /\ (no_alias p -> unaliased r0) /\
    (forall a b, In a (senders base b) <-> In a (hget h b)) /\ incl (gkeys base) K /\ gkeys base = K /\
    (r = reconnect p w base r0 \/ (r = r0 /\ forall a b, In a (hget r0 b) <-> In a (hget h b)))).
  { intros h0 W0 EK0 E0. cbv zeta. pose proof (wf_heap_clone K _ W0 EK0) as I0. pose proof (preprocess_inside p w K _ _ I0) as I1.
    assert (U0 : unaliased (hclone h0)) by apply unaliased_hload.
    assert (U1 : unaliased (preprocess p w (hclone h0))) by (unfold unaliased; rewrite preprocess_refs; auto).
    destruct (process p w (preprocess p w (hclone h0))) as [r|e] eqn:EP; cbn [bind]; [|split; [intros e'; tauto|discriminate]].
    pose proof (process_inside p w K NK WK SK WS _ _ _ I1 U1 EP) as IR.
    assert (BG : unload (mkH (h_refs h0) (h_store r)) = unload h0).
    { rewrite (inside_old _ _ _ (h_refs h0) IR); [destruct h0; auto|apply W0|apply W0]. }
    rewrite BG. destruct (postprocess_ok p w cyc (unload h0) r) as (k & h1 & -> & D & DP & EPR).
    assert (Y : postprocess cyc (cut_only p) w (unload h0) r = Ok h1).
    { unfold postprocess. change (remove_new_self (cut_only p) (unload h0) r) with (remove_new_self p (unload h0) r).
      unfold prune_cycles in *. cbn [cut_only p_prune]. rewrite prune_loop_cut, EPR. reflexivity. }
    rewrite Y. split; [intros e; split; discriminate|]. intros r' X. injection X as <-. exists h1, (h_store h0), (unload h0).
    split; [reflexivity|]. split; [eapply drops_inside; eauto; apply remove_self_inside; auto|].
    split. { intros NA. destruct (process_spec p w _ K _ I1 U1 NK WK SK WS NA) as [[X _]|(q & q0 & X & _ & _ & _ & UR & _)]; rewrite EP in X; [discriminate|].
      injection X as <-. unfold unaliased. rewrite (drops_refs _ _ _ _ _ D), remove_self_refs. exact UR. }
    split; [intros a b; rewrite senders_unload; auto|]. rewrite unload_keys, EK0. split; [apply incl_refl|]. split; auto. }
  unfold modify_ops. cbv zeta. cbn [cut_only p_kind].
  rewrite !process_cut. change (preprocess (cut_only p) w) with (preprocess p w). change (already_valid (cut_only p) w) with (already_valid p w). change (p_nodes (cut_only p)) with (p_nodes p).
  destruct (p_kind p) eqn:PK; [apply G; auto; tauto|..].
  all: destruct (Nat.eqb (length (already_valid p w (unload (hclone h)))) (length (p_nodes p))).
  all: pose proof (wf_heap_clone K _ W EK) as I0.
  all: try (apply G; [eapply wf_heap_inside; eauto|apply (in_keys _ _ _ I0)|intros; apply hget_hclone_In]).
  all: split; [intros e; split; discriminate|]; intros r X; injection X as <-; exists (hclone h), (h_store h), (unload h);
    split; [reflexivity|]; split; [exact I0|]; split; [intros _; apply unaliased_hload|]; split; [intros a b; rewrite senders_unload; tauto|];
    rewrite unload_keys, EK; split; [apply incl_refl|]; split; [auto|]; right; split; [auto|]; intros; apply hget_hclone_In.
Qed.

Lemma modify_in : forall cyc p w g, gsc_graph_ok (GOps p) w g = true -> modify_graph_in cyc (Some w) (GOps p) (load g) = modify_ops cyc p w (load g).
Proof. intros cyc p w g G. unfold modify_graph_in. rewrite unload_load, G. reflexivity. Qed.

Theorem reconnects : forall cyc p w g g', wf_graph g -> closed_graph g -> ~ In w (p_nodes p) -> modify_graph cyc (Some w) (GOps p) g = Ok g' -> p_reconnect p = true ->
  forall s r, edge g s w -> edge g w r -> ~ In r (p_nodes p) -> in_between g' w s r.
Proof.
  intros cyc p w g g' W C WS E PR s r S R N. destruct (modify_ok_keys _ _ _ _ _ (ops_builtin p) E) as [Hw HS].
  assert (G : gsc_graph_ok (GOps p) w g = true) by (apply graph_ok_keys; auto; apply ops_builtin).
  apply modify_graph_ok in E. destruct E as (h' & E & ->). rewrite (modify_in cyc p w g G) in E.
  destruct (modify_two cyc p w (load g) (gkeys g) W Hw HS WS (load_wf _ W C) (load_keys g)) as [_ T].
  destruct (T _ E) as (r0 & st & base & _ & I & _ & BE & BK & GK & [->|[-> V]]).
  - assert (BE' : forall a b, In a (senders base b) <-> edge g a b) by (intros a b; rewrite BE; apply hget_load).
    unfold reconnect. rewrite PR. apply (fold_reconnect p w (gkeys g) st base W); auto.
    + intros n x X. apply BE' in X. apply (C x n X).
    + apply in_prod; [apply BE'; auto|]. assert (WB : wf_graph base). { unfold wf_graph. rewrite GK. auto. } apply edge_aget. apply receivers_spec; auto. apply edge_aget, BE'; auto.
    + apply BE'; auto.
    + apply BE'; auto.
  - left. rewrite !edge_unload, !V, !hget_load. auto.
Qed.

Theorem reconnect_same_errors : forall cyc p w g e, wf_graph g -> closed_graph g -> ~ In w (p_nodes p) ->
  (modify_graph cyc (Some w) (GOps p) g = Err e <-> modify_graph cyc (Some w) (GOps (cut_only p)) g = Err e).
Proof.
  intros cyc p w g e W C WS. rewrite !modify_graph_err. destruct (gsc_graph_ok (GOps p) w g) eqn:G.
  - rewrite (modify_in cyc p w g G). rewrite (modify_in cyc (cut_only p) w g G). apply graph_ok_keys in G; [|apply ops_builtin]. destruct G as [Hw HS].
    apply (modify_two cyc p w (load g) (gkeys g) W Hw HS WS (load_wf _ W C) (load_keys g)).
  - assert (G' : gsc_graph_ok (GOps (cut_only p)) w g = false) by exact G. unfold modify_graph_in. rewrite unload_load, G, G'. tauto.
Qed.
Theorem reconnect_adds : forall cyc p w g g' g0, wf_graph g -> closed_graph g -> ~ In w (p_nodes p) -> modify_graph cyc (Some w) (GOps p) g = Ok g' ->
  modify_graph cyc (Some w) (GOps (cut_only p)) g = Ok g0 ->
  (forall a b, edge g0 a b -> edge g' a b) /\
  (no_alias p -> forall a b, edge g' a b -> edge g0 a b \/ (edge g a w /\ edge g w b /\ ~ In b (p_nodes p) /\ ~ (edge g0 a w /\ edge g0 w b) /\ ~ (a <> b /\ reach g0 b a))).
Proof.
  intros cyc p w g g' g0 W C WS E E0. destruct (modify_ok_keys _ _ _ _ _ (ops_builtin p) E) as [Hw HS].
  assert (G : gsc_graph_ok (GOps p) w g = true) by (apply graph_ok_keys; auto; apply ops_builtin).
  apply modify_graph_ok in E. destruct E as (h' & E & ->). rewrite (modify_in cyc p w g G) in E.
  apply modify_graph_ok in E0. destruct E0 as (h0 & E0 & ->). rewrite (modify_in cyc (cut_only p) w g G) in E0.
  destruct (modify_two cyc p w (load g) (gkeys g) W Hw HS WS (load_wf _ W C) (load_keys g)) as [_ T].
  destruct (T _ E) as (r0 & st & base & X & I & U & BE & BK & GK & Y). rewrite E0 in X. injection X as <-.
  assert (BE' : forall a b, In a (senders base b) <-> edge g a b) by (intros a b; rewrite BE; apply hget_load).
  assert (CK : forall n x, In x (senders base n) -> In x (gkeys g)) by (intros n x X; apply BE' in X; apply (C x n X)).
  destruct Y as [->|[-> V]]; [|split; auto]. split.
  - intros a b X. unfold reconnect. destruct (p_reconnect p); auto. apply (fold_reconnect p w (gkeys g) st base W); auto.
  - intros NA a b X. destruct (reconnect_only p w (gkeys g) st base W CK BK _ I (U NA) a b X) as [Y|(_ & A & B & D & F)]; auto.
    right. rewrite <- !BE'. auto.
Qed.
