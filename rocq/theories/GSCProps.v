(** Graph structure conditions: the properties, on graph values. *)
From Verif Require Import Base BaseFacts SpecGraph GraphFacts GSC SpecGSC HeapFacts GSCFacts GSCModify.
Require Import Lia.

(** ** from dicts of objects to values *)
Lemma load_hload : forall g, load g = hload [] g.
Proof. reflexivity. Qed.
Lemma unload_load : forall g, unload (load g) = g.
Proof. intros; rewrite load_hload; apply unload_hload. Qed.
Lemma load_keys : forall g, akeys (h_refs (load g)) = gkeys g.
Proof. intros; apply load_from_keys. Qed.
Lemma hget_load : forall g a b, In a (hget (load g) b) <-> edge g a b.
Proof. intros. rewrite load_hload, hget_hload, edge_aget. tauto. Qed.
Lemma load_wf : forall g, wf_graph g -> closed_graph g -> wf_heap (load g).
Proof.
  intros g W C. split; [rewrite load_keys; auto|]. split; [|rewrite unload_load; auto].
  intros n l H. simpl in *. apply load_from_range in H. rewrite map_length. lia.
Qed.
Lemma owner_ok : forall s w, gsc_owner_ok s w = true -> ~ In w (gsc_nodes s).
Proof. intros s w H. unfold gsc_owner_ok in H. apply negb_true_iff in H. apply mem_In_false; auto. Qed.
Lemma graph_ok_keys : forall s w g, builtin s -> (gsc_graph_ok s w g = true <-> In w (gkeys g) /\ incl (gsc_nodes s) (gkeys g)).
Proof.
  intros s w g B. destruct s; [exfalso; eapply B; eauto|..]; unfold gsc_graph_ok; rewrite s_subset_In;
   (split; [intros H; split; [apply H; left; auto|intros x X; apply H; right; auto]|intros [X Y] x [<-|Z]; auto]).
Qed.

(** ** every built-in condition *)
Theorem modify_inside : forall cyc w s h h', builtin s -> wf_heap h -> gsc_owner_ok s w = true ->
  modify_graph_in cyc (Some w) s h = Ok h' -> inside (h_store h) (akeys (h_refs h)) h'.
Proof.
  intros cyc w s h h' B W O E. simpl in E. destruct (gsc_graph_ok s w (unload h)) eqn:G; [|discriminate].
  apply graph_ok_keys in G; auto. rewrite unload_keys in G. destruct G as [GW GN]. pose proof (wf_heap_clone (akeys (h_refs h)) _ W eq_refl) as I.
  destruct s as [f|p|n|n]; [exfalso; eapply B; eauto|..].
  - apply owner_ok in O. eapply modify_ops_inside; eauto. apply W.
  - inversion E; subst. apply inside_hmut; auto. apply okset_add; auto. eapply hget_ok; eauto.
  - inversion E; subst. apply inside_hmut; auto. apply okset_remove; auto. eapply hget_ok; eauto.
Qed.
Theorem modify_no_mutation : forall cyc w s h h', builtin s -> wf_heap h -> gsc_owner_ok s w = true ->
  modify_graph_in cyc (Some w) s h = Ok h' ->
  gkeys (unload h') = gkeys (unload h) /\ closed_graph (unload h') /\ wf_sets (unload h') /\
  (forall l, l < length (h_store h) -> s_get (h_store h') l = s_get (h_store h) l) /\
  unload (mkH (h_refs h) (h_store h')) = unload h /\
  (forall n m l, aget n (h_refs h') = Some l -> aget m (h_refs h) <> Some l).
Proof.
  intros cyc w s h h' B W O E. pose proof (modify_inside _ _ _ _ _ B W O E) as I. pose proof W as (N & L & C).
  split; [rewrite (inside_unload _ _ _ I), unload_keys; auto|]. split; [eapply inside_closed; eauto|]. split.
  { intros n l H. unfold unload in H. apply in_map_iff in H. destruct H as ([k i] & X & Y). inversion X; subst. simpl.
    assert (Y' : aget n (h_refs h') = Some i) by (apply aget_In_NoDup; auto; rewrite (in_keys _ _ _ I); auto).
    replace (s_get (h_store h') i) with (hget h' n) by (unfold hget, hloc; rewrite Y'; auto). eapply hget_ok; eauto. }
  split; [intros l H; eapply inside_prefix; eauto|]. split.
  - rewrite (inside_old _ _ _ _ I) by auto. destruct h; auto.
  - intros n m l A X. eapply in_locs in A; eauto. apply L in X. lia.
Qed.
Theorem modify_errors : forall cyc o s h e, builtin s -> wf_heap h -> (forall w, o = Some w -> gsc_owner_ok s w = true) ->
  modify_graph_in cyc o s h = Err e -> e = ECondition.
Proof.
  intros cyc [w|] s h e B W O E; simpl in E; [|inversion E; auto]. specialize (O w eq_refl).
  destruct (gsc_graph_ok s w (unload h)) eqn:G; [|inversion E; auto].
  apply graph_ok_keys in G; auto. rewrite unload_keys in G. destruct G as [GW GN].
  destruct s as [f|p|n|n]; [exfalso; eapply B; eauto|..|discriminate|discriminate].
  apply owner_ok in O. eapply modify_ops_errors; eauto. apply W.
Qed.
(* on values *)
Lemma modify_graph_ok : forall cyc o s g g', modify_graph cyc o s g = Ok g' <-> exists h', modify_graph_in cyc o s (load g) = Ok h' /\ g' = unload h'.
Proof.
  intros. unfold modify_graph. destruct (modify_graph_in cyc o s (load g)) as [h'|e]; simpl; split.
  - intros X; inversion X; eauto.
  - intros (h & X & ->). inversion X; auto.
  - discriminate.
  - intros (h & X & _). discriminate.
Qed.
Lemma modify_graph_err : forall cyc o s g e, modify_graph cyc o s g = Err e <-> modify_graph_in cyc o s (load g) = Err e.
Proof. intros. unfold modify_graph. destruct (modify_graph_in cyc o s (load g)) as [h'|e']; simpl; split; intros X; inversion X; auto. Qed.
Theorem modify_keys : forall cyc w s g g', builtin s -> wf_graph g -> closed_graph g -> gsc_owner_ok s w = true ->
  modify_graph cyc (Some w) s g = Ok g' -> gkeys g' = gkeys g /\ wf_graph g' /\ closed_graph g' /\ wf_sets g'.
Proof.
  intros cyc w s g g' B W C O E. apply modify_graph_ok in E. destruct E as (h' & E & ->).
  destruct (modify_no_mutation _ _ _ _ _ B (load_wf _ W C) O E) as (A & D & F & _). rewrite unload_load in A.
  split; auto. split; auto. unfold wf_graph. rewrite A; auto.
Qed.

(** ** AddEdgeTo, RemoveEdgeFrom *)
Theorem add_edge : forall cyc w n g, wf_graph g -> closed_graph g -> In w (gkeys g) -> In n (gkeys g) ->
  exists g', modify_graph cyc (Some w) (GAddEdgeTo n) g = Ok g' /\ gkeys g' = gkeys g /\ forall a b, edge g' a b <-> edge g a b \/ (a = w /\ b = n).
Proof.
  intros cyc w n g W C Hw Hn. unfold modify_graph. simpl modify_graph_in. rewrite unload_load.
  assert (G : gsc_graph_ok (GAddEdgeTo n) w g = true) by (apply graph_ok_keys; [intros f X; discriminate|split; auto; intros x [<-|[]]; auto]).
  simpl in G. rewrite G. simpl. eexists; split; [reflexivity|].
  pose proof (wf_heap_clone (gkeys g) _ (load_wf _ W C) (load_keys g)) as I.
  assert (U : unaliased (hclone (load g))) by apply unaliased_hload. split.
  - rewrite unload_keys. change (akeys (h_refs (hclone (load g))) = gkeys g). apply (in_keys _ _ _ I).
  - intros a b. rewrite edge_unload, (hget_hmut_In _ _ _ _ _ _ I U Hn), <- hget_load, <- (hget_hclone_In (load g)).
    destruct (Nat.eqb_spec b n) as [->|D]; [rewrite s_add_In|]; intuition.
Qed.
Theorem remove_edge : forall cyc w n g, wf_graph g -> closed_graph g -> In w (gkeys g) -> In n (gkeys g) ->
  exists g', modify_graph cyc (Some w) (GRemoveEdgeFrom n) g = Ok g' /\ gkeys g' = gkeys g /\ forall a b, edge g' a b <-> edge g a b /\ ~ (a = n /\ b = w).
Proof.
  intros cyc w n g W C Hw Hn. unfold modify_graph. simpl modify_graph_in. rewrite unload_load.
  assert (G : gsc_graph_ok (GRemoveEdgeFrom n) w g = true) by (apply graph_ok_keys; [intros f X; discriminate|split; auto; intros x [<-|[]]; auto]).
  simpl in G. rewrite G. simpl. eexists; split; [reflexivity|].
  pose proof (wf_heap_clone (gkeys g) _ (load_wf _ W C) (load_keys g)) as I.
  assert (U : unaliased (hclone (load g))) by apply unaliased_hload. split.
  - rewrite unload_keys. change (akeys (h_refs (hclone (load g))) = gkeys g). apply (in_keys _ _ _ I).
  - intros a b. rewrite edge_unload, (hget_hmut_In _ _ _ _ _ _ I U Hw), <- hget_load, <- (hget_hclone_In (load g)).
    destruct (Nat.eqb_spec b w) as [->|D]; [rewrite s_remove_In|]; intuition.
Qed.
Theorem edge_conds_errors : forall cyc w n g s, s = GAddEdgeTo n \/ s = GRemoveEdgeFrom n -> ~ (In w (gkeys g) /\ In n (gkeys g)) ->
  modify_graph cyc (Some w) s g = Err ECondition.
Proof.
  intros cyc w n g s [->| ->] H; unfold modify_graph; simpl modify_graph_in; rewrite unload_load.
  - destruct (gsc_graph_ok (GAddEdgeTo n) w g) eqn:G; [|simpl in G; rewrite G; auto]. apply graph_ok_keys in G; [|intros f X; discriminate]. exfalso. apply H.
    destruct G as [A B]. split; auto. apply B; simpl; auto.
  - destruct (gsc_graph_ok (GRemoveEdgeFrom n) w g) eqn:G; [|simpl in G; rewrite G; auto]. apply graph_ok_keys in G; [|intros f X; discriminate]. exfalso. apply H.
    destruct G as [A B]. split; auto. apply B; simpl; auto.
Qed.

(** ** the values _process gives, class by class *)
Definition class_edges (p : opcond) (w : node) (r0 r : hgraph) : Prop := forall a b,
  In a (hget r b) <->
  match p_kind p with
  | KPlain => In a (hget r0 b)
  | KBefore => In a (hget r0 b) \/ (a = w /\ In b (p_nodes p))
  | KWith => match p_nodes p with
             | n :: _ => if Nat.eqb b w || Nat.eqb b n then In a (hget r0 w) \/ In a (hget r0 n) else In a (hget r0 b)
             | [] => In a (hget r0 b)
             end
  | KAfter => In a (hget r0 b) \/ (b = w /\ In a (p_nodes p))
  end.
Lemma process_spec : forall p w st K hg, inside st K hg -> unaliased hg -> NoDup K -> In w K -> incl (p_nodes p) K -> ~ In w (p_nodes p) -> no_alias p ->
  (process p w hg = Err ECondition /\ (~ operations_given p \/ (p_ignore_conflicts p = false /\ conflicting p w (unload hg)))) \/
  (exists r r0, process p w hg = Ok r /\ operations_given p /\ (p_ignore_conflicts p = false -> ~ conflicting p w (unload hg)) /\
     inside st K r /\ unaliased r /\ processed p w hg r0 /\ class_edges p w r0 r).
Proof.
  intros p w st K hg I U NK WK SK WS NA.
  destruct (process_ops_spec p w hg st K I U NK WK SK WS NA) as [(E & C)|(r0 & E & OG & NC & I0 & U0 & PR)].
  - left. unfold process. rewrite E. auto.
  - right. unfold process. rewrite E. simpl. eexists; exists r0. split; [reflexivity|]. split; auto. split; auto.
    unfold class_edges. destruct (p_kind p).
    + split; auto. split; auto. split; auto. tauto.
    + assert (G : forall ns x, inside st K x -> unaliased x -> incl ns K ->
        inside st K (fold_left (fun h n => hmut h n (s_add w)) ns x) /\ unaliased (fold_left (fun h n => hmut h n (s_add w)) ns x) /\
        forall a b, In a (hget (fold_left (fun h n => hmut h n (s_add w)) ns x) b) <-> In a (hget x b) \/ (a = w /\ In b ns)).
      { induction ns as [|n ns IH]; intros x Ix Ux IN; simpl; [split; auto; split; auto; tauto|].
        assert (Nn : In n K) by (apply IN; simpl; auto).
        destruct (IH (hmut x n (s_add w))) as (A & B & C); [apply inside_hmut; auto; apply okset_add; auto; eapply hget_ok; eauto|auto|intros y Y; apply IN; simpl; auto|].
        split; auto. split; auto. intros a b. rewrite C, (hget_hmut_In _ _ _ _ _ _ Ix Ux Nn). destruct (Nat.eqb_spec b n) as [->|D]; [rewrite s_add_In|]; intuition. subst; contradiction. }
      destruct (G (p_nodes p) r0 I0 U0 SK) as (A & B & C). auto.
    + destruct (p_nodes p) as [|n r] eqn:EN; [split; auto; split; auto; split; auto; tauto|].
      assert (O : okset K (s_union (hget r0 w) (hget r0 n))) by (apply okset_union; eapply hget_ok; eauto).
      assert (I1 : inside st K (hnew r0 w (s_union (hget r0 w) (hget r0 n)))) by (apply inside_hnew; auto).
      split; [apply inside_hnew; auto; apply SK; simpl; auto|]. split; [eapply unaliased_hnew; eauto; eapply unaliased_hnew; eauto|]. split; auto.
      intros a b. rewrite (hget_hnew _ _ _ _ _ _ I1), (hget_hnew _ _ _ _ _ _ I0).
      destruct (Nat.eqb_spec b n); destruct (Nat.eqb_spec b w); simpl; rewrite ?s_union_In; tauto.
    + assert (O : okset K (s_union (hget r0 w) (s_of (p_nodes p)))).
      { apply okset_union; [eapply hget_ok; eauto|]. split; [apply s_of_NoDup|]. intros x X. apply SK. apply s_of_In; auto. }
      split; [apply inside_hnew; auto|]. split; [eapply unaliased_hnew; eauto|]. split; auto.
      intros a b. rewrite (hget_hnew _ _ _ _ _ _ I0). destruct (Nat.eqb_spec b w) as [->|D]; rewrite ?s_union_In, ?s_of_In; intuition.
Qed.

(** ** the whole of modify_graph, on values *)
Lemma descendant_edge : forall g r s, wf_graph g -> edge g r s -> s <> r -> In s (descendants_of g r).
Proof. intros g r s W E D. unfold descendants_of. apply s_remove_In. split; auto. apply saturate_incl. apply receivers_of_In; auto. Qed.
Lemma prescribes_sender_ext : forall p w g g' a b, (forall a b, edge g a b <-> edge g' a b) -> (prescribes_sender p w g a b <-> prescribes_sender p w g' a b).
Proof.
  intros p w g g' a b E. unfold prescribes_sender.
  assert (X : forall o, op_says o (edge g a w) (exists n, In n (p_nodes p) /\ edge g a n) <-> op_says o (edge g' a w) (exists n, In n (p_nodes p) /\ edge g' a n)).
  { intros o. apply op_says_iff; [apply E|]. split; intros (n & A & B); exists n; split; auto; apply E; auto. }
  rewrite X. assert (Y : forall o, op_says o (edge g a b) (edge g a w) <-> op_says o (edge g' a b) (edge g' a w)) by (intros o; apply op_says_iff; apply E).
  split; (intros [H|(H & o & A & B)]; [left; auto|right; split; auto; exists o; split; auto; apply Y; auto]).
Qed.
Lemma prescribes_receiver_ext : forall p w g g' a b, (forall a b, edge g a b <-> edge g' a b) -> (prescribes_receiver p w g a b <-> prescribes_receiver p w g' a b).
Proof.
  intros p w g g' a b E. unfold prescribes_receiver.
  assert (X : forall o, op_says o (edge g w b) (exists n, In n (p_nodes p) /\ edge g n b) <-> op_says o (edge g' w b) (exists n, In n (p_nodes p) /\ edge g' n b)).
  { intros o. apply op_says_iff; [apply E|]. split; intros (n & A & B); exists n; split; auto; apply E; auto. }
  rewrite X. assert (Y : forall o, op_says o (edge g a b) (edge g w b) <-> op_says o (edge g' a b) (edge g' w b)) by (intros o; apply op_says_iff; apply E).
  split; (intros [H|(H & o & A & B)]; [left; auto|right; split; auto; exists o; split; auto; apply Y; auto]).
Qed.
Lemma conflicting_ext : forall p w g g', (forall a b, edge g a b <-> edge g' a b) -> (conflicting p w g <-> conflicting p w g').
Proof.
  intros p w g g' E. unfold conflicting. split; intros (a & b & A & B & C); exists a, b; split; auto; split; auto.
  - rewrite <- (prescribes_sender_ext p w g g' a b E), <- (prescribes_receiver_ext p w g g' a b E); auto.
  - rewrite (prescribes_sender_ext p w g g' a b E), (prescribes_receiver_ext p w g g' a b E); auto.
Qed.

(* edges after _process *)
Definition E_ops (p : opcond) (w : node) (gp : graph) (a b : node) : Prop :=
  (acts p w a /\ prescribes_receiver p w gp a b) \/ (~ acts p w a /\ acts p w b /\ prescribes_sender p w gp a b) \/ (~ acts p w a /\ ~ acts p w b /\ edge gp a b).
Definition E_class (p : opcond) (w : node) (gp : graph) (a b : node) : Prop :=
  match p_kind p with
  | KPlain => E_ops p w gp a b
  | KBefore => E_ops p w gp a b \/ (a = w /\ In b (p_nodes p))
  | KWith => match p_nodes p with
             | n :: _ => if Nat.eqb b w || Nat.eqb b n then E_ops p w gp a w \/ E_ops p w gp a n else E_ops p w gp a b
             | [] => E_ops p w gp a b
             end
  | KAfter => E_ops p w gp a b \/ (b = w /\ In a (p_nodes p))
  end.
Definition E_self (p : opcond) (w : node) (g gp : graph) (a b : node) : Prop :=
  E_class p w gp a b /\ ~ (p_remove_self p = true /\ a = b /\ ~ edge g a a).
Definition prepared (p : opcond) (w : node) (g gp : graph) : Prop := forall a b,
  edge gp a b <-> edge g a b /\ (p_kind p <> KPlain -> ~ (a = w /\ In b (p_nodes p)) /\ ~ (In a (p_nodes p) /\ b = w)).
(* every subject already stands in the wanted relation *)
Definition all_valid (p : opcond) (w : node) (g : graph) : Prop := p_kind p <> KPlain /\ forall n, In n (p_nodes p) ->
  match p_kind p with
  | KPlain => False
  | KBefore => edge g w n
  | KWith => forall x, edge g x n <-> edge g x w
  | KAfter => edge g n w
  end.
Lemma already_valid_spec : forall p w h g, (forall a b, In a (hget h b) <-> edge g a b) -> p_kind p <> KPlain ->
  ((forall n, In n (p_nodes p) -> In n (already_valid p w (unload h))) <-> all_valid p w g).
Proof.
  intros p w h g E D. unfold already_valid, all_valid.
  assert (X : forall n, (match p_kind p with KPlain => false | KBefore => mem w (senders (unload h) n) | KWith => s_eqb (senders (unload h) n) (senders (unload h) w) | KAfter => mem n (senders (unload h) w) end) = true <->
    match p_kind p with KPlain => False | KBefore => edge g w n | KWith => forall x, edge g x n <-> edge g x w | KAfter => edge g n w end).
  { intros n. destruct (p_kind p); [intuition congruence|rewrite mem_In, senders_unload, E; tauto| |rewrite mem_In, senders_unload, E; tauto].
    rewrite s_eqb_In, !senders_unload. split; intros H x; [rewrite <- !E; auto|rewrite !E; auto]. }
  split.
  - intros H. split; auto. intros n N. apply X. apply H in N. apply filter_In in N. tauto.
  - intros [_ H] n N. apply filter_In. split; auto. apply X. exact (H n N).
Qed.
Lemma processed_E : forall p w hg r0 a b, processed p w hg r0 -> (In a (hget r0 b) <-> E_ops p w (unload hg) a b).
Proof.
  intros p w hg r0 a b P. destruct (P a b) as (A & B & C). unfold E_ops.
  assert (D : forall n, acts p w n \/ ~ acts p w n).
  { intros n. unfold acts. destruct (Nat.eq_dec n w); auto. destruct (In_dec_nat n (p_nodes p)); auto. tauto. }
  destruct (D a); destruct (D b); tauto.
Qed.
Lemma E_ops_ext : forall p w g g' a b, (forall a b, edge g a b <-> edge g' a b) -> (E_ops p w g a b <-> E_ops p w g' a b).
Proof.
  intros p w g g' a b E. unfold E_ops. rewrite (prescribes_sender_ext p w g g' a b E), (prescribes_receiver_ext p w g g' a b E), (E a b). tauto.
Qed.

Theorem modify_value : forall cyc p w g, wf_graph g -> closed_graph g -> In w (gkeys g) -> incl (p_nodes p) (gkeys g) -> ~ In w (p_nodes p) -> no_alias p ->
  exists gp, prepared p w g gp /\
  ((all_valid p w g /\ exists g', modify_graph cyc (Some w) (GOps p) g = Ok g' /\ forall a b, edge g' a b <-> edge g a b) \/
   (~ all_valid p w g /\ modify_graph cyc (Some w) (GOps p) g = Err ECondition /\ (~ operations_given p \/ (p_ignore_conflicts p = false /\ conflicting p w gp))) \/
   (~ all_valid p w g /\ exists g', modify_graph cyc (Some w) (GOps p) g = Ok g' /\ operations_given p /\ (p_ignore_conflicts p = false -> ~ conflicting p w gp) /\
      (forall a b, E_self p w g gp a b -> required_edge p w a b = true -> edge g' a b) /\
      (forall a b, edge g' a b -> E_self p w g gp a b \/
         (p_reconnect p = true /\ edge g a w /\ edge g w b /\ ~ In b (p_nodes p) /\ ~ (E_self p w g gp b a /\ required_edge p w b a = true /\ a <> b))) /\
      (p_prune p = false -> p_reconnect p = false -> forall a b, edge g' a b <-> E_self p w g gp a b))).
Proof.
  intros cyc p w g W C Hw HS WS NA.
  assert (GK : gsc_graph_ok (GOps p) w g = true) by (apply graph_ok_keys; [intros f X; discriminate|split; auto]).
  assert (EM : modify_graph cyc (Some w) (GOps p) g = bind (modify_ops cyc p w (load g)) (fun h => Ok (unload h))).
  { unfold modify_graph. cbn [modify_graph_in]. rewrite unload_load, GK. auto. }
  rewrite EM. clear EM GK. pose proof (load_wf _ W C) as WH. pose proof (load_keys g) as LK.
  assert (NK : NoDup (gkeys g)) by exact W.
  pattern (modify_ops cyc p w (load g)). eapply modify_ops_cases with (K := gkeys g); auto.
  - intros D AV. exists (unload (preprocess p w (hclone (load g)))). split.
    { intros a b. rewrite edge_unload, (preprocess_value p w (gkeys g) Hw HS WS _ _ (wf_heap_clone _ _ WH LK) (unaliased_hload _ _)), hget_hclone_In, hget_load. tauto. }
    left. split.
    + apply (already_valid_spec p w (hclone (load g)) g); auto. intros a b. rewrite hget_hclone_In, hget_load. tauto.
    + eexists; split; [reflexivity|]. intros a b. rewrite edge_unload, hget_hclone_In, hget_load. tauto.
  - intros h0 W0 K0 V0 T0 NV I1 U1 V1. set (hp := preprocess p w (hclone h0)) in *.
    assert (NV' : ~ all_valid p w g).
    { intros A. pose proof A as [D _]. apply (NV D). apply (already_valid_spec p w h0 g); auto. intros a b. rewrite V0, hget_load; tauto. }
    assert (PP : prepared p w g (unload hp)) by (intros a b; rewrite edge_unload, V1, hget_load; tauto).
    assert (G0 : forall n a, In a (senders (unload h0) n) <-> edge g a n) by (intros n a; rewrite senders_unload, V0, hget_load; tauto).
    destruct (process_spec p w _ _ _ I1 U1 NK Hw HS WS NA) as [(EP & CF)|(r & r0 & EP & OG & NC & IR & UR & PR & CE)]; rewrite EP.
    + split; [|discriminate]. intros e X; inversion X; subst e. exists (unload hp). split; auto.
    + split; [discriminate|]. intros r' k h1 X IR' D DP I2 _. inversion X; subst r'; clear X IR'. simpl bind.
      exists (unload hp). split; auto. right; right. split; auto. eexists; split; [reflexivity|]. split; auto. split; auto.
      set (r1 := remove_new_self p (unload h0) r) in *.
      assert (I3 : inside (h_store h0) (gkeys g) r1) by (apply remove_self_inside; auto).
      assert (U3 : unaliased r1) by (unfold unaliased, r1; rewrite remove_self_refs; auto).
      assert (V3 : forall a b, In a (hget r1 b) <-> E_self p w g (unload hp) a b).
      { intros a b. unfold r1. rewrite (remove_self_value p (gkeys g) _ _ _ IR UR), G0. unfold E_self.
        assert (CC : In a (hget r b) <-> E_class p w (unload hp) a b); [|tauto].
        rewrite (CE a b). unfold E_class. assert (PE : forall b, In a (hget r0 b) <-> E_ops p w (unload hp) a b) by (intros; apply processed_E; auto).
        pose proof (PE b). pose proof (PE w). destruct (p_kind p); try tauto.
        destruct (p_nodes p) as [|n0 rest]; try tauto. pose proof (PE n0). destruct (Nat.eqb b w || Nat.eqb b n0); tauto. }
      assert (U2 : unaliased h1) by (unfold unaliased; rewrite (drops_refs _ _ _ _ _ D); auto).
      assert (SUB : forall a b, In a (hget h1 b) -> E_self p w g (unload hp) a b) by (intros a b H; apply V3; eapply drops_sub; eauto).
      assert (REQ : forall a b, E_self p w g (unload hp) a b -> required_edge p w a b = true -> In a (hget h1 b)).
      { intros a b H Q. apply V3 in H. eapply drops_required; eauto. }
      set (Inv := fun x : hgraph => inside (h_store h0) (gkeys g) x /\ unaliased x /\ (forall a b, In a (hget h1 b) -> In a (hget x b)) /\
        forall a b, In a (hget x b) -> In a (hget h1 b) \/
         (edge g a w /\ edge g w b /\ ~ In b (p_nodes p) /\ ~ (E_self p w g (unload hp) b a /\ required_edge p w b a = true /\ a <> b))).
      assert (IF : Inv (reconnect p w (unload h0) h1)).
      { apply reconnect_inv with (P := Inv).
        - unfold Inv. split; [auto|]. split; [auto|]. split; [auto|]. auto.
        - intros x s q (X1 & X2 & X3 & X4) A1 A2 A3 A4. apply G0 in A1. apply G0 in A3.
          assert (SK : In s (gkeys g)) by (eapply C; eauto).
          assert (QK : In q (gkeys g)) by (destruct A3 as (l & A3 & _); apply (aget_Some_key _ q g); eauto).
          split; [apply inside_hmut; auto; apply okset_add; auto; eapply hget_ok; eauto|]. split; auto. split.
          + intros a b H. apply X3 in H. eapply hmut_add_super; eauto.
          + intros a b. rewrite (hget_hmut_In _ _ _ _ _ _ X1 X2 QK). destruct (Nat.eqb_spec b q) as [->|]; [|apply X4].
            rewrite s_add_In. intros [->|H]; [|apply X4; auto]. right. split; auto. split; auto. split; auto. intros (B1 & B2 & B3).
            apply A4. apply descendant_edge; auto.
            * unfold wf_graph. rewrite (inside_unload _ _ _ X1); auto.
            * apply edge_unload. apply X3. apply REQ; auto. }
      destruct IF as (F1 & F2 & F3 & F4). split; [|split].
      * intros a b H Q. apply edge_unload. apply F3. apply REQ; auto.
      * intros a b H. apply edge_unload in H. destruct (p_reconnect p) eqn:RC.
        -- apply F4 in H. destruct H as [H|(H1 & H2 & H3 & H4)]; auto. right. auto.
        -- left. apply SUB. unfold reconnect in H. rewrite RC in H. auto.
      * intros P0 R0 a b. unfold reconnect. rewrite R0, edge_unload.
        rewrite <- V3. split; [intros H; apply V3; auto|]. intros H.
        rewrite (DP P0) in D. apply drops_0_eq in D. rewrite D. auto.
Qed.
