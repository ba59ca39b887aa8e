(** Graph structure conditions: preparing, pruning, reconnecting, and the whole of modify_graph. *)
From Verif Require Import Base BaseFacts SpecGraph GraphFacts GSC SpecGSC HeapFacts GSCFacts.
Require Import Lia.

Lemma fold_inv : forall A B (P : A -> Prop) (f : A -> B -> A) l a, P a -> (forall x y, In y l -> P x -> P (f x y)) -> P (fold_left f l a).
Proof. induction l as [|b l IH]; intros a H S; simpl; auto. apply IH; [apply S; simpl; auto|intros; apply S; simpl; auto]. Qed.

Lemma wf_heap_clone : forall K h, wf_heap h -> akeys (h_refs h) = K -> inside (h_store h) K (hclone h).
Proof. intros K h (A & B & C) <-. apply inside_clone; auto. Qed.

Section Modify.
Variables (p : opcond) (w : node) (K : list node).
Hypothesis NK : NoDup K.
Hypothesis WK : In w K.
Hypothesis SK : incl (p_nodes p) K.
Hypothesis WS : ~ In w (p_nodes p).

(** ** _preprocess *)
Lemma preprocess_inside : forall st h, inside st K h -> inside st K (preprocess p w h).
Proof.
  intros st h I. unfold preprocess. destruct (p_kind p); auto; apply fold_inv; auto; intros x n _ J;
    assert (inside st K (hmut x n (s_remove w))) by (apply inside_hmut; auto; apply okset_remove; eapply hget_ok; eauto);
    apply inside_hmut; auto; apply okset_remove; eapply hget_ok; eauto.
Qed.
Lemma preprocess_refs : forall h, h_refs (preprocess p w h) = h_refs h.
Proof. intros h. unfold preprocess. destruct (p_kind p); auto; apply (fold_inv _ _ (fun x => h_refs x = h_refs h)); auto. Qed.
Lemma preprocess_fold : forall st ns h, inside st K h -> unaliased h -> incl ns K -> ~ In w ns -> forall a b,
  In a (hget (fold_left (fun h n => hmut (hmut h n (s_remove w)) w (s_remove n)) ns h) b) <->
  In a (hget h b) /\ ~ (a = w /\ In b ns) /\ ~ (In a ns /\ b = w).
Proof.
  induction ns as [|n ns IH]; intros h I U IN W a b; simpl; [tauto|].
  assert (Nn : In n K) by (apply IN; simpl; auto). assert (D : n <> w) by (intros ->; apply W; simpl; auto).
  assert (I1 : inside st K (hmut h n (s_remove w))) by (apply inside_hmut; auto; apply okset_remove; eapply hget_ok; eauto).
  rewrite IH; [|apply inside_hmut; auto; apply okset_remove; eapply hget_ok; eauto|auto|intros x X; apply IN; simpl; auto|intros X; apply W; simpl; auto].
  rewrite (hget_hmut_In _ _ _ _ _ _ I1 U WK). rewrite !(hget_hmut_In _ _ _ _ _ _ I U Nn).
  destruct (Nat.eqb_spec b w) as [->|B]; destruct (Nat.eqb_spec w n); subst; try contradiction; try congruence.
  - rewrite s_remove_In. intuition; subst; auto.
  - destruct (Nat.eqb_spec b n) as [->|B2]; rewrite ?s_remove_In; intuition; subst; auto.
Qed.
Lemma preprocess_value : forall st h, inside st K h -> unaliased h -> forall a b,
  In a (hget (preprocess p w h) b) <-> In a (hget h b) /\ (p_kind p <> KPlain -> ~ (a = w /\ In b (p_nodes p)) /\ ~ (In a (p_nodes p) /\ b = w)).
Proof.
  intros st h I U a b. unfold preprocess. destruct (p_kind p) eqn:EK; [|rewrite (preprocess_fold st) by auto; intuition congruence ..].
  intuition congruence.
Qed.

(** ** _process of the classes *)
Lemma process_inside : forall st hg h, inside st K hg -> unaliased hg -> process p w hg = Ok h -> inside st K h.
Proof.
  intros st hg h I U E. unfold process in E. destruct (process_ops p w hg) as [h1|] eqn:EP; [|discriminate]. simpl in E.
  pose proof (process_ops_inside p w hg st K I NK WK SK WS _ EP) as I1. inversion E as [E2]. clear E E2.
  destruct (p_kind p); auto.
  - apply fold_inv; auto. intros x n _ J. apply inside_hmut; auto. apply okset_add; auto. eapply hget_ok; eauto.
  - destruct (p_nodes p) as [|n r] eqn:EN; auto. assert (O : okset K (s_union (hget h1 w) (hget h1 n))) by (apply okset_union; eapply hget_ok; eauto).
    apply inside_hnew; auto; [|apply SK; simpl; auto]. apply inside_hnew; auto.
  - apply inside_hnew; auto. apply okset_union; [eapply hget_ok; eauto|]. split; [apply s_of_NoDup|]. intros x X. apply SK. apply s_of_In; auto.
Qed.

(** ** _handle_remove_new_self_referential_edges *)
Lemma remove_self_inside : forall st base h, inside st K h -> inside st K (remove_new_self p base h).
Proof.
  intros st base h I. unfold remove_new_self. destruct (p_remove_self p); auto. apply fold_inv; auto. intros x n _ J.
  destruct (negb (mem n (senders base n)) && mem n (hget x n)); auto. apply inside_hmut; auto. apply okset_remove; eapply hget_ok; eauto.
Qed.
Lemma remove_self_refs : forall base h, h_refs (remove_new_self p base h) = h_refs h.
Proof.
  intros base h. unfold remove_new_self. destruct (p_remove_self p); auto. apply (fold_inv _ _ (fun x => h_refs x = h_refs h)); auto.
  intros x n _ J. destruct (negb (mem n (senders base n)) && mem n (hget x n)); auto.
Qed.
Lemma remove_self_value : forall st base h, inside st K h -> unaliased h -> forall a b,
  In a (hget (remove_new_self p base h) b) <-> In a (hget h b) /\ ~ (p_remove_self p = true /\ a = b /\ ~ In a (senders base a)).
Proof.
  intros st base h I U a b. unfold remove_new_self. destruct (p_remove_self p); [|intuition congruence].
  assert (G : forall ns x, inside st K x -> unaliased x -> incl ns K -> forall a b,
    In a (hget (fold_left (fun h n => if negb (mem n (senders base n)) && mem n (hget h n) then hmut h n (s_remove n) else h) ns x) b) <->
    In a (hget x b) /\ ~ (In b ns /\ a = b /\ ~ In a (senders base a))).
  { clear h I U a b. induction ns as [|n ns IH]; intros x I U IN a b; simpl; [tauto|].
    assert (Nn : In n K) by (apply IN; simpl; auto). assert (IN' : incl ns K) by (intros y Y; apply IN; simpl; auto).
    destruct (mem n (senders base n)) eqn:M; simpl.
    - apply mem_In in M. rewrite IH by auto. intuition; subst; auto.
    - apply mem_In_false in M. destruct (mem n (hget x n)) eqn:M2.
      + apply mem_In in M2. rewrite IH by (auto; apply inside_hmut; auto; apply okset_remove; eapply hget_ok; eauto).
        rewrite (hget_hmut_In _ _ _ _ _ _ I U Nn). destruct (Nat.eqb_spec b n) as [->|D].
        * rewrite s_remove_In. intuition; subst; auto.
        * intuition; subst; auto.
      + apply mem_In_false in M2. rewrite IH by auto. intuition; subst; auto. }
  rewrite G by (auto; rewrite (in_keys _ _ _ I); apply incl_refl). rewrite (in_keys _ _ _ I).
  split; [|tauto]. intros [A B]. split; auto. intros (_ & -> & D). apply B. split; [eapply hget_ok; eauto|auto].
Qed.

(** ** pruning *)
(* [k] edges are removed one after the other, none of them required *)
Inductive drops : nat -> hgraph -> hgraph -> Prop :=
| drops_0 : forall h, drops 0 h h
| drops_S : forall k h h' s r, drops k h h' -> In s (hget h' r) -> required_edge p w s r = false -> drops (S k) h (hmut h' r (s_remove s)).
Lemma drops_trans : forall j h1 h2 h3 k, drops k h2 h3 -> drops j h1 h2 -> drops (k + j) h1 h3.
Proof. intros j h1 h2 h3 k D; induction D; intros D2; simpl; auto. constructor; auto. Qed.
Lemma drops_refs : forall k h h', drops k h h' -> h_refs h' = h_refs h.
Proof. intros k h h' D; induction D; simpl; auto. Qed.
Lemma drops_inside : forall st k h h', drops k h h' -> inside st K h -> inside st K h'.
Proof. intros st k h h' D; induction D; intros I; auto. apply inside_hmut; auto. apply okset_remove; eapply hget_ok; eauto. Qed.
Lemma drops_0_eq : forall h h', drops 0 h h' -> h' = h.
Proof. intros h h' D; inversion D; auto. Qed.
Lemma s_put_get_le : forall (P : list node -> Prop) st l v m, (m = l -> P v) -> (P (s_get st m)) -> P (s_get (s_put st l v) m).
Proof.
  intros P st l v m A B. destruct (Nat.eq_dec m l) as [->|D].
  - destruct (Nat.lt_ge_cases l (length st)); [rewrite s_get_put_same; auto|rewrite s_put_out; auto].
  - rewrite s_get_put_other; auto.
Qed.
(* edges only disappear, also when objects are shared *)
Lemma hmut_remove_sub : forall h r s a b, In a (hget (hmut h r (s_remove s)) b) -> In a (hget h b).
Proof.
  intros h r s a b. destruct (In_dec_nat b (akeys (h_refs h))) as [B|B].
  - pose proof (hloc_key _ _ B) as HB. unfold hget at 1. unfold hloc at 1; simpl. rewrite HB.
    apply (s_put_get_le (fun l => In a l -> In a (hget h b))); auto. intros E. rewrite s_remove_In. intros [_ H]. unfold hget in *. rewrite E; auto.
  - rewrite (hget_out (hmut h r (s_remove s)) b B). intros [].
Qed.
Lemma drops_sub : forall k h h', drops k h h' -> forall a b, In a (hget h' b) -> In a (hget h b).
Proof. intros k h h' D; induction D; intros a b H'; auto. apply IHD. eapply hmut_remove_sub; eauto. Qed.
Lemma drops_required : forall st k h h', drops k h h' -> inside st K h -> unaliased h -> forall a b,
  In a (hget h b) -> required_edge p w a b = true -> In a (hget h' b).
Proof.
  intros st k h h' D; induction D as [|k h h' s r D IH M R]; intros I U a b H Q; auto.
  assert (I' := drops_inside _ _ _ _ D I). assert (U' : unaliased h') by (unfold unaliased; rewrite (drops_refs _ _ _ D); auto).
  assert (RK : In r K). { destruct (In_dec_nat r K) as [X|X]; auto. rewrite <- (in_keys _ _ _ I') in X. rewrite (hget_out _ _ X) in M. destruct M. }
  rewrite (hget_hmut_In _ _ _ _ _ _ I' U' RK). destruct (Nat.eqb_spec b r) as [->|E]; auto.
  apply s_remove_In. split; auto. intros ->. congruence.
Qed.
Lemma remove_length_le : forall x l, length (s_remove x l) <= length l.
Proof. intros; unfold s_remove; apply filter_length_le. Qed.
Lemma remove_length_lt : forall x l, In x l -> length (s_remove x l) < length l.
Proof.
  induction l as [|y l IH]; simpl; intros H; [tauto|]. pose proof (remove_length_le x l). unfold s_remove in *. destruct (Nat.eqb_spec x y); simpl; [lia|].
  destruct H; [congruence|]. apply IH in H. lia.
Qed.
Lemma count_remove : forall h r s, In s (hget h r) -> edge_count (unload (hmut h r (s_remove s))) < edge_count (unload h).
Proof.
  intros h r s H.
  assert (RK : In r (akeys (h_refs h))). { destruct (In_dec_nat r (akeys (h_refs h))) as [X|X]; auto. rewrite (hget_out _ _ X) in H. destruct H. }
  assert (HB := hloc_key _ _ RK). apply aget_In in HB. unfold unload, hmut; simpl.
  assert (L : forall m, length (s_get (s_put (h_store h) (hloc h r) (s_remove s (hget h r))) m) <= length (s_get (h_store h) m)).
  { intros m. apply (s_put_get_le (fun l => length l <= length (s_get (h_store h) m))); auto. intros ->. apply remove_length_le. }
  assert (LT : length (s_get (s_put (h_store h) (hloc h r) (s_remove s (hget h r))) (hloc h r)) < length (s_get (h_store h) (hloc h r))).
  { destruct (Nat.lt_ge_cases (hloc h r) (length (h_store h))) as [X|X].
    - rewrite s_get_put_same by auto. apply remove_length_lt; auto.
    - unfold hget in H. rewrite s_get_out in H by auto. destruct H. }
  assert (LE : forall rf, edge_count (map (fun q => (fst q, s_get (s_put (h_store h) (hloc h r) (s_remove s (hget h r))) (snd q))) rf) <=
                          edge_count (map (fun q => (fst q, s_get (h_store h) (snd q))) rf)).
  { induction rf as [|[k l] rf IH]; simpl; auto. specialize (L l). unfold edge_count, node in *; simpl in *; lia. }
  assert (G : forall rf, In (r, hloc h r) rf ->
    edge_count (map (fun q => (fst q, s_get (s_put (h_store h) (hloc h r) (s_remove s (hget h r))) (snd q))) rf) < edge_count (map (fun q => (fst q, s_get (h_store h) (snd q))) rf)).
  { induction rf as [|[k l] rf IH]; intros M; [destruct M|]. destruct M as [M|M].
    - inversion M; subst l. specialize (LE rf). unfold edge_count, node in *; simpl in *; lia.
    - apply IH in M. specialize (L l). unfold edge_count, node in *; simpl in *; lia. }
  apply G; auto.
Qed.
Lemma drops_count : forall k h h', drops k h h' -> edge_count (unload h') + k <= edge_count (unload h).
Proof. intros k h h' D; induction D; [lia|]. pose proof (count_remove _ _ _ H). lia. Qed.

Lemma drop_edge_drops : forall h s r, required_edge p w s r = false -> exists k, drops k h (drop_edge h s r).
Proof.
  intros h s r Q. unfold drop_edge. destruct (mem s (hget h r)) eqn:M; [|exists 0; constructor].
  apply mem_In in M. exists 1. constructor; auto. constructor.
Qed.
Lemma prune_edge_drops : forall base c h i, exists k, drops k h (prune_edge p w base c h i).
Proof.
  intros base c h i. unfold prune_edge.
  destruct (Nat.eqb (nth ((i + 1) mod length c) c 0) w).
  - unfold prune_owner_edge. match goal with |- context [if required_edge p w (fst ?e) (snd ?e) then _ else _] => destruct (required_edge p w (fst e) (snd e)) eqn:Q end.
    + exists 0; constructor.
    + apply drop_edge_drops; auto.
  - match goal with |- context [if ?b then _ else _] => destruct b eqn:Q end; [|exists 0; constructor].
    apply andb_true_iff in Q. destruct Q as [_ Q]. apply negb_true_iff in Q. apply drop_edge_drops; auto.
Qed.
Lemma prune_cycle_drops : forall base c h, exists k, drops k h (prune_cycle p w base c h).
Proof.
  intros base c h. unfold prune_cycle. apply (fold_inv _ _ (fun x => exists k, drops k h x)); [exists 0; constructor|].
  intros x i _ (k & D). destruct (prune_edge_drops base c x i) as (j & D2). exists (j + k). eapply drops_trans; eauto.
Qed.

Section Cycles.
Variable simple_cycles : graph -> list (list node).
Lemma prune_pass_drops : forall base todo h, exists k h', prune_pass simple_cycles p w base todo (simple_cycles (unload h)) h = (h', simple_cycles (unload h')) /\ drops k h h'.
Proof.
  induction todo as [|c r IH]; intros h; simpl.
  - exists 0, h. split; auto. constructor.
  - destruct (cycle_in c (simple_cycles (unload h))); [|apply IH].
    destruct (prune_cycle_drops base c h) as (k & D). destruct (IH (prune_cycle p w base c h)) as (j & h' & E & D2).
    exists (j + k), h'. split; auto. eapply drops_trans; eauto.
Qed.
Lemma prune_loop_drops : forall base fuel h, edge_count (unload h) < fuel ->
  exists k h', prune_loop simple_cycles fuel p w base (simple_cycles (unload h)) h = Some h' /\ drops k h h'.
Proof.
  induction fuel as [|f IH]; intros h L; [lia|]. simpl.
  destruct (prune_pass_drops base (sort_by_len (simple_cycles (unload h))) h) as (k & h' & E & D). rewrite E.
  destruct (simple_cycles (unload h)) as [|c0 r0] eqn:EC; [exists 0, h; split; auto; constructor|]. rewrite <- EC.
  destruct (cycles_eqb (simple_cycles (unload h)) (simple_cycles (unload h'))) eqn:EQ; [eauto|].
  destruct k as [|k].
  - apply drops_0_eq in D. subst h'. unfold cycles_eqb in EQ. destruct (list_eq_dec (list_eq_dec Nat.eq_dec) (simple_cycles (unload h)) (simple_cycles (unload h))); congruence.
  - pose proof (drops_count _ _ _ D). destruct (IH h') as (j & h2 & E2 & D2); [lia|]. exists (j + S k), h2. split; auto. eapply drops_trans; eauto.
Qed.
Theorem prune_cycles_drops : forall base h, exists k h', prune_cycles simple_cycles p w base h = Some h' /\ drops k h h' /\ (p_prune p = false -> k = 0).
Proof.
  intros base h. unfold prune_cycles. destruct (p_prune p); [|exists 0, h; split; auto; split; auto; constructor].
  destruct (prune_loop_drops base (S (S (edge_count (unload h)))) h) as (k & h' & A & B); [lia|]. exists k, h'. split; auto. split; auto. discriminate.
Qed.

(** ** reconnecting *)
Lemma reconnect_inv : forall (P : hgraph -> Prop) base h, P h ->
  (forall x s r, P x -> In s (senders base w) -> ~ In r (p_nodes p) -> In w (senders base r) -> ~ In s (descendants_of (unload x) r) -> P (hmut x r (s_add s))) ->
  P (reconnect p w base h).
Proof.
  clear simple_cycles NK WK SK WS. intros P base h H S. unfold reconnect. destruct (p_reconnect p); auto. apply fold_inv; auto. intros x [s r] _ J. unfold reconnect1.
  match goal with |- context [if ?b then _ else _] => destruct b eqn:Q end; auto.
  rewrite !andb_true_iff, !negb_true_iff, !mem_In_false, !mem_In in Q. apply S; tauto.
Qed.
Lemma reconnect_inside : forall st base h, inside st K h -> (forall n x, In x (senders base n) -> In x K) -> inside st K (reconnect p w base h).
Proof.
  intros st base h I C. apply reconnect_inv; auto. intros x s r J A _ _ _. apply inside_hmut; auto. apply okset_add; eauto. eapply hget_ok; eauto.
Qed.
Lemma hmut_add_super : forall st h r s a b, inside st K h -> In a (hget h b) -> In a (hget (hmut h r (s_add s)) b).
Proof.
  intros st h r s a b I H. assert (B : In b (akeys (h_refs h))).
  { destruct (In_dec_nat b (akeys (h_refs h))) as [X|X]; auto. rewrite (hget_out _ _ X) in H. destruct H. }
  pose proof (hloc_key _ _ B) as HB. unfold hget at 1. unfold hloc at 1; simpl. rewrite HB.
  apply (s_put_get_le (fun l => In a l)); auto. intros E. apply s_add_In. right. unfold hget in *. rewrite <- E; auto.
Qed.
Lemma reconnect_super : forall st base h, inside st K h -> (forall n x, In x (senders base n) -> In x K) ->
  forall a b, In a (hget h b) -> In a (hget (reconnect p w base h) b).
Proof.
  intros st base h I C a b H. apply (reconnect_inv (fun x => inside st K x /\ In a (hget x b))); auto.
  intros x s r [J X] A _ _ _. split.
  - apply inside_hmut; auto. apply okset_add; eauto. eapply hget_ok; eauto.
  - eapply hmut_add_super; eauto.
Qed.

Lemma postprocess_ok : forall base h, exists k h1, postprocess simple_cycles p w base h = Ok (reconnect p w base h1) /\ drops k (remove_new_self p base h) h1 /\ (p_prune p = false -> k = 0) /\
  prune_cycles simple_cycles p w base (remove_new_self p base h) = Some h1.
Proof.
  intros base h. unfold postprocess. destruct (prune_cycles_drops base (remove_new_self p base h)) as (k & h1 & E & D & D0). rewrite E. exists k, h1. auto.
Qed.

(** ** _modify_graph *)
Lemma wf_heap_inside : forall st h, inside st K h -> wf_heap h.
Proof.
  intros st h I. split; [rewrite (in_keys _ _ _ I); auto|]. split; [intros n l H; eapply in_locs in H; eauto; lia|]. eapply inside_closed; eauto.
Qed.
(* what modify_ops does when the condition is not already valid *)
Lemma modify_ops_cases : forall h (P : res hgraph -> Prop), wf_heap h -> akeys (h_refs h) = K ->
  (p_kind p <> KPlain -> (forall n, In n (p_nodes p) -> In n (already_valid p w (unload (hclone h)))) -> P (Ok (hclone h))) ->
  (forall h0, wf_heap h0 -> akeys (h_refs h0) = K -> (forall a b, In a (hget h0 b) <-> In a (hget h b)) ->
     (exists t, h_store h0 = h_store h ++ t /\ Forall (okset K) t) ->
     (p_kind p <> KPlain -> ~ forall n, In n (p_nodes p) -> In n (already_valid p w (unload h0))) ->
     inside (h_store h0) K (preprocess p w (hclone h0)) -> unaliased (preprocess p w (hclone h0)) ->
     (forall a b, In a (hget (preprocess p w (hclone h0)) b) <-> In a (hget h b) /\ (p_kind p <> KPlain -> ~ (a = w /\ In b (p_nodes p)) /\ ~ (In a (p_nodes p) /\ b = w))) ->
     (forall e, process p w (preprocess p w (hclone h0)) = Err e -> P (Err e)) /\
     (forall r k h1, process p w (preprocess p w (hclone h0)) = Ok r -> inside (h_store h0) K r ->
        drops k (remove_new_self p (unload h0) r) h1 -> (p_prune p = false -> k = 0) -> inside (h_store h0) K h1 ->
        prune_cycles simple_cycles p w (unload h0) (remove_new_self p (unload h0) r) = Some h1 -> P (Ok (reconnect p w (unload h0) h1)))) ->
  P (modify_ops simple_cycles p w h).
Proof.
  intros h P W EK A B.
  assert (AL : forall h0, Nat.eqb (length (already_valid p w (unload h0))) (length (p_nodes p)) = true <-> forall n, In n (p_nodes p) -> In n (already_valid p w (unload h0))).
  { intros h0. unfold already_valid. generalize (p_nodes p) as ns. intros ns. rewrite Nat.eqb_eq. clear.
    match goal with |- length (filter ?f _) = _ <-> _ => set (q := f) end. induction ns as [|n ns IH]; simpl; [split; [tauto|auto]|].
    pose proof (filter_length_le _ q ns). unfold node in *. destruct (q n) eqn:Q; simpl.
    - split.
      + intros E m [->|M]; auto. right. apply IH; auto.
      + intros F. f_equal. apply IH. intros m M. apply filter_In. split; auto. destruct (F m (or_intror M)) as [->|X]; auto. apply filter_In in X; tauto.
    - split; [intros E; lia|]. intros F. specialize (F n (or_introl eq_refl)). apply filter_In in F. destruct F; congruence. }
  assert (G : forall h0, wf_heap h0 -> akeys (h_refs h0) = K -> (forall a b, In a (hget h0 b) <-> In a (hget h b)) ->
     (exists t, h_store h0 = h_store h ++ t /\ Forall (okset K) t) ->
     (p_kind p <> KPlain -> ~ forall n, In n (p_nodes p) -> In n (already_valid p w (unload h0))) ->
     P (bind (process p w (preprocess p w (hclone h0))) (fun r => postprocess simple_cycles p w (unload (mkH (h_refs h0) (h_store r))) r))).
  { intros h0 W0 EK0 E0 T0 NV0. pose proof (wf_heap_clone K _ W0 EK0) as I0. pose proof (preprocess_inside _ _ I0) as I1.
    assert (U0 : unaliased (hclone h0)) by apply unaliased_hload.
    assert (U1 : unaliased (preprocess p w (hclone h0))) by (unfold unaliased; rewrite preprocess_refs; auto).
    assert (V1 : forall a b, In a (hget (preprocess p w (hclone h0)) b) <-> In a (hget h b) /\ (p_kind p <> KPlain -> ~ (a = w /\ In b (p_nodes p)) /\ ~ (In a (p_nodes p) /\ b = w))).
    { intros a b. rewrite (preprocess_value _ _ I0 U0), hget_hclone_In, E0. tauto. }
    destruct (B h0 W0 EK0 E0 T0 NV0 I1 U1 V1) as [B1 B2].
    destruct (process p w (preprocess p w (hclone h0))) as [r|e] eqn:EP; simpl; [|apply B1; auto].
    pose proof (process_inside _ _ _ I1 U1 EP) as IR.
    assert (BG : unload (mkH (h_refs h0) (h_store r)) = unload h0).
    { rewrite (inside_old _ _ _ (h_refs h0) IR); [destruct h0; auto|apply W0|apply W0]. }
    rewrite BG. destruct (postprocess_ok (unload h0) r) as (k & h1 & -> & D & DP & EPR).
    eapply B2; eauto. eapply drops_inside; eauto. apply remove_self_inside; auto. }
  unfold modify_ops. cbv zeta. destruct (p_kind p) eqn:PK; simpl.
  1: { apply G; auto; [tauto|exists []; rewrite app_nil_r; auto]. }
  all: destruct (Nat.eqb (length (already_valid p w (unload (hclone h)))) (length (p_nodes p))) eqn:AV;
    [apply A; [congruence|apply AL; auto]|].
  all: pose proof (wf_heap_clone K _ W EK) as I0; apply G;
    [eapply wf_heap_inside; eauto|apply (in_keys _ _ _ I0)|intros; apply hget_hclone_In|apply (in_tail _ _ _ I0)|intros _ X; apply AL in X; congruence].
Qed.

Theorem modify_ops_inside : forall h h', wf_heap h -> akeys (h_refs h) = K -> modify_ops simple_cycles p w h = Ok h' -> inside (h_store h) K h'.
Proof.
  intros h h' W EK. pattern (modify_ops simple_cycles p w h). apply modify_ops_cases; auto.
  - intros _ _ X; inversion X; subst h'. apply wf_heap_clone; auto.
  - intros h0 W0 EK0 E0 T0 _ I1 U1 V1. split; [discriminate|]. intros r k h1 EP IR D _ I2 _ X. inversion X; subst h'.
    eapply inside_weaken; [|exact T0]. apply reconnect_inside; auto. intros n x Y. rewrite senders_unload in Y. rewrite <- EK0.
    rewrite <- unload_keys. apply W0 with (b := n). apply edge_unload; auto.
Qed.
Theorem modify_ops_errors : forall h e, wf_heap h -> akeys (h_refs h) = K -> modify_ops simple_cycles p w h = Err e -> e = ECondition.
Proof.
  intros h e W EK. pattern (modify_ops simple_cycles p w h). apply modify_ops_cases; auto.
  - discriminate.
  - intros h0 W0 EK0 E0 T0 _ I1 U1 V1. split; [|discriminate]. intros e' EP X. inversion X; subst e'. unfold process in EP.
    destruct (process_ops p w (preprocess p w (hclone h0))) as [r|e'] eqn:EO; simpl in EP; [discriminate|]. inversion EP; subst e'.
    revert EO. pattern (process_ops p w (preprocess p w (hclone h0))). eapply process_ops_cases; eauto.
    + intros _ Y; inversion Y; auto.
    + intros h2 ns nr h3 c1 h4 c2 _ _ _ _. destruct (negb (p_ignore_conflicts p) && c2); [|discriminate]. intros Y; inversion Y; auto.
Qed.
End Cycles.
End Modify.
