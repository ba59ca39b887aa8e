(** Pruning cuts cycles one after the other, each of them while it is there. *)
From Coq Require Import Lia.
From Verif Require Import SpecAcyclic GraphFacts TopoProofs HeapFacts GSCFacts GSCModify GSCProps GSCThms AcyclicFacts.

Section Cuts.
Variables (p : opcond) (w : node) (base : graph).
Hypothesis WB : wf_graph base.

(* one step of the loop over a cycle: only removable edges of the cycle disappear *)
Lemma drop_edge_lost : forall h s r st K, inside st K h -> unaliased h -> forall a b, In a (hget h b) -> ~ In a (hget (drop_edge h s r) b) -> a = s /\ b = r.
Proof.
  intros h s r st K I U a b H N. unfold drop_edge in N. destruct (mem s (hget h r)) eqn:M; [|tauto]. apply mem_In in M.
  assert (RK : In r K). { destruct (In_dec_nat r K) as [X|X]; auto. rewrite <- (in_keys _ _ _ I) in X. rewrite (hget_out _ _ X) in M. destruct M. }
  rewrite (hget_hmut_In _ _ _ _ _ _ I U RK) in N. destruct (Nat.eqb_spec b r) as [->|D]; [|tauto].
  split; auto. destruct (Nat.eq_dec a s) as [E|E]; auto. exfalso. apply N. apply s_remove_In. auto.
Qed.
Lemma drop_edge_gone : forall h s r, ~ In s (hget (drop_edge h s r) r).
Proof.
  intros h s r H. pose proof H as H2. apply drop_edge_id in H2. rewrite H2 in H. unfold drop_edge in H2. pose proof H as M. apply mem_In in M. rewrite M in H2.
  apply hmut_remove_gone in H. rewrite H2 in H. apply H. apply mem_In; auto.
Qed.
Lemma edge_looked : forall c h i st K, i < length c -> inside st K h -> unaliased h -> forall a b, In a (hget h b) -> ~ In a (hget (prune_edge p w base c h i) b) ->
  follows c a b /\ removable p w base c a b.
Proof.
  intros c h i st K L I U a b H N. pose proof (looked_at_follows p w base c i L) as F. revert F N. unfold looked_at, prune_edge, prune_owner_edge. cbv zeta.
  pose proof (cuts_outgoing_dec p w base c WB) as CO. cbv zeta in CO. unfold removable. rewrite needed_required.
  destruct (Nat.eqb_spec (nth ((i + 1) mod length c) c 0) w) as [E|E].
  - destruct (_ || _).
    + simpl. intros F. destruct (required_edge p w w _) eqn:R; [tauto|]. intros N. destruct (drop_edge_lost _ _ _ _ _ I U _ _ H N) as [-> ->].
      split; auto. split; [congruence|]. right; left. split; auto. apply CO; auto.
    + simpl. intros F. destruct (required_edge p w _ w) eqn:R; [tauto|]. intros N. destruct (drop_edge_lost _ _ _ _ _ I U _ _ H N) as [-> ->].
      split; auto. split; [congruence|]. right; right. split; auto. intros X. apply CO in X. discriminate.
  - simpl. intros F. match goal with |- context [if ?b then _ else _] => destruct b eqn:Q end; [|tauto]. intros N.
    destruct (drop_edge_lost _ _ _ _ _ I U _ _ H N) as [-> ->]. rewrite !andb_true_iff, !negb_true_iff, Nat.eqb_neq, mem_In in Q.
    destruct Q as [[Q1 Q2] Q3]. split; auto. split; [congruence|]. left. repeat split; auto. apply edge_aget; auto.
Qed.
Lemma prune_edge_inside : forall c h i st K, inside st K h -> unaliased h -> inside st K (prune_edge p w base c h i) /\ unaliased (prune_edge p w base c h i).
Proof.
  intros c h i st K I U. destruct (prune_edge_drops p w base c h i) as (k & D). split; [eapply drops_inside; eauto|].
  unfold unaliased. rewrite (drops_refs _ _ _ _ _ D). auto.
Qed.
Lemma prune_edge_sub : forall c h i a b, In a (hget (prune_edge p w base c h i) b) -> In a (hget h b).
Proof. intros c h i a b. destruct (prune_edge_drops p w base c h i) as (k & D). eapply drops_sub; eauto. Qed.

(* every removable edge of the cycle is dropped at some position *)
Lemma dropped_at : forall c a b, NoDup c -> follows c a b -> removable p w base c a b ->
  exists i, i < length c /\ forall h, ~ In a (hget (prune_edge p w base c h i) b).
Proof.
  intros c a b N F [NN RM]. rewrite needed_required in NN.
  assert (OWN : forall x, follows c x w -> exists i u v, i < length c /\ follows c u v /\ ((u = w /\ cuts_outgoing p w base c) \/ (v = w /\ ~ cuts_outgoing p w base c)) /\
     forall h, prune_edge p w base c h i = if required_edge p w u v then h else drop_edge h u v).
  { intros x X. apply follows_nth in X. destruct X as (i & L & X1 & X2). replace (S i) with (i + 1) in X2 by lia. pose proof (looked_at_follows p w base c i L) as LF.
    exists i, (fst (looked_at p w base c i)), (snd (looked_at p w base c i)). split; auto. split; auto. clear LF. unfold looked_at, prune_edge, prune_owner_edge. cbv zeta.
    rewrite X2, Nat.eqb_refl. pose proof (cuts_outgoing_dec p w base c WB) as CO. cbv zeta in CO. destruct (_ || _); simpl.
    - split; auto. left. split; auto. apply CO; auto.
    - split; auto. right. split; auto. intros Y. apply CO in Y. discriminate. }
  destruct RM as [(A & B & C)|[(-> & C)|(-> & C)]].
  - apply follows_nth in F. destruct F as (i & L & X1 & X2). exists i. split; auto. intros h. unfold prune_edge. cbv zeta. replace (i + 1) with (S i) by lia. rewrite X1, X2.
    apply Nat.eqb_neq in B. rewrite B. assert (M : mem b (senders base a) = true) by (apply mem_In, edge_aget; auto).
    apply Nat.eqb_neq in A. rewrite M, A. destruct (required_edge p w a b); [congruence|]. simpl. apply drop_edge_gone.
  - destruct (follows_in c w (proj1 (follows_In _ _ _ F))) as (x & X). destruct (OWN x X) as (i & u & v & L & UV & [[-> _]|[_ D]] & E); [|tauto].
    rewrite (follows_fun c w b v N F UV) in *. exists i. split; auto. intros h. rewrite E. destruct (required_edge p w w v); [congruence|apply drop_edge_gone].
  - destruct (OWN a F) as (i & u & v & L & UV & [[_ D]|[-> _]] & E); [tauto|].
    rewrite (follows_fun' c a u w N F UV) in *. exists i. split; auto. intros h. rewrite E. destruct (required_edge p w u w); [congruence|apply drop_edge_gone].
Qed.
Lemma prune_cycle_cut : forall c h st K, NoDup c -> inside st K h -> unaliased h ->
  cut p w base c (unload h) (unload (prune_cycle p w base c h)) /\
  inside st K (prune_cycle p w base c h) /\ unaliased (prune_cycle p w base c h).
Proof.
  intros c h st K N I U.
  assert (G : forall l x, (forall i, In i l -> i < length c) -> inside st K x -> unaliased x ->
    let y := fold_left (prune_edge p w base c) l x in
    inside st K y /\ unaliased y /\ (forall a b, In a (hget y b) -> In a (hget x b)) /\
    (forall a b, In a (hget x b) -> ~ In a (hget y b) -> follows c a b /\ removable p w base c a b) /\
    (forall i a b, In i l -> (forall z, ~ In a (hget (prune_edge p w base c z i) b)) -> ~ In a (hget y b))).
  { clear h I U. induction l as [|i l IH]; intros x L I U; simpl; [split; auto; split; auto; split; auto; split; [intros; tauto|intros i a b []]|].
    destruct (prune_edge_inside c x i st K I U) as [I' U']. destruct (IH (prune_edge p w base c x i)) as (A & B & C & D & E); auto; [intros; apply L; simpl; auto|].
    split; auto. split; auto. split; [intros a b X; eapply prune_edge_sub; eauto|]. split.
    - intros a b X Y. destruct (In_dec_nat a (hget (prune_edge p w base c x i) b)) as [Z|Z]; [apply D; auto|].
      apply (edge_looked c x i st K); auto. apply L; simpl; auto.
    - intros j a b [->|J] Z; [|eapply E; eauto]. intros X. apply C in X. apply (Z x); auto. }
  destruct (G (seq 0 (length c)) h) as (A & B & C & D & E); auto. { intros i X. apply in_seq in X. lia. }
  split; auto. intros a b. rewrite !edge_unload. fold (prune_cycle p w base c h) in *. split.
  - intros X. split; auto. intros [F R]. destruct (dropped_at c a b N F R) as (i & L & Z). apply (E i a b); auto. apply in_seq. lia.
  - intros [X Y]. destruct (In_dec_nat a (hget (prune_cycle p w base c h) b)) as [Z|Z]; auto. exfalso. apply Y. apply D; auto.
Qed.
Lemma pruned_trans : forall g1 g2 g3, pruned p w base g1 g2 -> pruned p w base g2 g3 -> pruned p w base g1 g3.
Proof.
  intros g1 g2 g3 P. induction P as [h h' E|h c h1 h' SC CU P IH]; intros Q.
  - assert (SE : forall c, simple_cycle h' c -> simple_cycle h c) by (intros c (A & B & C); split; auto; split; auto; intros; apply E; auto).
    inversion Q as [x y E2|x c h1 y SC CU P]; subst.
    + apply pruned_done. intros a b. rewrite E2, E. tauto.
    + eapply pruned_cut; eauto. intros a b. rewrite (CU a b), E. tauto.
  - eapply pruned_cut; eauto.
Qed.
Variable cyc : graph -> list (list node).
Hypothesis LC : lists_cycles cyc.
Lemma cycle_in_In : forall c l, cycle_in c l = true -> In c l.
Proof.
  intros c l H. unfold cycle_in in H. apply existsb_exists in H. destruct H as (d & D & E). destruct (list_eq_dec Nat.eq_dec c d); [subst; auto|discriminate].
Qed.
Lemma prune_pass_pruned : forall todo h h' cs st K, inside st K h -> unaliased h -> prune_pass cyc p w base todo (cyc (unload h)) h = (h', cs) ->
  pruned p w base (unload h) (unload h') /\ inside st K h' /\ unaliased h' /\ cs = cyc (unload h').
Proof.
  induction todo as [|c r IH]; intros h h' cs st K I U E; simpl in E; [inversion E; subst; split; auto; apply pruned_done; tauto|].
  destruct (cycle_in c (cyc (unload h))) eqn:CI; [|eapply IH; eauto].
  apply cycle_in_In in CI. apply (LC (unload h)) in CI. destruct (prune_cycle_cut c h st K (proj1 (proj2 CI)) I U) as (A & B & C).
  destruct (IH _ _ _ _ _ B C E) as (X & Y). split; auto. eapply pruned_cut; eauto.
Qed.
Lemma prune_loop_pruned : forall fuel h h' st K, inside st K h -> unaliased h -> prune_loop cyc fuel p w base (cyc (unload h)) h = Some h' ->
  pruned p w base (unload h) (unload h').
Proof.
  induction fuel as [|f IH]; intros h h' st K I U E; simpl in E.
  - destruct (cyc (unload h)); inversion E; subst. apply pruned_done; tauto.
  - destruct (cyc (unload h)) as [|c0 r0] eqn:EC; [inversion E; subst; apply pruned_done; tauto|]. rewrite <- EC in E.
    destruct (prune_pass cyc p w base (sort_by_len (cyc (unload h))) (cyc (unload h)) h) as [h2 cs] eqn:EP.
    destruct (prune_pass_pruned _ _ _ _ _ _ I U EP) as (A & B & C & ->).
    destruct (cycles_eqb _ _); [inversion E; subst; auto|]. eapply pruned_trans; eauto.
Qed.
Lemma sort_first : forall l, l <> [] -> exists c r, sort_by_len l = c :: r /\ In c l /\ forall d, In d l -> length d <= length c.
Proof.
  assert (G : forall x c r, (forall d, In d (c :: r) -> length d <= length c) -> exists c' r', insert_by_len x (c :: r) = c' :: r' /\
    forall d, In d (c' :: r') -> length d <= length c').
  { intros x c r H. simpl. destruct (Nat.leb_spec (length c) (length x)) as [L|L].
    - exists x, (c :: r). split; auto. intros d [<-|D]; auto. specialize (H d D). lia.
    - exists c, (insert_by_len x r). split; auto. intros d [<-|D]; auto.
      assert (X : d = x \/ In d r). { clear -D. induction r as [|e r IH]; simpl in D; [intuition|]. destruct (Nat.leb _ _); simpl in *; intuition. }
      destruct X as [->|X]; [lia|]. apply H; simpl; auto. }
  assert (A : forall l, l <> [] -> exists c r, sort_by_len l = c :: r /\ forall d, In d (c :: r) -> length d <= length c).
  { induction l as [|x l IH]; intros NE; [congruence|]. destruct l as [|y l]; [exists x, []; split; auto; intros d [<-|[]]; auto|].
    destruct IH as (c & r & E & H); [congruence|]. change (sort_by_len (x :: y :: l)) with (insert_by_len x (sort_by_len (y :: l))). rewrite E. apply G; auto. }
  intros l NE. destruct (A l NE) as (c & r & E & H). exists c, r. split; auto. rewrite <- E in H. split; [apply sort_by_len_In; rewrite E; simpl; auto|].
  intros d D. apply H. apply sort_by_len_In; auto.
Qed.
Lemma no_cycles : forall g, cyc g = [] -> forall c, ~ simple_cycle g c.
Proof. intros g E c SC. destruct (LC g) as [_ L2]. destruct (L2 c SC) as (d & _ & D). rewrite E in D. destruct D. Qed.
Lemma prune_loop_S : forall f prev h, prev <> [] -> prune_loop cyc (S f) p w base prev h =
  (let (h', cycles) := prune_pass cyc p w base (sort_by_len prev) (cyc (unload h)) h in
   if cycles_eqb prev cycles then Some h' else prune_loop cyc f p w base cycles h').
Proof. intros f prev h N. destruct prev; [congruence|reflexivity]. Qed.
Lemma prune_loop_longest : forall fuel h h' st K, inside st K h -> unaliased h -> prune_loop cyc fuel p w base (cyc (unload h)) h = Some h' ->
  pruned_longest p w base (unload h) (unload h').
Proof.
  intros fuel h h' st K I U E. destruct (cyc (unload h)) as [|c0 r0] eqn:EC.
  { left. split; [apply no_cycles; auto|]. destruct fuel; simpl in E; inversion E; subst; tauto. }
  destruct fuel as [|f]; [simpl in E; discriminate|].
  rewrite prune_loop_S in E by congruence. rewrite <- EC in E.
  destruct (sort_first (cyc (unload h))) as (c & r & ES & IC & LG); [congruence|].
  destruct (prune_pass cyc p w base (sort_by_len (cyc (unload h))) (cyc (unload h)) h) as [h2 cs] eqn:EP.
  rewrite ES in EP. cbn [prune_pass] in EP. assert (CI : cycle_in c (cyc (unload h)) = true).
  { unfold cycle_in. apply existsb_exists. exists c. split; auto. destruct (list_eq_dec Nat.eq_dec c c); congruence. }
  rewrite CI in EP. pose proof IC as SC. apply (LC (unload h)) in SC. destruct (prune_cycle_cut c h st K (proj1 (proj2 SC)) I U) as (A & B & C).
  destruct (prune_pass_pruned _ _ _ _ _ _ B C EP) as (P2 & I2 & U2 & ->).
  right. exists c, (unload (prune_cycle p w base c h)). split; auto. split.
  { intros d D. destruct (LC (unload h)) as [_ L2]. destruct (L2 d D) as (d' & R & D'). apply rotation_length in R. rewrite <- R. apply LG; auto. }
  split; auto. 
  destruct (cycles_eqb (cyc (unload h)) (cyc (unload h2))); [inversion E; subst; auto|].
  eapply pruned_trans; eauto. eapply prune_loop_pruned; eauto.
Qed.
End Cuts.

Theorem prune_pruned : forall cyc p w base g h', lists_cycles cyc -> wf_graph base -> wf_graph g -> closed_graph g -> wf_sets g -> p_prune p = true ->
  prune_cycles cyc p w base (load g) = Some h' -> pruned_longest p w base g (unload h').
Proof.
  intros cyc p w base g h' LC W WG C S PP E. unfold prune_cycles in E. rewrite PP in E.
  assert (I : inside [] (gkeys g) (load g)).
  { rewrite load_hload. apply inside_hload; auto. intros n l L x X. apply (C x n). apply edge_In; eauto. }
  assert (U : unaliased (load g)) by (rewrite load_hload; apply unaliased_hload).
  pose proof (prune_loop_longest p w base W cyc LC _ _ _ _ _ I U E) as P. rewrite unload_load in P. exact P.
Qed.
