(** Graph utilities: copies, receivers, ancestors, networkx conversion (C46 - C49). *)
From Verif Require Export BaseFacts TopoProofs.

Lemma edge_aget : forall g a b, edge g a b <-> In a (senders g b).
Proof.
  intros g a b; unfold edge, senders; split.
  - intros (l & E & I); rewrite E; auto.
  - destruct (aget b g) as [l|]; [eauto|intros []].
Qed.
Lemma edge_In : forall g a b, wf_graph g -> (edge g a b <-> exists l, In (b, l) g /\ In a l).
Proof.
  intros g a b W; split; intros (l & E & I); exists l; split; auto; [apply aget_In; auto|apply aget_In_NoDup; auto].
Qed.

(** ** C46 *)
Lemma clone_graph_keys : forall g, gkeys (clone_graph g) = gkeys g.
Proof. intros g; unfold gkeys, akeys, clone_graph. rewrite map_map; auto. Qed.
Lemma aget_clone : forall g n, aget n (clone_graph g) = option_map s_of (aget n g).
Proof. intros g n; induction g as [|[k l] r IH]; simpl; auto. destruct (Nat.eqb n k); auto. Qed.
Theorem clone_graph_same : forall g, gkeys (clone_graph g) = gkeys g /\ (forall a b, edge (clone_graph g) a b <-> edge g a b) /\ wf_sets (clone_graph g).
Proof.
  intros g; split; [apply clone_graph_keys|]. split.
  - intros a b. unfold edge. rewrite aget_clone. destruct (aget b g) as [l|]; simpl; split; intros (l' & E & I); try discriminate.
    + inversion E; subst. exists l; split; auto. apply s_of_In; auto.
    + inversion E; subst. exists (s_of l'); split; auto. apply s_of_In; auto.
  - intros n l I. unfold clone_graph in I. apply in_map_iff in I. destruct I as ([k x] & E & _). inversion E; subst. apply s_of_NoDup.
Qed.
Lemma clone_value_In : forall v x, In x (clone_value v) <-> denotes v x.
Proof. intros [l|w c|n] x; simpl; [apply s_of_In| |]; split; intros H; auto; destruct H as [H|[]]; auto. Qed.
Lemma aget_clone_input : forall g n, aget n (clone_input g) = option_map clone_value (aget n g).
Proof. intros g n; induction g as [|[k l] r IH]; simpl; auto. destruct (Nat.eqb n k); auto. Qed.
Theorem clone_input_same : forall g, gkeys (clone_input g) = akeys g /\
  forall a b, edge (clone_input g) a b <-> exists v, aget b g = Some v /\ denotes v a.
Proof.
  intros g; split; [unfold gkeys, akeys, clone_input; rewrite map_map; auto|]. intros a b. unfold edge. rewrite aget_clone_input.
  destruct (aget b g) as [v|]; simpl; split; intros (l' & E & I); try discriminate; inversion E; subst.
  - exists v; split; auto. apply clone_value_In; auto.
  - eexists; split; eauto. apply clone_value_In; auto.
Qed.
Lemma union_values_ok : forall g, all_iterable g -> exists u, union_values g = Ok u /\ NoDup u /\
  forall x, In x u <-> exists n v, In (n, v) g /\ denotes v x.
Proof.
  induction g as [|[k v] r IH]; intros A.
  - exists []. split; auto. split; [constructor|]. simpl; split; [tauto|]. intros (n & v & [] & _).
  - destruct IH as (u & E & N & H); [intros n w I; apply (A n); right; auto|].
    destruct (A k v (or_introl eq_refl)) as (l & ->). simpl. rewrite E. simpl. eexists; split; [reflexivity|].
    split; [apply s_union_NoDup; auto using s_of_NoDup|]. intros x. rewrite s_union_In, s_of_In, H. split.
    + intros [I|(n & v & I & D)]; [exists k, (VIter l); split; [left; auto|auto]|exists n, v; split; [right; auto|auto]].
    + intros (n & v & [I|I] & D); [inversion I; subst; auto|right; eauto].
Qed.
Lemma dict_merge_keys : forall A (b a : amap A) x, In x (akeys (dict_merge a b)) <-> In x (akeys a) \/ In x (akeys b).
Proof.
  induction b as [|[k v] r IH]; intros a x; simpl; [tauto|]. unfold dict_merge in *; simpl. rewrite IH, akeys_aset. simpl. intuition.
Qed.
Lemma dict_merge_nodup : forall A (b a : amap A), NoDup (akeys a) -> NoDup (akeys (dict_merge a b)).
Proof. induction b as [|[k v] r IH]; intros a N; simpl; auto. unfold dict_merge in *; simpl. apply IH, NoDup_aset; auto. Qed.
Lemma dict_merge_get : forall A (b a : amap A) x, NoDup (akeys b) -> aget x (dict_merge a b) = match aget x b with Some v => Some v | None => aget x a end.
Proof.
  induction b as [|[k v] r IH]; intros a x N; simpl; auto. unfold dict_merge in *; simpl. inversion N; subst. rewrite IH, aget_aset; auto.
  destruct (Nat.eqb_spec x k) as [->|]; auto. destruct (aget k r) eqn:E; auto. exfalso. apply H1. apply (aget_Some_key _ k r); eauto.
Qed.
Theorem base_graph_spec : forall g, NoDup (akeys g) -> all_iterable g -> exists b, base_graph g = Ok b /\
  wf_graph b /\ closed_graph b /\
  (forall n, In n (gkeys b) <-> In n (akeys g) \/ exists k v, In (k, v) g /\ denotes v n) /\
  (forall a c, edge b a c <-> exists v, aget c g = Some v /\ denotes v a).
Proof.
  intros g N A. destruct (union_values_ok g A) as (u & E & Nu & H). unfold base_graph. rewrite E. simpl.
  eexists; split; [reflexivity|].
  assert (K : forall n, In n (gkeys (dict_merge (map (fun n => (n, [])) u) (clone_input g))) <-> In n (akeys g) \/ exists k v, In (k, v) g /\ denotes v n).
  { intros n. unfold gkeys. rewrite dict_merge_keys. change (akeys (clone_input g)) with (gkeys (clone_input g)).
    rewrite (proj1 (clone_input_same g)), <- H. unfold akeys at 1. rewrite map_map. simpl. rewrite map_id. tauto. }
  assert (D : forall a c, edge (dict_merge (map (fun n => (n, [])) u) (clone_input g)) a c <-> exists v, aget c g = Some v /\ denotes v a).
  { intros a c. rewrite <- (proj2 (clone_input_same g)). unfold edge. rewrite dict_merge_get.
    2:{ change (NoDup (gkeys (clone_input g))). rewrite (proj1 (clone_input_same g)); auto. }
    destruct (aget c (clone_input g)); [tauto|]. split; intros (l & X & I); [|discriminate]. exfalso.
    apply aget_In in X. apply in_map_iff in X. destruct X as (y & Y & _). inversion Y; subst. destruct I. }
  split; [|split; [|split; auto]].
  - unfold wf_graph, gkeys. apply dict_merge_nodup. unfold akeys. rewrite map_map; simpl. rewrite map_id; auto.
  - intros a c X. apply D in X. destruct X as (v & X & Y). apply K. right. exists c, v. split; auto. apply aget_In; auto.
Qed.

(** ** C47 *)
Lemma receivers_row : forall n l r, (forall a b, edge (fold_left (receivers_step n) l r) a b <-> edge r a b \/ (a = n /\ In b l)) /\
  (forall x, In x (gkeys (fold_left (receivers_step n) l r)) <-> In x (gkeys r) \/ In x l) /\
  (wf_graph r -> wf_graph (fold_left (receivers_step n) l r)).
Proof.
  induction l as [|s l IH]; intros r; simpl; [split; [intuition|split; intuition]|].
  destruct (IH (receivers_step n r s)) as (A & B & C). split; [|split].
  - intros a b. rewrite A. unfold receivers_step at 1. unfold edge at 1. rewrite aget_aset. destruct (Nat.eqb_spec b s) as [->|Nb].
    + rewrite (edge_aget r a s). split.
      * intros [(x & X & I)|(-> & I)]; auto. inversion X; subst. apply s_add_In in I. destruct I as [->|I]; auto.
      * intros [I|(-> & [I|I])]; auto; left; eexists; split; eauto; apply s_add_In; auto.
    + fold (edge r a b). split; [intros [I|(-> & I)]; auto|intros [I|(-> & [I|I])]; auto; congruence].
  - intros x. rewrite B. unfold receivers_step, gkeys. rewrite akeys_aset. intuition.
  - intros W. apply C. apply NoDup_aset; auto.
Qed.
Lemma receivers_all : forall g r, (forall a b, edge (fold_left (fun r p => fold_left (receivers_step (fst p)) (snd p) r) g r) a b <->
    edge r a b \/ exists l, In (a, l) g /\ In b l) /\
  (forall x, In x (gkeys (fold_left (fun r p => fold_left (receivers_step (fst p)) (snd p) r) g r)) <-> In x (gkeys r) \/ exists a l, In (a, l) g /\ In x l) /\
  (wf_graph r -> wf_graph (fold_left (fun r p => fold_left (receivers_step (fst p)) (snd p) r) g r)).
Proof.
  induction g as [|[k l] g IH]; intros r; simpl.
  - split; [|split; auto]; intros; split; auto; intros [H|H]; auto; [destruct H as (? & [] & _)|destruct H as (? & ? & [] & _)].
  - destruct (IH (fold_left (receivers_step k) l r)) as (A & B & C). destruct (receivers_row k l r) as (A1 & B1 & C1). split; [|split; auto].
    + intros a b. rewrite A, A1. split.
      * intros [[I|(-> & I)]|(x & I & J)]; auto; right; eauto.
      * intros [I|(x & [I|I] & J)]; auto; [inversion I; subst; auto|right; eauto].
    + intros x. rewrite B, B1. split.
      * intros [[I|I]|(a & y & I & J)]; auto; right; eauto.
      * intros [I|(a & y & [I|I] & J)]; auto; [inversion I; subst; auto|right; eauto].
Qed.
Theorem receivers_spec : forall g, wf_graph g -> wf_graph (get_receivers g) /\
  (forall r s, edge (get_receivers g) r s <-> edge g s r) /\
  (forall n, In n (gkeys (get_receivers g)) <-> in_graph g n).
Proof.
  intros g W. unfold get_receivers. set (r0 := map (fun p : nat * list node => (fst p, @nil node)) g).
  assert (K0 : gkeys r0 = gkeys g) by (unfold gkeys, akeys, r0; rewrite map_map; auto).
  assert (E0 : forall a b, ~ edge r0 a b).
  { intros a b (l & X & I). apply aget_In in X. apply in_map_iff in X. destruct X as (y & Y & _). inversion Y; subst. destruct I. }
  destruct (receivers_all g r0) as (A & B & C). split; [|split].
  - apply C. unfold wf_graph. rewrite K0; auto.
  - intros r s. rewrite A, (edge_In g s r W). split; [intros [H|H]; auto; exfalso; eapply E0; eauto|auto].
  - intros n. rewrite B, K0. unfold in_graph. split; intros [H|H]; auto; right.
    + destruct H as (a & l & I & J). exists a. apply edge_In; eauto.
    + destruct H as (b & H). apply edge_In in H; auto. destruct H as (l & I & J). eauto.
Qed.
Lemma in_graph_closed : forall g n, closed_graph g -> (in_graph g n <-> In n (gkeys g)).
Proof. intros g n C; split; [intros [H|(b & H)]; auto; eapply C; eauto|left; auto]. Qed.
Theorem receivers_twice : forall g, wf_graph g -> closed_graph g -> same_graph (get_receivers (get_receivers g)) g.
Proof.
  intros g W C. destruct (receivers_spec g W) as (W1 & E1 & K1). destruct (receivers_spec _ W1) as (W2 & E2 & K2).
  assert (C1 : closed_graph (get_receivers g)).
  { intros a b H. apply E1 in H. apply K1. left. destruct H as (l & H & _). apply (aget_Some_key _ a g). eauto. }
  split; intros; [rewrite K2, (in_graph_closed _ _ C1), K1, (in_graph_closed _ _ C); tauto|rewrite E2, E1; tauto].
Qed.

(** ** C48 *)
Section Saturate.
Variable step : node -> list node.
Inductive reaches : node -> node -> Prop :=
| rs_here : forall x, reaches x x
| rs_step : forall x y z, reaches x y -> In z (step y) -> reaches x z.
Lemma reaches_trans : forall x y z, reaches x y -> reaches y z -> reaches x z.
Proof. intros x y z H1 H2; revert x H1; induction H2 as [a|a b c R IH I]; intros x H1; [exact H1|]. eapply rs_step; [apply IH; exact H1|exact I]. Qed.
Lemma union_In : forall ls acc x, In x (fold_left s_union ls acc) <-> In x acc \/ exists l, In l ls /\ In x l.
Proof.
  induction ls as [|l ls IH]; intros acc x; simpl.
  - split; auto. intros [H|(l & [] & _)]; auto.
  - rewrite IH, s_union_In. split.
    + intros [[H|H]|(l' & A & B)]; auto; right; eauto.
    + intros [H|(l' & [<-|A] & B)]; auto. right; eauto.
Qed.
Lemma expand_In : forall acc x, In x (expand step acc) <-> In x acc \/ exists y, In y acc /\ In x (step y).
Proof.
  intros acc x; unfold expand. rewrite union_In. split; intros [H|(y & A & B)]; auto; right.
  - apply in_map_iff in A. destruct A as (z & <- & A). eauto.
  - exists (step y). split; auto. apply in_map; auto.
Qed.
Lemma saturate_sound : forall fuel acc x, In x (saturate fuel step acc) -> exists y, In y acc /\ reaches y x.
Proof.
  induction fuel as [|f IH]; intros acc x H; simpl in H; [exists x; split; auto; constructor|].
  apply IH in H. destruct H as (y & A & B). apply expand_In in A. destruct A as [A|(z & A & C)]; eauto.
  exists z. split; auto. eapply reaches_trans; [|eauto]. eapply rs_step; [constructor|auto].
Qed.
Lemma saturate_incl : forall fuel acc x, In x acc -> In x (saturate fuel step acc).
Proof. induction fuel as [|f IH]; intros acc x H; simpl; auto. apply IH, expand_In; auto. Qed.
Definition closed (acc : list node) : Prop := forall y x, In y acc -> In x (step y) -> In x acc.
Lemma closed_reaches : forall acc y x, closed acc -> In y acc -> reaches y x -> In x acc.
Proof. intros acc y x C I R; revert I; induction R as [a|a b c R IH H]; intros I; [exact I|]. eapply C; [apply IH; exact I|exact H]. Qed.
Lemma saturate_closed : forall fuel acc, closed acc -> forall x, In x (saturate fuel step acc) <-> In x acc.
Proof.
  intros fuel acc C x; split; [|apply saturate_incl]. intros H. apply saturate_sound in H. destruct H as (y & A & B). eapply closed_reaches; eauto.
Qed.
Lemma closed_dec : forall acc, closed acc \/ exists y x, In y acc /\ In x (step y) /\ ~ In x acc.
Proof.
  intros acc.
  assert (H : forall l, (forall y x, In y l -> In x (step y) -> In x acc) \/ exists y x, In y l /\ In x (step y) /\ ~ In x acc).
  { induction l as [|y l IH]; [left; intros y x []|].
    assert (G : forall s, (forall x, In x s -> In x acc) \/ exists x, In x s /\ ~ In x acc).
    { induction s as [|x s IHs]; [left; intros x []|]. destruct (In_dec_nat x acc) as [Ix|Nx].
      - destruct IHs as [IHs|(z & A & B)]; [left; intros z [<-|Hz]; auto|right; exists z; split; auto; right; auto].
      - right; exists x; split; auto; left; auto. }
    destruct (G (step y)) as [G1|(x & A & B)]; [|right; exists y, x; split; [left|]; auto].
    destruct IH as [IH|(z & x & A & B & C)]; [left; intros z x [<-|Hz] Hx; eauto|right; exists z, x; split; [right|]; auto]. }
  apply H.
Qed.
Lemma closed_equiv : forall a b, (forall x, In x a <-> In x b) -> closed a -> closed b.
Proof. intros a b E C y x Hy Hx. apply E. eapply C; eauto. apply E; auto. Qed.
Lemma saturate_complete : forall fuel acc U, incl acc U -> (forall y x, In y U -> In x (step y) -> In x U) ->
  length U <= fuel + length (s_of acc) -> closed (saturate fuel step acc).
Proof.
  induction fuel as [|f IH]; intros acc U I S L; simpl.
  - assert (X : incl U (s_of acc)).
    { apply NoDup_length_incl; [apply s_of_NoDup|simpl in L; auto|]. intros x Hx. apply I. apply (s_of_In x acc); auto. }
    intros y x Hy Hx. apply (s_of_In x acc). apply X. apply S with y; auto.
  - destruct (closed_dec acc) as [C|(y & x & Hy & Hx & Nx)].
    + apply (closed_equiv acc); auto. intros x. rewrite <- (saturate_closed (Datatypes.S f) acc C x). simpl. tauto.
    + apply (IH (expand step acc) U); auto.
      * intros z Hz. apply expand_In in Hz. destruct Hz as [Hz|(w & A & B)]; auto. apply S with w; auto.
      * assert (G : length (x :: s_of acc) <= length (s_of (expand step acc))).
        { apply NoDup_incl_length.
          - constructor; [rewrite s_of_In; auto|apply s_of_NoDup].
          - intros z [<-|Hz]; apply s_of_In, expand_In; [right; eauto|left; apply (s_of_In z acc); auto]. }
        simpl in G. unfold node in *. simpl in L. lia.
Qed.
Theorem saturate_spec : forall acc U, incl acc U -> (forall y x, In y U -> In x (step y) -> In x U) ->
  forall x, In x (saturate (length U) step acc) <-> exists y, In y acc /\ reaches y x.
Proof.
  intros acc U I S x; split; [apply saturate_sound|]. intros (y & A & B).
  eapply closed_reaches; [apply (saturate_complete (length U) acc U); auto; lia|apply saturate_incl; eauto|auto].
Qed.
End Saturate.
Lemma universe_In : forall g x, wf_graph g -> (In x (g_universe g) <-> in_graph g x).
Proof.
  intros g x W. unfold g_universe. rewrite s_of_In, in_app_iff, in_flat_map. unfold in_graph. split; intros [H|H]; auto; right.
  - destruct H as ([k l] & A & B). exists k. apply edge_In; eauto.
  - destruct H as (b & H). apply edge_In in H; auto. destruct H as (l & A & B). exists (b, l); auto.
Qed.
Lemma reach_first : forall g a b c, edge g a b -> reach g b c -> reach g a c.
Proof. intros g a b c E R; induction R; [eapply reach_step; [apply reach_edge; eauto|auto]|eapply reach_step; eauto]. Qed.
Lemma up_reach : forall g x y, reaches (senders g) y x -> x = y \/ reach g x y.
Proof.
  intros g x y R; induction R; auto. right. apply edge_aget in H. destruct IHR as [->|IH]; [apply reach_edge; auto|eapply reach_first; eauto].
Qed.
Lemma reach_up : forall g x y, reach g x y -> exists z, In z (senders g y) /\ reaches (senders g) z x.
Proof.
  intros g x y R; induction R as [b H|b c R (z & A & B) H].
  - exists x. split; [apply edge_aget; auto|constructor].
  - exists b. split; [apply edge_aget; auto|]. eapply reaches_trans; [|eauto]. eapply rs_step; [constructor|auto].
Qed.
Lemma receivers_of_In : forall g n x, wf_graph g -> (In x (receivers_of g n) <-> edge g n x).
Proof.
  intros g n x W. unfold receivers_of. rewrite in_map_iff, (edge_In g n x W). split.
  - intros ([k l] & <- & A). apply filter_In in A. destruct A as [A B]. exists l. split; auto. apply mem_In; auto.
  - intros (l & A & B). exists (x, l). split; auto. apply filter_In; split; auto. apply mem_In; auto.
Qed.
Lemma ancestors_of_spec : forall g n x, wf_graph g -> (In x (ancestors_of g n) <-> x <> n /\ reach g x n).
Proof.
  intros g n x W. unfold ancestors_of. rewrite s_remove_In.
  rewrite (saturate_spec (senders g)).
  - split; intros [N H]; split; auto.
    + destruct H as (y & A & B). apply edge_aget in A. apply up_reach in B. destruct B as [->|B]; [apply reach_edge; auto|eapply reach_step; eauto].
    + apply reach_up; auto.
  - intros y Hy. apply universe_In; auto. right. exists n. apply edge_aget; auto.
  - intros y z Hy Hz. apply universe_In; auto. right. exists y. apply edge_aget; auto.
Qed.
Theorem ancestors_spec : forall g n x, wf_graph g -> In n (gkeys g) ->
  (In x (senders (get_ancestors g) n) <-> x <> n /\ reach g x n).
Proof.
  intros g n x W K.
  assert (E : senders (get_ancestors g) n = ancestors_of g n).
  { unfold senders, get_ancestors. assert (G : forall l : graph, aget n (map (fun p => (fst p, ancestors_of g (fst p))) l) = if ahas n l then Some (ancestors_of g n) else None).
    { induction l as [|[k v] l IH]; simpl; auto. unfold ahas; simpl. destruct (Nat.eqb_spec n k) as [->|]; auto. }
    rewrite G. apply (ahas_key _ n g) in K. rewrite K. auto. }
  rewrite E. apply ancestors_of_spec; auto.
Qed.
Lemma descendants_of_spec : forall g n x, wf_graph g -> (In x (descendants_of g n) <-> x <> n /\ reach g n x).
Proof.
  intros g n x W. unfold descendants_of. rewrite s_remove_In.
  assert (U : forall y z, edge g y z -> In z (g_universe g)).
  { intros y z (l & A & B). apply universe_In; auto. left. apply (aget_Some_key _ z g); eauto. }
  rewrite (saturate_spec (receivers_of g)).
  - split; intros [N H]; split; auto.
    + destruct H as (y & A & B). apply receivers_of_In in A; auto. assert (R : reach g n y) by (apply reach_edge; auto). clear A N.
      revert R. induction B as [a|a b c B IH H]; intros R; [exact R|]. apply receivers_of_In in H; auto. eapply reach_step; [apply IH; exact R|exact H].
    + clear N. induction H as [b H|b c H (y & A & B) F].
      * exists b. split; [apply receivers_of_In; auto|constructor].
      * exists y. split; auto. eapply rs_step; [eauto|]. apply receivers_of_In; auto.
  - intros y Hy. apply receivers_of_In in Hy; eauto.
  - intros y z Hy Hz. apply receivers_of_In in Hz; eauto.
Qed.
Theorem descendants_spec : forall g n x, wf_graph g -> In n (gkeys g) ->
  (In x (senders (get_descendants g) n) <-> x <> n /\ reach g n x).
Proof.
  intros g n x W K.
  assert (E : senders (get_descendants g) n = descendants_of g n).
  { unfold senders, get_descendants. assert (G : forall l : graph, aget n (map (fun p => (fst p, descendants_of g (fst p))) l) = if ahas n l then Some (descendants_of g n) else None).
    { induction l as [|[k v] l IH]; simpl; auto. unfold ahas; simpl. destruct (Nat.eqb_spec n k) as [->|]; auto. }
    rewrite G. apply (ahas_key _ n g) in K. rewrite K. auto. }
  rewrite E. apply descendants_of_spec; auto.
Qed.

(** ** C49 *)
Definition nx_add (s : node) (r : graph) (c : node) : graph :=
  let r1 := if ahas c r then r else aset c [] r in aset c (s_add s (senders r1 c)) r1.
Lemma nx_row : forall s recs r, wf_graph r ->
  let r' := fold_left (nx_add s) recs r in
  wf_graph r' /\ (forall a b, edge r' a b <-> edge r a b \/ (a = s /\ In b recs)) /\ (forall x, In x (gkeys r') <-> In x (gkeys r) \/ In x recs).
Proof.
  intros s recs. induction recs as [|c l IH]; intros r W; cbn [fold_left].
  - split; auto. split; intros; simpl; intuition.
  - set (r1 := if ahas c r then r else aset c [] r).
    assert (W1 : wf_graph r1) by (unfold r1; destruct (ahas c r); auto; apply NoDup_aset; auto).
    assert (E1 : forall a b, edge r1 a b <-> edge r a b).
    { intros a b. unfold r1. destruct (ahas c r) eqn:H; [tauto|]. unfold edge. rewrite aget_aset. destruct (Nat.eqb_spec b c) as [->|]; [|tauto].
      unfold ahas in H. destruct (aget c r); [discriminate|]. split; intros (x & A & B); inversion A; subst; destruct B. }
    assert (K1 : forall x, In x (gkeys r1) <-> In x (gkeys r) \/ x = c).
    { intros x. unfold r1. destruct (ahas c r) eqn:H.
      - apply ahas_key in H. split; auto. intros [A| ->]; auto.
      - unfold gkeys. rewrite akeys_aset. intuition. }
    assert (N1 : nx_add s r c = aset c (s_add s (senders r1 c)) r1) by reflexivity.
    destruct (IH (nx_add s r c)) as (A & B & C); [rewrite N1; apply NoDup_aset; auto|].
    split; auto. split.
    + intros a b. rewrite B, <- E1. unfold edge at 1. rewrite N1, aget_aset. destruct (Nat.eqb_spec b c) as [->|Nb].
      * rewrite (edge_aget r1 a c). split.
        -- intros [(x & X & I)|(-> & I)]; [|right; simpl; auto]. inversion X; subst. apply s_add_In in I. destruct I as [->|I]; simpl; auto.
        -- intros [I|(-> & [I|I])]; auto; left; eexists; split; eauto; apply s_add_In; auto.
      * fold (edge r1 a b). simpl. split; [intros [I|(-> & I)]; auto|intros [I|(-> & [I|I])]; auto; congruence].
    + intros x. rewrite C. unfold gkeys. rewrite N1, akeys_aset. change (akeys r1) with (gkeys r1). rewrite K1. simpl. intuition.
Qed.
Lemma nx_all : forall add d ns r, wf_graph r ->
  let r' := fold_left (nx_to_dict_sender add d) ns r in
  wf_graph r' /\ (forall a b, edge r' a b <-> edge r a b \/ (In a ns /\ In b (dg_adj d a))) /\
  (forall x, In x (gkeys r') <-> In x (gkeys r) \/ (add = true /\ In x ns) \/ exists a, In a ns /\ In x (dg_adj d a)).
Proof.
  intros add d ns. induction ns as [|s l IH]; intros r W; cbn [fold_left].
  - split; auto. split; intros; simpl; split; auto.
    + intros [H|([] & _)]; auto.
    + intros [H|[(_ & [])|(a & [] & _)]]; auto.
  - set (r1 := if add && negb (ahas s r) then aset s [] r else r).
    assert (W1 : wf_graph r1) by (unfold r1; destruct (add && negb (ahas s r)); auto; apply NoDup_aset; auto).
    assert (E1 : forall a b, edge r1 a b <-> edge r a b).
    { intros a b. unfold r1. destruct (add && negb (ahas s r)) eqn:H; [|tauto]. apply andb_true_iff in H. destruct H as [_ H]. apply negb_true_iff in H.
      unfold edge. rewrite aget_aset. destruct (Nat.eqb_spec b s) as [->|]; [|tauto].
      unfold ahas in H. destruct (aget s r); [discriminate|]. split; intros (x & A & B); inversion A; subst; destruct B. }
    assert (K1 : forall x, In x (gkeys r1) <-> In x (gkeys r) \/ (add = true /\ x = s)).
    { intros x. unfold r1. destruct add; simpl.
      - destruct (ahas s r) eqn:H; simpl.
        + apply ahas_key in H. split; auto. intros [A|(_ & ->)]; auto.
        + unfold gkeys. rewrite akeys_aset. intuition.
      - split; auto. intros [A|(A & _)]; auto; discriminate. }
    destruct (nx_row s (dg_adj d s) r1 W1) as (A & B & C). change (nx_to_dict_sender add d r s) with
      (fold_left (nx_add s) (dg_adj d s) r1) in *.
    cbv zeta in A, B, C. set (r2 := fold_left (nx_add s) (dg_adj d s) r1) in *.
    destruct (IH r2 A) as (A' & B' & C'). split; auto. split.
    + intros a b. rewrite B', B, E1. simpl. split; [intros [[H|(-> & H)]|(H & H0)]; auto|intros [H|([->|H] & H0)]; auto].
    + intros x. rewrite C', C, K1. simpl. split.
      * intros [[[H|(H & ->)]|H]|[(H & H0)|(a & H & H0)]]; auto; [right; right; eauto|right; right; eauto].
      * intros [H|[(H & [->|H0])|(a & [->|H] & H0)]]; auto. right; right; eauto.
Qed.
Lemma adj_reverse : forall g a b, wf_graph g -> (In b (dg_adj (dependency_dict_to_networkx_digraph g) a) <-> edge g a b).
Proof.
  intros g a b W. rewrite (edge_In g a b W). unfold dg_adj, dependency_dict_to_networkx_digraph, dg_reverse, dict_to_digraph. cbn [dg_edges].
  rewrite in_map_iff. split.
  - intros ([x y] & <- & H). apply filter_In in H. destruct H as [H E]. simpl in *. apply Nat.eqb_eq in E. subst x.
    apply in_map_iff in H. destruct H as ([u v] & H & I). inversion H; subst. apply in_flat_map in I. destruct I as ([k l] & I & J).
    apply in_map_iff in J. destruct J as (z & J & J'). inversion J; subst. eauto.
  - intros (l & A & B). exists (a, b). split; auto. apply filter_In. split; [|simpl; apply Nat.eqb_refl].
    apply in_map_iff. exists (b, a). split; auto. apply in_flat_map. exists (b, l). split; auto. apply in_map_iff. eauto.
Qed.
Lemma digraph_nodes : forall g n, wf_graph g -> (In n (dg_nodes (dependency_dict_to_networkx_digraph g)) <-> in_graph g n).
Proof.
  intros g n W. unfold dependency_dict_to_networkx_digraph, dg_reverse, dict_to_digraph. cbn [dg_nodes].
  rewrite s_of_In, in_app_iff. unfold in_graph. split; intros [H|H]; auto; right.
  - apply in_map_iff in H. destruct H as ([x y] & <- & H). apply in_flat_map in H. destruct H as ([k l] & A & B). apply in_map_iff in B.
    destruct B as (z & B & C). inversion B; subst. eexists. apply edge_In; simpl; eauto.
  - destruct H as (b & H). apply edge_In in H; auto. destruct H as (l & A & B). apply in_map_iff. exists (b, n). split; auto.
    apply in_flat_map. exists (b, l). split; auto. apply in_map_iff; eauto.
Qed.
Theorem to_digraph : forall g, wf_graph g ->
  (forall n, In n (dg_nodes (dependency_dict_to_networkx_digraph g)) <-> in_graph g n) /\
  (forall a b, In b (dg_adj (dependency_dict_to_networkx_digraph g) a) <-> edge g a b).
Proof. intros g W; split; intros; [apply digraph_nodes|apply adj_reverse]; auto. Qed.
Theorem from_digraph : forall add d, (forall a b, In b (dg_adj d a) -> In a (dg_nodes d) /\ In b (dg_nodes d)) ->
  let g := networkx_digraph_to_dependency_dict add d in
  wf_graph g /\ (forall a b, edge g a b <-> In b (dg_adj d a)) /\
  (forall x, In x (gkeys g) <-> (add = true /\ In x (dg_nodes d)) \/ exists a, In x (dg_adj d a)).
Proof.
  intros add d Wf g. destruct (nx_all add d (dg_nodes d) []) as (A & B & C); [constructor|]. fold (networkx_digraph_to_dependency_dict add d) in *. fold g in A, B, C.
  split; auto. split.
  - intros a b. rewrite B. split; [intros [(l & H & _)|(_ & H)]; auto; discriminate|intros H; right; split; auto; apply (Wf a b); auto].
  - intros x. rewrite C. split; [intros [[]|[H|(a & H & H0)]]; eauto|intros [H|(a & H)]; auto].
    right; right. exists a. split; auto. apply (Wf a x H).
Qed.
Theorem round_trip : forall add g, wf_graph g ->
  let g' := networkx_digraph_to_dependency_dict add (dependency_dict_to_networkx_digraph g) in
  wf_graph g' /\ (forall a b, edge g' a b <-> edge g a b) /\
  (forall n, In n (gkeys g') <-> (add = true /\ in_graph g n) \/ exists a, edge g a n).
Proof.
  intros add g W g'.
  destruct (from_digraph add (dependency_dict_to_networkx_digraph g)) as (A & B & C).
  { intros a b H. apply adj_reverse in H; auto. split; apply digraph_nodes; auto; [right; eauto|left].
    destruct H as (l & H & _). apply (aget_Some_key _ b g); eauto. }
  fold g' in A, B, C. split; auto. split.
  - intros a b. rewrite B. apply adj_reverse; auto.
  - intros n. rewrite C, digraph_nodes; auto. split; intros [H|(a & H)]; auto; right; exists a; apply adj_reverse; auto.
Qed.
