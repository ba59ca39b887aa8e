(** The consideration queue (toposort) against walks in the graph. *)
From Verif Require Export SpecGraph BaseFacts.
From Coq Require Import Permutation.

Lemma edge_senders : forall g a b, edge g a b <-> In a (senders g b).
Proof.
  intros; unfold edge, senders; destruct (aget b g); split; intros H; try (destruct H as (l' & E & H)).
  - inversion E; subst; auto.
  - eauto.
  - discriminate.
  - contradiction.
Qed.
Lemma edge_key : forall g a b, edge g a b -> In b (gkeys g).
Proof. intros g a b (l & H & _); apply aget_Some_key; eauto. Qed.

Lemma walk_app : forall g a k b m c, walk g a k b -> walk g b m c -> walk g a (k + m) c.
Proof.
  intros g a k b m c H1 H2; induction H2.
  - rewrite Nat.add_0_r; auto.
  - rewrite Nat.add_succ_r; econstructor; eauto.
Qed.
Lemma walk_cons : forall g a b k c, edge g a b -> a <> b -> walk g b k c -> walk g a (S k) c.
Proof.
  intros. change (S k) with (1 + k). eapply walk_app; eauto.
  econstructor; eauto; constructor.
Qed.
Lemma walk_inv_front : forall g a k c, walk g a (S k) c -> exists b, edge g a b /\ a <> b /\ walk g b k c.
Proof.
  induction k; intros c H; inversion H; subst.
  - inversion H1; subst. exists c; repeat split; auto; constructor.
  - apply IHk in H1. destruct H1 as (b' & E & N & W). exists b'; repeat split; auto. econstructor; eauto.
Qed.

(** ** the working dict *)
Record wf_data (d : graph) : Prop := mkWfData {
  wd_keys : NoDup (gkeys d);
  wd_closed : forall n l, In (n, l) d -> forall x, In x l -> In x (gkeys d);
  wd_self : forall n l, In (n, l) d -> ~ In n l
}.

Lemma edge_In : forall d a b, NoDup (gkeys d) -> (edge d a b <-> exists l, In (b, l) d /\ In a l).
Proof.
  intros d a b N; split; intros (l & H1 & H2).
  - exists l; split; auto; apply aget_In; auto.
  - exists l; split; auto; apply aget_In_NoDup; auto.
Qed.

Lemma topo_ordered_In : forall d n, In n (topo_ordered d) <-> In (n, []) d.
Proof.
  intros; unfold topo_ordered; rewrite in_map_iff; split.
  - intros ((n', l) & E & H); simpl in E; subst; apply filter_In in H; destruct H as [H1 H2].
    simpl in H2; destruct l; [auto|discriminate].
  - intros H; exists (n, []); split; auto; apply filter_In; auto.
Qed.
Lemma topo_ordered_key : forall d n, In n (topo_ordered d) -> In n (gkeys d).
Proof. intros d n H; apply topo_ordered_In in H; apply in_map_iff; exists (n, []); auto. Qed.
Lemma topo_ordered_nosender : forall d a n, NoDup (gkeys d) -> In n (topo_ordered d) -> ~ edge d a n.
Proof.
  intros d a n N H (l & E & I). apply topo_ordered_In in H.
  apply aget_In_NoDup in H; auto. rewrite H in E; inversion E; subst; auto.
Qed.
Lemma topo_rest_In : forall d o n l, In (n, l) (topo_rest d o) <-> exists l0, In (n, l0) d /\ ~ In n o /\ l = s_diff l0 o.
Proof.
  intros; unfold topo_rest; rewrite in_map_iff; split.
  - intros ((n', l0) & E & H); simpl in E; inversion E; subst. apply filter_In in H; destruct H as [H1 H2].
    simpl in H2; rewrite negb_true_iff, mem_In_false in H2; eauto.
  - intros (l0 & H1 & H2 & ->); exists (n, l0); split; auto.
    apply filter_In; split; auto; simpl; rewrite negb_true_iff, mem_In_false; auto.
Qed.
Lemma topo_rest_keys_eq : forall d o, gkeys (topo_rest d o) = filter (fun n => negb (mem n o)) (gkeys d).
Proof.
  intros; unfold topo_rest, gkeys, akeys; rewrite map_map; simpl.
  induction d as [|[n l] r IH]; simpl; auto.
  destruct (mem n o); simpl; auto; f_equal; auto.
Qed.
Lemma topo_rest_keys : forall d o n, In n (gkeys (topo_rest d o)) <-> In n (gkeys d) /\ ~ In n o.
Proof. intros; rewrite topo_rest_keys_eq, filter_In, negb_true_iff, mem_In_false; tauto. Qed.
Lemma topo_rest_wf : forall d, wf_data d -> wf_data (topo_rest d (topo_ordered d)).
Proof.
  intros d [N C S]; constructor.
  - rewrite topo_rest_keys_eq; apply NoDup_filter; auto.
  - intros n l H x Hx. apply topo_rest_In in H; destruct H as (l0 & H1 & H2 & ->).
    apply s_diff_In in Hx; destruct Hx. apply topo_rest_keys; split; auto; eapply C; eauto.
  - intros n l H Hx. apply topo_rest_In in H; destruct H as (l0 & H1 & H2 & ->).
    apply s_diff_In in Hx; destruct Hx; eapply S; eauto.
Qed.
Lemma topo_rest_edge : forall d a b, wf_data d ->
  (edge (topo_rest d (topo_ordered d)) a b <-> edge d a b /\ ~ In a (topo_ordered d)).
Proof.
  intros d a b W. rewrite !edge_In by (try apply topo_rest_wf; auto; apply W). split.
  - intros (l & H & I). apply topo_rest_In in H; destruct H as (l0 & H1 & H2 & ->).
    apply s_diff_In in I; intuition eauto.
  - intros ((l & H & I) & Hn). exists (s_diff l (topo_ordered d)); split.
    + apply topo_rest_In; exists l; repeat split; auto.
      intros Ho. eapply topo_ordered_nosender; eauto; [apply W|]. exists l; split; eauto. apply aget_In_NoDup; auto; apply W.
    + apply s_diff_In; auto.
Qed.
Lemma topo_rest_length : forall d, topo_ordered d <> [] -> length (topo_rest d (topo_ordered d)) < length d.
Proof.
  intros d H. unfold topo_rest; rewrite map_length.
  destruct (topo_ordered d) as [|n o] eqn:E; [congruence|].
  assert (Hn : In (n, []) d) by (apply topo_ordered_In; rewrite E; left; auto).
  clear E H. induction d as [|[k l] r IH]; simpl in *; [tauto|].
  destruct Hn as [Hn|Hn].
  - inversion Hn; subst. rewrite Nat.eqb_refl. simpl orb. simpl negb. cbn iota.
    apply le_n_S, filter_length_le.
  - apply IH in Hn. match goal with |- context [if ?b then _ else _] => destruct b end; simpl; lia.
Qed.

(* an ordered node is not the target of a walk step *)
Lemma walk_rest_down : forall d a k n, wf_data d -> walk d a k n -> ~ In n (topo_ordered d) ->
  (walk (topo_rest d (topo_ordered d)) a k n /\ ~ In a (topo_ordered d)) \/
  (exists b j, k = S j /\ walk (topo_rest d (topo_ordered d)) b j n).
Proof.
  intros d a k n W H; induction H as [|k b c H IH E Ne]; intros Hn.
  - left; split; auto; constructor.
  - destruct (In_dec_nat b (topo_ordered d)) as [Hb|Hb].
    + right; exists c, k; split; auto.
      destruct H as [|k b' b H E' Ne'].
      * constructor.
      * exfalso; eapply topo_ordered_nosender; eauto; apply W.
    + destruct (IH Hb) as [(Wk & Ha)|(b' & j & -> & Wk)].
      * left; split; auto. econstructor; eauto. apply topo_rest_edge; auto.
      * right; exists b', (S j); split; auto. econstructor; eauto; apply topo_rest_edge; auto.
Qed.
Lemma walk_rest_up : forall d a k n, wf_data d -> walk (topo_rest d (topo_ordered d)) a k n -> walk d a k n.
Proof.
  intros d a k n W H; induction H; [constructor|].
  econstructor; eauto. apply topo_rest_edge in H0; intuition.
Qed.
Lemma walk_key : forall d a k n, wf_data d -> walk d a k n -> In n (gkeys d) -> In a (gkeys d).
Proof.
  intros d a k n W H; induction H; intros; auto.
  apply IHwalk. apply edge_In in H0; [|apply W]. destruct H0 as (l & Ha & Hb). eapply (wd_closed _ W); eauto.
Qed.

Definition levels_ok (d : graph) (q : list (list node)) : Prop :=
  NoDup (concat q) /\ (forall n, In n (concat q) <-> In n (gkeys d)) /\
  Forall (fun l => l <> []) q /\
  (forall i l n, nth_error q i = Some l -> In n l ->
     (exists a, walk d a i n) /\ (forall a k, walk d a k n -> k <= i)).

Lemma topo_ordered_NoDup : forall d, NoDup (gkeys d) -> NoDup (topo_ordered d).
Proof.
  intros d N. unfold topo_ordered. induction d as [|[n l] r IH]; simpl; [constructor|].
  inversion N; subst. destruct l; simpl; auto. constructor; auto.
  intros H; apply topo_ordered_In in H. apply H1. apply in_map_iff; exists (n, []); auto.
Qed.

Lemma topo_loop_ok : forall fuel d q, wf_data d -> topo_loop fuel d = TopoOk q -> levels_ok d q.
Proof.
  induction fuel as [|f IH]; intros d q W H; simpl in H.
  - destruct (topo_ordered d) eqn:E; [|discriminate].
    destruct d; inversion H; subst. repeat split; simpl; try tauto; try constructor.
    all: intros; try (destruct i; discriminate).
  - destruct (topo_ordered d) as [|o os] eqn:E.
    + destruct d; inversion H; subst. repeat split; simpl; try tauto; try constructor.
      all: intros; try (destruct i; discriminate).
    + rewrite <- E in H.
      assert (Wr := topo_rest_wf d W).
      remember (topo_rest d (topo_ordered d)) as r eqn:Er.
      destruct (topo_loop f r) as [q'| |] eqn:Eq; try discriminate.
      inversion H; subst q; clear H.
      specialize (IH r q' Wr Eq). destruct IH as (I1 & I2 & I3 & I4).
      assert (Hkeys : forall n, In n (concat q') <-> In n (gkeys d) /\ ~ In n (topo_ordered d))
        by (intros n; rewrite I2, Er, topo_rest_keys; tauto).
      repeat split.
      * simpl; apply NoDup_app_intro; auto.
        -- apply topo_ordered_NoDup; apply W.
        -- intros x Hx Hq; apply Hkeys in Hq; intuition.
      * simpl; rewrite in_app_iff, Hkeys. intros [Hn|Hn]; [apply topo_ordered_key; auto|intuition].
      * simpl; rewrite in_app_iff, Hkeys. destruct (In_dec_nat n (topo_ordered d)); intuition.
      * constructor; auto. rewrite E; discriminate.
      * destruct i; simpl in H; [exists n; constructor|].
        destruct (I4 i l n H H0) as ((a & Wa) & _).
        assert (Hq : In n (concat q')) by (apply in_concat; exists l; split; auto; eapply nth_error_In; eauto).
        assert (Ha : In a (gkeys r)) by (eapply walk_key; eauto; apply I2; auto).
        assert (Ha' : In a (gkeys d) /\ ~ In a (topo_ordered d)) by (rewrite Er in Ha; apply topo_rest_keys in Ha; auto).
        destruct Ha' as [Ha1 Ha2].
        apply aget_Some_key in Ha1; destruct Ha1 as (la & Hla).
        destruct la as [|b la'].
        { exfalso; apply Ha2; apply topo_ordered_In; apply aget_In; auto. }
        exists b. eapply walk_cons with (b := a).
        -- exists (b :: la'); split; auto; left; auto.
        -- intros ->. eapply (wd_self _ W); [apply aget_In; eauto|left; auto].
        -- apply walk_rest_up; auto. rewrite <- Er; auto.
      * destruct i; simpl in H.
        -- inversion H; subst l. intros a k Wk. destruct Wk; auto.
           exfalso; eapply topo_ordered_nosender; eauto; apply W.
        -- intros a k Wk.
           assert (Hq : In n (concat q')) by (apply in_concat; exists l; split; auto; eapply nth_error_In; eauto).
           assert (Hn : ~ In n (topo_ordered d)) by (apply Hkeys in Hq; intuition).
           destruct (I4 i l n H H0) as (_ & M).
           destruct (walk_rest_down d a k n W Wk Hn) as [(W' & _)|(b & j & -> & W')]; rewrite <- Er in W'; apply M in W'; lia.
Qed.

Lemma topo_loop_fuel : forall fuel d, length d <= fuel -> topo_loop fuel d <> TopoOutOfFuel.
Proof.
  induction fuel as [|f IH]; intros d L; simpl.
  - destruct d; simpl in *; [discriminate|lia].
  - destruct (topo_ordered d) as [|o os] eqn:E.
    + destruct d; discriminate.
    + rewrite <- E. pose proof (topo_rest_length d) as HL. rewrite E in HL at 1.
      specialize (HL ltac:(discriminate)).
      assert (IHr := IH (topo_rest d (topo_ordered d)) ltac:(lia)).
      destruct (topo_loop f (topo_rest d (topo_ordered d))); congruence.
Qed.

(** pigeonhole *)
Lemma pigeon : forall (f : nat -> node) n, ~ NoDup (map f (seq 0 n)) -> exists i j, i < j < n /\ f i = f j.
Proof.
  intros f n; induction n; intros H.
  - exfalso; apply H; constructor.
  - rewrite seq_S, map_app in H; simpl in H.
    destruct (in_dec Nat.eq_dec (f n) (map f (seq 0 n))) as [I|I].
    + apply in_map_iff in I; destruct I as (i & E & I). apply in_seq in I. exists i, n; split; auto; lia.
    + destruct (ListDec.NoDup_dec Nat.eq_dec (map f (seq 0 n))) as [N|N].
      * exfalso; apply H. apply NoDup_app_intro; auto; [constructor; [simpl; tauto|constructor]|].
        simpl; intros x Hx [<-|[]]; auto.
      * destruct (IHn N) as (i & j & Hij & E). exists i, j; split; auto; lia.
Qed.

Lemma stuck_cyclic : forall d, wf_data d -> topo_ordered d = [] -> d <> [] -> cyclic d.
Proof.
  intros d W E Ne.
  set (pick := fun n => match senders d n with [] => n | x :: _ => x end).
  assert (P : forall n, In n (gkeys d) -> edge d (pick n) n /\ pick n <> n /\ In (pick n) (gkeys d)).
  { intros n Hn. apply aget_Some_key in Hn; destruct Hn as (l & Hl).
    unfold pick, senders; rewrite Hl.
    destruct l as [|x l'].
    - exfalso. assert (In n (topo_ordered d)) by (apply topo_ordered_In; apply aget_In; auto). rewrite E in H; auto.
    - assert (edge d x n) by (exists (x :: l'); split; auto; left; auto).
      repeat split; auto.
      + intros ->; eapply (wd_self _ W); [apply aget_In; eauto|left; auto].
      + eapply (wd_closed _ W); [apply aget_In; eauto|left; auto]. }
  destruct d as [|[n0 l0] r0] eqn:Ed; [congruence|]. rewrite <- Ed in *.
  assert (Hn0 : In n0 (gkeys d)) by (rewrite Ed; left; auto).
  set (it := fun i => Nat.iter i pick n0).
  assert (Hit : forall i, In (it i) (gkeys d)) by (induction i; simpl; auto; apply P; auto).
  assert (Hw : forall i m, walk d (it (i + m)) m (it i)).
  { intros i m; revert i; induction m; intros i.
    - rewrite Nat.add_0_r; constructor.
    - replace (i + S m) with (S i + m) by lia.
      econstructor; [apply IHm|..]; simpl; apply P; apply Hit. }
  assert (Hnd : ~ NoDup (map it (seq 0 (S (length (gkeys d)))))).
  { intros N. apply NoDup_incl_length with (l' := gkeys d) in N.
    - rewrite map_length, seq_length in N; lia.
    - intros x Hx; apply in_map_iff in Hx; destruct Hx as (i & <- & _); auto. }
  apply pigeon in Hnd. destruct Hnd as (i & j & Hij & Heq).
  exists (it i), (j - i - 1).
  specialize (Hw i (j - i)). replace (i + (j - i)) with j in Hw by lia.
  rewrite <- Heq in Hw. replace (S (j - i - 1)) with (j - i) by lia. auto.
Qed.

Lemma topo_loop_cycle : forall fuel d, wf_data d -> topo_loop fuel d = TopoCycle -> cyclic d.
Proof.
  induction fuel as [|f IH]; intros d W H; simpl in H.
  - destruct (topo_ordered d) eqn:E; [|discriminate].
    apply stuck_cyclic; auto. intros ->; discriminate.
  - destruct (topo_ordered d) as [|o os] eqn:E.
    + apply stuck_cyclic; auto. intros ->; discriminate.
    + rewrite <- E in H.
      destruct (topo_loop f (topo_rest d (topo_ordered d))) eqn:Eq; try discriminate.
      apply IH in Eq; [|apply topo_rest_wf; auto].
      destruct Eq as (n & k & Wk). exists n, k. apply walk_rest_up; auto.
Qed.

(** ** from the working dict to the graph *)
Lemma topo_init_keys : forall g n, In n (gkeys (topo_init g)) <-> In n (gkeys g) \/ exists p, In p g /\ In n (snd p) /\ n <> fst p.
Proof.
  intros g n. unfold topo_init. set (d := map (fun p => (fst p, s_remove (fst p) (s_of (snd p)))) g).
  assert (K : gkeys d = gkeys g) by (unfold d, gkeys, akeys; rewrite map_map; simpl; auto).
  unfold gkeys at 1, akeys; rewrite map_app, in_app_iff, map_map; simpl; rewrite map_id.
  fold (akeys d); fold (gkeys d). rewrite s_diff_In, s_of_In, in_flat_map, K.
  assert (X : (exists x, In x d /\ In n (snd x)) <-> exists p, In p g /\ In n (snd p) /\ n <> fst p).
  { unfold d; split.
    - intros (x & Hx & Hn). apply in_map_iff in Hx. destruct Hx as (p & <- & Hp). simpl in Hn.
      apply s_remove_In in Hn. rewrite s_of_In in Hn. exists p; intuition.
    - intros (p & Hp & H1 & H2). eexists; split; [apply in_map_iff; exists p; split; [reflexivity|auto]|].
      simpl. apply s_remove_In. rewrite s_of_In; intuition. }
  rewrite X. change (map fst d) with (gkeys d). rewrite K. destruct (In_dec_nat n (gkeys g)); tauto.
Qed.
Lemma topo_init_wf : forall g, wf_graph g -> wf_data (topo_init g).
Proof.
  intros g N. constructor.
  - unfold topo_init. set (d := map (fun p => (fst p, s_remove (fst p) (s_of (snd p)))) g).
    assert (K : gkeys d = gkeys g) by (unfold d, gkeys, akeys; rewrite map_map; simpl; auto).
    unfold gkeys, akeys; rewrite map_app, map_map; simpl; rewrite map_id.
    apply NoDup_app_intro.
    + change (map fst d) with (gkeys d); rewrite K; auto.
    + apply s_diff_NoDup, s_of_NoDup.
    + intros x Hx; rewrite s_diff_In; change (map fst d) with (gkeys d) in Hx; intuition.
  - intros n l H x Hx. apply topo_init_keys.
    unfold topo_init in H. apply in_app_iff in H; destruct H as [H|H]; apply in_map_iff in H; destruct H as (p & E & H); inversion E; subst.
    + right; exists p. apply s_remove_In in Hx; rewrite s_of_In in Hx; intuition.
    + contradiction.
  - intros n l H Hx. unfold topo_init in H.
    apply in_app_iff in H; destruct H as [H|H]; apply in_map_iff in H; destruct H as (p & E & H); inversion E; subst; [|contradiction].
    apply s_remove_In in Hx; intuition.
Qed.
Lemma topo_init_edge : forall g a b, wf_graph g -> (edge (topo_init g) a b <-> edge g a b /\ a <> b).
Proof.
  intros g a b N. rewrite edge_In by (apply topo_init_wf; auto). rewrite edge_In by auto. split.
  - intros (l & H & I). unfold topo_init in H.
    apply in_app_iff in H; destruct H as [H|H]; apply in_map_iff in H; destruct H as (p & E & H); inversion E; subst; [|contradiction].
    apply s_remove_In in I; rewrite s_of_In in I. destruct p as [n l]; simpl in *. intuition eauto.
  - intros ((l & H & I) & Ne). exists (s_remove b (s_of l)); split.
    + unfold topo_init; apply in_app_iff; left. apply in_map_iff; exists (b, l); auto.
    + apply s_remove_In; rewrite s_of_In; auto.
Qed.
Lemma walk_init : forall g a k n, wf_graph g -> (walk (topo_init g) a k n <-> walk g a k n).
Proof.
  intros g a k n N; split; intros H; induction H; econstructor; eauto.
  - apply topo_init_edge in H0; intuition.
  - apply topo_init_edge; auto.
Qed.

(** ** Results *)
Lemma toposort_total : forall g, toposort g <> TopoOutOfFuel.
Proof. intros [|p r]; [discriminate|]. apply topo_loop_fuel; auto. Qed.

Lemma toposort_levels : forall g q, wf_graph g -> toposort g = TopoOk q -> levels_ok (topo_init g) q.
Proof.
  intros [|p r] q N H.
  - inversion H; subst. repeat split; simpl; try tauto; try constructor. all: intros; destruct i; discriminate.
  - eapply topo_loop_ok; eauto. apply topo_init_wf; auto.
Qed.

Lemma in_graph_init : forall g n, wf_graph g -> (In n (gkeys (topo_init g)) <-> in_graph g n).
Proof.
  intros g n N. rewrite topo_init_keys. unfold in_graph; split.
  - intros [H|((b, l) & H1 & H2 & H3)]; auto. right; exists b. apply edge_In; auto; eauto.
  - intros [H|(b & H)]; auto. destruct (Nat.eq_dec n b) as [->|Ne].
    + left; eapply edge_key; eauto.
    + apply edge_In in H; auto. destruct H as (l & H1 & H2). right; exists (b, l); auto.
Qed.

Theorem toposort_partition : forall g q, wf_graph g -> toposort g = TopoOk q ->
  NoDup (concat q) /\ (forall n, In n (concat q) <-> in_graph g n) /\ Forall (fun l => l <> []) q.
Proof.
  intros g q N H. destruct (toposort_levels g q N H) as (A & B & C & _).
  repeat split; auto; intros; rewrite <- in_graph_init in *; auto; apply B; auto.
Qed.
Theorem toposort_depth : forall g q i l n, wf_graph g -> toposort g = TopoOk q ->
  nth_error q i = Some l -> In n l -> (exists a, walk g a i n) /\ (forall a k, walk g a k n -> k <= i).
Proof.
  intros g q i l n N H E I. destruct (toposort_levels g q N H) as (_ & _ & _ & D).
  destruct (D i l n E I) as ((a & Wa) & M). split.
  - exists a; apply walk_init; auto.
  - intros a' k Wk; eapply M; apply walk_init; eauto.
Qed.

Lemma cyclic_long : forall g n k m, walk g n (S k) n -> exists j, m <= j /\ walk g n j n.
Proof.
  intros g n k m H; induction m.
  - exists (S k); split; [lia|auto].
  - destruct IHm as (j & L & W). exists (S k + j); split; [lia|]. eapply walk_app; eauto.
Qed.
Theorem toposort_cycle_iff : forall g, wf_graph g -> (toposort g = TopoCycle <-> cyclic g).
Proof.
  intros g N; split.
  - destruct g as [|p r]; [discriminate|]. intros H.
    apply topo_loop_cycle in H; [|apply topo_init_wf; auto].
    destruct H as (n & k & W). exists n, k; apply walk_init; auto.
  - intros (n & k & W). destruct (toposort g) as [q| |] eqn:E; auto.
    + exfalso.
      assert (K : in_graph g n) by (inversion W; subst; left; eapply edge_key; eauto).
      destruct (toposort_partition g q N E) as (_ & P & _). apply P in K.
      apply in_concat in K; destruct K as (l & Hl & Hn).
      apply In_nth_error in Hl; destruct Hl as (i & Hi).
      destruct (toposort_depth g q i l n N E Hi Hn) as (_ & M).
      destruct (cyclic_long g n k (S i) W) as (j & L & Wj). apply M in Wj; lia.
    + exfalso; eapply toposort_total; eauto.
Qed.
Theorem toposort_ok_iff : forall g, wf_graph g -> ((exists q, toposort g = TopoOk q) <-> ~ cyclic g).
Proof.
  intros g N; rewrite <- toposort_cycle_iff by auto. split.
  - intros (q & ->); discriminate.
  - intros H. destruct (toposort g) eqn:E; eauto; [congruence|]. exfalso; eapply toposort_total; eauto.
Qed.

(** ** indices *)
Lemma qi_fold_other : forall cs (i : nat) (acc : amap nat) n, ~ In n cs -> aget n (fold_left (fun m x => aset x i m) cs acc) = aget n acc.
Proof.
  induction cs as [|x r IH]; simpl; intros i acc n H; auto.
  rewrite IH by intuition. apply aget_aset_other; intuition.
Qed.
Lemma qi_fold_in : forall cs (i : nat) (acc : amap nat) n, In n cs -> aget n (fold_left (fun m x => aset x i m) cs acc) = Some i.
Proof.
  induction cs as [|x r IH]; simpl; intros i acc n H; [tauto|].
  destruct (In_dec_nat n r) as [Hr|Hr]; auto.
  rewrite qi_fold_other by auto. destruct H as [->|H]; [apply aget_aset_same|contradiction].
Qed.
Lemma queue_indices_from_spec : forall q i acc n, NoDup (concat q) ->
  (forall j l, nth_error q j = Some l -> In n l -> aget n (queue_indices_from i q acc) = Some (i + j)) /\
  (~ In n (concat q) -> aget n (queue_indices_from i q acc) = aget n acc).
Proof.
  induction q as [|cs r IH]; simpl; intros i acc n N.
  - split; auto. intros j l H; destruct j; discriminate.
  - apply NoDup_app_elim in N; destruct N as (N1 & N2 & N3).
    specialize (IH (S i) (fold_left (fun m x => aset x i m) cs acc) n N2). destruct IH as [I1 I2]. split.
    + intros j l H Hn; destruct j; simpl in H.
      * inversion H; subst. rewrite I2 by (apply N3; auto). rewrite Nat.add_0_r; apply qi_fold_in; auto.
      * rewrite (I1 j l) by auto. f_equal; lia.
    + intros H; rewrite in_app_iff in H. rewrite I2 by intuition. apply qi_fold_other; intuition.
Qed.
Theorem queue_indices_spec : forall q n i, NoDup (concat q) ->
  (aget n (queue_indices q) = Some i <-> exists l, nth_error q i = Some l /\ In n l).
Proof.
  intros q n i N. unfold queue_indices. destruct (queue_indices_from_spec q 0 [] n N) as [A B]. split.
  - intros H. destruct (In_dec_nat n (concat q)) as [I|I].
    + apply in_concat in I; destruct I as (l & Hl & Hn). apply In_nth_error in Hl; destruct Hl as (j & Hj).
      rewrite (A j l Hj Hn) in H; simpl in H; inversion H; subst; eauto.
    + rewrite B in H by auto; discriminate.
  - intros (l & Hl & Hn). apply (A i l); auto.
Qed.

(** ** consequences in the vocabulary of the properties *)
Theorem toposort_partition_ex : forall g q, wf_graph g -> toposort g = TopoOk q ->
  Forall (fun l => l <> []) q /\ NoDup (concat q)
  /\ (forall n, (exists l, In l q /\ In n l) <-> in_graph g n).
Proof.
  intros g q N H. destruct (toposort_partition g q N H) as (A & B & C). repeat split; auto.
  - intros (l & Hl & Hn). apply B. apply in_concat; eauto.
  - intros Hn. apply B in Hn. apply in_concat in Hn; auto.
Qed.
Lemma index_of_node : forall g q n, wf_graph g -> toposort g = TopoOk q -> in_graph g n ->
  exists i, aget n (queue_indices q) = Some i.
Proof.
  intros g q n N H I. destruct (toposort_partition g q N H) as (A & B & C).
  apply B in I. apply in_concat in I. destruct I as (l & Hl & Hn).
  apply In_nth_error in Hl. destruct Hl as (i & Hi). exists i. apply queue_indices_spec; eauto.
Qed.
Theorem queue_index_longest : forall g q n i, wf_graph g -> toposort g = TopoOk q ->
  (aget n (queue_indices q) = Some i <->
   in_graph g n /\ (exists a, walk g a i n) /\ (forall a k, walk g a k n -> k <= i)).
Proof.
  intros g q n i N H. destruct (toposort_partition g q N H) as (A & B & C). split.
  - intros E. apply queue_indices_spec in E; auto. destruct E as (l & Hl & Hn).
    split; [apply B; apply in_concat; exists l; split; auto; eapply nth_error_In; eauto|].
    eapply toposort_depth; eauto.
  - intros (I & (a & W) & M). destruct (index_of_node g q n N H I) as (j & E). rewrite E.
    apply queue_indices_spec in E; auto. destruct E as (l & Hl & Hn).
    destruct (toposort_depth g q j l n N H Hl Hn) as ((a' & W') & M').
    apply M in W'. apply M' in W. f_equal; lia.
Qed.
Theorem senders_earlier : forall g q a b i j, wf_graph g -> toposort g = TopoOk q ->
  edge g a b -> a <> b -> aget a (queue_indices q) = Some i -> aget b (queue_indices q) = Some j -> i < j.
Proof.
  intros g q a b i j N H E D Ia Ib.
  apply (queue_index_longest g q a i N H) in Ia. apply (queue_index_longest g q b j N H) in Ib.
  destruct Ia as (_ & (x & W) & _), Ib as (_ & _ & M).
  assert (W' : walk g x (S i) b) by (eapply walk_step; eauto). apply M in W'; lia.
Qed.
Lemma same_senders_le : forall g a b i, 
  (forall s, edge g s a /\ s <> a -> edge g s b /\ s <> b) -> 
  (exists x, walk g x i a) -> exists x, walk g x i b.
Proof.
  intros g a b i H (x & W). inversion W; subst.
  - exists b; constructor.
  - exists x. destruct (H b0) as [E D]; auto. eapply walk_step; eauto.
Qed.
Theorem same_senders_same_level : forall g q a b, wf_graph g -> toposort g = TopoOk q ->
  in_graph g a -> in_graph g b ->
  (forall s, (edge g s a /\ s <> a) <-> (edge g s b /\ s <> b)) ->
  aget a (queue_indices q) = aget b (queue_indices q).
Proof.
  intros g q a b N H Ia Ib S.
  destruct (index_of_node g q a N H Ia) as (i & Ei), (index_of_node g q b N H Ib) as (j & Ej).
  rewrite Ei, Ej. apply (queue_index_longest g q a i N H) in Ei. apply (queue_index_longest g q b j N H) in Ej.
  destruct Ei as (_ & Wi & Mi), Ej as (_ & Wj & Mj).
  destruct (same_senders_le g a b i) as (x & Wx); auto; [intros s; apply S|].
  destruct (same_senders_le g b a j) as (y & Wy); auto; [intros s; apply S|].
  apply Mj in Wx. apply Mi in Wy. f_equal; lia.
Qed.
