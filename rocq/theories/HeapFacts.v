(** Facts about the heap of set objects of GSC.v. *)
From Verif Require Import Base BaseFacts SpecGraph GraphFacts GSC.
Require Import Lia.

Definition okset (K s : list node) : Prop := NoDup s /\ incl s K.
(** the keys are K, the objects referred to were allocated after [st], [st] is untouched *)
Record inside (st : store) (K : list node) (h : hgraph) : Prop := mkInside {
  in_keys : akeys (h_refs h) = K;
  in_locs : forall n l, aget n (h_refs h) = Some l -> length st <= l < length (h_store h);
  in_tail : exists t, h_store h = st ++ t /\ Forall (okset K) t }.
Definition unaliased (h : hgraph) : Prop :=
  forall n m l, aget n (h_refs h) = Some l -> aget m (h_refs h) = Some l -> n = m.

(** ** the store *)
Lemma s_put_length : forall st l v, length (s_put st l v) = length st.
Proof. induction st as [|x r IH]; intros [|l] v; simpl; auto. Qed.
Lemma s_get_put_same : forall st l v, l < length st -> s_get (s_put st l v) l = v.
Proof. unfold s_get; induction st as [|x r IH]; intros [|l] v H; simpl in *; try lia; auto. apply IH; lia. Qed.
Lemma s_get_put_other : forall st l l' v, l <> l' -> s_get (s_put st l v) l' = s_get st l'.
Proof. unfold s_get; induction st as [|x r IH]; intros [|l] [|l'] v H; simpl in *; auto; try congruence. Qed.
Lemma s_put_out : forall st l v, length st <= l -> s_put st l v = st.
Proof. induction st as [|x r IH]; intros [|l] v H; simpl in *; auto; try lia. rewrite IH; auto; lia. Qed.
Lemma s_put_app : forall st t l v, length st <= l -> s_put (st ++ t) l v = st ++ s_put t (l - length st) v.
Proof.
  induction st as [|x r IH]; intros t l v H; simpl in *; [rewrite Nat.sub_0_r; auto|].
  destruct l as [|l]; [lia|]. simpl. rewrite IH; auto; lia.
Qed.
Lemma s_get_app1 : forall st t l, l < length st -> s_get (st ++ t) l = s_get st l.
Proof. intros; unfold s_get; apply app_nth1; auto. Qed.
Lemma s_get_app2 : forall st t l, length st <= l -> s_get (st ++ t) l = s_get t (l - length st).
Proof. intros; unfold s_get; apply app_nth2; auto. Qed.
Lemma s_get_new : forall st v, s_get (st ++ [v]) (length st) = v.
Proof. intros; rewrite s_get_app2, Nat.sub_diag; auto. Qed.
Lemma s_get_out : forall st l, length st <= l -> s_get st l = [].
Proof. intros; unfold s_get; apply nth_overflow; auto. Qed.
Lemma okset_nil : forall K, okset K [].
Proof. intros; split; [constructor|intros x []]. Qed.
Lemma s_get_ok : forall K t l, Forall (okset K) t -> okset K (s_get t l).
Proof.
  intros K t l F. destruct (Nat.lt_ge_cases l (length t)) as [L|L].
  - rewrite Forall_forall in F. apply F. apply nth_In; auto.
  - rewrite s_get_out; auto using okset_nil.
Qed.
Lemma s_put_ok : forall K t l v, Forall (okset K) t -> okset K v -> Forall (okset K) (s_put t l v).
Proof. intros K; induction t as [|x r IH]; intros [|l] v F V; simpl; auto; inversion F; subst; constructor; auto. Qed.

(** ** hloc, hget, unload *)
Lemma hloc_key : forall h n, In n (akeys (h_refs h)) -> aget n (h_refs h) = Some (hloc h n).
Proof. intros h n I; unfold hloc. apply aget_Some_key in I. destruct I as (l & ->); auto. Qed.
Lemma hloc_out : forall h n, ~ In n (akeys (h_refs h)) -> hloc h n = length (h_store h).
Proof. intros h n I; unfold hloc. apply aget_None in I. rewrite I; auto. Qed.
Lemma hget_out : forall h n, ~ In n (akeys (h_refs h)) -> hget h n = [].
Proof. intros h n I; unfold hget; rewrite hloc_out; auto. apply s_get_out; auto. Qed.
Lemma aget_unload : forall h n, aget n (unload h) = option_map (s_get (h_store h)) (aget n (h_refs h)).
Proof. intros [rf st] n; unfold unload; simpl. induction rf as [|[k l] r IH]; simpl; auto. destruct (Nat.eqb n k); auto. Qed.
Lemma unload_keys : forall h, gkeys (unload h) = akeys (h_refs h).
Proof. intros h; unfold gkeys, akeys, unload. rewrite map_map. auto. Qed.
Lemma senders_unload : forall h n, senders (unload h) n = hget h n.
Proof.
  intros h n; unfold senders, hget, hloc. rewrite aget_unload. destruct (aget n (h_refs h)); simpl; auto. rewrite s_get_out; auto.
Qed.
Lemma edge_unload : forall h a b, edge (unload h) a b <-> In a (hget h b).
Proof. intros; rewrite edge_aget, senders_unload; tauto. Qed.

(** ** load *)
Lemma load_from_keys : forall g i, akeys (load_from g i) = gkeys g.
Proof. unfold akeys, gkeys; induction g as [|[k v] r IH]; intros i; simpl; auto. rewrite IH; auto. Qed.
Lemma load_from_range : forall g i n l, aget n (load_from g i) = Some l -> i <= l < i + length g.
Proof.
  induction g as [|[k v] r IH]; intros i n l H; simpl in *; [discriminate|]. destruct (Nat.eqb n k).
  - inversion H; subst; lia.
  - apply IH in H; lia.
Qed.
Lemma load_from_inj : forall g i n m l, aget n (load_from g i) = Some l -> aget m (load_from g i) = Some l -> n = m.
Proof.
  induction g as [|[k v] r IH]; intros i n m l A B; simpl in *; [discriminate|].
  destruct (Nat.eqb_spec n k) as [->|]; destruct (Nat.eqb_spec m k) as [->|]; auto.
  - inversion A; subst. apply load_from_range in B; lia.
  - inversion B; subst. apply load_from_range in A; lia.
  - eapply IH; eauto.
Qed.
Lemma load_from_get : forall g i n l, aget n (load_from g i) = Some l -> aget n g = Some (s_get (map snd g) (l - i)).
Proof.
  induction g as [|[k v] r IH]; intros i n l H; simpl in *; [discriminate|]. destruct (Nat.eqb n k).
  - inversion H; subst. rewrite Nat.sub_diag; auto.
  - pose proof (load_from_range _ _ _ _ H). apply IH in H. rewrite H. unfold s_get. replace (l - i) with (S (l - S i)) by lia. auto.
Qed.
Lemma hget_hload : forall st g n, hget (hload st g) n = senders g n.
Proof.
  intros st g n. unfold hget, hloc, hload; simpl. destruct (aget n (load_from g (length st))) as [l|] eqn:E.
  - pose proof (load_from_range _ _ _ _ E). rewrite s_get_app2 by lia. unfold senders. rewrite (load_from_get _ _ _ _ E); auto.
  - rewrite s_get_out by lia. unfold senders. apply aget_None in E. rewrite load_from_keys in E. apply aget_None in E. rewrite E; auto.
Qed.
Lemma unload_hload : forall st g, unload (hload st g) = g.
Proof.
  intros st g. unfold unload, hload; simpl.
  assert (forall pre, map (fun p => (fst p, s_get (pre ++ map snd g) (snd p))) (load_from g (length pre)) = g); auto.
  induction g as [|[k v] r IH]; intros pre; simpl; auto. f_equal.
  - rewrite s_get_app2, Nat.sub_diag; auto.
  - specialize (IH (pre ++ [v])). rewrite app_length in IH. simpl in IH. rewrite Nat.add_1_r in IH.
    rewrite <- IH at 2. apply map_ext. intros p. rewrite <- app_assoc; auto.
Qed.
Lemma inside_hload : forall st g K, gkeys g = K -> wf_sets g -> (forall n l, In (n, l) g -> incl l K) -> inside st K (hload st g).
Proof.
  intros st g K E W I. split; simpl.
  - rewrite load_from_keys; auto.
  - intros n l H. apply load_from_range in H. rewrite app_length, map_length. auto.
  - exists (map snd g). split; auto. apply Forall_forall. intros s H. apply in_map_iff in H. destruct H as ([k v] & <- & H). split; eauto.
Qed.
Lemma unaliased_hload : forall st g, unaliased (hload st g).
Proof. intros st g n m l; simpl. apply load_from_inj. Qed.

(** ** inside *)
Lemma hget_ok : forall st K h n, inside st K h -> okset K (hget h n).
Proof.
  intros st K h n [E L (t & T & F)]. destruct (In_dec_nat n (akeys (h_refs h))) as [I|I].
  - apply hloc_key in I. pose proof (L _ _ I). unfold hget. rewrite T, s_get_app2 by lia. apply s_get_ok; auto.
  - rewrite hget_out; auto using okset_nil.
Qed.
Lemma inside_unload : forall st K h, inside st K h -> gkeys (unload h) = K.
Proof. intros st K h I; rewrite unload_keys; apply in_keys with (1 := I). Qed.
Lemma inside_hmut : forall st K h n f, inside st K h -> okset K (f (hget h n)) -> inside st K (hmut h n f).
Proof.
  intros st K h n f I O. pose proof I as [E L (t & T & F)]. destruct (In_dec_nat n (akeys (h_refs h))) as [N|N].
  - apply hloc_key in N. pose proof (L _ _ N). split; simpl; auto.
    + intros m l M. rewrite s_put_length; eauto.
    + rewrite T, s_put_app by lia. eexists; split; eauto. apply s_put_ok; auto.
  - assert (X : hmut h n f = h); [|rewrite X; auto].
    unfold hmut. rewrite (hloc_out _ _ N), s_put_out by auto. destruct h; auto.
Qed.
Lemma inside_hnew : forall st K h n v, inside st K h -> In n K -> okset K v -> inside st K (hnew h n v).
Proof.
  intros st K h n v [E L (t & T & F)] N V. split; simpl.
  - assert (N2 : In n (akeys (h_refs h))) by (rewrite E; auto). rewrite <- E. apply (akeys_aset_In _ n _ _ N2).
  - intros m l. rewrite aget_aset, app_length; simpl. destruct (Nat.eqb m n).
    + intros X; inversion X; subst. rewrite T, app_length; lia.
    + intros X; apply L in X; lia.
  - exists (t ++ [v]). rewrite T, app_assoc. split; auto. apply Forall_app; auto.
Qed.
Lemma inside_href : forall st K h n l, inside st K h -> In n K -> length st <= l < length (h_store h) -> inside st K (href h n l).
Proof.
  intros st K h n l [E L (t & T & F)] N B. split; simpl.
  - assert (N2 : In n (akeys (h_refs h))) by (rewrite E; auto). rewrite <- E. apply (akeys_aset_In _ n _ _ N2).
  - intros m k. rewrite aget_aset. destruct (Nat.eqb m n); [intros X; inversion X; subst; auto|apply L].
  - eauto.
Qed.
Lemma inside_weaken : forall st K h st', inside st' K h -> (exists t, st' = st ++ t /\ Forall (okset K) t) -> inside st K h.
Proof.
  intros st K h st' [E L (t & T & F)] (t' & -> & F'). split; auto.
  - intros n l H. apply L in H. rewrite app_length in H. lia.
  - exists (t' ++ t). rewrite app_assoc. split; auto. apply Forall_app; auto.
Qed.
Lemma inside_prefix : forall st K h l, inside st K h -> l < length st -> s_get (h_store h) l = s_get st l.
Proof. intros st K h l [E L (t & T & F)] H. rewrite T. apply s_get_app1; auto. Qed.
Lemma inside_old : forall st K h rf, inside st K h -> (forall n l, aget n rf = Some l -> l < length st) -> NoDup (akeys rf) ->
  unload (mkH rf (h_store h)) = unload (mkH rf st).
Proof.
  intros st K h rf I B N. unfold unload; simpl. apply map_ext_in. intros [k l] H. simpl. f_equal.
  eapply inside_prefix; eauto. eapply B. apply aget_In_NoDup; eauto.
Qed.
Lemma inside_clone : forall h, NoDup (akeys (h_refs h)) -> (forall n l, aget n (h_refs h) = Some l -> l < length (h_store h)) -> closed_graph (unload h) ->
  inside (h_store h) (akeys (h_refs h)) (hclone h).
Proof.
  intros h N L C. unfold hclone. apply inside_hload.
  - rewrite clone_graph_keys, unload_keys; auto.
  - apply clone_graph_same.
  - intros n l H x X. rewrite <- unload_keys. apply (C x n).
    assert (N' : NoDup (gkeys (clone_graph (unload h)))) by (rewrite clone_graph_keys, unload_keys; auto).
    apply (proj1 (proj2 (clone_graph_same (unload h)))). apply edge_In; eauto.
Qed.
Lemma hget_hclone : forall h n, hget (hclone h) n = s_of (hget h n).
Proof.
  intros h n. unfold hclone. rewrite hget_hload, <- senders_unload. unfold senders. rewrite aget_clone.
  destruct (aget n (unload h)); auto.
Qed.
Lemma hget_hclone_In : forall h n x, In x (hget (hclone h) n) <-> In x (hget h n).
Proof. intros; rewrite hget_hclone, s_of_In; tauto. Qed.
Lemma inside_closed : forall st K h, inside st K h -> closed_graph (unload h).
Proof.
  intros st K h I a b E. apply edge_unload in E. rewrite (inside_unload _ _ _ I). eapply (hget_ok _ _ _ b I); eauto.
Qed.

(** ** reading after writing *)
Lemma hget_hmut_same : forall st K h n f, inside st K h -> In n K -> hget (hmut h n f) n = f (hget h n).
Proof.
  intros st K h n f [E L T] N. rewrite <- E in N. apply hloc_key in N. pose proof (L _ _ N).
  unfold hget at 1. unfold hloc at 1; simpl. rewrite N. apply s_get_put_same; lia.
Qed.
Lemma hget_hmut_other : forall st K h n m f, inside st K h -> unaliased h -> n <> m -> hget (hmut h n f) m = hget h m.
Proof.
  intros st K h n m f [E L T] U D. destruct (In_dec_nat m (akeys (h_refs h))) as [M|M].
  - pose proof (hloc_key _ _ M) as HM. unfold hget at 1. unfold hloc at 1; simpl. rewrite HM.
    destruct (In_dec_nat n (akeys (h_refs h))) as [N|N].
    + apply s_get_put_other. intros X. apply D. eapply U; eauto. rewrite <- X. apply hloc_key; auto.
    + rewrite (hloc_out _ _ N), s_put_out; auto.
  - rewrite !hget_out; auto.
Qed.
Lemma hget_hmut_In : forall st K h n m f, inside st K h -> unaliased h -> In n K ->
  hget (hmut h n f) m = if Nat.eqb m n then f (hget h n) else hget h m.
Proof.
  intros st K h n m f I U N. destruct (Nat.eqb_spec m n) as [->|D].
  - eapply hget_hmut_same; eauto.
  - eapply hget_hmut_other; eauto.
Qed.
Lemma unaliased_hmut : forall h n f, unaliased h -> unaliased (hmut h n f).
Proof. intros h n f U; exact U. Qed.
Lemma hget_hnew : forall st K h n m v, inside st K h -> hget (hnew h n v) m = if Nat.eqb m n then v else hget h m.
Proof.
  intros st K h n m v [E L T]. unfold hget at 1. unfold hloc at 1; simpl. rewrite aget_aset. destruct (Nat.eqb_spec m n) as [->|D].
  - apply s_get_new.
  - destruct (In_dec_nat m (akeys (h_refs h))) as [M|M].
    + pose proof (hloc_key _ _ M) as HM. pose proof (L _ _ HM). rewrite HM, s_get_app1; auto; lia.
    + rewrite hget_out; auto. apply aget_None in M. rewrite M. apply s_get_out; auto.
Qed.
Lemma unaliased_hnew : forall st K h n v, inside st K h -> unaliased h -> unaliased (hnew h n v).
Proof.
  intros st K h n v [E L T] U a b l; simpl. rewrite !aget_aset. destruct (Nat.eqb_spec a n) as [->|]; destruct (Nat.eqb_spec b n) as [->|]; intros A B; auto.
  - inversion A; subst. apply L in B; lia.
  - inversion B; subst. apply L in A; lia.
  - eapply U; eauto.
Qed.
Lemma okset_add : forall K x s, In x K -> okset K s -> okset K (s_add x s).
Proof. intros K x s X [A B]; split; [apply s_add_NoDup; auto|]. intros y Y. apply s_add_In in Y. destruct Y; subst; auto. Qed.
Lemma okset_remove : forall K x s, okset K s -> okset K (s_remove x s).
Proof. intros K x s [A B]; split; [apply s_remove_NoDup; auto|]. intros y Y. apply s_remove_In in Y. apply B; tauto. Qed.
Lemma okset_union : forall K a b, okset K a -> okset K b -> okset K (s_union a b).
Proof. intros K a b [A B] [C D]; split; [apply s_union_NoDup; auto|]. intros y Y. apply s_union_In in Y. destruct Y; auto. Qed.
