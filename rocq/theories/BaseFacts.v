(** Facts about the set and dict representations of Base.v. *)
From Verif Require Export Base.
From Coq Require Import Permutation.

Lemma mem_In : forall x l, mem x l = true <-> In x l.
Proof.
  intros x l; unfold mem; rewrite existsb_exists; split.
  - intros (y & H & E); apply Nat.eqb_eq in E; subst; auto.
  - intros H; exists x; split; auto; apply Nat.eqb_refl.
Qed.
Lemma mem_In_false : forall x l, mem x l = false <-> ~ In x l.
Proof.
  intros x l; rewrite <- mem_In; destruct (mem x l); split; intros; try congruence; intuition congruence.
Qed.
Lemma In_dec_nat : forall (x : nat) l, In x l \/ ~ In x l.
Proof. intros x l; destruct (in_dec Nat.eq_dec x l); auto. Qed.

Lemma s_add_In : forall x y l, In y (s_add x l) <-> y = x \/ In y l.
Proof.
  intros; unfold s_add; destruct (mem x l) eqn:E.
  - apply mem_In in E; intuition (subst; auto).
  - rewrite in_app_iff; simpl; intuition.
Qed.
Lemma s_remove_In : forall x y l, In y (s_remove x l) <-> y <> x /\ In y l.
Proof.
  intros; unfold s_remove; rewrite filter_In, negb_true_iff, Nat.eqb_neq; intuition.
Qed.
Lemma s_union_In : forall y a b, In y (s_union a b) <-> In y a \/ In y b.
Proof.
  intros; unfold s_union; rewrite in_app_iff, filter_In, negb_true_iff, mem_In_false.
  destruct (In_dec_nat y a); intuition.
Qed.
Lemma s_inter_In : forall y a b, In y (s_inter a b) <-> In y a /\ In y b.
Proof. intros; unfold s_inter; rewrite filter_In, mem_In; intuition. Qed.
Lemma s_diff_In : forall y a b, In y (s_diff a b) <-> In y a /\ ~ In y b.
Proof. intros; unfold s_diff; rewrite filter_In, negb_true_iff, mem_In_false; intuition. Qed.
Lemma s_symdiff_In : forall y a b, In y (s_symdiff a b) <-> (In y a /\ ~ In y b) \/ (In y b /\ ~ In y a).
Proof. intros; unfold s_symdiff; rewrite in_app_iff, !s_diff_In; intuition. Qed.
Lemma s_of_In : forall y l, In y (s_of l) <-> In y l.
Proof.
  intros y l; induction l as [|x r IH]; simpl; [tauto|].
  rewrite s_remove_In, IH. destruct (Nat.eq_dec x y); intuition.
Qed.
Lemma NoDup_filter' : forall (f : nat -> bool) l, NoDup l -> NoDup (filter f l).
Proof. intros; apply NoDup_filter; auto. Qed.
Lemma s_of_NoDup : forall l, NoDup (s_of l).
Proof.
  induction l as [|x r IH]; simpl; constructor.
  - rewrite s_remove_In; intuition.
  - apply NoDup_filter; auto.
Qed.
Lemma s_remove_notin : forall x l, ~ In x l -> s_remove x l = l.
Proof.
  induction l as [|y r IH]; simpl; intros H; auto.
  destruct (Nat.eqb_spec x y); simpl; [subst; intuition|].
  f_equal; apply IH; intuition.
Qed.
Lemma s_of_id : forall l, NoDup l -> s_of l = l.
Proof.
  induction 1; simpl; auto. rewrite IHNoDup, s_remove_notin; auto.
Qed.
Lemma s_remove_NoDup : forall x l, NoDup l -> NoDup (s_remove x l).
Proof. intros; apply NoDup_filter; auto. Qed.
Lemma s_add_NoDup : forall x l, NoDup l -> NoDup (s_add x l).
Proof.
  intros x l H; unfold s_add; destruct (mem x l) eqn:E; auto.
  apply mem_In_false in E.
  apply (Permutation_NoDup (l := x :: l)); [apply Permutation_cons_append|constructor; auto].
Qed.
Lemma NoDup_app_intro : forall (A : Type) (l1 l2 : list A),
  NoDup l1 -> NoDup l2 -> (forall x, In x l1 -> ~ In x l2) -> NoDup (l1 ++ l2).
Proof.
  induction l1; simpl; intros; auto.
  inversion H; subst. constructor.
  - rewrite in_app_iff; intros [?|?]; auto; eapply H1; eauto.
  - apply IHl1; auto.
Qed.
Lemma NoDup_app_elim : forall (A : Type) (l1 l2 : list A),
  NoDup (l1 ++ l2) -> NoDup l1 /\ NoDup l2 /\ (forall x, In x l1 -> ~ In x l2).
Proof.
  induction l1; simpl; intros l2 H.
  - repeat split; auto; constructor.
  - inversion H; subst. apply IHl1 in H3. destruct H3 as (A1 & A2 & A3).
    rewrite in_app_iff in H2. repeat split; auto.
    + constructor; auto.
    + intros x [->|Hx]; auto.
Qed.
Lemma s_union_NoDup : forall a b, NoDup a -> NoDup b -> NoDup (s_union a b).
Proof.
  intros; unfold s_union; apply NoDup_app_intro; auto.
  - apply NoDup_filter; auto.
  - intros x Hx; rewrite filter_In, negb_true_iff, mem_In_false; intuition.
Qed.
Lemma s_diff_NoDup : forall a b, NoDup a -> NoDup (s_diff a b).
Proof. intros; apply NoDup_filter; auto. Qed.
Lemma s_subset_In : forall a b, s_subset a b = true <-> (forall x, In x a -> In x b).
Proof.
  intros; unfold s_subset; rewrite forallb_forall; split; intros H x Hx.
  - apply mem_In; auto.
  - apply mem_In; auto.
Qed.
Lemma s_eqb_In : forall a b, s_eqb a b = true <-> (forall x, In x a <-> In x b).
Proof.
  intros; unfold s_eqb; rewrite andb_true_iff, !s_subset_In; firstorder.
Qed.

Lemma filter_length_le : forall (A : Type) (f : A -> bool) l, length (filter f l) <= length l.
Proof. induction l; simpl; auto; destruct (f a); simpl; lia. Qed.

(** ** dicts *)
Lemma aget_In : forall A k (v : A) m, aget k m = Some v -> In (k, v) m.
Proof.
  induction m as [|[k' v'] r IH]; simpl; intros H; [discriminate|].
  destruct (Nat.eqb_spec k k'); [inversion H; subst; auto|auto].
Qed.
Lemma aget_None : forall A k (m : amap A), aget k m = None <-> ~ In k (akeys m).
Proof.
  induction m as [|[k' v'] r IH]; simpl; [tauto|].
  destruct (Nat.eqb_spec k k'); split; intros H; try discriminate.
  - exfalso; apply H; auto.
  - apply IH in H; intuition.
  - apply IH; intuition.
Qed.
Lemma aget_Some_key : forall A k (m : amap A), In k (akeys m) <-> exists v, aget k m = Some v.
Proof.
  intros A k m; destruct (aget k m) eqn:E; split; intros H.
  - eauto.
  - apply aget_In in E; apply in_map_iff; exists (k, a); auto.
  - apply aget_None in E; contradiction.
  - destruct H; discriminate.
Qed.
Lemma ahas_key : forall A k (m : amap A), ahas k m = true <-> In k (akeys m).
Proof.
  intros; unfold ahas; rewrite aget_Some_key; destruct (aget k m); split; intros; eauto; try discriminate.
  destruct H; discriminate.
Qed.
Lemma ahas_key_false : forall A k (m : amap A), ahas k m = false <-> ~ In k (akeys m).
Proof.
  intros; rewrite <- (ahas_key A k m); destruct (ahas k m); intuition congruence.
Qed.
Lemma aget_In_NoDup : forall A k (v : A) m, NoDup (akeys m) -> In (k, v) m -> aget k m = Some v.
Proof.
  induction m as [|[k' v'] r IH]; simpl; intros N H; [tauto|].
  inversion N; subst. destruct H as [H|H].
  - inversion H; subst; rewrite Nat.eqb_refl; auto.
  - destruct (Nat.eqb_spec k k'); auto.
    subst; exfalso; apply H2; apply in_map_iff; exists (k', v); auto.
Qed.
Lemma aget_aset_same : forall A k (v : A) m, aget k (aset k v m) = Some v.
Proof.
  induction m as [|[k' v'] r IH]; simpl.
  - rewrite Nat.eqb_refl; auto.
  - destruct (Nat.eqb_spec k k'); simpl.
    + rewrite Nat.eqb_refl; auto.
    + destruct (Nat.eqb_spec k k'); [contradiction|auto].
Qed.
Lemma aget_aset_other : forall A k k' (v : A) m, k' <> k -> aget k' (aset k v m) = aget k' m.
Proof.
  induction m as [|[k2 v2] r IH]; simpl; intros H.
  - destruct (Nat.eqb_spec k' k); [contradiction|auto].
  - destruct (Nat.eqb_spec k k2); simpl.
    + subst k2; destruct (Nat.eqb_spec k' k); [contradiction|auto].
    + destruct (Nat.eqb_spec k' k2); auto.
Qed.
Lemma aget_aset : forall A k k' (v : A) m,
  aget k' (aset k v m) = if Nat.eqb k' k then Some v else aget k' m.
Proof.
  intros; destruct (Nat.eqb_spec k' k); [subst; apply aget_aset_same|apply aget_aset_other; auto].
Qed.
Lemma akeys_aset_In : forall A k (v : A) m, In k (akeys m) -> akeys (aset k v m) = akeys m.
Proof.
  unfold akeys; induction m as [|[k2 v2] r IH]; simpl; intros H; [tauto|].
  destruct (Nat.eqb_spec k k2); simpl; [subst; auto|].
  f_equal; apply IH; intuition congruence.
Qed.
Lemma akeys_aset_notin : forall A k (v : A) m, ~ In k (akeys m) -> akeys (aset k v m) = akeys m ++ [k].
Proof.
  unfold akeys; induction m as [|[k2 v2] r IH]; simpl; intros H; auto.
  destruct (Nat.eqb_spec k k2); simpl; [subst; intuition|].
  f_equal; apply IH; intuition.
Qed.
Lemma akeys_aset : forall A k (v : A) m x, In x (akeys (aset k v m)) <-> x = k \/ In x (akeys m).
Proof.
  intros; destruct (In_dec_nat k (akeys m)).
  - rewrite akeys_aset_In by auto; intuition (subst; auto).
  - rewrite akeys_aset_notin by auto; rewrite in_app_iff; simpl; intuition.
Qed.
Lemma NoDup_aset : forall A k (v : A) m, NoDup (akeys m) -> NoDup (akeys (aset k v m)).
Proof.
  intros; destruct (In_dec_nat k (akeys m)).
  - rewrite akeys_aset_In; auto.
  - rewrite akeys_aset_notin by auto.
    apply NoDup_app_intro; auto; [constructor; [simpl; tauto|constructor]|].
    simpl; intros x Hx [->|[]]; auto.
Qed.
Lemma akeys_adel : forall A k (m : amap A) x, NoDup (akeys m) -> (In x (akeys (adel k m)) <-> x <> k /\ In x (akeys m)).
Proof.
  unfold akeys; induction m as [|[k2 v2] r IH]; simpl; intros x N; [tauto|].
  inversion N; subst.
  destruct (Nat.eqb_spec k k2); simpl.
  - subst; split; [intros; split; auto; intros ->; auto | intuition congruence].
  - rewrite IH by auto; intuition congruence.
Qed.
Lemma NoDup_adel : forall A k (m : amap A), NoDup (akeys m) -> NoDup (akeys (adel k m)).
Proof.
  induction m as [|[k2 v2] r IH]; simpl; intros N; auto.
  inversion N; subst. destruct (Nat.eqb_spec k k2); simpl; auto.
  constructor; auto.
  fold (akeys (adel k r)); rewrite akeys_adel by auto; intuition.
Qed.
Lemma aget_adel : forall A k k' (m : amap A), NoDup (akeys m) ->
  aget k' (adel k m) = if Nat.eqb k' k then None else aget k' m.
Proof.
  induction m as [|[k2 v2] r IH]; simpl; intros N.
  - destruct (Nat.eqb k' k); auto.
  - inversion N; subst. destruct (Nat.eqb_spec k k2); simpl.
    + subst. destruct (Nat.eqb_spec k' k2); auto. subst. apply aget_None; auto.
    + destruct (Nat.eqb_spec k' k2); [subst; destruct (Nat.eqb_spec k2 k); [subst; congruence|auto]|].
      apply IH; auto.
Qed.
Lemma upd_same : forall A (f : nat -> A) k v, upd f k v k = v.
Proof. intros; unfold upd; rewrite Nat.eqb_refl; auto. Qed.
Lemma upd_other : forall A (f : nat -> A) k v j, j <> k -> upd f k v j = f j.
Proof. intros; unfold upd; destruct (Nat.eqb_spec j k); [contradiction|auto]. Qed.
