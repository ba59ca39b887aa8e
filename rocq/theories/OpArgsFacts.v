(** Proofs about the arguments of structural conditions (C61). *)
From Verif Require Export SpecOpArgs GSCProps BaseFacts.

Ltac splits := repeat match goal with |- _ /\ _ => split end; auto.
Lemma members_get : forall name o, In (name, o) operation_members <-> sget name operation_members = Some o.
Proof.
  intros name o. split.
  - intros H. simpl in H. repeat (destruct H as [H|H]; [injection H as <- <-; reflexivity|]). destruct H.
  - generalize operation_members. intros l. induction l as [|[k v] l IH]; simpl; [discriminate|].
    destruct (String.eqb_spec name k) as [->|N]; [intros H; injection H as <-; auto|auto].
Qed.
Lemma members_name : forall name o, In (name, o) operation_members <-> In name (op_names o).
Proof.
  intros name o. split.
  - intros H. simpl in H. repeat (destruct H as [H|H]; [injection H as <- <-; simpl; auto|]). destruct H.
  - intros H. destruct o; simpl in H; repeat (destruct H as [<-|H]; [simpl; unfold MERGE; auto 12|]); destruct H.
Qed.
Lemma char_code : forall c, nat_of_ascii c < 256.
Proof. intros c. rewrite <- (ascii_nat_embedding c). apply nat_ascii_bounded. Qed.
Lemma spelt_upper : forall s t, spelt s t -> upper s = upper t.
Proof.
  intros s t H. induction H as [|c s t H IH|c d s t Hd Hc H IH]; cbn [upper]; [auto|congruence|]. rewrite IH. f_equal. unfold upper_char. rewrite Hc.
  replace (Nat.leb 97 (nat_of_ascii d + 32)) with true by (symmetry; apply Nat.leb_le; lia). replace (Nat.leb (nat_of_ascii d + 32) 122) with true by (symmetry; apply Nat.leb_le; lia).
  replace (Nat.leb 97 (nat_of_ascii d)) with false by (symmetry; apply Nat.leb_gt; lia). simpl. rewrite Nat.add_sub. apply ascii_nat_embedding.
Qed.
Lemma upper_spelt : forall s t, upper s = t -> spelt s t.
Proof.
  intros s t <-. induction s as [|c s IH]; cbn [upper]; [constructor|]. unfold upper_char.
  destruct (Nat.leb 97 (nat_of_ascii c)) eqn:A; [destruct (Nat.leb (nat_of_ascii c) 122) eqn:B|]; cbn [andb]; [|apply sp_same; auto|apply sp_same; auto].
  apply Nat.leb_le in A, B. apply sp_small; auto; rewrite nat_ascii_embedding by (pose proof (char_code c); lia); lia.
Qed.
Theorem parse_op_iff : forall v o, parse_op v = VOp o <-> stands_for v o.
Proof.
  intros v o. unfold stands_for. split.
  - destruct v as [o'|s|k]; unfold parse_op; intros H; [injection H as ->; auto| |discriminate]. destruct (sget (upper s) operation_members) as [o'|] eqn:E; [|discriminate].
    injection H as ->. right. exists s, (upper s). split; auto. apply members_get, members_name in E. split; auto. apply upper_spelt; auto.
  - intros [->|(s & name & -> & I & X)]; [reflexivity|]. unfold parse_op. apply spelt_upper in X.
    assert (U : upper name = name) by (destruct o; simpl in I; repeat (destruct I as [<-|I]; [reflexivity|]); destruct I). rewrite X, U.
    apply members_name, members_get in I. rewrite I. auto.
Qed.
Theorem parse_op_other : forall v, (forall o, ~ stands_for v o) -> parse_op v = v.
Proof.
  intros v H. destruct (parse_op v) as [o|s|k] eqn:E.
  - exfalso. apply (H o). apply parse_op_iff; auto.
  - destruct v as [o'|s'|k']; unfold parse_op in E; try discriminate; auto. destruct (sget (upper s') operation_members); [discriminate|auto].
  - destruct v as [o'|s'|k']; unfold parse_op in E; try discriminate; auto. destruct (sget (upper s') operation_members); discriminate.
Qed.
Lemma parse_op_idem : forall v, parse_op (parse_op v) = parse_op v.
Proof.
  intros [o|s|k]; auto. unfold parse_op at 2 3. destruct (sget (upper s) operation_members) eqn:E; auto. unfold parse_op. rewrite E; auto.
Qed.
Lemma mem_iff : forall n l, mem n l = true <-> In n l.
Proof. intros; apply mem_In. Qed.
Lemma aset_keys_in : forall A n (v : A) d, In n (akeys d) -> akeys (aset n v d) = akeys d.
Proof.
  intros A n v d. induction d as [|[k w] d IH]; simpl; [tauto|]. destruct (Nat.eqb_spec n k) as [->|N]; [auto|].
  intros [E|H]; [congruence|]. simpl. f_equal. apply IH; auto.
Qed.
Lemma parse_items_spec : forall nodes items d, incl (akeys items) (akeys d) ->
  akeys (snd (parse_items nodes items d)) = akeys d /\
  (fst (parse_items nodes items d) = Ok tt <-> incl (akeys items) nodes) /\
  (fst (parse_items nodes items d) = Ok tt \/ fst (parse_items nodes items d) = Err ECondition).
Proof.
  intros nodes items. induction items as [|[n v] r IH]; intros d H; simpl.
  - splits. split; auto. intros _ x [].
  - assert (Hn : In n (akeys d)) by (apply H; simpl; auto). assert (Hr : incl (akeys r) (akeys d)) by (intros x I; apply H; simpl; auto).
    destruct (mem n nodes) eqn:M.
    + destruct (IH (aset n (parse_op v) d)) as (A & B & C); [rewrite aset_keys_in; auto|]. rewrite A, aset_keys_in by auto.
      split; auto. split; auto. rewrite B. apply mem_iff in M. split; intros I x; [intros [<-|J]; auto; apply I; auto|intros J; apply I; simpl; auto].
    + simpl. split; auto. split; auto. split; [discriminate|]. intros I. assert (In n nodes) by (apply I; simpl; auto). apply mem_iff in H0. congruence.
Qed.
Lemma handle_spec : forall nodes a, 
  (keys_among nodes a -> exists a', handle_subject nodes a = (Ok a', match a with AOne _ => a | ADict _ => a' end)) /\
  (~ keys_among nodes a -> exists a', handle_subject nodes a = (Err ECondition, a')).
Proof.
  intros nodes [v|d]; simpl.
  - split; [eauto|]. intros H; exfalso; auto.
  - destruct (parse_items_spec nodes d d (incl_refl _)) as (A & B & C). destruct (parse_items nodes d d) as [r d']. simpl in *. split.
    + intros H. apply B in H. subst r. rewrite (proj2 (forallb_forall _ _)); [eauto|]. intros n I. apply mem_iff. rewrite A in I. apply (proj1 B); auto.
    + intros H. destruct C as [C|C]; subst r; [exfalso; apply H, B; auto|eauto].
Qed.
Definition nodes_ok (single : bool) (nodes : list node) : Prop := if single then List.length nodes = 1 else List.length nodes > 0.
Lemma nodes_ok_iff : forall (single : bool) (nodes : list node), (if single then negb (Nat.eqb (List.length nodes) 1) else Nat.ltb (List.length nodes) 1) = false <-> nodes_ok single nodes.
Proof.
  intros [|] nodes; unfold nodes_ok.
  - rewrite negb_false_iff, Nat.eqb_eq. tauto.
  - rewrite Nat.ltb_ge. lia.
Qed.
(** only the number of nodes and the keys of dicts are checked *)
Theorem construct_accepts : forall kind single nodes os or_ ss sr rec rs pr ic,
  (exists a, fst (construct kind single nodes os or_ ss sr rec rs pr ic) = Ok a) <-> nodes_ok single nodes /\ keys_among nodes ss /\ keys_among nodes sr.
Proof.
  intros. unfold construct. destruct (handle_spec nodes ss) as (A1 & A2), (handle_spec nodes sr) as (B1 & B2).
  assert (D : forall a, keys_among nodes a \/ ~ keys_among nodes a).
  { intros [v|d]; simpl; auto. destruct (forallb (fun n => mem n nodes) (akeys d)) eqn:E.
    - left. intros n I. rewrite forallb_forall in E. apply mem_iff; auto.
    - right. intros I. assert (forallb (fun n => mem n nodes) (akeys d) = true) by (apply forallb_forall; intros; apply mem_iff; auto). congruence. }
  destruct (D ss) as [K|K].
  - destruct (A1 K) as (s1 & ->). destruct (D sr) as [L|L].
    + destruct (B1 L) as (s2 & ->). simpl. destruct (if single then _ else _) eqn:N.
      * split; [intros (a & X); discriminate|]. intros (X & _). apply nodes_ok_iff in X. congruence.
      * apply nodes_ok_iff in N. split; eauto.
    + destruct (B2 L) as (s2 & ->). simpl. split; [intros (a & X); discriminate|tauto].
  - destruct (A2 K) as (s1 & ->). simpl. split; [intros (a & X); discriminate|tauto].
Qed.
Theorem construct_rejects : forall kind single nodes os or_ ss sr rec rs pr ic ex,
  fst (construct kind single nodes os or_ ss sr rec rs pr ic) = Err ex -> ex = ECondition.
Proof.
  intros kind single nodes os or_ ss sr rec rs pr ic ex. unfold construct.
  assert (H : forall a, match fst (handle_subject nodes a) with Ok _ => True | Err x => x = ECondition end).
  { intros [v|d]; simpl; auto. destruct (parse_items_spec nodes d d (incl_refl _)) as (A & B & [C|C]); destruct (parse_items nodes d d) as [r d']; simpl in *; subst r; auto.
    destruct (forallb _ _); auto. }
  pose proof (H ss) as H1. pose proof (H sr) as H2.
  destruct (handle_subject nodes ss) as [[s1|x1] ss']; simpl in *; [|intros E; injection E as <-; auto].
  destruct (handle_subject nodes sr) as [[s2|x2] sr']; simpl in *; [|intros E; injection E as <-; auto].
  destruct (if single then _ else _); [intros E; injection E as <-; auto|discriminate].
Qed.

(** ** parsing dicts *)
Lemma parse_items_ok : forall nodes items pre, NoDup (akeys (pre ++ items)) -> incl (akeys items) nodes ->
  parse_items nodes items (pre ++ items) = (Ok tt, pre ++ map (fun p => (fst p, parse_op (snd p))) items).
Proof.
  intros nodes items. induction items as [|[n v] r IH]; intros pre N H; [reflexivity|]. simpl.
  assert (In n nodes) by (apply H; simpl; auto). rewrite (proj2 (mem_iff _ _)) by auto.
  assert (E : aset n (parse_op v) (pre ++ (n, v) :: r) = (pre ++ [(n, parse_op v)]) ++ r).
  { rewrite <- app_assoc. simpl. unfold akeys in N. rewrite map_app in N. simpl in N. apply NoDup_remove_2 in N.
    assert (Np : ~ In n (map fst pre)) by (intros I; apply N, in_app_iff; auto). clear - Np.
    induction pre as [|[k w] pre IH]; simpl; [rewrite Nat.eqb_refl; auto|]. simpl in Np.
    destruct (Nat.eqb_spec n k); [exfalso; auto|]. f_equal. apply IH. tauto. }
  rewrite E, IH; [rewrite <- app_assoc; reflexivity| |intros x I; apply H; simpl; auto].
  rewrite <- app_assoc. simpl. unfold akeys in *. rewrite map_app in *. exact N.
Qed.
Definition parsed (a : subject_arg) : subject_arg :=
  match a with AOne v => AOne (parse_op v) | ADict d => ADict (map (fun p => (fst p, parse_op (snd p))) d) end.
Lemma handle_parsed : forall nodes a, keys_among nodes a -> match a with AOne _ => True | ADict d => NoDup (akeys d) end ->
  handle_subject nodes a = (Ok (parsed a), match a with AOne _ => a | ADict _ => parsed a end).
Proof.
  intros nodes [v|d] K N; simpl; auto. simpl in K. pose proof (parse_items_ok nodes d [] N K) as P. simpl in P. rewrite P.
  rewrite (proj2 (forallb_forall _ _)); auto. intros n I. apply mem_iff, K. unfold akeys in *. rewrite map_map in I. auto.
Qed.
Lemma stands_parsed : forall nodes a s, stands_for_subjects nodes a s ->
  keys_among nodes a /\ match a with AOne _ => True | ADict d => NoDup (akeys d) end /\ as_subject (parsed a) = s /\
  (forall n, In n nodes -> exists o, get_subject (parsed a) n = Ok (VOp o)).
Proof.
  intros nodes a s H. destruct H as [v o H|d e F N K].
  - apply parse_op_iff in H. simpl. rewrite H. simpl. splits. intros; eauto.
  - simpl. splits.
    + intros n I. apply K; auto.
    + f_equal. rewrite map_map. simpl. clear K N. induction F as [|[k v] [k' o] d e [E S] F IH]; simpl in *; auto. subst k'.
      apply parse_op_iff in S. rewrite S, IH. auto.
    + intros n I. apply K in I. clear K N. induction F as [|[k v] [k' o] d e [E S] F IH]; simpl in *; [tauto|]. subst k'.
      apply parse_op_iff in S. rewrite S. destruct (Nat.eqb_spec n k) as [->|Ne]; [eauto|]. apply IH. destruct I; [congruence|auto].
Qed.
Lemma subject_no_error : forall ss sr ns, (forall n, In n ns -> exists o, get_subject ss n = Ok (VOp o)) ->
  (forall n, In n ns -> exists o, get_subject sr n = Ok (VOp o)) -> subject_error ss sr ns = None.
Proof.
  intros ss sr ns G3 G4. induction ns as [|n r IH]; simpl; auto.
  destruct (G3 n) as (o & ->); [simpl; auto|]. destruct (G4 n) as (o' & ->); [simpl; auto|]. simpl. apply IH; intros; [apply G3|apply G4]; simpl; auto.
Qed.
Theorem construct_meant : forall kind single nodes os or_ ss sr rec rs pr ic o1 o2 s1 s2,
  stands_for os o1 -> stands_for or_ o2 -> stands_for_subjects nodes ss s1 -> stands_for_subjects nodes sr s2 ->
  match make_ops kind single nodes o1 o2 s1 s2 rec rs pr ic with
  | Err ex => fst (construct kind single nodes os or_ ss sr rec rs pr ic) = Err ex
  | Ok c => exists a, fst (construct kind single nodes os or_ ss sr rec rs pr ic) = Ok a /\
      forall cyc owner g, arg_modify_graph cyc owner a g = modify_graph cyc owner c g
  end.
Proof.
  intros kind single nodes os or_ ss sr rec rs pr ic o1 o2 s1 s2 H1 H2 H3 H4.
  apply parse_op_iff in H1. apply parse_op_iff in H2.
  destruct (stands_parsed _ _ _ H3) as (K3 & N3 & A3 & G3), (stands_parsed _ _ _ H4) as (K4 & N4 & A4 & G4).
  assert (X : forall a s, stands_for_subjects nodes a s -> subject_ok nodes s = true).
  { intros a s H. destruct H as [v o H|d e F N K]; simpl; auto. apply s_subset_In. intros n I. apply K.
    clear K N. induction F as [|[k v] [k' o] d e [E S] F IH]; simpl in *; auto. subst k'. destruct I; auto. }
  unfold make_ops. rewrite (X _ _ H3), (X _ _ H4). simpl. unfold construct.
  rewrite (handle_parsed _ _ K3 N3), (handle_parsed _ _ K4 N4). simpl. rewrite H1, H2, A3, A4. simpl.
  destruct (if single then _ else _); [auto|]. eexists. split; [reflexivity|].
  intros cyc owner g. unfold arg_modify_graph. simpl ac_cond.
  assert (P : process_error (mkArg (VOp o1) (VOp o2) (parsed ss) (parsed sr) (mkOp kind nodes o1 o2 s1 s2 rec rs pr ic)) = None).
  { unfold process_error. simpl. apply subject_no_error; auto. }
  rewrite P. destruct owner as [w|]; [|reflexivity].
  destruct (gsc_graph_ok (GOps (mkOp kind nodes o1 o2 s1 s2 rec rs pr ic)) w g) eqn:Gk; simpl.
  - destruct (match kind with KPlain => false | _ => _ end); reflexivity.
  - unfold modify_graph. simpl modify_graph_in. rewrite unload_load. unfold gsc_graph_ok in Gk. simpl in Gk. rewrite Gk. reflexivity.
Qed.
(** the dicts that were given can be used again *)
Theorem construct_again : forall nodes a s, stands_for_subjects nodes a s -> stands_for_subjects nodes (snd (handle_subject nodes a)) s.
Proof.
  intros nodes a s H. destruct (stands_parsed _ _ _ H) as (K & N & _). rewrite (handle_parsed _ _ K N).
  destruct H as [v o H|d e F Nd Kn]; simpl; [constructor; auto|]. constructor.
  - clear K N Nd Kn. induction F as [|[k v] [k' o] d e [E S] F IH]; simpl in *; auto. subst k'. constructor; auto. simpl. split; auto.
    apply parse_op_iff in S. rewrite S. left; auto.
  - unfold akeys in *. rewrite map_map. auto.
  - intros n. unfold akeys in *. rewrite map_map. auto.
Qed.
