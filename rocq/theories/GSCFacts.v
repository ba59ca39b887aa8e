(** Graph structure conditions: what the operations produce. *)
From Verif Require Import Base BaseFacts SpecGraph GraphFacts GSC SpecGSC HeapFacts.
Require Import Lia.

Theorem op_set_In : forall o s c x, In x (op_set o s c) <-> op_says o (In x s) (In x c).
Proof.
  intros [] s c x; simpl; rewrite ?s_inter_In, ?s_union_In, ?s_diff_In, ?s_symdiff_In; tauto.
Qed.
Lemma op_set_ok : forall K o s c, okset K s -> okset K c -> okset K (op_set o s c).
Proof.
  intros K o s c [A B] [C D]. split.
  - destruct o; simpl; auto; try constructor; try (apply s_union_NoDup); auto; try (apply s_diff_NoDup; auto); try (apply NoDup_filter; auto).
    unfold s_symdiff. apply NoDup_app_intro; try (apply s_diff_NoDup; auto). intros y. rewrite !s_diff_In. tauto.
  - intros y Y. apply op_set_In in Y. destruct o; simpl in Y; intuition.
Qed.
Lemma op_says_iff : forall o s c s' c', (s <-> s') -> (c <-> c') -> (op_says o s c <-> op_says o s' c').
Proof. intros [] s c s' c' A B; simpl; tauto. Qed.
Lemma union_all_In : forall ls x, In x (union_all ls) <-> exists l, In l ls /\ In x l.
Proof. intros; unfold union_all; rewrite union_In; simpl; tauto. Qed.
Lemma union_all_ok : forall K ls, Forall (okset K) ls -> okset K (union_all ls).
Proof.
  intros K ls F. unfold union_all. assert (A : forall acc, okset K acc -> okset K (fold_left s_union ls acc)); [|apply A, okset_nil].
  induction F as [|l ls H F IH]; intros acc O; simpl; auto. apply IH. apply okset_union; auto.
Qed.

(** ** objects returned by operations *)
Lemma op_object_spec : forall K o h sl cl c h' l, op_object o h sl cl c = (h', l) ->
  okset K (s_get (h_store h) sl) -> okset K c -> sl < length (h_store h) ->
  (forall k, cl = Some k -> k < length (h_store h) /\ s_get (h_store h) k = c) ->
  h_refs h' = h_refs h /\ (exists t, h_store h' = h_store h ++ t /\ Forall (okset K) t) /\ l < length (h_store h') /\
  s_get (h_store h') l = op_set o (s_get (h_store h) sl) c /\
  ((o = KEEP /\ l = sl) \/ (o = REPLACE /\ cl = Some l) \/ length (h_store h) = l).
Proof.
  intros K o h sl cl c h' l E OS OC SL CL.
  assert (A : (h', l) = (let (st, l) := s_alloc (h_store h) (op_set o (s_get (h_store h) sl) c) in (mkH (h_refs h) st, l)) ->
    h_refs h' = h_refs h /\ (exists t, h_store h' = h_store h ++ t /\ Forall (okset K) t) /\ l < length (h_store h') /\
    s_get (h_store h') l = op_set o (s_get (h_store h) sl) c /\
    ((o = KEEP /\ l = sl) \/ (o = REPLACE /\ cl = Some l) \/ length (h_store h) = l)).
  { clear E. unfold s_alloc. intros E; inversion E; subst; clear E. simpl. repeat split; auto.
    - eexists; split; eauto. constructor; auto. apply op_set_ok; auto.
    - rewrite app_length; simpl; lia.
    - apply s_get_new. }
  destruct o; try (apply A; rewrite <- E; destruct cl; reflexivity).
  - simpl in E. inversion E; subst; clear E A. repeat split; auto. exists []. rewrite app_nil_r; auto.
  - destruct cl as [k|]; [|apply A; rewrite <- E; reflexivity]. simpl in E. inversion E; subst; clear E A.
    destruct (CL _ eq_refl) as [X Y]. repeat split; auto. exists []. rewrite app_nil_r; auto.
Qed.

(** sender and receiver operation of a node *)
Definition s_oper (p : opcond) (w n : node) : res operation :=
  if Nat.eqb n w then Ok (p_owner_senders p) else subject_operation (p_subject_senders p) n.

Section Process.
Variables (p : opcond) (w : node) (hg : hgraph) (st : store) (K : list node).
Hypothesis I : inside st K hg.
Hypothesis U : unaliased hg.
Hypothesis NK : NoDup K.
Hypothesis WK : In w K.
Hypothesis SK : incl (p_nodes p) K.
Hypothesis WS : ~ In w (p_nodes p).

Let g := unload hg.
Let recv := get_receivers g.
Let h0 := hclone hg.

Lemma wf_g : wf_graph g.
Proof. unfold wf_graph, g. rewrite (inside_unload _ _ _ I); auto. Qed.
Lemma recv_In : forall a b, In b (senders recv a) <-> edge g a b.
Proof. intros a b. rewrite <- edge_aget. apply receivers_spec. apply wf_g. Qed.
Lemma edge_g_keys : forall a b, edge g a b -> In a K /\ In b K.
Proof.
  intros a b E. split.
  - rewrite <- (inside_unload _ _ _ I). eapply inside_closed; eauto.
  - destruct E as (l & E & _). rewrite <- (inside_unload _ _ _ I). apply aget_Some_key; eauto.
Qed.
Lemma senders_g_ok : forall n, okset K (senders g n).
Proof. intros n; unfold g; rewrite senders_unload. eapply hget_ok; eauto. Qed.
Lemma inside_h0 : inside (h_store hg) K h0.
Proof.
  rewrite <- (in_keys _ _ _ I). apply inside_clone.
  - rewrite (in_keys _ _ _ I); auto.
  - intros n l H. eapply in_locs in H; eauto. lia.
  - eapply inside_closed; eauto.
Qed.
Lemma unaliased_h0 : unaliased h0.
Proof. apply unaliased_hload. Qed.
Lemma hget_h0 : forall n x, In x (hget h0 n) <-> edge g x n.
Proof. intros n x; unfold h0, g. rewrite hget_hclone_In, edge_unload. tauto. Qed.
Lemma gl_ok : forall n, In n K -> length st <= hloc hg n < length (h_store hg) /\ aget n (h_refs hg) = Some (hloc hg n).
Proof. intros n H. rewrite <- (in_keys _ _ _ I) in H. apply hloc_key in H. split; auto. eapply in_locs; eauto. Qed.
Lemma h0_length : length (h_store hg) <= length (h_store h0).
Proof. destruct (in_tail _ _ _ inside_h0) as (t & -> & _). rewrite app_length; lia. Qed.
Lemma gl_value : forall h n, In n K -> (exists t, h_store h = h_store h0 ++ t) -> s_get (h_store h) (hloc hg n) = senders g n.
Proof.
  intros h n H (t & ->). destruct (gl_ok n H) as [L _]. pose proof h0_length. rewrite s_get_app1 by lia.
  rewrite (inside_prefix _ _ _ _ inside_h0) by lia. unfold g. rewrite senders_unload. reflexivity.
Qed.
Lemma h0_refs_range : forall n l, aget n (h_refs h0) = Some l -> length (h_store hg) <= l < length (h_store h0).
Proof. intros n l H. eapply in_locs in H; eauto. apply inside_h0. Qed.

(** the set computed for the senders of b, as prescribed *)
Definition NS (b : node) : list node :=
  if Nat.eqb b w then op_set (p_owner_senders p) (senders g w) (union_all (map (senders g) (p_nodes p)))
  else match subject_operation (p_subject_senders p) b with Ok o => op_set o (senders g b) (senders g w) | Err _ => [] end.
Definition NR (a : node) : list node :=
  if Nat.eqb a w then op_set (p_owner_receivers p) (senders recv w) (union_all (map (senders recv) (p_nodes p)))
  else match subject_operation (p_subject_receivers p) a with Ok o => op_set o (senders recv a) (senders recv w) | Err _ => [] end.
Lemma NS_spec : forall a b, acts p w b -> (In a (NS b) <-> prescribes_sender p w g a b).
Proof.
  intros a b A. unfold NS, prescribes_sender. destruct (Nat.eqb_spec b w) as [->|D].
  - rewrite op_set_In. rewrite (op_says_iff _ _ _ (edge g a w) (exists n, In n (p_nodes p) /\ edge g a n)).
    + split; auto. intros [[_ H]|[H _]]; auto. contradiction.
    + rewrite edge_aget; tauto.
    + rewrite union_all_In. split.
      * intros (l & L & X). apply in_map_iff in L. destruct L as (n & <- & L). exists n; split; auto. apply edge_aget; auto.
      * intros (n & L & X). exists (senders g n). split; [apply in_map; auto|apply edge_aget; auto].
  - assert (B : In b (p_nodes p)) by (destruct A; [contradiction|auto]). destruct (subject_operation (p_subject_senders p) b) as [o|e].
    + rewrite op_set_In, (op_says_iff _ _ _ (edge g a b) (edge g a w)) by (rewrite edge_aget; tauto).
      split; [intros H; right; split; eauto|]. intros [[H _]|(_ & o' & E & H)]; [contradiction|]. inversion E; subst; auto.
    + simpl. split; [tauto|]. intros [[H _]|(_ & o' & E & H)]; [contradiction|discriminate].
Qed.
Lemma NR_spec : forall a b, acts p w a -> (In b (NR a) <-> prescribes_receiver p w g a b).
Proof.
  intros a b A. unfold NR, prescribes_receiver. destruct (Nat.eqb_spec a w) as [->|D].
  - rewrite op_set_In. rewrite (op_says_iff _ _ _ (edge g w b) (exists n, In n (p_nodes p) /\ edge g n b)).
    + split; auto. intros [[_ H]|[H _]]; auto. contradiction.
    + apply recv_In.
    + rewrite union_all_In. split.
      * intros (l & L & X). apply in_map_iff in L. destruct L as (n & <- & L). exists n; split; auto. apply recv_In; auto.
      * intros (n & L & X). exists (senders recv n). split; [apply in_map; auto|apply recv_In; auto].
  - assert (B : In a (p_nodes p)) by (destruct A; [contradiction|auto]). destruct (subject_operation (p_subject_receivers p) a) as [o|e].
    + rewrite op_set_In, (op_says_iff _ _ _ (edge g a b) (edge g w b)) by apply recv_In.
      split; [intros H; right; split; eauto|]. intros [[H _]|(_ & o' & E & H)]; [contradiction|]. inversion E; subst; auto.
    + simpl. split; [tauto|]. intros [[H _]|(_ & o' & E & H)]; [contradiction|discriminate].
Qed.
Lemma NR_keys : forall a b, acts p w a -> In b (NR a) -> In b K.
Proof.
  intros a b A H. apply NR_spec in H; auto. unfold prescribes_receiver in H.
  assert (X : forall o c s, op_says o s c -> (s \/ c)) by (intros [] ? ?; simpl; tauto).
  destruct H as [[-> H]|(_ & o & _ & H)]; apply X in H; destruct H as [H|H].
  - apply edge_g_keys in H; tauto.
  - destruct H as (n & _ & H). apply edge_g_keys in H; tauto.
  - apply edge_g_keys in H; tauto.
  - apply edge_g_keys in H; tauto.
Qed.

(** ** the loop over the subjects *)
Record subj_inv (done : list node) (h : hgraph) (ns : amap loc) (nr : amap (list node)) : Prop := mkSubj {
  si_refs : h_refs h = h_refs h0;
  si_store : exists t, h_store h = h_store h0 ++ t /\ Forall (okset K) t;
  si_ns_keys : forall n, In n (akeys ns) <-> n = w \/ In n done;
  si_nr_keys : forall n, In n (akeys nr) <-> n = w \/ In n done;
  si_ns_nodup : NoDup (akeys ns);
  si_nr_nodup : NoDup (akeys nr);
  si_ns : forall n l, aget n ns = Some l -> length st <= l < length (h_store h) /\ s_get (h_store h) l = NS n /\
     ((s_oper p w n = Ok KEEP /\ l = hloc hg n) \/ (n <> w /\ s_oper p w n = Ok REPLACE /\ l = hloc hg w) \/ length (h_store h0) <= l);
  si_nr : forall n rs, aget n nr = Some rs -> rs = NR n;
  si_fresh : forall n m l, length (h_store h0) <= l -> aget n ns = Some l -> aget m ns = Some l -> n = m }.

Lemma subject_results_inv : forall ns done h nsn nrn r, incl ns (p_nodes p) -> subj_inv done h nsn nrn ->
  subject_results p w g recv (hloc hg) ns h nsn nrn = Ok r ->
  subj_inv (rev ns ++ done) (fst (fst r)) (snd (fst r)) (snd r).
Proof.
  induction ns as [|n ns IH]; intros done h nsn nrn r IN J E.
  - simpl in E. inversion E; subst; auto.
  - simpl in E. destruct (subject_operation (p_subject_senders p) n) as [so|] eqn:ESO; [|discriminate].
    destruct (subject_operation (p_subject_receivers p) n) as [ro|] eqn:ERO; [|discriminate]. simpl in E.
    destruct (op_object so h (hloc hg n) (Some (hloc hg w)) (senders g w)) as [h' l] eqn:EO.
    assert (NKn : In n K) by (apply SK, IN; simpl; auto).
    assert (NW : n <> w) by (intros ->; apply WS, IN; simpl; auto).
    destruct J as [J1 J2 J3 J4 J5 J6 J7 J8 J9].
    assert (ST : exists t, h_store h = h_store h0 ++ t) by (destruct J2 as (t & T & _); eauto).
    assert (LE : length (h_store h0) <= length (h_store h)) by (destruct ST as (t & ->); rewrite app_length; lia).
    pose proof h0_length as L0. destruct (gl_ok n NKn) as [GN AN]. destruct (gl_ok w WK) as [GW AW].
    destruct (op_object_spec K _ _ _ _ _ _ _ EO) as (R1 & (t & R2 & R2F) & R3 & R4 & R5).
    { rewrite gl_value; auto. apply senders_g_ok. }
    { apply senders_g_ok. }
    { lia. }
    { intros k X; inversion X; subst. split; [lia|]. apply gl_value; auto. }
    replace (rev (n :: ns) ++ done) with (rev ns ++ (n :: done)) by (simpl; rewrite <- app_assoc; auto).
    eapply IH; [intros x X; apply IN; right; auto| |exact E].
    split.
    + congruence.
    + destruct J2 as (t0 & T0 & F0). exists (t0 ++ t). rewrite R2, T0, app_assoc. split; auto. apply Forall_app; auto.
    + intros x. rewrite akeys_aset, J3. simpl. intuition.
    + intros x. rewrite akeys_aset, J4. simpl. intuition.
    + apply NoDup_aset; auto.
    + apply NoDup_aset; auto.
    + intros x k. rewrite aget_aset. destruct (Nat.eqb_spec x n) as [->|D].
      * intros X; inversion X; subst k; clear X. assert (SO : s_oper p w n = Ok so) by (unfold s_oper; destruct (Nat.eqb_spec n w); [contradiction|auto]). split; [|split].
        -- split; auto. destruct R5 as [[_ ->]|[[_ X]|<-]]; [lia|inversion X; lia|lia].
        -- rewrite R4. unfold NS. destruct (Nat.eqb_spec n w); [contradiction|]. rewrite ESO. rewrite gl_value; auto.
        -- destruct R5 as [[-> ->]|[[-> X]|<-]]; auto. right; left. inversion X; subst. auto.
      * intros X. destruct (J7 _ _ X) as (A & B & C). split; [rewrite R2, app_length; lia|]. split; auto.
        rewrite R2, s_get_app1; [auto|lia].
    + intros x rs. rewrite aget_aset. destruct (Nat.eqb_spec x n) as [->|D]; [|apply J8].
      intros X; inversion X; subst; clear X. unfold NR. destruct (Nat.eqb_spec n w); [contradiction|]. rewrite ERO; auto.
    + intros x y k L. rewrite !aget_aset. destruct (Nat.eqb_spec x n) as [->|]; destruct (Nat.eqb_spec y n) as [->|]; auto; try (eapply J9; eauto; fail).
      * intros X Y. inversion X; subst k. apply J7 in Y. destruct Y as (A & _). destruct R5 as [[_ ->]|[[_ X']|<-]]; try lia. inversion X'; subst; lia.
      * intros Y X. inversion X; subst k. apply J7 in Y. destruct Y as (A & _). destruct R5 as [[_ ->]|[[_ X']|<-]]; try lia. inversion X'; subst; lia.
Qed.

(** ** the two assignment loops *)
Lemma assign_senders_store : forall todo all nr h c, h_store (fst (assign_senders todo all nr h c)) = h_store h.
Proof. induction todo as [|[n l] r IH]; intros all nr h c; simpl; auto. rewrite IH; auto. Qed.
Lemma assign_senders_refs : forall todo all nr h c n, NoDup (akeys todo) ->
  aget n (h_refs (fst (assign_senders todo all nr h c))) = match aget n todo with Some l => Some l | None => aget n (h_refs h) end.
Proof.
  induction todo as [|[k l] r IH]; intros all nr h c n N; simpl; auto. inversion N; subst. rewrite IH by auto. simpl. rewrite aget_aset.
  destruct (Nat.eqb_spec n k) as [->|]; auto. destruct (aget k r) eqn:E; auto. exfalso. apply H1. apply aget_Some_key; eauto.
Qed.
Lemma assign_senders_inside : forall st1 todo all nr h c, inside st1 K h -> (forall n l, In (n, l) todo -> In n K /\ length st1 <= l < length (h_store h)) ->
  inside st1 K (fst (assign_senders todo all nr h c)).
Proof.
  induction todo as [|[n l] r IH]; intros all nr h c J L; simpl; auto. destruct (L n l) as [A B]; [simpl; auto|]. apply IH.
  - apply inside_href; auto.
  - intros x y H. simpl. apply L. right; auto.
Qed.
Lemma assign_senders_conflict : forall todo all nr h c,
  snd (assign_senders todo all nr h c) = true <-> c = true \/
    exists b l a, In (b, l) todo /\ In a (s_get (h_store h) l) /\ edge_conflict (h_store h) all nr a b = true.
Proof.
  induction todo as [|[n l] r IH]; intros all nr h c; simpl.
  - split; auto. intros [H|(b & l & a & [] & _)]; auto.
  - rewrite IH, orb_true_iff, existsb_exists. simpl. split.
    + intros [[H|(a & A & B)]|(b & k & a & A & B & C)]; auto; right; [exists n, l, a|exists b, k, a]; auto.
    + intros [H|(b & k & a & [A|A] & B & C)]; auto.
      * inversion A; subst. left; right; eauto.
      * right. exists b, k, a; auto.
Qed.

Lemma receivers1_inside : forall st1 s rs keys ns nr h c, inside st1 K h -> In s K -> inside st1 K (fst (assign_receivers1 s rs keys ns nr h c)).
Proof.
  induction keys as [|n r IH]; intros ns nr h c J S; simpl; auto. destruct (mem n rs); apply IH; auto; apply inside_hmut; auto.
  - apply okset_add; auto. eapply hget_ok; eauto.
  - apply okset_remove; auto. eapply hget_ok; eauto.
Qed.
Lemma receivers1_refs : forall s rs keys ns nr h c, h_refs (fst (assign_receivers1 s rs keys ns nr h c)) = h_refs h.
Proof. induction keys as [|n r IH]; intros ns nr h c; simpl; auto. destruct (mem n rs); rewrite IH; auto. Qed.
Lemma receivers_refs : forall todo keys ns nr h c, h_refs (fst (assign_receivers todo keys ns nr h c)) = h_refs h.
Proof.
  induction todo as [|[s rs] r IH]; intros keys ns nr h c; simpl; auto. destruct (assign_receivers1 s rs keys ns nr h c) as [h' c'] eqn:E.
  rewrite IH. change h' with (fst (h', c')). rewrite <- E. apply receivers1_refs.
Qed.
Lemma receivers_inside : forall st1 todo keys ns nr h c, inside st1 K h -> (forall n rs, In (n, rs) todo -> In n K) ->
  inside st1 K (fst (assign_receivers todo keys ns nr h c)).
Proof.
  induction todo as [|[s rs] r IH]; intros keys ns nr h c J L; simpl; auto. destruct (assign_receivers1 s rs keys ns nr h c) as [h' c'] eqn:E.
  apply IH; [|intros; eapply L; right; eauto]. change h' with (fst (h', c')). rewrite <- E. apply receivers1_inside; auto. eapply L; left; eauto.
Qed.
(* without aliasing *)
Lemma receivers1_value : forall st1 s rs keys ns nr h c, inside st1 K h -> unaliased h -> In s K -> NoDup keys -> incl keys K ->
  forall a b, In a (hget (fst (assign_receivers1 s rs keys ns nr h c)) b) <->
    (In b keys /\ a = s /\ In b rs) \/ (~ (In b keys /\ a = s) /\ In a (hget h b)).
Proof.
  induction keys as [|n r IH]; intros ns nr h c J UA S N IK a b.
  - simpl. tauto.
  - inversion N; subst. assert (Nn : In n K) by (apply IK; left; auto). assert (Ir : incl r K) by (intros x X; apply IK; right; auto).
    simpl. destruct (mem n rs) eqn:M.
    + apply mem_In in M. rewrite IH; auto; [|apply inside_hmut; auto; apply okset_add; auto; eapply hget_ok; eauto].
      rewrite (hget_hmut_In _ _ _ _ _ _ J UA Nn). destruct (Nat.eqb_spec b n) as [->|D].
      * rewrite s_add_In. destruct (Nat.eq_dec a s); subst; intuition.
      * assert (n <> b) by auto. intuition; subst; auto; tauto.
    + apply mem_In_false in M. rewrite IH; auto; [|apply inside_hmut; auto; apply okset_remove; auto; eapply hget_ok; eauto].
      rewrite (hget_hmut_In _ _ _ _ _ _ J UA Nn). destruct (Nat.eqb_spec b n) as [->|D].
      * rewrite s_remove_In. destruct (Nat.eq_dec a s); subst; intuition.
      * assert (n <> b) by auto. intuition; subst; auto; tauto.
Qed.
(* the objects the operations returned are the ones in the result graph *)
Definition linked (ns : amap loc) (h : hgraph) : Prop := forall n l, aget n ns = Some l -> aget n (h_refs h) = Some l.
Lemma linked_get : forall ns h n l, linked ns h -> aget n ns = Some l -> s_get (h_store h) l = hget h n.
Proof. intros ns h n l L E. unfold hget, hloc. rewrite (L _ _ E); auto. Qed.
Lemma conflict_true : forall ns nr h s n, linked ns h ->
  (edge_conflict (h_store h) ns nr s n = true <-> In n (akeys ns) /\ exists rs, aget s nr = Some rs /\ ~ (In s (hget h n) <-> In n rs)).
Proof.
  intros ns nr h s n L. unfold edge_conflict. destruct (aget n ns) as [l|] eqn:E.
  - rewrite (linked_get _ _ _ _ L E). assert (A : In n (akeys ns)) by (apply aget_Some_key; eauto). destruct (aget s nr) as [rs|].
    + destruct (mem s (hget h n)) eqn:M1; destruct (mem n rs) eqn:M2; simpl; rewrite ?mem_In, ?mem_In_false in *; split; try discriminate; intros H;
        try (split; auto; exists rs; split; auto; tauto); destruct H as (_ & rs' & X & Y); inversion X; subst; tauto.
    + split; [discriminate|]. intros (_ & rs & X & _); discriminate.
  - split; [discriminate|]. intros (X & _). apply aget_None in E. contradiction.
Qed.
Lemma receivers1_conflict : forall st1 s rs keys ns nr h c, inside st1 K h -> unaliased h -> In s K -> NoDup keys -> incl keys K -> linked ns h -> aget s nr = Some rs ->
  (snd (assign_receivers1 s rs keys ns nr h c) = true <-> c = true \/ exists n, In n keys /\ In n rs /\ In n (akeys ns) /\ ~ In s (hget h n)).
Proof.
  induction keys as [|n r IH]; intros ns nr h c J UA S N IK LK AS.
  - simpl. split; auto. intros [H|(n & [] & _)]; auto.
  - inversion N; subst. assert (Nn : In n K) by (apply IK; left; auto). assert (Ir : incl r K) by (intros x X; apply IK; right; auto).
    assert (O : forall f x, In x r -> hget (hmut h n f) x = hget h x) by (intros f x X; eapply hget_hmut_other; eauto; intros ->; contradiction).
    simpl. destruct (mem n rs) eqn:M.
    + apply mem_In in M. rewrite IH; auto; [|apply inside_hmut; auto; apply okset_add; auto; eapply hget_ok; eauto].
      rewrite orb_true_iff, (conflict_true _ _ _ _ _ LK). split.
      * intros [[H|(A & rs' & B & C)]|(x & A & B & C & D)]; auto; right.
        -- rewrite AS in B. inversion B; subst. exists n. simpl. tauto.
        -- exists x. rewrite O in D by auto. simpl; auto.
      * intros [H|(x & [<-|A] & B & C & D)]; auto.
        -- left; right. split; auto. exists rs. tauto.
        -- right. exists x. rewrite O; auto.
    + apply mem_In_false in M. rewrite IH; auto; [|apply inside_hmut; auto; apply okset_remove; auto; eapply hget_ok; eauto].
      split; intros [H|(x & A & B & C & D)]; auto; right.
      * exists x. rewrite O in D by auto. simpl; auto.
      * exists x. destruct A as [<-|A]; [contradiction|]. rewrite O; auto.
Qed.
Lemma receivers_value : forall st1 todo ns nr h c, inside st1 K h -> unaliased h -> NoDup (akeys todo) -> (forall n rs, In (n, rs) todo -> In n K /\ incl rs K) ->
  forall a b, In a (hget (fst (assign_receivers todo K ns nr h c)) b) <->
    match aget a todo with Some rs => In b rs | None => In a (hget h b) end.
Proof.
  induction todo as [|[s rs] r IH]; intros ns nr h c J UA N IK a b; simpl; [tauto|].
  inversion N; subst. destruct (assign_receivers1 s rs K ns nr h c) as [h' c'] eqn:E.
  destruct (IK s rs) as [SKs RK]; [left; auto|].
  assert (H' : h' = fst (assign_receivers1 s rs K ns nr h c)) by (rewrite E; auto).
  assert (J' : inside st1 K h') by (rewrite H'; apply receivers1_inside; auto).
  assert (U' : unaliased h') by (unfold unaliased; rewrite H', receivers1_refs; auto).
  rewrite IH; auto; [|intros; apply IK; right; auto].
  assert (V := receivers1_value _ s rs K ns nr h c J UA SKs NK (fun x h => h) a b). rewrite <- H' in V.
  destruct (Nat.eqb_spec a s) as [->|D].
  - destruct (aget s r) eqn:X; [exfalso; apply H1; apply aget_Some_key; eauto|]. rewrite V.
    split; [|intros Y; left; split; auto].
    intros [H|[H Y]]; [tauto|]. exfalso. apply H. split; auto.
    assert (OK := hget_ok _ _ _ b J). destruct (In_dec_nat b K) as [B|B]; auto. rewrite <- (in_keys _ _ _ J) in B. rewrite (hget_out _ _ B) in Y. destruct Y.
  - destruct (aget a r); [tauto|]. rewrite V. tauto.
Qed.
Lemma receivers_conflict : forall st1 todo ns nr h c, inside st1 K h -> unaliased h -> NoDup (akeys todo) -> linked ns h ->
  (forall n rs, In (n, rs) todo -> In n K /\ incl rs K /\ aget n nr = Some rs) ->
  (snd (assign_receivers todo K ns nr h c) = true <-> c = true \/ exists s rs n, In (s, rs) todo /\ In n rs /\ In n (akeys ns) /\ ~ In s (hget h n)).
Proof.
  induction todo as [|[s rs] r IH]; intros ns nr h c J UA N LK IK.
  - simpl. split; auto. intros [H|(s & rs & n & [] & _)]; auto.
  - simpl. inversion N; subst. destruct (assign_receivers1 s rs K ns nr h c) as [h' c'] eqn:E.
    destruct (IK s rs) as (SKs & RK & AN); [left; auto|].
    assert (H' : h' = fst (assign_receivers1 s rs K ns nr h c)) by (rewrite E; auto).
    assert (J' : inside st1 K h') by (rewrite H'; apply receivers1_inside; auto).
    assert (U' : unaliased h') by (unfold unaliased; rewrite H', receivers1_refs; auto).
    assert (L' : linked ns h') by (unfold linked; rewrite H', receivers1_refs; auto).
    assert (C' : c' = snd (assign_receivers1 s rs K ns nr h c)) by (rewrite E; auto).
    rewrite (IH ns nr h' c' J' U' H2 L'); [|intros; apply IK; right; auto].
    rewrite C', (receivers1_conflict _ s rs K ns nr h c J UA SKs NK (fun x h => h) LK AN).
    assert (V : forall a b, a <> s -> (In a (hget h' b) <-> In a (hget h b))).
    { intros a b D. rewrite H'. rewrite (receivers1_value _ s rs K ns nr h c J UA SKs NK (fun x h => h) a b). tauto. }
    split.
    + intros [[H|(n & A & B & C & D)]|(s' & rs' & n & A & B & C & D)]; auto; right.
      * exists s, rs, n. simpl; auto.
      * exists s', rs', n. rewrite V in D; [simpl; auto|]. intros ->. apply H1. apply (in_map fst) in A; auto.
    + intros [H|(s' & rs' & n & [A|A] & B & C & D)]; auto.
      * inversion A; subst s' rs'. left; right. exists n. auto.
      * right. exists s', rs', n. rewrite V; auto. intros ->. apply H1. apply (in_map fst) in A; auto.
Qed.

(** ** _process *)
Lemma subject_results_total : forall ns h nsn nrn, 
  (forall n, In n ns -> (exists o, subject_operation (p_subject_senders p) n = Ok o) /\ (exists o, subject_operation (p_subject_receivers p) n = Ok o)) ->
  exists r, subject_results p w g recv (hloc hg) ns h nsn nrn = Ok r.
Proof.
  induction ns as [|n ns IH]; intros h nsn nrn T; simpl; eauto. destruct (T n (or_introl eq_refl)) as ((o & ->) & (o' & ->)). simpl.
  destruct (op_object o h (hloc hg n) (Some (hloc hg w)) (senders g w)). apply IH. intros; apply T; right; auto.
Qed.
Lemma subject_operation_err : forall so n e, subject_operation so n = Err e -> e = ECondition.
Proof. intros [o|d] n e; simpl; [discriminate|]. destruct (aget n d); [discriminate|]. intros X; inversion X; auto. Qed.
Lemma subject_results_given : forall ns h nsn nrn r, subject_results p w g recv (hloc hg) ns h nsn nrn = Ok r ->
  forall n, In n ns -> (exists o, subject_operation (p_subject_senders p) n = Ok o) /\ (exists o, subject_operation (p_subject_receivers p) n = Ok o).
Proof.
  induction ns as [|m ns IH]; intros h nsn nrn r E n H; [destruct H|]. simpl in E.
  destruct (subject_operation (p_subject_senders p) m) as [so|] eqn:ESO; [|discriminate].
  destruct (subject_operation (p_subject_receivers p) m) as [ro|] eqn:ERO; [|discriminate]. simpl in E.
  destruct (op_object so h (hloc hg m) (Some (hloc hg w)) (senders g w)). destruct H as [<-|H]; eauto.
Qed.
Lemma subject_results_err : forall ns h nsn nrn e, subject_results p w g recv (hloc hg) ns h nsn nrn = Err e -> e = ECondition.
Proof.
  induction ns as [|m ns IH]; intros h nsn nrn e E; [discriminate|]. simpl in E.
  destruct (subject_operation (p_subject_senders p) m) as [so|] eqn:ESO; [|simpl in E; inversion E; subst; eapply subject_operation_err; eauto].
  destruct (subject_operation (p_subject_receivers p) m) as [ro|] eqn:ERO; [|simpl in E; inversion E; subst; eapply subject_operation_err; eauto]. simpl in E.
  destruct (op_object so h (hloc hg m) (Some (hloc hg w)) (senders g w)). eauto.
Qed.

Lemma start_inv : forall h1 lo, op_object (p_owner_senders p) h0 (hloc hg w) None (union_all (map (senders g) (p_nodes p))) = (h1, lo) ->
  subj_inv [] h1 [(w, lo)] [(w, op_set (p_owner_receivers p) (senders recv w) (union_all (map (senders recv) (p_nodes p))))].
Proof.
  intros h1 lo E. destruct (gl_ok w WK) as [GW AW]. pose proof h0_length as L0.
  assert (GV : s_get (h_store h0) (hloc hg w) = senders g w) by (apply gl_value; auto; exists []; rewrite app_nil_r; auto).
  destruct (op_object_spec K _ _ _ _ _ _ _ E) as (R1 & (t & R2 & R2F) & R3 & R4 & R5).
  { rewrite GV. apply senders_g_ok. }
  { apply union_all_ok. apply Forall_forall. intros s H. apply in_map_iff in H. destruct H as (n & <- & _). apply senders_g_ok. }
  { lia. }
  { discriminate. }
  split; auto.
  - eauto.
  - intros n; simpl. intuition.
  - intros n; simpl. intuition.
  - constructor; [simpl; tauto|constructor].
  - constructor; [simpl; tauto|constructor].
  - intros n l. simpl. destruct (Nat.eqb_spec n w) as [->|]; [|discriminate]. intros X; inversion X; subst l; clear X.
    assert (Y : (p_owner_senders p = KEEP /\ lo = hloc hg w) \/ length (h_store h0) = lo) by (destruct R5 as [?|[[_ X]|?]]; auto; discriminate).
    split; [|split].
    + destruct Y as [[_ ->]|<-]; lia.
    + rewrite R4, GV. unfold NS. rewrite Nat.eqb_refl. auto.
    + destruct Y as [[X ->]|<-]; auto. left. unfold s_oper. rewrite Nat.eqb_refl, X; auto.
  - intros n rs. simpl. destruct (Nat.eqb_spec n w) as [->|]; [|discriminate]. intros X; inversion X; subst. unfold NR. rewrite Nat.eqb_refl. auto.
  - intros n m l _; simpl. destruct (Nat.eqb_spec n w) as [->|]; [|discriminate]. destruct (Nat.eqb_spec m w) as [->|]; [auto|discriminate].
Qed.

Lemma process_ops_cases : forall P : res hgraph -> Prop,
  (~ operations_given p -> P (Err ECondition)) ->
  (forall h2 ns nr h3 c1 h4 c2, operations_given p -> subj_inv (rev (p_nodes p)) h2 ns nr ->
     assign_senders ns ns nr h2 false = (h3, c1) -> assign_receivers nr K ns nr h3 c1 = (h4, c2) ->
     P (if negb (p_ignore_conflicts p) && c2 then Err ECondition else Ok h4)) ->
  P (process_ops p w hg).
Proof.
  intros P E1 E2. unfold process_ops. fold g. fold recv. fold h0.
  destruct (op_object (p_owner_senders p) h0 (hloc hg w) None (union_all (map (senders g) (p_nodes p)))) as [h1 lo] eqn:EO.
  pose proof (start_inv _ _ EO) as J.
  destruct (subject_results p w g recv (hloc hg) (p_nodes p) h1 [(w, lo)] [(w, op_set (p_owner_receivers p) (senders recv w) (union_all (map (senders recv) (p_nodes p))))]) as [[[h2 ns] nr]|e] eqn:ES.
  - simpl bind. cbv beta iota.
    pose proof (subject_results_inv _ _ _ _ _ _ (incl_refl _) J ES) as J2. simpl in J2. rewrite app_nil_r in J2.
    destruct (assign_senders ns ns nr h2 false) as [h3 c1] eqn:E3.
    assert (GK : gkeys g = K) by (unfold g; apply (inside_unload _ _ _ I)). rewrite GK.
    destruct (assign_receivers nr K ns nr h3 c1) as [h4 c2] eqn:E4. eapply E2; eauto. exact (subject_results_given _ _ _ _ _ ES).
  - simpl. rewrite (subject_results_err _ _ _ _ _ ES). apply E1. intros G. destruct (subject_results_total _ h1 [(w, lo)] [(w, op_set (p_owner_receivers p) (senders recv w) (union_all (map (senders recv) (p_nodes p))))] G) as (r & X). congruence.
Qed.

Lemma inv_inside : forall done h ns nr, incl done (p_nodes p) -> subj_inv done h ns nr -> inside st K h /\
  (forall n l, In (n, l) ns -> In n K /\ length st <= l < length (h_store h)) /\
  (forall n rs, In (n, rs) nr -> In n K /\ incl rs K /\ aget n nr = Some rs).
Proof.
  intros done h ns nr ID [J1 J2 J3 J4 J5 J6 J7 J8 J9]. pose proof inside_h0 as [A B (t & T & F)]. destruct J2 as (t2 & T2 & F2).
  destruct (in_tail _ _ _ I) as (t0 & T0 & F0).
  assert (AK : forall n, n = w \/ In n done -> In n K) by (intros n [->|H]; auto).
  assert (AA : forall n, n = w \/ In n done -> acts p w n) by (intros n [->|H]; [left; auto|right; auto]).
  split; [|split].
  - split; [rewrite J1; auto| |].
    + intros n l H. rewrite J1 in H. apply B in H. rewrite T2, app_length. rewrite T0, app_length in H. lia.
    + exists (t0 ++ t ++ t2). rewrite T2, T, T0, <- !app_assoc. split; auto. apply Forall_app; split; auto. apply Forall_app; auto.
  - intros n l H. split.
    + apply AK, J3. apply (in_map fst) in H; auto.
    + apply (J7 n l). apply aget_In_NoDup; auto.
  - intros n rs H. assert (G : aget n nr = Some rs) by (apply aget_In_NoDup; auto). assert (X : In n (akeys nr)) by (apply (in_map fst) in H; auto). apply J4 in X.
    split; [auto|]. split; auto. rewrite (J8 _ _ G). intros x Y. eapply NR_keys; eauto.
Qed.

Theorem process_ops_inside : forall h, process_ops p w hg = Ok h -> inside st K h.
Proof.
  intros h. pattern (process_ops p w hg). apply process_ops_cases; [intros _ X; discriminate|]. intros h2 ns nr h3 c1 h4 c2 _ J E3 E4 E.
  assert (ID : incl (rev (p_nodes p)) (p_nodes p)) by (intros x X; apply in_rev; auto).
  destruct (inv_inside _ _ _ _ ID J) as (A & B & C). destruct (negb (p_ignore_conflicts p) && c2); [discriminate|]. inversion E; subst.
  change h with (fst (h, c2)). rewrite <- E4. apply receivers_inside; [|intros n rs H; exact (proj1 (C n rs H))].
  change h3 with (fst (h3, c1)). rewrite <- E3. apply assign_senders_inside; auto.
Qed.

Lemma inv_linked : forall h ns nr h3 c1, no_alias p -> subj_inv (rev (p_nodes p)) h ns nr -> assign_senders ns ns nr h false = (h3, c1) ->
  unaliased h3 /\ linked ns h3 /\ (forall a b, In a (hget h3 b) <-> (acts p w b /\ In a (NS b)) \/ (~ acts p w b /\ edge g a b)).
Proof.
  intros h ns nr h3 c1 [NA1 NA2] J E.
  assert (J' := J). destruct J' as [J1 J2 J3 J4 J5 J6 J7 J8 J9].
  assert (R : forall n, aget n (h_refs h3) = match aget n ns with Some l => Some l | None => aget n (h_refs h0) end).
  { intros n. change h3 with (fst (h3, c1)). rewrite <- E, assign_senders_refs, J1; auto. }
  assert (AC : forall n, acts p w n <-> In n (akeys ns)) by (intros n; rewrite J3, <- in_rev; reflexivity).
  assert (AK : forall n, acts p w n -> In n K) by (intros n [->|H]; auto).
  assert (L : linked ns h3) by (intros n l H; rewrite R, H; auto).
  assert (GI : forall n m, In n K -> In m K -> hloc hg n = hloc hg m -> n = m).
  { intros n m A B X. destruct (gl_ok n A) as [_ A']. destruct (gl_ok m B) as [_ B']. eapply U; eauto. congruence. }
  assert (SUB : forall n, acts p w n -> n <> w -> In n (p_nodes p)) by (intros n [->|H] D; [contradiction|auto]).
  assert (OPS : forall n o, n <> w -> s_oper p w n = Ok o -> subject_operation (p_subject_senders p) n = Ok o).
  { intros n o D. unfold s_oper. destruct (Nat.eqb_spec n w); [contradiction|auto]. }
  split; [|split; [auto|]].
  - assert (NN : forall n m l, aget n ns = Some l -> aget m ns = Some l -> n = m).
    { intros n m l A B. assert (An : acts p w n) by (apply AC, aget_Some_key; eauto). assert (Am : acts p w m) by (apply AC, aget_Some_key; eauto).
      pose proof (J7 _ _ A) as (_ & _ & CA). pose proof (J7 _ _ B) as (_ & _ & CB).
      destruct (gl_ok w WK) as [Gw _]. destruct (gl_ok n (AK _ An)) as [Gn _]. destruct (gl_ok m (AK _ Am)) as [Gm _]. pose proof h0_length.
      assert (KR : forall a, acts p w a -> s_oper p w w = Ok KEEP -> a <> w -> s_oper p w a = Ok REPLACE -> False).
      { intros a Aa X D Y. unfold s_oper at 1 in X. rewrite Nat.eqb_refl in X. inversion X as [X']. eapply NA2; eauto. }
      destruct CA as [(OA & CA)|[(DA & OA & CA)|CA]]; destruct CB as [(OB & CB)|[(DB & OB & CB)|CB]]; try lia.
      - apply GI; auto; congruence.
      - assert (n = w) by (apply GI; auto; congruence). subst n. exfalso. eapply (KR m); eauto.
      - assert (m = w) by (apply GI; auto; congruence). subst m. exfalso. eapply (KR n); eauto.
      - eapply NA1; eauto.
      - eapply J9; eauto. }
    intros n m l. rewrite !R. pose proof h0_length.
    assert (CR : forall a k, aget a ns = Some k -> aget a (h_refs h0) = None \/ True) by auto.
    assert (SEP : forall a b k, aget a ns = Some k -> aget b (h_refs h0) = Some k -> False).
    { intros a b k A B. apply h0_refs_range in B. assert (Aa : acts p w a) by (apply AC, aget_Some_key; eauto).
      destruct (gl_ok w WK) as [Gw _]. destruct (gl_ok a (AK _ Aa)) as [Gn _]. apply J7 in A. destruct A as (_ & _ & [(_ & A)|[(_ & _ & A)|A]]); lia. }
    destruct (aget n ns) eqn:EN; destruct (aget m ns) eqn:EM; intros A B.
    + eapply NN; eauto; congruence.
    + exfalso. inversion A; subst. eapply SEP; eauto.
    + exfalso. inversion B; subst. eapply SEP; eauto.
    + eapply unaliased_h0; eauto.
  - intros a b. destruct (aget b ns) as [l|] eqn:EB.
    + assert (Ab : acts p w b) by (apply AC, aget_Some_key; eauto). rewrite <- (linked_get _ _ _ _ L EB).
      replace (h_store h3) with (h_store h) by (change h3 with (fst (h3, c1)); rewrite <- E, assign_senders_store; auto).
      destruct (J7 _ _ EB) as (_ & -> & _). tauto.
    + assert (Ab : ~ acts p w b) by (rewrite AC; apply aget_None; auto). rewrite <- hget_h0.
      assert (X : hget h3 b = hget h0 b); [|rewrite X; tauto].
      destruct J2 as (t & T & _). unfold hget, hloc. rewrite R, EB.
      replace (h_store h3) with (h_store h) by (change h3 with (fst (h3, c1)); rewrite <- E, assign_senders_store; auto). rewrite T.
      destruct (aget b (h_refs h0)) as [k|] eqn:EK.
      * apply h0_refs_range in EK. apply s_get_app1; lia.
      * rewrite !s_get_out; auto.
Qed.

(** what _process yields when no two nodes share a sender set *)
Definition processed (h : hgraph) : Prop := forall a b,
  (acts p w a -> (In a (hget h b) <-> prescribes_receiver p w g a b)) /\
  (~ acts p w a -> acts p w b -> (In a (hget h b) <-> prescribes_sender p w g a b)) /\
  (~ acts p w a -> ~ acts p w b -> (In a (hget h b) <-> edge g a b)).
Theorem process_ops_spec : no_alias p ->
  (process_ops p w hg = Err ECondition /\ (~ operations_given p \/ (p_ignore_conflicts p = false /\ conflicting p w g))) \/
  (exists h, process_ops p w hg = Ok h /\ operations_given p /\ (p_ignore_conflicts p = false -> ~ conflicting p w g) /\
     inside st K h /\ unaliased h /\ processed h).
Proof.
  intros NA. pattern (process_ops p w hg). apply process_ops_cases; [auto|].
  intros h2 ns nr h3 c1 h4 c2 OG J E3 E4.
  assert (ID : incl (rev (p_nodes p)) (p_nodes p)) by (intros x X; apply in_rev; auto).
  destruct (inv_inside _ _ _ _ ID J) as (A & B & C). destruct (inv_linked _ _ _ _ _ NA J E3) as (U3 & L3 & V3).
  assert (I3 : inside st K h3) by (change h3 with (fst (h3, c1)); rewrite <- E3; apply assign_senders_inside; auto).
  pose proof (si_nr_nodup _ _ _ _ J) as N2. pose proof (si_ns_nodup _ _ _ _ J) as N1.
  assert (ACn : forall n, acts p w n <-> In n (akeys ns)) by (intros n; rewrite (si_ns_keys _ _ _ _ J), <- in_rev; reflexivity).
  assert (ACr : forall n, acts p w n <-> In n (akeys nr)) by (intros n; rewrite (si_nr_keys _ _ _ _ J), <- in_rev; reflexivity).
  assert (GR : forall n, acts p w n -> aget n nr = Some (NR n)).
  { intros n H. apply ACr in H. apply aget_Some_key in H. destruct H as (rs & H). rewrite H. f_equal. eapply si_nr; eauto. }
  assert (CF : c2 = true <-> conflicting p w g).
  { assert (C2 : c2 = snd (assign_receivers nr K ns nr h3 c1)) by (rewrite E4; auto).
    assert (C1 : c1 = snd (assign_senders ns ns nr h2 false)) by (rewrite E3; auto).
    rewrite C2, (receivers_conflict st nr ns nr h3 c1 I3 U3 N2 L3 C), C1, assign_senders_conflict.
    assert (ST : h_store h2 = h_store h3) by (change h3 with (fst (h3, c1)); rewrite <- E3, assign_senders_store; auto).
    rewrite ST. split.
    - intros [[H|(b & l & a & H1 & H2 & H3)]|(s & rs & n & H1 & H2 & H3 & H4)]; [discriminate| |].
      + apply (conflict_true _ _ _ _ _ L3) in H3. destruct H3 as (H3 & rs & H5 & H6).
        rewrite (linked_get _ _ _ _ L3 (aget_In_NoDup _ _ _ _ N1 H1)) in H2.
        assert (Ab : acts p w b) by (apply ACn; auto). assert (Aa : acts p w a) by (apply ACr, aget_Some_key; eauto).
        rewrite (GR _ Aa) in H5. inversion H5; subst rs. exists a, b. split; auto. split; auto. left.
        rewrite <- NS_spec, <- NR_spec by auto. apply V3 in H2. assert (In a (NS b)) by tauto. split; auto.
        intros X. apply H6. rewrite V3. tauto.
      + assert (An : acts p w n) by (apply ACn; auto). assert (As : acts p w s) by (apply ACr; apply (in_map fst) in H1; exact H1).
        destruct (C _ _ H1) as (_ & _ & G). rewrite (GR _ As) in G. inversion G; subst rs.
        exists s, n. split; auto. split; auto. right. rewrite <- NS_spec, <- NR_spec by auto. split; auto. rewrite V3 in H4. tauto.
    - intros (a & b & Aa & Ab & [[P1 P2]|[P1 P2]]); rewrite <- NS_spec in P1 by auto; rewrite <- NR_spec in P2 by auto.
      + left; right. pose proof Ab as Kb. apply ACn, aget_Some_key in Kb. destruct Kb as (l & Kb).
        exists b, l, a. split; [apply aget_In; auto|]. rewrite (linked_get _ _ _ _ L3 Kb). split; [apply V3; auto|].
        apply (conflict_true _ _ _ _ _ L3). split; [apply ACn; auto|]. exists (NR a). split; auto. intros X. apply P2, X, V3; auto.
      + right. exists a, (NR a), b. split; [apply aget_In; auto|]. split; auto. split; [apply ACn; auto|]. rewrite V3. tauto. }
  destruct (negb (p_ignore_conflicts p) && c2) eqn:EC.
  - left. split; auto. right. apply andb_true_iff in EC. destruct EC as [EC1 EC2]. apply negb_true_iff in EC1. split; auto. apply CF; auto.
  - right. exists h4. split; auto. split; auto. split.
    { intros X Y. apply CF in Y. rewrite X, Y in EC. discriminate. }
    assert (H4 : h4 = fst (assign_receivers nr K ns nr h3 c1)) by (rewrite E4; auto).
    split; [|split].
    + rewrite H4. apply receivers_inside; auto. intros n rs H; exact (proj1 (C n rs H)).
    + unfold unaliased. rewrite H4, receivers_refs. auto.
    + intros a b. assert (V4 := receivers_value st nr ns nr h3 c1 I3 U3 N2 (fun n rs H => conj (proj1 (C n rs H)) (proj1 (proj2 (C n rs H)))) a b).
      rewrite <- H4 in V4. rewrite V4. destruct (aget a nr) as [rs|] eqn:EA.
      * assert (Aa : acts p w a) by (apply ACr, aget_Some_key; eauto). rewrite (GR _ Aa) in EA. inversion EA; subst rs. rewrite NR_spec by auto. tauto.
      * assert (Aa : ~ acts p w a) by (rewrite ACr; apply aget_None; auto). rewrite V3. split; [tauto|]. split.
        -- intros _ Ab. rewrite NS_spec by auto. tauto.
        -- tauto.
Qed.
End Process.
