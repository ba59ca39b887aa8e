(** Facts about warnings (C85). *)
From Verif Require Import BaseFacts PureFacts CondSetFacts GSCFacts GSCProps GSCThms TopoProofs SchedFacts SchedThms DefaultFacts ThreshFacts SpecWarn.
Open Scope nat_scope.
Open Scope list_scope.

(** ** owners *)
Definition go_warn (w : node) := fix go (l : list cond) (own : owners_t) : list warning :=
  match l with
  | [] => []
  | x :: r => if isSome (own (cond_oid x)) then go r own else owner_warnings w x own ++ go r (set_owner (Some w) x own)
  end.
Lemma owner_warnings_all : forall w o cs own, owner_warnings w (CAll o cs) own = go_warn w cs (upd own o (Some w)).
Proof. reflexivity. Qed.
Lemma owner_warnings_any : forall w o cs own, owner_warnings w (CAny o cs) own = go_warn w cs (upd own o (Some w)).
Proof. reflexivity. Qed.
Lemma first_depends : forall a w, In w (first_dependency a) -> depends_on a w.
Proof. intros a w. unfold depends_on. destruct a; simpl; auto; try tauto; destruct ds; simpl; tauto. Qed.
Lemma own_warnings_In : forall w o a x, In x (own_warnings w o a) -> x = OwnDependency o w /\ depends_on a w.
Proof.
  intros w o a x. unfold own_warnings. destruct (mem w (first_dependency a)) eqn:E; simpl; [|tauto]. intros [<-|[]].
  split; auto. apply first_depends. apply mem_In; auto.
Qed.
Lemma go_warn_In : forall w cs, Forall (fun c => forall own x, In x (owner_warnings w c own) -> exists o a, x = OwnDependency o w /\ part (CAtom o a) c /\ depends_on a w) cs ->
  forall own x, In x (go_warn w cs own) -> exists o a c, x = OwnDependency o w /\ In c cs /\ part (CAtom o a) c /\ depends_on a w.
Proof.
  intros w cs F. induction F as [|c cs Hc F IH]; intros own x X; simpl in X; [tauto|].
  destruct (isSome (own (cond_oid c))).
  - destruct (IH _ _ X) as (o & a & d & A & B & C). exists o, a, d. simpl. tauto.
  - apply in_app_or in X. destruct X as [X|X].
    + destruct (Hc _ _ X) as (o & a & A & B & C). exists o, a, c. simpl. tauto.
    + destruct (IH _ _ X) as (o & a & d & A & B & C). exists o, a, d. simpl. tauto.
Qed.
Lemma owner_warnings_In : forall w c own x, In x (owner_warnings w c own) -> exists o a, x = OwnDependency o w /\ part (CAtom o a) c /\ depends_on a w.
Proof.
  intros w c. induction c using cond_ind'; intros own x X.
  - simpl in X. apply own_warnings_In in X. destruct X as [A B]. exists o, a. split; auto. split; auto. constructor.
  - rewrite owner_warnings_all in X. destruct (go_warn_In w cs H _ _ X) as (o1 & a & c & A & B & C & D).
    exists o1, a. split; auto. split; auto. eapply part_all; eauto.
  - rewrite owner_warnings_any in X. destruct (go_warn_In w cs H _ _ X) as (o1 & a & c & A & B & C & D).
    exists o1, a. split; auto. split; auto. eapply part_any; eauto.
  - simpl in X. destruct (IHc _ _ X) as (o1 & a & A & B & C). exists o1, a. split; auto. split; auto. constructor; auto.
  - simpl in X. destruct (IHc _ _ X) as (o1 & a & A & B & C). exists o1, a. split; auto. split; auto. constructor; auto.
Qed.
Theorem own_sound : forall w c ow o w', In (OwnDependency o w') (owner_warnings w c ow) -> w' = w /\ exists a, part (CAtom o a) c /\ depends_on a w.
Proof. intros w c ow o w' X. apply owner_warnings_In in X. destruct X as (o1 & a & E & P). inversion E; subst. split; auto. exists a; auto. Qed.
(* completeness for first dependencies *)
Lemma part_atom_oid : forall o a c, part (CAtom o a) c -> In o (oids c).
Proof.
  intros o a c P. remember (CAtom o a) as x. induction P; subst; simpl; auto.
  - right. apply in_flat_map. eauto.
  - right. apply in_flat_map. eauto.
Qed.
Section Complete.
Variables (w : node) (x : cond) (y : warning).
Hypothesis Y : forall own, In y (owner_warnings w x own).
Lemma go_warn_complete : forall cs, Forall (fun c => forall own, new_components c own -> part x c -> In y (owner_warnings w c own)) cs ->
  forall own c, NoDup (flat_map oids cs) -> (forall o, In o (flat_map oids cs) -> own o = None) -> In c cs -> part x c -> In y (go_warn w cs own).
Proof.
  intros cs F. induction F as [|d cs Hd F IH]; intros own c N U I P; simpl in *; [tauto|].
  rewrite (U (cond_oid d)) by (apply in_or_app; left; apply cond_oid_in). simpl.
  apply NoDup_app_inv in N. destruct N as (N1 & N2 & N3). apply in_or_app. destruct I as [->|I].
  - left. apply Hd; auto. split; auto. intros o O _. apply U. apply in_or_app; auto.
  - right. apply (IH _ c); auto. intros o O. rewrite set_owner_other; [apply U; apply in_or_app; auto|].
    intros X. eapply N3; eauto.
Qed.
Lemma owner_warnings_complete : forall c own, new_components c own -> part x c -> In y (owner_warnings w c own).
Proof.
  intros c. induction c using cond_ind'; intros own [N U] P.
  - inversion P; subst. apply Y.
  - inversion P; subst; [apply Y|]. rewrite owner_warnings_all. simpl in N. inversion N; subst.
    apply (go_warn_complete cs H _ c); auto.
    intros o1 O. unfold upd. destruct (Nat.eqb_spec o1 o); [subst; tauto|]. apply U; simpl; auto.
  - inversion P; subst; [apply Y|]. rewrite owner_warnings_any. simpl in N. inversion N; subst.
    apply (go_warn_complete cs H _ c); auto.
    intros o1 O. unfold upd. destruct (Nat.eqb_spec o1 o); [subst; tauto|]. apply U; simpl; auto.
  - inversion P; subst; [apply Y|]. simpl in *. inversion N; subst. apply IHc; auto. split; auto. intros o1 O D.
    unfold upd. destruct (Nat.eqb_spec o1 o); [subst; tauto|]. apply U; auto.
  - inversion P; subst; [apply Y|]. simpl in *. inversion N; subst. apply IHc; auto. split; auto. intros o1 O D.
    unfold upd. destruct (Nat.eqb_spec o1 o); [subst; tauto|]. apply U; auto.
Qed.
End Complete.
Theorem own_complete : forall w c ow o a r, new_components c ow -> part (CAtom o a) c -> ~ is_threshold a -> dependencies a = w :: r ->
  In (OwnDependency o w) (owner_warnings w c ow).
Proof.
  intros w c ow o a r NC P NT D. apply (owner_warnings_complete w (CAtom o a)); auto. intros own. simpl. unfold own_warnings.
  replace (mem w (first_dependency a)) with true; [simpl; auto|]. symmetry. apply mem_In.
  destruct a; simpl in *; try discriminate; try (rewrite D; simpl; auto); try (inversion D; subst; simpl; auto).
  exfalso. apply NT. unfold is_threshold. do 7 eexists. reflexivity.
Qed.

(** ** condition sets *)
Theorem replacing_iff : forall ow0 ks cs ow w a, distinct_objects ks -> set_performs ks (cs_empty, ow0) = Some (cs, ow) ->
  forall w' old new, In (Replacing w' old new) (add_warnings w a cs ow) <-> w' = w /\ a = Basic new /\ registered_basic ks w = Some old.
Proof.
  intros ow0 ks cs ow w a D P w' old new. destruct (condset_refines _ _ _ _ D P) as (A & _). rewrite <- A. clear A.
  unfold add_warnings. destruct a as [c|s]; [|simpl; split; [tauto|intros (_ & X & _); discriminate]].
  split.
  - intros X. apply in_app_or in X. destruct X as [X|X].
    + apply owner_warnings_In in X. destruct X as (o & b & X & _). discriminate.
    + destruct (aget w (cs_basic cs)) as [old'|]; [|destruct X]. destruct X as [X|[]]. inversion X; subst. auto.
  - intros (-> & X & ->). inversion X; subst. apply in_or_app. right. simpl; auto.
Qed.
Lemma add_list_calls : forall w l cs ow, 
  add_list_warnings w l cs ow = calls_warnings (map (SAdd w) l) (cs, ow) /\
  set_performs (map (SAdd w) l) (cs, ow) = match cs_add_list w l cs ow with (Ok _, cs', ow') => Some (cs', ow') | _ => None end.
Proof.
  intros w l. induction l as [|a l IH]; intros cs ow; simpl; auto.
  destruct (cs_add w a cs ow) as [[cs1 ow1]|ex]; auto. destruct (IH cs1 ow1) as [A B]. rewrite A, B. auto.
Qed.
Lemma calls_warnings_app : forall a b x, calls_warnings (a ++ b) x = calls_warnings a x ++ match set_performs a x with Some y => calls_warnings b y | None => [] end.
Proof.
  induction a as [|k a IH]; intros b x; cbn [app calls_warnings set_performs]; [reflexivity|].
  destruct (set_perform k x); [rewrite IH, app_assoc; reflexivity|]. rewrite !app_nil_r; reflexivity.
Qed.
Theorem set_is_calls : forall s cs ow, call_warnings (SAddSet s) (cs, ow) =
  calls_warnings (map (fun p => SAdd (fst p) (snd p)) (adds (SAddSet s))) (cs, ow).
Proof.
  intros s. cbn [call_warnings adds fst snd]. induction s as [|[w c] r IH]; intros cs ow; simpl; auto.
  rewrite map_app, map_map. cbn [fst snd]. destruct (add_list_calls w (entry_list c) cs ow) as [A B].
  rewrite calls_warnings_app, A. f_equal. change (map (fun x => SAdd w x) (entry_list c)) with (map (SAdd w) (entry_list c)). rewrite B.
  destruct (cs_add_list w (entry_list c) cs ow) as [[[u|e] cs1] ow1]; auto.
Qed.
Lemma has_oid_In : forall o l, has_oid o l = true <-> exists s, In s l /\ sc_oid s = o.
Proof.
  intros o l. unfold has_oid. rewrite existsb_exists. split; intros (s & A & B); exists s; split; auto; apply Nat.eqb_eq; auto.
Qed.
Lemma owned_In : forall w L s, In s (owned w L) <-> In (w, s) L.
Proof.
  intros w L s. unfold owned. rewrite in_map_iff. split.
  - intros ([w' s'] & <- & X). apply filter_In in X. destruct X as [X Y]. simpl in *. apply Nat.eqb_eq in Y. subst; auto.
  - intros X. exists (w, s). split; auto. apply filter_In. split; auto. simpl. apply Nat.eqb_refl.
Qed.
Lemma remove_struct_true : forall ow0 A B L cs ow w o, INV ow0 A B L cs ow ->
  (fst (cs_remove_struct w o cs) = true <-> exists s, In (w, s) L /\ sc_oid s = o).
Proof.
  intros ow0 A B L cs ow w o I. unfold cs_remove_struct. rewrite (i_struct _ _ _ _ _ _ I). unfold lookup_owned.
  destruct (owned w L) as [|x l] eqn:E.
  - simpl. split; [discriminate|]. intros (s & X & _). apply owned_In in X. rewrite E in X. destruct X.
  - destruct (has_oid o (x :: l)) eqn:H.
    + rewrite <- E in H. apply has_oid_In in H. destruct H as (s & X & Y). apply owned_In in X.
      replace (has_oid o (cs_order cs)) with true; [simpl; split; eauto|]. symmetry. apply has_oid_In. exists s. split; auto.
      rewrite (i_order _ _ _ _ _ _ I). apply in_map_iff. exists (w, s); auto.
    + simpl. split; [discriminate|]. intros (s & X & Y). apply owned_In in X. rewrite E in X.
      assert (has_oid o (x :: l) = true) by (apply has_oid_In; eauto). congruence.
Qed.
Lemma filter_same : forall A (f : A -> bool) l, filter f l = l <-> forall x, In x l -> f x = true.
Proof.
  intros A f l. split.
  - intros E x X. rewrite <- E in X. apply filter_In in X. tauto.
  - induction l as [|a l IH]; simpl; intros H; auto. rewrite (H a) by auto. f_equal; auto.
Qed.
Lemma registered_snoc : forall ks k, (forall w, registered_basic (ks ++ [k]) w = reg_basic (registered_basic ks) k w) /\
  registered_struct (ks ++ [k]) = reg_struct (registered_struct ks) k.
Proof. intros ks k. unfold registered_basic, registered_struct. rewrite !fold_left_app. auto. Qed.
Lemma distinct_prefix : forall ks l, distinct_objects (ks ++ l) -> distinct_objects ks.
Proof.
  intros ks l [A B]. rewrite flat_map_app in *. rewrite objects_app in A. apply NoDup_app_inv in A. split; [tauto|].
  intros a w b X Y. apply (B a w b); apply in_or_app; auto.
Qed.
Theorem removal_iff : forall ow0 ks cs ow a y, distinct_objects (ks ++ [SRemove a]) -> set_performs ks (cs_empty, ow0) = Some (cs, ow) ->
  set_perform (SRemove a) (cs, ow) = Some y ->
  (changes_nothing ks (SRemove a) /\ exists w, call_warnings (SRemove a) (cs, ow) = [NotFound (Some a) w]) \/
  (~ changes_nothing ks (SRemove a) /\ call_warnings (SRemove a) (cs, ow) = []).
Proof.
  intros ow0 ks cs ow a y D P R. pose proof (distinct_prefix _ _ D) as D1.
  pose proof (inv_calls ow0 ks [] (fun _ => None) [] cs_empty ow0 cs ow (inv_empty ow0) (proj1 D1) (proj2 D1) P) as I.
  fold (registered_basic ks) in I. fold (registered_struct ks) in I. simpl app in I.
  assert (SAME : forall w b, In (w, b) (flat_map adds ks) -> any_oid a = any_oid b -> a = b).
  { intros w b X. apply (proj2 D a w b); [apply in_or_app; right; simpl; auto|]. rewrite flat_map_app. apply in_or_app; auto. }
  unfold changes_nothing. destruct (registered_snoc ks (SRemove a)) as [RB RS]. rewrite RS.
  set (B := registered_basic ks) in *. set (L := registered_struct ks) in *.
  cbn [call_warnings fst snd]. unfold remove_warnings. cbn [set_perform] in R. unfold cs_remove_cond in R.
  destruct (ow (any_oid a)) as [w|] eqn:OW; [|discriminate]. clear R.
  assert (TB : (match aget w (cs_basic cs) with Some c => Nat.eqb (cond_oid c) (any_oid a) | None => false end) = true <-> exists c, B w = Some c /\ cond_oid c = any_oid a).
  { rewrite (i_basic _ _ _ _ _ _ I). destruct (B w) as [c|]; [rewrite Nat.eqb_eq|]; split; try discriminate.
    - eauto. - intros (c' & X & Y). inversion X; subst; auto. - intros (c' & X & _). discriminate. }
  destruct (match aget w (cs_basic cs) with Some c => Nat.eqb (cond_oid c) (any_oid a) | None => false end).
  - destruct (proj1 TB eq_refl) as (c & Bw & O). right. split; auto. intros [X _]. specialize (X w). rewrite RB, Bw in X.
    pose proof (i_inB _ _ _ _ _ _ I _ _ Bw) as IA. specialize (SAME _ _ IA (eq_sym O)). subst a.
    simpl in X. rewrite Bw, Nat.eqb_refl in X. discriminate.
  - assert (NB : forall w' c, B w' = Some c -> cond_oid c <> any_oid a).
    { intros w' c Bw O. destruct (i_ownB _ _ _ _ _ _ I _ _ Bw) as [Q _]. rewrite O, OW in Q. inversion Q; subst w'.
      assert (false = true) by (apply TB; eauto). discriminate. }
    pose proof (remove_struct_true _ _ _ _ _ _ w (any_oid a) I) as TS. destruct (fst (cs_remove_struct w (any_oid a) cs)).
    + destruct (proj1 TS eq_refl) as (s & IL & O). right. split; auto. intros [_ X].
      pose proof (i_inL _ _ _ _ _ _ I _ _ IL) as IA. specialize (SAME _ _ IA (eq_sym O)). subst a. simpl in X.
      rewrite filter_same in X. specialize (X _ IL). simpl in X. rewrite Nat.eqb_refl in X. discriminate.
    + assert (NL : forall w' s, In (w', s) L -> sc_oid s <> any_oid a).
      { intros w' s IL O. pose proof (i_ownL _ _ _ _ _ _ I _ _ IL) as Q. rewrite O, OW in Q. inversion Q; subst w'.
        assert (false = true) by (apply TS; eauto). discriminate. }
      left. split; [|eauto]. split.
      * intros w'. rewrite RB. destruct a as [c|s]; simpl; auto. destruct (B w') as [c'|] eqn:Bw; auto.
        destruct (Nat.eqb_spec (cond_oid c') (cond_oid c)); auto. exfalso. eapply NB; eauto.
      * destruct a as [c|s]; simpl; [apply app_nil_r|]. apply filter_same. intros [w' s'] X. simpl.
        destruct (Nat.eqb_spec (sc_oid s') (sc_oid s)); auto. exfalso. eapply NL; eauto.
Qed.
Theorem removal_owner_iff : forall ow0 ks cs ow w y, distinct_objects ks -> set_performs ks (cs_empty, ow0) = Some (cs, ow) ->
  set_perform (SRemoveOwner w) (cs, ow) = Some y ->
  (changes_nothing ks (SRemoveOwner w) /\ call_warnings (SRemoveOwner w) (cs, ow) = [NotFound None w]) \/
  (~ changes_nothing ks (SRemoveOwner w) /\ call_warnings (SRemoveOwner w) (cs, ow) = []).
Proof.
  intros ow0 ks cs ow w y D P R. destruct (condset_refines _ _ _ _ D P) as (A & _ & C & _).
  unfold changes_nothing. destruct (registered_snoc ks (SRemoveOwner w)) as [RB RS]. rewrite RS. cbn [reg_struct adds structs flat_map].
  rewrite app_nil_r. cbn [call_warnings fst snd]. unfold remove_owner_warnings. cbn [set_perform] in R. unfold cs_remove_owner in R.
  specialize (A w) as Aw. specialize (C w) as Cw. rewrite Aw, Cw in *.
  destruct (registered_basic ks w) as [c|] eqn:Bw; destruct (owned w (registered_struct ks)) as [|s [|s2 rest]]; try discriminate.
  - right. split; auto. intros [X _]. specialize (X w). rewrite RB, Bw in X. simpl in X. unfold upd in X. rewrite Nat.eqb_refl in X. discriminate.
  - left. split; auto. split; auto. intros w'. rewrite RB. simpl. unfold upd. destruct (Nat.eqb_spec w' w); subst; auto.
  - destruct (cs_remove_struct w (sc_oid s) cs); discriminate.
Qed.

(** ** graph structure conditions *)
Theorem no_edge_iff : forall cyc w n g g', wf_graph g -> closed_graph g -> modify_graph cyc (Some w) (GRemoveEdgeFrom n) g = Ok g' ->
  (same_edges g g' /\ ~ edge g n w /\ modify_warnings (Some w) (GRemoveEdgeFrom n) g = [NoEdge n w]) \/
  (~ same_edges g g' /\ edge g n w /\ modify_warnings (Some w) (GRemoveEdgeFrom n) g = []).
Proof.
  intros cyc w n g g' W C E.
  assert (BI : builtin (GRemoveEdgeFrom n)) by (intros f X; discriminate).
  destruct (modify_ok_keys _ _ _ _ _ BI E) as [Hw Hn]. assert (Kn : In n (gkeys g)) by (apply Hn; simpl; auto).
  destruct (remove_edge cyc w n g W C Hw Kn) as (g1 & E1 & _ & X). rewrite E in E1. inversion E1; subst g1; clear E1.
  assert (GK : gsc_graph_ok (GRemoveEdgeFrom n) w g = true) by (apply graph_ok_keys; auto).
  cbn [modify_warnings]. rewrite GK. assert (ME : mem n (senders g w) = true <-> edge g n w) by (rewrite mem_In; unfold senders, edge; destruct (aget w g); split; [eauto|intros (l0 & Y & Z); inversion Y; subst; auto|simpl; tauto|intros (l0 & Y & _); discriminate]).
  destruct (mem n (senders g w)).
  - right. assert (edge g n w) by (apply ME; auto). split; auto. intros S. apply S in H. apply X in H. tauto.
  - left. assert (~ edge g n w) by (intros Y; apply ME in Y; discriminate). split; auto. intros a b. rewrite X. intuition (subst; auto).
Qed.

Lemma edge_senders : forall g a b, In a (senders g b) <-> edge g a b.
Proof.
  intros g a b. unfold senders, edge. destruct (aget b g); split; [eauto|intros (l0 & Y & Z); inversion Y; subst; auto|simpl; tauto|intros (l0 & Y & _); discriminate].
Qed.
Lemma already_In : forall p w g n, In n (already_valid p w g) <-> In n (p_nodes p) /\ in_place p w g n.
Proof.
  intros p w g n. unfold already_valid, in_place. rewrite filter_In. destruct (p_kind p).
  - intuition discriminate.
  - rewrite mem_In, edge_senders. tauto.
  - rewrite s_eqb_In. split; intros [A B]; split; auto; intros x; [rewrite <- !edge_senders|rewrite !edge_senders]; auto.
  - rewrite mem_In, edge_senders. tauto.
Qed.
Lemma filter_length_all : forall A (f : A -> bool) l, Nat.eqb (List.length (filter f l)) (List.length l) = true <-> forall x, In x l -> f x = true.
Proof.
  intros A f l. rewrite Nat.eqb_eq. split.
  - intros E. apply filter_same. induction l as [|a l IH]; simpl in *; auto.
    assert (FL : List.length (filter f l) <= List.length l) by (clear; induction l as [|b l IH]; simpl; [lia|destruct (f b); simpl; lia]). destruct (f a); simpl in E; [f_equal; auto|]. exfalso. lia.
  - intros H. apply filter_same in H. rewrite H. auto.
Qed.
Theorem already_iff : forall cyc p w g g', moving p -> wf_graph g -> closed_graph g -> ~ In w (p_nodes p) ->
  modify_graph cyc (Some w) (GOps p) g = Ok g' ->
  (modify_warnings (Some w) (GOps p) g = [] /\ (forall n, In n (p_nodes p) -> ~ in_place p w g n) /\ ~ same_edges g g') \/
  (exists l ignored, modify_warnings (Some w) (GOps p) g = [Already w l ignored] /\ l <> [] /\
     (forall n, In n l <-> In n (p_nodes p) /\ in_place p w g n) /\
     (ignored = true <-> forall n, In n (p_nodes p) -> in_place p w g n) /\
     (ignored = true <-> same_edges g g')).
Proof.
  intros cyc p w g g' [NE K] W C WS E. destruct (modify_ok_keys _ _ _ _ _ (ops_builtin p) E) as [Hw HS]. simpl in HS.
  assert (KP : p_kind p <> KPlain).
  { destruct K as [[[K|K] _]|(n & K)]; try congruence. apply with_inv in K. inversion K; subst p. discriminate. }
  assert (GK : gsc_graph_ok (GOps p) w g = true) by (apply graph_ok_keys; [intros f X; discriminate|split; auto]).
  cbn [modify_warnings]. rewrite GK.
  assert (AI : forall n, In n (p_nodes p) -> (In n (already_valid p w g) <-> in_place p w g n)) by (intros n N; rewrite already_In; tauto).
  assert (LEN : Nat.eqb (List.length (already_valid p w g)) (List.length (p_nodes p)) = true <-> forall n, In n (p_nodes p) -> in_place p w g n).
  { unfold already_valid at 1. rewrite filter_length_all. split; intros H n N; specialize (H n N).
    - apply AI; auto. apply filter_In; auto.
    - apply AI in H; auto. apply filter_In in H. tauto. }
  assert (SE : same_edges g g' <-> forall n, In n (p_nodes p) -> in_place p w g n).
  { assert (ANY : no_alias p -> ((forall n, In n (p_nodes p) -> in_place p w g n) -> same_edges g g')).
    { intros NA AV. destruct (modify_value cyc p w g W C Hw HS WS NA) as (gp & _ & [(_ & g1 & E1 & X)|[(NV & _)|(NV & _)]]).
      - rewrite E in E1. inversion E1; subst. exact X.
      - exfalso. apply NV. split; auto.
      - exfalso. apply NV. split; auto. }
    destruct K as [[[K|K] NA]|(n & K)].
    - split; [|auto]. intros S n N. unfold in_place. rewrite K. apply S. eapply before_edges; eauto.
    - split; [|auto]. intros S n N. unfold in_place. rewrite K. apply S. eapply after_edges; eauto.
    - apply with_inv in K. inversion K; subst p; clear K. simpl in *. assert (D : w <> n) by intuition. assert (Kn : In n (gkeys g)) by (apply HS; simpl; auto).
      destruct (with_default w n g W C D cyc Hw Kn) as [V NV]. split.
      + intros S m [<-|[]]. unfold in_place. simpl. intros x.
        assert (DEC : (forall x, edge g x n <-> edge g x w) \/ ~ (forall x, edge g x n <-> edge g x w)).
        { destruct (s_eqb (senders g n) (senders g w)) eqn:Q; [left|right].
          - intros z. rewrite <- !edge_senders. apply s_eqb_In. auto.
          - intros H. assert (s_eqb (senders g n) (senders g w) = true) by (apply s_eqb_In; intros z; rewrite !edge_senders; auto). congruence. }
        destruct DEC as [Y|Y]; auto. destruct (NV Y) as [_ NV']. destruct (NV' g' E) as (_ & _ & Z & _).
        specialize (Z x). rewrite (S x w), (S x n) in Z. tauto.
      + intros H. destruct (V (H n (or_introl eq_refl))) as (g1 & E1 & X). rewrite E in E1. inversion E1; subst. exact X. }
  destruct (already_valid p w g) as [|m l] eqn:AV.
  - left. split; auto. assert (NP : forall n, In n (p_nodes p) -> ~ in_place p w g n) by (intros n N X; apply (AI n N) in X; destruct X).
    split; auto. intros S. destruct (p_nodes p) as [|n0 r] eqn:EN; [tauto|]. apply (NP n0); simpl; auto. apply SE; simpl; auto.
  - right. exists (m :: l). eexists. split; [reflexivity|]. split; [discriminate|]. split.
    + intros n. rewrite <- AV. apply already_In.
    + split; [exact LEN|]. rewrite SE. exact LEN.
Qed.

(** ** schedulers *)
Lemma modify_not_cycle : forall o s g x w, ~ In (CreatesCycle x w) (modify_warnings o s g) /\ ~ In BaseCycle (modify_warnings o s g).
Proof.
  intros o s g x w. destruct o as [v|]; simpl; [|tauto]. destruct (gsc_graph_ok s v g); simpl; [|tauto].
  destruct s; simpl; try tauto.
  - destruct (already_valid p v g); simpl; [tauto|]. split; intros [X|[]]; discriminate.
  - destruct (mem n (senders g v)); simpl; [tauto|]. split; intros [X|[]]; discriminate.
Qed.
Lemma toposort_cases : forall g, wf_graph g -> match toposort g with TopoOk _ => ~ cyclic g | TopoCycle => cyclic g | TopoOutOfFuel => False end.
Proof.
  intros g W. destruct (toposort g) eqn:E.
  - apply toposort_ok_iff; eauto.
  - apply toposort_cycle_iff; auto.
  - eapply toposort_total; eauto.
Qed.
Lemma last_of_snoc : forall A (l : list A) x, last_of (l ++ [x]) = Some x.
Proof. intros A l x. unfold last_of. rewrite rev_app_distr. reflexivity. Qed.
Lemma add_struct_warnings : forall cyc w s d g q st, d_last d = Some (cs_order (d_cs d)) -> d_stack d = (g, q) :: st ->
  gsc_owner_ok (sc_gsc s) w = true ->
  sched_add_warnings cyc w (Struct s) d = modify_warnings (Some w) (sc_gsc s) g ++
    match modify_graph cyc (Some w) (sc_gsc s) g with
    | Err _ => []
    | Ok g2 => match toposort g2 with TopoOk _ => [] | _ => [CreatesCycle s (Some w)] end
    end.
Proof.
  intros cyc w s d g q st DL DS GO. unfold sched_add_warnings, cs_add. rewrite GO. cbn [add_warnings app].
  match goal with |- sync_warnings _ (set_cs _ ?cs ?ow) = _ => set (cs1 := cs); set (ow1 := ow) end.
  assert (OW : ow1 (sc_oid s) = Some w) by (unfold ow1, upd; rewrite Nat.eqb_refl; auto).
  unfold sync_warnings. change (cs_order (d_cs (set_cs d cs1 ow1))) with (cs_order (d_cs d) ++ [s]).
  change (d_last (set_cs d cs1 ow1)) with (d_last d). change (d_stack (set_cs d cs1 ow1)) with (d_stack d).
  change (d_owners (set_cs d cs1 ow1)) with ow1. rewrite DL, DS.
  assert (NS : same_order (cs_order (d_cs d)) (cs_order (d_cs d) ++ [s]) = false).
  { unfold same_order. destruct (list_eq_dec _ _ _) as [X|]; auto. apply (f_equal (@List.length _)) in X. rewrite !map_length, app_length in X. simpl in X. lia. }
  rewrite NS. cbv zeta. rewrite common_prefix_self, Nat.sub_diag. cbn [pop_graphs].
  rewrite skipn_app, skipn_all, Nat.sub_diag. cbn [app skipn push_conds_warnings]. rewrite OW. f_equal.
  destruct (modify_graph cyc (Some w) (sc_gsc s) g) as [g2|]; auto. rewrite app_nil_r. unfold push_warnings.
  rewrite last_of_snoc, OW. reflexivity.
Qed.
Theorem cycle_iff : forall cyc arr is_s nx input base conds tc deid exact du ow w0 r d0 ks d g d' n s g2,
  arg_graph input = Ok base -> new_sched cyc arr input conds tc deid exact du ow nx w0 = (Ok r, d0) -> performs cyc arr ks d0 = Some d ->
  well_kinded is_s nx (SAddSet conds :: set_calls ks) -> added_once (SAddSet conds :: set_calls ks) ->
  get_graph cyc arr d = (Ok g, d') -> gsc_owner_ok (sc_gsc s) n = true -> modify_graph cyc (Some n) (sc_gsc s) g = Ok g2 -> wf_graph g2 ->
  (In (CreatesCycle s (Some n)) (sched_add_warnings cyc n (Struct s) d') <-> cyclic g2) /\
  (forall s' w', In (CreatesCycle s' w') (sched_add_warnings cyc n (Struct s) d') -> s' = s /\ w' = Some n) /\
  ~ In BaseCycle (sched_add_warnings cyc n (Struct s) d').
Proof.
  intros cyc arr is_s nx input base conds tc deid exact du ow w0 r d0 ks d g d' n s g2 AG N P WK AO G GO M W2.
  pose proof (sinv_history _ _ _ _ _ _ _ _ _ _ _ _ _ _ _ _ _ AG N P WK AO) as I.
  unfold get_graph in G. destruct (sync cyc arr d) as [[r'|] d1] eqn:S; [|discriminate]. inversion G; subst; clear G.
  destruct (sync_inv _ _ _ _ _ _ _ _ _ _ I S) as (I1 & (SL & ST) & Q). destruct (stack_top _ _ _ _ _ ST) as (g1 & st & E & A).
  assert (TG : top_graph d' = g1) by (unfold top_graph; rewrite E; auto). rewrite TG in M. rewrite <- (si_order _ _ _ _ _ _ _ _ I1) in SL.
  rewrite (add_struct_warnings cyc n s d' g1 _ st SL E GO). rewrite M.
  pose proof (toposort_cases g2 W2) as T. pose proof (modify_not_cycle (Some n) (sc_gsc s) g1) as NC.
  destruct (toposort g2) as [q| |] eqn:TQ; [| |tauto]; (split; [|split]).
  - rewrite in_app_iff. split; [intros [X|[]]; apply NC in X; tauto|tauto].
  - intros s' w' X. apply in_app_or in X. destruct X as [X|[]]. apply NC in X; tauto.
  - intros X. apply in_app_or in X. destruct X as [X|[]]. apply (NC s None) in X; tauto.
  - rewrite in_app_iff. split; [auto|simpl; auto].
  - intros s' w' X. apply in_app_or in X. destruct X as [X|[X|[]]]; [apply NC in X; tauto|inversion X; subst; auto].
  - intros X. apply in_app_or in X. destruct X as [X|[X|[]]]; [apply (NC s None) in X; tauto|discriminate].
Qed.
Theorem base_cycle_iff : forall cyc arr input base tc deid exact du ow nx w, arg_graph input = Ok base -> wf_graph base ->
  (cyclic base /\ new_sched_warnings cyc arr input [] tc deid exact du ow nx w = [BaseCycle]) \/
  (~ cyclic base /\ new_sched_warnings cyc arr input [] tc deid exact du ow nx w = []).
Proof.
  intros cyc arr input base tc deid exact du ow nx w AG W. unfold new_sched_warnings. rewrite AG.
  assert (Z : sched_add_set_warnings cyc [] (snd (new_sched cyc arr input [] tc deid exact du ow nx w)) = []).
  { unfold new_sched. rewrite AG. reflexivity. }
  rewrite Z, app_nil_r. unfold push_warnings. pose proof (toposort_cases base W) as T.
  destruct (toposort base); [right|left|]; tauto || (split; auto).
Qed.

(** ** the beginning of a run *)
Lemma push_no_effect : forall cyc order ow, (forall cs g, ~ In NoEffect (push_conds_warnings cyc order cs ow g)).
Proof.
  intros cyc order ow. induction cs as [|c cs IH]; intros g; simpl; auto. intros X. apply in_app_or in X. destruct X as [X|X].
  - destruct (ow (sc_oid c)) as [v|]; simpl in X; [|tauto]. destruct (gsc_graph_ok (sc_gsc c) v g); [|destruct X]. destruct (sc_gsc c); try (destruct X; fail).
    + destruct (already_valid p v g); [destruct X|]. destruct X as [X|[]]; discriminate.
    + destruct (mem n (senders g v)); [destruct X|]. destruct X as [X|[]]; discriminate.
  - destruct (modify_graph cyc (ow (sc_oid c)) (sc_gsc c) g) as [g2|]; [|destruct X]. apply in_app_or in X. destruct X as [X|X]; [|eapply IH; eauto].
    unfold push_warnings in X. destruct (toposort g2); [destruct X| |]; destruct (last_of order); destruct X as [X|[]]; discriminate.
Qed.
Lemma sync_no_effect : forall cyc d, ~ In NoEffect (sync_warnings cyc d).
Proof.
  intros cyc d. unfold sync_warnings. destruct (match d_last d with Some _ => _ | None => _ end); [auto|].
  cbv zeta. destruct (pop_graphs _ _) as [[u|e] [|[g q] st]]; auto. apply push_no_effect.
Qed.
Lemma defaults_warnings_In : forall ns m x, In x (defaults_warnings ns m) -> exists o n, x = OwnDependency o n.
Proof.
  induction ns as [|n ns IH]; intros m x X; simpl in X; [tauto|]. destruct (ahas n (m_basic m)); [eauto|].
  destruct (aget n (m_graph m)) as [deps|]; [|destruct X]. destruct (default_cond (m_next m) deps) as [c nx].
  apply in_app_or in X. destruct X as [X|X]; [|eauto]. apply owner_warnings_In in X. destruct X as (o & a & -> & _). eauto.
Qed.
Theorem no_effect_iff : forall cyc arr d d' q m, sync cyc arr d = (Ok tt, d') -> toposort (top_graph d') = TopoOk q ->
  add_defaults (d_nodes d') (core_of d') = Ok m ->
  (In NoEffect (run_warnings cyc arr d) <-> d_exact d = true /\ cs_struct (d_cs d) <> []).
Proof.
  intros cyc arr d d' q m S T A. unfold run_warnings. rewrite S, T, A.
  destruct (sync_set_stack _ _ _ _ _ S) as (st & l & ->). cbn [d_exact d_cs set_stack].
  rewrite !in_app_iff. split.
  - intros [X|[X|X]]; [apply sync_no_effect in X; tauto|apply defaults_warnings_In in X; destruct X as (? & ? & X); discriminate|].
    destruct (d_exact d); simpl in X; [|tauto]. destruct (cs_struct (d_cs d)); [destruct X|split; auto; discriminate].
  - intros [-> NE]. right; right. destruct (cs_struct (d_cs d)); [tauto|simpl; auto].
Qed.

(** default conditions of nodes that send to themselves *)
Lemma default_parts_In : forall ds k c, In c (default_parts k ds) -> exists o d, c = EveryNCalls o d 1 /\ In d ds /\ k <= o.
Proof.
  induction ds as [|d ds IH]; intros k c X; simpl in X; [tauto|]. destruct X as [<-|X]; [exists k, d; simpl; auto|].
  destruct (IH _ _ X) as (o & e & A & B & C). exists o, e. simpl. split; auto. split; auto. lia.
Qed.
Lemma default_parts_oids : forall ds k, flat_map oids (default_parts k ds) = seq k (List.length ds).
Proof. induction ds as [|d ds IH]; intros k; simpl; auto. rewrite IH. auto. Qed.
Lemma default_parts_has : forall ds k d, In d ds -> exists o, In (EveryNCalls o d 1) (default_parts k ds).
Proof.
  induction ds as [|e ds IH]; intros k d X; simpl in X; [tauto|]. destruct X as [->|X]; [exists k; simpl; auto|].
  destruct (IH (S k) d X) as (o & Y). exists o. simpl; auto.
Qed.
Lemma default_warns : forall n k deps own, (forall o, k <= o -> own o = None) ->
  ((exists o, In (OwnDependency o n) (owner_warnings n (fst (default_cond k deps)) own)) <-> In n deps) /\
  forall o n', In (OwnDependency o n') (owner_warnings n (fst (default_cond k deps)) own) -> n' = n.
Proof.
  intros n k deps own F. split; [|intros o n' X; apply own_sound in X; tauto]. split.
  - intros (o & X). apply own_sound in X. destruct X as (_ & a & P & D). destruct deps as [|d [|d2 r]]; cbn [default_cond fst] in P.
    + inversion P; subst. simpl in D. destruct D.
    + inversion P; subst. simpl in D. simpl. tauto.
    + inversion P as [|? ? c I P'| | |]; subst. apply (default_parts_In (d :: d2 :: r) (S k)) in I. destruct I as (o1 & e & -> & IE & _). inversion P'; subst. simpl in D. destruct D as [<-|[]]. auto.
  - intros I. destruct deps as [|d [|d2 r]]; cbn [default_cond fst].
    + destruct I.
    + destruct I as [->|[]]. exists k. simpl. unfold own_warnings. simpl. rewrite Nat.eqb_refl. simpl. auto.
    + set (l := d :: d2 :: r) in *. destruct (default_parts_has l (S k) n I) as (o & H). exists o.
      apply (own_complete n _ _ o (AEveryNCalls n 1) []).
      * split.
        -- unfold All. cbn [oids]. rewrite default_parts_oids. change (k :: seq (S k) (List.length l)) with (seq k (S (List.length l))). apply seq_NoDup.
        -- unfold All. cbn [oids]. rewrite default_parts_oids. intros x X _. apply F. change (k :: seq (S k) (List.length l)) with (seq k (S (List.length l))) in X. apply in_seq in X. lia.
      * unfold All. eapply part_all; [exact H|constructor].
      * intros (? & ? & ? & ? & ? & ? & ? & X). discriminate.
      * reflexivity.
Qed.
Theorem self_sender_iff : forall ns m m', fresh_ids m -> add_defaults ns m = Ok m' -> forall n,
  (exists o, In (OwnDependency o n) (defaults_warnings ns m)) <-> In n ns /\ aget n (m_basic m) = None /\ exists deps, aget n (m_graph m) = Some deps /\ In n deps.
Proof.
  induction ns as [|b ns IH]; intros m m' F E n; simpl in *; [split; [intros (o & [])|tauto]|].
  unfold ahas in *. destruct (aget b (m_basic m)) as [c|] eqn:Ab; simpl in *.
  - rewrite (IH _ _ F E n). split; [tauto|]. intros ([<-|X] & Y & Z); [congruence|tauto].
  - destruct (aget b (m_graph m)) as [deps|] eqn:Ag; [|discriminate].
    destruct (default_warns b (m_next m) deps (m_owners m) F) as [DW1 DW2].
    destruct (set_owner_default b deps (m_next m) (m_owners m) F) as (S1 & S2 & S3).
    destruct (default_cond (m_next m) deps) as [c nx] eqn:DC. cbn [fst snd] in *.
    assert (F' : fresh_ids (set_basic m (aset b c (m_basic m)) (set_owner (Some b) c (m_owners m)) nx)).
    { intros o L. simpl in *. rewrite S3 by auto. apply F. lia. }
    specialize (IH _ _ F' E n). cbn [m_basic m_graph set_basic] in IH.
    split.
    + intros (o & X). apply in_app_or in X. destruct X as [X|X].
      * assert (n = b) by eauto. subst n. split; auto. split; auto. exists deps. split; auto. apply DW1; eauto.
      * destruct (proj1 IH) as (A & B & C); [exists o; exact X|]. split; auto. split; auto.
        destruct (Nat.eq_dec n b) as [->|D]; [auto|]. rewrite aget_aset_other in B; auto.
    + intros (A & B & C). destruct (Nat.eq_dec n b) as [->|D].
      * destruct C as (deps' & C1 & C2). rewrite Ag in C1. inversion C1; subst deps'. destruct (proj2 DW1 C2) as (o & X). exists o. apply in_or_app; auto.
      * destruct A as [A|A]; [congruence|]. destruct (proj2 IH) as (o & X); [|exists o; apply in_or_app; auto].
        split; auto. split; auto. rewrite aget_aset_other; auto.
Qed.

(** ** tolerances *)
Theorem tolerances_iff : forall o w d par t s ia atol rtol get val c, new_threshold o w d par t s ia atol rtol get val = Ok c ->
  (threshold_warnings w d par s atol rtol val = [TolerancesIgnored] /\ (~ (atol == 0)%Q \/ ~ (rtol == 0)%Q) /\ ~ operator_string s Eq /\ ~ operator_string s Ne) \/
  (threshold_warnings w d par s atol rtol val = [] /\ (((atol == 0)%Q /\ (rtol == 0)%Q) \/ operator_string s Eq \/ operator_string s Ne)).
Proof.
  intros o w d par t s ia atol rtol get val c E. unfold new_threshold in E. unfold threshold_warnings.
  destruct (validate_parameter w d par val); [discriminate|]. destruct (sget s comparison_operators) as [k|] eqn:K; [|discriminate]. clear E.
  assert (Z : (negb (Qeq_bool atol 0) || negb (Qeq_bool rtol 0)) = true -> ~ (atol == 0)%Q \/ ~ (rtol == 0)%Q).
  { intros H. apply orb_true_iff in H. destruct H as [H|H]; apply negb_true_iff in H; apply Qeq_bool_neq in H; auto. }
  assert (Z' : (negb (Qeq_bool atol 0) || negb (Qeq_bool rtol 0)) = false -> (atol == 0)%Q /\ (rtol == 0)%Q).
  { intros H. apply orb_false_iff in H. destruct H as [H1 H2]. apply negb_false_iff in H1, H2. apply Qeq_bool_eq in H1, H2. auto. }
  destruct (negb (Qeq_bool atol 0) || negb (Qeq_bool rtol 0)); [|right; split; auto].
  cbn [andb]. destruct (existsb (String.eqb s) ["<"; "<="; ">"; ">="]%string) eqn:X.
  - left. split; auto. split; auto. apply existsb_exists in X. destruct X as (y & Y & Q). apply String.eqb_eq in Q. subst y.
    repeat (destruct Y as [<-|Y]; [split; intros O; inversion O|]). destruct Y.
  - right. split; auto. right. simpl in X, K. repeat (destruct (String.eqb s _) eqn:? in X; [discriminate|]).
    unfold comparison_operators in K. cbn [sget] in K.
    repeat match type of K with context [String.eqb ?a ?b] => destruct (String.eqb_spec a b); [subst; try discriminate; auto using os_eq, os_ne|] end. discriminate.
Qed.
Theorem tolerances_ignored : forall o w d par t s ia atol rtol get val c c0, new_threshold o w d par t s ia atol rtol get val = Ok c ->
  new_threshold o w d par t s ia 0 0 get val = Ok c0 ->
  threshold_warnings w d par s atol rtol val = [TolerancesIgnored] ->
  forall v e ow st, eval v e ow c st = eval v e ow c0 st.
Proof.
  intros o w d par t s ia atol rtol get val c c0 E E0 X v e ow st. destruct (tolerances_iff _ _ _ _ _ _ _ _ _ _ _ _ E) as [(_ & _ & N1 & N2)|(Y & _)]; [|congruence].
  unfold new_threshold in *. destruct (validate_parameter w d par val); [discriminate|]. destruct (sget s comparison_operators) as [k|] eqn:K; [|discriminate].
  assert (KK : k <> Eq /\ k <> Ne).
  { unfold comparison_operators in K. cbn [sget] in K.
    repeat match type of K with context [String.eqb ?a ?b] => destruct (String.eqb_spec a b); [subst; inversion K; subst; split; try discriminate; exfalso; (apply N1; constructor) || (apply N2; constructor)|] end. discriminate. }
  assert (TT : forall p, threshold_of t k (norm_indices ia) atol rtol p = threshold_of t k (norm_indices ia) 0 0 p).
  { intros p. unfold threshold_of. destruct KK. destruct (norm_indices ia) as [ix|]; [destruct (index_value p ix) as [[x|l]|]|destruct p]; simpl; auto; destruct k; tauto || auto. }
  destruct get as [f|]; inversion E; inversion E0; subst.
  - simpl. destruct (f d par e (s_world st)) as [r w']. destruct r; simpl; auto. rewrite TT. auto.
  - simpl. destruct (w_param (s_world st) d par); simpl; auto. rewrite TT. auto.
Qed.

(** ** the scheduler passes on the warnings of its condition set *)
Lemma modify_about : forall o s g x, In x (modify_warnings o s g) -> ~ about_set x.
Proof.
  intros o s g x I A. unfold modify_warnings in I. destruct o as [w|]; [|destruct I]. destruct (gsc_graph_ok s w g); [|destruct I].
  destruct s as [| |n|p]; try destruct I;
    repeat match type of I with In _ (if ?b then _ else _) => destruct b | In _ (match ?b with [] => _ | _ => _ end) => destruct b end;
    try (destruct I as [<-|[]]; exact A); destruct I.
Qed.
Lemma push_about : forall order ow g x, In x (push_warnings order ow g) -> ~ about_set x.
Proof.
  intros order ow g x I A. unfold push_warnings in I. destruct (toposort g); [destruct I| |];
  (destruct (last_of order); destruct I as [<-|[]]; exact A).
Qed.
Lemma push_conds_about : forall cyc order ow conds cur x, In x (push_conds_warnings cyc order conds ow cur) -> ~ about_set x.
Proof.
  intros cyc order ow. induction conds as [|c r IH]; intros cur x I; [destruct I|]. cbn [push_conds_warnings] in I.
  apply in_app_or in I. destruct I as [I|I]; [eapply modify_about; eauto|]. destruct (modify_graph cyc _ _ cur) as [g|]; [|destruct I].
  apply in_app_or in I. destruct I as [I|I]; [eapply push_about; eauto|eapply IH; eauto].
Qed.
Lemma sync_about : forall cyc d x, In x (sync_warnings cyc d) -> ~ about_set x.
Proof.
  intros cyc d x I. unfold sync_warnings in I.
  destruct (match d_last d with Some l => same_order l (cs_order (d_cs d)) | None => false end); [destruct I|].
  destruct (pop_graphs _ _) as [[u|e] [|[g q] st]]; try destruct I. eapply push_conds_about; eauto.
Qed.
Theorem scheduler_add : forall cyc w a d x, about_set x ->
  (In x (sched_add_warnings cyc w a d) <-> In x (call_warnings (SAdd w a) (d_cs d, d_owners d))).
Proof.
  intros cyc w a d x A. unfold sched_add_warnings. cbn [call_warnings fst snd]. split; [|intros; apply in_or_app; auto].
  intros I. apply in_app_or in I. destruct I as [I|I]; auto. destruct (cs_add w a _ _) as [[cs ow]|]; [|destruct I]. exfalso. eapply sync_about; eauto.
Qed.
Theorem scheduler_add_set : forall cyc s d x, about_set x ->
  (In x (sched_add_set_warnings cyc s d) <-> In x (call_warnings (SAddSet s) (d_cs d, d_owners d))).
Proof.
  intros cyc s d x A. unfold sched_add_set_warnings. cbn [call_warnings fst snd]. split; [|intros; apply in_or_app; auto].
  intros I. apply in_app_or in I. destruct I as [I|I]; auto. destruct (cs_add_set s _ _) as [[[u|] cs] ow]; [|destruct I]. exfalso. eapply sync_about; eauto.
Qed.
Theorem removal_raises : forall ow0 ks cs ow k, distinct_objects ks -> set_performs ks (cs_empty, ow0) = Some (cs, ow) ->
  (exists a, k = SRemove a) \/ (exists w, k = SRemoveOwner w) -> set_perform k (cs, ow) = None -> call_warnings k (cs, ow) = [].
Proof.
  intros ow0 ks cs ow k D P [[a ->]|[w ->]] R; cbn [set_perform call_warnings fst snd] in *.
  - unfold remove_warnings. unfold cs_remove_cond in R. destruct (ow (any_oid a)) as [w|]; auto.
    destruct (match aget w (cs_basic cs) with Some c => Nat.eqb (cond_oid c) (any_oid a) | None => false end); auto.
    destruct (cs_remove_struct w (any_oid a) cs) as [b cs']. simpl. destruct b; auto; discriminate.
  - unfold remove_owner_warnings. unfold cs_remove_owner in R. destruct (aget w (cs_basic cs)); auto. destruct (aget w (cs_struct cs)) as [[|s [|]]|]; auto; discriminate.
Qed.
