(** Graph structure conditions: the theorems behind the properties. *)
From Verif Require Import Base BaseFacts SpecGraph GraphFacts GSC SpecGSC HeapFacts GSCFacts GSCModify GSCProps.
Require Import Lia.

Lemma modify_ok_keys : forall cyc w s g g', builtin s -> modify_graph cyc (Some w) s g = Ok g' -> In w (gkeys g) /\ incl (gsc_nodes s) (gkeys g).
Proof.
  intros cyc w s g g' B E. unfold modify_graph in E. cbn [modify_graph_in] in E. rewrite unload_load in E.
  destruct (gsc_graph_ok s w g) eqn:G; [|discriminate]. apply graph_ok_keys; auto.
Qed.
Lemma ops_builtin : forall p, builtin (GOps p).
Proof. intros p f X; discriminate. Qed.

(** ** BeforeNodes, AfterNodes: the wanted edges, for all operations without aliasing *)
Theorem before_edges : forall cyc p w g g', p_kind p = KBefore -> no_alias p -> wf_graph g -> closed_graph g -> ~ In w (p_nodes p) ->
  modify_graph cyc (Some w) (GOps p) g = Ok g' -> forall n, In n (p_nodes p) -> edge g' w n.
Proof.
  intros cyc p w g g' KD NA W C WS E n N. destruct (modify_ok_keys _ _ _ _ _ (ops_builtin p) E) as [Hw HS].
  destruct (modify_value cyc p w g W C Hw HS WS NA) as (gp & PP & [(AV & g1 & E1 & X)|[(_ & E1 & _)|(_ & g1 & E1 & _ & _ & RQ & _)]]); rewrite E in E1; inversion E1; subst g1.
  - apply X. destruct AV as [_ AV]. specialize (AV n N). rewrite KD in AV. auto.
  - apply RQ.
    + split; [unfold E_class; rewrite KD; auto|]. intros (_ & -> & _). contradiction.
    + unfold required_edge. rewrite KD, Nat.eqb_refl. simpl. apply mem_In; auto.
Qed.
Theorem after_edges : forall cyc p w g g', p_kind p = KAfter -> no_alias p -> wf_graph g -> closed_graph g -> ~ In w (p_nodes p) ->
  modify_graph cyc (Some w) (GOps p) g = Ok g' -> forall n, In n (p_nodes p) -> edge g' n w.
Proof.
  intros cyc p w g g' KD NA W C WS E n N. destruct (modify_ok_keys _ _ _ _ _ (ops_builtin p) E) as [Hw HS].
  destruct (modify_value cyc p w g W C Hw HS WS NA) as (gp & PP & [(AV & g1 & E1 & X)|[(_ & E1 & _)|(_ & g1 & E1 & _ & _ & RQ & _)]]); rewrite E in E1; inversion E1; subst g1.
  - apply X. destruct AV as [_ AV]. specialize (AV n N). rewrite KD in AV. auto.
  - apply RQ.
    + split; [unfold E_class; rewrite KD; auto|]. intros (_ & -> & _). contradiction.
    + unfold required_edge. rewrite KD, Nat.eqb_refl, andb_true_r. apply mem_In; auto.
Qed.

Lemma before_inv : forall S s, before_nodes S = Ok s -> S <> [] /\ s = GOps (mkOp KBefore S MERGE KEEP (SOne KEEP) (SOne KEEP) true true true false).
Proof. intros [|n S] s E; unfold before_nodes, make_ops in E; simpl in E; inversion E; auto. split; auto; discriminate. Qed.
Lemma after_inv : forall S s, after_nodes S = Ok s -> S <> [] /\ s = GOps (mkOp KAfter S KEEP MERGE (SOne MERGE) (SOne KEEP) true true true false).
Proof. intros [|n S] s E; unfold after_nodes, make_ops in E; simpl in E; inversion E; auto. split; auto; discriminate. Qed.
Lemma with_inv : forall n s, with_node n = Ok s -> s = GOps (mkOp KWith [n] MERGE KEEP (SOne MERGE) (SOne KEEP) true true true false).
Proof. intros n s E; unfold with_node, make_ops in E; simpl in E; inversion E; auto. Qed.

(** ** BeforeNodes with the default operations *)
Section Before.
Variables (w : node) (S : list node) (g : graph).
Let p := mkOp KBefore S MERGE KEEP (SOne KEEP) (SOne KEEP) true true true false.
Hypothesis W : wf_graph g.
Hypothesis C : closed_graph g.
Hypothesis WS : ~ In w S.
Lemma before_no_alias : no_alias p.
Proof. split; simpl; [intros; discriminate|intros; discriminate]. Qed.
Lemma before_given : operations_given p.
Proof. intros n _; simpl; eauto. Qed.
Lemma before_conflicting : forall gp, prepared p w g gp -> (conflicting p w gp <-> exists n m, In n S /\ In m S /\ edge g n m).
Proof.
  intros gp PP. assert (D : p_kind p <> KPlain) by discriminate.
  assert (NW : forall n, In n S -> ~ edge gp n w /\ ~ edge gp w n) by (intros n N; rewrite !(PP _ _); simpl; tauto).
  assert (GE : forall n m, In n S -> In m S -> (edge gp n m <-> edge g n m)).
  { intros n m N M. rewrite (PP n m). simpl. split; [tauto|]. intros H; split; auto. intros _. split; intros [A B]; subst; contradiction. }
  split.
  - intros (a & b & A & B & Q). unfold prescribes_sender, prescribes_receiver in Q. simpl in Q. unfold acts in A, B; simpl in A, B.
    destruct A as [->|A]; destruct B as [->|B].
    + exfalso. destruct Q as [[[[_ [Q|(n & N & Q)]]|(Q & _)] P]|[P [[_ Q]|(Q & _)]]]; try contradiction.
      * apply P. left. auto.
      * apply NW in N. tauto.
      * apply P. left; auto.
    + exfalso. destruct Q as [[[[Q _]|(_ & o & Q & R)] P]|[P [[_ Q]|(Q & _)]]]; try (subst; contradiction).
      * inversion Q; subst o. simpl in R. apply NW in B. tauto.
      * apply NW in B. tauto.
    + destruct Q as [[[[_ [Q|(n & N & Q)]]|(Q & _)] P]|[P [[Q _]|(_ & o & Q & R)]]]; try (subst; contradiction).
      * apply NW in A. tauto.
      * exists a, n. split; auto. split; auto. apply GE; auto.
      * inversion Q; subst o; simpl in R. apply NW in A. tauto.
    + exfalso. destruct Q as [[[[Q _]|(_ & o & Q & R)] P]|[P [[Q _]|(_ & o & Q & R)]]]; try (subst; contradiction); inversion Q; subst o; simpl in R.
      * apply P. right. split; auto. exists KEEP; auto.
      * apply P. right. split; auto. exists KEEP; auto.
  - intros (n & m & N & M & E). exists n, w. split; [right; auto|]. split; [left; auto|]. left. split.
    + left. split; auto. simpl. right. exists m. split; auto. apply GE; auto.
    + intros [[-> _]|(_ & o & Q & R)]; [contradiction|]. inversion Q; subst o; simpl in R. apply NW in N. tauto.
Qed.
Theorem before_default : forall cyc, In w (gkeys g) -> incl S (gkeys g) -> S <> [] ->
  ((forall n, In n S -> edge g w n) -> exists g', modify_graph cyc (Some w) (GOps p) g = Ok g' /\ forall a b, edge g' a b <-> edge g a b) /\
  (~ (forall n, In n S -> edge g w n) ->
    (modify_graph cyc (Some w) (GOps p) g = Err ECondition <-> exists n m, In n S /\ In m S /\ edge g n m) /\
    (forall g', modify_graph cyc (Some w) (GOps p) g = Ok g' -> forall n, In n S -> edge g' w n /\ ~ edge g' n w)).
Proof.
  intros cyc Hw HS NE.
  assert (AVE : all_valid p w g <-> forall n, In n S -> edge g w n).
  { unfold all_valid; simpl. split; [tauto|]. intros H; split; auto; discriminate. }
  destruct (modify_value cyc p w g W C Hw HS WS before_no_alias) as (gp & PP & [(AV & g1 & E1 & X)|[(NV & E1 & CF)|(NV & g1 & E1 & _ & NC & RQ & FW & _)]]).
  - split; [intros _; eauto|]. intros H. exfalso; exact (H (proj1 AVE AV)).
  - split; [intros H; exfalso; exact (NV (proj2 AVE H))|]. intros _. rewrite E1. split; [|discriminate]. split; auto. intros _.
    destruct CF as [CF|[_ CF]]; [exfalso; apply CF, before_given|]. apply before_conflicting in CF; auto.
  - split; [intros H; exfalso; exact (NV (proj2 AVE H))|]. intros _. split.
    + rewrite E1. split; [discriminate|]. intros H. exfalso. apply (NC eq_refl). apply before_conflicting; auto.
    + intros g' E n N. rewrite E in E1. inversion E1; subst g1.
      assert (DW : w <> n) by (intros ->; contradiction).
      assert (RE : required_edge p w w n = true) by (unfold required_edge; simpl; rewrite Nat.eqb_refl; apply mem_In; auto).
      assert (ES : E_self p w g gp w n) by (split; [unfold E_class; simpl; auto|]; intros (_ & X & _); contradiction).
      split; [apply RQ; auto|]. intros H. apply FW in H. destruct H as [[H _]|(_ & _ & _ & _ & H)]; [|apply H; auto].
      unfold E_class in H. simpl in H. destruct H as [H|[H _]]; [|subst; contradiction].
      assert (An : acts p w n) by (right; auto).
      destruct H as [(_ & H)|[(H & _)|(H & _)]]; try contradiction.
      unfold prescribes_receiver in H. simpl in H. destruct H as [[H _]|(_ & o & Q & R)]; [subst; contradiction|]. inversion Q; subst o; simpl in R.
      apply PP in R. destruct R as [_ R]. simpl in R. apply R; [discriminate|]. auto.
Qed.
End Before.

(** ** AfterNodes with the default operations *)
Section After.
Variables (w : node) (S : list node) (g : graph).
Let p := mkOp KAfter S KEEP MERGE (SOne MERGE) (SOne KEEP) true true true false.
Hypothesis W : wf_graph g.
Hypothesis C : closed_graph g.
Hypothesis WS : ~ In w S.
Hypothesis NL : ~ edge g w w.
Lemma after_no_alias : no_alias p.
Proof. split; simpl; [intros; discriminate|intros _ n _; discriminate]. Qed.
Lemma after_given : operations_given p.
Proof. intros n _; simpl; eauto. Qed.
Lemma after_conflicting : forall gp, prepared p w g gp -> (conflicting p w gp <-> exists n m, In n S /\ In m S /\ edge g n m).
Proof.
  intros gp PP.
  assert (NW : forall n, In n S -> ~ edge gp n w /\ ~ edge gp w n) by (intros n N; rewrite !(PP _ _); simpl; intuition congruence).
  assert (NL' : ~ edge gp w w) by (rewrite (PP _ _); tauto).
  assert (GE : forall n m, In n S -> In m S -> (edge gp n m <-> edge g n m)).
  { intros n m N M. rewrite (PP n m). simpl. split; [tauto|]. intros H; split; auto. intros _. split; intros [A B]; subst; contradiction. }
  split.
  - intros (a & b & A & B & Q). unfold prescribes_sender, prescribes_receiver in Q. simpl in Q. unfold acts in A, B; simpl in A, B.
    destruct A as [->|A]; destruct B as [->|B].
    + exfalso. destruct Q as [[[[_ Q]|(Q & _)] P]|[P [[_ [Q|(n & N & Q)]]|(Q & _)]]]; try contradiction. apply NW in N. tauto.
    + destruct Q as [[[[Q _]|(_ & o & Q & R)] P]|[P [[_ [Q|(n & N & Q)]]|(Q & _)]]]; try (subst; contradiction).
      * exfalso. inversion Q; subst o. simpl in R. apply NW in B. tauto.
      * exfalso. apply NW in B. tauto.
      * exists n, b. split; auto. split; auto. apply GE; auto.
    + exfalso. destruct Q as [[[[_ Q]|(Q & _)] P]|[P [[Q _]|(_ & o & Q & R)]]]; try (subst; contradiction).
      * apply NW in A. tauto.
      * inversion Q; subst o; simpl in R. apply NW in A. tauto.
    + exfalso. destruct Q as [[[[Q _]|(_ & o & Q & R)] P]|[P [[Q _]|(_ & o & Q & R)]]]; try (subst; contradiction); inversion Q; subst o; simpl in R.
      * apply P. right. split; auto. exists KEEP. split; auto. simpl. destruct R; auto. apply NW in A. tauto.
      * apply P. right. split; auto. exists MERGE. split; auto. simpl; auto.
  - intros (n & m & N & M & E). exists w, m. split; [left; auto|]. split; [right; auto|]. right. split.
    + intros [[-> _]|(_ & o & Q & R)]; [contradiction|]. inversion Q; subst o; simpl in R. apply NW in M. tauto.
    + left. split; auto. simpl. right. exists n. split; auto. apply GE; auto.
Qed.
Theorem after_default : forall cyc, In w (gkeys g) -> incl S (gkeys g) -> S <> [] ->
  ((forall n, In n S -> edge g n w) -> exists g', modify_graph cyc (Some w) (GOps p) g = Ok g' /\ forall a b, edge g' a b <-> edge g a b) /\
  (~ (forall n, In n S -> edge g n w) ->
    (modify_graph cyc (Some w) (GOps p) g = Err ECondition <-> exists n m, In n S /\ In m S /\ edge g n m) /\
    (forall g', modify_graph cyc (Some w) (GOps p) g = Ok g' -> forall n, In n S -> edge g' n w /\ ~ edge g' w n)).
Proof.
  intros cyc Hw HS NE.
  assert (AVE : all_valid p w g <-> forall n, In n S -> edge g n w).
  { unfold all_valid; simpl. split; [tauto|]. intros H; split; auto; discriminate. }
  destruct (modify_value cyc p w g W C Hw HS WS after_no_alias) as (gp & PP & [(AV & g1 & E1 & X)|[(NV & E1 & CF)|(NV & g1 & E1 & _ & NC & RQ & FW & _)]]).
  - split; [intros _; eauto|]. intros H. exfalso; exact (H (proj1 AVE AV)).
  - split; [intros H; exfalso; exact (NV (proj2 AVE H))|]. intros _. rewrite E1. split; [|discriminate]. split; auto. intros _.
    destruct CF as [CF|[_ CF]]; [exfalso; apply CF, after_given|]. apply after_conflicting in CF; auto.
  - split; [intros H; exfalso; exact (NV (proj2 AVE H))|]. intros _. split.
    + rewrite E1. split; [discriminate|]. intros H. exfalso. apply (NC eq_refl). apply after_conflicting; auto.
    + intros g' E n N. rewrite E in E1. inversion E1; subst g1.
      assert (DW : w <> n) by (intros ->; contradiction).
      assert (RE : required_edge p w n w = true) by (unfold required_edge; simpl; rewrite Nat.eqb_refl, andb_true_r; apply mem_In; auto).
      assert (ES : E_self p w g gp n w) by (split; [unfold E_class; simpl; auto|]; intros (_ & X & _); subst; contradiction).
      split; [apply RQ; auto|]. intros H. apply FW in H. destruct H as [[H _]|(_ & _ & _ & H & _)]; [|contradiction].
      unfold E_class in H. simpl in H. destruct H as [H|[H _]]; [|subst; contradiction].
      assert (Aw : acts p w w) by (left; auto).
      destruct H as [(_ & H)|[(H & _)|(H & _)]]; try contradiction.
      unfold prescribes_receiver in H. simpl in H. destruct H as [[_ [H|(m & M & H)]]|(H & _)]; [| |contradiction].
      * apply PP in H. destruct H as [_ H]. simpl in H. destruct H as [H _]; [discriminate|]. apply H; auto.
      * apply (NC eq_refl). apply after_conflicting; auto. exists m, n. split; auto. split; auto. apply PP in H; tauto.
Qed.
End After.

(** ** WithNode with the default operations *)
Section With.
Variables (w n : node) (g : graph).
Let p := mkOp KWith [n] MERGE KEEP (SOne MERGE) (SOne KEEP) true true true false.
Hypothesis W : wf_graph g.
Hypothesis C : closed_graph g.
Hypothesis WN : w <> n.
Lemma with_no_alias : no_alias p.
Proof. split; simpl; [intros; discriminate|intros; discriminate]. Qed.
Lemma with_given : operations_given p.
Proof. intros m _; simpl; eauto. Qed.
Lemma with_conflicting : forall gp, prepared p w g gp -> (conflicting p w gp <-> edge g w w \/ edge g n n).
Proof.
  intros gp PP.
  assert (N1 : ~ edge gp n w) by (rewrite (PP _ _); simpl; intros [_ H]; destruct H as [H1 H2]; [discriminate|]; tauto).
  assert (N2 : ~ edge gp w n) by (rewrite (PP _ _); simpl; intros [_ H]; destruct H as [H1 H2]; [discriminate|]; tauto).
  assert (L1 : edge gp w w <-> edge g w w) by (rewrite (PP _ _); simpl; intuition).
  assert (L2 : edge gp n n <-> edge g n n) by (rewrite (PP _ _); simpl; intuition).
  rewrite <- L1, <- L2. split.
  - intros (a & b & A & B & Q). unfold acts in A, B; simpl in A, B.
    assert (PS : prescribes_sender p w gp a b -> (edge gp a w \/ edge gp a n)).
    { intros [[_ H]|(H & o & X & Y)]; simpl in *; [destruct H as [H|(m & [<-|[]] & H)]; auto|]. inversion X; subst o. simpl in Y. destruct H as [<-|[]]. tauto. }
    assert (PR : prescribes_receiver p w gp a b -> edge gp a b).
    { intros [[-> H]|(H & o & X & Y)]; simpl in *; auto. inversion X; subst o. simpl in Y. auto. }
    destruct A as [->|[<-|[]]]; destruct Q as [[Q _]|[Q1 Q]]; try (apply PS in Q; tauto); apply PR in Q; destruct B as [->|[<-|[]]]; try tauto.
  - intros [H|H].
    + exists w, n. split; [left; auto|]. split; [right; simpl; auto|]. left. split.
      * right. split; [simpl; auto|]. exists MERGE. split; auto. simpl; auto.
      * intros [[_ X]|([X|[]] & _)]; simpl in X; [contradiction|congruence].
    + exists n, w. split; [right; simpl; auto|]. split; [left; auto|]. left. split.
      * left. split; auto. simpl. right. exists n. auto.
      * intros [[X _]|(_ & o & X & Y)]; [congruence|]. inversion X; subst o. simpl in Y. contradiction.
Qed.
Theorem with_default : forall cyc, In w (gkeys g) -> In n (gkeys g) ->
  ((forall x, edge g x n <-> edge g x w) -> exists g', modify_graph cyc (Some w) (GOps p) g = Ok g' /\ forall a b, edge g' a b <-> edge g a b) /\
  (~ (forall x, edge g x n <-> edge g x w) ->
    (modify_graph cyc (Some w) (GOps p) g = Err ECondition <-> edge g w w \/ edge g n n) /\
    (forall g', modify_graph cyc (Some w) (GOps p) g = Ok g' -> ~ edge g' w n /\ ~ edge g' n w /\
       (forall x, edge g' x w <-> edge g' x n) /\ (forall x, edge g' x w <-> x <> w /\ x <> n /\ (edge g x w \/ edge g x n)))).
Proof.
  intros cyc Hw Hn.
  assert (AVE : all_valid p w g <-> forall x, edge g x n <-> edge g x w).
  { unfold all_valid; simpl. split; [intros [_ H]; apply (H n); auto|]. intros H; split; [discriminate|]. intros m [<-|[]]; auto. }
  assert (WS : ~ In w (p_nodes p)) by (simpl; intuition).
  assert (HS : incl (p_nodes p) (gkeys g)) by (intros x [<-|[]]; auto).
  destruct (modify_value cyc p w g W C Hw HS WS with_no_alias) as (gp & PP & [(AV & g1 & E1 & X)|[(NV & E1 & CF)|(NV & g1 & E1 & _ & NC & RQ & FW & _)]]).
  - split; [intros _; eauto|]. intros H. exfalso; exact (H (proj1 AVE AV)).
  - split; [intros H; exfalso; exact (NV (proj2 AVE H))|]. intros _. rewrite E1. split; [|discriminate]. split; auto. intros _.
    destruct CF as [CF|[_ CF]]; [exfalso; apply CF, with_given|]. apply with_conflicting in CF; auto.
  - split; [intros H; exfalso; exact (NV (proj2 AVE H))|]. intros _. split.
    + rewrite E1. split; [discriminate|]. intros H. exfalso. apply (NC eq_refl). apply with_conflicting; auto.
    + intros g' E. rewrite E in E1. inversion E1; subst g1. specialize (NC eq_refl). rewrite (with_conflicting gp PP) in NC.
      assert (N1 : ~ edge gp n w) by (rewrite (PP _ _); simpl; intros [_ H]; destruct H as [H1 H2]; [discriminate|]; tauto).
      assert (N2 : ~ edge gp w n) by (rewrite (PP _ _); simpl; intros [_ H]; destruct H as [H1 H2]; [discriminate|]; tauto).
      assert (OPS : forall x b, b = w \/ b = n -> (E_ops p w gp x b -> x <> w /\ x <> n /\ (edge g x w \/ edge g x n))).
      { intros x b HB H. destruct H as [(A & H)|[(A & _ & H)|(A & B & H)]].
        - exfalso. assert (Y : edge gp x b). { destruct H as [[-> H]|(_ & o & X & Y)]; simpl in *; auto. inversion X; subst o; auto. }
          assert (Z : edge g x b) by (apply PP in Y; tauto). destruct A as [->|[<-|[]]]; destruct HB as [->| ->]; auto.
        - unfold acts in A; simpl in A. split; [tauto|]. split; [intros ->; tauto|].
          destruct H as [[_ H]|(Q & o & X & H)]; simpl in *.
          + destruct H as [H|(m & [<-|[]] & H)]; apply PP in H; tauto.
          + inversion X; subst o. simpl in H. destruct Q as [<-|[]]. destruct H as [H|H]; apply PP in H; tauto.
        - exfalso. apply B. unfold acts; simpl. intuition. }
      assert (OPS2 : forall x, x <> w -> x <> n -> (edge g x w \/ edge g x n) -> E_ops p w gp x w).
      { intros x X1 X2 H. right; left. split; [unfold acts; simpl; intuition|]. split; [left; auto|]. left. split; auto. simpl.
        destruct H as [H|H]; [left|right; exists n; split; auto]; apply PP; split; auto; simpl; intros _; intuition. }
      assert (CL : forall x b, b = w \/ b = n -> (E_self p w g gp x b <-> x <> w /\ x <> n /\ (edge g x w \/ edge g x n))).
      { intros x b HB. unfold E_self, E_class. simpl.
        assert (BB : Nat.eqb b w || Nat.eqb b n = true) by (destruct HB as [->| ->]; rewrite Nat.eqb_refl, ?orb_true_r; auto). rewrite BB. split.
        - intros [[H|H] _]; [apply (OPS x w)|apply (OPS x n)]; auto.
        - intros (X1 & X2 & H). split; [left; apply OPS2; auto|]. intros (_ & -> & _). destruct HB; contradiction. }
      assert (FIN : forall x b, b = w \/ b = n -> (edge g' x b <-> x <> w /\ x <> n /\ (edge g x w \/ edge g x n))).
      { intros x b HB. split.
        - intros H. apply FW in H. destruct H as [H|(_ & _ & H2 & H3 & _)]; [apply (CL x b); auto|]. exfalso.
          destruct HB as [->| ->]; [apply NC; auto|]. apply H3. simpl; auto.
        - intros H. apply RQ; [apply CL; auto|]. unfold required_edge; simpl. destruct HB as [->| ->]; rewrite Nat.eqb_refl, ?orb_true_r; auto. }
      split; [rewrite (FIN w n); auto; tauto|]. split; [rewrite (FIN n w); auto; tauto|]. split; [intros x; rewrite !FIN; auto; tauto|]. intros x; apply FIN; auto.
Qed.
End With.

(** ** _GSCWithOperations *)
Theorem plain_ops : forall cyc nodes os or_ ss sr rs ic s w g, with_operations nodes os or_ ss sr false rs false ic = Ok s ->
  wf_graph g -> closed_graph g -> In w (gkeys g) -> incl nodes (gkeys g) -> ~ In w nodes ->
  let p := mkOp KPlain nodes os or_ ss sr false rs false ic in no_alias p ->
  (modify_graph cyc (Some w) s g = Err ECondition /\ (~ operations_given p \/ (ic = false /\ conflicting p w g))) \/
  (exists g', modify_graph cyc (Some w) s g = Ok g' /\ operations_given p /\ (ic = false -> ~ conflicting p w g) /\
    forall a b, (rs = true -> a <> b \/ edge g a a) ->
     (acts p w a -> (edge g' a b <-> prescribes_receiver p w g a b)) /\
     (~ acts p w a -> acts p w b -> (edge g' a b <-> prescribes_sender p w g a b)) /\
     (~ acts p w a -> ~ acts p w b -> (edge g' a b <-> edge g a b))).
Proof.
  intros cyc nodes os or_ ss sr rs ic s w g E W C Hw HS WS p NA.
  assert (ES : s = GOps p) by (unfold with_operations, make_ops in E; destruct (negb (subject_ok nodes ss) || negb (subject_ok nodes sr)); [discriminate|]; destruct (Nat.ltb (length nodes) 1); [discriminate|]; inversion E; auto).
  rewrite ES. clear ES E.
  destruct (modify_value cyc p w g W C Hw HS WS NA) as (gp & PP & [(AV & _)|[(NV & E1 & CF)|(NV & g1 & E1 & OG & NC & _ & _ & EX)]]).
  - destruct AV as [AV _]. simpl in AV. congruence.
  - left. split; auto. destruct CF as [CF|[A B]]; auto. right. split; auto. apply (conflicting_ext p w gp g); auto. intros a b. rewrite (PP a b). simpl. intuition congruence.
  - assert (GE : forall a b, edge gp a b <-> edge g a b) by (intros a b; rewrite (PP a b); simpl; intuition congruence).
    right. exists g1. split; auto. split; auto. split; [intros A B; apply (NC A); apply (conflicting_ext p w gp g); auto|].
    intros a b SL. specialize (EX eq_refl eq_refl).
    assert (X : edge g1 a b <-> E_ops p w g a b).
    { rewrite EX. unfold E_self, E_class. simpl. rewrite (E_ops_ext p w gp g a b GE). split; [tauto|]. intros H. split; auto. intros (A & -> & B). destruct (SL A); auto. }
    rewrite X. unfold E_ops. tauto.
Qed.
Theorem plain_senders : forall p w g a b, (~ conflicting p w g) -> acts p w a -> acts p w b ->
  (prescribes_sender p w g a b \/ ~ prescribes_sender p w g a b) -> (prescribes_receiver p w g a b \/ ~ prescribes_receiver p w g a b) ->
  (prescribes_sender p w g a b <-> prescribes_receiver p w g a b).
Proof.
  intros p w g a b NC A B D1 D2. split; intros H.
  - destruct D2 as [|N]; auto. exfalso. apply NC. exists a, b. tauto.
  - destruct D1 as [|N]; auto. exfalso. apply NC. exists a, b. tauto.
Qed.
Lemma op_says_dec : forall o s c, (s \/ ~ s) -> (c \/ ~ c) -> op_says o s c \/ ~ op_says o s c.
Proof. intros [] s c A B; simpl; tauto. Qed.
Lemma edge_dec : forall g a b, edge g a b \/ ~ edge g a b.
Proof. intros g a b. rewrite edge_aget. apply In_dec_nat. Qed.
Lemma exists_dec : forall (P : node -> Prop) l, (forall n, P n \/ ~ P n) -> (exists n, In n l /\ P n) \/ ~ (exists n, In n l /\ P n).
Proof.
  intros P l D. induction l as [|x l [IH|IH]].
  - right. intros (n & [] & _).
  - left. destruct IH as (n & A & B). exists n; simpl; auto.
  - destruct (D x) as [H|H]; [left; exists x; simpl; auto|]. right. intros (n & [<-|A] & B); auto. apply IH; eauto.
Qed.
Lemma prescribes_sender_dec : forall p w g a b, prescribes_sender p w g a b \/ ~ prescribes_sender p w g a b.
Proof.
  intros p w g a b. unfold prescribes_sender.
  assert (D1 : (op_says (p_owner_senders p) (edge g a w) (exists n, In n (p_nodes p) /\ edge g a n)) \/ ~ (op_says (p_owner_senders p) (edge g a w) (exists n, In n (p_nodes p) /\ edge g a n))).
  { apply op_says_dec; [apply edge_dec|apply exists_dec; intros; apply edge_dec]. }
  assert (D2 : (exists o, subject_operation (p_subject_senders p) b = Ok o /\ op_says o (edge g a b) (edge g a w)) \/ ~ (exists o, subject_operation (p_subject_senders p) b = Ok o /\ op_says o (edge g a b) (edge g a w))).
  { destruct (subject_operation (p_subject_senders p) b) as [o|e]; [|right; intros (o & X & _); discriminate].
    destruct (op_says_dec o (edge g a b) (edge g a w) (edge_dec _ _ _) (edge_dec _ _ _)); [left; eauto|]. right. intros (o' & X & Y). inversion X; subst; auto. }
  destruct (Nat.eq_dec b w); destruct (In_dec_nat b (p_nodes p)); tauto.
Qed.
Lemma prescribes_receiver_dec : forall p w g a b, prescribes_receiver p w g a b \/ ~ prescribes_receiver p w g a b.
Proof.
  intros p w g a b. unfold prescribes_receiver.
  assert (D1 : (op_says (p_owner_receivers p) (edge g w b) (exists n, In n (p_nodes p) /\ edge g n b)) \/ ~ (op_says (p_owner_receivers p) (edge g w b) (exists n, In n (p_nodes p) /\ edge g n b))).
  { apply op_says_dec; [apply edge_dec|apply exists_dec; intros; apply edge_dec]. }
  assert (D2 : (exists o, subject_operation (p_subject_receivers p) a = Ok o /\ op_says o (edge g a b) (edge g w b)) \/ ~ (exists o, subject_operation (p_subject_receivers p) a = Ok o /\ op_says o (edge g a b) (edge g w b))).
  { destruct (subject_operation (p_subject_receivers p) a) as [o|e]; [|right; intros (o & X & _); discriminate].
    destruct (op_says_dec o (edge g a b) (edge g w b) (edge_dec _ _ _) (edge_dec _ _ _)); [left; eauto|]. right. intros (o' & X & Y). inversion X; subst; auto. }
  destruct (Nat.eq_dec a w); destruct (In_dec_nat a (p_nodes p)); tauto.
Qed.

(** the statement of C32 *)
Theorem plain_ops_full : forall cyc nodes os or_ ss sr rs ic s w g, with_operations nodes os or_ ss sr false rs false ic = Ok s ->
  wf_graph g -> closed_graph g -> In w (gkeys g) -> incl nodes (gkeys g) -> ~ In w nodes ->
  let p := mkOp KPlain nodes os or_ ss sr false rs false ic in no_alias p ->
  (modify_graph cyc (Some w) s g = Err ECondition /\ (~ operations_given p \/ (ic = false /\ conflicting p w g))) \/
  (exists g', modify_graph cyc (Some w) s g = Ok g' /\ operations_given p /\ (ic = false -> ~ conflicting p w g) /\
    forall a b, (rs = true -> a <> b \/ edge g a a) ->
     (acts p w a -> (edge g' a b <-> prescribes_receiver p w g a b)) /\
     (acts p w b -> ~ acts p w a \/ ic = false -> (edge g' a b <-> prescribes_sender p w g a b)) /\
     (~ acts p w a -> ~ acts p w b -> (edge g' a b <-> edge g a b))).
Proof.
  intros cyc nodes os or_ ss sr rs ic s w g E W C Hw HS WS p NA.
  destruct (plain_ops cyc nodes os or_ ss sr rs ic s w g E W C Hw HS WS NA) as [H|(g' & E1 & OG & NC & V)]; [left; auto|right].
  exists g'. split; auto. split; auto. split; auto. intros a b SL. destruct (V a b SL) as (V1 & V2 & V3). split; auto. split; auto.
  intros B X. assert (D : acts p w a \/ ~ acts p w a) by (unfold acts; destruct (Nat.eq_dec a w); destruct (In_dec_nat a (p_nodes p)); tauto).
  destruct D as [A|A]; [|apply V2; auto]. destruct X as [X|X]; [contradiction|]. rewrite V1 by auto.
  symmetry. apply plain_senders; auto using prescribes_sender_dec, prescribes_receiver_dec.
Qed.

(** the statements of C31 *)
Theorem prune_terminates : forall cyc p w base h, exists h', prune_cycles cyc p w base h = Some h' /\
  gkeys (unload h') = gkeys (unload h) /\ (forall a b, edge (unload h') a b -> edge (unload h) a b) /\
  (p_prune p = false -> h' = h).
Proof.
  intros cyc p w base h. destruct (prune_cycles_drops p w cyc base h) as (k & h' & E & D & P). exists h'. split; auto. split.
  - rewrite !unload_keys, (drops_refs _ _ _ _ _ D). auto.
  - split; [intros a b; rewrite !edge_unload; eapply drops_sub; eauto|]. intros X. rewrite (P X) in D. apply drops_0_eq in D. auto.
Qed.
Lemma needed_required : forall p w a b, needed p w a b <-> required_edge p w a b = true.
Proof.
  intros p w a b. unfold needed, required_edge. destruct (p_kind p); rewrite ?andb_true_iff, ?orb_true_iff, ?Nat.eqb_eq, ?mem_In; intuition congruence.
Qed.
Theorem prune_keeps_needed : forall cyc p w base g h', wf_graph g -> closed_graph g -> wf_sets g -> prune_cycles cyc p w base (load g) = Some h' ->
  forall a b, edge g a b -> needed p w a b -> edge (unload h') a b.
Proof.
  intros cyc p w base g h' W C S E a b H N. destruct (prune_cycles_drops p w cyc base (load g)) as (k & h1 & E1 & D & _). rewrite E in E1. inversion E1; subst h1.
  apply edge_unload. assert (I : inside [] (gkeys g) (load g)).
  { rewrite load_hload. apply inside_hload; auto. intros n l L x X. apply (C x n). apply edge_In; eauto. }
  eapply (drops_required p w (gkeys g)); eauto.
  - rewrite load_hload. apply unaliased_hload.
  - apply hget_load; auto.
  - apply needed_required; auto.
Qed.
