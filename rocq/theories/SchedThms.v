(** Schedulers: owners of basic conditions, runs on the current graph, failing conditions. *)
From Verif Require Import BaseFacts SpecSched SpecGSC CondSetFacts ResumeFrame SchedFacts GSCProps GSCFacts.

(** ** owners of the basic conditions *)
Lemma same_object : forall all : list (node * anycond), NoDup (objects all) ->
  forall p q o, In p all -> In q all -> In o (any_oids (snd p)) -> In o (any_oids (snd q)) -> p = q.
Proof.
  unfold objects. induction all as [|x l IH]; simpl in *; intros ND p q o P Q O1 O2; [tauto|]. apply NoDup_app_inv in ND. destruct ND as (N1 & N2 & N3).
  destruct P as [<-|P], Q as [<-|Q]; auto.
  - exfalso. apply (N3 o O1). apply in_flat_map. exists q. auto.
  - exfalso. apply (N3 o O2). apply in_flat_map. exists p. auto.
  - eapply IH; eauto.
Qed.
Section Owners.
Variable cyc : graph -> list (list node).
Variable arr : list (list node) -> list (list node).
Variable nx : oid.
Variable ow0 : owners_t.
Variable all : list (node * anycond).        (* everything that will be added *)
Hypothesis ND : NoDup (objects all).
Hypothesis LOW : forall o, In o (objects all) -> o < nx /\ ow0 o = None.

Record BINV (A : list (node * anycond)) (B : node -> option cond) (d : sched) : Prop := {
  b_next : nx <= d_next d;
  b_keys : NoDup (akeys (cs_basic (d_cs d)));
  b_entry : forall w c, aget w (cs_basic (d_cs d)) = Some c ->
     (forall o, In o (oids c) -> d_owners d o = Some w) /\ (forall o, In o (oids c) -> o < d_next d) /\ NoDup (oids c) /\
     (In (w, Basic c) A \/ forall o, In o (oids c) -> nx <= o);
  b_new : forall o, ~ In o (objects A) -> o < nx -> d_owners d o = ow0 o;
  b_fresh : forall o, d_next d <= o -> d_owners d o = None;
  b_reg : forall w c, B w = Some c -> aget w (cs_basic (d_cs d)) = Some c
}.
Lemma binv_set_stack : forall A B d st l, BINV A B d -> BINV A B (set_stack d st l).
Proof. intros A B d st l []; constructor; simpl; auto. Qed.
Lemma sync_set_stack : forall d r d', sync cyc arr d = (r, d') -> exists st l, d' = set_stack d st l.
Proof.
  intros d r d' E. unfold sync in E. destruct (match d_last d with Some l => same_order l (cs_order (d_cs d)) | None => false end).
  - inversion E; subst. exists (d_stack d'), (d_last d'). destruct d'; auto.
  - cbv zeta in E. destruct (pop_graphs _ _) as [[|] [|[g q] st]]; try (inversion E; subst; eauto; fail).
    destruct (push_conds _ _ _ _ _ _) as [[|] st']; inversion E; subst; eauto.
Qed.
Lemma sub_objects : forall A w a o, incl A all -> In (w, a) A -> In o (any_oids a) -> In o (objects all).
Proof. intros A w a o I X Y. eapply in_objects; eauto. Qed.
Lemma binv_add1 : forall A B d w a cs ow, BINV A B d -> incl (A ++ [(w, a)]) all -> NoDup (objects (A ++ [(w, a)])) ->
  cs_add w a (d_cs d) (d_owners d) = Ok (cs, ow) -> BINV (A ++ [(w, a)]) (reg_basic1 B (w, a)) (set_cs d cs ow).
Proof.
  intros A B d w a cs ow I IN N E. destruct I as [i1 i2 i3 i4 i5 i6].
  rewrite objects_app in N. apply NoDup_app_inv in N. destruct N as (N1 & N2 & N3). unfold objects in N2 at 1; simpl in N2. rewrite app_nil_r in N2.
  assert (OA : forall o, In o (any_oids a) -> ~ In o (objects A)) by (intros o X Y; apply (N3 o Y); unfold objects; simpl; rewrite app_nil_r; auto).
  assert (OL : forall o, In o (any_oids a) -> o < nx /\ ow0 o = None) by (intros o X; apply LOW; eapply sub_objects; [exact IN|apply in_or_app; right; left; eauto|auto]).
  assert (DIS : forall w' c, aget w' (cs_basic (d_cs d)) = Some c -> forall o, In o (oids c) -> ~ In o (any_oids a)).
  { intros w' c X o O Y. destruct (i3 _ _ X) as (_ & _ & _ & [Z|Z]).
    - apply (OA o Y). eapply in_objects; eauto.
    - specialize (Z o O). destruct (OL o Y). lia. }
  destruct a as [c|s]; simpl in E.
  - inversion E; subst; clear E. constructor; simpl; auto.
    + apply NoDup_aset; auto.
    + intros w' c' X. rewrite aget_aset in X. destruct (Nat.eqb_spec w' w) as [->|D].
      * inversion X; subst c'. split; [|split; [|split; [exact N2|left; apply in_or_app; right; left; auto]]].
        -- apply set_owner_new; auto. intros o O _. rewrite i4; [apply OL|apply OA|apply OL]; auto.
        -- intros o O. destruct (OL o O). lia.
      * destruct (i3 _ _ X) as (P1 & P2 & P3 & P4). split; [|split; [auto|split; [auto|destruct P4; auto; left; apply in_or_app; auto]]].
        intros o O. rewrite set_owner_other; auto. exact (DIS _ _ X o O).
    + intros o O L. rewrite objects_app in O. assert (O1 : ~ In o (objects A)) by (intros X; apply O; apply in_or_app; auto).
      rewrite set_owner_other; auto. intros X. apply O. apply in_or_app. right. unfold objects. simpl. rewrite app_nil_r. auto.
    + intros o L. rewrite set_owner_other; auto. intros X. destruct (OL o X). lia.
    + unfold reg_basic1. simpl. intros w' c' X. rewrite aget_aset. unfold upd in X. destruct (Nat.eqb w' w); auto.
  - destruct (gsc_owner_ok (sc_gsc s) w); [|discriminate]. inversion E; subst; clear E. constructor; simpl; auto.
    + intros w' c' X. destruct (i3 _ _ X) as (P1 & P2 & P3 & P4). split; [|split; [auto|split; [auto|destruct P4; auto; left; apply in_or_app; auto]]].
      intros o O. rewrite upd_other; auto. intros ->. apply (DIS _ _ X _ O). simpl; auto.
    + intros o O L. rewrite objects_app in O. rewrite upd_other; [apply i4; auto; intros X; apply O; apply in_or_app; auto|].
      intros ->. apply O. apply in_or_app. right. simpl. auto.
    + intros o L. rewrite upd_other; auto. intros ->. destruct (OL (sc_oid s)); [simpl; auto|lia].
Qed.
Lemma objects_sub : forall A A', NoDup (objects (A ++ A')) -> NoDup (objects A).
Proof. intros A A' N. rewrite objects_app in N. apply NoDup_app_inv in N. tauto. Qed.
Lemma set_cs_id : forall d, set_cs d (d_cs d) (d_owners d) = d.
Proof. destruct d; auto. Qed.
Lemma binv_add_list : forall w l A B d r cs ow, BINV A B d -> incl (A ++ map (pair w) l) all -> NoDup (objects (A ++ map (pair w) l)) ->
  cs_add_list w l (d_cs d) (d_owners d) = (Ok r, cs, ow) ->
  BINV (A ++ map (pair w) l) (fold_left reg_basic1 (map (pair w) l) B) (set_cs d cs ow).
Proof.
  induction l as [|a l IH]; intros A B d r cs ow I IN N E; cbn [map cs_add_list fold_left] in *.
  - inversion E; subst. rewrite app_nil_r, set_cs_id. auto.
  - destruct (cs_add w a (d_cs d) (d_owners d)) as [[cs1 ow1]|] eqn:C; [|discriminate].
    replace (A ++ (w, a) :: map (pair w) l) with ((A ++ [(w, a)]) ++ map (pair w) l) in * by (rewrite <- app_assoc; auto).
    assert (I1 : BINV (A ++ [(w, a)]) (reg_basic1 B (w, a)) (set_cs d cs1 ow1)).
    { eapply binv_add1; eauto; [intros x X; apply IN; apply in_or_app; auto|eapply objects_sub; eauto]. }
    exact (IH _ _ (set_cs d cs1 ow1) r cs ow I1 IN N E).
Qed.
Lemma binv_add_set : forall s A B d r cs ow, BINV A B d -> incl (A ++ adds (SAddSet s)) all -> NoDup (objects (A ++ adds (SAddSet s))) ->
  cs_add_set s (d_cs d) (d_owners d) = (Ok r, cs, ow) ->
  BINV (A ++ adds (SAddSet s)) (fold_left reg_basic1 (adds (SAddSet s)) B) (set_cs d cs ow).
Proof.
  induction s as [|[w e] s IH]; intros A B d r cs ow I IN N E; cbn [cs_add_set] in *.
  - inversion E; subst. simpl. rewrite app_nil_r, set_cs_id. auto.
  - destruct (cs_add_list w (entry_list e) (d_cs d) (d_owners d)) as [[[r1|] cs1] ow1] eqn:C; [|discriminate].
    change (adds (SAddSet ((w, e) :: s))) with (map (pair w) (entry_list e) ++ adds (SAddSet s)) in *.
    rewrite app_assoc, fold_left_app in *.
    assert (I1 : BINV (A ++ map (pair w) (entry_list e)) (fold_left reg_basic1 (map (pair w) (entry_list e)) B) (set_cs d cs1 ow1)).
    { eapply binv_add_list; eauto; [intros x X; apply IN; apply in_or_app; auto|eapply objects_sub; eauto]. }
    exact (IH _ _ (set_cs d cs1 ow1) r cs ow I1 IN N E).
Qed.
Lemma remove_struct_basic : forall w o cs b cs', cs_remove_struct w o cs = (b, cs') -> cs_basic cs' = cs_basic cs.
Proof.
  intros w o cs b cs' E. unfold cs_remove_struct in E. destruct (aget w (cs_struct cs)); [|inversion E; auto].
  destruct (has_oid o l); [|inversion E; auto]. destruct (has_oid o (cs_order cs)); inversion E; auto.
Qed.
Lemma binv_same : forall A B d cs, cs_basic cs = cs_basic (d_cs d) -> BINV A B d -> BINV A B (set_cs d cs (d_owners d)).
Proof. intros A B d cs E []; constructor; simpl; rewrite ?E; auto. Qed.
(* removing the entry of w, which is c *)
Lemma binv_del : forall A B B' d w c cs, BINV A B d -> aget w (cs_basic (d_cs d)) = Some c ->
  (forall w' c', B' w' = Some c' -> B w' = Some c' /\ w' <> w) -> (In (w, Basic c) A \/ forall o, In o (oids c) -> nx <= o) ->
  cs_basic cs = adel w (cs_basic (d_cs d)) -> BINV A B' (set_cs d cs (set_owner None c (d_owners d))).
Proof.
  intros A B B' d w c cs [i1 i2 i3 i4 i5 i6] E HB HC EC. destruct (i3 _ _ E) as (P1 & P2 & P3 & P4).
  constructor; simpl; rewrite ?EC; auto.
  - apply NoDup_adel; auto.
  - intros w' c' X. rewrite aget_adel in X by auto. destruct (Nat.eqb_spec w' w); [discriminate|]. destruct (i3 _ _ X) as (Q1 & Q2 & Q3 & Q4). split; auto.
    intros o O. rewrite set_owner_other; auto. intros Y. pose proof (P1 o Y). pose proof (Q1 o O). congruence.
  - intros o O L. rewrite set_owner_other; auto. intros Y. destruct HC as [HC|HC]; [apply O; eapply in_objects; eauto|specialize (HC o Y); lia].
  - intros o L. rewrite set_owner_other; auto. intros Y. specialize (P2 o Y). lia.
  - intros w' c' X. destruct (HB _ _ X). rewrite aget_adel by auto. destruct (Nat.eqb_spec w' w); [congruence|auto].
Qed.
Lemma binv_remove : forall A B d a r d', BINV A B d -> incl A all -> In a (map snd all) -> remove_condition a d = (Ok r, d') ->
  BINV A (reg_basic B (SRemove a)) d'.
Proof.
  intros A B d a r d' I IN IA E. unfold remove_condition in E. destruct (cs_remove_cond a (d_cs d) (d_owners d)) as [[r0 cs] ow] eqn:C.
  inversion E; subst; clear E. unfold cs_remove_cond in C. destruct (d_owners d (any_oid a)) as [w|] eqn:OW; [|discriminate].
  apply in_map_iff in IA. destruct IA as ([wa a'] & EA & IA). simpl in EA. subst a'.
  assert (SM : forall w' c, aget w' (cs_basic (d_cs d)) = Some c -> cond_oid c = any_oid a -> a = Basic c).
  { intros w' c X Y. destruct (b_entry _ _ _ I _ _ X) as (_ & _ & _ & [Z|Z]).
    - apply IN in Z. destruct a as [c0|s].
      + assert (P : (w', Basic c) = (wa, Basic c0)).
        { eapply (same_object all ND _ _ (cond_oid c) Z IA); simpl; [apply cond_oid_in|]. rewrite Y. simpl. apply cond_oid_in. }
        inversion P; auto.
      + exfalso. assert (X1 : (w', Basic c) <> (wa, Struct s)) by discriminate.
        apply (objects_disjoint all (w', Basic c) (wa, Struct s) (cond_oid c) ND Z IA X1); simpl; [apply cond_oid_in|]. left. rewrite Y. auto.
    - exfalso. assert (L : any_oid a < nx) by (apply LOW; eapply in_objects; eauto; apply any_oid_in). specialize (Z _ (cond_oid_in c)). rewrite Y in Z. lia. }
  destruct (match aget w (cs_basic (d_cs d)) with Some c => Nat.eqb (cond_oid c) (any_oid a) | None => false end) eqn:IB.
  - destruct (aget w (cs_basic (d_cs d))) as [c|] eqn:EW; [|discriminate]. apply Nat.eqb_eq in IB. pose proof (SM _ _ EW IB) as ->. simpl in C.
    inversion C; subst; clear C. eapply binv_del; eauto.
    + intros w' c' X. simpl in X. destruct (B w') as [c2|] eqn:BW; [|discriminate]. destruct (Nat.eqb_spec (cond_oid c2) (cond_oid c)); [discriminate|].
      inversion X; subst. split; auto. intros ->. apply (b_reg _ _ _ I) in BW. congruence.
    + destruct (b_entry _ _ _ I _ _ EW) as (_ & _ & _ & Z). auto.
  - assert (X : exists cs', cs_basic cs' = cs_basic (d_cs d) /\ cs = cs' /\ ow = d_owners d).
    { destruct (cs_remove_struct w (any_oid a) (d_cs d)) as [[|] cs'] eqn:RS; apply remove_struct_basic in RS; inversion C; subst; [exists (set_rebuild cs')|exists cs]; simpl; auto. }
    destruct X as (cs' & X & -> & ->). destruct (binv_same A B d cs' X I) as [i1 i2 i3 i4 i5 i6]. constructor; auto.
    intros w' c' Y. apply i6. destruct a as [c|s]; simpl in Y; auto. destruct (B w') as [c2|] eqn:BW; [|discriminate].
    destruct (Nat.eqb (cond_oid c2) (cond_oid c)); [discriminate|auto].
Qed.
Lemma binv_remove_owner : forall A B d w r d', BINV A B d -> remove_condition_owner w d = (Ok r, d') -> BINV A (reg_basic B (SRemoveOwner w)) d'.
Proof.
  intros A B d w r d' I E. unfold remove_condition_owner in E. destruct (cs_remove_owner w (d_cs d) (d_owners d)) as [[r0 cs] ow] eqn:C.
  inversion E; subst; clear E. unfold cs_remove_owner in C.
  assert (NB : forall B', aget w (cs_basic (d_cs d)) = None -> (forall w' c', upd B w None w' = Some c' -> B' w' = Some c') -> True) by auto.
  destruct (aget w (cs_basic (d_cs d))) as [c|] eqn:EW.
  - destruct (aget w (cs_struct (d_cs d))); [discriminate|]. inversion C; subst; clear C. eapply binv_del; eauto.
    + intros w' c' X. simpl in X. unfold upd in X. destruct (Nat.eqb_spec w' w); [discriminate|auto].
    + destruct (b_entry _ _ _ I _ _ EW) as (_ & _ & _ & Z). auto.
  - assert (X : cs = d_cs d /\ ow = d_owners d).
    { destruct (aget w (cs_struct (d_cs d))) as [[|s [|]]|]; try (inversion C; auto; fail). destruct (cs_remove_struct w (sc_oid s) (d_cs d)); discriminate. }
    destruct X as [-> ->]. rewrite set_cs_id. destruct I. constructor; auto. intros w' c' X. apply b_reg0. simpl in X. unfold upd in X. destruct (Nat.eqb w' w); [discriminate|auto].
Qed.
Lemma binv_put : forall A B d e m, BINV A B d -> grown e (core_of d) m -> BINV A B (put_core d m).
Proof.
  intros A B d e m [i1 i2 i3 i4 i5 i6] G. destruct G as [g1 g2 g3 g4 g5 g6 g7 g8 g9 g10 g11 g12 g13]. simpl in *. destruct (g13 i5) as [F N]. simpl in *.
  constructor; simpl; auto; try lia.
  - intros w c X. destruct (g9 _ _ X) as [Y|[Y Z]].
    + destruct (i3 _ _ Y) as (P1 & P2 & P3 & P4). split; [|split; [|split; auto]].
      * intros o O. rewrite g8; auto.
      * intros o O. specialize (P2 o O). lia.
    + destruct (N _ _ Y X) as [N1 N2]. split; auto. split; [intros o O; apply Z; auto|]. split; auto. right. intros o O. specialize (Z o O). lia.
  - intros o O L. rewrite g8 by lia. auto.
Qed.
Lemma binv_perform : forall k A B d d', BINV A B d -> incl (A ++ flat_map adds (set_calls [k])) all -> NoDup (objects (A ++ flat_map adds (set_calls [k]))) ->
  (forall a, k = CSet (SRemove a) -> In a (map snd all)) -> perform cyc arr k d = Some d' ->
  BINV (A ++ flat_map adds (set_calls [k])) (fold_left reg_basic (set_calls [k]) B) d'.
Proof.
  intros k A B d d' I IN N RM P.
  assert (SY : forall A B d r d', BINV A B d -> sync cyc arr d = (r, d') -> BINV A B d').
  { intros A1 B1 d1 r1 d2 I1 S. destruct (sync_set_stack _ _ _ S) as (st & l & ->). apply binv_set_stack; auto. }
  destruct k as [[w a|s|a|w]| |t|f g|e]; simpl set_calls in *; cbn [flat_map adds fold_left app] in *; rewrite ?app_nil_r in *; simpl in P.
  - unfold ok_sched, add_condition in P. destruct (cs_add w a (d_cs d) (d_owners d)) as [[cs ow]|] eqn:C; [|discriminate].
    destruct (sync cyc arr (set_cs d cs ow)) as [[|] d1] eqn:S; [|discriminate]. inversion P; subst. eapply SY; eauto. eapply binv_add1; eauto.
  - unfold ok_sched, add_condition_set in P. destruct (cs_add_set s (d_cs d) (d_owners d)) as [[[r|] cs] ow] eqn:C; [|discriminate].
    destruct (sync cyc arr (set_cs d cs ow)) as [[|] d1] eqn:S; [|discriminate]. inversion P; subst. eapply SY; eauto. eapply binv_add_set; eauto.
  - unfold ok_sched in P. destruct (remove_condition a d) as [[r|] d1] eqn:R; [|discriminate]. inversion P; subst. eapply binv_remove; eauto.
  - unfold ok_sched in P. destruct (remove_condition_owner w d) as [[r|] d1] eqn:R; [|discriminate]. inversion P; subst. eapply binv_remove_owner; eauto.
  - unfold ok_sched, get_graph in P. destruct (sync cyc arr d) as [[r|] d1] eqn:S; [|discriminate]. inversion P; subst. eauto.
  - inversion P; subst. destruct I. destruct t; constructor; simpl; auto.
  - destruct (sresume cyc arr f d g) as [[d2 g'] o] eqn:R0.
    destruct (sresume_ok _ _ _ _ _ _ _ _ R0) as (d1 & f1 & m & R & D & C); [intros ex ->; discriminate|].
    pose proof (grown_resume _ _ _ _ _ _ R) as G. assert (D' : d' = put_core d1 m) by (rewrite <- D; destruct o; inversion P; auto). rewrite D'.
    eapply binv_put; eauto. destruct C as [(r & S & _)|[-> _]]; eauto.
  - unfold send_environment_sequence, bind in P. destruct (end_environment_sequence (core_of d) e) as [m|] eqn:R; [|discriminate]. inversion P; subst.
    eapply binv_put; eauto. apply grown_fixed. eapply fixed_incr; eauto.
Qed.
Lemma binv_performs : forall ks A B d d', BINV A B d -> incl (A ++ flat_map adds (set_calls ks)) all -> NoDup (objects (A ++ flat_map adds (set_calls ks))) ->
  (forall a, In (SRemove a) (set_calls ks) -> In a (map snd all)) -> performs cyc arr ks d = Some d' ->
  BINV (A ++ flat_map adds (set_calls ks)) (fold_left reg_basic (set_calls ks) B) d'.
Proof.
  induction ks as [|k ks IH]; intros A B d d' I IN N RM P; simpl in P.
  - inversion P; subst. simpl. rewrite app_nil_r. auto.
  - destruct (perform cyc arr k d) as [d1|] eqn:P1; [|discriminate].
    replace (set_calls (k :: ks)) with (set_calls [k] ++ set_calls ks) in * by (unfold set_calls; simpl; rewrite app_nil_r; auto).
    rewrite fold_left_app, flat_map_app, app_assoc in *.
    eapply IH; eauto.
    + eapply binv_perform; eauto.
      * intros x X. apply IN. apply in_or_app; auto.
      * eapply objects_sub; eauto.
      * intros a ->. apply RM. apply in_or_app. left. simpl; auto.
    + intros a X. apply RM. apply in_or_app; auto.
Qed.
End Owners.

(** every basic condition that is registered at w is in force there, and all its objects have the owner w *)
Theorem sched_owners : forall cyc arr nx input conds tc deid exact du ow w r d0 ks d,
  new_sched cyc arr input conds tc deid exact du ow nx w = (Ok r, d0) -> performs cyc arr ks d0 = Some d ->
  proper_objects nx ow (SAddSet conds :: set_calls ks) ->
  (forall o, d_next d <= o -> d_owners d o = None) /\ NoDup (akeys (cs_basic (d_cs d))) /\
  (forall n c, registered_basic (SAddSet conds :: set_calls ks) n = Some c -> aget n (cs_basic (d_cs d)) = Some c) /\
  forall n c o, aget n (cs_basic (d_cs d)) = Some c -> In o (oids c) -> d_owners d o = Some n.
Proof.
  intros cyc arr nx input conds tc deid exact du ow w r d0 ks d E P (ND & LOW & HI & RM).
  set (all := flat_map adds (SAddSet conds :: set_calls ks)) in *.
  assert (I0 : BINV nx ow (adds (SAddSet conds)) (fold_left reg_basic [SAddSet conds] (fun _ => None)) d0).
  { unfold new_sched in E. destruct (arg_graph input) as [base|]; [|discriminate].
    set (b := mkSched _ _ _ _ _ _ _ _ _ _ _ _ _) in E.
    assert (Ib : BINV nx ow [] (fun _ => None) b) by (constructor; simpl; auto; try (intros; discriminate); try constructor).
    destruct conds as [|p conds]; [inversion E; subst; exact Ib|].
    unfold add_condition_set in E. destruct (cs_add_set (p :: conds) (d_cs b) (d_owners b)) as [[[r'|] cs] ow'] eqn:C; [|discriminate].
    destruct (sync_set_stack _ _ _ _ _ E) as (st & l & ->). apply binv_set_stack.
    apply (binv_add_set nx ow all LOW (p :: conds) [] (fun _ => None) b r' cs ow' Ib); auto.
    - intros x X. unfold all. cbn [flat_map]. apply in_or_app; auto.
    - eapply objects_sub. exact ND. }
  pose proof (binv_performs cyc arr nx ow all ND LOW ks _ _ d0 d I0) as I.
  assert (I' := I (fun x X => X) ND (fun a X => RM a (or_intror X)) P). clear I. destruct I' as [i1 i2 i3 i4 i5 i6].
  split; auto. split; auto. split; auto. intros n c o A O. apply (proj1 (i3 _ _ A)). auto.
Qed.

(** ** runs of a scheduler are runs on its current graph *)
Lemma core_of_put : forall e d m, grown e (core_of d) m -> core_of (put_core d m) = m.
Proof. intros e d m []. unfold core_of, put_core in *. simpl in *. unfold top_graph, top_queue in *. simpl in *. destruct m; simpl in *. congruence. Qed.
Lemma sync_synced : forall cyc arr d, d_last d = Some (cs_order (d_cs d)) -> sync cyc arr d = (Ok tt, d).
Proof. intros cyc arr d E. unfold sync. rewrite E. unfold same_order. destruct (list_eq_dec _ _ _); [auto|congruence]. Qed.
Lemma sresume_bridge : forall cyc arr fuel d g, d_last d = Some (cs_order (d_cs d)) ->
  let '(m', g', o) := resume fuel (core_of d) g in
  exists d', sresume cyc arr fuel d g = (d', g', o) /\ core_of d' = m' /\ d_last d' = Some (cs_order (d_cs d')).
Proof.
  intros cyc arr fuel d g E. unfold sresume. rewrite sync_synced by auto. destruct (resume fuel (core_of d) g) as [[m' g'] o] eqn:R.
  exists (put_core d m'). split; auto. split; [|simpl; auto]. eapply core_of_put. eapply grown_resume; eauto.
Qed.
Lemma sdrive_bridge : forall cyc arr fuel steps d g acc, d_last d = Some (cs_order (d_cs d)) ->
  let '(m', g', acc', o) := drive steps fuel (core_of d) g acc in
  exists d', sdrive cyc arr steps fuel d g acc = (d', g', acc', o) /\ core_of d' = m' /\ d_last d' = Some (cs_order (d_cs d')).
Proof.
  intros cyc arr fuel. induction steps as [|k IH]; intros d g acc E; cbn [drive sdrive]; [eauto|].
  pose proof (sresume_bridge cyc arr fuel d g E) as B. destruct (resume fuel (core_of d) g) as [[m' g'] o]. destruct B as (d' & S & C & L). rewrite S.
  destruct o; try (exists d'; auto; fail). rewrite <- C. apply IH; auto.
Qed.

(** the current graph of conditions that keep the nodes is well-formed *)
Lemma modify_keeps : forall cyc w s g g', keeps_nodes s -> wf_graph g -> closed_graph g -> gsc_owner_ok s w = true ->
  modify_graph cyc (Some w) s g = Ok g' -> wf_graph g' /\ closed_graph g' /\ gkeys g' = gkeys g.
Proof.
  intros cyc w s g g' K W C O M. destruct s as [u|p|n|n].
  2,3,4: match type of M with modify_graph _ _ ?s _ = _ => assert (B : builtin s) by (intros f X; discriminate) end;
    destruct (modify_keys _ _ _ _ _ B W C O M) as (A1 & A2 & A3 & _); auto.
  unfold modify_graph in M. simpl in M. unfold custom_process in M.
  assert (Ec : unload (hclone (load g)) = clone_graph g).
  { unfold hclone. rewrite HeapFacts.unload_hload, GSCProps.unload_load. auto. }
  destruct (GraphFacts.clone_graph_same g) as (Ek & Ee & _).
  assert (Wc : wf_graph (unload (hclone (load g)))) by (rewrite Ec; unfold wf_graph; rewrite Ek; auto).
  assert (Cc : closed_graph (unload (hclone (load g)))) by (rewrite Ec; intros a b X; rewrite Ek; apply Ee in X; eauto).
  assert (X : forall o, bind (u_call u o (hclone (load g))) (fun h => Ok (unload h)) = Ok g' -> wf_graph g' /\ closed_graph g' /\ gkeys g' = gkeys g).
  { intros o B. destruct (u_call u o (hclone (load g))) as [r|] eqn:U; [|discriminate]. injection B as <-.
    destruct (K u eq_refl _ _ _ U Wc Cc) as (A1 & A2 & A3). split; auto. split; auto. rewrite A3, Ec. auto. }
  destruct (u_self u) as [[|]|]; [eauto|discriminate|eauto].
Qed.
Lemma applies_wf : forall cyc L g g', applies cyc g L g' -> wf_graph g -> closed_graph g ->
  (forall w s, In (w, s) L -> keeps_nodes (sc_gsc s) /\ gsc_owner_ok (sc_gsc s) w = true) -> wf_graph g' /\ closed_graph g' /\ gkeys g' = gkeys g.
Proof.
  intros cyc L g g' A. induction A; intros W C B; auto. destruct (B w s (or_introl eq_refl)) as [B1 B2].
  destruct (modify_keeps _ _ _ _ _ B1 W C B2 H) as (W1 & C1 & K). destruct IHA as (W2 & C2 & K2); auto; [intros; apply B; right; auto|].
  split; auto. split; auto. congruence.
Qed.
Theorem run_state : forall cyc arr is_s nx input base conds tc deid exact du ow w r d0 ks d g d',
  (forall q, Forall2 (@Permutation node) q (arr q)) -> arg_graph input = Ok base -> wf_graph base -> closed_graph base ->
  new_sched cyc arr input conds tc deid exact du ow nx w = (Ok r, d0) -> performs cyc arr ks d0 = Some d ->
  well_kinded is_s nx (SAddSet conds :: set_calls ks) -> added_once (SAddSet conds :: set_calls ks) ->
  (forall p, In p (registered_struct (SAddSet conds :: set_calls ks)) -> keeps_nodes (sc_gsc (snd p))) ->
  get_graph cyc arr d = (Ok g, d') -> ~ cyclic g ->
  m_graph (core_of d') = g /\ queue_built (core_of d') /\ m_nodes (core_of d') = gkeys g /\
  forall steps fuel gen, let '(m', gen', ys, o) := drive steps fuel (core_of d') gen [] in
    exists d'', sdrive cyc arr steps fuel d gen [] = (d'', gen', ys, o) /\ (steps > 0 -> core_of d'' = m').
Proof.
  intros cyc arr is_s nx input base conds tc deid exact du ow w r d0 ks d g d' AR AG W C N P WK AO BI G NC.
  pose proof (sinv_history _ _ _ _ _ _ _ _ _ _ _ _ _ _ _ _ _ AG N P WK AO) as I. set (L := registered_struct _) in *.
  unfold get_graph in G. destruct (sync cyc arr d) as [[r'|] d1] eqn:S; [|discriminate]. inversion G; subst; clear G.
  destruct (sync_inv _ _ _ _ _ _ _ _ _ _ I S) as (I1 & (SL & ST) & Q). destruct (stack_top _ _ _ _ _ ST) as (g1 & st & E & A).
  assert (TG : top_graph d' = g1) by (unfold top_graph; rewrite E; auto). assert (TQ : top_queue d' = queue_of arr g1) by (unfold top_queue; rewrite E; auto).
  destruct (applies_wf _ _ _ _ A W C) as (W1 & C1 & K1).
  { intros n s X. split; [apply (BI (n, s)); auto|]. eapply si_kindH; [exact I|]. eapply si_sub; [exact I|]. exact X. }
  rewrite TG in *. split; [exact TG|]. split; [|split].
  - split; simpl; rewrite TG; auto. destruct (toposort g1) as [q| |] eqn:T.
    + exists q. split; auto. rewrite TQ. unfold queue_of. rewrite T. auto.
    + exfalso. apply NC. apply TopoProofs.toposort_cycle_iff; auto.
    + exfalso. destruct (proj2 (TopoProofs.toposort_ok_iff g1 W1) NC) as (q & X). congruence.
  - simpl. rewrite (si_nodes _ _ _ _ _ _ _ _ I1). congruence.
  - assert (SD : d_last d' = Some (cs_order (d_cs d'))) by (rewrite SL, (si_order _ _ _ _ _ _ _ _ I1); auto).
    intros steps fuel gen. pose proof (sdrive_bridge cyc arr fuel steps d' gen [] SD) as B.
    destruct (drive steps fuel (core_of d') gen []) as [[[m' gen'] ys] o] eqn:D. destruct B as (d'' & B & CC & _).
    destruct steps as [|k].
    + cbn in *. inversion D; subst. exists d. split; auto. lia.
    + exists d''. split; auto. rewrite <- B. cbn [sdrive]. unfold sresume. rewrite S, (sync_synced _ _ _ SD). auto.
Qed.

(** ** removing a condition undoes it *)
Lemma fresh_filter : forall L s, ~ In (sc_oid s) (map soid L) -> filter (fun p => negb (Nat.eqb (sc_oid (snd p)) (sc_oid s))) L = L.
Proof.
  intros L s N. apply filter_all. intros p P. destruct (Nat.eqb_spec (sc_oid (snd p)) (sc_oid s)); auto. exfalso. apply N. rewrite <- e. apply (in_map soid) in P. auto.
Qed.
Lemma remove_undoes : forall L w s, ~ In (sc_oid s) (map soid L) ->
  fold_left reg_struct [SAdd w (Struct s); SRemove (Struct s)] L = L.
Proof.
  intros L w s N. simpl. rewrite filter_app. simpl. rewrite Nat.eqb_refl. simpl. rewrite app_nil_r. apply fresh_filter; auto.
Qed.

(** ** a failing condition added to a scheduler whose graph is up to date *)
Lemma common_prefix_self : forall a s, common_prefix (a ++ [s]) a = length a.
Proof. induction a as [|x a IH]; intros s; simpl; auto. rewrite Nat.eqb_refl. auto. Qed.
Lemma failed_add : forall cyc arr w s d ex d1, d_last d = Some (cs_order (d_cs d)) -> d_stack d <> [] ->
  add_condition cyc arr w (Struct s) d = (Err ex, d1) ->
  d1 = d \/ exists cs ow, cs_add w (Struct s) (d_cs d) (d_owners d) = Ok (cs, ow) /\ d1 = set_cs d cs ow.
Proof.
  intros cyc arr w s d ex d1 E NE A. unfold add_condition in A. destruct (cs_add w (Struct s) (d_cs d) (d_owners d)) as [[cs ow]|] eqn:C; [|inversion A; subst; auto].
  assert (EO : cs_order cs = cs_order (d_cs d) ++ [s]) by (simpl in C; destruct (gsc_owner_ok _ _); inversion C; auto).
  right. exists cs, ow. split; auto.
  unfold sync in A. change (cs_order (d_cs (set_cs d cs ow))) with (cs_order cs) in A. change (d_last (set_cs d cs ow)) with (d_last d) in A.
  change (d_stack (set_cs d cs ow)) with (d_stack d) in A. change (d_owners (set_cs d cs ow)) with ow in A. rewrite E, EO in A.
  unfold same_order in A. destruct (list_eq_dec _ _ _) as [X|X]; [discriminate|].
  cbv zeta in A. rewrite common_prefix_self, Nat.sub_diag in A. cbn [pop_graphs] in A. destruct (d_stack d) as [|[g q] st] eqn:DS; [congruence|].
  rewrite skipn_app, skipn_all, Nat.sub_diag in A. cbn [app skipn push_conds] in A.
  destruct (modify_graph cyc (ow (sc_oid s)) (sc_gsc s) g); [discriminate|]. inversion A; subst. unfold set_stack, set_cs. simpl. rewrite DS, E. auto.
Qed.
(** ... is undone by removing it *)
Theorem failed_add_recover : forall cyc arr is_s nx input base conds tc deid exact du ow w0 r0 d0 ks d g d1 w s ex d2 r d3,
  arg_graph input = Ok base -> new_sched cyc arr input conds tc deid exact du ow nx w0 = (Ok r0, d0) -> performs cyc arr ks d0 = Some d ->
  well_kinded is_s nx (SAddSet conds :: set_calls ks ++ [SAdd w (Struct s)]) -> added_once (SAddSet conds :: set_calls ks ++ [SAdd w (Struct s)]) ->
  get_graph cyc arr d = (Ok g, d1) -> add_condition cyc arr w (Struct s) d1 = (Err ex, d2) -> remove_condition (Struct s) d2 = (Ok r, d3) ->
  fst (get_graph cyc arr d3) = Ok g.
Proof.
  intros cyc arr is_s nx input base conds tc deid exact du ow w0 r0 d0 ks d g d1 w s ex d2 r d3 AG N P [HI WK] AO G A R.
  assert (WK' : well_kinded is_s nx (SAddSet conds :: set_calls ks)).
  { split; auto. intros k a K. apply WK. destruct K as [K|K]; [left; auto|right; apply in_or_app; auto]. }
  unfold added_once in AO. rewrite app_comm_cons, flat_map_app, structs_app, map_app in AO. simpl in AO.
  apply NoDup_app_inv in AO. destruct AO as (AO & _ & FR).
  pose proof (sinv_history _ _ _ _ _ _ _ _ _ _ _ _ _ _ _ _ _ AG N P WK' AO) as I.
  set (L := registered_struct _) in *. set (H := structs (flat_map adds _)) in *.
  assert (FRH : ~ In (sc_oid s) (map soid H)) by (intros X; apply (FR (sc_oid s)); [exact X|simpl; auto]).
  unfold get_graph in G. destruct (sync cyc arr d) as [[r'|] d1'] eqn:S; [|discriminate]. inversion G; subst; clear G.
  destruct (sync_inv _ _ _ _ _ _ _ _ _ _ I S) as (I1 & (SL & ST) & Q). destruct (stack_top _ _ _ _ _ ST) as (g1 & st & E & AP).
  assert (TG : top_graph d1 = g1) by (unfold top_graph; rewrite E; auto). rewrite TG.
  assert (KS : kind_ok is_s (Struct s)) by (apply (WK (SAdd w (Struct s)) (Struct s)); [right; apply in_or_app; simpl; auto|simpl; auto]).
  assert (NE : d_stack d1 <> []) by (rewrite E; discriminate).
  assert (LF : forall H', incl H H' -> SINV cyc arr is_s nx base H' L d3 -> fst (get_graph cyc arr d3) = Ok g1).
  { intros H' _ I3. destruct (sync_total _ _ _ _ _ _ _ _ _ I3 AP) as (d' & S3). unfold get_graph. rewrite S3. simpl. f_equal.
    destruct (sync_inv _ _ _ _ _ _ _ _ _ _ I3 S3) as (_ & (_ & ST3) & _). destruct (stack_top _ _ _ _ _ ST3) as (g3 & st3 & E3 & AP3).
    unfold top_graph. rewrite E3. eapply applies_fun; eauto. }
  assert (FRL : ~ In (sc_oid s) (map soid L)).
  { intros X. apply FRH. apply in_map_iff in X. destruct X as (p & <- & X). apply in_map. eapply si_sub; [exact I1|exact X]. }
  destruct (failed_add cyc arr w s d1 ex d2) as [->|(cs & ow' & C & ->)]; auto.
  - rewrite SL, (si_order _ _ _ _ _ _ _ _ I1). auto.
  - pose proof (sinv_remove _ _ _ _ _ _ _ _ _ _ _ I1 KS R) as I3. simpl in I3. rewrite fresh_filter in I3 by auto. apply (LF H); auto. intros x X; auto.
  - assert (ND : NoDup (map soid (H ++ structs [(w, Struct s)]))).
    { rewrite map_app. simpl. apply NoDup_snoc; auto. }
    pose proof (sinv_add1 _ _ _ _ _ _ _ _ _ _ _ _ I1 KS ND C) as I2.
    pose proof (sinv_remove _ _ _ _ _ _ _ _ _ _ _ I2 KS R) as I3. simpl in I3. rewrite filter_app, fresh_filter in I3 by auto. simpl in I3. rewrite Nat.eqb_refl in I3. simpl in I3. rewrite app_nil_r in I3.
    apply (LF (H ++ [(w, s)])); auto. intros x X. apply in_or_app; auto.
Qed.

(** ** What a failed call leaves behind *)
Definition one_by_one (l : list (node * anycond)) : list setcall := map (fun p => SAdd (fst p) (snd p)) l.
Lemma performs_app : forall a b x y z, set_performs (one_by_one a) x = Some y -> set_performs (one_by_one b) y = z -> set_performs (one_by_one (a ++ b)) x = z.
Proof.
  induction a as [|k a IH]; intros b x y z A B; [injection A as ->; exact B|]. unfold one_by_one in *. cbn [map app set_performs] in *.
  destruct (set_perform (SAdd (fst k) (snd k)) x); [eapply IH; eauto|discriminate].
Qed.
Lemma add_list_split : forall w l cs ow r cs1 ow1, cs_add_list w l cs ow = (r, cs1, ow1) ->
  match r with
  | Ok _ => set_performs (one_by_one (map (pair w) l)) (cs, ow) = Some (cs1, ow1)
  | Err ex => exists l1 a l2, l = l1 ++ a :: l2 /\ set_performs (one_by_one (map (pair w) l1)) (cs, ow) = Some (cs1, ow1) /\ cs_add w a cs1 ow1 = Err ex
  end.
Proof.
  induction l as [|a l IH]; intros cs ow r cs1 ow1 H; cbn [cs_add_list] in H; [injection H as <- <- <-; reflexivity|].
  destruct (cs_add w a cs ow) as [[cs2 ow2]|ex] eqn:A.
  - specialize (IH _ _ _ _ _ H). simpl. rewrite A. destruct r as [u|ex]; [exact IH|]. destruct IH as (l1 & b & l2 & -> & P & E). exists (a :: l1), b, l2. simpl. rewrite A. auto.
  - injection H as <- <- <-. exists [], a, l. auto.
Qed.
Lemma add_set_split : forall s cs ow r cs1 ow1, cs_add_set s cs ow = (r, cs1, ow1) ->
  match r with
  | Ok _ => set_performs (one_by_one (adds (SAddSet s))) (cs, ow) = Some (cs1, ow1)
  | Err ex => exists l1 w a l2, adds (SAddSet s) = l1 ++ (w, a) :: l2 /\ set_performs (one_by_one l1) (cs, ow) = Some (cs1, ow1) /\ cs_add w a cs1 ow1 = Err ex
  end.
Proof.
  induction s as [|[w e] s IH]; intros cs ow r cs1 ow1 H; cbn [cs_add_set] in H; [injection H as <- <- <-; reflexivity|].
  destruct (cs_add_list w (entry_list e) cs ow) as [[r1 cs2] ow2] eqn:A. pose proof (add_list_split _ _ _ _ _ _ _ A) as X. destruct r1 as [u|ex].
  - specialize (IH _ _ _ _ _ H). change (adds (SAddSet ((w, e) :: s))) with (map (pair w) (entry_list e) ++ adds (SAddSet s)). destruct r as [u'|ex].
    + eapply performs_app; [exact X|exact IH].
    + destruct IH as (l1 & w' & a & l2 & -> & P & E). exists (map (pair w) (entry_list e) ++ l1), w', a, l2. rewrite <- app_assoc. split; [reflexivity|].
      split; [|exact E]. eapply performs_app; [exact X|exact P].
  - injection H as <- <- <-. destruct X as (l1 & a & l2 & El & P & E). exists (map (pair w) l1), w, a, (map (pair w) l2 ++ adds (SAddSet s)).
    change (adds (SAddSet ((w, e) :: s))) with (map (pair w) (entry_list e) ++ adds (SAddSet s)). rewrite El.
    split; [rewrite map_app, <- app_assoc; reflexivity|]. auto.
Qed.
Theorem failed_set : forall cyc arr s d ex d1, add_condition_set cyc arr s d = (Err ex, d1) ->
  (exists l1 w a l2, adds (SAddSet s) = l1 ++ (w, a) :: l2 /\ set_performs (one_by_one l1) (d_cs d, d_owners d) = Some (d_cs d1, d_owners d1) /\ cs_add w a (d_cs d1) (d_owners d1) = Err ex) \/
  set_performs (one_by_one (adds (SAddSet s))) (d_cs d, d_owners d) = Some (d_cs d1, d_owners d1).
Proof.
  intros cyc arr s d ex d1 H. unfold add_condition_set in H. destruct (cs_add_set s (d_cs d) (d_owners d)) as [[r cs] ow] eqn:A.
  pose proof (add_set_split _ _ _ _ _ _ A) as X. destruct r as [u|ex'].
  - right. destruct (sync_set_stack cyc arr _ _ _ H) as (st & l & ->). exact X.
  - left. injection H as <- <-. exact X.
Qed.
