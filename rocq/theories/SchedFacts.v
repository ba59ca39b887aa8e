(** The graph stack of a scheduler always corresponds to the registered structural conditions. *)
From Verif Require Import BaseFacts SpecSched CondSetFacts ResumeFrame.

Lemma NoDup_snoc : forall A (l : list A) x, NoDup l -> ~ In x l -> NoDup (l ++ [x]).
Proof.
  intros A l x N X. induction N; simpl; [repeat constructor; auto|]. constructor.
  - intros Y. apply in_app_or in Y. destruct Y as [Y|[Y|[]]]; auto. subst. apply X. left; auto.
  - apply IHN. intros Y. apply X. right; auto.
Qed.
Section Sched.
Variable cyc : graph -> list (list node).
Variable arr : list (list node) -> list (list node).
Variable is_s : oid -> bool.
Variable nx : oid.
Variable base : graph.

Definition soid (p : node * scond) : oid := sc_oid (snd p).
Inductive stack_ok : list (node * scond) -> list (graph * list (list node)) -> Prop :=
| so_nil : stack_ok [] [(base, queue_of arr base)]
| so_snoc : forall L w s g q st g', stack_ok L ((g, q) :: st) -> modify_graph cyc (Some w) (sc_gsc s) g = Ok g' ->
    stack_ok (L ++ [(w, s)]) ((g', queue_of arr g') :: (g, q) :: st).

Lemma applies_snoc : forall g L g1 w s g2, applies cyc g L g1 -> modify_graph cyc (Some w) (sc_gsc s) g1 = Ok g2 -> applies cyc g (L ++ [(w, s)]) g2.
Proof. intros g L g1 w s g2 A. induction A; intros M; simpl; econstructor; eauto. constructor. Qed.
Lemma applies_app : forall L g g1 L' g2, applies cyc g L g1 -> applies cyc g1 L' g2 -> applies cyc g (L ++ L') g2.
Proof. intros L g g1 L' g2 A. induction A; intros M; simpl; auto. econstructor; eauto. Qed.
Lemma applies_split : forall L L' g g2, applies cyc g (L ++ L') g2 -> exists g1, applies cyc g L g1 /\ applies cyc g1 L' g2.
Proof.
  induction L as [|p L IH]; intros L' g g2 A; simpl in A.
  - exists g. split; auto. constructor.
  - inversion A; subst. destruct (IH _ _ _ H4) as (x & X & Y). exists x. split; auto. econstructor; eauto.
Qed.
Lemma applies_fun : forall g L g1, applies cyc g L g1 -> forall g2, applies cyc g L g2 -> g1 = g2.
Proof. intros g L g1 A. induction A; intros g3 A2; inversion A2; subst; auto. rewrite H in H5. inversion H5; subst; auto. Qed.

Lemma stack_top : forall L st, stack_ok L st -> exists g st', st = (g, queue_of arr g) :: st' /\ applies cyc base L g.
Proof.
  intros L st H. induction H.
  - exists base, []. split; auto. constructor.
  - destruct IHstack_ok as (g0 & st0 & E & A). inversion E; subst. exists g', ((g0, queue_of arr g0) :: st0). split; auto. eapply applies_snoc; eauto.
Qed.
Lemma stack_length : forall L st, stack_ok L st -> length st = S (length L).
Proof. intros L st H. induction H; simpl in *; auto. rewrite app_length. simpl in *. lia. Qed.
Lemma stack_pop : forall k L st, stack_ok L st -> k <= length L -> exists st', pop_graphs (length L - k) st = (Ok tt, st') /\ stack_ok (firstn k L) st'.
Proof.
  intros k L st H. revert k. induction H; intros k K.
  - exists [(base, queue_of arr base)]. destruct k; simpl; split; auto; constructor.
  - rewrite app_length in *. simpl in K. destruct (Nat.eq_dec k (length L + 1)) as [->|D].
    + exists ((g', queue_of arr g') :: (g, q) :: st). simpl. rewrite Nat.sub_diag. split; auto.
      replace (length L + 1) with (length (L ++ [(w, s)])) by (rewrite app_length; auto). rewrite firstn_all. econstructor; eauto.
    + destruct (IHstack_ok k) as (st' & P & SS); [lia|]. exists st'. simpl length. replace (length L + 1 - k) with (S (length L - k)) by lia. split; [exact P|].
      rewrite firstn_app. replace (k - length L) with 0 by lia. simpl. rewrite app_nil_r. auto.
Qed.
Lemma stack_push : forall L2 L1 ow g q st r st', stack_ok L1 ((g, q) :: st) -> (forall w s, In (w, s) L2 -> ow (sc_oid s) = Some w) ->
  push_conds cyc arr (map snd L2) ow g ((g, q) :: st) = (Ok r, st') -> stack_ok (L1 ++ L2) st'.
Proof.
  induction L2 as [|[w s] L2 IH]; intros L1 ow g q st r st' H O P; cbn [map snd push_conds] in P.
  - inversion P; subst. rewrite app_nil_r; auto.
  - rewrite (O w s) in P by (left; auto). destruct (modify_graph cyc (Some w) (sc_gsc s) g) as [g1|] eqn:M; [|discriminate].
    replace (L1 ++ (w, s) :: L2) with ((L1 ++ [(w, s)]) ++ L2) by (rewrite <- app_assoc; auto).
    eapply IH; [| |exact P]; [econstructor; eauto|]. intros; apply O; right; auto.
Qed.
Lemma stack_push_total : forall L2 ow g q st g2, applies cyc g L2 g2 -> (forall w s, In (w, s) L2 -> ow (sc_oid s) = Some w) ->
  exists st', push_conds cyc arr (map snd L2) ow g ((g, q) :: st) = (Ok tt, st').
Proof.
  intros L2 ow g q st g2 A. revert q st. induction A; intros q st O; cbn [map snd push_conds]; [eauto|].
  rewrite (O w s) by (left; auto). rewrite H. apply IHA. intros; apply O; right; auto.
Qed.

(** ** the invariant of a scheduler *)
Record SINV (H L : list (node * scond)) (d : sched) : Prop := {
  si_next : nx <= d_next d;
  si_nodup : NoDup (map soid H);
  si_sub : incl L H;
  si_ndL : NoDup (map soid L);
  si_order : cs_order (d_cs d) = map snd L;
  si_owners : forall w s, In (w, s) H -> d_owners d (sc_oid s) = Some w;
  si_struct : forall w, aget w (cs_struct (d_cs d)) = lookup_owned (owned w L);
  si_kindH : forall w s, In (w, s) H -> is_s (sc_oid s) = true /\ gsc_owner_ok (sc_gsc s) w = true;
  si_kindB : forall w c, aget w (cs_basic (d_cs d)) = Some c -> forall o, In o (oids c) -> is_s o = false;
  si_high : forall o, nx <= o -> is_s o = false;
  si_nodes : d_nodes d = gkeys base;
  si_keys : NoDup (akeys (cs_basic (d_cs d))) /\ NoDup (akeys (cs_struct (d_cs d)));
  si_stack : exists LL, match d_last d with None => LL = [] | Some l => l = map snd LL end /\ incl LL H /\ stack_ok LL (d_stack d)
}.
Definition synced (L : list (node * scond)) (d : sched) : Prop := d_last d = Some (map snd L) /\ stack_ok L (d_stack d).

Lemma same_pair : forall H p q, NoDup (map soid H) -> In p H -> In q H -> soid p = soid q -> p = q.
Proof.
  induction H as [|x H IH]; simpl; intros p q N P Q E; [tauto|]. inversion N; subst.
  destruct P as [<-|P], Q as [<-|Q]; auto.
  - exfalso. apply H2. rewrite E. apply in_map; auto.
  - exfalso. apply H2. rewrite <- E. apply in_map; auto.
Qed.
Lemma same_list : forall H L LL, NoDup (map soid H) -> incl L H -> incl LL H -> map soid L = map soid LL -> L = LL.
Proof.
  induction L as [|p L IH]; intros [|q LL] N I J E; simpl in E; try discriminate; auto. inversion E. f_equal.
  - eapply same_pair; eauto; [apply I|apply J]; left; auto.
  - apply IH; auto; intros x X; [apply I|apply J]; right; auto.
Qed.
Lemma common_prefix_spec : forall H L LL, NoDup (map soid H) -> incl L H -> incl LL H ->
  let k := common_prefix (map snd L) (map snd LL) in firstn k L = firstn k LL /\ k <= length L /\ k <= length LL.
Proof.
  intros H L. induction L as [|p L IH]; intros [|q LL] N I J; cbv zeta; simpl; auto; try (split; [auto|split; lia]).
  destruct (Nat.eqb_spec (sc_oid (snd p)) (sc_oid (snd q))) as [E|E]; simpl; [|split; [auto|split; lia]].
  destruct (IH LL) as (A & B & C); auto; [intros x X; apply I; right; auto|intros x X; apply J; right; auto|].
  split; [|split; lia]. f_equal; auto. eapply same_pair; eauto; [apply I|apply J]; left; auto.
Qed.

Lemma sync_inv : forall H L d r d', SINV H L d -> sync cyc arr d = (Ok r, d') ->
  SINV H L d' /\ synced L d' /\ d' = set_stack d (d_stack d') (d_last d').
Proof.
  intros H L d r d' I E. destruct (si_stack _ _ _ I) as (LL & EL & IL & ST). pose proof (si_order _ _ _ I) as EO.
  unfold sync in E. destruct (match d_last d with Some l => same_order l (cs_order (d_cs d)) | None => false end) eqn:SM.
  - inversion E; subst d' r. split; auto. split; [|destruct d; reflexivity]. destruct (d_last d) as [l|] eqn:DL; [|discriminate]. subst l.
    unfold same_order in SM. destruct (list_eq_dec _ _ _) as [SE|]; [|discriminate]. rewrite EO, !map_map in SE.
    assert (L = LL) by (eapply same_list; eauto using si_nodup, si_sub). subst LL. split; auto.
  - cbv zeta in E. assert (EL' : match d_last d with Some l => l | None => [] end = map snd LL) by (destruct (d_last d); subst; auto).
    rewrite EL', EO in E. pose proof (common_prefix_spec H L LL (si_nodup _ _ _ I) (si_sub _ _ _ I) IL) as CP. cbv zeta in CP.
    set (k := common_prefix (map snd L) (map snd LL)) in *. destruct CP as (CP & K1 & K2).
    rewrite map_length in E. destruct (stack_pop k LL _ ST K2) as (st1 & PG & ST1). rewrite PG in E.
    destruct (stack_top _ _ ST1) as (g & st0 & -> & A). rewrite skipn_map in E.
    destruct (push_conds cyc arr (map snd (skipn k L)) (d_owners d) g _) as [[r'|] st'] eqn:PC; [|discriminate]. inversion E; subst d' r.
    assert (S2 : stack_ok L st').
    { rewrite <- (firstn_skipn k L). rewrite CP. eapply stack_push; eauto. intros w s X. eapply si_owners; eauto.
      eapply si_sub; eauto. rewrite <- (firstn_skipn k L). apply in_or_app; auto. }
    split; [|split; [split; auto|reflexivity]].
    destruct I. constructor; simpl; auto. exists L. split; auto.
Qed.
Lemma sync_total : forall H L d g, SINV H L d -> applies cyc base L g -> exists d', sync cyc arr d = (Ok tt, d').
Proof.
  intros H L d g0 I AP. destruct (si_stack _ _ _ I) as (LL & EL & IL & ST). pose proof (si_order _ _ _ I) as EO.
  unfold sync. destruct (match d_last d with Some l => same_order l (cs_order (d_cs d)) | None => false end) eqn:SM; [eauto|].
  cbv zeta. assert (EL' : match d_last d with Some l => l | None => [] end = map snd LL) by (destruct (d_last d); subst; auto).
  rewrite EL', EO. pose proof (common_prefix_spec H L LL (si_nodup _ _ _ I) (si_sub _ _ _ I) IL) as CP. cbv zeta in CP.
  set (k := common_prefix (map snd L) (map snd LL)) in *. destruct CP as (CP & K1 & K2).
  rewrite map_length. destruct (stack_pop k LL _ ST K2) as (st1 & PG & ST1). rewrite PG.
  destruct (stack_top _ _ ST1) as (g & st0 & -> & A). rewrite skipn_map.
  rewrite <- (firstn_skipn k L) in AP. apply applies_split in AP. destruct AP as (g1 & A1 & A2). rewrite CP in A1.
  assert (g1 = g) by (eapply applies_fun; eauto). subst g1.
  destruct (stack_push_total (skipn k L) (d_owners d) g (queue_of arr g) st0 g0 A2) as (st' & E).
  - intros w s X. eapply si_owners; eauto. eapply si_sub; eauto. rewrite <- (firstn_skipn k L). apply in_or_app; auto.
  - rewrite E. eauto.
Qed.

(** ** calls *)
Definition kind_ok (a : anycond) : Prop := match a with Struct s => is_s (sc_oid s) = true | Basic c => forall o, In o (oids c) -> is_s o = false end.
Lemma sinv_add1 : forall H L d w a cs ow, SINV H L d -> kind_ok a -> NoDup (map soid (H ++ structs [(w, a)])) ->
  cs_add w a (d_cs d) (d_owners d) = Ok (cs, ow) ->
  SINV (H ++ structs [(w, a)]) (L ++ structs [(w, a)]) (set_cs d cs ow).
Proof.
  intros H L d w a cs ow I K N E. destruct I as [i1 i2 i3 i4 i5 i6 i7 i8 i9 i10 i11 [i13 i14] i12]. destruct a as [c|s]; simpl in E.
  - inversion E; subst; clear E. simpl. rewrite !app_nil_r. constructor; simpl; auto; try (split; auto using NoDup_aset, NoDup_adel; fail).
    + intros w' s' X. rewrite set_owner_other; auto. intros Y. apply K in Y. destruct (i8 _ _ X). congruence.
    + intros w' c' X. rewrite aget_aset in X. destruct (Nat.eqb w' w); [inversion X; subst; auto|eauto].
  - destruct (gsc_owner_ok (sc_gsc s) w) eqn:GO; [|discriminate]. inversion E; subst; clear E. simpl in N |- *.
    assert (NS : forall w' s', In (w', s') H -> sc_oid s' <> sc_oid s).
    { intros w' s' X Y. rewrite map_app in N. apply NoDup_app_inv in N. destruct N as (_ & _ & N). apply (N (sc_oid s')); [apply (in_map soid) in X; auto|left; auto]. }
    constructor; simpl; auto; try (split; auto using NoDup_aset, NoDup_adel; fail).
    + intros p P. apply in_app_or in P. apply in_or_app. destruct P; auto.
    + rewrite map_app. simpl. apply NoDup_snoc; auto. intros X. apply in_map_iff in X. destruct X as ([w' s'] & X & Y). exact (NS _ _ (i3 _ Y) X).
    + rewrite map_app, i5. auto.
    + intros w' s' X. apply in_app_or in X. destruct X as [X|[X|[]]].
      * rewrite upd_other; eauto.
      * inversion X; subst. apply upd_same.
    + intros w'. rewrite aget_aset, owned_app. unfold owned at 2. simpl. rewrite (Nat.eqb_sym w w'). destruct (Nat.eqb_spec w' w) as [->|D].
      * rewrite i7. destruct (owned w L); simpl; auto.
      * rewrite i7. simpl. rewrite app_nil_r. auto.
    + intros w' s' X. apply in_app_or in X. destruct X as [X|[X|[]]]; auto. inversion X; subst; auto.
    + destruct i12 as (LL & A & B & C). exists LL. split; auto. split; auto. intros p P. apply in_or_app. auto.
Qed.
Lemma sinv_add_list : forall w l H L d r cs ow, SINV H L d -> (forall a, In a l -> kind_ok a) ->
  NoDup (map soid (H ++ structs (map (pair w) l))) -> cs_add_list w l (d_cs d) (d_owners d) = (Ok r, cs, ow) ->
  SINV (H ++ structs (map (pair w) l)) (L ++ structs (map (pair w) l)) (set_cs d cs ow).
Proof.
  induction l as [|a l IH]; intros H L d r cs ow I K N E; cbn [map cs_add_list] in *.
  - inversion E; subst. simpl. rewrite !app_nil_r. replace (set_cs d (d_cs d) (d_owners d)) with d by (destruct d; auto). auto.
  - destruct (cs_add w a (d_cs d) (d_owners d)) as [[cs1 ow1]|] eqn:A; [|discriminate].
    replace ((w, a) :: map (pair w) l) with ([(w, a)] ++ map (pair w) l) in * by reflexivity.
    rewrite structs_app, !app_assoc in *.
    assert (N1 : NoDup (map soid (H ++ structs [(w, a)]))) by (rewrite map_app in N; apply NoDup_app_inv in N; tauto).
    pose proof (sinv_add1 _ _ _ _ _ _ _ I (K a (or_introl eq_refl)) N1 A) as I1.
    exact (IH _ _ (set_cs d cs1 ow1) r cs ow I1 (fun a X => K a (or_intror X)) N E).
Qed.
Lemma sinv_add_set : forall s H L d r cs ow, SINV H L d -> (forall a, In a (map snd (adds (SAddSet s))) -> kind_ok a) ->
  NoDup (map soid (H ++ structs (adds (SAddSet s)))) -> cs_add_set s (d_cs d) (d_owners d) = (Ok r, cs, ow) ->
  SINV (H ++ structs (adds (SAddSet s))) (L ++ structs (adds (SAddSet s))) (set_cs d cs ow).
Proof.
  induction s as [|[w e] s IH]; intros H L d r cs ow I K N E; cbn [cs_add_set] in *.
  - inversion E; subst. simpl. rewrite !app_nil_r. replace (set_cs d (d_cs d) (d_owners d)) with d by (destruct d; auto). auto.
  - destruct (cs_add_list w (entry_list e) (d_cs d) (d_owners d)) as [[[r1|] cs1] ow1] eqn:A; [|discriminate].
    change (adds (SAddSet ((w, e) :: s))) with (map (pair w) (entry_list e) ++ adds (SAddSet s)) in *.
    rewrite structs_app, !app_assoc in *.
    assert (N1 : NoDup (map soid (H ++ structs (map (pair w) (entry_list e))))) by (rewrite map_app in N; apply NoDup_app_inv in N; tauto).
    assert (K1 : forall a, In a (entry_list e) -> kind_ok a).
    { intros a X. apply K. rewrite map_app, map_map. apply in_or_app. left. simpl. rewrite map_id. auto. }
    pose proof (sinv_add_list _ _ _ _ _ _ _ _ I K1 N1 A) as I1.
    refine (IH _ _ (set_cs d cs1 ow1) r cs ow I1 _ N E). intros a X. apply K. rewrite map_app. apply in_or_app. auto.
Qed.
Lemma sinv_remove : forall H L d a r d', SINV H L d -> kind_ok a -> remove_condition a d = (Ok r, d') -> SINV H (reg_struct L (SRemove a)) d'.
Proof.
  intros H L d a r d' I K E. unfold remove_condition in E. destruct (cs_remove_cond a (d_cs d) (d_owners d)) as [[r0 cs] ow] eqn:C.
  inversion E; subst; clear E. unfold cs_remove_cond in C. destruct (d_owners d (any_oid a)) as [w|] eqn:OW; [|discriminate].
  destruct I as [i1 i2 i3 i4 i5 i6 i7 i8 i9 i10 i11 [i13 i14] i12].
  destruct a as [c|s]; simpl any_oid in *.
  - (* basic *)
    assert (X : reg_struct L (SRemove (Basic c)) = L) by (simpl; apply app_nil_r). rewrite X. clear X.
    assert (NL : forall l, aget w (cs_struct (d_cs d)) = Some l -> has_oid (cond_oid c) l = false).
    { intros l X. destruct (has_oid (cond_oid c) l) eqn:Y; auto. apply has_oid_spec in Y. destruct Y as (s & Y & Z).
      rewrite i7 in X. unfold lookup_owned in X. destruct (owned w L) eqn:O; [discriminate|]. inversion X; subst. rewrite <- O in Y.
      apply owned_In in Y. destruct (i8 _ _ (i3 _ Y)) as [Q _]. rewrite Z in Q. rewrite (K (cond_oid c)) in Q; [discriminate|apply cond_oid_in]. }
    destruct (match aget w (cs_basic (d_cs d)) with Some c0 => Nat.eqb (cond_oid c0) (cond_oid c) | None => false end) eqn:IB.
    + inversion C; subst; clear C. constructor; simpl; auto; try (split; auto using NoDup_aset, NoDup_adel; fail).
      * intros w' s' X. rewrite set_owner_other; auto. intros Y. apply K in Y. destruct (i8 _ _ X). congruence.
      * intros w' c' X. rewrite aget_adel in X by auto. destruct (Nat.eqb w' w); [discriminate|eauto].
    + unfold cs_remove_struct in C. destruct (aget w (cs_struct (d_cs d))) as [l|] eqn:AW.
      * rewrite (NL _ eq_refl) in C. inversion C; subst. constructor; simpl; auto; try (split; auto using NoDup_aset, NoDup_adel; fail).
      * inversion C; subst. constructor; simpl; auto; try (split; auto using NoDup_aset, NoDup_adel; fail).
  - simpl reg_struct. destruct (match aget w (cs_basic (d_cs d)) with Some c0 => Nat.eqb (cond_oid c0) (sc_oid s) | None => false end) eqn:IB.
    { exfalso. destruct (aget w (cs_basic (d_cs d))) as [c0|] eqn:B; [|discriminate]. apply Nat.eqb_eq in IB.
      pose proof (i9 _ _ B (cond_oid c0) (cond_oid_in c0)). simpl in K. congruence. }
    assert (NDo : NoDup (map sc_oid (map snd L))) by (rewrite map_map; exact i4).
    assert (NDw : NoDup (map sc_oid (owned w L))) by (unfold owned; rewrite map_map; apply NoDup_map_filter; exact i4).
    unfold cs_remove_struct in C. rewrite i7 in C. destruct (has_oid (sc_oid s) (owned w L)) eqn:HO.
    + assert (HL : lookup_owned (owned w L) = Some (owned w L)) by (destruct (owned w L); [discriminate|auto]).
      rewrite HL in C. rewrite HO in C. apply has_oid_spec in HO. destruct HO as (s' & HI & HE). apply owned_In in HI.
      assert (HC : has_oid (sc_oid s) (cs_order (d_cs d)) = true).
      { apply has_oid_spec. exists s'. split; auto. rewrite i5. apply (in_map snd) in HI; auto. }
      rewrite HC in C. inversion C; subst; clear C. constructor; simpl; auto; try (split; auto; destruct (remove_first _ _); auto using NoDup_aset, NoDup_adel; fail).
      * intros p P. apply filter_In in P. apply i3, P.
      * apply NoDup_map_filter; auto.
      * rewrite i5, remove_first_filter by auto. rewrite filter_map. auto.
      * intros w'. rewrite owned_filter. rewrite (remove_first_filter _ _ NDw). destruct (Nat.eqb_spec w' w) as [->|D].
        -- destruct (filter _ (owned w L)) as [|x l] eqn:F; simpl.
           ++ rewrite aget_adel, Nat.eqb_refl by auto. auto.
           ++ rewrite aget_aset, Nat.eqb_refl. auto.
        -- rewrite (filter_all _ _ (owned w' L)).
           ++ destruct (filter _ (owned w L)); rewrite ?aget_adel, ?aget_aset by auto; apply Nat.eqb_neq in D; rewrite D; apply i7.
           ++ intros x X. apply owned_In in X. destruct (Nat.eqb_spec (sc_oid x) (sc_oid s)) as [Q|]; auto. exfalso. apply D.
              assert (P : (w', x) = (w, s')) by (apply (same_pair H); auto; unfold soid; simpl; congruence). inversion P; auto.
    + assert (FA : filter (fun p => negb (Nat.eqb (sc_oid (snd p)) (sc_oid s))) L = L).
      { apply filter_all. intros [w' x] X. simpl. destruct (Nat.eqb_spec (sc_oid x) (sc_oid s)) as [Q|]; auto. exfalso.
        pose proof (i6 _ _ (i3 _ X)) as P. rewrite Q in P. rewrite OW in P. inversion P; subst w'.
        assert (has_oid (sc_oid s) (owned w L) = true) by (apply has_oid_spec; exists x; split; auto; apply owned_In; auto). congruence. }
      rewrite FA. destruct (lookup_owned (owned w L)) as [l|] eqn:LO.
      * assert (l = owned w L) by (unfold lookup_owned in LO; destruct (owned w L); inversion LO; auto). subst l. rewrite HO in C. inversion C; subst; constructor; simpl; auto; try (split; auto using NoDup_aset, NoDup_adel; fail).
      * inversion C; subst; constructor; simpl; auto; try (split; auto using NoDup_aset, NoDup_adel; fail).
Qed.
Lemma sinv_remove_owner : forall H L d w r d', SINV H L d -> remove_condition_owner w d = (Ok r, d') -> SINV H L d'.
Proof.
  intros H L d w r d' I E. unfold remove_condition_owner in E. destruct (cs_remove_owner w (d_cs d) (d_owners d)) as [[r0 cs] ow] eqn:C.
  inversion E; subst; clear E. unfold cs_remove_owner in C. destruct I as [i1 i2 i3 i4 i5 i6 i7 i8 i9 i10 i11 [i13 i14] i12].
  destruct (aget w (cs_basic (d_cs d))) as [c|] eqn:B.
  - destruct (aget w (cs_struct (d_cs d))) eqn:S; [discriminate|]. inversion C; subst; clear C. constructor; simpl; auto; try (split; auto using NoDup_aset, NoDup_adel; fail).
    + intros w' s' X. rewrite set_owner_other; auto. intros Y. destruct (i8 _ _ X). rewrite (i9 _ _ B _ Y) in *. discriminate.
    + intros w' c' X. rewrite aget_adel in X by auto. destruct (Nat.eqb w' w); [discriminate|eauto].
  - destruct (aget w (cs_struct (d_cs d))) as [[|s [|s2 l]]|] eqn:S; try discriminate.
    + inversion C; subst; constructor; simpl; auto; try (split; auto using NoDup_aset, NoDup_adel; fail).
    + destruct (cs_remove_struct w (sc_oid s) (d_cs d)); discriminate.
    + inversion C; subst; constructor; simpl; auto; try (split; auto using NoDup_aset, NoDup_adel; fail).
Qed.
Lemma put_core_self : forall d, put_core d (core_of d) = d.
Proof.
  intros d. destruct d as [a b c0 dd e f cs o1 n1 s1 l1 c1 x1]. destruct cs as [cb cst co cc cr]. unfold put_core, core_of. simpl.
  rewrite Nat.eqb_refl. simpl. rewrite orb_false_r. reflexivity.
Qed.
Lemma sresume_ok : forall fuel d g d' g' o, sresume cyc arr fuel d g = (d', g', o) -> (forall ex, o <> ORaise ex) ->
  exists d1 f m, resume f (core_of d1) g = (m, g', o) /\ d' = put_core d1 m /\
    ((exists r, sync cyc arr d = (Ok r, d1) /\ f = fuel) \/ (d1 = d /\ (o = OStop \/ exists l, o = OReturn l))).
Proof.
  intros fuel d g d' g' o H N. unfold sresume in H. destruct (sync cyc arr d) as [[r|ex] d1] eqn:S.
  - destruct (resume fuel (core_of d1) g) as [[m g1] o1] eqn:E. injection H as <- <- <-. exists d1, fuel, m. do 2 (split; [auto|]). left. exists r. auto.
  - exists d, 1. unfold sresume_failed in H. unfold resume. destruct (g_pc g) eqn:Pc.
    + injection H as <- <- <-. exfalso. eapply N; eauto.
    + destruct (incr_clock CSE (core_of d) (g_eid g)) as [m1|e1]; injection H as <- <- <-; exfalso; eapply N; eauto.
    + destruct (incr_clock CSE (core_of d) (g_eid g)) as [m1|e1]; [|injection H as <- <- <-; exfalso; eapply N; eauto].
      destruct (incr_clock PASS m1 (g_eid g)) as [m2|e1]; [|injection H as <- <- <-; exfalso; eapply N; eauto].
      cbn [outer]. destruct (terminated m2 (g_eid g) (g_tc g)) as [[[|]|e1] m3]; try (injection H as <- <- <-; exfalso; eapply N; eauto; fail).
      destruct (finish m3 g) as [[m4 g4] o4] eqn:F. injection H as <- <- <-. exists m4. do 2 (split; [auto|]). right. split; auto.
      assert (X : (exists ex, o4 = ORaise ex) \/ exists l, o4 = OReturn l).
      { revert F. unfold finish. clear. intros F.
        repeat match type of F with context [match ?x with _ => _ end] => destruct x end; injection F as _ _ <-; eauto. }
      destruct X as [(e2 & ->)|X]; [exfalso; eapply N; eauto|auto].
    + injection H as <- <- <-. exists (core_of d). split; [auto|]. split; [symmetry; apply put_core_self|]. auto.
Qed.
Lemma sinv_put : forall H L d e m, SINV H L d -> grown e (core_of d) m -> SINV H L (put_core d m).
Proof.
  intros H L d e m [i1 i2 i3 i4 i5 i6 i7 i8 i9 i10 i11 [i13 i14] i12] G. destruct G as [g1 g2 g3 g4 g5 g6 g7 g8 g9 g10 g11 g12 g13]. simpl in *.
  constructor; simpl; auto; try (split; auto using NoDup_aset, NoDup_adel; fail).
  - lia.
  - intros w s X. rewrite g8; auto. destruct (i8 _ _ X) as [Q _]. destruct (Nat.lt_ge_cases (sc_oid s) (d_next d)); auto. rewrite (i10 (sc_oid s)) in Q by lia. discriminate.
  - intros w c X o O. destruct (g9 _ _ X) as [Y|[_ Y]]; [eauto|]. apply i10. specialize (Y o O). lia.
Qed.
Lemma sinv_perform : forall k H L d d', SINV H L d ->
  (forall s a, k = CSet s -> In a (mentioned s) -> kind_ok a) ->
  NoDup (map soid (H ++ structs (flat_map adds (set_calls [k])))) ->
  perform cyc arr k d = Some d' ->
  SINV (H ++ structs (flat_map adds (set_calls [k]))) (fold_left reg_struct (set_calls [k]) L) d'.
Proof.
  intros k H L d d' I K N P. destruct k as [[w a|s|a|w]| |t|f g|e]; simpl set_calls in *; cbn [flat_map adds fold_left app] in *; rewrite ?app_nil_r in *; simpl in P.
  - unfold ok_sched, add_condition in P. destruct (cs_add w a (d_cs d) (d_owners d)) as [[cs ow]|] eqn:A; [|discriminate].
    destruct (sync cyc arr (set_cs d cs ow)) as [[|] d1] eqn:S; [|discriminate]. inversion P; subst.
    assert (I1 : SINV (H ++ structs [(w, a)]) (L ++ structs [(w, a)]) (set_cs d cs ow)).
    { eapply sinv_add1; eauto. apply (K (SAdd w a)); simpl; auto. }
    eapply sync_inv in S; eauto. apply S.
  - unfold ok_sched, add_condition_set in P. destruct (cs_add_set s (d_cs d) (d_owners d)) as [[[r|] cs] ow] eqn:A; [|discriminate].
    destruct (sync cyc arr (set_cs d cs ow)) as [[|] d1] eqn:S; [|discriminate]. inversion P; subst.
    assert (I1 : SINV (H ++ structs (adds (SAddSet s))) (L ++ structs (adds (SAddSet s))) (set_cs d cs ow)).
    { eapply sinv_add_set; eauto. }
    eapply sync_inv in S; eauto. apply S.
  - unfold ok_sched in P. destruct (remove_condition a d) as [[r|] d1] eqn:R; [|discriminate]. inversion P; subst.
    eapply sinv_remove; eauto. apply (K (SRemove a)); simpl; auto.
  - unfold ok_sched in P. destruct (remove_condition_owner w d) as [[r|] d1] eqn:R; [|discriminate]. inversion P; subst.
    simpl. rewrite app_nil_r. eapply sinv_remove_owner; eauto.
  - unfold ok_sched, get_graph in P. destruct (sync cyc arr d) as [[r|] d1] eqn:S; [|discriminate]. inversion P; subst. eapply sync_inv in S; eauto. apply S.
  - inversion P; subst. destruct I. destruct t; constructor; simpl; auto; try (split; auto using NoDup_aset, NoDup_adel; fail).
  - destruct (sresume cyc arr f d g) as [[d2 g'] o] eqn:R0.
    destruct (sresume_ok _ _ _ _ _ _ R0) as (d1 & f1 & m & R & D & C); [intros ex ->; discriminate|].
    pose proof (grown_resume _ _ _ _ _ _ R) as G. assert (D' : d' = put_core d1 m) by (rewrite <- D; destruct o; inversion P; auto). rewrite D'.
    eapply sinv_put; eauto. destruct C as [(r & S & _)|[-> _]]; auto. eapply sync_inv in S; eauto. apply S.
  - unfold send_environment_sequence, bind in P. destruct (end_environment_sequence (core_of d) e) as [m|] eqn:R; [|discriminate]. inversion P; subst.
    eapply sinv_put; eauto. apply grown_fixed. eapply fixed_incr; eauto.
Qed.
Lemma sinv_performs : forall ks H L d d', SINV H L d ->
  (forall s a, In s (set_calls ks) -> In a (mentioned s) -> kind_ok a) ->
  NoDup (map soid (H ++ structs (flat_map adds (set_calls ks)))) ->
  performs cyc arr ks d = Some d' ->
  SINV (H ++ structs (flat_map adds (set_calls ks))) (fold_left reg_struct (set_calls ks) L) d'.
Proof.
  induction ks as [|k ks IH]; intros H L d d' I K N P; simpl in P.
  - inversion P; subst. simpl. rewrite app_nil_r. auto.
  - destruct (perform cyc arr k d) as [d1|] eqn:P1; [|discriminate].
    replace (set_calls (k :: ks)) with (set_calls [k] ++ set_calls ks) in * by (unfold set_calls; simpl; rewrite app_nil_r; auto).
    rewrite fold_left_app, flat_map_app, structs_app, !app_assoc in *.
    eapply IH; eauto.
    + eapply sinv_perform; eauto.
      * intros s a -> X. apply (K s); auto. apply in_or_app. left. simpl; auto.
      * rewrite map_app in N. apply NoDup_app_inv in N. tauto.
    + intros s a X. apply K. apply in_or_app. auto.
Qed.
End Sched.

(** ** new schedulers *)
Definition cond_arg (conds : amap centry) : list setcall := [SAddSet conds].
Lemma sinv_new : forall cyc arr is_s nx input base conds tc deid exact du ow w r d, arg_graph input = Ok base ->
  new_sched cyc arr input conds tc deid exact du ow nx w = (Ok r, d) ->
  (forall o, nx <= o -> is_s o = false) -> (forall a, In a (mentioned (SAddSet conds)) -> kind_ok is_s a) ->
  NoDup (map soid (structs (adds (SAddSet conds)))) ->
  SINV cyc arr is_s nx base (structs (adds (SAddSet conds))) (registered_struct [SAddSet conds]) d.
Proof.
  intros cyc arr is_s nx input base conds tc deid exact du ow w r d AG N HI K ND. unfold new_sched in N. rewrite AG in N.
  set (b := mkSched _ _ _ _ _ _ _ _ _ _ _ _ _) in N.
  assert (I0 : SINV cyc arr is_s nx base [] [] b).
  { constructor; simpl; auto; try tauto; try (intros; discriminate); try apply NoDup_nil; try (intros x [] ; fail); try (split; apply NoDup_nil). exists []. split; auto. split; [intros x []|apply so_nil]. }
  destruct conds as [|p conds].
  - inversion N; subst. exact I0.
  - unfold add_condition_set in N. destruct (cs_add_set (p :: conds) (d_cs b) (d_owners b)) as [[[r'|] cs] ow'] eqn:A; [|discriminate].
    assert (I1 := sinv_add_set cyc arr is_s nx base (p :: conds) [] [] b r' cs ow' I0 K ND A). simpl app in I1.
    eapply sync_inv in N; eauto. apply N.
Qed.
(** C33: the invariant for every sequence of calls *)
Theorem sinv_history : forall cyc arr is_s nx input base conds tc deid exact du ow w r d0 ks d, arg_graph input = Ok base ->
  new_sched cyc arr input conds tc deid exact du ow nx w = (Ok r, d0) ->
  performs cyc arr ks d0 = Some d ->
  well_kinded is_s nx (SAddSet conds :: set_calls ks) -> added_once (SAddSet conds :: set_calls ks) ->
  SINV cyc arr is_s nx base (structs (flat_map adds (SAddSet conds :: set_calls ks))) (registered_struct (SAddSet conds :: set_calls ks)) d.
Proof.
  intros cyc arr is_s nx input base conds tc deid exact du ow w r d0 ks d AG N P [HI WK] AO.
  unfold added_once in AO. cbn [flat_map] in AO |- *. rewrite structs_app in AO |- *.
  assert (I0 : SINV cyc arr is_s nx base (structs (adds (SAddSet conds))) (registered_struct [SAddSet conds]) d0).
  { eapply sinv_new; eauto.
    - intros a X. apply (WK (SAddSet conds)); simpl; auto.
    - rewrite map_app in AO. apply NoDup_app_inv in AO. tauto. }
  change (registered_struct (SAddSet conds :: set_calls ks)) with (fold_left reg_struct (set_calls ks) (registered_struct [SAddSet conds])).
  eapply sinv_performs; eauto. intros s a X. apply (WK s a). right; auto.
Qed.
Theorem graph_refines : forall cyc arr is_s nx input base conds tc deid exact du ow w r d0 ks d, arg_graph input = Ok base ->
  new_sched cyc arr input conds tc deid exact du ow nx w = (Ok r, d0) ->
  performs cyc arr ks d0 = Some d ->
  well_kinded is_s nx (SAddSet conds :: set_calls ks) -> added_once (SAddSet conds :: set_calls ks) ->
  (forall g, fst (get_graph cyc arr d) = Ok g <-> applies cyc base (registered_struct (SAddSet conds :: set_calls ks)) g) /\
  (forall q, fst (get_queue cyc arr d) = Ok q -> exists g, applies cyc base (registered_struct (SAddSet conds :: set_calls ks)) g /\
     q = if d_exact d then [gkeys g] else queue_of arr g).
Proof.
  intros cyc arr is_s nx input base conds tc deid exact du ow w r d0 ks d AG N P WK AO.
  pose proof (sinv_history _ _ _ _ _ _ _ _ _ _ _ _ _ _ _ _ _ AG N P WK AO) as I.
  set (L := registered_struct _) in *.
  assert (T : forall r d', sync cyc arr d = (Ok r, d') -> top_queue d' = queue_of arr (top_graph d') /\ applies cyc base L (top_graph d') /\ d_exact d' = d_exact d).
  { intros r' d' S. destruct (sync_inv _ _ _ _ _ _ _ _ _ _ I S) as (_ & (_ & ST) & Q). destruct (stack_top _ _ _ _ _ ST) as (g & st & E & A).
    unfold top_graph, top_queue. rewrite E. split; auto. split; auto. rewrite Q. auto. }
  split.
  - intros g. unfold get_graph. split.
    + intros G. destruct (sync cyc arr d) as [[r'|] d'] eqn:S; [|discriminate]. simpl in G. inversion G; subst. apply (T _ _ eq_refl).
    + intros A. destruct (sync_total _ _ _ _ _ _ _ _ _ I A) as (d' & S). rewrite S. simpl. f_equal. eapply applies_fun; [|exact A]. apply (T _ _ S).
  - intros q G. unfold get_queue in G. destruct (sync cyc arr d) as [[r'|] d'] eqn:S; [|discriminate]. simpl in G. inversion G; subst.
    destruct (T _ _ eq_refl) as (T1 & T2 & T3). exists (top_graph d'). split; auto. rewrite T3, T1. auto.
Qed.
