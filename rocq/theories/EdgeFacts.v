(** Adding a structural condition, and edges, to a scheduler that has a history of calls. *)
From Verif Require Import BaseFacts SpecSched SpecGSC CondSetFacts GSCFacts GSCModify GSCProps SchedFacts SchedThms.

Lemma performs_app : forall cyc arr a b d d' d'', performs cyc arr a d = Some d' -> performs cyc arr b d' = Some d'' -> performs cyc arr (a ++ b) d = Some d''.
Proof. induction a as [|k a IH]; simpl; intros b d d' d'' A B; [inversion A; subst; auto|]. destruct (perform cyc arr k d); [eauto|discriminate]. Qed.

Section Added.
Context {cyc : graph -> list (list node)} {arr : list (list node) -> list (list node)}.
Context {is_s : oid -> bool} {nx : oid} {input : graph_arg} {base : graph} {conds : amap centry} {tc : option tconds}
  {deid : eid} {exact : bool} {du : quantity} {ow : owners_t} {w0 : world} {r : unit} {d0 : sched} {ks : list call} {d : sched}.
Hypothesis AG : arg_graph input = Ok base.
Hypothesis N : new_sched cyc arr input conds tc deid exact du ow nx w0 = (Ok r, d0).
Hypothesis P : performs cyc arr ks d0 = Some d.
Context {w : node} {s : scond}.
Hypothesis WK : well_kinded is_s nx (SAddSet conds :: set_calls ks ++ [SAdd w (Struct s)]).
Hypothesis AO : added_once (SAddSet conds :: set_calls ks ++ [SAdd w (Struct s)]).
Let WK1 : well_kinded is_s nx (SAddSet conds :: set_calls ks).
Proof. destruct WK as [A B]. split; auto. intros k a K. apply B. destruct K; [left; auto|right; apply in_or_app; auto]. Qed.
Let AO0 : NoDup (map soid (structs (flat_map adds (SAddSet conds :: set_calls ks)) ++ [(w, s)])).
Proof. unfold added_once in AO. rewrite app_comm_cons, flat_map_app, structs_app in AO. exact AO. Qed.
Let AO1 : added_once (SAddSet conds :: set_calls ks).
Proof. unfold added_once. pose proof AO0 as X. rewrite map_app in X. apply NoDup_app_inv in X. destruct X as (X & _). exact X. Qed.
Let KO : kind_ok is_s (Struct s).
Proof. destruct WK as [_ B]. apply (B (SAdd w (Struct s)) (Struct s)); [right; apply in_or_app; right; left; auto|left; auto]. Qed.

Theorem add_structural : forall g g', gsc_owner_ok (sc_gsc s) w = true -> fst (get_graph cyc arr d) = Ok g ->
  modify_graph cyc (Some w) (sc_gsc s) g = Ok g' ->
  exists d', add_condition cyc arr w (Struct s) d = (Ok tt, d') /\ fst (get_graph cyc arr d') = Ok g' /\
    (forall n, aget n (cs_basic (d_cs d')) = aget n (cs_basic (d_cs d))) /\ d_tc d' = d_tc d /\ d_ctxs d' = d_ctxs d /\
    d_cst d' = d_cst d /\ d_nodes d' = d_nodes d.
Proof.
  intros g g' GO G M.
  pose proof (sinv_history _ _ _ _ _ _ _ _ _ _ _ _ _ _ _ _ _ AG N P WK1 AO1) as I.
  destruct (graph_refines _ _ _ _ _ _ _ _ _ _ _ _ _ _ _ _ _ AG N P WK1 AO1) as [GR _]. apply GR in G.
  unfold add_condition. destruct (cs_add w (Struct s) (d_cs d) (d_owners d)) as [[cs ow']|ex] eqn:A; [|simpl in A; rewrite GO in A; discriminate].
  assert (I1 := sinv_add1 _ _ _ _ _ _ _ _ _ (Struct s) cs ow' I KO AO0 A).
  destruct (sync_total _ _ _ _ _ _ _ _ _ I1 (applies_snoc _ _ _ _ _ _ _ G M)) as (d' & S). rewrite S.
  exists d'. split; auto. destruct (sync_inv _ _ _ _ _ _ _ _ _ _ I1 S) as (I2 & (SL & ST) & Ed).
  assert (Q : sync cyc arr d' = (Ok tt, d')) by (apply sync_synced; rewrite (si_order _ _ _ _ _ _ _ _ I2); auto).
  unfold get_graph. rewrite Q. simpl. split.
  - destruct (stack_top _ _ _ _ _ ST) as (g1 & st & E & Ap). unfold top_graph. rewrite E. f_equal.
    eapply applies_fun; [exact Ap|]. eapply applies_snoc; eauto.
  - simpl in A. rewrite GO in A. inversion A; subst. rewrite Ed. simpl. auto.
Qed.
(** ... and raises what the modification raises *)
Theorem add_structural_raises : forall g ex, gsc_owner_ok (sc_gsc s) w = true -> fst (get_graph cyc arr d) = Ok g ->
  modify_graph cyc (Some w) (sc_gsc s) g = Err ex -> exists d', add_condition cyc arr w (Struct s) d = (Err ex, d').
Proof.
  intros g ex GO G M.
  destruct (graph_refines _ _ _ _ _ _ _ _ _ _ _ _ _ _ _ _ _ AG N P WK1 AO1) as [GR _]. apply GR in G.
  pose proof (sinv_history _ _ _ _ _ _ _ _ _ _ _ _ _ _ _ _ _ AG N P WK1 AO1) as I.
  set (L := registered_struct _) in *. set (H := structs (flat_map adds _)) in *.
  unfold add_condition. destruct (cs_add w (Struct s) (d_cs d) (d_owners d)) as [[cs ow']|e0] eqn:A1; [|simpl in A1; rewrite GO in A1; discriminate].
  assert (I1 := sinv_add1 _ _ _ _ _ _ _ _ _ (Struct s) cs ow' I KO AO0 A1).
  destruct (si_stack _ _ _ _ _ _ _ _ I) as (LL & EL & IL & ST). pose proof (si_order _ _ _ _ _ _ _ _ I1) as EO.
  assert (IL1 : incl LL (H ++ [(w, s)])) by (intros p X; apply in_or_app; left; apply IL; exact X).
  assert (NI : ~ In (w, s) H).
  { intros X. pose proof AO0 as Y. fold H in Y. rewrite map_app in Y. apply NoDup_app_inv in Y. destruct Y as (_ & _ & Y).
    apply (Y (sc_oid s)); [apply (in_map soid) in X; exact X|left; auto]. }
  unfold sync. cbn [set_cs d_last d_cs d_stack d_owners]. cbn [structs flat_map snd fst app] in EO, I1. cbn [set_cs d_cs] in EO.
  rewrite EO.
  assert (EL' : match d_last d with Some l => l | None => [] end = map snd LL) by (destruct (d_last d); subst; auto).
  assert (CP := common_prefix_spec cyc arr is_s nx base (H ++ [(w, s)]) (L ++ [(w, s)]) LL (si_nodup _ _ _ _ _ _ _ _ I1) (si_sub _ _ _ _ _ _ _ _ I1) IL1). cbv zeta in CP.
  destruct (match d_last d with Some l => same_order l (map snd (L ++ [(w, s)])) | None => false end) eqn:SM.
  - exfalso. destruct (d_last d) as [l|]; [|discriminate]. subst l. unfold same_order in SM.
    destruct (list_eq_dec _ _ _) as [SE|]; [|discriminate]. rewrite !map_map in SE.
    assert (E : L ++ [(w, s)] = LL).
    { eapply (same_list cyc arr is_s nx base (H ++ [(w, s)])); [exact AO0|exact (si_sub _ _ _ _ _ _ _ _ I1)|exact IL1|symmetry; exact SE]. }
    apply NI, IL. rewrite <- E. apply in_or_app; simpl; auto.
  - cbv zeta. rewrite EL'. set (k := common_prefix (map snd (L ++ [(w, s)])) (map snd LL)) in *. destruct CP as (CP & K1 & K2).
    rewrite map_length. destruct (stack_pop _ _ _ k LL _ ST K2) as (st1 & PG & ST1). rewrite PG.
    destruct (stack_top _ _ _ _ _ ST1) as (g0 & st0 & -> & A). rewrite skipn_map.
    assert (KL : k <= length L).
    { rewrite app_length in K1. simpl in K1. assert (k = length L + 1 \/ k <= length L) as [E|]; [lia| |auto]. exfalso.
      rewrite E in CP. rewrite (firstn_all2 (L ++ [(w, s)])) in CP by (rewrite app_length; auto).
      apply NI, IL. rewrite <- (firstn_skipn (length L + 1) LL), <- CP. apply in_or_app; left. apply in_or_app; simpl; auto. }
    rewrite skipn_app. replace (k - length L) with 0 by lia. cbn [skipn].
    rewrite firstn_app in CP. replace (k - length L) with 0 in CP by lia. cbn [firstn] in CP. rewrite app_nil_r in CP.
    rewrite <- (firstn_skipn k L) in G. apply applies_split in G. destruct G as (g1 & G1 & G2). rewrite CP in G1.
    assert (g1 = g0) by (eapply applies_fun; eauto). subst g1.
    assert (OW : forall w' s', In (w', s') (skipn k L ++ [(w, s)]) -> ow' (sc_oid s') = Some w').
    { intros w' s' X. apply (si_owners _ _ _ _ _ _ _ _ I1). apply in_app_or in X. apply in_or_app. destruct X as [X|X]; [left|right; exact X].
      apply (si_sub _ _ _ _ _ _ _ _ I). rewrite <- (firstn_skipn k L). apply in_or_app; auto. }
    assert (F : forall L2 g2 st, applies cyc g2 L2 g -> (forall w' s', In (w', s') (L2 ++ [(w, s)]) -> ow' (sc_oid s') = Some w') ->
                exists st', push_conds cyc arr (map snd (L2 ++ [(w, s)])) ow' g2 st = (Err ex, st')).
    { induction L2 as [|[w2 s2] L2 IH]; intros g2 st Ap O.
      - inversion Ap; subst. simpl. rewrite (O w s) by (simpl; auto). rewrite M. eauto.
      - inversion Ap as [|x1 x2 x3 g3 x5 x6 M3 A3]; subst. simpl. rewrite (O w2 s2) by (simpl; auto). rewrite M3. apply IH; auto.
        intros w' s' X. apply O. right; auto. }
    destruct (F _ _ ((g0, queue_of arr g0) :: st0) G2 OW) as (st' & E). rewrite E. eauto.
Qed.
Lemma graph_wf : forall g, wf_graph base -> closed_graph base ->
  (forall p, In p (registered_struct (SAddSet conds :: set_calls ks)) -> keeps_nodes (sc_gsc (snd p))) ->
  fst (get_graph cyc arr d) = Ok g -> gkeys g = gkeys base /\ wf_graph g /\ closed_graph g.
Proof.
  intros g WB CB BI G. pose proof (sinv_history _ _ _ _ _ _ _ _ _ _ _ _ _ _ _ _ _ AG N P WK1 AO1) as I.
  destruct (graph_refines _ _ _ _ _ _ _ _ _ _ _ _ _ _ _ _ _ AG N P WK1 AO1) as [GR _]. apply GR in G.
  destruct (applies_wf _ _ _ _ G WB CB) as (A1 & A2 & A3); auto. intros w' s' X. split; [apply (BI (w', s')); auto|]. apply (si_kindH _ _ _ _ _ _ _ _ I w' s'). apply (si_sub _ _ _ _ _ _ _ _ I). auto.
Qed.
End Added.
