(** What a scheduler does depends on what is registered with it, not on how it came there. *)
From Verif Require Import SpecCond SpecRegistered BaseFacts CondSetFacts SchedFacts SchedThms ResumeFrame RunIds AgreeFacts.

(** ** set-up calls *)
Lemma over_same : forall t a b, (forall s : timescale, a s = b s) -> forall s, over t a s = over t b s.
Proof. intros t a b H s. unfold over. rewrite H. auto. Qed.
Record still (d d' : sched) : Prop := {
  sl_nodes : d_nodes d' = d_nodes d; sl_exact : d_exact d' = d_exact d; sl_unit : d_unit d' = d_unit d;
  sl_default : d_default_tc d' = d_default_tc d; sl_next : d_next d' = d_next d; sl_cst : d_cst d' = d_cst d; sl_ctxs : d_ctxs d' = d_ctxs d }.
Lemma still_refl : forall d, still d d.
Proof. intros; constructor; auto. Qed.
Lemma still_trans : forall a b c, still a b -> still b c -> still a c.
Proof. intros a b c [] []; constructor; congruence. Qed.
Lemma sync_still : forall cyc arr d r d', sync cyc arr d = (r, d') -> still d d' /\ d_tc d' = d_tc d /\ d_cs d' = d_cs d /\ d_owners d' = d_owners d.
Proof. intros cyc arr d r d' E. destruct (sync_set_stack _ _ _ _ _ E) as (st & l & ->). split; [constructor|]; auto. Qed.
Lemma perform_set_up : forall cyc arr k d d', set_up k -> perform cyc arr k d = Some d' ->
  still d d' /\ (forall s, d_tc d' s = given1 (d_default_tc d) (d_tc d) k s) /\
  set_performs (set_calls [k]) (d_cs d, d_owners d) = Some (d_cs d', d_owners d').
Proof.
  intros cyc arr k d d' Q E. destruct k as [[w a|s|a|w]| |t|f g|e]; simpl in Q; try tauto; simpl in E; cbn [set_calls flat_map app set_performs set_perform].
  - unfold ok_sched, add_condition in E. destruct (cs_add w a (d_cs d) (d_owners d)) as [[cs ow]|]; [|discriminate].
    destruct (sync cyc arr (set_cs d cs ow)) as [[|] d1] eqn:S; [|discriminate]. injection E as <-. destruct (sync_still _ _ _ _ _ S) as (A & B & C & D).
    rewrite B, C, D. split; [|auto]. eapply still_trans; [|exact A]. constructor; auto.
  - unfold ok_sched, add_condition_set in E. destruct (cs_add_set s (d_cs d) (d_owners d)) as [[[r|] cs] ow]; [|discriminate].
    destruct (sync cyc arr (set_cs d cs ow)) as [[|] d1] eqn:S; [|discriminate]. injection E as <-. destruct (sync_still _ _ _ _ _ S) as (A & B & C & D).
    rewrite B, C, D. split; [|auto]. eapply still_trans; [|exact A]. constructor; auto.
  - unfold ok_sched, remove_condition in E. destruct (cs_remove_cond a (d_cs d) (d_owners d)) as [[[r|] cs] ow]; [|discriminate]. injection E as <-.
    split; [constructor|]; auto.
  - unfold ok_sched, remove_condition_owner in E. destruct (cs_remove_owner w (d_cs d) (d_owners d)) as [[[r|] cs] ow]; [|discriminate]. injection E as <-.
    split; [constructor|]; auto.
  - unfold ok_sched, get_graph in E. destruct (sync cyc arr d) as [[|] d1] eqn:S; [|discriminate]. injection E as <-.
    destruct (sync_still _ _ _ _ _ S) as (A & B & C & D). rewrite B, C, D. auto.
  - injection E as <-. destruct t; (split; [constructor|]); auto.
Qed.
Lemma set_performs_app : forall a b x, set_performs (a ++ b) x = match set_performs a x with Some y => set_performs b y | None => None end.
Proof. induction a as [|k a IH]; intros b x; simpl; auto. destruct (set_perform k x); auto. Qed.
Lemma given_same : forall ks f a b, (forall s : timescale, a s = b s) -> forall s, fold_left (given1 f) ks a s = fold_left (given1 f) ks b s.
Proof. induction ks as [|k ks IH]; intros f a b H; simpl; auto. apply IH. destruct k as [?| |[t|]|? ?|?]; simpl; auto. apply over_same; auto. Qed.
Lemma given_first_same : forall ks f f' a, (forall s : timescale, f s = f' s) -> forall s, fold_left (given1 f) ks a s = fold_left (given1 f') ks a s.
Proof.
  induction ks as [|k ks IH]; intros f f' a H s; simpl; auto. rewrite (IH f f') by auto. apply given_same. destruct k as [?| |[t|]|? ?|?]; simpl; auto.
Qed.
Lemma performs_set_up : forall cyc arr ks d d', Forall set_up ks -> performs cyc arr ks d = Some d' ->
  still d d' /\ (forall s, d_tc d' s = fold_left (given1 (d_default_tc d)) ks (d_tc d) s) /\
  set_performs (set_calls ks) (d_cs d, d_owners d) = Some (d_cs d', d_owners d').
Proof.
  intros cyc arr. induction ks as [|k ks IH]; intros d d' Q E; simpl in E.
  - injection E as <-. split; [apply still_refl|]. auto.
  - inversion Q; subst. destruct (perform cyc arr k d) as [d1|] eqn:P; [|discriminate].
    destruct (perform_set_up _ _ _ _ _ H1 P) as (A & B & C). destruct (IH _ _ H2 E) as (A' & B' & C').
    split; [eapply still_trans; eauto|]. split.
    + intros s. rewrite B'. cbn [fold_left]. rewrite (sl_default _ _ A). apply given_same. auto.
    + replace (set_calls (k :: ks)) with (set_calls [k] ++ set_calls ks) by (unfold set_calls; simpl; rewrite app_nil_r; auto).
      rewrite set_performs_app, C. auto.
Qed.

(** ** a scheduler and its history *)
Lemma proper_distinct : forall nx ow ks, proper_objects nx ow ks -> distinct_objects ks.
Proof.
  intros nx ow ks (N & _ & _ & RM). split; auto. intros a w b I J E. apply RM in I. apply in_map_iff in I. destruct I as ([wa a'] & X & I). simpl in X. subst a'.
  assert (Y : (wa, a) = (w, b)) by (eapply (same_object _ N _ _ (any_oid a) I J); simpl; [apply any_oid_in|rewrite E; apply any_oid_in]). inversion Y; auto.
Qed.
Theorem sched_strangers : forall cyc arr nx input conds tc deid exact du ow w r d0 ks d,
  new_sched cyc arr input conds tc deid exact du ow nx w = (Ok r, d0) -> performs cyc arr ks d0 = Some d ->
  proper_objects nx ow (SAddSet conds :: set_calls ks) ->
  forall o, o < nx -> ~ In o (objects (flat_map adds (SAddSet conds :: set_calls ks))) -> d_owners d o = ow o.
Proof.
  intros cyc arr nx input conds tc deid exact du ow w r d0 ks d E P (ND & LOW & HI & RM).
  set (all := flat_map adds (SAddSet conds :: set_calls ks)) in *.
  assert (I0 : BINV nx ow (adds (SAddSet conds)) (fold_left reg_basic [SAddSet conds] (fun _ => None)) d0).
  { unfold new_sched in E. destruct (arg_graph input) as [base|]; [|discriminate].
    set (b := mkSched _ _ _ _ _ _ _ _ _ _ _ _ _) in E.
    assert (Ib : BINV nx ow [] (fun _ => None) b) by (constructor; simpl; auto; try (intros; discriminate); try constructor).
    destruct conds as [|p conds]; [inversion E; subst; exact Ib|].
    unfold add_condition_set in E. destruct (cs_add_set (p :: conds) (d_cs b) (d_owners b)) as [[[r'|] cs] ow'] eqn:C; [|discriminate].
    destruct (sync_set_stack _ _ _ _ _ E) as (st & l & ->). apply binv_set_stack.
    apply (binv_add_set nx ow all LOW (p :: conds) [] (fun _ => None) b r' cs ow' Ib); auto.
    - intros x X. unfold all. cbn [flat_map]. apply in_or_app; auto.
    - eapply objects_sub. exact ND. }
  pose proof (binv_performs cyc arr nx ow all ND LOW ks _ _ d0 d I0) as I.
  assert (I' := I (fun x X => X) ND (fun a X => RM a (or_intror X)) P). clear I. intros o L NI. apply (b_new _ _ _ _ _ I'); auto.
Qed.
Lemma new_sched_facts : forall cyc arr input conds tc deid exact du ow nx w r d0 base, arg_graph input = Ok base ->
  new_sched cyc arr input conds tc deid exact du ow nx w = (Ok r, d0) ->
  d_nodes d0 = gkeys base /\ d_exact d0 = exact /\ d_unit d0 = du /\ d_next d0 = nx /\ d_cst d0 = mkCstate (fun _ _ => 0) w /\
  d_ctxs d0 = upd (fun _ => ctx_none) deid fresh_ctx /\ (forall s, d_tc d0 s = given_first tc s) /\ (forall s, d_default_tc d0 s = given_first tc s) /\
  set_performs [SAddSet conds] (cs_empty, ow) = Some (d_cs d0, d_owners d0).
Proof.
  intros cyc arr input conds tc deid exact du ow nx w r d0 base AG E. unfold new_sched in E. rewrite AG in E.
  set (b := mkSched _ _ _ _ _ _ _ _ _ _ _ _ _) in E.
  assert (T : forall s, d_tc b s = given_first tc s) by (intros s; simpl; destruct tc; auto).
  destruct conds as [|p conds].
  - injection E as _ <-. simpl. repeat (split; auto).
  - unfold add_condition_set in E. cbn [set_performs set_perform].
    change (cs_add_set (p :: conds) (d_cs b) (d_owners b)) with (cs_add_set (p :: conds) cs_empty ow) in E.
    destruct (cs_add_set (p :: conds) cs_empty ow) as [[[r'|] cs] ow']; [|discriminate].
    destruct (sync_still _ _ _ _ _ E) as ([] & B & C & D). rewrite B, C, D. simpl in *.
    repeat (split; [first [congruence|auto]|]); auto.
Qed.
(** what is known about a scheduler that was made and set up *)
Record made (cyc : graph -> list (list node)) (arr : list (list node) -> list (list node)) (nx : oid) (base : graph) (deid : eid) (exact : bool) (du : quantity)
    (ow : owners_t) (w : world) (B : node -> option cond) (L : list (node * scond)) (T : tconds) (all : list (node * anycond)) (d : sched) : Prop := {
  md_nodes : d_nodes d = gkeys base; md_exact : d_exact d = exact; md_unit : d_unit d = du; md_next : d_next d = nx;
  md_cst : d_cst d = mkCstate (fun _ _ => 0) w; md_ctxs : d_ctxs d = upd (fun _ => ctx_none) deid fresh_ctx;
  md_tc : forall s, d_tc d s = T s;
  md_basic : forall n, aget n (cs_basic (d_cs d)) = B n;
  md_keys : NoDup (akeys (cs_basic (d_cs d)));
  md_own : forall n c o, B n = Some c -> In o (oids c) -> d_owners d o = Some n;
  md_high : forall o, nx <= o -> d_owners d o = None;
  md_else : forall o, o < nx -> ~ In o (objects all) -> d_owners d o = ow o;
  md_stack : exists st g, d_stack d = (g, queue_of arr g) :: st /\ applies cyc base L g;
  md_settled : d_last d = Some (cs_order (d_cs d))
}.
Lemma made_of : forall cyc arr is_s nx input base conds tc deid exact du ow w r d0 ks d g d1, arg_graph input = Ok base ->
  new_sched cyc arr input conds tc deid exact du ow nx w = (Ok r, d0) -> performs cyc arr ks d0 = Some d -> Forall set_up ks ->
  well_kinded is_s nx (SAddSet conds :: set_calls ks) -> added_once (SAddSet conds :: set_calls ks) -> proper_objects nx ow (SAddSet conds :: set_calls ks) ->
  get_graph cyc arr d = (Ok g, d1) ->
  sync cyc arr d = (Ok tt, d1) /\ top_graph d1 = g /\
  made cyc arr nx base deid exact du ow w (registered_basic (SAddSet conds :: set_calls ks)) (registered_struct (SAddSet conds :: set_calls ks))
    (given_terms tc ks) (flat_map adds (SAddSet conds :: set_calls ks)) d1.
Proof.
  intros cyc arr is_s nx input base conds tc deid exact du ow w r d0 ks d g d1 AG N P Q WK AO PO G.
  destruct (new_sched_facts _ _ _ _ _ _ _ _ _ _ _ _ _ _ AG N) as (N1 & N2 & N3 & N4 & N5 & N6 & N7 & N8 & N9).
  destruct (performs_set_up _ _ _ _ _ Q P) as (S & T & C).
  pose proof (sinv_history _ _ _ _ _ _ _ _ _ _ _ _ _ _ _ _ _ AG N P WK AO) as I.
  destruct (sched_owners _ _ _ _ _ _ _ _ _ _ _ _ _ _ _ N P PO) as (O1 & O2 & O3 & O4).
  pose proof (sched_strangers _ _ _ _ _ _ _ _ _ _ _ _ _ _ _ N P PO) as O5.
  assert (CS : set_performs (SAddSet conds :: set_calls ks) (cs_empty, ow) = Some (d_cs d, d_owners d)).
  { change (SAddSet conds :: set_calls ks) with ([SAddSet conds] ++ set_calls ks). rewrite set_performs_app, N9. auto. }
  destruct (condset_refines _ _ _ _ (proper_distinct _ _ _ PO) CS) as (B & _).
  unfold get_graph in G. destruct (sync cyc arr d) as [[[]|] d'] eqn:SY; [|discriminate]. injection G as <- <-. split; auto. split; auto.
  destruct (sync_still _ _ _ _ _ SY) as (S1 & T1 & C1 & W1). pose proof (still_trans _ _ _ S S1) as S2. destruct S2.
  destruct (sync_inv _ _ _ _ _ _ _ _ _ _ I SY) as (I1 & (SL & ST) & _). destruct (stack_top _ _ _ _ _ ST) as (g1 & st & E & A).
  constructor; try congruence.
  - intros s. rewrite T1, T. unfold given_terms. transitivity (fold_left (given1 (d_default_tc d0)) ks (given_first tc) s); [apply given_same; auto|].
    apply given_first_same; auto.
  - intros n c o X Y. rewrite W1. eapply O4; [|exact Y]. rewrite B. auto.
  - intros o X. rewrite W1. apply O1. rewrite (sl_next _ _ S), N4. auto.
  - intros o X Y. rewrite W1. auto.
  - exists st, g1. auto.
  - rewrite SL, (si_order _ _ _ _ _ _ _ _ I1). auto.
Qed.
Lemma made_agree : forall (P : oid -> Prop) cyc arr nx base deid exact du ow w B B' L T T' all all' d d',
  made cyc arr nx base deid exact du ow w B L T all d -> made cyc arr nx base deid exact du ow w B' L T' all' d' ->
  (forall n, B' n = B n) -> (forall s, T' s = T s) -> (forall n c, B n = Some c -> is_absolute c = false) ->
  (forall n c o, B n = Some c -> In o (oids c) -> P o) -> (forall o, nx <= o -> P o) ->
  (forall o, P o -> nx <= o \/ (exists n c, B n = Some c /\ In o (oids c)) \/ (o < nx /\ ~ In o (objects all) /\ ~ In o (objects all'))) ->
  agree P (core_of d) (core_of d').
Proof.
  intros P cyc arr nx base deid exact du ow w B B' L T T' all all' d d' M M' EB ET AB PB PH PO.
  destruct (md_stack _ _ _ _ _ _ _ _ _ _ _ _ _ _ M) as (st & g & E & A). destruct (md_stack _ _ _ _ _ _ _ _ _ _ _ _ _ _ M') as (st' & g' & E' & A').
  assert (g' = g) by (eapply applies_fun; eauto). subst g'. destruct M, M'.
  assert (NA : forall (b : amap cond), NoDup (akeys b) -> (forall n c, aget n b = Some c -> is_absolute c = false) -> forall p, In p b -> is_absolute (snd p) = false).
  { intros b K H [n c] X. apply (H n). apply aget_In_NoDup; auto. }
  constructor; unfold core_of, top_graph, top_queue; simpl; rewrite ?E, ?E'; try congruence.
  - intros o X. destruct (PO o X) as [Y|[(n & c & Y & Z)|(Y & Z & V)]].
    + rewrite md_high0, md_high1; auto.
    + rewrite (md_own0 n c), (md_own1 n c); auto. rewrite EB. auto.
    + rewrite md_else0, md_else1; auto.
  - intros n c o X. apply (PB n). congruence.
  - intros o X. simpl in *. apply md_high0. lia.
  - intros o X. simpl in *. apply md_high1. lia.
  - intros o X. apply PH. lia.
  - apply NA; auto. intros n c X. apply (AB n). congruence.
  - apply NA; auto. intros n c X. apply (AB n). congruence.
Qed.
Theorem registered_decides : forall cyc arr is_s is_s' nx input base conds conds' tc tc' deid exact du ow w r r' d0 d0' ks ks' d d' gr,
  arg_graph input = Ok base ->
  new_sched cyc arr input conds tc deid exact du ow nx w = (Ok r, d0) -> performs cyc arr ks d0 = Some d -> Forall set_up ks ->
  new_sched cyc arr input conds' tc' deid exact du ow nx w = (Ok r', d0') -> performs cyc arr ks' d0' = Some d' -> Forall set_up ks' ->
  let cs := SAddSet conds :: set_calls ks in let cs' := SAddSet conds' :: set_calls ks' in
  well_kinded is_s nx cs -> added_once cs -> proper_objects nx ow cs -> well_kinded is_s' nx cs' -> added_once cs' -> proper_objects nx ow cs' ->
  (forall n, registered_basic cs' n = registered_basic cs n) -> registered_struct cs' = registered_struct cs ->
  (forall s, given_terms tc' ks' s = given_terms tc ks s) ->
  (forall n c, registered_basic cs n = Some c -> is_absolute c = false) ->
  fst (get_graph cyc arr d) = Ok gr ->
  forall e b tcarg skip, (forall s c, given_terms tc ks s = Some c \/ (exists t, tcarg = Some t /\ t s = Some c) -> own_objects nx cs c /\ own_objects nx cs' c) ->
  forall steps fuel, same_run (sdrive cyc arr steps fuel d (new_gen e b tcarg skip) []) (sdrive cyc arr steps fuel d' (new_gen e b tcarg skip) []).
Proof.
  intros cyc arr is_s is_s' nx input base conds conds' tc tc' deid exact du ow w r r' d0 d0' ks ks' d d' gr AG N P Q N' P' Q' cs cs' WK AO PO WK' AO' PO' RB RS GT AB G
    e b tcarg skip TO steps fuel.
  destruct (get_graph cyc arr d) as [rg d1] eqn:EG. simpl in G. subst rg.
  destruct (graph_refines _ _ _ _ _ _ _ _ _ _ _ _ _ _ _ _ _ AG N P WK AO) as [F _]. destruct (graph_refines _ _ _ _ _ _ _ _ _ _ _ _ _ _ _ _ _ AG N' P' WK' AO') as [F' _].
  assert (G' : fst (get_graph cyc arr d') = Ok gr) by (apply F'; fold cs'; rewrite RS; apply F; rewrite EG; auto).
  destruct (get_graph cyc arr d') as [rg' d1'] eqn:EG'. simpl in G'. subst rg'. clear F F'.
  destruct (made_of _ _ _ _ _ _ _ _ _ _ _ _ _ _ _ _ _ _ _ AG N P Q WK AO PO EG) as (SY & _ & M).
  destruct (made_of _ _ _ _ _ _ _ _ _ _ _ _ _ _ _ _ _ _ _ AG N' P' Q' WK' AO' PO' EG') as (SY' & _ & M'). fold cs in M. fold cs' in M'. rewrite RS in M'.
  set (U := fun o => nx <= o \/ (exists n c, registered_basic cs n = Some c /\ In o (oids c)) \/ (o < nx /\ ~ In o (objects (flat_map adds cs)) /\ ~ In o (objects (flat_map adds cs')))).
  assert (A : agree U (core_of d1) (core_of d1')).
  { eapply made_agree; eauto; unfold U; eauto 8. }
  assert (UT : forall s c, given_terms tc ks s = Some c \/ (exists t, tcarg = Some t /\ t s = Some c) -> uses U c).
  { intros s c H o O. destruct (TO s c H) as [X Y]. destruct (X o O), (Y o O). unfold U. auto. }
  assert (TU : tc_uses U (m_tconds (core_of d1))) by (intros s c H; apply (UT s); left; simpl in H; rewrite (md_tc _ _ _ _ _ _ _ _ _ _ _ _ _ _ M) in H; auto).
  assert (GG : gens U (new_gen e b tcarg skip) (new_gen e b tcarg skip)).
  { constructor; auto; simpl; [intros s; auto|intros s c; discriminate|]. intros t -> s c H. apply (UT s). eauto. }
  pose proof (agree_drive U steps fuel _ _ _ _ [] A GG TU) as X.
  pose proof (sdrive_bridge cyc arr fuel steps d1 (new_gen e b tcarg skip) [] (md_settled _ _ _ _ _ _ _ _ _ _ _ _ _ _ M)) as Y.
  pose proof (sdrive_bridge cyc arr fuel steps d1' (new_gen e b tcarg skip) [] (md_settled _ _ _ _ _ _ _ _ _ _ _ _ _ _ M')) as Y'.
  destruct (drive steps fuel (core_of d1) (new_gen e b tcarg skip) []) as [[[m1 g1] ys1] o1], (drive steps fuel (core_of d1') (new_gen e b tcarg skip) []) as [[[m2 g2] ys2] o2].
  destruct Y as (d2 & Y & C2 & _), Y' as (d2' & Y' & C2' & _). destruct X as (R & GS & -> & ->).
  destruct steps as [|k].
  - cbn [sdrive] in *. injection Y as <- <- <- <-. injection Y' as <- <- .
    destruct (sync_still _ _ _ _ _ SY) as (SL & T1 & T2 & T3). destruct (sync_still _ _ _ _ _ SY') as (SL' & T1' & T2' & T3'). subst m1 m2.
    unfold same_run. split; auto. split; auto. split; auto.
    split; [intros e'; rewrite <- (sl_ctxs _ _ SL), <- (sl_ctxs _ _ SL'); exact (ag_ctxs _ _ _ R e')|].
    split; [rewrite <- (sl_cst _ _ SL), <- (sl_cst _ _ SL'); exact (ag_cst _ _ _ R)|]. rewrite <- T2, <- T2'. exact (ag_basic _ _ _ R).
  - assert (Z : forall d d1 g, sync cyc arr d = (Ok tt, d1) -> d_last d1 = Some (cs_order (d_cs d1)) -> sdrive cyc arr (S k) fuel d g [] = sdrive cyc arr (S k) fuel d1 g []).
    { intros x x1 g SX SD. cbn [sdrive]. unfold sresume. rewrite SX, (sync_synced _ _ _ SD). auto. }
    rewrite (Z d d1), (Z d' d1') by (auto; eapply md_settled; eauto). rewrite Y, Y'. simpl. subst m1 m2. split; auto. split; auto. split; [apply (gs_pc _ _ _ GS)|].
    split; [apply (ag_ctxs _ _ _ R)|]. split; [apply (ag_cst _ _ _ R)|]. apply (ag_basic _ _ _ R).
Qed.

(** ** basic conditions in any order *)
Lemma adds_dict : forall l, adds (SAddSet (as_dict l)) = map (fun p => (fst p, Basic (snd p))) l.
Proof. induction l as [|p l IH]; simpl in *; auto. rewrite IH. auto. Qed.
Lemma adds_added_singly : forall l, flat_map adds (set_calls (added_singly l)) = map (fun p => (fst p, Basic (snd p))) l.
Proof. induction l as [|p l IH]; simpl in *; auto. rewrite IH. auto. Qed.
Lemma objects_basic : forall l, objects (map (fun p : node * cond => (fst p, Basic (snd p))) l) = flat_map (fun p => oids (snd p)) l.
Proof. unfold objects. induction l as [|p l IH]; simpl; auto. rewrite IH. auto. Qed.
Lemma structs_basic : forall l, structs (map (fun p : node * cond => (fst p, Basic (snd p))) l) = [].
Proof. unfold structs. induction l as [|p l IH]; simpl; auto. Qed.
Lemma reg_dict : forall l B, reg_basic B (SAddSet (as_dict l)) = fold_left reg_basic1 (map (fun p => (fst p, Basic (snd p))) l) B.
Proof. intros l B. unfold reg_basic. rewrite adds_dict. auto. Qed.
Lemma reg_added_singly : forall l B, fold_left reg_basic (set_calls (added_singly l)) B = fold_left reg_basic1 (map (fun p => (fst p, Basic (snd p))) l) B.
Proof. induction l as [|p l IH]; intros B; simpl; auto. Qed.
Lemma reg_get : forall l B n, NoDup (map fst l) ->
  fold_left reg_basic1 (map (fun p : node * cond => (fst p, Basic (snd p))) l) B n =
  match find (fun p => Nat.eqb (fst p) n) l with Some p => Some (snd p) | None => B n end.
Proof.
  induction l as [|[w c] l IH]; intros B n N; simpl; auto. inversion N; subst. rewrite IH by auto. simpl. unfold reg_basic1; simpl. unfold upd.
  destruct (Nat.eqb_spec w n) as [->|D].
  - destruct (find (fun p => Nat.eqb (fst p) n) l) as [p|] eqn:F.
    + exfalso. apply find_some in F. destruct F as [F1 F2]. apply Nat.eqb_eq in F2. apply H1. rewrite <- F2. apply in_map; auto.
    + simpl. rewrite Nat.eqb_refl. auto.
  - destruct (find (fun p => Nat.eqb (fst p) n) l); auto. destruct (Nat.eqb_spec n w); [congruence|auto].
Qed.
Lemma find_perm : forall (l l' : list (node * cond)) n, NoDup (map fst l) -> Permutation l l' ->
  find (fun p => Nat.eqb (fst p) n) l' = find (fun p => Nat.eqb (fst p) n) l.
Proof.
  intros l l' n N Q. induction Q; simpl in *; auto.
  - inversion N; subst. rewrite IHQ by auto. auto.
  - inversion N; subst. inversion H2; subst. destruct x as [x cx], y as [y cy]. simpl in *. destruct (Nat.eqb_spec x n), (Nat.eqb_spec y n); auto. exfalso. apply H1. left. congruence.
  - rewrite IHQ2, IHQ1; auto. eapply Permutation_NoDup; [|exact N]. apply Permutation_map; auto.
Qed.
Lemma reg_struct_dict : forall l L, reg_struct L (SAddSet (as_dict l)) = L.
Proof. intros l L. unfold reg_struct. rewrite adds_dict, structs_basic, app_nil_r. auto. Qed.
Lemma reg_struct_added_singly : forall l L, fold_left reg_struct (set_calls (added_singly l)) L = L.
Proof. induction l as [|p l IH]; intros L; simpl; auto. rewrite app_nil_r. apply IH. Qed.
Theorem order_of_conditions : forall cyc arr nx input base conds conds' tc deid exact du ow w r r' d d0' d',
  arg_graph input = Ok base -> NoDup (map fst conds) -> Permutation conds conds' ->
  NoDup (flat_map (fun p => oids (snd p)) conds) -> (forall o, In o (flat_map (fun p => oids (snd p)) conds) -> o < nx /\ ow o = None) -> (forall o, nx <= o -> ow o = None) ->
  (forall p, In p conds -> is_absolute (snd p) = false) ->
  new_sched cyc arr input (as_dict conds) tc deid exact du ow nx w = (Ok r, d) ->
  new_sched cyc arr input [] tc deid exact du ow nx w = (Ok r', d0') -> performs cyc arr (added_singly conds') d0' = Some d' ->
  forall e b tcarg skip, (forall s c, given_first tc s = Some c \/ (exists t, tcarg = Some t /\ t s = Some c) ->
    forall o, In o (oids c) -> o < nx /\ ~ In o (flat_map (fun p => oids (snd p)) conds)) ->
  forall steps fuel, same_run (sdrive cyc arr steps fuel d (new_gen e b tcarg skip) []) (sdrive cyc arr steps fuel d' (new_gen e b tcarg skip) []).
Proof.
  intros cyc arr nx input base conds conds' tc deid exact du ow w r r' d d0' d' AG ND PM NO LO HI NA N N' P' e b tcarg skip TO steps fuel.
  assert (PO : Permutation (flat_map (fun p => oids (snd p)) conds) (flat_map (fun p => oids (snd p)) conds')) by (apply Permutation_flat_map; auto).
  assert (G : fst (get_graph cyc arr d) = Ok base).
  { assert (X : performs cyc arr [] d = Some d) by auto.
    assert (WK : well_kinded (fun _ => false) nx (SAddSet (as_dict conds) :: set_calls [])).
    { split; auto. intros k a [<-|[]] I. cbn [mentioned] in I. rewrite adds_dict, map_map in I. apply in_map_iff in I. destruct I as (q & <- & _). simpl. auto. }
    assert (AO : added_once (SAddSet (as_dict conds) :: set_calls [])).
    { unfold added_once. cbn [flat_map set_calls]. rewrite app_nil_r, adds_dict, structs_basic. constructor. }
    destruct (graph_refines _ _ _ _ _ _ _ _ _ _ _ _ _ _ _ _ _ AG N X WK AO) as [F _]. apply F. unfold registered_struct. cbn [fold_left set_calls flat_map].
    rewrite reg_struct_dict. constructor. }
  eapply (registered_decides cyc arr (fun _ => false) (fun _ => false) nx input base (as_dict conds) [] tc tc deid exact du ow w r r' d d0' [] (added_singly conds') d d' base); eauto.
  - clear. induction conds' as [|p l IH]; simpl; constructor; auto. simpl. auto.
  - split; auto. intros k a [<-|[]] I. cbn [mentioned] in I. rewrite adds_dict, map_map in I. apply in_map_iff in I. destruct I as (q & <- & _). simpl. auto.
  - unfold added_once. cbn [flat_map set_calls]. rewrite app_nil_r, adds_dict, structs_basic. constructor.
  - unfold proper_objects. cbn [flat_map set_calls]. rewrite app_nil_r, adds_dict, objects_basic. split; auto. split; auto. split; auto. intros a [X|[]]. discriminate.
  - split; auto. intros k a [<-|H] I; [simpl in I; tauto|]. unfold set_calls, added_singly in H. rewrite flat_map_concat_map, map_map in H. simpl in H.
    apply in_concat in H. destruct H as (l & Hl & H). apply in_map_iff in Hl. destruct Hl as (q & <- & _). destruct H as [<-|[]]. simpl in I. destruct I as [<-|[]]. auto.
  - unfold added_once. cbn [flat_map]. rewrite adds_added_singly. simpl. rewrite structs_basic. constructor.
  - unfold proper_objects. cbn [flat_map]. rewrite adds_added_singly. simpl. rewrite objects_basic. split; [eapply Permutation_NoDup; eauto|].
    split; [intros o I; apply LO; eapply Permutation_in; [apply Permutation_sym|]; eauto|]. split; auto. intros a [X|H]; [discriminate|]. exfalso.
    unfold set_calls, added_singly in H. rewrite flat_map_concat_map, map_map in H. simpl in H.
    apply in_concat in H. destruct H as (l & Hl & H). apply in_map_iff in Hl. destruct Hl as (q & <- & _). destruct H as [X|[]]. discriminate.
  - intros n. unfold registered_basic. cbn [fold_left]. rewrite reg_added_singly, reg_dict. cbn [set_calls flat_map fold_left]. rewrite !reg_get; auto.
    + rewrite (find_perm _ _ n ND PM). auto.
    + eapply Permutation_NoDup; [|exact ND]. apply Permutation_map; auto.
  - unfold registered_struct. cbn [fold_left]. rewrite reg_struct_added_singly. cbn [set_calls flat_map fold_left]. rewrite reg_struct_dict. auto.
  - intros s. unfold given_terms. cbn [fold_left]. clear. generalize (given_first tc) at 2 3. induction conds' as [|p l IH]; intros a; simpl; auto.
  - intros n c. unfold registered_basic. cbn [fold_left set_calls flat_map]. rewrite reg_dict, reg_get by auto.
    match goal with |- context [find ?f conds] => destruct (find f conds) as [p|] eqn:F end; [|discriminate]. intros X. injection X as <-. apply NA. apply find_some in F. tauto.
  - intros s c H. unfold given_terms in H. cbn [fold_left] in H. split; intros o O; destruct (TO s c H o O) as [X Y]; split; auto.
    + cbn [flat_map set_calls]. rewrite app_nil_r, adds_dict, objects_basic. auto.
    + cbn [flat_map]. rewrite adds_added_singly. simpl. rewrite objects_basic. intros Z. apply Y. eapply Permutation_in; [apply Permutation_sym|]; eauto.
Qed.
