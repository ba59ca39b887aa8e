(** From cores to schedulers, for runs during which graph and conditions change. *)
From Verif Require Import SpecChange BaseFacts RunProofs RunHist RunProps YieldFacts RunChange ResumeFrame CondSetFacts SchedFacts SchedThms.

Section Facts.
Variable cyc : graph -> list (list node).
Variable arr : list (list node) -> list (list node).
Notation srunning := (srunning cyc arr).
Lemma sync_ctxs : forall d r d', sync cyc arr d = (r, d') -> d_ctxs d' = d_ctxs d.
Proof. intros d r d' S. destruct (sync_set_stack _ _ _ _ _ S) as (st & l & ->). auto. Qed.
Lemma sresume_parts : forall fuel d g d' g' s, sresume cyc arr fuel d g = (d', g', OYield s) ->
  exists r d1, sync cyc arr d = (Ok r, d1) /\ resume fuel (core_of d1) g = (core_of d', g', OYield s) /\ d' = put_core d1 (core_of d').
Proof.
  intros fuel d g d' g' s H. destruct (sresume_ok _ _ _ _ _ _ _ _ H) as (d1 & f & m & R & D & C); [discriminate|].
  destruct C as [(r & S & ->)|(_ & [C|(l & C)])]; try discriminate. exists r, d1. subst d'.
  rewrite (core_of_put _ _ _ (grown_resume _ _ _ _ _ _ R)). auto.
Qed.
Lemma failed_elsewhere : forall d d1 g ex e, d_ctxs d1 = d_ctxs d -> g_eid g <> e -> d_ctxs (fst (fst (sresume_failed d d1 g ex))) e = d_ctxs d e.
Proof.
  intros d d1 g ex e C N. unfold sresume_failed. destruct (g_pc g); simpl; [congruence| | |auto].
  - destruct (incr_clock CSE (core_of d) (g_eid g)) as [m1|e1] eqn:I; simpl; auto. exact (fx_other _ _ _ (fixed_incr _ _ _ _ I) _ (not_eq_sym N)).
  - destruct (incr_clock CSE (core_of d) (g_eid g)) as [m1|e1] eqn:I; simpl; auto.
    pose proof (fx_other _ _ _ (fixed_incr _ _ _ _ I) _ (not_eq_sym N)) as X1. simpl in X1.
    destruct (incr_clock PASS m1 (g_eid g)) as [m2|e1] eqn:I2; simpl; auto.
    pose proof (fx_other _ _ _ (fixed_incr _ _ _ _ I2) _ (not_eq_sym N)) as X2.
    destruct (terminated m2 (g_eid g) (g_tc g)) as [r3 m3] eqn:T.
    assert (X3 : m_ctxs m3 e = m_ctxs m2 e) by (refine (fx_other _ _ _ (fixed_terminated _ _ _ _ _ T) _ (not_eq_sym N))).
    destruct r3 as [[|]|e1]; simpl; try congruence.
    + destruct (finish m3 g) as [[m4 g4] o4] eqn:F. simpl.
      assert (X4 : m_ctxs m4 e = m_ctxs m3 e) by (pose proof (fx_other _ _ _ (fixed_finish m3 g) _ (not_eq_sym N)) as X; rewrite F in X; exact X). congruence.
    + rewrite upd_other by auto. congruence.
Qed.
Lemma failed_fuel : forall d d1 g ex, snd (sresume_failed d d1 g ex) <> OFuel.
Proof.
  intros d d1 g ex. unfold sresume_failed. destruct (g_pc g); try (simpl; discriminate).
  - destruct (incr_clock CSE (core_of d) (g_eid g)); simpl; discriminate.
  - destruct (incr_clock CSE (core_of d) (g_eid g)) as [m1|]; [|simpl; discriminate].
    destruct (incr_clock PASS m1 (g_eid g)) as [m2|]; [|simpl; discriminate].
    destruct (terminated m2 (g_eid g) (g_tc g)) as [[[|]|] m3]; try (simpl; discriminate).
    destruct (finish m3 g) as [[m4 g4] o4] eqn:F. simpl. revert F. unfold finish. clear. intros F.
    repeat match type of F with context [match ?x with _ => _ end] => destruct x end; injection F as _ _ <-; discriminate.
Qed.
Lemma after_elsewhere : forall e k d, elsewhere e k -> d_ctxs (after cyc arr k d) e = d_ctxs d e.
Proof.
  intros e k d L. assert (Sy : forall d', d_ctxs (snd (sync cyc arr d')) = d_ctxs d').
  { intros d'. destruct (sync cyc arr d') as [r d1] eqn:S. apply sync_ctxs in S. auto. }
  destruct k as [[w a|s|a|w]| |t|fuel g|e']; simpl in L; unfold after.
  - unfold add_condition. destruct (cs_add w a (d_cs d) (d_owners d)) as [[cs ow]|]; simpl; auto. rewrite Sy; auto.
  - unfold add_condition_set. destruct (cs_add_set s (d_cs d) (d_owners d)) as [[[r|ex] cs] ow]; simpl; auto. rewrite Sy; auto.
  - unfold remove_condition. destruct (cs_remove_cond a (d_cs d) (d_owners d)) as [[r cs] ow]; auto.
  - unfold remove_condition_owner. destruct (cs_remove_owner w (d_cs d) (d_owners d)) as [[r cs] ow]; auto.
  - unfold get_graph. specialize (Sy d). destruct (sync cyc arr d) as [[r|ex] d1]; simpl in *; rewrite Sy; auto.
  - destruct t; auto.
  - unfold sresume. destruct (sync cyc arr d) as [[r|ex] d1] eqn:S; simpl; [|apply failed_elsewhere; [exact (sync_ctxs _ _ _ S)|congruence]].
    destruct (resume fuel (core_of d1) g) as [[m g1] o] eqn:E. simpl. rewrite (gw_other _ _ _ (grown_resume _ _ _ _ _ _ E)) by congruence.
    simpl. rewrite (sync_ctxs _ _ _ S); auto.
  - unfold send_environment_sequence, end_environment_sequence.
    destruct (incr_clock ES (core_of d) e') as [m1|] eqn:E; simpl; auto.
    exact (fx_other _ _ _ (fixed_incr _ _ _ _ E) _ (not_eq_sym L)).
Qed.
Lemma changing : forall d0 g0 ts d g, srunning d0 g0 ts d g -> running_changing (core_of d0) g0 ts (core_of d) g.
Proof.
  intros d0 g0 ts d g H. induction H.
  - constructor.
  - eapply rc_env; eauto.
  - destruct (sresume_parts _ _ _ _ _ _ H0) as (r & d1 & S & E & _).
    apply (rc_yields _ _ _ (core_of d1) g fuel (core_of d') g' s); auto. eapply rc_env; eauto. simpl. rewrite (sync_ctxs _ _ _ S); auto.
Qed.
Lemma queue_parts : forall d r d1 d' m, sync cyc arr d = (Ok r, d1) -> d' = put_core d1 m ->
  fst (get_queue cyc arr d) = Ok (queue (core_of d1)) /\ fst (get_queue cyc arr d) = Ok (queue (core_of d')) /\
  fst (get_graph cyc arr d) = Ok (m_graph (core_of d')).
Proof. intros d r d1 d' m S ->. unfold get_queue, get_graph. rewrite S. simpl. splits. Qed.

Section State.
Context {d0 : sched} {g0 : gen} {ts : list (nat * list node)} {d : sched} {g : gen}.
Hypothesis R : srunning d0 g0 ts d g.
Hypothesis Hp : g_pc g0 = PStart.
Theorem schange_yield : forall fuel d' g' s, sresume cyc arr fuel d g = (d', g', OYield s) ->
  g_eid g' = g_eid g0 /\ exists q hq, fst (get_queue cyc arr d) = Ok q /\
  ((exists p i, map snd p = in_pass (s_pass d' (g_eid g0)) ts /\ set_facts hq q (core_of d) (core_of d') g' (map snd ts) p i s) \/
   (s = [] /\ in_pass (s_pass d' (g_eid g0)) ts = [] /\ idle_facts q (core_of d) (core_of d') g' (map snd ts))).
Proof.
  intros fuel d' g' s H. destruct (sresume_parts _ _ _ _ _ _ H) as (r & d1 & S & E & P).
  destruct (queue_parts _ _ _ _ _ S P) as (Q & _ & _).
  assert (R1 : running_changing (core_of d0) g0 ts (core_of d1) g).
  { eapply rc_env; [apply changing; exact R|]. simpl. rewrite (sync_ctxs _ _ _ S); auto. }
  destruct (change_yield R1 Hp _ _ _ _ E) as (Ee & hq & C). split; auto. exists (queue (core_of d1)), hq. split; auto.
  assert (Cs : m_cst (core_of d) = m_cst (core_of d1)).
  { destruct (sync_set_stack _ _ _ _ _ S) as (st & l & ->). auto. }
  assert (Cw : forall v n b, condition_was (core_of d1) (core_of d') g' v n b -> condition_was (core_of d) (core_of d') g' v n b).
  { intros v n b (c & st & st' & A & B & D). exists c, st, st'. rewrite Cs. auto. }
  destruct C as [(p & i & C & [F1 F2 F3 F4 F5])|(-> & C & Ha & F)].
  - left. exists p, i. split; auto. constructor; auto.
    + destruct F1 as (lv & A1 & A2 & A3 & A4). exists lv. splits. intros n I N. destruct (A4 n I N) as (v & V & W). exists v; auto.
    + intros b n r0 Es. destruct (F2 b n r0 Es) as (v & V & W). exists v; auto.
    + destruct F3 as (v & V & (c1 & c2 & st & st1 & st2 & T1 & T2 & T3 & T4)). exists v; split; auto. exists c1, c2, st, st1, st2. rewrite Cs. auto.
    + intros k lv n A1 A2 A3 A4. destruct (F5 k lv n A1 A2 A3 A4) as (v & V & W). exists v; auto.
  - right. splits. split; auto. destruct F as [(v & c & V & Tc & st & st' & T1 & T2)|F].
    + left. exists v, c. splits. exists st, st'. rewrite Cs. auto.
    + right. intros lv n I1 I2. destruct (F lv n I1 I2) as (v & V & W). exists v; auto.
Qed.
Theorem schange_one_level : forall fuel d' g' s, sresume cyc arr fuel d g = (d', g', OYield s) ->
  NoDup s /\ exists q, fst (get_queue cyc arr d) = Ok q /\ (s = [] \/ exists i level, nth_error q i = Some level /\ incl s level).
Proof.
  intros fuel d' g' s H. destruct (schange_yield _ _ _ _ H) as (_ & q & hq & Q & [(p & i & _ & F)|(-> & _)]).
  - destruct (sf_level _ _ _ _ _ _ _ _ _ F) as (lv & A & B & C & _). split; auto. exists q. split; auto. right. eauto.
  - split; [constructor|]. exists q. auto.
Qed.
Theorem schange_no_sender : forall fuel d' g' s gr a b, sresume cyc arr fuel d g = (d', g', OYield s) ->
  queue_built (core_of d') -> d_exact d' = false -> fst (get_graph cyc arr d) = Ok gr ->
  In a s -> In b s -> edge gr a b -> a = b.
Proof.
  intros fuel d' g' s gr a b H B E G Ia Ib Ed. destruct (schange_one_level _ _ _ _ H) as (_ & q & Q & [->|(i & lv & N & I)]); [contradiction|].
  destruct (sresume_parts _ _ _ _ _ _ H) as (r & d1 & S & _ & P).
  destruct (queue_parts _ _ _ _ _ S P) as (_ & Q' & G'). rewrite Q' in Q. rewrite G' in G. inversion Q; inversion G; subst q gr.
  destruct (Nat.eq_dec a b) as [->|Ne]; auto. exfalso.
  assert (Hq : queue (core_of d') = m_levels (core_of d')) by (unfold queue; cbn [core_of m_exact]; rewrite E; auto). rewrite Hq in N.
  destruct (levels_order (core_of d') i i lv lv a b) as [_ X]; auto. specialize (X Ed Ne). lia.
Qed.
Theorem schange_sound : forall fuel d' g' s, sresume cyc arr fuel d g = (d', g', OYield s) ->
  forall b n r, s = b ++ n :: r -> exists v, considered (core_of d') (g_eid g0) (map snd ts) s b v /\ condition_was (core_of d) (core_of d') g' v n true.
Proof.
  intros fuel d' g' s H b n r Es. destruct (schange_yield _ _ _ _ H) as (Ee & q & hq & Q & [(p & i & _ & F)|(-> & _)]).
  - rewrite <- Ee. eapply (sf_sound _ _ _ _ _ _ _ _ _ F); eauto.
  - destruct b; discriminate.
Qed.
Theorem schange_maximal : forall fuel d' g' s, sresume cyc arr fuel d g = (d', g', OYield s) -> s <> [] \/ g_abs g' = true ->
  exists q i level, fst (get_queue cyc arr d) = Ok q /\ nth_error q i = Some level /\ incl s level /\
    (forall n, In n level -> ~ In n s -> exists v, considered (core_of d') (g_eid g0) (map snd ts) s s v /\ condition_was (core_of d) (core_of d') g' v n false) /\
    (exists v, considered (core_of d') (g_eid g0) (map snd ts) s [] v /\ termination_was_false (core_of d) (core_of d') g' v).
Proof.
  intros fuel d' g' s H Ne. destruct (schange_yield _ _ _ _ H) as (Ee & q & hq & Q & [(p & i & _ & F)|(-> & _ & Ha & _)]).
  - destruct (sf_level _ _ _ _ _ _ _ _ _ F) as (lv & A & B & C & D). pose proof (sf_term _ _ _ _ _ _ _ _ _ F) as T. rewrite Ee in *.
    exists q, i, lv. splits.
  - destruct Ne; congruence.
Qed.
Theorem schange_idle : forall fuel d' g', sresume cyc arr fuel d g = (d', g', OYield []) -> g_abs g' = false ->
  in_pass (s_pass d' (g_eid g0)) ts = [] /\
  ((exists v c st st', considered (core_of d') (g_eid g0) (map snd ts) [] [] v /\ (g_tc g' ESU = Some c \/ g_tc g' ES = Some c) /\
      evolves (used (core_of d') (g_tc g')) (g_eid g') (d_owners d') (d_cst d) st /\ eval v (g_eid g') (d_owners d') c st = (Ok true, st'))
  \/ exists q, fst (get_queue cyc arr d) = Ok q /\ forall level n, In level q -> In n level ->
       exists v, considered (core_of d') (g_eid g0) (map snd ts) [] [] v /\ condition_was (core_of d) (core_of d') g' v n false).
Proof.
  intros fuel d' g' H Ha. destruct (schange_yield _ _ _ _ H) as (Ee & q & hq & Q & [(p & i & _ & F)|(_ & I & _ & F)]).
  - exfalso. destruct (sf_valid _ _ _ _ _ _ _ _ _ F) as [_ V]. destruct (V i []) as (_ & _ & N); [apply in_or_app; simpl; auto|]. apply N; auto.
  - split; auto. rewrite Ee in *. destruct F as [(v & c & V & T & st & st' & A & B)|F].
    + left. exists v, c, st, st'. auto.
    + right. exists q. auto.
Qed.
Theorem schange_progress : forall fuel, uses_absolute (core_of d) g = false -> snd (sresume cyc arr (S fuel) d g) <> OFuel.
Proof.
  intros fuel A. unfold sresume. destruct (sync cyc arr d) as [[r|ex] d1] eqn:S; [|apply failed_fuel].
  assert (R1 : running_changing (core_of d0) g0 ts (core_of d1) g).
  { eapply rc_env; [apply changing; exact R|]. simpl. rewrite (sync_ctxs _ _ _ S); auto. }
  assert (A1 : uses_absolute (core_of d1) g = false).
  { destruct (sync_set_stack _ _ _ _ _ S) as (st & l & ->). exact A. }
  pose proof (change_progress R1 Hp fuel A1) as N. destruct (resume (Datatypes.S fuel) (core_of d1) g) as [[m g'] o]. exact N.
Qed.
End State.

Section Returned.
Context {d0 : sched} {g0 : gen} {ys : list (list node)} {d : sched} {l : list (list node)}.
Hypothesis R : sreturned cyc arr d0 g0 ys d l.
Hypothesis Hp : g_pc g0 = PStart.
Lemma sreturned_core : exists ts m g fuel g', ys = map snd ts /\ running_changing (core_of d0) g0 ts m g /\ resume fuel m g = (core_of d, g', OReturn l).
Proof.
  destruct R as (ts & d1 & g1 & fuel & g2 & E & R1 & H). destruct (sresume_ok _ _ _ _ _ _ _ _ H) as (d2 & f & m & X & D & C); [discriminate|].
  exists ts, (core_of d2), g1, f, g2. subst d. rewrite (core_of_put _ _ _ (grown_resume _ _ _ _ _ _ X)). splits.
  destruct C as [(r & S & _)|[-> _]]; [|apply changing; auto]. eapply rc_env; [apply changing; eauto|]. simpl. rewrite (sync_ctxs _ _ _ S); auto.
Qed.
Theorem sreturned_list : forall l0, x_list (d_ctxs d0 (g_eid g0)) = Some l0 -> l = l0 ++ ys /\ x_list (d_ctxs d (g_eid g0)) = Some (l0 ++ ys).
Proof. intros l0 E. destruct sreturned_core as (ts & m & g & fuel & g' & -> & R1 & H). eapply (change_returned_list R1 Hp _ _ _ _ _ H E). Qed.
Theorem sreturned_counts : forall t0, x_total (d_ctxs d0 (g_eid g0)) = Some t0 ->
  exists t, x_total (d_ctxs d (g_eid g0)) = Some t /\ forall n,
    t LIFE n = t0 LIFE n + occurrences n ys /\ t ES n = t0 ES n + occurrences n ys /\ t ESU n = occurrences n ys.
Proof. intros t0 E. destruct sreturned_core as (ts & m & g & fuel & g' & -> & R1 & H). eapply (change_returned_counts R1 Hp _ _ _ _ _ H E). Qed.
Theorem sreturned_clock : forall h0, clock_after ESU h0 (the_clock (d_ctxs d0 (g_eid g0))) ->
  exists ev, clock_after ESU (h0 ++ ev ++ (if g_skip g0 then [] else [ESU])) (the_clock (d_ctxs d (g_eid g0))) /\
    count CSE ev = length ys /\ Forall (fun s => ts_le s PASS) ev.
Proof.
  intros h0 E. destruct sreturned_core as (ts & m & g & fuel & g' & -> & R1 & H). rewrite map_length.
  eapply (change_returned_clock R1 Hp _ _ _ _ _ H E).
Qed.
End Returned.

(** ** A run whose graph can no longer be computed *)
Lemma outer_level : forall f m g m' g' s, outer f m g = (m', g', OYield s) -> s <> [] -> exists i ch, g_pc g' = PLevel i ch.
Proof.
  induction f as [|f IH]; intros m g m' g' s H N; cbn [outer] in H; [discriminate|].
  destruct (terminated m (g_eid g) (g_tc g)) as [[[|]|] m1]; try discriminate.
  - exfalso. revert H. unfold finish. clear. intros F.
    repeat match type of F with context [match ?x with _ => _ end] => destruct x end; discriminate F.
  - cbv zeta in H. destruct (inner _ g _ 0 false) as [m3 s3 i ch|m3 ch|m3 e3|m3]; try discriminate.
    + injection H as <- <- <-. simpl. eauto.
    + destruct (pass_tail m3 g ch) as [m4|m4|m4 e4]; try discriminate; [|eauto].
      injection H as <- <- <-. congruence.
Qed.
Lemma resume_level : forall f m g m' g' s, resume f m g = (m', g', OYield s) -> s <> [] -> exists i ch, g_pc g' = PLevel i ch.
Proof.
  intros f m g m' g' s H N. unfold resume in H. destruct (g_pc g).
  - destruct (start m g) as [[g1|] m1]; [|discriminate]. eapply outer_level; eauto.
  - destruct (incr_clock CSE m (g_eid g)) as [m1|]; [|discriminate].
    destruct (inner _ g _ _ _) as [m3 s3 j c|m3 c|m3 e3|m3]; try discriminate.
    + injection H as <- <- <-. simpl. eauto.
    + destruct (pass_tail m3 g c) as [m4|m4|m4 e4]; try discriminate; [|eapply outer_level; eauto].
      injection H as <- <- <-. congruence.
  - destruct (incr_clock CSE m (g_eid g)) as [m1|]; [|discriminate].
    destruct (incr_clock PASS m1 (g_eid g)) as [m2|]; [|discriminate]. eapply outer_level; eauto.
  - discriminate.
Qed.
Lemma srunning_level : forall d0 g0 l d g, srunning d0 g0 l d g -> forall ts k s, l = ts ++ [(k, s)] -> s <> [] -> exists i ch, g_pc g = PLevel i ch.
Proof.
  intros d0 g0 l d g H. induction H as [|l d g d' H IH Ec|l d g fuel d' g' s' H IH R]; intros ts k s E N.
  - destruct ts; discriminate.
  - eauto.
  - apply app_inj_tail in E. destruct E as [_ E]. injection E as _ ->. destruct (sresume_parts _ _ _ _ _ _ R) as (r & d1 & _ & X & _).
    eapply resume_level; eauto.
Qed.
Lemma srunning_eid : forall d0 g0 l d g, srunning d0 g0 l d g -> g_pc g0 = PStart -> g_eid g = g_eid g0.
Proof.
  intros d0 g0 l d g H Hp. induction H as [|l d g d' H IH Ec|l d g fuel d' g' s' H IH R]; auto.
  destruct (schange_yield H Hp _ _ _ _ R) as (E & _). auto.
Qed.
Lemma incr_list : forall s m e m' e', incr_clock s m e = Ok m' -> x_list (m_ctxs m' e') = x_list (m_ctxs m e').
Proof.
  intros s m e m' e' H. unfold incr_clock in H. destruct (clock_incr s (the_clock (m_ctxs m e))); inversion H; subst. simpl.
  unfold upd. destruct (Nat.eqb_spec e' e) as [->|]; auto.
Qed.
Lemma terminated_ctxs : forall m e tc r m', terminated m e tc = (r, m') -> m_ctxs m' = m_ctxs m.
Proof.
  intros m e tc r m' H. unfold terminated, check_tc, satisfied in H.
  destruct (tc ESU) as [c|].
  - destruct (eval (view_of m e) e (m_owners m) c (m_cst m)) as [[[|]|] st]; try (injection H as _ <-; reflexivity).
    destruct (tc ES) as [c2|]; [|injection H as _ <-; reflexivity].
    destruct (eval _ _ _ c2 _) as [r2 st2]. injection H as _ <-. reflexivity.
  - injection H as _ <-; reflexivity.
Qed.
Lemma finish_list : forall m g e, x_list (m_ctxs (fst (fst (finish m g))) e) = x_list (m_ctxs m e).
Proof.
  intros m g e. unfold finish. destruct (if g_skip g then Ok m else incr_clock ESU m (g_eid g)) as [m1|] eqn:I; [|auto].
  assert (X : x_list (m_ctxs m1 e) = x_list (m_ctxs m e)).
  { destruct (g_skip g); [inversion I; auto|]. eapply incr_list; eauto. }
  destruct (check_tc m1 (g_eid g) (g_tc g) ES) as [r m2] eqn:C.
  assert (Y : m_ctxs m2 = m_ctxs m1).
  { unfold check_tc, satisfied in C. destruct (g_tc g ES) as [c|]; [|injection C as _ <-; auto].
    destruct (eval _ _ _ c _) as [r2 st2]. injection C as _ <-. reflexivity. }
  destruct r; [|simpl; congruence]. destruct (x_list (m_ctxs m2 (g_eid g))); simpl; congruence.
Qed.
Lemma failed_shape : forall d d1 g ex d' g' o, d_ctxs d1 = d_ctxs d -> sresume_failed d d1 g ex = (d', g', o) ->
  (forall s, o <> OYield s) /\ g_pc g' = PDone /\ (forall e, x_list (d_ctxs d' e) = x_list (d_ctxs d e)).
Proof.
  intros d d1 g ex d' g' o C H. unfold sresume_failed in H. destruct (g_pc g) eqn:Pc.
  - injection H as <- <- <-. split; [discriminate|]. split; auto. intros; congruence.
  - destruct (incr_clock CSE (core_of d) (g_eid g)) as [m1|] eqn:I; injection H as <- <- <-; (split; [discriminate|]; split; [auto|]); auto.
    intros e. exact (incr_list _ _ _ _ e I).
  - destruct (incr_clock CSE (core_of d) (g_eid g)) as [m1|] eqn:I; [|injection H as <- <- <-; split; [discriminate|]; auto].
    assert (L1 : forall e, x_list (m_ctxs m1 e) = x_list (d_ctxs d e)) by (intros e; exact (incr_list _ _ _ _ e I)).
    destruct (incr_clock PASS m1 (g_eid g)) as [m2|] eqn:I2; [|injection H as <- <- <-; split; [discriminate|]; auto].
    assert (L2 : forall e, x_list (m_ctxs m2 e) = x_list (d_ctxs d e)) by (intros e; rewrite (incr_list _ _ _ _ e I2); auto).
    destruct (terminated m2 (g_eid g) (g_tc g)) as [r m3] eqn:T. apply terminated_ctxs in T.
    destruct r as [[|]|e3].
    + destruct (finish m3 g) as [[m4 g4] o4] eqn:F. injection H as <- <- <-.
      pose proof (finish_list m3 g) as L. pose proof F as F'. rewrite F in L. simpl in L. split; [|split].
      * intros s ->. revert F. unfold finish. clear. intros F.
        repeat match type of F with context [match ?x with _ => _ end] => destruct x end; discriminate F.
      * revert F. unfold finish. clear. intros F.
        repeat match type of F with context [match ?x with _ => _ end] => destruct x end; injection F as _ <- _; auto.
      * intros e. simpl. rewrite L, T. auto.
    + injection H as <- <- <-. split; [discriminate|]. split; auto. intros e. simpl. unfold upd.
      destruct (Nat.eqb_spec e (g_eid g)) as [->|]; simpl; rewrite T; auto.
    + injection H as <- <- <-. split; [discriminate|]. split; auto. intros e. simpl. rewrite T. auto.
  - injection H as <- <- <-. split; [discriminate|]. auto.
Qed.
(** what such a call leaves of the records *)
Definition keeps (x x' : ctx) : Prop :=
  x_use x' = x_use x /\ x_list x' = x_list x /\ x_stamps x' = x_stamps x /\
  forall t, x_total x = Some t -> exists t', x_total x' = Some t' /\ forall s n, ts_lt PASS s -> t' s n = t s n.
Lemma keeps_refl : forall x, keeps x x.
Proof. intros x. repeat split. intros t ->. eauto. Qed.
Lemma keeps_trans : forall x y z, keeps x y -> keeps y z -> keeps x z.
Proof.
  intros x y z (A & B & C & D) (A' & B' & C' & D'). repeat split; try congruence.
  intros t T. destruct (D t T) as (t1 & T1 & E1). destruct (D' t1 T1) as (t2 & T2 & E2). exists t2. split; auto.
  intros s n L. rewrite E2, E1; auto.
Qed.
Lemma keeps_incr : forall s m e m' e', incr_clock s m e = Ok m' -> keeps (m_ctxs m e') (m_ctxs m' e').
Proof.
  intros s m e m' e' H. unfold incr_clock in H. destruct (clock_incr s (the_clock (m_ctxs m e))); inversion H; subst. simpl.
  unfold upd. destruct (Nat.eqb_spec e' e) as [->|]; [|apply keeps_refl]. repeat split. simpl. intros t ->. eauto.
Qed.
Lemma keeps_reset : forall m e e', keeps (m_ctxs m e') (m_ctxs (reset_counts_total PASS m e) e').
Proof.
  intros m e e'. unfold reset_counts_total, set_ctx. simpl. unfold upd. destruct (Nat.eqb_spec e' e) as [->|]; [|apply keeps_refl].
  repeat split. simpl. intros t ->. simpl. eexists. split; [reflexivity|]. intros s n L. unfold reset_total.
  destruct s; unfold ts_lt in L; simpl in L; try lia; reflexivity.
Qed.
Lemma keeps_finish : forall m g e, keeps (m_ctxs m e) (m_ctxs (fst (fst (finish m g))) e).
Proof.
  intros m g e. unfold finish. destruct (if g_skip g then Ok m else incr_clock ESU m (g_eid g)) as [m1|] eqn:I; [|apply keeps_refl].
  assert (X : keeps (m_ctxs m e) (m_ctxs m1 e)).
  { destruct (g_skip g); [inversion I; apply keeps_refl|]. eapply keeps_incr; eauto. }
  destruct (check_tc m1 (g_eid g) (g_tc g) ES) as [r m2] eqn:C.
  assert (Y : m_ctxs m2 = m_ctxs m1).
  { unfold check_tc, satisfied in C. destruct (g_tc g ES) as [c|]; [|injection C as _ <-; auto].
    destruct (eval _ _ _ c _) as [r2 st2]. injection C as _ <-. reflexivity. }
  destruct r; [|simpl; congruence]. destruct (x_list (m_ctxs m2 (g_eid g))); simpl; congruence.
Qed.
Lemma failed_keeps : forall d d1 g ex d' g' o, d_ctxs d1 = d_ctxs d -> sresume_failed d d1 g ex = (d', g', o) ->
  forall e, keeps (d_ctxs d e) (d_ctxs d' e).
Proof.
  intros d d1 g ex d' g' o C H e. unfold sresume_failed in H. destruct (g_pc g).
  - injection H as <- <- <-. rewrite C. apply keeps_refl.
  - destruct (incr_clock CSE (core_of d) (g_eid g)) as [m1|] eqn:I; injection H as <- <- <-; [|apply keeps_refl].
    exact (keeps_incr _ _ _ _ e I).
  - destruct (incr_clock CSE (core_of d) (g_eid g)) as [m1|] eqn:I; [|injection H as <- <- <-; apply keeps_refl].
    pose proof (keeps_incr _ _ _ _ e I) as K1.
    destruct (incr_clock PASS m1 (g_eid g)) as [m2|] eqn:I2; [|injection H as <- <- <-; exact K1].
    pose proof (keeps_trans _ _ _ K1 (keeps_incr _ _ _ _ e I2)) as K2.
    destruct (terminated m2 (g_eid g) (g_tc g)) as [r m3] eqn:T. apply terminated_ctxs in T. rewrite <- T in K2.
    destruct r as [[|]|e3].
    + pose proof (keeps_finish m3 g e) as K3. destruct (finish m3 g) as [[m4 g4] o4]. injection H as <- <- <-.
      exact (keeps_trans _ _ _ K2 K3).
    + injection H as <- <- <-. exact (keeps_trans _ _ _ K2 (keeps_reset m3 (g_eid g) e)).
    + injection H as <- <- <-. exact K2.
  - injection H as <- <- <-. apply keeps_refl.
Qed.
Theorem unusable_records : forall fuel d g d' g' o ex, fst (get_graph cyc arr d) = Err ex -> sresume cyc arr fuel d g = (d', g', o) ->
  forall e, x_use (d_ctxs d' e) = x_use (d_ctxs d e) /\ x_list (d_ctxs d' e) = x_list (d_ctxs d e) /\ x_stamps (d_ctxs d' e) = x_stamps (d_ctxs d e) /\
    forall t, x_total (d_ctxs d e) = Some t -> exists t', x_total (d_ctxs d' e) = Some t' /\ forall s n, ts_lt PASS s -> t' s n = t s n.
Proof.
  intros fuel d g d' g' o ex G H. unfold get_graph in G. unfold sresume in H. destruct (sync cyc arr d) as [[r|e1] d1] eqn:S; simpl in G; [discriminate|].
  exact (failed_keeps d d1 g e1 d' g' o (sync_ctxs _ _ _ S) H).
Qed.
Theorem unusable : forall fuel d g d' g' o ex, fst (get_graph cyc arr d) = Err ex -> sresume cyc arr fuel d g = (d', g', o) ->
  (forall s, o <> OYield s) /\ g_pc g' = PDone /\ (forall e, x_list (d_ctxs d' e) = x_list (d_ctxs d e)) /\
  (g_pc g = PDone -> o = OStop /\ d' = d /\ g' = g).
Proof.
  intros fuel d g d' g' o ex G H. unfold get_graph in G. unfold sresume in H. destruct (sync cyc arr d) as [[r|e1] d1] eqn:S; simpl in G; [discriminate|].
  destruct (failed_shape d d1 g e1 d' g' o) as (A & B & C); [eapply sync_ctxs; eauto|exact H|]. do 3 (split; [assumption|]).
  intros Pc. unfold sresume_failed in H. rewrite Pc in H. injection H as <- <- <-. auto.
Qed.
Theorem unusable_new : forall fuel d g d' g' o ex, fst (get_graph cyc arr d) = Err ex -> g_pc g = PStart -> sresume cyc arr fuel d g = (d', g', o) ->
  o = ORaise ex /\ d_ctxs d' = d_ctxs d.
Proof.
  intros fuel d g d' g' o ex G Hp H. unfold get_graph in G. unfold sresume in H. destruct (sync cyc arr d) as [[r|e1] d1] eqn:S; simpl in G; [discriminate|].
  injection G as ->. unfold sresume_failed in H. rewrite Hp in H. injection H as <- <- <-. split; auto. eapply sync_ctxs; eauto.
Qed.
Theorem unusable_after_set : forall d0 g0 ts k s d g h0 fuel d' g' o ex, srunning d0 g0 (ts ++ [(k, s)]) d g -> g_pc g0 = PStart -> s <> [] ->
  clock_after ESU h0 (the_clock (d_ctxs d0 (g_eid g0))) ->
  fst (get_graph cyc arr d) = Err ex -> sresume cyc arr fuel d g = (d', g', o) ->
  o = ORaise ex /\ exists h, clock_after ESU h (the_clock (d_ctxs d (g_eid g0))) /\ clock_after ESU (h ++ [CSE]) (the_clock (d_ctxs d' (g_eid g0))).
Proof.
  intros d0 g0 ts k s d g h0 fuel d' g' o ex R Hp N C G H.
  destruct (srunning_level _ _ _ _ _ R _ _ _ eq_refl N) as (i & ch & Pc).
  assert (Ee := srunning_eid _ _ _ _ _ R Hp).
  destruct (change_clock (changing _ _ _ _ _ R) Hp h0) as (ev & K & _ & _ & _); [destruct ts; discriminate|exact C|]. simpl in K.
  destruct (clock_incr_succeeds _ _ _ CSE K) as (k' & E); [vm_compute; repeat constructor|].
  unfold get_graph in G. unfold sresume in H. destruct (sync cyc arr d) as [[r|e1] d1] eqn:S; simpl in G; [discriminate|]. injection G as ->.
  unfold sresume_failed in H. rewrite Pc in H. unfold incr_clock in H. cbn [core_of m_ctxs] in H. rewrite Ee in H.
  revert H. destruct (clock_incr CSE (the_clock (d_ctxs d (g_eid g0)))) as [kk|] eqn:E2; intros H.
  - injection H as <- <- <-. split; auto. exists (h0 ++ ev). split; auto. simpl. rewrite upd_same. simpl. eapply ca_incr; eauto.
  - exfalso. revert E. clear. intros E. first [discriminate E | destruct E; discriminate].
Qed.
Lemma inner_empty : forall g rest m i ch m3 j ch', inner m g rest i ch = IYield m3 [] j ch' -> g_abs g = true.
Proof.
  intros g. induction rest as [|lv rest IH]; intros m i ch m3 j ch' H; cbn [inner] in H; [discriminate|].
  destruct (terminated m (g_eid g) (g_tc g)) as [[[|]|] m1]; try discriminate.
  destruct (do_level _ m1 (g_eid g) lv []) as [[[exec|] m2]|]; try discriminate. cbv zeta in H.
  destruct (nonempty exec || g_abs g)%bool eqn:B; [|eauto].
  destruct (append_exec m2 (g_eid g) (g_abs g) exec) as [[u|] m4]; try discriminate. injection H as _ -> _ _. exact B.
Qed.
Lemma outer_idle : forall f m g m' g', outer f m g = (m', g', OYield []) -> g_abs g' = false -> g_pc g' = PIdle.
Proof.
  induction f as [|f IH]; intros m g m' g' H N; cbn [outer] in H; [discriminate|].
  destruct (terminated m (g_eid g) (g_tc g)) as [[[|]|] m1]; try discriminate.
  - exfalso. revert H. unfold finish. clear. intros F.
    repeat match type of F with context [match ?x with _ => _ end] => destruct x end; discriminate F.
  - cbv zeta in H. destruct (inner _ g _ 0 false) as [m3 s3 i ch|m3 ch|m3 e3|m3] eqn:I; try discriminate.
    + injection H as <- <- ->. apply inner_empty in I. simpl in N. congruence.
    + destruct (pass_tail m3 g ch) as [m4|m4|m4 e4]; try discriminate; [|eauto].
      injection H as <- <-. reflexivity.
Qed.
Lemma resume_idle : forall f m g m' g', resume f m g = (m', g', OYield []) -> g_abs g' = false -> g_pc g' = PIdle.
Proof.
  intros f m g m' g' H N. unfold resume in H. destruct (g_pc g).
  - destruct (start m g) as [[g1|] m1]; [|discriminate]. eapply outer_idle; eauto.
  - destruct (incr_clock CSE m (g_eid g)) as [m1|]; [|discriminate].
    destruct (inner _ g _ _ _) as [m3 s3 j c|m3 c|m3 e3|m3] eqn:I; try discriminate.
    + injection H as <- <- ->. apply inner_empty in I. simpl in N. congruence.
    + destruct (pass_tail m3 g c) as [m4|m4|m4 e4]; try discriminate; [|eapply outer_idle; eauto].
      injection H as <- <-. reflexivity.
  - destruct (incr_clock CSE m (g_eid g)) as [m1|]; [|discriminate].
    destruct (incr_clock PASS m1 (g_eid g)) as [m2|]; [|discriminate]. eapply outer_idle; eauto.
  - discriminate.
Qed.
Lemma srunning_idle : forall d0 g0 l d g, srunning d0 g0 l d g -> forall ts k, l = ts ++ [(k, [])] -> g_abs g = false -> g_pc g = PIdle.
Proof.
  intros d0 g0 l d g H. induction H as [|l d g d' H IH Ec|l d g fuel d' g' s' H IH R]; intros ts k E N.
  - destruct ts; discriminate.
  - eauto.
  - apply app_inj_tail in E. destruct E as [_ E]. injection E as _ ->. destruct (sresume_parts _ _ _ _ _ _ R) as (r & d1 & _ & X & _).
    eapply resume_idle; eauto.
Qed.
Theorem unusable_after_idle : forall d0 g0 ts k d g h0 l0 fuel d' g' o ex c1 c2 b1 st1, srunning d0 g0 (ts ++ [(k, [])]) d g -> g_pc g0 = PStart -> g_abs g = false ->
  clock_after ESU h0 (the_clock (d_ctxs d0 (g_eid g0))) -> x_list (d_ctxs d0 (g_eid g0)) = Some l0 ->
  fst (get_graph cyc arr d) = Err ex -> sresume cyc arr fuel d g = (d', g', o) -> g_tc g ESU = Some c1 -> g_tc g ES = Some c2 ->
  exists h k2, clock_after ESU h (the_clock (d_ctxs d (g_eid g0))) /\ clock_after ESU (h ++ [CSE; PASS]) k2 /\
    let v := view_of (set_clock (core_of d) (g_eid g0) k2) (g_eid g0) in
    (eval v (g_eid g0) (d_owners d) c1 (d_cst d) = (Ok b1, st1) ->
     (b1 = true -> o = OReturn (l0 ++ map snd ts ++ [[]]) \/
        exists v' ex' st2, eval v' (g_eid g0) (d_owners d) c2 st1 = (Err ex', st2) /\ o = ORaise ex') /\
     (b1 = false -> forall st2, eval v (g_eid g0) (d_owners d) c2 st1 = (Ok false, st2) ->
        o = ORaise ex /\ the_clock (d_ctxs d' (g_eid g0)) = k2)).
Proof.
  intros d0 g0 ts k d g h0 l0 fuel d' g' o ex c1 c2 b1 st1 R Hp N C L0 G H T1 T2.
  pose proof (change_list (changing _ _ _ _ _ R) Hp l0 L0) as XL. rewrite map_app in XL. simpl in XL.
  pose proof (srunning_idle _ _ _ _ _ R _ _ eq_refl N) as Pc.
  assert (Ee := srunning_eid _ _ _ _ _ R Hp).
  destruct (change_clock (changing _ _ _ _ _ R) Hp h0) as (ev & K & _ & _ & _); [destruct ts; discriminate|exact C|]. simpl in K.
  destruct (clock_incr_succeeds _ _ _ CSE K) as (k1 & E1); [vm_compute; repeat constructor|].
  pose proof (ca_incr _ _ _ _ _ K E1) as K1.
  destruct (clock_incr_succeeds _ _ _ PASS K1) as (k2 & E2); [vm_compute; repeat constructor|].
  pose proof (ca_incr _ _ _ _ _ K1 E2) as K2. rewrite <- app_assoc in K2. cbn [app] in K2.
  exists (h0 ++ ev), k2. split; auto. split; auto. cbv zeta. intros V1.
  unfold get_graph in G. unfold sresume in H. destruct (sync cyc arr d) as [[r|e1] d1] eqn:S; simpl in G; [discriminate|]. injection G as ->.
  unfold sresume_failed in H. rewrite Pc in H. unfold incr_clock in H. cbn [core_of m_ctxs] in H. rewrite Ee in H. rewrite E1 in H.
  replace (the_clock (m_ctxs (set_clock (core_of d) (g_eid g0) k1) (g_eid g0))) with k1 in H by (simpl; rewrite upd_same; reflexivity).
  rewrite E2 in H.
  set (m2 := set_clock (set_clock (core_of d) (g_eid g0) k1) (g_eid g0) k2) in *.
  assert (VV : view_of m2 (g_eid g0) = view_of (set_clock (core_of d) (g_eid g0) k2) (g_eid g0)).
  { unfold m2, view_of, set_clock, set_ctx, queue. simpl. rewrite !upd_same. reflexivity. }
  assert (O2 : m_owners m2 = d_owners d) by reflexivity. assert (S2 : m_cst m2 = d_cst d) by reflexivity.
  assert (X2 : m_ctxs m2 (g_eid g0) = mkCtx (x_total (d_ctxs d (g_eid g0))) (x_use (d_ctxs d (g_eid g0))) (x_list (d_ctxs d (g_eid g0))) (x_stamps (d_ctxs d (g_eid g0))) (Some k2)).
  { unfold m2, set_clock, set_ctx. simpl. rewrite !upd_same. reflexivity. }
  clearbody m2. unfold terminated, check_tc, satisfied in H. rewrite T1 in H. rewrite VV, O2, S2, V1 in H. split.
  - intros ->. unfold finish in H.
    destruct (if g_skip g then Ok (set_cst m2 st1) else incr_clock ESU (set_cst m2 st1) (g_eid g)) as [m3|e3] eqn:F.
    + assert (L3 : x_list (m_ctxs m3 (g_eid g)) = x_list (d_ctxs d (g_eid g0)) /\ m_cst m3 = st1 /\ m_owners m3 = d_owners d).
      { destruct (g_skip g).
        - injection F as <-. simpl. rewrite Ee, X2. auto.
        - pose proof (incr_list _ _ _ _ (g_eid g) F) as L. simpl in L. rewrite L. rewrite Ee at 1. rewrite X2. simpl. split; auto.
          unfold incr_clock in F. destruct (clock_incr ESU _); inversion F; subst; simpl. auto. }
      destruct L3 as (L3 & L4 & L5). unfold check_tc, satisfied in H. rewrite T2 in H. rewrite L4, L5 in H.
      destruct (eval (view_of m3 (g_eid g)) (g_eid g) (d_owners d) c2 st1) as [[b2|ex2] st2] eqn:V2.
      * cbn [m_ctxs set_cst] in H. rewrite L3 in H. rewrite XL in H. injection H as <- <- <-. left. auto.
      * injection H as <- <- <-. right. rewrite Ee in V2. eauto.
    + exfalso. destruct (g_skip g); [discriminate|]. unfold incr_clock in F. cbn [m_ctxs set_cst] in F. rewrite Ee, X2 in F. simpl in F.
      destruct (clock_incr_succeeds _ _ _ ESU K2) as (k3 & E3); [vm_compute; repeat constructor|].
      unfold the_clock in F. cbn [x_clock] in F. rewrite E3 in F. discriminate.
  - intros -> st2 V2. rewrite T2 in H. unfold satisfied in H.
    assert (VV2 : view_of (set_cst m2 st1) (g_eid g0) = view_of m2 (g_eid g0)) by reflexivity.
    cbn [m_owners m_cst set_cst] in H. rewrite VV2, VV, O2, V2 in H. injection H as <- <- <-. split; auto.
    simpl. unfold set_ctx. simpl. rewrite upd_same. unfold the_clock. simpl. rewrite X2. reflexivity.
Qed.
End Facts.
