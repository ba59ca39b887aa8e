(** How often conditions are evaluated: termination conditions that stay true, and how often
    termination conditions are evaluated (C83). *)
From Verif Require Export CallsThms.
From Verif Require Import BaseFacts RunIds.
Open Scope nat_scope.

Lemma outer_more : forall f m g m' g' s, outer f m g = (m', g', OYield s) -> outer (S f) m g = (m', g', OYield s).
Proof.
  induction f as [|f IH]; intros m g m' g' s E; [discriminate|]. cbn [outer] in E. change (outer (S (S f)) m g) with
    (match terminated m (g_eid g) (g_tc g) with
      | (Err ex, m1) => (m1, at_pc g PDone, ORaise ex)
      | (Ok true, m1) => finish m1 g
      | (Ok false, m1) =>
          let m2 := reset_counts_total PASS m1 (g_eid g) in
          match inner m2 g (queue m2) 0 false with
          | IYield m3 s i ch => (m3, at_pc g (PLevel i ch), OYield s)
          | IErr m3 ex => (m3, at_pc g PDone, ORaise ex)
          | IFuel m3 => (m3, g, OFuel)
          | IEnd m3 ch => match pass_tail m3 g ch with TYield m4 => (m4, at_pc g PIdle, OYield []) | TErr m4 ex => (m4, at_pc g PDone, ORaise ex) | TNext m4 => outer (S f) m4 g end
          end
      end).
  destruct (terminated m (g_eid g) (g_tc g)) as [[[|]|ex] m1]; auto. cbv zeta in *. destruct (inner _ g _ 0 false) as [m3 s3 j ch3|m3 ch3|m3 ex|m3]; auto. destruct (pass_tail m3 g ch3); auto.
Qed.
Lemma resume_more : forall f m g m' g' s, resume f m g = (m', g', OYield s) -> resume (S f) m g = (m', g', OYield s).
Proof.
  intros f m g m' g' s E. unfold resume in *. destruct (g_pc g) as [|i ch| |]; auto.
  - destruct (start m g) as [[g1|ex] m1]; auto. apply outer_more; auto.
  - destruct (incr_clock CSE m (g_eid g)) as [m1|]; auto. destruct (inner m1 g _ _ _) as [m3 s3 j ch3|m3 ch3|m3 ex|m3]; auto. destruct (pass_tail m3 g ch3); auto. apply outer_more; auto.
  - destruct (incr_clock CSE m (g_eid g)) as [m1|]; auto. destruct (incr_clock PASS m1 (g_eid g)) as [m2|]; auto. apply outer_more; auto.
Qed.
Lemma nothing_stays : forall ns, stay_true ns nothing_ends.
Proof.
  intros ns. split; [discriminate|]. split; [discriminate|]. intros s c E. injection E as <-. constructor; auto.
  - intros v e ow [] _. exists false. reflexivity.
  - intros v v' e ow st st' _ _ E. destruct st. discriminate.
Qed.
Lemma nothing_quiet : forall e, quiet_tc e nothing_ends.
Proof. intros e m m' T. discriminate. Qed.

Section Good.
Variables (k : nat) (b : node) (m0 : core) (g0 : gen) (ib : nat) (lv : list node).
Hypothesis QB : queue_built m0.
Hypothesis HB : nth_error (queue m0) ib = Some lv.
Hypothesis IB : In b lv.
Hypothesis G0 : g_pc g0 = PStart.
Notation e := (g_eid g0).
Notation ns := (m_nodes m0).
Definition good (m : core) (g : gen) : Prop := node_counted k b m g /\ stay_true ns (the_tc m g) /\ (g_pc g = PStart -> can_run m (g_eid g)).
Definition suspended (m : core) (g : gen) : Prop :=
  g_pc g = PStart \/ exists a tc c skip p, g = with_tc e a tc c skip p /\ ((exists i, p = PLevel i true) \/ p = PIdle) /\ ready ns e m.
Lemma quiet_nothing : forall m1 r m', terminated m1 e nothing_ends = (Ok r, m') -> calls k m' <= calls k m1 + 0 /\ (r = false -> calls k m1 + 0 <= calls k m').
Proof. intros m1 r m' T. unfold terminated, check_tc, satisfied in T. simpl in T. injection T as _ <-. unfold calls, tally. simpl. split; lia. Qed.
Lemma good_step : forall fuel m g m' g' s, resume fuel m g = (m', g', OYield s) -> good m g -> suspended m g -> queue m = queue m0 -> m_nodes m = ns -> g_eid g = e -> in_queue m g ->
  good m' g' /\ suspended m' g' /\ queue m' = queue m0 /\ m_nodes m' = ns /\ g_eid g' = e /\ in_queue m' g' /\
  calls k m + turns ib m' g' <= calls k m' + turns ib m g.
Proof.
  intros fuel m g m' g' s E (NC & ST & CR) SU Q N Ge IQ.
  assert (HL := nc_pl k b m0 g0 ib lv QB HB IB m g NC). assert (HL' := HL). rewrite <- Q in HL.
  destruct (resume_any k (the_tc m g) (here ib 1) (here ib (length lv)) 0 0 e fuel m g m' g' s E Ge eq_refl IQ (nc_pt k b g0 m g NC) HL) as (Q' & I' & _ & _ & G' & T' & D1 & D2).
  apply resume_more in E.
  assert (GD : g_pc g' <> PStart -> good m' g') by (intros X; split; [eapply nc_ps; eauto|split; [rewrite T'; auto|intros; contradiction]]).
  assert (X : m_nodes m' = ns /\ (exists a tc c skip p, g' = with_tc e a tc c skip p /\ ((exists i, p = PLevel i true) \/ p = PIdle) /\ ready ns e m') /\
              calls k m + pot e (queue m) 0 (here ib 1) m' (g_pc g') <= calls k m' + pot e (queue m) 0 (here ib 1) m (g_pc g)).
  { destruct SU as [P|(a & tc & c & skip & p & -> & PK & R)].
    - unfold resume in E. rewrite P in E. destruct (start m g) as [[g1|ex] m1] eqn:S; [|discriminate]. specialize (CR P).
      destruct (start_state k _ _ _ _ S) as (_ & T1 & P1 & C1 & Q1 & N1 & B1 & B2). rewrite Ge in *.
      assert (Z : g1 = with_tc e (g_tcarg g) (run_tc m g) (g_base g) (g_skip g) PStart /\ ready ns e m1).
      { rewrite start_eq in S. destruct (toposort (m_graph m)); try discriminate. destruct (add_defaults (m_nodes m) m) as [mb|] eqn:A; [|discriminate].
        destruct (add_defaults_rest _ _ _ A) as (An & _ & At & Ac & _).
        assert (CRb : can_run mb e) by (destruct CR as [K1 K2]; constructor; [rewrite Ac; auto|eapply default_relative; eauto]).
        destruct (start_rest_any mb e (g_base g) CRb) as (o & m6 & H & H6). assert (Y : start_rest mb g = start_rest mb (new_gen e (g_base g) (g_tcarg g) (g_skip g))) by (rewrite <- Ge; reflexivity).
        unfold the_tc in ST. rewrite P in ST. assert (F : in_force mb (g_tcarg g) = run_tc m g) by (unfold in_force, run_tc; rewrite At; auto).
        rewrite Y, H in S by (intros s0 c0 F0; rewrite F in F0; apply (st_relative _ _ (proj2 (proj2 ST) _ _ F0))). destruct o as [ex|]; [discriminate|]. injection S as <- <-. rewrite F. split; auto. rewrite <- N, <- An. auto. }
      destruct Z as (-> & R). destruct (outer_step ns e fuel m1 PStart R) as ([[m2 p2] o] & GO & NX).
      unfold the_tc in ST. rewrite P in ST.
      destruct (GO (g_tcarg g) (run_tc m g) (g_base g) (g_skip g) ST) as (_ & H1 & H2).
      destruct (decided _ _ (view_of m1 e) e (m_owners m1) ST (ready_view _ _ _ R)) as [O|O]; [destruct (H1 O) as (mm & l & EE); rewrite EE in E; discriminate|].
      rewrite (H2 O) in E. injection E as -> <- ->. destruct NX as (R' & PK' & _).
      destruct (GO None nothing_ends 0 false (nothing_stays ns)) as (_ & _ & H3). specialize (H3 (going_never e m1)).
      destruct (outer_cost e k (m_basic m1) (queue m0) nothing_ends (here ib 1) (here ib (length lv)) 0 0 (HL' (m_basic m1) B1 B2) quiet_nothing _ _ _ _ _ _ H3 eq_refl eq_refl (conj eq_refl (eq_trans Q1 Q))) as (_ & _ & _ & W).
      specialize (W (nothing_quiet e)). split; [apply (rd_nodes _ _ _ R')|]. split; [exists (g_tcarg g), (run_tc m g), (g_base g), (g_skip g), p2; auto|]. rewrite Q, P. unfold pot in *. rewrite N1 in W. cbn [with_tc g_pc] in *. lia.
    - destruct (resume_step ns e fuel m p R PK) as ([[m2 p2] o] & v & ow & V & GO & NX). assert (NP : p <> PStart) by (destruct PK as [(i & ->)| ->]; discriminate).
      assert (ST' : stay_true ns tc) by (unfold the_tc in ST; cbn [with_tc g_pc] in ST; destruct p; try contradiction; auto).
      destruct (GO a tc c skip ST') as (_ & H1 & H2).
      destruct (decided _ _ v e ow ST' V) as [O|O]; [destruct (H1 O) as (mm & l & EE); rewrite EE in E; discriminate|].
      rewrite (H2 O) in E. injection E as -> <- ->. destruct NX as (R' & PK' & _).
      destruct (GO None nothing_ends c skip (nothing_stays ns)) as (_ & _ & H3). assert (GN : going v e ow nothing_ends) by (intros s0 _; exists (Never 0); split; auto; intros []; auto). specialize (H3 GN).
      destruct (resume_cost e k (m_basic m) (queue m0) nothing_ends (here ib 1) (here ib (length lv)) 0 0 (HL' _ (fun n c H => H) (fun n c H => or_introl H)) quiet_nothing _ _ _ _ _ _ H3 eq_refl eq_refl (conj eq_refl Q) IQ NP) as (_ & _ & _ & W).
      specialize (W (nothing_quiet e)). split; [apply (rd_nodes _ _ _ R')|]. split; [exists a, tc, c, skip, p2; auto|]. rewrite Q. cbn [with_tc g_pc] in *. lia. }
  destruct X as (N' & (a & tc & c & skip & p & EQ & PK & R) & B). assert (NP : g_pc g' <> PStart) by (subst g'; cbn [with_tc g_pc]; destruct PK as [(i & ->)| ->]; discriminate).
  split; [auto|]. split; [right; exists a, tc, c, skip, p; auto|]. split; [congruence|]. split; [auto|]. split; [auto|]. split; [auto|].
  assert (L : ib < length (queue m)) by (rewrite Q; apply (ib_len m0 ib lv HB)).
  assert (TG : turns ib m g = pot e (queue m) 0 (here ib 1) m (g_pc g)) by (rewrite <- Ge, (pot_here (queue m) ib 1 m g L); lia).
  assert (TG' : turns ib m' g' = pot e (queue m) 0 (here ib 1) m' (g_pc g')) by (rewrite <- G', (pot_here (queue m) ib 1 m' g' L); lia).
  rewrite TG, TG'. exact B.
Qed.
Theorem node_at_least : forall m g, counting k good m0 g0 m g -> calls k m0 + turns ib m g <= calls k m + turns ib m0 g0.
Proof.
  intros m g C. assert (X : good m g /\ suspended m g /\ queue m = queue m0 /\ m_nodes m = ns /\ g_eid g = e /\ in_queue m g /\ calls k m0 + turns ib m g <= calls k m + turns ib m0 g0); [|apply X].
  induction C as [P0 I0|m g m' C IH U P' K|m g fuel m' g' s C IH R].
  - split; [auto|]. split; [left; auto|]. repeat split; auto.
  - destruct IH as (_ & SU & Q & N & Ge & IQ & B). destruct U as [Un Ug Ul Ux Uc]. assert (Q' : queue m' = queue m) by (unfold queue; rewrite Ug, Ul, Ux; auto).
    split; [auto|]. split.
    { destruct SU as [P|(a & tc & c & skip & p & EQ & PK & R)]; [left; auto|right]. exists a, tc, c, skip, p. split; [auto|]. split; [auto|]. destruct R as [R1 R2 R3 R4]. constructor; [congruence| | |]; rewrite Uc; auto. }
    split; [congruence|]. split; [congruence|]. split; [auto|]. split; [unfold in_queue in *; rewrite Q'; auto|]. unfold turns in *. rewrite Ge in *. assert (PN : pass_number m' e = pass_number m e) by (unfold pass_number; rewrite Uc; auto). rewrite PN, K. auto.
  - destruct IH as (GD & SU & Q & N & Ge & IQ & B). destruct (good_step _ _ _ _ _ _ R GD SU Q N Ge IQ) as (A1 & A2 & A3 & A4 & A5 & A6 & A7). do 6 (split; [assumption|]). lia.
Qed.
End Good.

(** ** How often termination conditions are evaluated *)
Lemma acc_one : forall n, acc 1 (fun _ => 0) n = n.
Proof. induction n as [|n IH]; simpl; lia. Qed.
Lemma pot_looks : forall m g, pot (g_eid g) (queue m) 1 (fun _ => 0) m (g_pc g) = looks m g.
Proof. intros m g. unfold pot, looks, whole, place, whole. rewrite !acc_one. f_equal. destruct (g_pc g); auto. rewrite acc_one. auto. Qed.
Section End.
Variables (k : nat) (s0 : timescale) (m0 : core) (g0 : gen).
Hypothesis QB : queue_built m0.
Notation e := (g_eid g0).
Lemma ec_pt : forall m g, end_counted k s0 m g -> forall m1 r m', terminated m1 e (the_tc m g) = (Ok r, m') -> calls k m' <= calls k m1 + 1 /\ (r = false -> calls k m1 + 1 <= calls k m').
Proof.
  intros m g [SC (c & A & T) O N] m1 r m' E. unfold terminated, check_tc in E. destruct (the_tc m g ESU) as [c1|] eqn:E1; [|discriminate].
  destruct (satisfied m1 e c1) as [[[|]|ex] m2] eqn:S1; [| |discriminate]; destruct (calls_sat e k _ _ _ _ S1) as [K1 T1].
  - injection E as <- <-. split; [|discriminate]. destruct SC as [->| ->]; [assert (c1 = c) by congruence; subst; rewrite (T1 T); lia|rewrite K1; [lia|]; eapply O; eauto; discriminate].
  - destruct (the_tc m g ES) as [c2|] eqn:E2; [|discriminate]. destruct (calls_sat e k _ _ _ _ E) as [K2 T2]. destruct SC as [->| ->].
    + assert (c1 = c) by congruence. subst. rewrite K2, (T1 T) by (eapply O; eauto; discriminate). lia.
    + assert (c2 = c) by congruence. subst. rewrite (T2 T), K1 by (eapply O; eauto; discriminate). lia.
Qed.
Lemma ec_pl : forall m g, end_counted k s0 m g -> forall B, (forall n c, aget n (m_basic m) = Some c -> aget n B = Some c) -> (forall n c, aget n B = Some c -> aget n (m_basic m) = Some c \/ keeps k c) ->
  forall j l fuel m1 s m', m_basic m1 = B -> nth_error (queue m0) j = Some l -> do_level fuel m1 e l [] = Some (Ok s, m') -> calls k m1 + 0 <= calls k m' <= calls k m1 + 0.
Proof.
  intros m g [_ _ _ N] B B1 B2 j l fuel m1 s m' Em Ej D. assert (NL := nodup_level _ _ _ (queue_nodup _ QB) Ej).
  assert (X : calls k m' = calls k m1); [|lia]. eapply level_keeps; eauto. intros n c _ _ A. rewrite Em in A. apply B2 in A. destruct A; eauto.
Qed.
Lemma ec_ps : forall m g m' g', end_counted k s0 m g -> the_tc m' g' = the_tc m g -> (forall n c, aget n (m_basic m) = Some c -> aget n (m_basic m') = Some c) ->
  (forall n c, aget n (m_basic m') = Some c -> aget n (m_basic m) = Some c \/ keeps k c) -> end_counted k s0 m' g'.
Proof. intros m g m' g' [SC W O N] Q B1 B2. constructor; rewrite ?Q; auto. intros n c A. apply B2 in A. destruct A; eauto. Qed.
Theorem end_at_most : forall m g, counting k (end_counted k s0) m0 g0 m g -> calls k m + looks m0 g0 <= calls k m0 + looks m g.
Proof.
  intros m g C. destruct (counting_cost k (end_counted k s0) (queue m0) (fun _ => 0) (fun _ => 0) 1 1 e ec_pt ec_pl ec_ps m0 g0 m g C eq_refl eq_refl) as (_ & Q & _ & Ge & U & _).
  rewrite pot_looks in U. rewrite <- Q, <- Ge, pot_looks in U. exact U.
Qed.
Theorem end_exactly : forall m g, counting k (fun m g => end_counted k s0 m g /\ forall s c, the_tc m g s = Some c -> never_true c) m0 g0 m g ->
  calls k m + looks m0 g0 = calls k m0 + looks m g.
Proof.
  intros m g C. destruct (counting_cost k (fun m g => end_counted k s0 m g /\ forall s c, the_tc m g s = Some c -> never_true c) (queue m0) (fun _ => 0) (fun _ => 0) 1 1 e) with (5 := @eq_refl eid e) (4 := C) as (_ & Q & _ & Ge & U & W); auto.
  - intros m1 g1 (H & _). apply (ec_pt m1 g1 H).
  - intros m1 g1 (H & _). apply (ec_pl m1 g1 H).
  - intros m1 g1 m2 g2 (H & N) Q B1 B2. split; [eapply ec_ps; eauto|]. rewrite Q. auto.
  - rewrite pot_looks in U, W. rewrite <- Q, <- Ge, pot_looks in U, W. apply Nat.le_antisymm; [exact U|]. apply W.
    intros m1 g1 (_ & N). apply never_quiet. exact N.
Qed.
End End.

(** ** The resumption in which a run returns *)
Lemma inner_unchanged : forall rest m g i m3 ch3, inner m g rest i false = IEnd m3 ch3 -> g_abs g = false -> ch3 = false.
Proof.
  induction rest as [|level rest IH]; intros m g i m3 ch3 E A; cbn [inner] in E; [injection E as _ <-; auto|]. destruct (terminated m (g_eid g) (g_tc g)) as [[[|]|ex] m1]; [injection E as _ <-; auto| |discriminate].
  destruct (do_level _ m1 (g_eid g) level []) as [[[s|ex] m2]|]; try discriminate. destruct s as [|x s]; cbn [nonempty orb] in E.
  - rewrite A in E. eapply IH; eauto.
  - destruct (append_exec m2 (g_eid g) (g_abs g) (x :: s)) as [[m4|ex] m5]; discriminate.
Qed.
Section Return.
Variables (k : nat) (e : eid) (tc : tconds).
Hypothesis KT : forall s c, tc s = Some c -> keeps k c.
Lemma finish_keeps : forall m g m' g' l, finish m g = (m', g', OReturn l) -> g_eid g = e -> g_tc g = tc -> calls k m' = calls k m.
Proof.
  intros m g m' g' l E Ge Gt. unfold finish in E. rewrite Gt, Ge in E. assert (X : forall m1, (if g_skip g then Ok m else incr_clock ESU m e) = Ok m1 -> calls k m1 = calls k m).
  { intros m1 H. destruct (g_skip g); [injection H as <-; auto|]. destruct (pass_incr _ _ _ _ H) as (C & _). unfold calls. rewrite C. auto. }
  destruct (if g_skip g then _ else _) as [m1|]; [|discriminate]. specialize (X m1 eq_refl). unfold check_tc in E. destruct (tc ES) as [c|] eqn:T; [|discriminate].
  destruct (satisfied m1 e c) as [[r|ex] m2] eqn:S; [|discriminate]. destruct (x_list _); [|discriminate]. injection E as <- _ _. rewrite (proj1 (calls_sat e k _ _ _ _ S)); eauto.
Qed.
Lemma outer_return : forall fuel m g m' g' l, outer fuel m g = (m', g', OReturn l) -> g_eid g = e -> g_tc g = tc -> queue m <> [] -> calls k m' = calls k m.
Proof.
  induction fuel as [|f IH]; intros m g m' g' l E Ge Gt NQ; [discriminate|]. cbn [outer] in E. rewrite Ge, Gt in E. destruct (terminated m e tc) as [[[|]|ex] m1] eqn:T; [| |discriminate]; pose proof (term_keeps k e tc _ _ _ KT T) as C1.
  - rewrite (finish_keeps _ _ _ _ _ E Ge Gt). auto.
  - set (m2 := reset_counts_total PASS m1 e) in E. assert (C2 : calls k m2 = calls k m1) by auto. assert (F2 : CallsFacts.fixed e m m2) by (eapply CallsFacts.fixed_trans; [eapply fixed_term; eauto|apply CallsFacts.fixed_ctx; auto]).
    assert (Q2 := fx_queue _ _ _ F2). clearbody m2. destruct (inner m2 g (queue m2) 0 false) as [m3 s3 j ch3|m3 ch3|m3 ex|m3] eqn:I; try discriminate.
    destruct (pass_tail m3 g ch3) as [m4|m4|m4 ex] eqn:P; try discriminate.
    assert (C3 : calls k m3 = calls k m2 /\ queue m3 = queue m2).
    { destruct (g_abs g) eqn:A.
      - destruct (queue m2) as [|level rest] eqn:Eq; [congruence|]. cbn [inner] in I. rewrite Ge, Gt, A in I. destruct (terminated m2 e tc) as [[[|]|ex] m5] eqn:T5; [| |discriminate].
        + injection I as <- _. split; [eapply (term_keeps k); eauto|]. rewrite (fx_queue _ _ _ (fixed_term _ _ _ _ _ T5)). auto.
        + destruct (do_level _ m5 e level []) as [[[s|ex] m6]|]; try discriminate. rewrite orb_true_r in I. destruct (append_exec m6 e true s) as [[m7|ex] m8]; discriminate.
      - assert (X := inner_unchanged _ _ _ _ _ _ I A). subst ch3. unfold pass_tail in P. rewrite A in P. simpl in P. destruct (append_exec m3 (g_eid g) false []) as [[m7|ex] m8]; discriminate. }
    destruct C3 as [C3 Q3]. assert (C4 : calls k m4 = calls k m3 /\ queue m4 = queue m3).
    { unfold pass_tail in P. destruct (negb ch3 && negb (g_abs g)); [destruct (append_exec m3 (g_eid g) false []) as [[m7|ex] m8]; discriminate|].
      destruct (incr_clock PASS m3 (g_eid g)) as [m7|] eqn:I7; [|discriminate]. injection P as <-. destruct (pass_incr _ _ _ _ I7) as (C & _ & Q & _). unfold calls. rewrite C. auto. }
    destruct C4 as [C4 Q4]. apply IH in E; auto; [congruence|]. rewrite Q4, Q3, Q2. auto.
Qed.
End Return.
Theorem node_return : forall k b fuel m g m' g' l ib lv, resume fuel m g = (m', g', OReturn l) -> node_counted k b m g -> queue_built m -> nth_error (queue m) ib = Some lv -> In b lv -> in_queue m g ->
  calls k m' <= calls k m + match g_pc g with PLevel i _ => if Nat.ltb i ib then length lv else 0 | _ => 0 end.
Proof.
  intros k b fuel m g m' g' l ib lv E NC QB HB IB IQ. assert (NQ : queue m <> []) by (intros X; rewrite X in HB; destruct ib; discriminate). destruct NC as [O R T] eqn:EQ. assert (NC0 := NC). clear EQ.
  unfold resume in E. unfold the_tc in T. destruct (g_pc g) as [|i ch| |] eqn:P; [| | |discriminate].
  - destruct (start m g) as [[g1|ex] m1] eqn:S; [|discriminate]. destruct (start_state k _ _ _ _ S) as (E1 & T1 & P1 & C1 & Q1 & N1 & D1 & D2).
    rewrite (outer_return k (g_eid g) (run_tc m g) T _ _ _ _ _ _ E E1 T1); [lia|congruence].
  - destruct (incr_clock CSE m (g_eid g)) as [m1|] eqn:I; [|discriminate]. destruct (pass_incr _ _ _ _ I) as (C1 & B1 & Q1 & P1 & _). unfold in_queue in IQ. rewrite P in IQ.
    assert (CC1 : calls k m1 = calls k m) by (unfold calls; rewrite C1; auto).
    assert (NCg : node_counted k b m g) by (constructor; auto; unfold the_tc; rewrite P; auto).
    assert (HT := nc_pt k b g m g NCg). assert (HL := nc_pl k b m g ib lv QB HB IB m g NCg (m_basic m) (fun n c H => H) (fun n c H => or_introl H)).
    unfold the_tc in HT. rewrite P in HT.
    pose proof (inner_cost (g_eid g) k (m_basic m) (queue m) (g_tc g) (here ib 1) (here ib (length lv)) 0 0 HL HT (skipn (Datatypes.S i) (queue m1)) m1 g (Datatypes.S i) ch eq_refl eq_refl (conj B1 Q1)) as X.
    rewrite Q1 in X. specialize (X eq_refl IQ). rewrite Q1 in E. destruct (inner m1 g (skipn (Datatypes.S i) (queue m)) (Datatypes.S i) ch) as [m3 s3 j ch3|m3 ch3|m3 ex|m3]; try discriminate.
    destruct X as (F3 & U3 & _). rewrite !acc_here in U3. rewrite (proj2 (Nat.ltb_lt ib (length (queue m))) (ib_len m ib lv HB)) in U3.
    pose proof (tail_cost (g_eid g) k (m_basic m) (queue m) m3 g ch3 eq_refl (inb_fixed (g_eid g) (m_basic m) (queue m) _ _ F3 (conj B1 Q1))) as Y.
    destruct (pass_tail m3 g ch3) as [m4|m4|m4 ex]; try discriminate. destruct Y as ((B4 & Q4) & C4 & _).
    rewrite (outer_return k (g_eid g) (g_tc g) T _ _ _ _ _ _ E eq_refl eq_refl) by congruence.
    destruct (Nat.ltb ib (Datatypes.S i)) eqn:L; [apply Nat.ltb_lt in L; rewrite (proj2 (Nat.ltb_ge i ib)) by lia; lia|apply Nat.ltb_ge in L; rewrite (proj2 (Nat.ltb_lt i ib)) by lia; lia].
  - destruct (incr_clock CSE m (g_eid g)) as [m1|] eqn:I; [|discriminate]. destruct (pass_incr _ _ _ _ I) as (C1 & B1 & Q1 & _).
    destruct (incr_clock PASS m1 (g_eid g)) as [m2|] eqn:I2; [|discriminate]. destruct (pass_incr _ _ _ _ I2) as (C2 & B2 & Q2 & _).
    rewrite (outer_return k (g_eid g) (g_tc g) T _ _ _ _ _ _ E eq_refl eq_refl); [unfold calls; rewrite C2, C1; lia|congruence].
Qed.
