(** Runs that end because the nodes run: proofs (C65). *)
From Verif Require Export SpecDue TurnFacts LiveFacts.
From Verif Require Import TopoProofs SpecSched SchedFacts.

Lemma carries_keeps : forall c, carries_over c -> keeps_true c.
Proof.
  intros c H v e ow st st' h k Ck Ik E. eapply (H v (with_clock v k) e ow ow st st' h); eauto.
  unfold next_pass. simpl. splits.
Qed.
Lemma before_pass_le : forall p p' b ts, p <= p' -> occurrences b (before_pass p ts) <= occurrences b (before_pass p' ts).
Proof.
  intros p p' b ts L. unfold occurrences, before_pass. induction ts as [|[k s] ts IH]; simpl; auto.
  destruct (Nat.ltb k p) eqn:A; destruct (Nat.ltb k p') eqn:B; simpl; try (destruct (mem b s); simpl; lia); auto.
  apply Nat.ltb_lt in A. apply Nat.ltb_ge in B. lia.
Qed.
Lemma before_pass_S : forall p b ts, occurrences b (before_pass (S p) ts) = occurrences b (before_pass p ts) + occurrences b (in_pass p ts).
Proof.
  intros p b ts. unfold occurrences, before_pass, in_pass. induction ts as [|[k s] ts IH]; simpl; auto.
  destruct (Nat.lt_trichotomy k p) as [L|[->|L]].
  - rewrite (proj2 (Nat.ltb_lt k (S p))), (proj2 (Nat.ltb_lt k p)), (proj2 (Nat.eqb_neq k p)) by lia. simpl. destruct (mem b s); simpl; lia.
  - rewrite (proj2 (Nat.ltb_lt p (S p))), Nat.ltb_irrefl, Nat.eqb_refl by lia. simpl. destruct (mem b s); simpl; lia.
  - rewrite (proj2 (Nat.ltb_ge k (S p))), (proj2 (Nat.ltb_ge k p)), (proj2 (Nat.eqb_neq k p)) by lia. auto.
Qed.
Lemma before_pass_none : forall p0 p b ts, (forall a, In a ts -> p0 <= fst a) -> p <= p0 -> occurrences b (before_pass p ts) = 0.
Proof.
  intros p0 p b ts H L. unfold before_pass. induction ts as [|[k s] ts IH]; simpl; auto.
  pose proof (H (k, s) (or_introl eq_refl)) as X. simpl in X. rewrite (proj2 (Nat.ltb_ge k p)) by lia. apply IH. intros a I. apply H. right; auto.
Qed.
Lemma up_to_unique : forall q d b k j j', up_to q d b k j -> up_to q d b k j' -> j = j'.
Proof. intros q d b k j j' [[A ->]|[A ->]] [[B ->]|[B ->]]; auto; contradiction. Qed.
Lemma up_to_le : forall q d b k j, up_to q d b k j -> j <= S k.
Proof. intros q d b k j [[_ ->]|[_ ->]]; lia. Qed.
Section Due.
Variables (m0 : core) (g0 : gen) (ts : list (nat * list node)) (m : core) (g : gen) (h0 : list timescale).
Hypotheses (R : running_while_in_passes (unchanged g0 m0) m0 g0 ts m g) (Hp : g_pc g0 = PStart) (Qb : queue_built m0)
  (Qn : forall n, In n (m_nodes m0) -> exists level, In level (queue m0) /\ In n level)
  (Ck : clock_after ESU h0 (the_clock (m_ctxs m0 (g_eid g0)))) (La : lasting m0 g0).
Notation p0 := (pass_number m0 (g_eid g0)).
Lemma unchanged_ruled : forall b c, In b (m_nodes m0) -> aget b (m_basic m0) = Some c ->
  running_while_in_passes (fun x => ruled g0 b c x /\ owned_as m0 c (m_owners x)) m0 g0 ts m g.
Proof.
  intros b c Ib E. eapply rwp_weaken; [|exact R]. intros x [A B C]. split; [split; [rewrite A; auto|]|intros o _; apply B].
  intros s t T. rewrite C in T. eapply La; eauto.
Qed.
Lemma ts_from : forall a, In a ts -> p0 <= fst a.
Proof.
  intros [k s] I. apply In_nth_error in I. destruct I as (i & E). destruct (rwp_passes _ _ _ _ _ _ R) as (Rp & _).
  apply (passes_numbered _ _ _ _ _ _ _ _ Rp Hp E).
Qed.
Lemma before_nodup : forall p, Forall (@NoDup node) (before_pass p ts).
Proof.
  intros p. destruct (rwp_passes _ _ _ _ _ _ R) as (Rp & _).
  apply Forall_forall. intros x Ix. unfold before_pass in Ix. apply in_map_iff in Ix. destruct Ix as ([k y] & <- & Iy). apply filter_In in Iy.
  apply (yield_one_level _ _ _ _ _ y (passes_running _ _ _ _ _ Rp) Hp). apply in_map_iff. exists (k, y). simpl. tauto.
Qed.
Lemma runs_since_all : forall d b p n, occurrences b (before_pass p ts) = 0 -> runs_since d b (concat (before_pass p ts)) n -> n = occurrences d (before_pass p ts).
Proof.
  intros d b p n Z (A2 & D & _ & ->). rewrite occurrences_concat by apply before_nodup. destruct D as [<-|(A1 & E)]; [reflexivity|].
  exfalso. apply (occurrences_not _ _ Z). rewrite E. apply in_app_iff. right; left; auto.
Qed.
Theorem due_runs : forall p b r, due m0 p0 p b r -> p <= pass_number m (g_eid g0) -> r <= occurrences b (before_pass p ts).
Proof.
  intros p b r D. induction D as [p b c f Ib E Bf|p b o d n r Ib E Ow Ln Nd Nl D IH|p b c N M K P Ib E En LK Lp U D IH|p b c N K P r Ib E En LK Lp U D IH|p b r p' r' D IH L Lr]; intros Le.
  - destruct (Qn b Ib) as (lb & Il & Ibl). pose proof (unchanged_ruled b c Ib E) as R'. apply In_nth_error in Il. destruct Il as (jb & Hj).
    destruct (passes_told _ _ _ _ _ _ _ _ _ _ _ R' Hp Qb Hj Ibl Ck) as (_ & _ & T).
    assert (X : forall n, p0 + n <= pass_number m (g_eid g0) -> length (filter f (seq p0 n)) <= occurrences b (before_pass (p0 + n) ts)).
    { induction n as [|n IH]; intros L; [simpl; lia|]. rewrite seq_S, filter_app, app_length. rewrite Nat.add_succ_r, before_pass_S.
      destruct (T (p0 + n)) as (x & A & B & _); [lia|]. rewrite B, (Bf _ _ _ _ A). specialize (IH ltac:(lia)). simpl. destruct (f (p0 + n)); simpl; lia. }
    destruct (Nat.le_gt_cases p p0) as [L|L]; [replace (p - p0) with 0 by lia; simpl; lia|]. specialize (X (p - p0)). replace (p0 + (p - p0)) with p in X by lia. auto.
  - assert (R' : running_while_in_passes (paced g0 b d n) m0 g0 ts m g).
    { eapply rwp_weaken; [|exact R]. intros x [A B C]. split; [exists o; rewrite A by auto; rewrite B; auto|]. intros s t T. apply carries_keeps. rewrite C in T. eapply La; eauto. }
    destruct (rate_bounds _ _ _ _ _ _ _ _ _ R' Hp Qb Nl Nd Ln Ck) as (Z & _). rewrite (Z p Le). apply Nat.div_le_lower_bound; [lia|]. apply IH; auto.
  - destruct (Nat.eq_dec (occurrences b (before_pass (S p) ts)) 0) as [Z|Z]; [exfalso|lia]. rewrite before_pass_S in Z.
    destruct (Qn b Ib) as (lb & Il & Ibl). pose proof (unchanged_ruled b c Ib E) as R'.
    assert (X : occurrences b (in_pass p ts) = 1); [|lia].
    eapply (turn_enough _ _ _ _ _ _ _ _ _ _ _ _ _ R' Hp Qb Il Ibl Ck En p); [lia|auto| |].
    + intros d j Id Uj. destruct (Nat.eq_dec (N d) 0) as [->|Nz]; [lia|]. assert (Hd : 0 < N d \/ 0 < M d /\ d <> b) by lia.
      rewrite (up_to_unique _ _ _ _ _ _ Uj (U d Id Hd)). pose proof (up_to_le _ _ _ _ _ (U d Id Hd)). pose proof (IH d Id Hd ltac:(lia)). lia.
    + intros d j n Id Nd Uj Rs. destruct (Nat.eq_dec (M d) 0) as [->|Nz]; [lia|]. assert (Hd : 0 < N d \/ 0 < M d /\ d <> b) by (right; split; [lia|auto]).
      rewrite (up_to_unique _ _ _ _ _ _ Uj (U d Id Hd)) in Rs. pose proof (up_to_le _ _ _ _ _ (U d Id Hd)) as Lj. pose proof (IH d Id Hd ltac:(lia)) as X.
      apply runs_since_all in Rs; [lia|]. pose proof (before_pass_le (P d) (S p) b ts Lj) as Y. rewrite before_pass_S in Y. lia.
  - destruct (Qn b Ib) as (lb & Il & Ibl). pose proof (unchanged_ruled b c Ib E) as R'.
    assert (X : forall k, k < r -> occurrences b (in_pass (p + k) ts) = 1).
    { intros k Lk. eapply (turn_enough _ _ _ _ _ _ _ _ _ _ _ _ _ R' Hp Qb Il Ibl Ck En (p + k)); [lia|lia| |intros; lia].
      intros d j Id Uj. destruct (Nat.eq_dec (N d) 0) as [->|Nz]; [lia|]. assert (Hd : 0 < N d) by lia.
      assert (Lj : P d <= j).
      { destruct (U d Id Hd) as [[A ->]|[A ->]], Uj as [[B ->]|[B ->]]; try lia. contradiction. }
      pose proof (up_to_le _ _ _ _ _ (U d Id Hd)). pose proof (IH d Id Hd ltac:(lia)) as Y. pose proof (before_pass_le (P d) j d ts Lj). lia. }
    clear IH U D. revert Le X. induction r as [|r IHr]; intros Le X; [lia|]. rewrite Nat.add_succ_r, before_pass_S, X by lia. specialize (IHr ltac:(lia)).
    assert (r <= occurrences b (before_pass (p + r) ts)) by (apply IHr; intros; apply X; lia). lia.
  - destruct (Nat.le_gt_cases p' (pass_number m (g_eid g0))) as [L'|L']; [|lia]. assert (r <= occurrences b (before_pass p ts)) by (apply IH; lia).
    pose proof (before_pass_le p p' b ts L). lia.
Qed.
End Due.
(** ** Between two yields *)
Section Stop.
Variables (ns : list node) (W : world -> Prop) (ran : Prop) (e : eid) (q : list (list node)).
Hypothesis Q : forall n, In n ns <-> exists level, In level q /\ In n level.
Variables (tc : tconds) (abs : bool) (N : node -> nat).
Notation hale := (hale ns W ran e q tc abs).
Notation runs := (runs_with e tc abs).
Hypothesis Ends : exists s t, (s = ESU \/ s = ES) /\ tc s = Some t /\ enough (fun _ => True) 0 N (fun _ => 0) 0 t.
Notation P m := (pass_number m e).
Definition reached (m : core) : Prop := exists t, x_total (m_ctxs m e) = Some t /\ forall d, In d ns -> N d <= t ESU d.
Lemma reached_total : forall m m', x_total (m_ctxs m' e) = x_total (m_ctxs m e) -> reached m -> reached m'.
Proof. intros m m' E (t & A & B). exists t. rewrite E. auto. Qed.
Lemma reached_false : forall m s t m', hale m -> reached m -> enough (fun _ => True) 0 N (fun _ => 0) 0 t -> tc s = Some t -> check_tc m e tc s <> (Ok false, m').
Proof.
  intros m s t m' H (c & C & HN) En Et E. unfold check_tc in E. rewrite Et in E. unfold satisfied in E.
  destruct (eval (view_of m e) e (m_owners m) t (m_cst m)) as [r st] eqn:X. injection E as -> _.
  destruct (hl_ctx _ _ _ _ _ _ _ _ H) as (_ & U & _ & (h & K) & _). destruct (x_use (m_ctxs m e)) as [u|] eqn:Eu; [|congruence].
  eapply (En (view_of m e) e (m_owners m) (m_cst m) st h c u); eauto; simpl; [lia| |intros; lia].
  intros d Id. rewrite (hl_nodes _ _ _ _ _ _ _ _ H) in Id. auto.
Qed.
Lemma reached_stop : forall m, hale m -> reached m -> exists m', terminated m e tc = (Ok true, m') /\ hale m' /\ x_total (m_ctxs m' e) = x_total (m_ctxs m e).
Proof.
  intros m H Re. destruct (terminated_safe _ _ _ _ _ Q _ _ m H) as (b & m1 & T & H1). exists m1.
  assert (X1 : m_ctxs m1 = m_ctxs m).
  { clear - T. unfold terminated in T. destruct (check_tc m e tc ESU) as [[[]|] m2] eqn:A; try (injection T as _ <-).
    all: assert (Y : m_ctxs m2 = m_ctxs m) by (unfold check_tc in A; destruct (tc ESU); [apply cst_only_ctxs; eapply satisfied_cst; eauto|injection A as _ <-; auto]); auto.
    unfold check_tc in T. destruct (tc ES); [|injection T as _ <-; auto]. apply satisfied_cst, cst_only_ctxs in T. congruence. }
  split; [|split; [exact H1|rewrite X1; reflexivity]]. destruct b; auto. exfalso.
  destruct Ends as (s & t & D & Et & En). unfold terminated in T. destruct (check_tc m e tc ESU) as [[[]|] m2] eqn:A; try discriminate.
  destruct D as [->| ->]; [apply (reached_false m ESU t m2 H Re En Et A)|].
  destruct (check_tc_safe _ _ _ _ _ Q _ _ m ESU H (or_introl eq_refl)) as (b' & m2' & A' & H2). rewrite A in A'. injection A' as <- <-.
  refine (reached_false m2 ES t m1 H2 _ En Et T). eapply reached_total; [|exact Re]. unfold check_tc in A. destruct (tc ESU); [|discriminate].
  apply satisfied_cst, cst_only_ctxs in A. rewrite A; reflexivity.
Qed.
Lemma incr_total : forall s m m', incr_clock s m e = Ok m' -> x_total (m_ctxs m' e) = x_total (m_ctxs m e).
Proof. intros s m m' H. unfold incr_clock in H. destruct (clock_incr s _) as [k|]; [|discriminate]. injection H as <-. unfold set_clock. rewrite set_ctx_at. reflexivity. Qed.
Lemma outer_stops : forall f m g, runs g -> hale m -> reached m -> exists m' g' l, outer (S f) m g = (m', g', OReturn l).
Proof.
  intros f m g G H Re. cbn [outer]. pose proof G as (Ge & Gt & Ga). rewrite Ge, Gt. destruct (reached_stop m H Re) as (m1 & -> & H1 & _).
  destruct (finish_safe _ _ _ _ _ Q _ _ g m1 G H1) as (m' & l & -> & _). eauto.
Qed.
Definition busy (g : gen) : Prop := match g_pc g with PLevel _ ch => ch = true \/ abs = true | PIdle => True | _ => False end.
Lemma resume_stops : forall f m g, runs g -> busy g -> hale m -> reached m -> exists m' g' l, resume (S f) m g = (m', g', OReturn l).
Proof.
  intros f m g G B H Re. pose proof G as (Ge & Gt & Ga). unfold resume, busy in *. rewrite Ge. destruct (g_pc g) as [|i ch| |]; [contradiction| | |contradiction].
  - destruct (incr_safe _ _ _ _ _ _ _ m CSE H) as (m1 & I & H1); [unfold ts_lt; simpl; lia|]. rewrite I. apply incr_total in I.
    assert (R1 : reached m1) by (eapply reached_total; eauto).
    assert (X : exists m3, inner m1 g (skipn (S i) (queue m1)) (S i) ch = IEnd m3 ch /\ hale m3 /\ reached m3).
    { destruct (skipn (S i) (queue m1)) as [|lv r]; [exists m1; auto|]. cbn [inner]. rewrite Ge, Gt. destruct (reached_stop m1 H1 R1) as (m3 & -> & H3 & E3).
      exists m3. split; [reflexivity|]. split; [auto|]. eapply reached_total; eauto. }
    destruct X as (m3 & -> & H3 & R3). unfold pass_tail. rewrite Ge.
    assert (Z : negb ch && negb (g_abs g) = false) by (rewrite Ga; destruct B as [->| ->]; [reflexivity|destruct ch; reflexivity]). rewrite Z.
    destruct (incr_safe _ _ _ _ _ _ _ m3 PASS H3) as (m4 & I4 & H4); [unfold ts_lt; simpl; lia|]. rewrite I4. apply incr_total in I4.
    apply outer_stops; auto. eapply reached_total; eauto.
  - destruct (incr_safe _ _ _ _ _ _ _ m CSE H) as (m1 & I & H1); [unfold ts_lt; simpl; lia|]. rewrite I. apply incr_total in I.
    destruct (incr_safe _ _ _ _ _ _ _ m1 PASS H1) as (m2 & I2 & H2); [unfold ts_lt; simpl; lia|]. rewrite I2. apply incr_total in I2.
    apply outer_stops; auto. eapply reached_total; [|exact Re]. congruence.
Qed.
(** *** how far a resumption gets *)
Definition level_at (g : gen) : Prop := match g_pc g with PLevel i ch => i < length q /\ (ch = true \/ abs = true) | PIdle => True | _ => False end.
Lemma outer_moves : forall fuel m g m' g' s, runs g -> queue m = q -> outer fuel m g = (m', g', OYield s) -> P m <= P m' /\ level_at g' /\ runs g'.
Proof.
  induction fuel as [|f IH]; intros m g m' g' s G Hq E; [discriminate|]. cbn [outer] in E. pose proof G as (Ge & Gt & Ga). rewrite Ge, Gt in E.
  destruct (terminated m e tc) as [[[]|] m1] eqn:T; [|..|discriminate].
  { exfalso. unfold finish in E. destruct (if g_skip g then Ok m1 else incr_clock ESU m1 (g_eid g)) as [mm|]; [|inversion E].
    destruct (check_tc mm (g_eid g) (g_tc g) ES) as [[x|] m2]; [|inversion E]. destruct (x_list (m_ctxs m2 (g_eid g))); inversion E. }
  cbv zeta in E. assert (F1 : frame (tc := tc) e m m1) by (destruct (terminated_quiet (tc := tc) _ _ _ _ T) as [F _]; exact F).
  pose proof (terminated_clock _ _ _ _ _ T) as T'. apply same_clock_pass in T'.
  assert (P2 : P (reset_counts_total PASS m1 e) = P m).
  { rewrite <- T'. apply same_clock_pass. unfold same_clock, reset_counts_total. rewrite set_ctx_at. reflexivity. }
  assert (Q2 : queue (reset_counts_total PASS m1 e) = q) by (rewrite <- Hq, <- (frame_queue _ _ _ F1); reflexivity).
  set (m2 := reset_counts_total PASS m1 e) in *. rewrite Q2 in E.
  pose proof (inner_bound e tc abs g q m2 0 false G) as Y.
  destruct (inner m2 g q 0 false) as [m3 s' i ch|m3 ch|m3 ex|m3] eqn:I; [| |discriminate|discriminate].
  - injection E as <- <- <-. destruct Y as (Y1 & Y2 & Y3). apply same_clock_pass in Y1. split; [lia|]. split; [|exact G]. unfold level_at; simpl. split; [lia|auto].
  - destruct Y as (Y1 & Y2). apply same_clock_pass in Y1. destruct (inner_end _ _ _ _ _ _ _ I) as ((F3 & _) & _).
    assert (Q3 : queue m3 = q) by (rewrite (frame_queue _ _ _ F3); auto).
    unfold pass_tail in E. rewrite Ge in E. destruct (negb ch && negb (g_abs g)).
    + destruct (append_exec m3 e false []) as [[u|] m4] eqn:A; [|discriminate]. apply append_clock, same_clock_pass in A. injection E as <- <- <-.
      split; [lia|]. split; [exact Logic.I|exact G].
    + destruct (incr_clock PASS m3 e) as [m4|] eqn:A; [|discriminate]. pose proof (incr_pass _ _ _ _ A) as A'. simpl in A'.
      apply IH in E; auto; [destruct E as (E1 & E2); split; [lia|auto]|]. apply incr_clock_inv in A. destruct A as (k & ->). exact Q3.
Qed.
Lemma resume_moves : forall fuel m g m' g' s, runs g -> level_at g -> queue m = q -> resume fuel m g = (m', g', OYield s) -> level_at g' /\ runs g' /\
  (P m < P m' \/ P m = P m' /\ exists i j ch ch', g_pc g = PLevel i ch /\ g_pc g' = PLevel j ch' /\ i < j).
Proof.
  intros fuel m g m' g' s G B Hq E. pose proof G as (Ge & Gt & Ga). unfold resume, level_at in *. rewrite Ge in E. destruct (g_pc g) as [|i ch| |]; [contradiction| | |contradiction].
  - destruct B as [Li B]. destruct (incr_clock CSE m e) as [m1|] eqn:I; [|discriminate]. pose proof (incr_pass _ _ _ _ I) as I'. simpl in I'. apply incr_clock_inv in I. destruct I as (k & Em1).
    assert (Q1 : queue m1 = q) by (rewrite Em1; exact Hq). rewrite Q1 in E.
    pose proof (inner_bound e tc abs g (skipn (S i) q) m1 (S i) ch G) as Y. rewrite skipn_length in Y.
    destruct (inner m1 g (skipn (S i) q) (S i) ch) as [m3 s' j ch'|m3 ch'|m3 ex|m3] eqn:Inn; [| |discriminate|discriminate].
    + injection E as <- <- <-. destruct Y as (Y1 & Y2 & Y3). apply same_clock_pass in Y1. split; [split; [lia|auto]|]. split; [exact G|]. right. split; [lia|]. exists i, j, ch, ch'. split; [auto|]. split; [auto|lia].
    + destruct Y as (Y1 & Y2). apply same_clock_pass in Y1. destruct (inner_end _ _ _ _ _ _ _ Inn) as ((F3 & _) & _).
      assert (Q3 : queue m3 = q) by (rewrite (frame_queue _ _ _ F3); auto). unfold pass_tail in E. rewrite Ge, Ga in E.
      assert (Z : negb ch' && negb abs = false) by (destruct B as [->| ->]; [rewrite Y2 by auto; reflexivity|destruct ch'; reflexivity]). rewrite Z in E.
      destruct (incr_clock PASS m3 e) as [m4|] eqn:A; [|discriminate]. pose proof (incr_pass _ _ _ _ A) as A'. simpl in A'. apply incr_clock_inv in A. destruct A as (k' & Em4).
      assert (Q4 : queue m4 = q) by (rewrite Em4; exact Q3).
      destruct (outer_moves _ _ _ _ _ _ G Q4 E) as (X1 & X2 & X3). split; [exact X2|]. split; [exact X3|]. left. lia.
  - destruct (incr_clock CSE m e) as [m1|] eqn:I; [|discriminate]. pose proof (incr_pass _ _ _ _ I) as I'. simpl in I'. apply incr_clock_inv in I. destruct I as (k & ->).
    destruct (incr_clock PASS _ e) as [m2|] eqn:I2; [|discriminate]. pose proof (incr_pass _ _ _ _ I2) as I2'. simpl in I2'. apply incr_clock_inv in I2. destruct I2 as (k2 & Em2).
    assert (Q4 : queue m2 = q) by (rewrite Em2; exact Hq).
    destruct (outer_moves _ _ _ _ _ _ G Q4 E) as (X1 & X2 & X3). split; [exact X2|]. split; [exact X3|]. left. lia.
Qed.
(** *** a resumption comes to an end *)
Hypothesis Last : forall s t, tc s = Some t -> carries_over t.
Lemma outer_no_fuel : forall f m g m' g', runs g -> hale m -> (abs = true -> q <> []) -> outer (S (S f)) m g <> (m', g', OFuel).
Proof.
  intros f m g m' g' G H Ne E. pose proof G as (Ge & Gt & Ga). destruct abs eqn:Ea; [|eapply outer_progress; eauto]. specialize (Ne eq_refl).
  remember (S f) as f1. cbn [outer] in E. rewrite Ge, Gt in E.
  destruct (terminated m e tc) as [[[]|] m1] eqn:T; [eapply finish_no_fuel; eauto| |inversion E].
  cbv zeta in E. destruct (terminated_safe _ _ _ _ _ Q _ _ m H) as (b1 & m1' & T' & H1). rewrite T in T'. injection T' as <- <-.
  pose proof (reset_safe _ _ _ _ _ _ _ m1 PASS H1) as H2. set (m2 := reset_counts_total PASS m1 e) in *. rewrite (hl_queue _ _ _ _ _ _ _ _ H2) in E.
  destruct q as [|lv rest] eqn:Eq; [congruence|]. clear Ne.
  destruct (inner m2 g (lv :: rest) 0 false) as [m3 s i ch|m3 ch|m3 ex|m3] eqn:I; try (inversion E; fail); [|eapply inner_fuel; eauto].
  cbn [inner] in I. rewrite Ge, Gt, Ga in I. destruct (terminated m2 e tc) as [[[]|] m2'] eqn:T2; [| |discriminate].
  - injection I as <- <-. unfold pass_tail in E. rewrite Ge, Ga in E. simpl in E. destruct (incr_clock PASS m2' e) as [m4|] eqn:Ic; [|inversion E].
    subst f1. cbn [outer] in E. rewrite Ge, Gt in E. destruct (terminated m4 e tc) as [r m5] eqn:T4.
    destruct (terminated_quiet (tc := tc) _ _ _ _ T2) as [F2 X2].
    destruct (incr_clock_spec (tc := tc) _ _ _ _ Ic) as [F4 X4].
    assert (Np : next_pass (view_of m2 e) (view_of m4 e)).
    { eapply next_pass_tick; [|exact F4|exact X4]. eapply quiet_view. exact (terminated_quiet (tc := tc) _ _ _ _ T2). }
    assert (Rn : r <> Ok false).
    { assert (Kt : tcs_over g) by (intros s t Es; rewrite Gt in Es; eauto). rewrite <- Gt in T2, T4.
      destruct (hl_ctx _ _ _ _ _ _ _ _ H2) as (_ & _ & _ & (h & K) & _).
      eapply (stays_over e h m2 g m2' m4 r m5 Kt); eauto. exists h. split; [apply during_self|exact K]. }
    destruct r as [[]|]; [eapply finish_no_fuel; eauto|congruence|inversion E].
  - destruct (do_level (S (length lv)) m2' e lv []) as [[[exec|ex] m3']|]; [|discriminate..].
    rewrite orb_true_r in I. destruct (append_exec m3' e true exec) as [[|] ?]; discriminate.
Qed.
Lemma resume_no_fuel : forall f m g m' g', runs g -> hale m -> g_pc g <> PStart -> g_pc g <> PDone -> (abs = true -> q <> []) -> resume (S (S f)) m g <> (m', g', OFuel).
Proof.
  intros f m g m' g' G H Hs Hd Ne E. pose proof G as (Ge & Gt & Ga). unfold resume in E. rewrite Ge in E. destruct (g_pc g) as [|i ch| |]; [congruence| | |congruence].
  - destruct (incr_safe _ _ _ _ _ _ _ m CSE H) as (m1 & I & H1); [unfold ts_lt; simpl; lia|]. rewrite I in E.
    pose proof (inner_safe _ _ _ _ _ Q _ _ g (skipn (S i) q) m1 (S i) ch G H1 (skipn_incl _ _ _)) as X. rewrite (hl_queue _ _ _ _ _ _ _ _ H1) in E.
    destruct (inner m1 g (skipn (S i) q) (S i) ch) as [m3 s j ch'|m3 ch'|m3 ex|m3] eqn:Inn; try (inversion E; fail); [|eapply inner_fuel; eauto].
    pose proof (tail_safe _ _ _ _ _ _ _ g m3 ch' G X) as Z. destruct (pass_tail m3 g ch') as [m4|m4|m4 ex]; try (inversion E; fail). eapply outer_no_fuel; eauto.
  - destruct (incr_safe _ _ _ _ _ _ _ m CSE H) as (m1 & I & H1); [unfold ts_lt; simpl; lia|]. rewrite I in E.
    destruct (incr_safe _ _ _ _ _ _ _ m1 PASS H1) as (m2 & I2 & H2); [unfold ts_lt; simpl; lia|]. rewrite I2 in E. eapply outer_no_fuel; eauto.
Qed.
End Stop.
(** ** The run *)
Lemma start_defaults : forall m mb g q, toposort (m_graph m) = TopoOk q -> add_defaults (m_nodes m) m = Ok mb -> start mb g = start m g.
Proof.
  intros m mb g q T A. rewrite !start_eq, (add_defaults_twice _ _ A), A. destruct (add_defaults_rest _ _ _ A) as (_ & -> & _). rewrite T. reflexivity.
Qed.
Lemma start_tconds : forall m g g1 m1, start m g = (Ok g1, m1) -> m_tconds m1 = m_tconds m.
Proof.
  intros m g g1 m1 H. rewrite start_eq in H. destruct (toposort (m_graph m)); try discriminate.
  destruct (add_defaults (m_nodes m) m) as [mb|] eqn:A; [|discriminate]. destruct (add_defaults_rest _ _ _ A) as (_ & _ & <- & _). clear A. unfold start_rest in H. cbv zeta in H.
  destruct (setup_absolute _ _ _) as [m3|ex] eqn:S; [|inversion H].
  assert (H3 : m_tconds m3 = m_tconds mb).
  { unfold setup_absolute in S. destruct (absolute_conditions _ _) in S; [injection S as <-; reflexivity|].
    repeat match type of S with match ?x with _ => _ end = _ => destruct x; try discriminate end; injection S as <-; reflexivity. }
  destruct (init_counts_base m3 _ _) as [[r|ex] m4] eqn:I; [|inversion H].
  assert (H4 : m_tconds m4 = m_tconds m3).
  { unfold init_counts_base in I. repeat (destruct (copy_entry _ _); try (inversion I; fail)); injection I as _ <-; reflexivity. }
  rewrite <- H3, <- H4. injection H as _ <-. reflexivity.
Qed.
Lemma finish_no_stop : forall m g m' g', finish m g <> (m', g', OStop).
Proof.
  intros m g m' g' E. unfold finish in E. destruct (if g_skip g then Ok m else incr_clock ESU m (g_eid g)) as [mm|]; [|inversion E].
  destruct (check_tc mm (g_eid g) (g_tc g) ES) as [[x|] m2]; [|inversion E]. destruct (x_list (m_ctxs m2 (g_eid g))); inversion E.
Qed.
Lemma outer_no_stop : forall f m g m' g', outer f m g <> (m', g', OStop).
Proof.
  induction f as [|f IH]; intros m g m' g' E; [inversion E|]. cbn [outer] in E. cbv zeta in E.
  destruct (terminated m (g_eid g) (g_tc g)) as [[[]|] m1]; [eapply finish_no_stop; eauto| |inversion E].
  destruct (inner _ _ _ _ _) as [m3 s i ch|m3 ch|m3 ex|m3]; try (inversion E; fail).
  destruct (pass_tail m3 g ch) as [m4|m4|m4 ex]; try (inversion E; fail). eapply IH; eauto.
Qed.
Lemma resume_no_stop : forall f m g m' g', g_pc g <> PDone -> resume f m g <> (m', g', OStop).
Proof.
  intros f m g m' g' Nd E. unfold resume in E. destruct (g_pc g) as [|i ch| |]; [| | |congruence].
  - destruct (start m g) as [[g1|] m1]; [|inversion E]. eapply outer_no_stop; eauto.
  - destruct (incr_clock CSE m (g_eid g)) as [m1|]; [|inversion E].
    destruct (inner _ _ _ _ _) as [m3 s j c|m3 c|m3 ex|m3]; try (inversion E; fail).
    destruct (pass_tail m3 g c) as [m4|m4|m4 ex]; try (inversion E; fail). eapply outer_no_stop; eauto.
  - destruct (incr_clock CSE m (g_eid g)) as [m1|]; [|inversion E]. destruct (incr_clock PASS m1 (g_eid g)) as [m2|]; [|inversion E]. eapply outer_no_stop; eauto.
Qed.
Lemma run_frame : forall m0 g0 ts m g fuel m' g' s, running_in_passes m0 g0 ts m g -> g_pc g0 = PStart -> ts <> [] -> resume fuel m g = (m', g', OYield s) ->
  exists tc, frame (tc := tc) (g_eid g0) m m'.
Proof.
  intros m0 g0 ts m g fuel m' g' s Rp Hp Ne E. destruct (passes_history _ _ _ _ _ Rp Hp) as [(-> & _)|(g1 & m1 & ps & ph & St1 & _)]; [congruence|].
  destruct (run_next _ _ _ _ _ _ _ _ _ _ _ _ _ St1 E) as (ps' & ph' & St2 & Y & _). apply yielded_frame' in Y. exists (g_tc g1).
  destruct (rs_started _ _ _ _ _ _ _ _ _ St1) as (ms & _ & S). destruct (start_spec _ _ _ _ S) as (_ & _ & _ & Ge & _). rewrite <- Ge. exact Y.
Qed.
Section Run.
Variables (W : world -> Prop) (ran : Prop) (m : core) (g : gen) (mb : core) (N : node -> nat) (p : nat).
Hypotheses (F : fit W ran m g) (Hp : g_pc g = PStart) (Qb : queue_built m) (Db : add_defaults (m_nodes m) m = Ok mb)
  (La : lasting m g) (En : ends_after N m g) (Du : forall d, In d (m_nodes m) -> 0 < N d -> due mb (pass_number m (g_eid g)) p d (N d)).
Notation e := (g_eid g).
Notation L := (sets_per_pass m).
Notation hale_in abs := (hale (m_nodes m) W ran e (queue m) (run_tc m g) abs).
Lemma db_same : m_nodes mb = m_nodes m /\ m_ctxs mb = m_ctxs m /\ queue mb = queue m /\ (forall s, run_tc mb g s = run_tc m g s) /\ queue_built mb.
Proof.
  destruct (add_defaults_rest _ _ _ Db) as (A & B & C & _). destruct (RunHist.add_defaults_spec _ _ _ Db) as (Xc & St & _).
  split; [auto|]. split; [auto|]. split; [apply static_queue; auto|]. split; [intros s; unfold run_tc; rewrite C; reflexivity|].
  unfold queue_built. rewrite B, (sc_levels _ _ St). exact Qb.
Qed.
Lemma passed_reached : forall ts m' g' x, running_while_in_passes (unchanged g mb) mb g (ts ++ [x]) m' g' -> fst x = pass_number m' e -> p <= pass_number m' e ->
  forall d, In d (m_nodes m) -> N d <= occurrences d (map snd ts).
Proof.
  intros ts m' g' [k s] R Ex Lp d Id. simpl in Ex. destruct db_same as (A & B & C & D & E). destruct (ft_clock _ _ _ _ F) as (h & K).
  destruct (Nat.eq_dec (N d) 0) as [->|Nz]; [lia|].
  assert (X : N d <= occurrences d (before_pass p (ts ++ [(k, s)]))).
  { eapply (due_runs mb g _ m' g' h); eauto.
    - intros n In'. rewrite A in In'. rewrite C. apply (ft_queue _ _ _ _ F); auto.
    - rewrite B. exact K.
    - intros s0 t Et. rewrite D in Et. eapply La; eauto.
    - replace (pass_number mb e) with (pass_number m e) by (unfold pass_number; rewrite B; reflexivity). apply Du; [auto|lia]. }
  rewrite before_pass_snoc in X by lia. eapply Nat.le_trans; [exact X|]. unfold before_pass. clear.
  unfold occurrences. induction ts as [|[j z] ts IH]; simpl; auto. destruct (Nat.ltb j p); simpl; destruct (mem d z); simpl; lia.
Qed.
Lemma unchanged_frame : forall tc x y, frame (tc := tc) e x y -> unchanged g mb x -> unchanged g mb y.
Proof.
  intros tc x y Fr [A B C]. constructor; [intros n I; rewrite (fr_basic _ _ _ Fr); auto|intros o; rewrite (fr_owners _ _ _ Fr); auto|].
  intros s. unfold run_tc in *. rewrite (fr_tconds _ _ _ Fr). apply C.
Qed.
Definition to_come (m' : core) (g' : gen) : nat :=
  match g_pc g' with PLevel i _ => (p - pass_number m' e) * L - S i | _ => (p - pass_number m' e - 1) * L end.
Lemma due_drive : forall abs fuel steps ts m' g' acc, running_while_in_passes (unchanged g mb) mb g ts m' g' -> ts <> [] -> hale_in abs m' ->
  runs_with e (run_tc m g) abs g' -> level_at (queue m) abs g' -> pass_number m' e < p -> (abs = true -> queue m <> []) -> to_come m' g' < steps ->
  exists m2 g2 ys l, drive steps (S (S fuel)) m' g' acc = (m2, g2, acc ++ ys, OReturn l) /\ length ys <= to_come m' g'.
Proof.
  intros abs fuel. induction steps as [|k IH]; intros ts m' g' acc R Ne H G Lv Lp Na Ls; [lia|]. cbn [drive].
  destruct (rwp_passes _ _ _ _ _ _ R) as (Rp & Un).
  assert (Ps : g_pc g' <> PStart) by (unfold level_at in Lv; destruct (g_pc g'); try contradiction; congruence).
  assert (Pd : g_pc g' <> PDone) by (unfold level_at in Lv; destruct (g_pc g'); try contradiction; congruence).
  pose proof (resume_safe _ _ _ _ _ (ft_queue _ _ _ _ F) _ _ (S (S fuel)) m' g' G Ps H) as Ca.
  destruct (resume (S (S fuel)) m' g') as [[m1 g1] o] eqn:E.
  destruct o as [s|l|ex| |]; [| |contradiction| |].
  2: exists m1, g1, [], l; rewrite app_nil_r; split; [reflexivity|simpl; lia].
  2: exfalso; eapply resume_no_stop; eauto.
  2: { exfalso. eapply resume_no_fuel; eauto. apply (ft_queue _ _ _ _ F). }
  destruct Ca as (H1 & G1 & P1). destruct (resume_moves _ _ _ _ _ _ _ _ _ _ G Lv (hl_queue _ _ _ _ _ _ _ _ H) E) as (Lv1 & _ & Mv).
  destruct (run_frame _ _ _ _ _ _ _ _ _ Rp Hp Ne E) as (tc & Fr).
  pose proof (rwp_yields _ _ _ _ _ _ _ _ _ _ R E (unchanged_frame _ _ _ Fr Un)) as R1.
  assert (Lp1 : pass_number m1 e < p).
  { destruct (Nat.lt_ge_cases (pass_number m1 e) p) as [X|X]; [auto|exfalso]. pose proof (passed_reached _ _ _ _ R1 eq_refl X) as Y.
    destruct (run_total _ _ _ _ _ Rp Hp Ne) as (t & (Et & _ & Tt) & _).
    destruct (resume_stops (m_nodes m) W ran e (queue m) (ft_queue _ _ _ _ F) (run_tc m g) abs N En (S fuel) m' g') as (a & b & c & Z); auto.
    - unfold busy, level_at in *. destruct (g_pc g'); tauto.
    - exists t. split; [auto|]. intros d Id. destruct (Tt d) as [-> _]. auto.
    - rewrite E in Z. discriminate. }
  assert (Le : to_come m1 g1 < to_come m' g').
  { unfold to_come, level_at in *. assert (Lq : length (queue m) <= L) by apply Nat.le_max_r. assert (L1 : 1 <= L) by apply Nat.le_max_l.
    pose proof (times_split (p - pass_number m' e) L ltac:(lia)) as M0. pose proof (times_split (p - pass_number m1 e) L ltac:(lia)) as M1.
    destruct Mv as [Mv|(Mv & i & j & ch & ch' & E1 & E2 & Lij)].
    - assert (X : (p - pass_number m1 e) * L <= (p - pass_number m' e - 1) * L) by (apply Nat.mul_le_mono_r; lia).
      revert M0 M1 X. generalize ((p - pass_number m1 e) * L) ((p - pass_number m1 e - 1) * L) ((p - pass_number m' e) * L) ((p - pass_number m' e - 1) * L). intros.
      destruct (g_pc g') as [|i' ch'| |], (g_pc g1) as [|i1 ch1| |]; try contradiction; lia.
    - rewrite E1, E2 in *. rewrite <- Mv. revert M0. generalize ((p - pass_number m' e) * L) ((p - pass_number m' e - 1) * L). intros. lia. }
  destruct (IH _ m1 g1 (acc ++ [s]) R1 ltac:(destruct ts; discriminate) H1 G1 Lv1 Lp1 Na ltac:(lia)) as (m2 & g2 & ys & l & D & B).
  exists m2, g2, (s :: ys), l. rewrite D, <- app_assoc. split; [reflexivity|simpl; lia].
Qed.
Theorem due_run : forall fuel steps acc, (p - pass_number m e) * L < steps ->
  exists m2 g2 ys l, drive steps (S (S fuel)) m g acc = (m2, g2, acc ++ ys, OReturn l) /\ length ys <= (p - pass_number m e) * L.
Proof.
  intros fuel steps acc Ls. destruct (start_ok _ _ _ _ F Hp) as (mb' & g1 & m1 & A & S1 & Eb & Eo). rewrite Db in A. injection A as <-.
  destruct (start_hale _ _ _ _ F Hp) as (g1' & m1' & S1' & H & G). rewrite S1 in S1'. injection S1' as <- <-.
  assert (P1 : pass_number m1 e = pass_number m e).
  { destruct (start_spec _ _ _ _ S1) as (_ & _ & [_ _ _ _ (k & K1 & _ & _ & K4 & _)] & _). unfold pass_number. unfold the_clock at 1. rewrite K1, K4. reflexivity. }
  assert (Na : g_abs g1 = true -> queue m <> []).
  { intros Ea Eq. assert (X : m_nodes m <> []) by (apply (ft_abs _ _ _ _ F); unfold uses_absolute; rewrite Hp, <- (start_abs _ _ _ _ S1); auto).
    destruct (m_nodes m) as [|n r] eqn:En'; [congruence|]. assert (I : In n (m_nodes m)) by (rewrite En'; simpl; auto). apply (ft_queue _ _ _ _ F) in I.
    destruct I as (level & Il & _). rewrite Eq in Il. destruct Il. }
  destruct (ft_acyclic _ _ _ _ F) as (q0 & T). pose proof (start_defaults _ _ g _ T Db) as Sb.
  assert (Rb : resume (S (S fuel)) mb g = outer (S (S fuel)) m1 g1) by (unfold resume; rewrite Hp, Sb, S1; reflexivity).
  destruct steps as [|k]; [lia|]. cbn [drive].
  assert (Rm : resume (S (S fuel)) m g = outer (S (S fuel)) m1 g1) by (unfold resume; rewrite Hp, S1; reflexivity). rewrite Rm.
  pose proof (outer_safe _ _ _ _ _ (ft_queue _ _ _ _ F) _ _ (S (S fuel)) m1 g1 G H) as Ca.
  destruct (outer (S (S fuel)) m1 g1) as [[m2 g2] o] eqn:E.
  destruct o as [s|l|ex| |]; [| |contradiction| |].
  2: exists m2, g2, [], l; rewrite app_nil_r; split; [reflexivity|apply Nat.le_0_l].
  2: exfalso; eapply outer_no_stop; eauto.
  2: exfalso; eapply outer_no_fuel; eauto; apply (ft_queue _ _ _ _ F).
  destruct Ca as (H2 & G2 & P2). destruct (outer_moves _ _ _ _ _ _ _ _ _ _ G (hl_queue _ _ _ _ _ _ _ _ H) E) as (Lp0 & Lv2 & _).
  assert (R2 : running_while_in_passes (unchanged g mb) mb g ([] ++ [(pass_number m2 e, s)]) m2 g2).
  { eapply rwp_yields; [apply rwp_created; constructor; auto|exact Rb|].
    destruct (run_first m g m _ _ _ _ Hp (undisturbed_refl _ _) Rm) as (g1' & m1' & ps' & ph' & S1' & _ & Y & _). rewrite S1 in S1'. injection S1' as <- <-.
    apply yielded_frame' in Y. destruct G as (Ge & _). rewrite Ge in Y. eapply unchanged_frame; [exact Y|].
    constructor; [intros; congruence|intros; congruence|]. intros x. unfold run_tc. rewrite (start_tconds _ _ _ _ S1), <- (proj1 (proj2 (proj2 (add_defaults_rest _ _ _ Db)))). reflexivity. }
  assert (Lp : pass_number m2 e < p).
  { destruct (Nat.lt_ge_cases (pass_number m2 e) p) as [X|X]; [auto|exfalso]. pose proof (passed_reached _ _ _ _ R2 eq_refl X) as Y.
    destruct (outer_stops (m_nodes m) W ran e (queue m) (ft_queue _ _ _ _ F) (run_tc m g) (g_abs g1) N En (S fuel) m1 g1) as (a & b & c & Z); auto.
    - destruct (hl_ctx _ _ _ _ _ _ _ _ H) as (Xt & _). destruct (x_total (m_ctxs m1 e)) as [t|] eqn:Et; [|congruence]. exists t. split; [auto|].
      intros d Id. specialize (Y d Id). change (N d <= 0) in Y. lia.
    - rewrite E in Z. discriminate. }
  assert (Le : S (to_come m2 g2) <= (p - pass_number m e) * L).
  { unfold to_come, level_at in *. assert (L1 : 1 <= L) by apply Nat.le_max_l.
    pose proof (times_split (p - pass_number m2 e) L ltac:(lia)) as M0.
    assert (X : (p - pass_number m2 e) * L <= (p - pass_number m e) * L) by (apply Nat.mul_le_mono_r; lia).
    revert M0 X. generalize ((p - pass_number m2 e) * L) ((p - pass_number m2 e - 1) * L) ((p - pass_number m e) * L). intros.
    destruct (g_pc g2); try contradiction; lia. }
  destruct (due_drive (g_abs g1) fuel k _ m2 g2 (acc ++ [s]) R2 ltac:(discriminate) H2 G2 Lv2 Lp Na ltac:(lia)) as (m3 & g3 & ys & l & D & B).
  exists m3, g3, (s :: ys), l. rewrite D, <- app_assoc. split; [reflexivity|simpl; lia].
Qed.
End Run.
(** ** Schedulers *)
Theorem sched_due_run : forall cyc arr W ran d g mb N p steps fuel d1, sync cyc arr d = (Ok tt, d1) -> fit W ran (core_of d1) g -> g_pc g = PStart ->
  queue_built (core_of d1) -> add_defaults (m_nodes (core_of d1)) (core_of d1) = Ok mb -> lasting (core_of d1) g -> ends_after N (core_of d1) g ->
  (forall n, In n (m_nodes (core_of d1)) -> 0 < N n -> due mb (pass_number (core_of d1) (g_eid g)) p n (N n)) -> 2 <= fuel ->
  (p - pass_number (core_of d1) (g_eid g)) * sets_per_pass (core_of d1) < steps ->
  exists d' g' ys l, sdrive cyc arr steps fuel d g [] = (d', g', ys, OReturn l) /\ length ys <= (p - pass_number (core_of d1) (g_eid g)) * sets_per_pass (core_of d1).
Proof.
  intros cyc arr W ran d g mb N p steps fuel d1 S F P Qb Db La En Du Lf Ls. pose proof (sync_settled _ _ _ _ _ S) as T.
  destruct fuel as [|[|f]]; [lia|lia|].
  destruct (due_run _ _ _ _ _ _ _ F P Qb Db La En Du f _ [] Ls) as (m' & g' & ys & l & D & B).
  rewrite (sdrive_sync _ _ _ _ _ _ _ _ (Nat.le_lt_trans _ _ _ (Nat.le_0_l _) Ls) S T). pose proof (sdrive_drive cyc arr (Datatypes.S (Datatypes.S f)) steps d1 g [] T) as X. rewrite D in X.
  destruct (sdrive cyc arr steps (Datatypes.S (Datatypes.S f)) d1 g []) as [[[d' g1] l1] o]. destruct X as (_ & -> & -> & ->). exists d', g', ys, l. auto.
Qed.
Theorem new_due_run : forall cyc arr input base conds tc deid exact du ow nx w r d (W : world -> Prop) b tca skip mb N p steps fuel,
  (forall q, Forall2 (@Permutation node) q (arr q)) -> arg_graph input = Ok base -> wf_graph base -> closed_graph base -> ~ cyclic base -> base <> [] ->
  new_sched cyc arr input conds tc deid exact du ow nx w = (Ok r, d) -> cs_order (d_cs d) = [] ->
  (forall o, nx <= o -> d_owners d o = None) -> W w ->
  (forall n c, aget n (cs_basic (d_cs d)) = Some c -> safe (gkeys base) deid W False (d_owners d) c) ->
  (forall s c, s = ESU \/ s = ES -> (tc = Some c \/ tca = Some c) -> forall x, c s = Some x -> safe (gkeys base) deid W False (d_owners d) x) ->
  add_defaults (gkeys base) (core_of d) = Ok mb -> lasting (core_of d) (new_gen deid b tca skip) -> ends_after N (core_of d) (new_gen deid b tca skip) ->
  (forall n, In n (gkeys base) -> 0 < N n -> due mb 0 p n (N n)) -> 2 <= fuel -> p * sets_per_pass (core_of d) < steps ->
  exists d' g' ys l, sdrive cyc arr steps fuel d (new_gen deid b tca skip) [] = (d', g', ys, OReturn l) /\ length ys <= p * sets_per_pass (core_of d).
Proof.
  intros cyc arr input base conds tc deid exact du ow nx w r d W b tca skip mb N p steps fuel AR AG Wf Cl Cy Ne Nw O Fr Ww Sb St Db La En Du Lf Ls.
  destruct (new_fit _ _ _ _ _ _ _ _ _ _ _ _ _ _ W b tca skip AR AG Wf Cl Cy Ne Nw O Fr Ww Sb St) as (d1 & S & Ec & F).
  destruct (new_fields _ _ _ _ _ _ _ _ _ _ _ _ _ _ AG Nw O) as (F1 & F2 & F3 & F4 & F5 & F6 & F7 & F8).
  assert (P0 : pass_number (core_of d) deid = 0) by (unfold pass_number, the_clock; simpl; rewrite F4, upd_same; reflexivity).
  assert (Gg : m_graph (core_of d) = base) by (simpl; unfold top_graph; rewrite F6; auto).
  destruct (proj2 (TopoProofs.toposort_ok_iff base Wf) Cy) as (q & TS).
  assert (Qb : queue_built (core_of d)).
  { unfold queue_built. rewrite Gg. split; [exact Wf|]. exists q. split; [exact TS|]. simpl. unfold top_queue. rewrite F6. simpl. unfold queue_of. rewrite TS. apply AR. }
  rewrite <- Ec in *. assert (Nn : m_nodes (core_of d1) = gkeys base) by (rewrite Ec; exact F1).
  destruct (sched_due_run cyc arr W False d (new_gen deid b tca skip) mb N p steps fuel d1 S F eq_refl Qb) as (d' & g' & ys & l & E & B); auto.
  - rewrite Nn. auto.
  - rewrite Nn. simpl g_eid. rewrite P0. auto.
  - simpl g_eid. rewrite P0, Nat.sub_0_r. exact Ls.
  - simpl g_eid in B. rewrite P0, Nat.sub_0_r in B. exists d', g', ys, l. auto.
Qed.
