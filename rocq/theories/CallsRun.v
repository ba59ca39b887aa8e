(** How often conditions are evaluated: runs (C83). *)
From Verif Require Export CallsFacts.
Open Scope nat_scope.

(** ** Costs
    In a pass, each look at the termination conditions costs between lt and ht, the consideration
    set at position j between lo j and hi j. *)
Section Cost.
Variables (e : eid) (k : nat) (B : amap cond) (q : list (list node)) (tc : tconds) (lo hi : nat -> nat) (lt ht : nat).
Hypothesis HL : forall j lv fuel m s m', m_basic m = B -> nth_error q j = Some lv -> do_level fuel m e lv [] = Some (Ok s, m') ->
  calls k m + lo j <= calls k m' <= calls k m + hi j.
Hypothesis HT : forall m r m', terminated m e tc = (Ok r, m') -> calls k m' <= calls k m + ht /\ (r = false -> calls k m + lt <= calls k m').
Fixpoint acc (t : nat) (f : nat -> nat) (n : nat) : nat := match n with O => 0 | S n => acc t f n + t + f n end.
Lemma acc_le : forall t f a b, a <= b -> acc t f a <= acc t f b.
Proof. intros t f a b L. induction L; simpl; lia. Qed.
Definition whole (t : nat) (f : nat -> nat) : nat := t + acc t f (length q).
Definition place (t : nat) (f : nat -> nat) (p : pc) : nat :=
  match p with PLevel j _ => t + acc t f (S j) | PIdle => whole t f | _ => 0 end.
Definition pot (t : nat) (f : nat -> nat) (m : core) (p : pc) : nat := pass_number m e * whole t f + place t f p.
Definition inb (m : core) : Prop := m_basic m = B /\ queue m = q.
Lemma inb_fixed : forall m m', fixed e m m' -> inb m -> inb m'.
Proof. intros m m' [] [A C]. split; congruence. Qed.
Lemma skip_tail : forall i level rest, level :: rest = skipn i q -> nth_error q i = Some level /\ rest = skipn (S i) q /\ i < length q.
Proof.
  clear. intros i level rest E. assert (L : i < length q). { destruct (le_lt_dec (length q) i) as [L|L]; auto. rewrite (skipn_all2 q L) in E. discriminate. }
  split; [|split; auto].
  - revert i E L. induction q as [|x r IH]; intros [|i] E L; simpl in *; try lia; [congruence|]. apply IH; auto. lia.
  - revert i E L. induction q as [|x r IH]; intros [|i] E L; simpl in *; try lia; [congruence|]. apply IH; auto. lia.
Qed.
Definition quiet_tc : Prop := forall m m', terminated m e tc <> (Ok true, m').
Lemma inner_cost : forall rest m g i ch, g_eid g = e -> g_tc g = tc -> inb m -> rest = skipn i q -> i <= length q ->
  match inner m g rest i ch with
  | IYield m3 s j ch' => fixed e m m3 /\ i <= j < length q /\ calls k m3 + acc ht hi i <= calls k m + acc ht hi (S j) /\ calls k m + acc lt lo (S j) <= calls k m3 + acc lt lo i
  | IEnd m3 ch' => fixed e m m3 /\ calls k m3 + acc ht hi i <= calls k m + acc ht hi (length q) /\
      (quiet_tc -> calls k m + acc lt lo (length q) <= calls k m3 + acc lt lo i)
  | _ => True
  end.
Proof.
  induction rest as [|level rest IH]; intros m g i ch Ge Gt Hb Hr Li.
  - assert (i = length q) by (destruct (le_lt_dec (length q) i) as [L|L]; [lia|]; assert (X : length (skipn i q) = 0) by (rewrite <- Hr; auto); rewrite skipn_length in X; lia).
    subst i. simpl. split; [apply fixed_refl|]. split; lia.
  - destruct (skip_tail _ _ _ Hr) as (N & R & Lt). cbn [inner]. rewrite Ge, Gt.
    destruct (terminated m e tc) as [[[|]|ex] m1] eqn:T; auto.
    + destruct (HT _ _ _ T) as [U _]. split; [eapply fixed_term; eauto|]. split; [|intros Q; destruct (Q _ _ T)].
      assert (X := acc_le ht hi (S i) (length q) Lt). simpl in X. lia.
    + destruct (HT _ _ _ T) as [U W]. specialize (W eq_refl). pose proof (fixed_term _ _ _ _ _ T) as F1.
      destruct (do_level (S (length level)) m1 e level []) as [[[s|ex] m2]|] eqn:D; auto.
      pose proof (fixed_level _ _ _ _ _ _ _ D) as F2. assert (F : fixed e m m2) by (eapply fixed_trans; eauto).
      assert (Hb1 := inb_fixed _ _ F1 Hb). destruct (HL i level _ _ _ _ (proj1 Hb1) N D) as [W2 U2].
      destruct (nonempty s || g_abs g).
      * destruct (append_exec m2 e (g_abs g) s) as [[m3'|ex] m3] eqn:A; auto. destruct (fixed_append _ _ _ _ _ _ A) as [F3 C3].
        assert (CC : calls k m3 = calls k m2) by (unfold calls; rewrite C3; auto). rewrite CC. split; [eapply fixed_trans; eauto|]. split; [lia|]. simpl. lia.
      * specialize (IH m2 g (S i) (ch || nonempty s) Ge Gt (inb_fixed _ _ F Hb) R Lt).
        destruct (inner m2 g rest (S i) (ch || nonempty s)) as [m3 s3 j ch3|m3 ch3|m3 ex|m3]; auto; simpl in IH; destruct IH as (F3 & IH).
        -- destruct IH as (Lj & U3 & W3). split; [eapply fixed_trans; eauto|]. split; [lia|]. simpl. lia.
        -- destruct IH as (U3 & W3). split; [eapply fixed_trans; eauto|]. split; [lia|]. intros Q. specialize (W3 Q). lia.
Qed.
(** a whole resumption *)
Definition costs (m : core) (p : pc) (m' : core) (g' : gen) : Prop :=
  inb m' /\ in_queue m' g' /\ (calls k m' + pot ht hi m p <= calls k m + pot ht hi m' (g_pc g')) /\ (quiet_tc -> calls k m + pot lt lo m' (g_pc g') <= calls k m' + pot lt lo m p).
Ltac fold_pot := rewrite ?Nat.mul_succ_l in *;
  repeat match goal with
  | |- context [?a * whole ?x ?y] => let z := fresh "z" in let h := fresh "h" in remember (a * whole x y) as z eqn:h; clear h
  | _ : context [?a * whole ?x ?y] |- _ => let z := fresh "z" in let h := fresh "h" in remember (a * whole x y) as z eqn:h; clear h
  end; unfold whole in *.
Lemma tail_cost : forall m3 g ch, g_eid g = e -> inb m3 ->
  match pass_tail m3 g ch with
  | TYield m4 => fixed e m3 m4 /\ calls k m4 = calls k m3
  | TNext m4 => inb m4 /\ calls k m4 = calls k m3 /\ pass_number m4 e = S (pass_number m3 e)
  | TErr _ _ => True
  end.
Proof.
  intros m3 g ch Ge Hb. unfold pass_tail. rewrite Ge. destruct (negb ch && negb (g_abs g)).
  - destruct (append_exec m3 e false []) as [[m4'|ex] m4] eqn:A; auto. destruct (fixed_append _ _ _ _ _ _ A) as [F C]. split; auto. unfold calls. rewrite C. auto.
  - destruct (incr_clock PASS m3 e) as [m4|ex] eqn:E; auto. destruct (pass_incr _ _ _ _ E) as (C & X & Q & _ & P). destruct Hb. split; [split; congruence|]. split; [unfold calls; rewrite C; auto|auto].
Qed.
Lemma outer_cost : forall fuel m g m' g' s, outer fuel m g = (m', g', OYield s) -> g_eid g = e -> g_tc g = tc -> inb m -> costs m PStart m' g'.
Proof.
  induction fuel as [|f IH]; intros m g m' g' s E Ge Gt Hb; [discriminate|]. cbn [outer] in E. rewrite Ge, Gt in E.
  destruct (terminated m e tc) as [[[|]|ex] m1] eqn:T; [|destruct (HT _ _ _ T) as [U W]; specialize (W eq_refl)|discriminate].
  { unfold finish in E. rewrite Gt in E. destruct (if g_skip g then _ else _) as [mm|]; [|discriminate]. destruct (check_tc mm (g_eid g) tc ES) as [[x|] m2]; [|discriminate]. destruct (x_list _); discriminate. }
  pose proof (fixed_term _ _ _ _ _ T) as F1. set (m2 := reset_counts_total PASS m1 e) in E.
  assert (F2 : fixed e m1 m2) by (apply fixed_ctx; auto). assert (C2 : calls k m2 = calls k m1) by auto. assert (F12 : fixed e m m2) by (eapply fixed_trans; eauto).
  assert (Hb2 := inb_fixed _ _ F12 Hb). pose proof (inner_cost (queue m2) m2 g 0 false Ge Gt Hb2) as X. rewrite (proj2 Hb2) in X. specialize (X eq_refl (Nat.le_0_l _)).
  rewrite (proj2 Hb2) in E. clearbody m2.
  destruct (inner m2 g q 0 false) as [m3 s3 j ch3|m3 ch3|m3 ex|m3]; try discriminate.
  - destruct X as (F3 & Lj & U3 & W3). injection E as <- <- _. assert (F := fixed_trans _ _ _ _ F12 F3). split; [eapply inb_fixed; eauto|]. split; [unfold in_queue; cbn [at_pc g_pc]; rewrite ?(fx_queue _ _ _ F3), ?(proj2 Hb1), ?(proj2 Hb2); try exact Logic.I; lia|].
    unfold pot. rewrite (fx_pass _ _ _ F). simpl in *. split; [lia|]. intros _. lia.
  - destruct X as (F3 & U3 & W3). assert (F := fixed_trans _ _ _ _ F12 F3). assert (Hb3 := inb_fixed _ _ F Hb). pose proof (tail_cost m3 g ch3 Ge Hb3) as Y.
    simpl in U3, W3. destruct (pass_tail m3 g ch3) as [m4|m4|m4 ex]; [| |discriminate].
    + destruct Y as [F4 C4]. injection E as <- <- _. split; [eapply inb_fixed; eauto|]. split; [unfold in_queue; cbn [at_pc g_pc]; rewrite ?(fx_queue _ _ _ F3), ?(proj2 Hb1), ?(proj2 Hb2); try exact Logic.I; lia|]. unfold pot. rewrite (fx_pass _ _ _ F4), (fx_pass _ _ _ F). cbn [at_pc g_pc place]. fold_pot. split; [lia|]. intros Q. specialize (W3 Q). lia.
    + destruct Y as (Hb4 & C4 & P4). apply IH in E; auto. destruct E as (Hb' & IQ' & U' & W'). split; [auto|]. split; [auto|]. unfold pot in *. rewrite P4, (fx_pass _ _ _ F) in U', W'. cbn [place] in *. fold_pot. split; [lia|]. intros Q. specialize (W3 Q). specialize (W' Q). lia.
Qed.
Lemma resume_cost : forall fuel m g m' g' s, resume fuel m g = (m', g', OYield s) -> g_eid g = e -> g_tc g = tc -> inb m -> in_queue m g -> g_pc g <> PStart -> costs m (g_pc g) m' g'.
Proof.
  intros fuel m g m' g' s E Ge Gt Hb IQ NS. unfold resume in E. unfold in_queue in IQ. rewrite (proj2 Hb) in IQ. destruct (g_pc g) as [|i ch| |] eqn:P; [congruence| | |discriminate].
  - destruct (incr_clock CSE m (g_eid g)) as [m1|] eqn:I; [|discriminate]. rewrite Ge in I. destruct (pass_incr _ _ _ _ I) as (C1 & B1 & Q1 & P1 & _). specialize (P1 eq_refl).
    assert (Hb1 : inb m1) by (destruct Hb; split; congruence). assert (CC1 : calls k m1 = calls k m) by (unfold calls; rewrite C1; auto). rewrite (proj2 Hb1) in E.
    assert (Li : S i <= length q) by exact IQ.
    + pose proof (inner_cost (skipn (S i) q) m1 g (S i) ch Ge Gt Hb1 eq_refl Li) as X.
      destruct (inner m1 g (skipn (S i) q) (S i) ch) as [m3 s3 j ch3|m3 ch3|m3 ex|m3]; try discriminate.
      * destruct X as (F3 & Lj & U3 & W3). injection E as <- <- _. split; [eapply inb_fixed; eauto|]. split; [unfold in_queue; cbn [at_pc g_pc]; rewrite ?(fx_queue _ _ _ F3), ?(proj2 Hb1), ?(proj2 Hb2); try exact Logic.I; lia|]. unfold pot. rewrite (fx_pass _ _ _ F3), P1. cbn [at_pc g_pc place]. split; [lia|]. intros _. lia.
      * destruct X as (F3 & U3 & W3). assert (Hb3 := inb_fixed _ _ F3 Hb1). pose proof (tail_cost m3 g ch3 Ge Hb3) as Y. destruct (pass_tail m3 g ch3) as [m4|m4|m4 ex]; [| |discriminate].
        -- destruct Y as [F4 C4]. injection E as <- <- _. split; [eapply inb_fixed; eauto|]. split; [unfold in_queue; cbn [at_pc g_pc]; rewrite ?(fx_queue _ _ _ F3), ?(proj2 Hb1), ?(proj2 Hb2); try exact Logic.I; lia|]. unfold pot. rewrite (fx_pass _ _ _ F4), (fx_pass _ _ _ F3), P1. cbn [at_pc g_pc place]. fold_pot. split; [lia|]. intros Q. specialize (W3 Q). lia.
        -- destruct Y as (Hb4 & C4 & P4). apply outer_cost in E; auto. destruct E as (Hb' & IQ' & U' & W'). split; [auto|]. split; [auto|]. unfold pot in *. rewrite P4, (fx_pass _ _ _ F3), P1 in U', W'. cbn [place] in *. fold_pot. split; [lia|]. intros Q. specialize (W3 Q). specialize (W' Q). lia.
  - destruct (incr_clock CSE m (g_eid g)) as [m1|] eqn:I; [|discriminate]. rewrite Ge in I. destruct (pass_incr _ _ _ _ I) as (C1 & B1 & Q1 & P1 & _). specialize (P1 eq_refl).
    rewrite Ge in E. destruct (incr_clock PASS m1 e) as [m2|] eqn:I2; [|discriminate]. destruct (pass_incr _ _ _ _ I2) as (C2 & B2 & Q2 & _ & P2). specialize (P2 eq_refl).
    assert (Hb2 : inb m2) by (destruct Hb; split; congruence). assert (CC2 : calls k m2 = calls k m) by (unfold calls; rewrite C2, C1; auto).
    apply outer_cost in E; auto. destruct E as (Hb' & IQ' & U' & W'). split; [auto|]. split; [auto|]. unfold pot in *. rewrite P2, P1 in U', W'. cbn [place] in *. fold_pot. split; [lia|]. intros Q. specialize (W' Q). lia.
Qed.
End Cost.
