(** The passes in which a node runs: invariant and proofs (C60). *)
From Verif Require Export SpecPass SpecTurn RateFacts CondProofs.

Definition b2n (r : bool) : nat := if r then 1 else 0.
Lemma during_self : forall h0, during h0 h0.
Proof. intros h0. exists []. rewrite app_nil_r. auto. Qed.
Lemma during_next : forall h0 h s, during h0 h -> ts_le s PASS -> during h0 (h ++ [s]).
Proof. intros h0 h s (ev & -> & F) L. exists (ev ++ [s]). rewrite app_assoc. split; auto. apply Forall_app; auto. Qed.
Definition pass_of (x : ctx) : nat := t_val (k_time (the_clock x)) PASS.

Section Pass.
Variables (e : eid) (b : node) (c : cond) (Own : (oid -> option node) -> Prop) (ns : list node) (q : list (list node)) (ib : nat) (h0 : list timescale).
Definition clocked (x : ctx) : Prop := exists h, during h0 h /\ clock_after ESU h (the_clock x).
Lemma tick_clocked : forall s x x', tick s x x' -> ts_le s PASS -> clocked x -> clocked x'.
Proof.
  intros s x x' T L (h & D & C). exists (h ++ [s]). split; [apply during_next; auto|]. eapply RunFacts.tick_clock; eauto.
Qed.
Hypothesis Hib : exists lb, nth_error q ib = Some lb /\ In b lb.
Hypothesis Uq : forall d i j li lj, nth_error q i = Some li -> nth_error q j = Some lj -> In d li -> In d lj -> i = j.
Lemma Ub : forall i lv, nth_error q i = Some lv -> In b lv -> i = ib.
Proof. intros i lv E I. destruct Hib as (lb & E' & I'). eapply Uq; eauto. Qed.

(** b has run u times in this pass *)
Definition runs (x : ctx) (u : nat) : Prop := exists t f, x_total x = Some t /\ x_use x = Some f /\ t PASS b = u.
(** the turn of d is over, or yet to come, when the consideration set at position j is the next one *)
Definition past (j : nat) (d : node) : Prop := exists i lv, nth_error q i = Some lv /\ In d lv /\ i < j.
Definition ahead (j : nat) (d : node) : Prop := forall i lv, nth_error q i = Some lv -> In d lv -> j <= i.
Lemma past_or_ahead : forall j d, past j d \/ ahead j d.
Proof.
  clear. intros j d. unfold past, ahead. revert q. induction j as [|j IH]; intros q; [right; intros; lia|].
  destruct q as [|lv r]; [right; intros [|i] lv E; discriminate|].
  destruct (in_dec Nat.eq_dec d lv) as [I|I]; [left; exists 0, lv; split; [reflexivity|split; [auto|lia]]|].
  destruct (IH r) as [(i & l & E & I' & L)|H]; [left; exists (S i), l; split; [auto|split; [auto|lia]]|].
  right. intros [|i] l E I'; simpl in E; [injection E as <-; contradiction|]. specialize (H i l E I'). lia.
Qed.
Lemma past_b : past (S ib) b.
Proof. destruct Hib as (lb & E & I). exists ib, lb. auto. Qed.
(** the counts that v shows are those of x without what was executed after the turn of b *)
Definition shows (x : ctx) (v : view) : Prop := exists t f t' f', x_total x = Some t /\ x_use x = Some f /\ v_total v = Some t' /\ v_use v = Some f' /\
  forall d, (past (S ib) d -> (forall s, t' s d = t s d) /\ f' d b = f d b) /\
            (ahead (S ib) d -> t' PASS d = 0 /\ (forall s, t s d = t' s d + t PASS d) /\ f d b = f' d b + t PASS d).
(** the condition was evaluated at the turn of b, with result r; if it was false, v shows the counts *)
Definition noted (x : ctx) (r : bool) : Prop := exists v ow st st' h, during h0 h /\ clock_after ESU h (v_clock v) /\ t_val (k_time (v_clock v)) PASS = pass_of x /\
  eval v e ow c st = (Ok r, st') /\ (v_nodes v = ns /\ Own ow) /\ (r = false -> shows x v).
Lemma noted_asked : forall x r, noted x r -> asked h0 c e (pass_of x) r.
Proof. intros x r (v & ow & st & st' & h & D & A & B & C & _). exists v, ow, st, st', h. auto. Qed.
(** b has had its turn in the current pass *)
Definition done (x : ctx) : Prop := exists r, noted x r /\ runs x (b2n r).
(** the consideration set at position j is the next one *)
Definition zero_from (j : nat) (x : ctx) : Prop := exists t f, x_total x = Some t /\ x_use x = Some f /\ forall d, ahead j d -> t PASS d = 0.
Definition at_pos (j : nat) (x : ctx) : Prop := (ib < j -> done x) /\ zero_from j x.
Definition has (m : core) : Prop := aget b (m_basic m) = Some c /\ m_nodes m = ns /\ Own (m_owners m).
Lemma runs_same : forall x x' u, x_total x' = x_total x -> x_use x' = x_use x -> runs x u -> runs x' u.
Proof. intros x x' u E F (t & f & T). exists t, f. rewrite E, F; auto. Qed.
Lemma noted_same : forall x x' r, x_total x' = x_total x -> x_use x' = x_use x -> pass_of x' = pass_of x -> noted x r -> noted x' r.
Proof.
  intros x x' r E F P (v & ow & st & st' & h & Dh & A & B & C & N & D). exists v, ow, st, st', h. rewrite P. split; [|split; [|split; [|split; [|split]]]]; auto.
  intros R. destruct (D R) as (t & f & t' & f' & X). exists t, f, t', f'. rewrite E, F. exact X.
Qed.
Lemma done_same : forall x x', x_total x' = x_total x -> x_use x' = x_use x -> pass_of x' = pass_of x -> done x -> done x'.
Proof. intros x x' E F P (r & A & T). exists r. split; [eapply noted_same|eapply runs_same]; eauto. Qed.
Lemma zero_same : forall j x x', x_total x' = x_total x -> x_use x' = x_use x -> zero_from j x -> zero_from j x'.
Proof. intros j x x' E F (t & f & X). exists t, f. rewrite E, F. exact X. Qed.
Lemma at_pos_same : forall j x x', x_total x' = x_total x -> x_use x' = x_use x -> pass_of x' = pass_of x -> at_pos j x -> at_pos j x'.
Proof. intros j x x' E F P [A B]. split; [intros L; eapply done_same|eapply zero_same]; eauto. Qed.
Lemma at_pos_0 : forall x, zero_from 0 x -> at_pos 0 x.
Proof. intros x H; split; intros; auto; lia. Qed.
Lemma zero_runs : forall j x, j <= ib -> zero_from j x -> runs x 0.
Proof. intros j x L (t & f & E & F & Z). exists t, f. split; [auto|]. split; [auto|]. apply Z. intros i lv Ei I. rewrite (Ub i lv); auto. Qed.
Lemma at_pos_end : forall x, at_pos (length q) x -> done x.
Proof. intros x [A _]. apply A. destruct Hib as (lb & E & _). apply nth_error_Some. congruence. Qed.
Lemma accepts_pass : forall s x, pass_of (ctx_accepts s x) = pass_of x.
Proof. intros s x. unfold pass_of, the_clock. destruct (ctx_accepts_other s x) as (_ & _ & ->). auto. Qed.
Lemma accepts_clocked : forall s x, clocked x -> clocked (ctx_accepts s x).
Proof. intros s x (h & D & H). exists h. unfold the_clock. destruct (ctx_accepts_other s x) as (_ & _ & ->). auto. Qed.
Lemma accepts_use : forall s x f, x_use x = Some f -> NoDup s -> exists f', x_use (ctx_accepts s x) = Some f' /\
  forall d, ~ In b s -> f' d b = f d b + b2n (mem d s).
Proof.
  clear. induction s as [|a s IH]; intros x f E N; [exists f; split; [auto|intros; simpl; lia]|]. inversion N as [|? ? Na Ns]; subst.
  change (ctx_accepts (a :: s) x) with (ctx_accepts s (ctx_accept a x)). destruct (IH (ctx_accept a x) (spend_use a f)) as (f' & E' & P); [simpl; rewrite E; auto|auto|].
  exists f'. split; [auto|]. intros d I. simpl in I. rewrite P by tauto. unfold spend_use. rewrite (proj2 (Nat.eqb_neq b a)) by (intros ->; tauto).
  simpl. destruct (Nat.eqb d a) eqn:D; simpl; [|reflexivity]. apply Nat.eqb_eq in D. subst. destruct (mem a s) eqn:M; [apply mem_In in M; contradiction|simpl; lia].
Qed.
Lemma accepts_counts : forall s x t f, x_total x = Some t -> x_use x = Some f -> NoDup s -> exists t' f', x_total (ctx_accepts s x) = Some t' /\ x_use (ctx_accepts s x) = Some f' /\
  forall d, (forall sc, t' sc d = t sc d + b2n (mem d s)) /\ (~ In b s -> f' d b = f d b + b2n (mem d s)).
Proof.
  intros s x t f Et Ef N. destruct (ctx_accepts_total s x t Et N) as (t' & E' & T'). destruct (accepts_use s x f Ef N) as (f' & F' & U').
  exists t', f'. split; [auto|]. split; [auto|]. intros d. split; [intros sc; rewrite T', occurrences_one; reflexivity|auto].
Qed.
Lemma has_frame : forall tc m m', frame (tc := tc) e m m' -> has m -> has m'.
Proof. intros tc m m' F [H N]. unfold has. rewrite (fr_basic _ _ _ F), (fr_nodes _ _ _ F), (fr_owners _ _ _ F). auto. Qed.
Lemma mem_not : forall d s, ~ In d s -> mem d s = false.
Proof. clear. intros d s I. destruct (mem d s) eqn:M; auto. apply mem_In in M; contradiction. Qed.
Lemma sat_noted : forall tc m x y r, has m -> clocked x -> pass_of y = pass_of x -> sat_at (tc := tc) m e x b r ->
  (r = false -> shows y (view_of (set_ctx m e x) e)) -> noted y r.
Proof.
  intros tc m x y r [H Hn] (h & Dh & Hh) P (c' & st & st' & A & _ & E) D. assert (c' = c) by (unfold has in H; congruence). subst c'.
  exists (view_of (set_ctx m e x) e), (m_owners m), st, st', h. rewrite P. unfold view_of in *. rewrite set_ctx_at in *. simpl in *. do 4 (split; [auto|]). auto.
Qed.
Lemma level_pass : forall tc m level s m' j, has m -> nth_error q j = Some level ->
  level_ok (tc := tc) m e level s m' -> clocked (m_ctxs m e) -> at_pos j (m_ctxs m e) -> at_pos (S j) (m_ctxs m' e).
Proof.
  intros tc m level s m' j Hm El L Ck [A (t & f & Et & Ef & Z)].
  assert (Nd := level_nodup _ _ _ _ _ L). destruct L as [Ad Mx]. rewrite (ad_ctx _ _ _ _ _ _ Ad).
  destruct (accepts_counts s _ t f Et Ef Nd) as (t1 & f1 & Et1 & Ef1 & C1).
  assert (Inc := ad_incl _ _ _ _ _ _ Ad).
  assert (Z1 : forall d, ahead (S j) d -> t1 PASS d = 0).
  { intros d H. destruct (C1 d) as [C _]. rewrite C, Z, mem_not; [reflexivity| |].
    - intros I. specialize (H j level El (Inc d I)). lia.
    - intros i lv E I. specialize (H i lv E I). lia. }
  split; [|exists t1, f1; auto]. intros Lj.
  destruct (Nat.eq_dec j ib) as [->|Nj].
  - exists (mem b s). split.
    + destruct (mem b s) eqn:M.
      * apply mem_In in M. destruct (in_split _ _ M) as (p & r & Es).
        apply (sat_noted tc m (ctx_accepts p (m_ctxs m e))); auto using accepts_clocked; [rewrite !accepts_pass; auto| |discriminate].
        eapply (ad_sound _ _ _ _ _ _ Ad); eauto.
      * assert (I : ~ In b s) by (intros I; apply mem_In in I; congruence).
        apply (sat_noted tc m (ctx_accepts s (m_ctxs m e))); auto using accepts_clocked.
        -- apply Mx; auto. destruct Hib as (lb & E & I'). congruence.
        -- intros _. exists t1, f1, t1, f1. unfold view_of. rewrite set_ctx_at. simpl. split; [auto|]. split; [auto|]. split; [auto|]. split; [auto|].
           intros d. split; [auto|]. intros H. rewrite (Z1 d H). split; [auto|]. split; intros; lia.
    + exists t1, f1. split; [auto|]. split; [auto|]. destruct (C1 b) as [C _]. rewrite C, Z; [reflexivity|].
      intros i lv E I. rewrite (Ub i lv); auto.
  - destruct A as (r & Nt & Ru); [lia|].
    assert (I : ~ In b s). { intros I. apply Nj, (Ub j level); auto. }
    exists r. split.
    + destruct Nt as (v & ow & st & st' & h & K0 & K1 & K2 & K3 & K4 & K5). exists v, ow, st, st', h. rewrite accepts_pass.
      split; [auto|]. split; [auto|]. split; [auto|]. split; [auto|]. split; [auto|]. intros R. destruct (K5 R) as (t2 & f2 & t' & f' & X1 & X2 & X3 & X4 & X5).
      assert (t2 = t) by congruence. assert (f2 = f) by congruence. subst t2 f2.
      exists t1, f1, t', f'. split; [auto|]. split; [auto|]. split; [auto|]. split; [auto|]. intros d. destruct (C1 d) as [C Cu]. specialize (Cu I). destruct (X5 d) as [Y1 Y2]. split.
      * intros P. destruct (Y1 P) as [Y3 Y4]. rewrite Y4, Cu. assert (Md : mem d s = false).
        { apply mem_not. intros Id. destruct P as (i & lv & Ei & Ii & Li). assert (i = j) by (eapply Uq; eauto). lia. }
        rewrite Md. split; [intros sc; rewrite Y3, C, Md; simpl; lia|simpl; lia].
      * intros P. destruct (Y2 P) as (Y3 & Y4 & Y5). split; [auto|]. split; [intros sc; rewrite !C, Y4; lia|rewrite Cu, Y5, C; lia].
    + destruct Ru as (t2 & f2 & X1 & X2 & X3). assert (t2 = t) by congruence. subst t2. exists t1, f1. split; [auto|]. split; [auto|].
      destruct (C1 b) as [C _]. rewrite C, X3, mem_not by auto. simpl. lia.
Qed.
Lemma skipped_pass : forall tc m level j, has m -> nth_error q j = Some level -> clocked (m_ctxs m e) ->
  skipped (tc := tc) e m level -> at_pos j (m_ctxs m e) -> at_pos (S j) (m_ctxs m e).
Proof.
  intros tc m level j Hm El Ck (ma & mb & [F E] & L) B.
  pose proof (level_pass tc ma level [] mb j (has_frame _ _ _ F Hm) El L) as X.
  rewrite (ad_ctx _ _ _ _ _ _ (lv_added _ _ _ _ _ L)) in X. simpl in X. rewrite E in X. auto.
Qed.
Lemma nth_skip : forall i k, nth_error q (i + k) = nth_error (skipn i q) k.
Proof. clear. intros i k. revert i; induction q as [|x l IHl]; intros i; destruct i; simpl; auto. destruct k; auto. Qed.
Lemma skips_pass : forall tc m k i, has m -> clocked (m_ctxs m e) -> at_pos i (m_ctxs m e) ->
  (forall k' lv, k' < k -> nth_error (skipn i q) k' = Some lv -> skipped (tc := tc) e m lv) ->
  k <= length (skipn i q) -> at_pos (i + k) (m_ctxs m e).
Proof.
  intros tc m k i Hm Ck A. induction k as [|k IH]; intros Sk L.
  - rewrite Nat.add_0_r; auto.
  - assert (Bk : at_pos (i + k) (m_ctxs m e)) by (apply IH; [intros k' lv Lk' E'; apply (Sk k' lv); [lia|exact E']|lia]).
    rewrite Nat.add_succ_r. destruct (nth_error (skipn i q) k) as [lv|] eqn:E; [|apply nth_error_None in E; lia].
    apply (skipped_pass tc m lv); auto; [rewrite nth_skip; auto|]. eapply Sk; eauto.
Qed.

(** the termination conditions were true in the middle of the pass that has just ended with an
    empty yield *)
Definition cut (m : core) (g : gen) : Prop := exists m0 m3 l, terminated m0 e (g_tc g) = (Ok true, m3) /\
  clocked (m_ctxs m0 e) /\ x_list (m_ctxs m0 e) = Some l /\
  view_of m e = (let v := view_of m0 e in mkView (v_nodes v) (v_queue v) (v_exact_mode v) (v_total v) (v_use v) (Some (l ++ [[]])) (v_clock v)).
Definition tcs_over (g : gen) : Prop := forall s t, g_tc g s = Some t -> carries_over t.
(** a suspended run *)
Record ruled_at (m : core) (g : gen) : Prop := {
  ra_clock : clocked (m_ctxs m e);
  ra_pc : match g_pc g with
          | PLevel i ch => at_pos (S i) (m_ctxs m e) /\ S i <= length q /\ (g_abs g = false -> ch = true)
          | PIdle => done (m_ctxs m e) \/ (cut m g /\ runs (m_ctxs m e) 0)
          | _ => False
          end
}.
Lemma stays_over : forall m0 g m3 m4 r m5, tcs_over g -> clocked (m_ctxs m0 e) ->
  terminated m0 e (g_tc g) = (Ok true, m3) -> next_pass (view_of m0 e) (view_of m4 e) ->
  terminated m4 e (g_tc g) = (r, m5) -> r <> Ok false.
Proof.
  intros m0 g m3 m4 r m5 Kt (h & _ & Hh) T Np T' ->.
  assert (S : forall s t r m6 r' m7 m8 m8', g_tc g s = Some t -> view_of m8 e = view_of m0 e -> view_of m8' e = view_of m4 e ->
     satisfied m8 e t = (r, m6) -> satisfied m8' e t = (r', m7) -> r = Ok true -> r' = Ok true).
  { intros s t r m6 r' m7 m8 m8' Ec V8 V8' S S' ->. unfold satisfied in *. rewrite V8 in S. rewrite V8' in S'.
    destruct (eval (view_of m0 e) e (m_owners m8) t (m_cst m8)) as [r1 s1] eqn:E1.
    destruct (eval (view_of m4 e) e (m_owners m8') t (m_cst m8')) as [r2 s2] eqn:E2.
    injection S as -> _; injection S' as -> _. pose proof (Kt s t Ec (view_of m0 e) (view_of m4 e) e (m_owners m8) (m_owners m8') (m_cst m8) (m_cst m8') h Hh Np) as K.
    unfold is_satisfied in K. rewrite E1, E2 in K. auto. }
  unfold terminated, check_tc in T, T'.
  destruct (g_tc g ESU) as [c1|] eqn:E1; [|inversion T].
  destruct (satisfied m4 e c1) as [[[|]|] ma] eqn:S1; try (inversion T'; fail).
  destruct (g_tc g ES) as [c2|] eqn:E2; [|inversion T'].
  destruct (satisfied m0 e c1) as [[[|]|] mb] eqn:S2; try (inversion T; fail).
  - pose proof (S _ _ _ _ _ _ m0 m4 E1 eq_refl eq_refl S2 S1 eq_refl). discriminate.
  - pose proof (satisfied_cst _ _ _ _ _ S2) as K2. pose proof (satisfied_cst _ _ _ _ _ S1) as K1.
    assert (X := S ES c2 (Ok true) m3 (Ok false) m5 mb ma E2).
    rewrite (cst_only_view _ _ e K2), (cst_only_view _ _ e K1) in X.
    specialize (X eq_refl eq_refl T T' eq_refl). discriminate.
Qed.
Lemma outer_cut : forall fuel m0 m3 m4 g m' g' s, g_eid g = e -> tcs_over g -> clocked (m_ctxs m0 e) ->
  terminated m0 e (g_tc g) = (Ok true, m3) -> next_pass (view_of m0 e) (view_of m4 e) -> outer fuel m4 g = (m', g', OYield s) -> False.
Proof.
  intros fuel m0 m3 m4 g m' g' s Ge Kt Ck T Np E. destruct fuel as [|f]; simpl in E; [inversion E|]. rewrite Ge in E.
  destruct (terminated m4 e (g_tc g)) as [[[|]|ex] m5] eqn:T5.
  - unfold finish in E.
    destruct (if g_skip g then Ok m5 else incr_clock ESU m5 (g_eid g)) as [mm|]; [|inversion E].
    destruct (check_tc mm (g_eid g) (g_tc g) ES) as [[x|] m2]; [|inversion E].
    destruct (x_list (m_ctxs m2 (g_eid g))); inversion E.
  - eapply stays_over; eauto.
  - inversion E.
Qed.
(** the view after the clock has gone on *)
Lemma quiet_view : forall tc m m', quiet (tc := tc) e m m' -> view_of m' e = view_of m e.
Proof.
  intros tc m m' [F E]. unfold view_of. rewrite E, (frame_queue _ _ _ F), (fr_nodes _ _ _ F), (fr_exact _ _ _ F). reflexivity.
Qed.
Lemma tick_view : forall tc s m m', frame (tc := tc) e m m' -> tick s (m_ctxs m e) (m_ctxs m' e) ->
  exists k, clock_incr s (v_clock (view_of m e)) = Ok k /\ view_of m' e = with_clock (view_of m e) k.
Proof.
  intros tc s m m' F (k & Ck & E). exists k. split; [exact Ck|].
  unfold view_of, with_clock. rewrite E, (frame_queue _ _ _ F), (fr_nodes _ _ _ F), (fr_exact _ _ _ F). reflexivity.
Qed.
Lemma tick_pass : forall s x x', tick s x x' -> pass_of x' = match s with CSE => pass_of x | PASS => S (pass_of x) | _ => 0 end \/ ts_lt PASS s.
Proof.
  intros s x x' (k & Ck & ->). unfold clock_incr in Ck. destruct (tree_incr _ _ _) as [t|]; inversion Ck; subst k. unfold pass_of; simpl.
  destruct s; try (right; unfold ts_lt; simpl; lia); left; unfold time_incr; simpl; destruct (t_abs_enabled _); reflexivity.
Qed.
Lemma tick_cse : forall x x', tick CSE x x' -> pass_of x' = pass_of x.
Proof. intros x x' H. destruct (tick_pass _ _ _ H) as [E|E]; auto. unfold ts_lt in E; simpl in E; lia. Qed.
Lemma tick_next : forall x x', tick PASS x x' -> pass_of x' = S (pass_of x).
Proof. intros x x' H. destruct (tick_pass _ _ _ H) as [E|E]; auto. unfold ts_lt in E; simpl in E; lia. Qed.
Lemma tick_total : forall s x x', tick s x x' -> x_total x' = x_total x.
Proof. intros s x x' (k & _ & ->). reflexivity. Qed.
Lemma tick_use : forall s x x', tick s x x' -> x_use x' = x_use x.
Proof. intros s x x' (k & _ & ->). reflexivity. Qed.
Lemma appended_pass : forall abs s x x', appended abs s x x' -> x_total x' = x_total x /\ x_use x' = x_use x /\ pass_of x' = pass_of x /\ (clocked x -> clocked x').
Proof.
  intros abs s x x' H. destruct (appended_same _ _ _ _ H) as (A & B & C). unfold pass_of, clocked, the_clock. rewrite C. auto.
Qed.

Lemma inner_pass : forall m g i ch m3 s j ch', g_eid g = e -> has m -> clocked (m_ctxs m e) -> at_pos i (m_ctxs m e) ->
  inner m g (skipn i q) i ch = IYield m3 s j ch' -> ruled_at m3 (at_pc g (PLevel j ch')) /\ pass_of (m_ctxs m3 e) = pass_of (m_ctxs m e).
Proof.
  intros m g i ch m3 s j ch' Ge Hm Ck A I.
  destruct (inner_yield _ _ _ _ _ _ _ _ _ I) as (m0 & m1 & m2 & lv & L & E & Q & T & Q' & Lv & F & Ap & Ch & NE & Ab & Sk).
  rewrite Ge in *.
  assert (Lk : j - i < length (skipn i q)) by (apply nth_error_Some; congruence).
  assert (Aj : at_pos j (m_ctxs m e)).
  { replace j with (i + (j - i)) by lia. eapply skips_pass; eauto. lia. }
  assert (Ej : nth_error q j = Some lv) by (rewrite <- E, <- nth_skip; f_equal; lia).
  destruct Q as [F0 E0], Q' as [F1 E1].
  assert (E1' : m_ctxs m1 e = m_ctxs m e) by congruence.
  destruct (appended_pass _ _ _ _ Ap) as (At & Au & Aps & Ac).
  assert (X2 : m_ctxs m2 e = ctx_accepts s (m_ctxs m e)) by (rewrite (ad_ctx _ _ _ _ _ _ (lv_added _ _ _ _ _ Lv)), E1'; auto).
  assert (P2 : at_pos (S j) (m_ctxs m2 e)).
  { eapply (level_pass (g_tc g) m1 lv s m2); eauto; try (rewrite E1'; auto). eapply has_frame; [|exact Hm]. eapply frame_trans; eauto. }
  split.
  - constructor.
    + apply Ac. rewrite X2. apply accepts_clocked; auto.
    + simpl. split; [eapply at_pos_same; eauto|]. split; [rewrite skipn_length in Lk; lia|].
      intros Ha. rewrite Ch. specialize (NE Ha). destruct s; [congruence|]. simpl. apply orb_true_r.
  - rewrite Aps, X2. apply accepts_pass.
Qed.
Lemma inner_end_pass : forall m g i ch m3 ch', g_eid g = e -> has m -> clocked (m_ctxs m e) -> at_pos i (m_ctxs m e) -> i <= length q ->
  inner m g (skipn i q) i ch = IEnd m3 ch' ->
  quiet (tc := g_tc g) e m m3 /\ ch' = ch /\
  (done (m_ctxs m e) \/ exists m0, quiet (tc := g_tc g) e m m0 /\ terminated m0 e (g_tc g) = (Ok true, m3)).
Proof.
  intros m g i ch m3 ch' Ge Hm Ck A Li I.
  destruct (inner_end _ _ _ _ _ _ _ I) as (Q & C & D). rewrite Ge in *. splits.
  destruct D as [(m0 & Q0 & _ & T)|(_ & Sk)]; [right; eauto|left].
  apply at_pos_end. replace (length q) with (i + length (skipn i q)) by (rewrite skipn_length; lia).
  eapply skips_pass; eauto. intros k' lv _ E. apply Sk. eapply nth_error_In; eauto.
Qed.
Lemma next_pass_tick : forall tc m0 m3 m4, view_of m3 e = view_of m0 e -> frame (tc := tc) e m3 m4 -> tick PASS (m_ctxs m3 e) (m_ctxs m4 e) ->
  next_pass (view_of m0 e) (view_of m4 e).
Proof.
  intros tc m0 m3 m4 V F T. destruct (tick_view _ _ _ _ F T) as (k & Ck & V'). rewrite V in *. rewrite V'.
  unfold next_pass; simpl. splits. 
Qed.
Definition counted (x : ctx) : Prop := exists t f, x_total x = Some t /\ x_use x = Some f.
(** in pass k nothing was executed, and the counts were those of y *)
Definition still (x y : ctx) : Prop := exists t t' f, x_total x = Some t /\ x_total y = Some t' /\ x_use x = Some f /\ x_use y = Some f /\
  forall d, t PASS d = 0 /\ forall s, ts_lt PASS s -> t s d = t' s d.
Definition idle_noted (k : nat) (y : ctx) : Prop := exists x, noted x false /\ pass_of x = k /\ still x y.
Lemma still_same : forall x x' y, x_total x' = x_total x -> x_use x' = x_use x -> still x y -> still x' y.
Proof. intros x x' y A B (t & t1 & f & X). exists t, t1, f. rewrite A, B. exact X. Qed.
Lemma idle_same : forall k y y', x_total y = x_total y' -> x_use y = x_use y' -> idle_noted k y -> idle_noted k y'.
Proof. intros k y y' A B (x & N & P & t & t1 & f & X). exists x. split; [auto|]. split; [auto|]. exists t, t1, f. rewrite <- A, <- B. exact X. Qed.
Lemma still_trans : forall x y z, still x y -> still y z -> still x z.
Proof.
  intros x y z (t & t1 & f & A & B & C & D & E) (t1' & t2 & f' & A' & B' & C' & D' & E').
  assert (t1' = t1) by congruence. assert (f' = f) by congruence. subst. exists t, t2, f. do 4 (split; [auto|]). intros d. destruct (E d) as [E0 E1]. split; [auto|]. intros s L. destruct (E' d) as [_ E2]. rewrite E1, E2; auto.
Qed.
Lemma outer_pass : forall fuel m g m' g' s, g_eid g = e -> queue m = q -> has m -> tcs_over g -> counted (m_ctxs m e) ->
  clocked (m_ctxs m e) -> outer fuel m g = (m', g', OYield s) ->
  ruled_at m' g' /\ pass_of (m_ctxs m e) <= pass_of (m_ctxs m' e) /\
  forall k, pass_of (m_ctxs m e) <= k < pass_of (m_ctxs m' e) -> idle_noted k (m_ctxs m e).
Proof.
  induction fuel as [|f IH]; intros m g m' g' s Ge Hq Hm Kt Tt Ck E; [simpl in E; inversion E|].
  cbn [outer] in E. rewrite Ge in E. destruct (terminated m e (g_tc g)) as [[[|]|ex] m1] eqn:T.
  - exfalso. unfold finish in E.
    destruct (if g_skip g then Ok m1 else incr_clock ESU m1 (g_eid g)) as [mm|]; [|inversion E].
    destruct (check_tc mm (g_eid g) (g_tc g) ES) as [[x|] m2]; [|inversion E].
    destruct (x_list (m_ctxs m2 (g_eid g))); inversion E.
  - assert (Q1 := terminated_quiet (tc := g_tc g) _ _ _ _ T).
    destruct (reset_spec (g_tc g) m1 e) as [Fr Xr]. set (m2 := reset_counts_total PASS m1 e) in *.
    assert (F2 : frame (tc := g_tc g) e m m2) by (eapply frame_trans; [apply Q1|auto]).
    assert (Hq2 : queue m2 = q) by (rewrite (frame_queue _ _ _ F2); auto). rewrite Hq2 in E.
    rewrite (quiet_at _ _ _ _ Q1) in Xr.
    destruct Tt as (t & ff & Et & Ef).
    assert (Z2 : zero_from 0 (m_ctxs m2 e)).
    { rewrite Xr. exists (reset_total PASS t), ff. unfold ctx_reset; simpl. rewrite Et, Ef. splits. }
    assert (St : still (m_ctxs m2 e) (m_ctxs m e)).
    { rewrite Xr. exists (reset_total PASS t), t, ff. unfold ctx_reset; simpl. rewrite Et, Ef. do 4 (split; [reflexivity|]). intros d. split; [reflexivity|]. intros s' L. unfold reset_total.
      destruct s'; simpl; auto; unfold ts_lt in L; simpl in L; lia. }
    pose proof (zero_runs 0 _ (Nat.le_0_l _) Z2) as R2.
    assert (C2 : clocked (m_ctxs m2 e)) by (rewrite Xr; exact Ck).
    assert (P2 : pass_of (m_ctxs m2 e) = pass_of (m_ctxs m e)) by (rewrite Xr; reflexivity).
    assert (H2 := has_frame _ _ _ F2 Hm).
    change q with (skipn 0 q) in E. destruct (inner m2 g (skipn 0 q) 0 false) as [m3 s' i ch|m3 ch|m3 ex|m3] eqn:I.
    + injection E as <- <- <-. destruct (inner_pass _ _ _ _ _ _ _ _ Ge H2 C2 (at_pos_0 _ Z2) I) as (A & B).
      split; auto. rewrite B, P2. split; [auto|]. intros k K; lia.
    + destruct (inner_end_pass _ _ _ _ _ _ Ge H2 C2 (at_pos_0 _ Z2) (Nat.le_0_l _) I) as (Q3 & -> & D).
      assert (V3 := quiet_view _ _ _ Q3). assert (X3 := quiet_at _ _ _ _ Q3).
      assert (A2 : done (m_ctxs m2 e) -> idle_noted (pass_of (m_ctxs m e)) (m_ctxs m e)).
      { intros (r & Ar & (t1 & f1 & Et1 & _ & R1)). destruct R2 as (t2 & f2 & Et2 & _ & R2). assert (t1 = t2) by congruence. subst t2.
        destruct r; [simpl in R1; congruence|]. exists (m_ctxs m2 e). auto. }
      unfold pass_tail in E. simpl in E. rewrite Ge in E. destruct (g_abs g) eqn:Ha; simpl in E.
      * destruct (incr_clock PASS m3 e) as [m4|ex] eqn:Ic; [|inversion E].
        apply (incr_clock_spec (tc := g_tc g)) in Ic. destruct Ic as [F4 T4].
        assert (T4' := T4). rewrite X3 in T4'.
        assert (F34 : frame (tc := g_tc g) e m2 m4) by (eapply frame_trans; [apply Q3|auto]).
        assert (P4 := tick_next _ _ T4'). rewrite P2 in P4.
        destruct D as [D|(m0 & Q0 & Tm)].
        -- destruct (IH m4 g m' g' s) as (A & B & C); auto.
           ++ rewrite (frame_queue _ _ _ F34); auto.
           ++ eapply has_frame; eauto.
           ++ unfold counted. rewrite (tick_total _ _ _ T4'), (tick_use _ _ _ T4'). destruct R2 as (t2 & f2 & Et2 & Ef2 & _). eauto.
           ++ eapply tick_clocked; eauto; unfold ts_le; simpl; lia.
           ++ split; auto. split; [lia|]. intros k K. destruct (Nat.eq_dec k (pass_of (m_ctxs m e))) as [->|Nk]; [auto|]. destruct (C k ltac:(lia)) as (x & N1 & N2 & N3). exists x. split; [auto|]. split; [auto|].
              eapply still_trans; [exact N3|]. eapply still_same; [| |exact St]; [apply (tick_total _ _ _ T4')|apply (tick_use _ _ _ T4')].
        -- exfalso. eapply (outer_cut f m0 m3 m4 g); eauto.
           ++ rewrite (quiet_at _ _ _ _ Q0); auto.
           ++ apply (next_pass_tick (g_tc g) m0 m3 m4); auto. rewrite V3. symmetry. eapply quiet_view; eauto.
      * destruct (append_exec m3 e false []) as [[r|ex] m4] eqn:Ap; [|inversion E]. injection E as <- <- <-.
        apply (append_exec_spec (tc := g_tc g)) in Ap. destruct Ap as [F4 A4]. rewrite X3 in A4.
        destruct (appended_pass _ _ _ _ A4) as (At & Au & Aps & Ac). split; [|rewrite Aps, P2; split; [auto|intros; lia]].
        constructor; [auto|]. simpl. destruct D as [D|(m0 & Q0 & Tm)].
        -- left. eapply done_same; eauto.
        -- right. split; [|eapply runs_same; eauto]. destruct A4 as (l & El & A4). exists m0, m3, l. rewrite (quiet_at _ _ _ _ Q0). splits.
           assert (F24 : frame (tc := g_tc g) e m2 m4) by (eapply frame_trans; [apply Q3|auto]).
           rewrite (quiet_view _ _ _ Q0). unfold view_of. rewrite A4, (frame_queue _ _ _ F24), (fr_nodes _ _ _ F24), (fr_exact _ _ _ F24). reflexivity.
    + inversion E.
    + inversion E.
  - inversion E.
Qed.
Lemma resume_pass : forall fuel m g m' g' s, g_eid g = e -> queue m = q -> has m -> tcs_over g -> counted (m_ctxs m e) ->
  ruled_at m g -> resume fuel m g = (m', g', OYield s) ->
  ruled_at m' g' /\ pass_of (m_ctxs m e) <= pass_of (m_ctxs m' e) /\
  (pass_of (m_ctxs m e) < pass_of (m_ctxs m' e) -> done (m_ctxs m e)) /\
  forall k, pass_of (m_ctxs m e) < k < pass_of (m_ctxs m' e) -> idle_noted k (m_ctxs m e).
Proof.
  intros fuel m g m' g' s Ge Hq Hm Kt Tt [Ck Hpc] E. unfold resume in E. rewrite Ge in E. destruct (g_pc g) as [|i ch| |] eqn:Epc; try contradiction.
  - destruct Hpc as (A & Li & Hch).
    destruct (incr_clock CSE m e) as [m1|ex] eqn:Ic; [|inversion E].
    apply (incr_clock_spec (tc := g_tc g)) in Ic. destruct Ic as [F1 T1].
    assert (Hq1 : queue m1 = q) by (rewrite (frame_queue _ _ _ F1); auto). rewrite Hq1 in E.
    assert (H1 := has_frame _ _ _ F1 Hm). assert (C1 : clocked (m_ctxs m1 e)) by (eapply tick_clocked; eauto; unfold ts_le; simpl; lia). assert (P1 := tick_cse _ _ T1).
    assert (A1 : at_pos (S i) (m_ctxs m1 e)) by (apply (at_pos_same (S i) (m_ctxs m e)); auto; [apply (tick_total _ _ _ T1)|apply (tick_use _ _ _ T1)]).
    assert (Dn : done (m_ctxs m1 e) -> done (m_ctxs m e)) by (apply done_same; [symmetry; apply (tick_total _ _ _ T1)|symmetry; apply (tick_use _ _ _ T1)|auto]).
    destruct (inner m1 g (skipn (S i) q) (S i) ch) as [m3 s' j ch'|m3 ch'|m3 ex|m3] eqn:I; cbv beta zeta iota in E.
    + injection E as <- <- <-. destruct (inner_pass _ _ _ _ _ _ _ _ Ge H1 C1 A1 I) as (B & P). split; auto. rewrite P, P1.
      split; [auto|]. split; intros; lia.
    + destruct (inner_end_pass _ _ _ _ _ _ Ge H1 C1 A1 Li I) as (Q3 & -> & D).
      assert (V3 := quiet_view _ _ _ Q3). assert (X3 := quiet_at _ _ _ _ Q3).
      unfold pass_tail in E. rewrite Ge in E. destruct (negb ch && negb (g_abs g)) eqn:C.
      { exfalso. apply andb_true_iff in C. destruct C as [D1 D2]. destruct (g_abs g); [discriminate|].
        rewrite (Hch eq_refl) in D1; discriminate. }
      destruct (incr_clock PASS m3 e) as [m4|ex] eqn:Ic; [|inversion E].
      apply (incr_clock_spec (tc := g_tc g)) in Ic. destruct Ic as [F4 T4].
      assert (T4' := T4). rewrite X3 in T4'.
      assert (F14 : frame (tc := g_tc g) e m1 m4) by (eapply frame_trans; [apply Q3|auto]).
      assert (P4 := tick_next _ _ T4'). rewrite P1 in P4.
      destruct D as [D|(m0 & Q0 & T)].
      * destruct (outer_pass fuel m4 g m' g' s) as (B & L & K); auto.
        -- rewrite (frame_queue _ _ _ F14); auto.
        -- eapply has_frame; eauto.
        -- unfold counted. rewrite (tick_total _ _ _ T4'), (tick_total _ _ _ T1), (tick_use _ _ _ T4'), (tick_use _ _ _ T1). auto.
        -- eapply tick_clocked; eauto; unfold ts_le; simpl; lia.
        -- split; auto. split; [lia|]. split; [auto|]. intros k Hk. apply (idle_same _ (m_ctxs m4 e)); [| |apply K; lia].
           ++ rewrite (tick_total _ _ _ T4'), (tick_total _ _ _ T1). auto.
           ++ rewrite (tick_use _ _ _ T4'), (tick_use _ _ _ T1). auto.
      * exfalso. eapply (outer_cut fuel m0 m3 m4 g); eauto.
        -- rewrite (quiet_at _ _ _ _ Q0); auto.
        -- apply (next_pass_tick (g_tc g) m0 m3 m4); auto. rewrite V3. symmetry. eapply quiet_view; eauto.
    + inversion E.
    + inversion E.
  - destruct (incr_clock CSE m e) as [m1|ex] eqn:Ic; [|inversion E].
    apply (incr_clock_spec (tc := g_tc g)) in Ic. destruct Ic as [F1 T1].
    destruct (incr_clock PASS m1 e) as [m2|ex] eqn:Ic; [|inversion E].
    apply (incr_clock_spec (tc := g_tc g)) in Ic. destruct Ic as [F2 T2].
    assert (F' : frame (tc := g_tc g) e m m2) by (eapply frame_trans; eauto).
    assert (P1 := tick_cse _ _ T1). assert (P2 := tick_next _ _ T2). rewrite P1 in P2.
    destruct Hpc as [D|((m0 & m3 & l & Tm & Ck0 & El & V) & _)].
    + destruct (outer_pass fuel m2 g m' g' s) as (B & L & K); auto.
      * rewrite (frame_queue _ _ _ F'); auto.
      * eapply has_frame; eauto.
      * unfold counted. rewrite (tick_total _ _ _ T2), (tick_total _ _ _ T1), (tick_use _ _ _ T2), (tick_use _ _ _ T1). auto.
      * eapply tick_clocked; [eauto|unfold ts_le; simpl; lia|]. eapply tick_clocked; eauto; unfold ts_le; simpl; lia.
      * split; auto. split; [lia|]. split; [auto|]. intros k Hk. apply (idle_same _ (m_ctxs m2 e)); [| |apply K; lia].
        -- rewrite (tick_total _ _ _ T2), (tick_total _ _ _ T1). auto.
        -- rewrite (tick_use _ _ _ T2), (tick_use _ _ _ T1). auto.
    + exfalso. eapply (outer_cut fuel m0 m3 m2 g); eauto.
      destruct (tick_view _ _ _ _ F1 T1) as (k1 & Ck1 & V1). destruct (tick_view _ _ _ _ F2 T2) as (k2 & Ck2 & V2).
      rewrite V1 in Ck2, V2. rewrite V in Ck1, Ck2, V2. simpl in *. rewrite V2. unfold next_pass; simpl. splits.
      right. exists l, k1. splits.
Qed.
End Pass.

(** the counts of a context after the yields ts, the last of them in pass k *)
Definition tallied (m0 : core) (e : eid) (ts : list (nat * list node)) (x : ctx) (t : timescale -> node -> nat) : Prop :=
  x_total x = Some t /\ (exists f, x_use x = Some f /\ use_is f (concat (map snd ts))) /\
  forall d, t ESU d = occurrences d (map snd ts) /\
    forall t0, x_total (m_ctxs m0 e) = Some t0 -> t ES d = t0 ES d + occurrences d (map snd ts) /\ t LIFE d = t0 LIFE d + occurrences d (map snd ts).
Lemma run_total : forall m0 g0 ts m g, running_in_passes m0 g0 ts m g -> g_pc g0 = PStart -> ts <> [] ->
  exists t, tallied m0 (g_eid g0) ts (m_ctxs m (g_eid g0)) t /\ forall n, t PASS n = occurrences n (in_pass (pass_number m (g_eid g0)) ts).
Proof.
  intros m0 g0 ts m g R Hp Ne.
  destruct (passes_history _ _ _ _ _ R Hp) as [(-> & _)|(g1 & m1 & ps & ph & St & Et)]; [congruence|].
  destruct (rs_started _ _ _ _ _ _ _ _ _ St) as (ms & U & S).
  destruct (start_spec _ _ _ _ S) as (_ & _ & [(t & D & Q) Us _ _ _] & _).
  destruct (hist_total _ _ _ _ _ _ t (rs_hist _ _ _ _ _ _ _ _ _ St) Q) as (t' & X & P).
  destruct (hist_use _ _ _ _ _ _ (rs_hist _ _ _ _ _ _ _ _ _ St) Us) as (f & Ef & F).
  pose proof (rs_yields _ _ _ _ _ _ _ _ _ St) as Y.
  exists t'. split.
  - split; [exact X|]. split; [exists f; rewrite Y; auto|]. intros n. destruct (P n) as (A & B & C & _). rewrite Y. split; [exact C|]. intros t0 E0.
    rewrite (ud_ctx _ _ _ U), E0 in D. destruct D as [D|[D _]]; [|discriminate]. injection D as <-. auto.
  - intros n. destruct (P n) as (_ & _ & _ & D' & _). rewrite (state_pass _ _ _ _ _ _ _ _ _ St). rewrite Et.
    rewrite current_in_pass by (eapply matches_not_between; apply (rs_matches _ _ _ _ _ _ _ _ _ St)). auto.
Qed.
Lemma started_tally : forall m0 g0 g1 m1, started m0 g0 g1 m1 -> exists t, tallied m0 (g_eid g0) [] (m_ctxs m1 (g_eid g0)) t.
Proof.
  intros m0 g0 g1 m1 (ms & U & S). destruct (start_spec _ _ _ _ S) as (_ & _ & [(t & D & Q) Us _ _ _] & _). exists (reset_total ESU t).
  split; [exact Q|]. split; [exists zero_use; split; [exact Us|]|].
  - split; [|reflexivity]. intros a b _. exists []. split; [auto|]. split; [intros []|reflexivity].
  - intros d. split; [reflexivity|]. intros t0 E0. rewrite (ud_ctx _ _ _ U), E0 in D. destruct D as [D|[D _]]; [|discriminate]. injection D as <-.
    unfold reset_total, occurrences. simpl. lia.
Qed.
Lemma in_pass_snoc : forall k ts j s, k <> j -> in_pass k (ts ++ [(j, s)]) = in_pass k ts.
Proof. intros k ts j s H. unfold in_pass. rewrite filter_app; simpl. rewrite (proj2 (Nat.eqb_neq _ _)) by auto. rewrite app_nil_r; auto. Qed.
Lemma in_pass_none : forall k ts, (forall a, In a ts -> fst a <> k) -> in_pass k ts = [].
Proof.
  intros k ts H. unfold in_pass. induction ts as [|a ts IH]; simpl; auto.
  rewrite (proj2 (Nat.eqb_neq _ _)) by (apply H; left; auto). apply IH. intros; apply H; right; auto.
Qed.
Lemma split_passes : forall k ts, (forall i j a a', nth_error ts i = Some a -> nth_error ts j = Some a' -> i < j -> fst a <= fst a') -> (forall a, In a ts -> fst a <= k) ->
  map snd ts = before_pass k ts ++ in_pass k ts.
Proof.
  intros k ts. induction ts as [|[p x] ts IH]; intros So Le; [reflexivity|]. unfold before_pass, in_pass in *. simpl.
  assert (IH' := IH (fun i j a a' A B L => So (S i) (S j) a a' A B (proj1 (Nat.succ_lt_mono _ _) L)) (fun a I => Le a (or_intror I))).
  specialize (Le (p, x) (or_introl eq_refl)). simpl in Le.
  destruct (Nat.eq_dec p k) as [->|N].
  - rewrite Nat.ltb_irrefl, Nat.eqb_refl. simpl. rewrite IH'.
    assert (E : filter (fun a : nat * list node => Nat.ltb (fst a) k) ts = []).
    { clear IH IH'. assert (Z : forall a, In a ts -> k <= fst a).
      { intros a I. apply In_nth_error in I. destruct I as (i & I). apply (So 0 (S i) (k, x) a); auto. lia. }
      clear So. induction ts as [|a ts IH]; simpl; auto. rewrite (proj2 (Nat.ltb_ge _ _)) by (apply Z; left; auto). apply IH. intros; apply Z; right; auto. }
    rewrite E. reflexivity.
  - rewrite (proj2 (Nat.ltb_lt p k)), (proj2 (Nat.eqb_neq p k)) by lia. simpl. f_equal. exact IH'.
Qed.
Lemma runs_since_app : forall a b Y X n, ~ In b Y -> runs_since a b (X ++ Y) n -> runs_since a b X (n - count_occ Nat.eq_dec Y a) /\ count_occ Nat.eq_dec Y a <= n.
Proof.
  intros a b Y. induction Y as [|y Y IH] using rev_ind; intros X n N R; [rewrite app_nil_r in R; simpl; rewrite Nat.sub_0_r; split; [auto|lia]|].
  rewrite app_assoc in R. apply runs_since_snoc in R; [|intros ->; apply N, in_app_iff; right; left; auto]. destruct R as [R L].
  apply IH in R; [|intros I; apply N, in_app_iff; auto]. destruct R as [R L']. rewrite count_occ_app. simpl.
  unfold node in *. destruct (Nat.eq_dec y a); [|rewrite Nat.add_0_r, Nat.sub_0_r in *; auto].
  split; [|lia]. replace (n - (count_occ Nat.eq_dec Y a + 1)) with (n - 1 - count_occ Nat.eq_dec Y a) by lia. auto.
Qed.
(** a pass of the run that is over, and the turn that b had in it *)
Definition told (h0 : list timescale) (m0 : core) (g0 : gen) (b : node) (c : cond) (Own : (oid -> option node) -> Prop) (k : nat) (ts : list (nat * list node)) : Prop :=
  exists r, asked h0 c (g_eid g0) k r /\ occurrences b (in_pass k ts) = b2n r /\
    (r = false -> exists v ow st st', at_turn m0 (g_eid g0) b k ts v /\ Own ow /\ eval v (g_eid g0) ow c st = (Ok false, st')).
Lemma told_more : forall h0 m0 g0 b c Own k ts j s, k < j -> told h0 m0 g0 b c Own k ts -> told h0 m0 g0 b c Own k (ts ++ [(j, s)]).
Proof.
  intros h0 m0 g0 b c Own k ts j s L (r & A & B & C). exists r. split; [auto|]. split; [rewrite in_pass_snoc by lia; auto|].
  intros R. destruct (C R) as (v & ow & st & st' & [V1 V2 V3 (t & V4 & V4') (u & V5 & V5')] & E). exists v, ow, st, st'. split; [|exact E].
  assert (Bk : before_pass k (ts ++ [(j, s)]) = before_pass k ts) by (apply before_pass_snoc; lia).
  assert (Bj : forall d i, up_to (queue m0) d b k i -> before_pass i (ts ++ [(j, s)]) = before_pass i ts).
  { intros d i [[_ ->]|[_ ->]]; apply before_pass_snoc; lia. }
  constructor; auto.
  - exists t. split; [auto|]. intros d i H. rewrite (Bj _ _ H), Bk. auto.
  - exists u. split; [auto|]. intros d i N H. rewrite (Bj _ _ H). auto.
Qed.
Lemma occurrences_none : forall b l, (forall s, In s l -> ~ In b s) -> occurrences b l = 0.
Proof. intros b l H. unfold occurrences. induction l as [|s l IH]; simpl; auto. rewrite mem_not by (apply H; left; auto). apply IH. intros; apply H; right; auto. Qed.
Lemma occurrences_not : forall b l, occurrences b l = 0 -> ~ In b (concat l).
Proof.
  intros b l H I. apply in_concat in I. destruct I as (s & I & J). unfold occurrences in H. induction l as [|x l IH]; [destruct I|]. simpl in H.
  destruct I as [->|I]; [apply mem_In in J; rewrite J in H; discriminate|]. destruct (mem b x); [discriminate|auto].
Qed.
Section Told.
Variables (h0 : list timescale) (m0 : core) (g0 : gen) (b : node) (c : cond) (Own : (oid -> option node) -> Prop) (j : nat) (lb : list node).
Hypotheses (Qb : queue_built m0) (Hj : nth_error (queue m0) j = Some lb) (Ib : In b lb).
Lemma not_later_past : forall d, not_later (queue m0) d b <-> past (queue m0) (S j) d.
Proof.
  intros d. split.
  - intros (i & i' & ld & lb' & A & B & C & D & L). assert (i' = j) by (eapply queue_index_unique; eauto). subst. exists i, ld. split; [auto|]. split; [auto|lia].
  - intros (i & ld & A & B & L). exists i, j, ld, lb. split; [auto|]. split; [auto|]. split; [auto|]. split; [auto|lia].
Qed.
Lemma told_done : forall ts x t k, tallied m0 (g_eid g0) ts x t -> (forall n, t PASS n = occurrences n (in_pass k ts)) -> pass_of x = k ->
  map snd ts = before_pass k ts ++ in_pass k ts -> before_pass (S k) ts = map snd ts -> Forall (@NoDup node) (in_pass k ts) ->
  done (g_eid g0) b c Own (m_nodes m0) (queue m0) j h0 x -> told h0 m0 g0 b c Own k ts.
Proof.
  intros ts x t k (Et & (f & Ef & Uf) & T) Tp Px Sp Al Nd (r & Nt & (t1 & f1 & E1 & F1 & Ru)). assert (t1 = t) by congruence. subst t1.
  exists r. split; [rewrite <- Px; eapply noted_asked; eauto|]. split; [rewrite <- Tp; auto|]. intros ->. simpl in Ru.
  destruct Nt as (v & ow & st & st' & h & Dh & A & B & C & D & Sh). destruct D as [D Ow]. destruct (Sh eq_refl) as (t2 & f2 & t' & f' & X1 & X2 & X3 & X4 & X5).
  assert (t2 = t) by congruence. assert (f2 = f) by congruence. subst t2 f2. clear Sh.
  assert (Nb : ~ In b (concat (in_pass k ts))) by (apply occurrences_not; rewrite <- Tp; auto).
  assert (O : forall d, occurrences d (map snd ts) = occurrences d (before_pass k ts) + occurrences d (in_pass k ts)) by (intros d; rewrite Sp, occurrences_app; auto).
  exists v, ow, st, st'. split; [|split; [exact Ow|exact C]]. constructor; [eauto|congruence|auto| |].
  - exists t'. split; [auto|]. intros d i H. destruct (T d) as (T1 & T2). specialize (O d). specialize (Tp d). destruct (X5 d) as [Y1 Y2].
    destruct H as [[H ->]|[H ->]].
    + destruct (Y1 (proj1 (not_later_past d) H)) as [Y3 _]. rewrite Al, !Y3. split; [auto|]. split; [lia|]. intros t0 E0. destruct (T2 t0 E0). lia.
    + destruct (past_or_ahead (queue m0) (S j) d) as [Pa|Ah]; [destruct H; apply not_later_past; auto|].
      destruct (Y2 Ah) as (Y3 & Y4 & _). pose proof (Y4 ESU) as Y5. pose proof (Y4 ES) as Y6. pose proof (Y4 LIFE) as Y7.
      split; [lia|]. split; [lia|]. intros t0 E0. destruct (T2 t0 E0). lia.
  - exists f'. split; [auto|]. intros d i N H. destruct (X5 d) as [Y1 Y2]. pose proof (proj1 Uf d b N) as Rs. destruct H as [[H ->]|[H ->]].
    + destruct (Y1 (proj1 (not_later_past d) H)) as [_ Y3]. rewrite Al, Y3. auto.
    + destruct (past_or_ahead (queue m0) (S j) d) as [Pa|Ah]; [destruct H; apply not_later_past; auto|].
      destruct (Y2 Ah) as (_ & _ & Y5). rewrite Sp, concat_app in Rs. apply runs_since_app in Rs; [|auto]. destruct Rs as [Rs L].
      rewrite <- occurrences_concat, <- Tp, Y5 in Rs by auto. replace (f' d b) with (f' d b + t PASS d - t PASS d) by lia. auto.
Qed.
Lemma told_idle : forall ts x t k, tallied m0 (g_eid g0) ts x t -> before_pass k ts = map snd ts -> in_pass k ts = [] -> before_pass (S k) ts = map snd ts ->
  idle_noted (g_eid g0) b c Own (m_nodes m0) (queue m0) j h0 k x -> told h0 m0 g0 b c Own k ts.
Proof.
  intros ts x t k (Et & (f & Ef & Uf) & T) Be Ip Al (y & Nt & Py & (ty & tx & fy & E1 & E2 & E3 & E4 & Sy)).
  assert (tx = t) by congruence. assert (fy = f) by congruence. subst tx fy.
  apply (told_done ts y ty k); auto.
  - split; [auto|]. split; [eauto|]. intros d. destruct (Sy d) as [_ S1]. rewrite !S1 by (unfold ts_lt; simpl; lia). apply T.
  - intros n. rewrite Ip. apply Sy.
  - rewrite Be, Ip, app_nil_r. auto.
  - rewrite Ip. constructor.
  - exists false. split; [exact Nt|]. exists ty, f. split; [auto|]. split; [auto|]. apply Sy.
Qed.
End Told.
(** what is known about a suspended run *)
Definition pass_state (h0 : list timescale) (m0 : core) (g0 : gen) (b : node) (c : cond) (Own : (oid -> option node) -> Prop) (j : nat) (ts : list (nat * list node)) (m : core) (g : gen) : Prop :=
  (ts = [] /\ g = g0 /\ undisturbed (g_eid g0) m0 m) \/
  (ts <> [] /\ g_eid g = g_eid g0 /\ tcs_over g /\ static m0 m /\ ruled_at (g_eid g0) b c Own (m_nodes m0) (queue m0) j h0 m g).
Theorem passes_told : forall m0 g0 ts m g b c (Own : (oid -> option node) -> Prop) j lb h0, running_while_in_passes (fun m => ruled g0 b c m /\ Own (m_owners m)) m0 g0 ts m g -> g_pc g0 = PStart ->
  queue_built m0 -> nth_error (queue m0) j = Some lb -> In b lb -> clock_after ESU h0 (the_clock (m_ctxs m0 (g_eid g0))) ->
  pass_state h0 m0 g0 b c Own j ts m g /\ pass_number m0 (g_eid g0) <= pass_number m (g_eid g0) /\
  forall k, pass_number m0 (g_eid g0) <= k < pass_number m (g_eid g0) -> told h0 m0 g0 b c Own k ts.
Proof.
  intros m0 g0 ts m g b c Own j lb h0 R Hp Qb Hj Ib Ck.
  assert (Uq : forall d i i' li li', nth_error (queue m0) i = Some li -> nth_error (queue m0) i' = Some li' -> In d li -> In d li' -> i = i')
    by (intros; eapply queue_index_unique; eauto).
  assert (Hb : exists lb, nth_error (queue m0) j = Some lb /\ In b lb) by eauto.
  induction R as [Pm|ts m g m' R IH U Pm|ts m g fuel m' g' s R IH E Pm].
  - split; [left; splits; apply undisturbed_refl|]. split; [auto|]. intros k Hk; lia.
  - destruct IH as (IH & K). rewrite (undisturbed_pass _ _ _ U). split; [|exact K].
    destruct IH as [(-> & -> & U0)|(Ne & Ee & Kt & St & [C P])].
    + left; splits. eapply undisturbed_trans; eauto.
    + right; splits.
      * eapply static_trans; [eauto|eapply static_undisturbed; eauto].
      * constructor; rewrite ?(ud_ctx _ _ _ U); auto. destruct (g_pc g); auto.
        destruct P as [P|((ma & mb & l & T & C0 & El & V) & R0)]; [left; auto|right]. split; [|auto]. exists ma, mb, l. splits.
        rewrite <- V. unfold view_of. rewrite (ud_ctx _ _ _ U). pose proof (static_undisturbed _ _ _ U) as S.
        rewrite (static_queue _ _ S), (sc_nodes _ _ S), (sc_exact _ _ S). reflexivity.
  - destruct (rwp_passes _ _ _ _ _ _ R) as (Rp & Pm0).
    destruct IH as (IH & Mo & K).
    assert (G : pass_state h0 m0 g0 b c Own j (ts ++ [(pass_number m' (g_eid g0), s)]) m' g' /\ pass_number m (g_eid g0) <= pass_number m' (g_eid g0) /\
       forall k, pass_number m (g_eid g0) <= k < pass_number m' (g_eid g0) -> told h0 m0 g0 b c Own k ts).
    { destruct IH as [(-> & -> & U)|(Ne & Ee & Kt & St & Ra)].
      - destruct (run_first _ _ _ _ _ _ _ Hp U E) as (g1 & m1 & ps & ph & S & Rs & Y & _).
        destruct (start_spec _ _ _ _ S) as (Sst & _ & Sc & Ge & _ & _ & Gt).
        assert (Gg : g' = at_pc g1 (g_pc g')) by (apply (rs_gen _ _ _ _ _ _ _ _ _ Rs)).
        assert (F : frame (tc := g_tc g1) (g_eid g1) m1 m') by (inversion Y; subst; auto).
        assert (S0 : static m0 m) by (eapply static_undisturbed; eauto).
        assert (P1 : has b c Own (m_nodes m0) m1).
        { split; [rewrite <- (fr_basic _ _ _ F); apply Pm|]. split; [rewrite (sc_nodes _ _ Sst); apply sc_nodes; auto|]. rewrite <- (fr_owners _ _ _ F); apply Pm. }
        assert (Q1 : queue m1 = queue m0) by (rewrite (static_queue _ _ Sst); apply static_queue; auto).
        assert (Kt : tcs_over g1) by (unfold tcs_over; rewrite Gt; apply Pm0).
        assert (Sr : started m0 g0 g1 m1) by (exists m; auto).
        unfold resume in E. rewrite Hp, S in E.
        destruct (outer_pass (g_eid g0) b c Own (m_nodes m0) (queue m0) j h0 Hb Uq fuel m1 g1 m' g' s) as (A & L & B); auto.
        + destruct Sc as [(t & _ & Q) Us _ _ _]. exists (reset_total ESU t), zero_use. auto.
        + exists h0. split; [apply during_self|]. apply (started_clock m0 g0 g1 m1 h0); auto.
        + assert (Pe : pass_of (m_ctxs m1 (g_eid g0)) = pass_number m (g_eid g0)).
          { rewrite (undisturbed_pass _ _ _ U). apply (started_pass _ _ _ _ Sr). }
          change (pass_of (m_ctxs m' (g_eid g0))) with (pass_number m' (g_eid g0)) in *. rewrite Pe in L, B. split; [|split; [auto|]].
          * right. split; [discriminate|]. split; [rewrite Gg; simpl; auto|]. split; [rewrite Gg; exact Kt|]. split; [apply (rs_static _ _ _ _ _ _ _ _ _ Rs)|auto].
          * intros k Hk. destruct (started_tally _ _ _ _ Sr) as (t & Tt). eapply (told_idle h0 m0 g0 b c Own j lb Qb Hj Ib []); eauto.
      - destruct (passes_history _ _ _ _ _ Rp Hp) as [(-> & _)|(g1 & m1 & ps & ph & St1 & _)]; [congruence|].
        destruct (run_next _ _ _ _ _ _ _ _ _ _ _ _ _ St1 E) as (ps' & ph' & St2 & _ & _).
        assert (Gs : g_eid g' = g_eid g /\ g_tc g' = g_tc g).
        { rewrite (rs_gen _ _ _ _ _ _ _ _ _ St1), (rs_gen _ _ _ _ _ _ _ _ _ St2). simpl; auto. }
        destruct Gs as [Ge Gt]. destruct (run_total _ _ _ _ _ Rp Hp Ne) as (t & Tt & Ht).
        assert (Hs : has b c Own (m_nodes m0) m) by (split; [apply Pm0|]; split; [apply sc_nodes; auto|apply Pm0]).
        assert (Ct : counted (m_ctxs m (g_eid g0))) by (destruct Tt as (T1 & (f & T2 & _) & _); exists t, f; auto).
        assert (Nu : forall a, In a ts -> fst a <= pass_number m (g_eid g0)).
        { intros [a sa] Ia. apply In_nth_error in Ia. destruct Ia as (x & Ex). pose proof (passes_numbered _ _ _ _ _ _ _ _ Rp Hp Ex). simpl. lia. }
        assert (Al : forall k, pass_number m (g_eid g0) <= k -> before_pass (Datatypes.S k) ts = map snd ts).
        { intros k Lk. apply before_pass_all. intros a Ia. specialize (Nu a Ia). lia. }
        destruct (resume_pass (g_eid g0) b c Own (m_nodes m0) (queue m0) j h0 Hb Uq fuel m g m' g' s) as (A & L & D & B); auto.
        + apply static_queue; auto.
        + change (pass_of (m_ctxs m' (g_eid g0))) with (pass_number m' (g_eid g0)) in *.
          change (pass_of (m_ctxs m (g_eid g0))) with (pass_number m (g_eid g0)) in *. split; [|split; [auto|]].
          * right. split; [destruct ts; discriminate|]. split; [congruence|]. split; [unfold tcs_over; rewrite Gt; auto|].
            split; [apply (rs_static _ _ _ _ _ _ _ _ _ St2)|auto].
          * intros k Hk. destruct (Nat.eq_dec k (pass_number m (g_eid g0))) as [->|Nk].
            -- apply (told_done h0 m0 g0 b c Own j lb Qb Hj Ib ts (m_ctxs m (g_eid g0)) t); auto.
               ++ apply split_passes; auto. intros i i' [p x] [p' x'] Ei Ei' Li. apply (passes_order _ _ _ _ _ _ _ _ _ _ _ Rp Hp Ei Ei' Li).
               ++ apply Forall_forall. intros x Ix. unfold in_pass in Ix. apply in_map_iff in Ix. destruct Ix as ([p y] & <- & Iy). apply filter_In in Iy.
                  apply (yield_one_level _ _ _ _ _ y (passes_running _ _ _ _ _ Rp) Hp). apply in_map_iff. exists (p, y). simpl. tauto.
               ++ apply D. lia.
            -- apply (told_idle h0 m0 g0 b c Own j lb Qb Hj Ib ts (m_ctxs m (g_eid g0)) t); auto.
               ++ apply before_pass_all. intros a Ia. specialize (Nu a Ia). lia.
               ++ apply in_pass_none. intros a Ia. specialize (Nu a Ia). lia.
               ++ apply Al. lia.
               ++ apply B. lia. }
    destruct G as (S' & L & G). split; [exact S'|]. split; [lia|].
    intros k Hk. apply told_more; [lia|]. destruct (Nat.lt_ge_cases k (pass_number m (g_eid g0))) as [Lk|Lk]; [apply K; lia|apply G; lia].
Qed.
Lemma rwp_weaken : forall (P P' : core -> Prop) m0 g0 ts m g, (forall x, P x -> P' x) -> running_while_in_passes P m0 g0 ts m g -> running_while_in_passes P' m0 g0 ts m g.
Proof. intros P P' m0 g0 ts m g H R. induction R; [apply rwp_created; auto|eapply rwp_env; eauto|eapply rwp_yields; eauto]. Qed.
Theorem passes_ruled : forall m0 g0 ts m g b c j lb h0, running_while_in_passes (ruled g0 b c) m0 g0 ts m g -> g_pc g0 = PStart ->
  queue_built m0 -> nth_error (queue m0) j = Some lb -> In b lb -> clock_after ESU h0 (the_clock (m_ctxs m0 (g_eid g0))) ->
  pass_state h0 m0 g0 b c (fun _ => True) j ts m g /\ pass_number m0 (g_eid g0) <= pass_number m (g_eid g0) /\
  forall k, pass_number m0 (g_eid g0) <= k < pass_number m (g_eid g0) ->
    exists r, asked h0 c (g_eid g0) k r /\ occurrences b (in_pass k ts) = b2n r.
Proof.
  intros m0 g0 ts m g b c j lb h0 R Hp Qb Hj Ib Ck. assert (R' : running_while_in_passes (fun m => ruled g0 b c m /\ True) m0 g0 ts m g) by (eapply rwp_weaken; [|exact R]; auto).
  destruct (passes_told _ _ _ _ _ _ _ (fun _ => True) _ _ _ R' Hp Qb Hj Ib Ck) as (A & B & K).
  split; [auto|]. split; [auto|]. intros k Hk. destruct (K k Hk) as (r & X & Y & _). eauto.
Qed.

(** no node runs in a pass without its condition having been true there *)
Theorem runs_ruled : forall m0 g0 ts m g b c j lb h0, running_while_in_passes (ruled g0 b c) m0 g0 ts m g -> g_pc g0 = PStart ->
  queue_built m0 -> nth_error (queue m0) j = Some lb -> In b lb -> clock_after ESU h0 (the_clock (m_ctxs m0 (g_eid g0))) ->
  forall k, occurrences b (in_pass k ts) = 0 \/ (occurrences b (in_pass k ts) = 1 /\ asked h0 c (g_eid g0) k true).
Proof.
  intros m0 g0 ts m g b c j lb h0 R Hp Qb Hj Ib Ck k.
  destruct (passes_ruled _ _ _ _ _ _ _ _ _ _ R Hp Qb Hj Ib Ck) as (S & _ & K). destruct (rwp_passes _ _ _ _ _ _ R) as (Rp & _).
  assert (Ou : k < pass_number m0 (g_eid g0) \/ pass_number m (g_eid g0) < k -> occurrences b (in_pass k ts) = 0).
  { intros Hk. rewrite in_pass_none; [reflexivity|]. intros [a sa] Ia. apply In_nth_error in Ia. destruct Ia as (x & Ex).
    pose proof (passes_numbered _ _ _ _ _ _ _ _ Rp Hp Ex). simpl. lia. }
  destruct (Nat.lt_ge_cases k (pass_number m0 (g_eid g0))) as [L1|L1]; [left; auto|].
  destruct (Nat.lt_trichotomy k (pass_number m (g_eid g0))) as [L2|[E|L2]]; [| |left; auto].
  - destruct (K k (conj L1 L2)) as ([|] & A & B); auto.
  - destruct S as [(-> & _)|(Ne & _ & _ & _ & [_ P])]; [left; reflexivity|].
    destruct (run_total _ _ _ _ _ Rp Hp Ne) as (t & (Et & _) & Ht). rewrite E, <- Ht.
    assert (Uq : forall d i i' li li', nth_error (queue m0) i = Some li -> nth_error (queue m0) i' = Some li' -> In d li -> In d li' -> i = i')
      by (intros; eapply queue_index_unique; eauto).
    assert (X : done (g_eid g0) b c (fun _ => True) (m_nodes m0) (queue m0) j h0 (m_ctxs m (g_eid g0)) \/ runs b (m_ctxs m (g_eid g0)) 0).
    { destruct (g_pc g) as [|i ch| |]; try contradiction.
      - destruct P as ([A B] & _). destruct (Nat.le_gt_cases (Datatypes.S i) j); auto. right. eapply (zero_runs b (queue m0) j); eauto.
      - destruct P as [P|(_ & P)]; auto. }
    destruct X as [([|] & A & t' & f' & Et' & _ & B)|(t' & f' & Et' & _ & B)]; assert (t' = t) by congruence; subst t'; auto.
    right. split; [exact B|]. apply noted_asked in A. exact A.
Qed.

(** ** Conditions that depend on the pass only *)
Lemma asked_clock : forall h0 c e k r, asked h0 c e k r -> exists v ow st st' h, during h0 h /\ clock_after ESU h (v_clock v) /\ units_within PASS ESU h k /\ eval v e ow c st = (Ok r, st').
Proof.
  intros h0 c e k r (v & ow & st & st' & h & Dh & Hh & Ek & E). exists v, ow, st, st', h. splits.
  destruct (since_at_least_exists ESU h) as (h2 & F & D). exists h2. split; [split; auto|].
  rewrite <- Ek. apply (time_component ESU h _ PASS h2 Hh). split.
  - eapply Forall_impl; [|exact F]. unfold ts_lt, ts_le; simpl; intros; lia.
  - destruct D as [->|(h1 & x & -> & L)]; [left; auto|right]. exists h1, x. split; auto.
Qed.
Lemma by_decides : forall c (f : nat -> bool), (forall v e ow st h k, clock_after ESU h (v_clock v) -> units_within PASS ESU h k ->
  decides (is_satisfied v e ow st c) (f k = true)) -> by_pass f c.
Proof.
  intros c f H h0 e k r A. destruct (asked_clock _ _ _ _ _ A) as (v & ow & st & st' & h & _ & Hh & U & E).
  destruct (H v e ow st h k Hh U) as (x & X & Y). unfold is_satisfied in X. rewrite E in X. simpl in X. injection X as <-.
  destruct Y as [Y1 Y2], r, (f k); auto. symmetry; auto.
Qed.
Lemma decides_iff : forall r P Q, decides r P -> (P <-> Q) -> decides r Q.
Proof. intros r P Q (x & E & X) H. exists x. split; auto. rewrite X; auto. Qed.
Lemma by_pass_atoms : forall o n,
  by_pass (fun _ => true) (Always o) /\ by_pass (fun _ => false) (Never o) /\
  by_pass (fun k => Nat.ltb k n) (BeforePass o n ESU) /\ by_pass (fun k => Nat.eqb k n) (AtPass o n ESU) /\
  by_pass (fun k => Nat.ltb n k) (AfterPass o n ESU) /\ by_pass (fun k => Nat.leb n k) (AfterNPasses o n ESU) /\
  (n > 0 -> by_pass (fun k => Nat.eqb (k mod n) 0) (EveryNPasses o n ESU)).
Proof.
  intros o n.
  assert (P := fun v e ow st h k H U => pass_conditions v e ow st o n ESU h k H (le_n _) U).
  repeat split; try (intros Hn); apply by_decides; intros v e ow st h k H U.
  - exists true; unfold is_satisfied; simpl; split; auto; tauto.
  - exists false; unfold is_satisfied; simpl; split; auto; split; discriminate.
  - eapply decides_iff; [apply (P v e ow st h k H U)|]. symmetry; apply Nat.ltb_lt.
  - eapply decides_iff; [apply (P v e ow st h k H U)|]. symmetry; apply Nat.eqb_eq.
  - eapply decides_iff; [apply (P v e ow st h k H U)|]. symmetry; apply Nat.ltb_lt.
  - eapply decides_iff; [apply (P v e ow st h k H U)|]. symmetry; apply Nat.leb_le.
  - eapply decides_iff; [apply (P v e ow st h k H U); auto|]. rewrite Nat.eqb_eq. symmetry. apply Nat.mod_divide. lia.
Qed.
Lemma in_pass_not : forall h0 o f c, by_pass_in h0 f c -> by_pass_in h0 (fun k => negb (f k)) (Not o c).
Proof.
  intros h0 o f c H e k r (v & ow & st & st' & h & Dh & Hh & Ek & E). simpl in E.
  destruct (eval v e ow c st) as [[x|] s1] eqn:X; simpl in E; [|discriminate]. injection E as <- _. f_equal.
  apply (H e k x). exists v, ow, st, s1, h. auto.
Qed.
Lemma in_pass_all : forall h0 o fs cs, Forall2 (by_pass_in h0) fs cs -> by_pass_in h0 (fun k => forallb (fun f => f k) fs) (All o cs).
Proof.
  intros h0 o fs cs H e k r (v & ow & st & st' & h & Dh & Hh & Ek & E). simpl in E. revert st st' E.
  induction H as [|f c fs cs Hc _ IH]; intros st st' E; simpl; [injection E as <-; auto|].
  destruct (eval v e ow c st) as [[x|] s1] eqn:X; simpl in E; [|discriminate].
  assert (Ex : x = f k) by (apply (Hc e k x); exists v, ow, st, s1, h; auto). rewrite <- Ex.
  destruct x; simpl; [eapply IH; eauto|injection E as <-; auto].
Qed.
Lemma in_pass_any : forall h0 o fs cs, Forall2 (by_pass_in h0) fs cs -> by_pass_in h0 (fun k => existsb (fun f => f k) fs) (Any o cs).
Proof.
  intros h0 o fs cs H e k r (v & ow & st & st' & h & Dh & Hh & Ek & E). simpl in E. revert st st' E.
  induction H as [|f c fs cs Hc _ IH]; intros st st' E; simpl; [injection E as <-; auto|].
  destruct (eval v e ow c st) as [[x|] s1] eqn:X; simpl in E; [|discriminate].
  assert (Ex : x = f k) by (apply (Hc e k x); exists v, ow, st, s1, h; auto). rewrite <- Ex.
  destruct x; simpl; [injection E as <-; auto|eapply IH; eauto].
Qed.

Lemma by_pass_not : forall o f c, by_pass f c -> by_pass (fun k => negb (f k)) (Not o c).
Proof. intros o f c H h0. apply in_pass_not. auto. Qed.
Lemma by_pass_all : forall o fs cs, Forall2 by_pass fs cs -> by_pass (fun k => forallb (fun f => f k) fs) (All o cs).
Proof. intros o fs cs H h0. apply in_pass_all. induction H; constructor; auto. Qed.
Lemma by_pass_any : forall o fs cs, Forall2 by_pass fs cs -> by_pass (fun k => existsb (fun f => f k) fs) (Any o cs).
Proof. intros o fs cs H h0. apply in_pass_any. induction H; constructor; auto. Qed.

(** ** Conditions that keep their truth until the next pass *)
Lemma over_carries : forall c, settles_over c -> carries_over c.
Proof. intros c H v v' e ow ow' st st' h Hh Hn S. destruct (H _ _ _ _ ow' _ st' _ _ Hh Hn S) as (b & E & T). rewrite E, T; auto. Qed.
Lemma over_counts : forall o a, match a with
  | AAlways | ANever | ACalls _ _ _ _ | ACallsCombined _ _ _ | AAllHaveRun _ _ => True
  | _ => False end -> settles_over (CAtom o a).
Proof.
  intros o a Ha v v' e ow ow' st st' h b Hh (N1 & N2 & N3 & N4 & N5 & N6) S. exists b. split; [|auto].
  assert (T : forall s d, count_total v' s d = count_total v s d) by (intros; unfold count_total; rewrite N1, N4; auto).
  assert (C : forall ds s acc, sum_calls v' s ds acc = sum_calls v s ds acc).
  { induction ds as [|d ds IH]; intros s acc; simpl; auto. rewrite T. destruct (count_total v s d); simpl; auto. }
  assert (A : forall ds s, all_have_run v' s ds = all_have_run v s ds).
  { induction ds as [|d ds IH]; intros s; simpl; auto. rewrite T. destruct (count_total v s d) as [x|]; auto. destruct (Nat.ltb x 1); auto. }
  unfold is_satisfied in *. destruct a; try contradiction; simpl in *; unfold deps_or_nodes in *; rewrite ?N1, ?C, ?A, ?T; exact S.
Qed.
Lemma over_time : forall o c q n s, (c = Gt \/ c = Ge) -> ts_lt q s -> ts_le ESU s -> settles_over (CAtom o (ATime c q n s)).
Proof.
  intros o c q n s Hc Lq Ls v v' e ow ow' st st' h b Hh (_ & _ & _ & _ & _ & N) S.
  assert (X : exists h', Forall (fun x => ts_lt x ESU) h' /\ clock_after ESU (h ++ h') (v_clock v')).
  { destruct N as [(_ & N)|(l & k & _ & _ & N1 & N2)].
    - exists [PASS]. split; [repeat constructor|]. eapply ca_incr; eauto.
    - exists [CSE; PASS]. split; [repeat constructor; unfold ts_lt; simpl; lia|]. change [CSE; PASS] with ([CSE] ++ [PASS]). rewrite app_assoc.
      eapply ca_incr; [eapply ca_incr; eauto|eauto]. }
  destruct X as (h' & Fh & Hh').
  unfold is_satisfied in *; simpl in *.
  destruct (since_at_least_exists s h) as (h2 & H2).
  assert (H2' : since_at_least s (h ++ h') (h2 ++ h')).
  { destruct H2 as [F D]. split; [apply Forall_app; split; auto; eapply Forall_impl; [|exact Fh]; unfold ts_lt, ts_le in *; simpl in *; intros; lia|].
    destruct D as [->|(h1 & x & -> & Lx)]; [left; auto|right; exists h1, x; split; auto]. rewrite <- app_assoc; auto. }
  rewrite (total_relative _ _ _ _ _ _ Hh Lq Ls H2) in S. rewrite (total_relative _ _ _ _ _ _ Hh' Lq Ls H2').
  simpl in *. eexists; split; [reflexivity|]. injection S as S. intros ->.
  assert (L : count q h2 <= count q (h2 ++ h')) by (unfold count; rewrite filter_app, app_length; lia).
  destruct Hc as [-> | ->]; simpl in *.
  - apply Nat.ltb_lt in S. apply Nat.ltb_lt. lia.
  - apply Nat.leb_le in S. apply Nat.leb_le. lia.
Qed.
Lemma over_all : forall o cs, (forall c, In c cs -> carries_over c) -> carries_over (CAll o cs).
Proof.
  intros o cs H v v' e ow ow' st st' h Hh Hn S. unfold is_satisfied in *. simpl in *.
  revert st st' S. induction cs as [|c cs IH]; intros st st' S; [auto|].
  destruct (eval v e ow c st) as [[[|]|] s1] eqn:E; simpl in S; try discriminate.
  assert (E' := H c (or_introl eq_refl) v v' e ow ow' st st' h Hh Hn). unfold is_satisfied in E'. rewrite E in E'. specialize (E' eq_refl).
  destruct (eval v' e ow' c st') as [r s2]. simpl in E'. subst r.
  apply (IH (fun c' I => H c' (or_intror I)) s1 s2 S).
Qed.
Lemma over_any : forall o cs, (forall c, In c cs -> settles_over c) -> settles_over (CAny o cs).
Proof.
  intros o cs H v v' e ow ow' st st' h b Hh Hn S. unfold is_satisfied in *. simpl in *.
  revert st st' S. induction cs as [|c cs IH]; intros st st' S; [injection S as <-; exists false; simpl; auto|].
  destruct (eval v e ow c st) as [[[|]|] s1] eqn:E; simpl in S; try discriminate.
  - injection S as <-.
    destruct (H c (or_introl eq_refl) v v' e ow ow' st st' h true Hh Hn) as (b' & E' & T); [unfold is_satisfied; rewrite E; auto|].
    unfold is_satisfied in E'. destruct (eval v' e ow' c st') as [r s2]. simpl in E'. subst r. rewrite (T eq_refl). exists true; auto.
  - destruct (H c (or_introl eq_refl) v v' e ow ow' st st' h false Hh Hn) as (b' & E' & T); [unfold is_satisfied; rewrite E; auto|].
    unfold is_satisfied in E'. destruct (eval v' e ow' c st') as [r s2]. simpl in E'. subst r.
    destruct b'; [exists true; simpl; auto|]. apply (IH (fun c' I => H c' (or_intror I)) s1 s2 S).
Qed.
