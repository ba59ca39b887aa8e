(** Runs whose termination conditions bound the number of passes come to an end. *)
From Verif Require Export SpecLive SafeFacts.
From Verif Require Import TopoProofs SpecSched SchedFacts PassFacts.

Lemma times_split : forall a l, 0 < a -> a * l = l + (a - 1) * l.
Proof. intros [|a] l H; [lia|]. simpl. rewrite Nat.sub_0_r. reflexivity. Qed.
(** ** The clock between two yields *)
Section Live.
Variables (ns : list node) (W : world -> Prop) (ran : Prop) (e : eid) (q : list (list node)).
Hypothesis Q : forall n, In n ns <-> exists level, In level q /\ In n level.
Variables (tc : tconds) (abs : bool) (n : nat).
Notation hale := (hale ns W ran e q tc abs).
Notation runs := (runs_with e tc abs).
Hypothesis Over : exists s c, (s = ESU \/ s = ES) /\ tc s = Some c /\ over_at n c.
Notation P m := (pass_number m e).
Definition same_clock (m m' : core) : Prop := x_clock (m_ctxs m' e) = x_clock (m_ctxs m e).
Lemma same_clock_pass : forall m m', same_clock m m' -> P m' = P m.
Proof. intros m m' H. unfold pass_number, the_clock. rewrite H. reflexivity. Qed.
Lemma same_clock_trans : forall a b c, same_clock a b -> same_clock b c -> same_clock a c.
Proof. unfold same_clock. congruence. Qed.
Lemma satisfied_clock : forall m c r m', satisfied m e c = (r, m') -> same_clock m m'.
Proof. intros m c r m' H. apply satisfied_cst in H. unfold same_clock. rewrite (cst_only_ctxs _ _ H). reflexivity. Qed.
Lemma check_clock : forall m s r m', check_tc m e tc s = (r, m') -> same_clock m m'.
Proof. intros m s r m' H. unfold check_tc in H. destruct (tc s); [eapply satisfied_clock; eauto|injection H as _ <-; reflexivity]. Qed.
Lemma terminated_clock : forall m r m', terminated m e tc = (r, m') -> same_clock m m'.
Proof.
  intros m r m' H. unfold terminated in H. destruct (check_tc m e tc ESU) as [[[]|] m1] eqn:C; try (injection H as _ <-; eapply check_clock; eauto; fail).
  eapply same_clock_trans; eapply check_clock; eauto.
Qed.
Lemma accept_clock : forall m x, same_clock m (accept m e x).
Proof. intros m x. unfold same_clock, accept. rewrite set_ctx_at. reflexivity. Qed.
Lemma round_clock : forall level m exec ch r m', round m e level exec ch = (r, m') -> same_clock m m'.
Proof.
  induction level as [|x l IH]; intros m exec ch r m' H; simpl in H; [injection H as _ <-; reflexivity|].
  destruct (mem x exec); [eauto|]. destruct (aget x (m_basic m)) as [c|]; [|injection H as _ <-; reflexivity].
  destruct (satisfied m e c) as [[[]|] m1] eqn:S; apply satisfied_clock in S.
  - destruct (mem x (m_nodes m1)); [|injection H as _ <-; exact S].
    eapply same_clock_trans; [|eapply IH; eauto]. eapply same_clock_trans; [exact S|apply accept_clock].
  - eapply same_clock_trans; eauto.
  - injection H as _ <-. exact S.
Qed.
Lemma do_level_clock : forall fuel level m exec r m', do_level fuel m e level exec = Some (r, m') -> same_clock m m'.
Proof.
  induction fuel as [|f IH]; intros level m exec r m' H; simpl in H; [discriminate|].
  destruct (round m e level exec false) as [[[exec' []]|] m1] eqn:R; apply round_clock in R.
  - eapply same_clock_trans; eauto.
  - injection H as _ <-. exact R.
  - injection H as _ <-. exact R.
Qed.
Lemma append_clock : forall m b s r m', append_exec m e b s = (r, m') -> same_clock m m'.
Proof.
  intros m b s r m' H. unfold append_exec in H. destruct (x_list (m_ctxs m e)); [|injection H as _ <-; reflexivity].
  destruct b; [destruct (x_stamps (m_ctxs m e))|]; injection H as _ <-; unfold same_clock; rewrite set_ctx_at; reflexivity.
Qed.
Lemma incr_pass : forall m m' s, incr_clock s m e = Ok m' -> P m' = match s with CSE => P m | PASS => S (P m) | _ => 0 end.
Proof.
  intros m m' s H. unfold incr_clock in H. destruct (clock_incr s _) as [k|] eqn:K; [|discriminate]. injection H as <-.
  unfold clock_incr in K. destruct (tree_incr _ _ _); [|discriminate]. injection K as <-.
  unfold pass_number, set_clock. rewrite set_ctx_at. unfold the_clock; simpl. unfold time_incr, time_reset. simpl.
  destruct (t_abs_enabled _ && _); destruct s; reflexivity.
Qed.
(** ** termination *)
Lemma not_over : forall m m', hale m -> P m <= n -> terminated m e tc = (Ok false, m') -> P m < n.
Proof.
  intros m m' H Le T. destruct (le_lt_dec n (P m)) as [L|L]; [|auto]. exfalso. assert (Ep : P m = n) by lia. destruct Over as (s & c & D & C & O).
  destruct (hl_ctx _ _ _ _ _ _ _ _ H) as (_ & _ & _ & (h & K) & _).
  unfold terminated in T. destruct (check_tc m e tc ESU) as [[[]|] m1] eqn:A; try discriminate.
  assert (X : exists m0 m2, check_tc m0 e tc s = (Ok false, m2) /\ same_clock m m0).
  { destruct D as [->| ->]; [exists m, m1; split; [auto|reflexivity]|exists m1, m'; split; [auto|eapply check_clock; eauto]]. }
  destruct X as (m0 & m2 & Y & Z). unfold check_tc in Y. rewrite C in Y. unfold satisfied in Y. destruct (eval (view_of m0 e) e (m_owners m0) c (m_cst m0)) as [r st] eqn:E.
  injection Y as -> _. apply (O h e). exists (view_of m0 e), (m_owners m0), (m_cst m0), st, h. simpl.
  split; [exists []; rewrite app_nil_r; auto|]. split; [unfold the_clock in *; rewrite Z; exact K|]. split; [rewrite <- Ep; apply (same_clock_pass _ _ Z)|exact E].
Qed.
Lemma inner_bound : forall g rest m i ch, runs g ->
  match inner m g rest i ch with
  | IYield m' s j ch' => same_clock m m' /\ i <= j < i + length rest /\ (ch' = true \/ abs = true)
  | IEnd m' ch' => same_clock m m' /\ (ch = true -> ch' = true)
  | _ => True
  end.
Proof.
  intros g rest. induction rest as [|level r IH]; intros m i ch G; [split; [reflexivity|auto]|]. pose proof G as (Ge & Gt & Ga).
  cbn [inner]. rewrite Ge, Gt, Ga. destruct (terminated m e tc) as [[[]|] m1] eqn:T; [apply terminated_clock in T; split; auto| |exact Logic.I].
  apply terminated_clock in T. destruct (do_level _ m1 e level []) as [[[exec|] m2]|] eqn:D; [|exact Logic.I|exact Logic.I]. apply do_level_clock in D.
  destruct (nonempty exec || abs) eqn:N.
  - destruct (append_exec m2 e abs exec) as [[u|] m3] eqn:A; [|exact Logic.I]. apply append_clock in A.
    split; [eauto using same_clock_trans|]. split; [simpl; lia|]. apply Bool.orb_true_iff in N. destruct N as [->| ->]; [left; apply Bool.orb_true_r|right; auto].
  - specialize (IH m2 (S i) (ch || nonempty exec) G). destruct (inner m2 g r (S i) _) as [m' s j ch'|m' ch'| |]; auto.
    + destruct IH as (X & Y & Z). split; [eauto using same_clock_trans|]. split; [simpl; lia|auto].
    + destruct IH as (X & Y). split; [eauto using same_clock_trans|]. intros ->. auto.
Qed.
Variable L : nat.
Hypotheses (L1 : 1 <= L) (Lq : length q <= L).
(** yields to come *)
Definition left (m : core) (g : gen) : nat :=
  match g_pc g with PStart => (n - P m) * L | PLevel i _ => (n - P m) * L - S i | PIdle => (n - P m - 1) * L | PDone => 0 end.
Definition fair (m : core) (g : gen) : Prop :=
  match g_pc g with PStart => True | PLevel i ch => P m < n /\ i < L /\ (ch = true \/ abs = true) | PIdle => P m < n | PDone => False end.
(** a step with k yields to come *)
Definition nears (k : nat) (r : core * gen * outcome) : Prop :=
  match r with (m', g', o) =>
    match o with
    | OYield _ => hale m' /\ runs g' /\ g_pc g' <> PStart /\ fair m' g' /\ left m' g' < k
    | OReturn _ => True
    | _ => False
    end
  end.
Lemma outer_live : forall fuel m g k, P m <= n -> n - P m < fuel -> runs g -> hale m -> (n - P m) * L <= k -> nears k (outer fuel m g).
Proof.
  induction fuel as [|f IH]; intros m g k Le F G H B; [lia|]. cbn [outer]. pose proof G as (Ge & Gt & Ga). rewrite Ge, Gt.
  destruct (terminated_safe _ _ _ _ _ Q _ _ m H) as (b & m1 & T & H1). rewrite T. destruct b.
  { destruct (finish_safe _ _ _ _ _ Q _ _ g m1 G H1) as (m' & l & -> & _). exact Logic.I. }
  pose proof (not_over _ _ H Le T) as Pn. pose proof (terminated_clock _ _ _ T) as T'. apply same_clock_pass in T'.
  cbv zeta. pose proof (reset_safe _ _ _ _ _ _ _ m1 PASS H1) as H2. assert (P2 : P (reset_counts_total PASS m1 e) = P m).
  { rewrite <- T'. apply same_clock_pass. unfold same_clock, reset_counts_total. rewrite set_ctx_at. reflexivity. }
  set (m2 := reset_counts_total PASS m1 e) in *.
  pose proof (inner_safe _ _ _ _ _ Q _ _ g q m2 0 false G H2 (incl_refl _)) as X. pose proof (inner_bound g q m2 0 false G) as Y.
  rewrite (hl_queue _ _ _ _ _ _ _ _ H2).
  pose proof (times_split (n - P m) L ltac:(lia)) as M.
  pose proof (inner_fuel q m2 g 0 false) as NF.
  destruct (inner m2 g q 0 false) as [m3 s i ch|m3 ch|m3 ex|m3]; [| |contradiction|destruct (NF m3); auto].
  - destruct Y as (Y1 & Y2 & Y3). apply same_clock_pass in Y1. split; [exact X|]. split; [exact G|]. split; [discriminate|]. unfold fair, left. cbn [g_pc at_pc]. rewrite Y1, P2.
    split; [split; [auto|]; split; [lia|auto]|lia].
  - destruct Y as (Y1 & Y2). apply same_clock_pass in Y1.
    pose proof (tail_safe _ _ _ _ _ _ _ g m3 ch G X) as Z. destruct (pass_tail m3 g ch) as [m4|m4|m4 ex] eqn:PT; [| |contradiction].
    + assert (P4 : P m4 = P m).
      { unfold pass_tail in PT. rewrite Ge in PT. destruct (negb ch && negb (g_abs g)); [|destruct (incr_clock _ _ _); discriminate].
        destruct (append_exec m3 e false []) as [[u|] m5] eqn:A; [|discriminate]. injection PT as <-. apply append_clock, same_clock_pass in A. congruence. }
      split; [exact Z|]. split; [exact G|]. split; [discriminate|]. unfold fair, left. cbn [g_pc at_pc]. rewrite P4. split; [auto|]. lia.
    + assert (P4 : P m4 = S (P m)).
      { unfold pass_tail in PT. rewrite Ge in PT. destruct (negb ch && negb (g_abs g)); [destruct (append_exec m3 e false []) as [[u|] m5]; discriminate|].
        destruct (incr_clock PASS m3 e) as [m5|] eqn:A; [|discriminate]. injection PT as <-. apply incr_pass in A. simpl in A. congruence. }
      apply IH; auto; rewrite P4; [lia|lia|]. replace (n - S (P m)) with (n - P m - 1) by lia. lia.
Qed.
Lemma resume_live : forall fuel m g, n < fuel -> runs g -> g_pc g <> PStart -> fair m g -> hale m -> nears (left m g) (resume fuel m g).
Proof.
  intros fuel m g F G Hp Fa H. pose proof G as (Ge & Gt & Ga). unfold resume, fair, left in *. rewrite Ge. destruct (g_pc g) as [|i ch| |]; [congruence| | |contradiction].
  - destruct Fa as (Pn & Li & Ch). destruct (incr_safe _ _ _ _ _ _ _ m CSE H) as (m1 & I & H1); [unfold ts_lt; simpl; lia|]. rewrite I. apply incr_pass in I. simpl in I.
    pose proof (inner_safe _ _ _ _ _ Q _ _ g (skipn (S i) q) m1 (S i) ch G H1 (skipn_incl _ _ _)) as X. pose proof (inner_bound g (skipn (S i) q) m1 (S i) ch G) as Y.
    rewrite (hl_queue _ _ _ _ _ _ _ _ H1). pose proof (inner_fuel (skipn (S i) q) m1 g (S i) ch) as NF. rewrite skipn_length in Y.
    pose proof (times_split (n - P m) L ltac:(lia)) as M. replace (n - P m - 1) with (n - S (P m)) in M by lia.
    destruct (inner m1 g (skipn (S i) q) (S i) ch) as [m3 s j ch'|m3 ch'|m3 ex|m3]; [| |contradiction|destruct (NF m3); auto].
    + destruct Y as (Y1 & Y2 & Y3). apply same_clock_pass in Y1. split; [exact X|]. split; [exact G|]. split; [discriminate|]. unfold fair, left. cbn [g_pc at_pc]. rewrite Y1, I.
      split; [split; [auto|]; split; [lia|auto]|]. rewrite M. generalize ((n - S (P m)) * L). intros z. lia.
    + destruct Y as (Y1 & Y2). apply same_clock_pass in Y1.
      pose proof (tail_safe _ _ _ _ _ _ _ g m3 ch' G X) as Z. destruct (pass_tail m3 g ch') as [m4|m4|m4 ex] eqn:PT; [| |contradiction].
      * exfalso. unfold pass_tail in PT. rewrite Ge in PT. destruct (negb ch' && negb (g_abs g)) eqn:NN; [|destruct (incr_clock _ _ _); discriminate].
        apply Bool.andb_true_iff in NN. destruct NN as [N1 N2]. rewrite Ga in N2. destruct Ch as [->| ->]; [rewrite (Y2 eq_refl) in N1|]; discriminate.
      * assert (P4 : P m4 = S (P m)).
        { unfold pass_tail in PT. rewrite Ge in PT. destruct (negb ch' && negb (g_abs g)); [destruct (append_exec m3 e false []) as [[u|] m5]; discriminate|].
          destruct (incr_clock PASS m3 e) as [m5|] eqn:A; [|discriminate]. injection PT as <-. apply incr_pass in A. simpl in A. congruence. }
        apply outer_live; auto; rewrite P4; [lia|lia|]. rewrite M. generalize ((n - S (P m)) * L). intros z. lia.
  - destruct (incr_safe _ _ _ _ _ _ _ m CSE H) as (m1 & I & H1); [unfold ts_lt; simpl; lia|]. rewrite I. apply incr_pass in I. simpl in I.
    destruct (incr_safe _ _ _ _ _ _ _ m1 PASS H1) as (m2 & I2 & H2); [unfold ts_lt; simpl; lia|]. rewrite I2. apply incr_pass in I2. simpl in I2.
    apply outer_live; auto; rewrite I2, I; [lia|lia|]. replace (n - S (P m)) with (n - P m - 1) by lia. lia.
Qed.
Lemma drive_live : forall fuel steps m g acc, n < fuel -> runs g -> g_pc g <> PStart -> fair m g -> hale m -> left m g < steps ->
  exists m' g' ys l, drive steps fuel m g acc = (m', g', acc ++ ys, OReturn l) /\ length ys <= left m g.
Proof.
  intros fuel. induction steps as [|k IH]; intros m g acc F G Hp Fa H B; [lia|]. simpl.
  pose proof (resume_live fuel m g F G Hp Fa H) as X. destruct (resume fuel m g) as [[m1 g1] o]. destruct o; try contradiction.
  - destruct X as (X1 & X2 & X3 & X4 & X5). destruct (IH m1 g1 (acc ++ [s]) F X2 X3 X4 X1) as (m' & g' & ys & l & E & B'); [lia|].
    exists m', g', (s :: ys), l. rewrite E, <- app_assoc. split; [reflexivity|simpl; lia].
  - exists m1, g1, [], l. rewrite app_nil_r. split; [reflexivity|simpl; lia].
Qed.
End Live.
Theorem bounded_run : forall W ran m g n steps fuel acc, fit W ran m g -> g_pc g = PStart -> pass_number m (g_eid g) <= n -> ends_at_pass n m g -> n < fuel ->
  (n - pass_number m (g_eid g)) * sets_per_pass m < steps ->
  exists m' g' ys l, drive steps fuel m g acc = (m', g', acc ++ ys, OReturn l) /\ length ys <= (n - pass_number m (g_eid g)) * sets_per_pass m.
Proof.
  intros W ran m g n steps fuel acc F P Le0 Ov Lf Ls. destruct (start_hale _ _ _ _ F P) as (g1 & m1 & S & H & G).
  assert (Ov' : exists s c, (s = ESU \/ s = ES) /\ run_tc m g s = Some c /\ over_at n c).
  { destruct Ov as (s & c & D & C & O). exists s, c. unfold the_tc in C. rewrite P in C. auto. }
  assert (P1 : pass_number m1 (g_eid g) = pass_number m (g_eid g)).
  { destruct (start_spec _ _ _ _ S) as (_ & _ & [_ _ _ _ (k & K1 & _ & _ & K4 & _)] & _). unfold pass_number. unfold the_clock at 1. rewrite K1, K4. reflexivity. }
  destruct steps as [|k]; [lia|]. simpl. unfold resume. rewrite P, S.
  assert (Lp : pass_number m1 (g_eid g) <= n) by (rewrite P1; exact Le0).
  assert (Lf' : n - pass_number m1 (g_eid g) < fuel) by lia.
  assert (Le : (n - pass_number m1 (g_eid g)) * sets_per_pass m <= (n - pass_number m (g_eid g)) * sets_per_pass m) by (rewrite P1; apply Nat.le_refl).
  pose proof (outer_live _ _ _ _ _ (ft_queue _ _ _ _ F) _ _ n Ov' (sets_per_pass m) (Nat.le_max_l _ _) (Nat.le_max_r _ _) fuel m1 g1 _ Lp Lf' G H Le) as X.
  destruct (outer fuel m1 g1) as [[m2 g2] o]. destruct o; try contradiction.
  - destruct X as (X1 & X2 & X3 & X4 & X5).
    destruct (drive_live _ _ _ _ _ (ft_queue _ _ _ _ F) _ _ n Ov' (sets_per_pass m) (Nat.le_max_l _ _) (Nat.le_max_r _ _) fuel k m2 g2 (acc ++ [s]) Lf X2 X3 X4 X1) as (m' & g' & ys & l & E & B'); [lia|].
    exists m', g', (s :: ys), l. rewrite E, <- app_assoc. split; [reflexivity|cbn [length]; lia].
  - exists m2, g2, [], l. rewrite app_nil_r. split; [reflexivity|apply Nat.le_0_l].
Qed.
(** ** Schedulers *)
Theorem sched_bounded_run : forall cyc arr W ran d g n steps fuel d1, sync cyc arr d = (Ok tt, d1) -> fit W ran (core_of d1) g -> g_pc g = PStart ->
  pass_number (core_of d1) (g_eid g) <= n -> ends_at_pass n (core_of d1) g -> n < fuel -> (n - pass_number (core_of d1) (g_eid g)) * sets_per_pass (core_of d1) < steps ->
  exists d' g' ys l, sdrive cyc arr steps fuel d g [] = (d', g', ys, OReturn l) /\ length ys <= (n - pass_number (core_of d1) (g_eid g)) * sets_per_pass (core_of d1).
Proof.
  intros cyc arr W ran d g n steps fuel d1 S F P Le E Lf Ls. pose proof (sync_settled _ _ _ _ _ S) as T.
  destruct (bounded_run _ _ _ _ _ _ _ [] F P Le E Lf Ls) as (m' & g' & ys & l & D & B).
  rewrite (sdrive_sync _ _ _ _ _ _ _ _ (Nat.le_lt_trans _ _ _ (Nat.le_0_l _) Ls) S T). pose proof (sdrive_drive cyc arr fuel steps d1 g [] T) as X. rewrite D in X.
  destruct (sdrive cyc arr steps fuel d1 g []) as [[[d' g1] l1] o]. destruct X as (_ & -> & -> & ->). exists d', g', ys, l. auto.
Qed.
Theorem new_bounded_run : forall cyc arr input base conds tc deid exact du ow nx w r d (W : world -> Prop) b tca skip n s c steps fuel,
  (forall q, Forall2 (@Permutation node) q (arr q)) -> arg_graph input = Ok base -> wf_graph base -> closed_graph base -> ~ cyclic base -> base <> [] ->
  new_sched cyc arr input conds tc deid exact du ow nx w = (Ok r, d) -> cs_order (d_cs d) = [] ->
  (forall o, nx <= o -> d_owners d o = None) -> W w ->
  (forall n c, aget n (cs_basic (d_cs d)) = Some c -> safe (gkeys base) deid W False (d_owners d) c) ->
  (forall s c, s = ESU \/ s = ES -> (tc = Some c \/ tca = Some c) -> forall x, c s = Some x -> safe (gkeys base) deid W False (d_owners d) x) ->
  s = ESU \/ s = ES -> (exists t, tca = Some t /\ t s = Some c) -> over_at n c -> n < fuel -> n * sets_per_pass (core_of d) < steps ->
  exists d' g' ys l, sdrive cyc arr steps fuel d (new_gen deid b tca skip) [] = (d', g', ys, OReturn l) /\ length ys <= n * sets_per_pass (core_of d).
Proof.
  intros cyc arr input base conds tc deid exact du ow nx w r d W b tca skip n s c steps fuel AR AG Wf Cl Cy Ne N O Fr Ww Sb St Hs (t & -> & Ht) Ov Lf Ls.
  destruct (new_fit _ _ _ _ _ _ _ _ _ _ _ _ _ _ W b (Some t) skip AR AG Wf Cl Cy Ne N O Fr Ww Sb St) as (d1 & S & Ec & F).
  destruct (new_fields _ _ _ _ _ _ _ _ _ _ _ _ _ _ AG N O) as (_ & _ & _ & F4 & _).
  assert (P0 : pass_number (core_of d) deid = 0) by (unfold pass_number, the_clock; simpl; rewrite F4, upd_same; reflexivity).
  rewrite <- Ec in *. destruct (sched_bounded_run cyc arr W False d (new_gen deid b (Some t) skip) n steps fuel d1 S F eq_refl) as (d' & g' & ys & l & E & B); auto.
  - simpl g_eid. rewrite P0. lia.
  - exists s, c. split; auto. split; auto. unfold the_tc. simpl. unfold run_tc. simpl. unfold combine_tconds. rewrite Ht. reflexivity.
  - simpl g_eid. rewrite P0, Nat.sub_0_r. exact Ls.
  - simpl g_eid in B. rewrite P0, Nat.sub_0_r in B. exists d', g', ys, l. auto.
Qed.
(** ** Conditions that are over in some pass *)
Lemma over_by_pass : forall f n c, by_pass f c -> f n = true -> over_at n c.
Proof. intros f n c B H h0 e A. apply B in A. rewrite H in A. discriminate. Qed.
Lemma over_at_any : forall n o cs c, In c cs -> over_at n c -> over_at n (Any o cs).
Proof.
  intros n o cs c I H h0 e (v & ow & st & st' & h & Dh & Hh & Ek & E). simpl in E. revert st st' E.
  induction cs as [|x cs IH]; intros st st' E; [destruct I|]. destruct (eval v e ow x st) as [[b|] s1] eqn:X; simpl in E; [|discriminate].
  destruct b; [discriminate|]. destruct I as [->|I]; [|eapply IH; eauto]. apply (H h0 e). exists v, ow, st, s1, h. auto.
Qed.
Lemma over_at_all : forall n o cs, (forall c, In c cs -> over_at n c) -> over_at n (All o cs).
Proof.
  intros n o cs I h0 e (v & ow & st & st' & h & Dh & Hh & Ek & E). simpl in E. revert st st' E.
  induction cs as [|x cs IH]; intros st st' E; [discriminate|]. destruct (eval v e ow x st) as [[b|] s1] eqn:X; simpl in E; [|discriminate].
  destruct b; [eapply IH; eauto; intros c Hc; apply I; right; auto|]. apply (I x (or_introl eq_refl) h0 e). exists v, ow, st, s1, h. auto.
Qed.
Lemma over_at_atoms : forall o n,
  over_at n (AtPass o n ESU) /\ (forall m, m < n -> over_at n (AfterPass o m ESU)) /\ (forall m, m <= n -> over_at n (AfterNPasses o m ESU)) /\
  (forall m, 0 < m -> n mod m = 0 -> over_at n (EveryNPasses o m ESU)).
Proof.
  intros o n. split; [|split; [|split]].
  - eapply over_by_pass; [apply (by_pass_atoms o n)|]. apply Nat.eqb_refl.
  - intros m L. eapply over_by_pass; [apply (by_pass_atoms o m)|]. apply Nat.ltb_lt. auto.
  - intros m L. eapply over_by_pass; [apply (by_pass_atoms o m)|]. apply Nat.leb_le. auto.
  - intros m L E. eapply over_by_pass; [apply (by_pass_atoms o m); auto|]. apply Nat.eqb_eq. auto.
Qed.
