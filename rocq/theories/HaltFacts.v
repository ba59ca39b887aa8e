(** Termination conditions only say when a run ends (C81). *)
From Verif Require Import SpecCond SpecHalt BaseFacts TimeProofs ResumeFrame RunProofs RunIds SchedFacts SchedThms.
From Verif Require SpecAgain AgainFacts RegisteredFacts DefaultFacts.

(** ** Conditions *)
Lemma since_later : forall b h h2 r, since_at_least b h h2 -> ts_le ESU b -> Forall (fun s => ts_lt s ESU) r -> since_at_least b (h ++ r) (h2 ++ r).
Proof.
  intros b h h2 r [F D] L R. split; [apply Forall_app; split; auto; eapply Forall_impl; [|exact R]; intros a; unfold ts_lt, ts_le in *; lia|].
  destruct D as [->|(h1 & x & -> & X)]; auto. right. exists h1, x. rewrite <- app_assoc. auto.
Qed.
Lemma count_app : forall q a b, count q (a ++ b) = count q a + count q b.
Proof. intros q a b. unfold count. rewrite filter_app, app_length. auto. Qed.
Lemma cmp_grows : forall k a b n, from_on k = true -> a <= b -> cmp_nat k a n = true -> cmp_nat k b n = true.
Proof.
  intros [] a b n F L H; simpl in *; try discriminate; rewrite ?Nat.ltb_lt, ?Nat.leb_le in *; lia.
Qed.
Lemma later_total : forall v v' s d, later_in_run v v' -> ts_le ESU s ->
  match count_total v s d with Ok k => exists k', count_total v' s d = Ok k' /\ k <= k' | Err ex => count_total v' s d = Err ex end.
Proof.
  intros v v' s d [N (f & f' & E & E' & Q) _] L. unfold count_total. rewrite E, E', N. destruct (mem d (v_nodes v)); eauto.
Qed.
Lemma in_total : forall ns v s d, view_in_run ns v -> mem d ns = true -> exists k, count_total v s d = Ok k.
Proof. intros ns v s d (N & T & _) M. unfold count_total. destruct (v_total v); [|congruence]. rewrite N, M. eauto. Qed.
Lemma in_sum : forall ns v s, view_in_run ns v -> forall ds a, forallb (fun d => mem d ns) ds = true -> exists k, sum_calls v s ds a = Ok k.
Proof.
  intros ns v s V. induction ds as [|d r IH]; intros a H; simpl in *; eauto. apply andb_true_iff in H. destruct H as [M H].
  destruct (in_total _ _ s _ V M) as (k & ->). simpl. auto.
Qed.
Lemma later_sum : forall v v' s, later_in_run v v' -> ts_le ESU s -> forall ds a a' k, a <= a' -> sum_calls v s ds a = Ok k ->
  exists k', sum_calls v' s ds a' = Ok k' /\ k <= k'.
Proof.
  intros v v' s L Ls. induction ds as [|d r IH]; intros a a' k A H; simpl in *; [injection H as <-; eauto|].
  pose proof (later_total _ _ s d L Ls) as X. destruct (count_total v s d) as [j|]; [|discriminate]. destruct X as (j' & -> & J). simpl in *. eapply IH; [|exact H]. lia.
Qed.
Lemma in_have_run : forall ns v s, view_in_run ns v -> forall ds, forallb (fun d => mem d ns) ds = true -> exists b, all_have_run v s ds = Ok b.
Proof.
  intros ns v s V. induction ds as [|d r IH]; intros H; simpl in *; eauto. apply andb_true_iff in H. destruct H as [M H].
  destruct (in_total _ _ s _ V M) as (k & ->). destruct (Nat.ltb k 1); eauto.
Qed.
Lemma later_have_run : forall v v' s, later_in_run v v' -> ts_le ESU s -> forall ds, all_have_run v s ds = Ok true -> all_have_run v' s ds = Ok true.
Proof.
  intros v v' s L Ls. induction ds as [|d r IH]; intros H; simpl in *; auto.
  pose proof (later_total _ _ s d L Ls) as X. destruct (count_total v s d) as [j|]; [|discriminate]. destruct X as (j' & -> & J).
  destruct (Nat.ltb_spec j 1); [discriminate|]. destruct (Nat.ltb_spec j' 1); [lia|auto].
Qed.
Lemma forallb_self : forall ns, forallb (fun d => mem d ns) ns = true.
Proof. intros ns. apply forallb_forall. intros x I. apply mem_In. auto. Qed.
Lemma grows_atom : forall ns o a v e own w, only_grows ns (CAtom o a) = true -> view_in_run ns v ->
  (exists b, eval_atom v e own a w = (Ok b, w)) /\
  forall v' w', later_in_run v v' -> eval_atom v e own a w = (Ok true, w) -> eval_atom v' e own a w' = (Ok true, w').
Proof.
  intros ns o a v e own w H V. destruct a; simpl in H; try discriminate; simpl.
  - split; eauto.
  - split; [eauto|intros; discriminate].
  - apply andb_true_iff in H. destruct H as [H Lb]. apply andb_true_iff in H. destruct H as [K Lq].
    unfold ts_ltb in Lq. apply Nat.ltb_lt in Lq. unfold ts_leb in Lb. apply Nat.leb_le in Lb.
    destruct V as (_ & _ & h & Ch). destruct (since_at_least_exists base h) as (h2 & S2).
    split; [rewrite (total_relative _ _ _ _ _ _ Ch Lq Lb S2); simpl; eauto|].
    intros v' w' [_ _ (h0 & r & C0 & C1 & F)] E. destruct (since_at_least_exists base h0) as (h3 & S3).
    rewrite (total_relative _ _ _ _ _ _ C0 Lq Lb S3) in E. rewrite (total_relative _ _ _ _ _ _ C1 Lq Lb (since_later _ _ _ _ S3 Lb F)). simpl in *.
    injection E as E. rewrite (cmp_grows _ (count q h3) _ _ K); auto. rewrite count_app. lia.
  - apply andb_true_iff in H. destruct H as [H Lb]. apply andb_true_iff in H. destruct H as [K M]. unfold ts_leb in Lb. apply Nat.leb_le in Lb.
    destruct (in_total _ _ s _ V M) as (k & E). rewrite E. simpl. split; eauto. intros v' w' L X. injection X as X.
    pose proof (later_total _ _ s d L Lb) as Y. rewrite E in Y. destruct Y as (k' & -> & G). simpl. rewrite (cmp_grows _ _ _ _ K G X). auto.
  - destruct n as [n|]; [|discriminate]. apply andb_true_iff in H. destruct H as [M Lb]. unfold ts_leb in Lb. apply Nat.leb_le in Lb.
    destruct (in_sum _ _ s V ds 0 M) as (k & E). rewrite E. simpl. split; eauto. intros v' w' L X. injection X as X.
    destruct (later_sum _ _ s L Lb ds 0 0 k (le_n _) E) as (k' & -> & G). simpl. apply Nat.leb_le in X. assert (Y : Nat.leb n k' = true) by (apply Nat.leb_le; lia). rewrite Y. auto.
  - apply andb_true_iff in H. destruct H as [M Lb]. unfold ts_leb in Lb. apply Nat.leb_le in Lb.
    assert (M' : forallb (fun d => mem d ns) (deps_or_nodes v ds) = true) by (destruct V as (N & _); destruct ds; simpl; auto; rewrite N; apply forallb_self).
    destruct (in_have_run _ _ s V _ M') as (b & E). rewrite E. split; eauto. intros v' w' L X. injection X as ->.
    assert (D : deps_or_nodes v' ds = deps_or_nodes v ds) by (destruct L; destruct ds; simpl; auto). rewrite D, (later_have_run _ _ _ L Lb _ E). auto.
Qed.
Lemma later_in : forall ns v v', view_in_run ns v -> later_in_run v v' -> view_in_run ns v'.
Proof.
  intros ns v v' (N & _ & _) [N' (f & f' & _ & T & _) (h & r & _ & C & _)]. split; [congruence|]. split; [congruence|]. eauto.
Qed.
Lemma grows_answers : forall ns c, only_grows ns c = true -> forall v e ow st, view_in_run ns v -> exists b, eval v e ow c st = (Ok b, st).
Proof.
  intros ns c H v e ow st V. revert st. induction c as [o a|o cs IH|o cs IH|o c IH|o c n IH] using cond_ind'; try discriminate; intros st.
  - destruct (grows_atom ns o a v e (ow o) (s_world st) H V) as ((b & A) & _). simpl. rewrite A. exists b. destruct st; auto.
  - simpl in *. induction IH as [|x r Hx Hr I2]; [eauto|]. simpl in H. apply andb_true_iff in H. destruct H as [Px Pr].
    destruct (Hx Px st) as (b & A). rewrite A. destruct b; [apply I2; auto|eauto].
  - simpl in *. induction IH as [|x r Hx Hr I2]; [eauto|]. simpl in H. apply andb_true_iff in H. destruct H as [Px Pr].
    destruct (Hx Px st) as (b & A). rewrite A. destruct b; [eauto|apply I2; auto].
Qed.
Theorem grows_stays : forall ns c, only_grows ns c = true -> stays_true ns c.
Proof.
  intros ns c H. constructor.
  - apply grows_answers; auto.
  - intros v v' e ow st st' V L. revert H. induction c as [o a|o cs IH|o cs IH|o c IH|o c n IH] using cond_ind'; try discriminate; intros H.
    + destruct (grows_atom ns o a v e (ow o) (s_world st) H V) as ((b & A) & B). simpl. rewrite A. intros E. injection E as -> _.
      rewrite (B v' (s_world st') L A). destruct st'; auto.
    + simpl in *. induction IH as [|x r Hx Hr I2]; auto. simpl in H. apply andb_true_iff in H. destruct H as [Px Pr].
      destruct (grows_answers _ _ Px v e ow st V) as (b & A). rewrite A. destruct b; [|discriminate]. intros E. rewrite (Hx Px A). apply I2; auto.
    + simpl in *. induction IH as [|x r Hx Hr I2]; [discriminate|]. simpl in H. apply andb_true_iff in H. destruct H as [Px Pr].
      destruct (grows_answers _ _ Px v e ow st V) as (b & A). rewrite A. destruct b; [intros _; rewrite (Hx Px A); auto|]. intros E.
      destruct (grows_answers _ _ Px v' e ow st' (later_in _ _ _ V L)) as (b' & A'). rewrite A'. destruct b'; [auto|]. apply I2; auto.
  - induction c as [o a|o cs IH|o cs IH|o c IH|o c n IH] using cond_ind'; simpl in *; auto; try discriminate.
    + destruct a; auto; discriminate.
    + induction IH as [|x r Hx Hr I2]; simpl in *; auto. apply andb_true_iff in H. destruct H as [Px Pr]. rewrite (Hx Px). auto.
    + induction IH as [|x r Hx Hr I2]; simpl in *; auto. apply andb_true_iff in H. destruct H as [Px Pr]. rewrite (Hx Px). auto.
Qed.

(** ** One resumption *)
Lemma later_refl : forall ns v, view_in_run ns v -> later_in_run v v.
Proof.
  intros ns v (N & T & h & C). constructor; auto.
  - destruct (v_total v) as [f|]; [|congruence]. exists f, f. auto.
  - exists h, []. rewrite app_nil_r. auto.
Qed.
(** the termination conditions at a view: one of them holds, or both can be evaluated and fail *)
Definition going (v : view) (e : eid) (ow : oid -> option node) (tc : tconds) : Prop :=
  forall s, s = ESU \/ s = ES -> exists c, tc s = Some c /\ forall st, eval v e ow c st = (Ok false, st).
Lemma cond_decided : forall ns c v e ow, stays_true ns c -> view_in_run ns v ->
  (forall st, eval v e ow c st = (Ok true, st)) \/ (forall st, eval v e ow c st = (Ok false, st)).
Proof.
  intros ns c v e ow S V. pose proof (later_refl _ _ V) as L. set (st0 := mkCstate (fun _ _ => 0) (mkWorld (fun _ _ => None) (fun _ _ => None) (fun _ => 0))).
  destruct (st_answers _ _ S v e ow st0 V) as ([|] & E).
  - left. intros st. exact (st_stays _ _ S v v e ow st0 st V L E).
  - right. intros st. destruct (st_answers _ _ S v e ow st V) as ([|] & E'); auto. rewrite (st_stays _ _ S v v e ow st st0 V L E') in E. discriminate.
Qed.
Lemma decided : forall ns tc v e ow, stay_true ns tc -> view_in_run ns v -> holds v e ow tc \/ going v e ow tc.
Proof.
  intros ns tc v e ow (H1 & H2 & H) V. destruct (tc ESU) as [c1|] eqn:E1; [|congruence]. destruct (tc ES) as [c2|] eqn:E2; [|congruence].
  destruct (cond_decided _ _ v e ow (H _ _ E1) V) as [A|A]; [left; exists ESU, c1; auto|].
  destruct (cond_decided _ _ v e ow (H _ _ E2) V) as [B|B]; [left; exists ES, c2; auto|].
  right. intros s [->| ->]; eauto.
Qed.
Lemma not_both : forall v e ow tc, holds v e ow tc -> going v e ow tc -> False.
Proof.
  intros v e ow tc (s & c & D & E & T) G. destruct (G s D) as (c' & E' & F). rewrite E in E'. injection E' as <-.
  set (st0 := mkCstate (fun _ _ => 0) (mkWorld (fun _ _ => None) (fun _ _ => None) (fun _ => 0))). specialize (T st0). specialize (F st0). congruence.
Qed.
Lemma holds_later : forall ns v v' e ow tc, stay_true ns tc -> view_in_run ns v -> later_in_run v v' -> holds v e ow tc -> holds v' e ow tc.
Proof.
  intros ns v v' e ow tc (_ & _ & H) V L (s & c & D & E & T). exists s, c. split; auto. split; auto. intros st. exact (st_stays _ _ (H _ _ E) v v' e ow st st V L (T st)).
Qed.
Lemma going_earlier : forall ns v v' e ow tc, stay_true ns tc -> view_in_run ns v -> later_in_run v v' -> going v' e ow tc -> going v e ow tc.
Proof.
  intros ns v v' e ow tc S V L G. destruct (decided _ _ v e ow S V) as [X|X]; auto. destruct (not_both _ _ _ _ (holds_later _ _ _ _ _ _ S V L X) G).
Qed.
Section Run.
Variables (ns : list node) (e : eid).
(** a core in a run *)
Record ready (m : core) : Prop := {
  rd_nodes : m_nodes m = ns;
  rd_total : x_total (m_ctxs m e) <> None;
  rd_list : x_list (m_ctxs m e) <> None;
  rd_clock : exists h, clock_after ESU h (the_clock (m_ctxs m e)) }.
Lemma ready_view : forall m, ready m -> view_in_run ns (view_of m e).
Proof. intros m []. split; auto. Qed.
Definition later (m m' : core) : Prop := later_in_run (view_of m e) (view_of m' e) /\ m_owners m' = m_owners m.
Notation over m tc := (holds (view_of m e) e (m_owners m) tc).
Notation runs_on m tc := (going (view_of m e) e (m_owners m) tc).
Lemma set_same_cst : forall m, set_cst m (m_cst m) = m.
Proof. intros []; auto. Qed.
Lemma term_going : forall m tc, runs_on m tc -> terminated m e tc = (Ok false, m).
Proof.
  intros m tc G. unfold terminated, check_tc, satisfied. destruct (G ESU (or_introl eq_refl)) as (c1 & -> & E1). destruct (G ES (or_intror eq_refl)) as (c2 & E2 & E3).
  rewrite E1, set_same_cst, E2, E3, set_same_cst. auto.
Qed.
Lemma term_over : forall m tc, ready m -> stay_true ns tc -> over m tc -> terminated m e tc = (Ok true, m).
Proof.
  intros m tc R S O. destruct S as (N1 & N2 & S). destruct (tc ESU) as [c1|] eqn:E1; [|congruence]. destruct (tc ES) as [c2|] eqn:E2; [|congruence].
  unfold terminated, check_tc, satisfied. rewrite E1, E2.
  destruct (cond_decided _ _ _ e (m_owners m) (S _ _ E1) (ready_view _ R)) as [A|A]; rewrite A, set_same_cst; auto.
  destruct (cond_decided _ _ _ e (m_owners m) (S _ _ E2) (ready_view _ R)) as [B|B]; rewrite B, set_same_cst; auto.
  exfalso. eapply not_both; [exact O|]. intros s [->| ->]; eauto.
Qed.
(** same counts (up to those of the pass), clock, nodes and owners *)
Record alike (m m' : core) : Prop := {
  al_nodes : m_nodes m' = m_nodes m;
  al_owners : m_owners m' = m_owners m;
  al_total : exists f f', x_total (m_ctxs m e) = Some f /\ x_total (m_ctxs m' e) = Some f' /\ forall s n, ts_le ESU s -> f' s n = f s n;
  al_list : x_list (m_ctxs m' e) = x_list (m_ctxs m e);
  al_clock : the_clock (m_ctxs m' e) = the_clock (m_ctxs m e) }.
Lemma alike_trans : forall a b c, alike a b -> alike b c -> alike a c.
Proof.
  intros a b c [N O (f & f' & E & E' & Q) L K] [N2 O2 (g & g' & F & F' & Q2) L2 K2]. constructor; try congruence.
  exists f, g'. split; auto. split; auto. intros s n H. rewrite Q2 by auto. rewrite E' in F. injection F as <-. auto.
Qed.
Lemma over_later : forall m m' tc, ready m -> stay_true ns tc -> later m m' -> over m tc -> over m' tc.
Proof. intros m m' tc R S [L O] H. rewrite O. eapply holds_later; eauto using ready_view. Qed.
Lemma going_before : forall m m' tc, ready m -> stay_true ns tc -> later m m' -> runs_on m' tc -> runs_on m tc.
Proof. intros m m' tc R S [L O] H. rewrite O in H. eapply going_earlier; eauto using ready_view. Qed.

Lemma later_from : forall m m', ready m -> m_nodes m' = m_nodes m -> m_owners m' = m_owners m ->
  (exists f f', x_total (m_ctxs m e) = Some f /\ x_total (m_ctxs m' e) = Some f' /\ forall s n, ts_le ESU s -> f s n <= f' s n) ->
  (exists h h2, clock_after ESU h (the_clock (m_ctxs m e)) /\ clock_after ESU (h ++ h2) (the_clock (m_ctxs m' e)) /\ Forall (fun s => ts_lt s ESU) h2) ->
  x_list (m_ctxs m' e) <> None -> ready m' /\ later m m'.
Proof.
  intros m m' [N T L K] N' O (f & f' & E & E' & Q) (h & h2 & C & C' & F) L'. split; [constructor; [congruence|congruence|auto|eauto]|].
  split; auto. constructor; simpl; auto; [exists f, f'|exists h, h2]; auto.
Qed.
Record level_with (m m' : core) : Prop := {
  lw_ready : ready m';
  lw_later : later m m';
  lw_back : later m' m }.
Lemma alike_level : forall m m', ready m -> alike m m' -> level_with m m'.
Proof.
  intros m m' R [N O (f & f' & E & E' & Q) XL XC]. pose proof R as [Rn Rt Rl (h & K)].
  assert (R' : ready m') by (constructor; [congruence|congruence|rewrite XL; auto|rewrite XC; eauto]).
  constructor; auto.
  - apply later_from; auto; [exists f, f'; split; auto; split; auto; intros; rewrite Q; auto|exists h, []; rewrite app_nil_r, XC; auto|rewrite XL; auto].
  - apply later_from; auto; [exists f', f; split; auto; split; auto; intros; rewrite Q; auto|exists h, []; rewrite app_nil_r, XC; auto].
Qed.
Lemma alike_ctx : forall m m', ready m -> m_nodes m' = m_nodes m -> m_owners m' = m_owners m -> m_ctxs m' e = m_ctxs m e -> alike m m'.
Proof.
  intros m m' R N O X. constructor; auto; rewrite X; auto. destruct (x_total (m_ctxs m e)) as [f|] eqn:E; [exists f, f; auto|]. destruct (rd_total _ R E).
Qed.
Lemma alike_reset : forall m, ready m -> alike m (reset_counts_total PASS m e).
Proof.
  intros m R. destruct (x_total (m_ctxs m e)) as [f|] eqn:E; [|destruct (rd_total _ R E)].
  constructor; auto; unfold reset_counts_total, set_ctx; simpl; rewrite upd_same, ?E; simpl; auto.
  exists f, (reset_total PASS f). split; auto. split; auto. intros [] n; unfold ts_le, reset_total; simpl; auto; lia.
Qed.
Lemma alike_none : forall fuel m level m', ready m -> do_level fuel m e level [] = Some (Ok [], m') -> alike m m'.
Proof.
  intros fuel m level m' R E. pose proof (fixed_level _ _ _ _ _ _ _ E) as F. destruct (RunProofs.do_level_spec (tc := fun _ => None) _ _ _ _ _ _ _ E) as (a & A & [_ X _ _ _] & _).
  simpl in A. subst a. apply alike_ctx; auto; destruct F; auto.
Qed.
Lemma later_incr : forall s m, ready m -> ts_lt s ESU -> exists m', incr_clock s m e = Ok m' /\ ready m' /\ later m m'.
Proof.
  intros s m R L. pose proof R as [Rn Rt Rl (h & K)]. unfold incr_clock. destruct (clock_incr_succeeds _ _ _ s K) as (k & Ek); [unfold ts_lt in *; simpl in *; lia|]. rewrite Ek.
  eexists. split; [reflexivity|]. destruct (x_total (m_ctxs m e)) as [f|] eqn:E; [|congruence].
  apply later_from; auto; unfold set_clock, set_ctx; simpl; rewrite ?upd_same; simpl; auto; [exists f, f; auto|].
  exists h, [s]. split; auto. split; [unfold the_clock at 1; simpl; econstructor; eauto|auto].
Qed.
Lemma later_append : forall m s m' m'', ready m -> append_exec m e false s = (Ok m'', m') -> ready m' /\ later m m'.
Proof.
  intros m s m' m'' R E. pose proof R as [Rn Rt Rl (h & K)]. unfold append_exec in E. destruct (x_list (m_ctxs m e)) as [l|] eqn:El; [|congruence]. injection E as _ <-.
  destruct (x_total (m_ctxs m e)) as [f|] eqn:Et; [|congruence].
  apply later_from; auto; unfold set_ctx; simpl; rewrite ?upd_same; simpl; auto; [exists f, f; auto| |discriminate].
  exists h, []. rewrite app_nil_r. auto.
Qed.
Lemma accepts_total : forall a x f, x_total x = Some f -> exists f', x_total (ctx_accepts a x) = Some f' /\ forall s n, f s n <= f' s n.
Proof.
  induction a as [|n a IH]; intros x f E; [exists f; auto|]. change (ctx_accepts (n :: a) x) with (ctx_accepts a (ctx_accept n x)).
  destruct (IH (ctx_accept n x) (bump_total n f)) as (f' & E' & Q); [simpl; rewrite E; auto|]. exists f'. split; auto. intros s k. eapply Nat.le_trans; [|apply Q].
  unfold bump_total. destruct (Nat.eqb k n); lia.
Qed.
Lemma later_level : forall fuel m level s m', ready m -> do_level fuel m e level [] = Some (Ok s, m') -> ready m' /\ later m m'.
Proof.
  intros fuel m level s m' R E. pose proof (fixed_level _ _ _ _ _ _ _ E) as F. destruct (RunProofs.do_level_spec (tc := fun _ => None) _ _ _ _ _ _ _ E) as (a & A & [_ X _ _ _] & _).
  simpl in A. subst a. pose proof R as [Rn Rt Rl (h & K)]. destruct (x_total (m_ctxs m e)) as [f|] eqn:Et; [|congruence].
  destruct (ctx_accepts_other s (m_ctxs m e)) as (XL & _ & XC). destruct (accepts_total s _ _ Et) as (f' & Ef & Q).
  apply later_from; auto; try (destruct F; auto; fail).
  - exists f, f'. rewrite X. auto.
  - exists h, []. rewrite app_nil_r, X. unfold the_clock at 2. rewrite XC. auto.
  - rewrite X, XL. auto.
Qed.

(** the rest of a pass *)
Definition with_tc (a : option tconds) (tc : tconds) (b : eid) (skip : bool) (p : pc) : gen := mkGen e b a skip tc false p.
Definition nothing_ends : tconds := fun _ => Some (Never 0).
Lemma going_never : forall m, runs_on m nothing_ends.
Proof. intros m s _. exists (Never 0). split; auto. intros []; auto. Qed.
Lemma inner_over : forall m a tc b skip p rest i ch, ready m -> stay_true ns tc -> over m tc -> inner m (with_tc a tc b skip p) rest i ch = IEnd m ch.
Proof. intros m a tc b skip p [|l r] i ch R S O; simpl; auto. rewrite (term_over _ _ R S O). auto. Qed.
Lemma inner_going : forall rest m a tc b skip p b' skip' p' i ch, ready m -> stay_true ns tc -> runs_on m tc ->
  inner m (with_tc a tc b skip p) rest i ch = inner m (with_tc None nothing_ends b' skip' p') rest i ch.
Proof.
  induction rest as [|l r IH]; intros m a tc b skip p b' skip' p' i ch R S G; [reflexivity|]; cbn [inner with_tc g_eid g_tc g_abs].
  rewrite (term_going _ _ G), (term_going _ _ (going_never m)). destruct (do_level (Datatypes.S (length l)) m e l []) as [[[ex|] m2]|] eqn:E; auto.
  destruct ex as [|x ex]; cbn [nonempty orb]; auto. destruct (alike_level _ _ R (alike_none _ _ _ _ R E)) as [R2 L2 B2]. apply IH; auto. eapply going_before; eauto.
Qed.
(** what a pass without termination does: it yields a set, raises, or comes to its end with nothing executed *)
Lemma inner_never : forall rest m b skip p i ch, ready m ->
  match inner m (with_tc None nothing_ends b skip p) rest i ch with
  | IYield m3 s j ch' => ready m3 /\ ch' = true /\ forall tc, stay_true ns tc -> over m tc -> over m3 tc
  | IEnd m3 ch' => alike m m3 /\ ch' = ch
  | _ => True
  end.
Proof.
  induction rest as [|l r IH]; intros m b skip p i ch R; cbn [inner with_tc g_eid g_tc g_abs]; [split; auto; apply alike_ctx; auto|].
  rewrite (term_going _ _ (going_never m)). destruct (do_level (S (length l)) m e l []) as [[[ex|] m2]|] eqn:E; auto.
  destruct ex as [|x ex]; simpl.
  - pose proof (alike_none _ _ _ _ R E) as A2. destruct (alike_level _ _ R A2) as [R2 L2 B2]. rewrite orb_false_r. specialize (IH m2 b skip p (S i) ch R2).
    destruct (inner m2 _ r (S i) ch) as [m3 s j ch'|m3 ch'|?|?]; auto.
    + destruct IH as (A & B & C). split; auto. split; auto. intros tc S O. apply C; auto. exact (over_later _ _ _ R S L2 O).
    + destruct IH as (A3 & ->). split; auto. eapply alike_trans; eauto.
  - destruct (later_level _ _ _ _ _ R E) as [R2 L2]. destruct (append_exec m2 e false (x :: ex)) as [[m3'|] m3] eqn:EA; auto.
    destruct (later_append _ _ _ _ R2 EA) as [R3 L3]. rewrite orb_true_r. split; auto. split; auto. intros tc S O. exact (over_later _ _ _ R2 S L3 (over_later _ _ _ R S L2 O)).
Qed.

(** ending *)
Lemma finish_returns : forall m a tc b skip p, ready m -> stay_true ns tc ->
  exists m' l, finish m (with_tc a tc b skip p) = (m', with_tc a tc b skip PDone, OReturn l).
Proof.
  intros m a tc b skip p R (_ & N & S). unfold finish. cbn [g_eid g_skip g_tc with_tc]. destruct (tc ES) as [c|] eqn:E; [|congruence].
  assert (X : exists m1, (if skip then Ok m else incr_clock ESU m e) = Ok m1 /\ view_in_run ns (view_of m1 e) /\ x_list (m_ctxs m1 e) = x_list (m_ctxs m e)).
  { destruct skip; [exists m; auto using ready_view|]. destruct R as [Rn Rt Rl (h & K)]. unfold incr_clock.
    destruct (clock_incr_succeeds _ _ _ ESU K) as (k & Ek); [unfold ts_lt; simpl; lia|]. rewrite Ek. eexists. split; [reflexivity|].
    unfold view_in_run, view_of, set_clock, set_ctx; simpl. rewrite upd_same; simpl. split; auto. split; auto. split; auto. exists (h ++ [ESU]). unfold the_clock; simpl. econstructor; eauto. }
  destruct X as (m1 & -> & V & XL). unfold check_tc, satisfied. rewrite E. destruct (st_answers _ _ (S _ _ E) (view_of m1 e) e (m_owners m1) (m_cst m1) V) as (bb & ->).
  simpl. rewrite XL. destruct (x_list (m_ctxs m e)) as [l|] eqn:El; [|destruct (rd_list _ R El)]. eauto.
Qed.
(** a resumption that does not end the run leaves [m'], and p' as its position *)
Definition goes_on (m : core) (r : core * pc * outcome) (f : option tconds -> tconds -> eid -> bool -> core * gen * outcome) (v : view) (ow : oid -> option node) : Prop :=
  forall a tc b skip, stay_true ns tc ->
    (over m tc -> holds v e ow tc) /\
    (holds v e ow tc -> exists m' l, f a tc b skip = (m', with_tc a tc b skip PDone, OReturn l)) /\
    (going v e ow tc -> f a tc b skip = (let '(m', p', o) := r in (m', with_tc a tc b skip p', o))).
Definition next_ok (v : view) (ow : oid -> option node) (r : core * pc * outcome) : Prop :=
  let '(m', p', o) := r in
  match o with
  | OYield _ => ready m' /\ ((exists i, p' = PLevel i true) \/ p' = PIdle) /\ forall tc, stay_true ns tc -> holds v e ow tc -> over m' tc
  | OReturn _ | OStop => False
  | _ => True
  end.
Lemma outer_step : forall f m p, ready m -> exists r,
  goes_on m r (fun a tc b skip => outer (S f) m (with_tc a tc b skip p)) (view_of m e) (m_owners m) /\ next_ok (view_of m e) (m_owners m) r.
Proof.
  intros f m p R.
  set (m2 := reset_counts_total PASS m e). destruct (alike_level _ _ R (alike_reset _ R)) as [R2 L2 B2]. fold m2 in R2, L2, B2.
  set (r := match inner m2 (with_tc None nothing_ends 0 false p) (queue m2) 0 false with
            | IYield m3 s i ch => (m3, PLevel i ch, OYield s)
            | IErr m3 ex => (m3, PDone, ORaise ex)
            | IFuel m3 => (m3, p, OFuel)
            | IEnd m3 ch => match append_exec m3 e false [] with (Ok _, m4) => (m4, PIdle, OYield []) | (Err ex, m4) => (m4, PDone, ORaise ex) end
            end).
  exists r. pose proof (inner_never (queue m2) m2 0 false p 0 false R2) as IN. split.
  - intros a tc b skip S. split; auto. split.
    + intros O. cbn [outer]. cbn [with_tc g_eid g_tc]. rewrite (term_over _ _ R S O). apply finish_returns; auto.
    + intros G. cbn [outer]. cbn [with_tc g_eid g_tc]. rewrite (term_going _ _ G). fold m2. change (mkGen e b a skip tc false p) with (with_tc a tc b skip p).
      assert (G2 : runs_on m2 tc) by (exact (going_before _ _ _ R2 S B2 G)).
      rewrite (inner_going _ _ a tc b skip p 0 false p 0 false R2 S G2). unfold r.
      destruct (inner m2 (with_tc None nothing_ends 0 false p) (queue m2) 0 false) as [m3 s i ch|m3 ch|m3 ex|m3]; auto.
      destruct IN as (_ & ->). unfold pass_tail. cbn [with_tc g_abs g_eid negb andb]. destruct (append_exec m3 e false []) as [[|] m4]; auto.
  - unfold r, next_ok. destruct (inner m2 (with_tc None nothing_ends 0 false p) (queue m2) 0 false) as [m3 s i ch|m3 ch|m3 ex|m3]; auto.
    + destruct IN as (R3 & -> & O3). split; auto. split; eauto. intros tc S O. apply O3; auto. exact (over_later _ _ _ R S L2 O).
    + destruct IN as (A3 & _). destruct (alike_level _ _ R2 A3) as [R3 L3 B3]. destruct (append_exec m3 e false []) as [[x|] m4] eqn:E; auto.
      destruct (later_append _ _ _ _ R3 E) as [R4 L4]. split; auto. split; auto. intros tc S O. apply (over_later m3); auto. apply (over_later m2); auto. exact (over_later _ _ _ R S L2 O).
Qed.
Lemma resume_step : forall f m p, ready m -> (exists i, p = PLevel i true) \/ p = PIdle -> exists r v ow, view_in_run ns v /\
  goes_on m r (fun a tc b skip => resume (S f) m (with_tc a tc b skip p)) v ow /\ next_ok v ow r.
Proof.
  intros f m p R [(i & ->)| ->].
  - destruct (later_incr CSE m R) as (m1 & E1 & R1 & L1); [unfold ts_lt; simpl; lia|].
    set (q := skipn (S i) (queue m1)).
    assert (RES : forall a tc b skip, resume (S f) m (with_tc a tc b skip (PLevel i true)) =
      match inner m1 (with_tc a tc b skip (PLevel i true)) q (S i) true with
      | IYield m3 s i ch => (m3, with_tc a tc b skip (PLevel i ch), OYield s)
      | IErr m3 ex => (m3, with_tc a tc b skip PDone, ORaise ex)
      | IFuel m3 => (m3, with_tc a tc b skip (PLevel i true), OFuel)
      | IEnd m3 ch => match pass_tail m3 (with_tc a tc b skip (PLevel i true)) ch with
                      | TYield m4 => (m4, with_tc a tc b skip PIdle, OYield [])
                      | TErr m4 ex => (m4, with_tc a tc b skip PDone, ORaise ex)
                      | TNext m4 => outer (S f) m4 (with_tc a tc b skip (PLevel i true))
                      end
      end).
    { intros a tc b skip. unfold resume. cbn [g_pc g_eid with_tc]. rewrite E1. reflexivity. }
    assert (TAIL : forall m3 m5 a tc b skip, incr_clock PASS m3 e = Ok m5 -> pass_tail m3 (with_tc a tc b skip (PLevel i true)) true = TNext m5).
    { intros m3 m5 a tc b skip E. unfold pass_tail. cbn [with_tc g_abs g_eid negb andb]. rewrite E. auto. }
    (* a termination condition that holds before the next set *)
    assert (ENDS : forall a tc b skip, stay_true ns tc -> over m1 tc -> exists m' l, resume (S f) m (with_tc a tc b skip (PLevel i true)) = (m', with_tc a tc b skip PDone, OReturn l)).
    { intros a tc b skip S O. destruct (later_incr PASS m1 R1) as (m4 & E4 & R4 & L4); [unfold ts_lt; simpl; lia|].
      rewrite RES, (inner_over m1 a tc b skip _ _ _ _ R1 S O), (TAIL _ _ a tc b skip E4).
      cbn [outer]. cbn [with_tc g_eid g_tc]. rewrite (term_over m4 tc R4 S (over_later _ _ _ R1 S L4 O)). apply finish_returns; auto. }
    pose proof (inner_never q m1 0 false (PLevel i true) (S i) true R1) as IN.
    destruct (inner m1 (with_tc None nothing_ends 0 false (PLevel i true)) q (S i) true) as [m3 s j ch|m3 ch|m3 ex|m3] eqn:EI.
    2: { destruct IN as (A3 & ->). destruct (alike_level _ _ R1 A3) as [R3 L3 B3]. destruct (later_incr PASS m3 R3) as (m4 & E4 & R4 & L4); [unfold ts_lt; simpl; lia|].
         destruct (outer_step f m4 (PLevel i true) R4) as (r & G & N). exists r, (view_of m4 e), (m_owners m4). split; [apply ready_view; auto|]. split; auto.
         intros a tc b skip S. destruct (G a tc b skip S) as (_ & G1 & G2). split; [|split].
         - intros O. apply (over_later m3); auto. apply (over_later m1); auto. exact (over_later _ _ _ R S L1 O).
         - intros O. destruct (decided _ _ (view_of m1 e) e (m_owners m1) S (ready_view _ R1)) as [O1|G1']; [apply ENDS; auto|].
           rewrite RES, (inner_going q m1 a tc b skip (PLevel i true) 0 false (PLevel i true) (Datatypes.S i) true R1 S G1'), EI, (TAIL _ _ a tc b skip E4). apply G1; auto.
         - intros G'. assert (G1' : runs_on m1 tc) by (apply (going_before m1 m3); auto; apply (going_before m3 m4); auto).
           rewrite RES, (inner_going q m1 a tc b skip (PLevel i true) 0 false (PLevel i true) (Datatypes.S i) true R1 S G1'), EI, (TAIL _ _ a tc b skip E4). apply G2; auto. }
    all: exists (match inner m1 (with_tc None nothing_ends 0 false (PLevel i true)) q (S i) true with
      | IYield m3 s i ch => (m3, PLevel i ch, OYield s) | IErr m3 ex => (m3, PDone, ORaise ex) | IFuel m3 => (m3, PLevel i true, OFuel) | IEnd m3 ch => (m3, PDone, OStop) end), (view_of m1 e), (m_owners m1); rewrite EI; (split; [apply ready_view; auto|]).
    all: (split; [intros a tc b skip S; split; [intros O; exact (over_later _ _ _ R S L1 O)|split; [apply ENDS; auto|]];
      intros G; rewrite RES, (inner_going q m1 a tc b skip (PLevel i true) 0 false (PLevel i true) (Datatypes.S i) true R1 S G), EI; reflexivity|]); simpl; auto.
    destruct IN as (R3 & -> & O3). split; auto. split; eauto.
  - destruct (later_incr CSE m R) as (m1 & E1 & R1 & L1); [unfold ts_lt; simpl; lia|].
    destruct (later_incr PASS m1 R1) as (m2 & E2 & R2 & L2); [unfold ts_lt; simpl; lia|].
    destruct (outer_step f m2 PIdle R2) as (r & G & N). exists r, (view_of m2 e), (m_owners m2). split; [apply ready_view; auto|]. split; auto.
    intros a tc b skip S. destruct (G a tc b skip S) as (_ & G1 & G2). split; [intros O; apply (over_later m1); auto; exact (over_later _ _ _ R S L1 O)|].
    assert (RES : resume (Datatypes.S f) m (with_tc a tc b skip PIdle) = outer (Datatypes.S f) m2 (with_tc a tc b skip PIdle)).
    { unfold resume. cbn [g_pc g_eid with_tc]. rewrite E1, E2. reflexivity. }
    rewrite RES. auto.
Qed.
End Run.

(** ** Whole runs *)
Lemma drive_acc : forall k fuel m g acc, result_of (drive k fuel m g acc) = (acc ++ fst (result_of (drive k fuel m g [])), snd (result_of (drive k fuel m g []))).
Proof.
  induction k as [|k IH]; intros fuel m g acc; simpl; [rewrite app_nil_r; auto|]. destruct (resume fuel m g) as [[m' g'] [s|l|ex| |]]; simpl; rewrite ?app_nil_r; auto.
  rewrite (IH _ _ _ (acc ++ [s])), (IH _ _ _ [s]). simpl. rewrite <- app_assoc. auto.
Qed.
Definition more (s : list node) (r : result) : result := (s :: fst r, snd r).
Lemma drive_next : forall k fuel m g, result_of (drive (S k) fuel m g []) =
  match resume fuel m g with (m', g', OYield s) => more s (result_of (drive k fuel m' g' [])) | (_, _, o) => ([], o) end.
Proof. intros k fuel m g. simpl. destruct (resume fuel m g) as [[m' g'] [s|l|ex| |]]; auto. rewrite drive_acc. auto. Qed.

(** The course of the runs that begin in the same state, one for all termination conditions:
    [D a tc skip] is the run with conditions tc, [P tc] says that tc already holds. *)
Section Course.
Variables (ns : list node) (e : eid).
Inductive course (ok : option tconds -> tconds -> Prop) : (tconds -> Prop) -> (option tconds -> tconds -> bool -> result) -> Prop :=
| co_stop : forall (P : tconds -> Prop) (D : option tconds -> tconds -> bool -> result) o, (forall a tc skip, ok a tc -> D a tc skip = ([], o)) -> course ok P D
| co_last : forall (P : tconds -> Prop) (D : option tconds -> tconds -> bool -> result) v ow o, view_in_run ns v ->
    (forall a tc skip, ok a tc -> (P tc -> holds v e ow tc) /\ (holds v e ow tc -> exists l, D a tc skip = ([], OReturn l)) /\ (going v e ow tc -> D a tc skip = ([], o))) ->
    course ok P D
| co_next : forall (P : tconds -> Prop) (D : option tconds -> tconds -> bool -> result) v ow s (P' : tconds -> Prop) (D' : option tconds -> tconds -> bool -> result), view_in_run ns v ->
    (forall a tc skip, ok a tc -> (P tc -> holds v e ow tc) /\ (holds v e ow tc -> P' tc) /\
       (holds v e ow tc -> exists l, D a tc skip = ([], OReturn l)) /\ (going v e ow tc -> D a tc skip = more s (D' a tc skip))) ->
    course ok P' D' -> course ok P D.
Variable ok : option tconds -> tconds -> Prop.
Hypothesis ok_stays : forall a tc, ok a tc -> stay_true ns tc.
Lemma same_refl : forall r, same_result r r.
Proof. intros [ys o]. split; auto. destruct o; simpl; auto. Qed.
Lemma same_more : forall s r r', same_result r r' -> same_result (more s r) (more s r').
Proof. intros s r r' [A B]. split; simpl; congruence. Qed.
Lemma shorter_more : forall s r r', shorter r r' -> shorter (more s r) (more s r').
Proof. intros s r r' [[A B]|(x & l & A & B)]; [left|right]; simpl; [split; congruence|]. exists x, l. rewrite A. auto. Qed.
Lemma shorter_end : forall l r, shorter ([], OReturn l) r.
Proof. intros l r. right. exists (fst r), l. auto. Qed.
Lemma course_compare : forall P D a tc skip a' tc' skip', course ok P D -> ok a tc -> ok a' tc' -> shorter (D a tc skip) (D a' tc' skip') \/ shorter (D a' tc' skip') (D a tc skip).
Proof.
  intros P D a tc skip a' tc' skip' C K K'. induction C as [P D o H|P D v ow o V H|P D v ow s P' D' V H C IH].
  - rewrite (H a tc skip K), (H a' tc' skip' K'). left. left. auto.
  - destruct (H a tc skip K) as (_ & H1 & H2), (H a' tc' skip' K') as (_ & H1' & H2').
    destruct (decided _ _ v e ow (ok_stays _ _ K) V) as [X|X]; [destruct (H1 X) as (l & ->); left; apply shorter_end|].
    destruct (decided _ _ v e ow (ok_stays _ _ K') V) as [X'|X']; [destruct (H1' X') as (l & ->); right; apply shorter_end|].
    rewrite (H2 X), (H2' X'). left. left. auto.
  - destruct (H a tc skip K) as (_ & _ & H1 & H2), (H a' tc' skip' K') as (_ & _ & H1' & H2').
    destruct (decided _ _ v e ow (ok_stays _ _ K) V) as [X|X]; [destruct (H1 X) as (l & ->); left; apply shorter_end|].
    destruct (decided _ _ v e ow (ok_stays _ _ K') V) as [X'|X']; [destruct (H1' X') as (l & ->); right; apply shorter_end|].
    rewrite (H2 X), (H2' X'). destruct IH; [left|right]; apply shorter_more; auto.
Qed.
(** conditions that hold together *)
Lemma course_same : forall P D a tc skip a' tc' skip', course ok P D -> ok a tc -> ok a' tc' ->
  (forall v ow, view_in_run ns v -> holds v e ow tc <-> holds v e ow tc') -> same_result (D a tc skip) (D a' tc' skip').
Proof.
  intros P D a tc skip a' tc' skip' C K K' Q. induction C as [P D o H|P D v ow o V H|P D v ow s P' D' V H C IH].
  - rewrite (H a tc skip K), (H a' tc' skip' K'). apply same_refl.
  - destruct (H a tc skip K) as (_ & H1 & H2), (H a' tc' skip' K') as (_ & H1' & H2').
    destruct (decided _ _ v e ow (ok_stays _ _ K) V) as [X|X].
    + destruct (H1 X) as (l & ->). destruct (H1' (proj1 (Q v ow V) X)) as (l' & ->). split; simpl; auto.
    + destruct (decided _ _ v e ow (ok_stays _ _ K') V) as [X'|X']; [destruct (not_both _ _ _ _ (proj2 (Q v ow V) X') X)|].
      rewrite (H2 X), (H2' X'). apply same_refl.
  - destruct (H a tc skip K) as (_ & _ & H1 & H2), (H a' tc' skip' K') as (_ & _ & H1' & H2').
    destruct (decided _ _ v e ow (ok_stays _ _ K) V) as [X|X].
    + destruct (H1 X) as (l & ->). destruct (H1' (proj1 (Q v ow V) X)) as (l' & ->). split; simpl; auto.
    + destruct (decided _ _ v e ow (ok_stays _ _ K') V) as [X'|X']; [destruct (not_both _ _ _ _ (proj2 (Q v ow V) X') X)|].
      rewrite (H2 X), (H2' X'). apply same_more; auto.
Qed.
Section Three.
Variables (a1 a2 a3 : option tconds) (t1 t2 t3 : tconds) (k1 k2 k3 : bool).
Hypothesis (K1 : ok a1 t1) (K2 : ok a2 t2) (K3 : ok a3 t3).
Lemma course_either : (forall v ow, view_in_run ns v -> holds v e ow t3 <-> holds v e ow t1 \/ holds v e ow t2) ->
  forall P D, course ok P D -> (same_result (D a1 t1 k1) (D a3 t3 k3) /\ shorter (D a1 t1 k1) (D a2 t2 k2)) \/ (same_result (D a2 t2 k2) (D a3 t3 k3) /\ shorter (D a2 t2 k2) (D a1 t1 k1)).
Proof.
  intros Q P D C. induction C as [P D o H|P D v ow o V H|P D v ow s P' D' V H C IH].
  - rewrite (H a1 t1 k1 K1), (H a2 t2 k2 K2), (H a3 t3 k3 K3). left. split; [apply same_refl|left; auto].
  - destruct (H a1 t1 k1 K1) as (_ & H1 & G1), (H a2 t2 k2 K2) as (_ & H2 & G2), (H a3 t3 k3 K3) as (_ & H3 & G3).
    destruct (decided _ _ v e ow (ok_stays _ _ K1) V) as [X1|X1].
    { left. destruct (H1 X1) as (l & ->). destruct (H3 (proj2 (Q v ow V) (or_introl X1))) as (l' & ->). split; [split; simpl; auto|apply shorter_end]. }
    destruct (decided _ _ v e ow (ok_stays _ _ K2) V) as [X2|X2].
    { right. destruct (H2 X2) as (l & ->). destruct (H3 (proj2 (Q v ow V) (or_intror X2))) as (l' & ->). split; [split; simpl; auto|apply shorter_end]. }
    destruct (decided _ _ v e ow (ok_stays _ _ K3) V) as [X3|X3].
    { destruct (proj1 (Q v ow V) X3) as [Z|Z]; [destruct (not_both _ _ _ _ Z X1)|destruct (not_both _ _ _ _ Z X2)]. }
    rewrite (G1 X1), (G2 X2), (G3 X3). left. split; [apply same_refl|left; auto].
  - destruct (H a1 t1 k1 K1) as (_ & _ & H1 & G1), (H a2 t2 k2 K2) as (_ & _ & H2 & G2), (H a3 t3 k3 K3) as (_ & _ & H3 & G3).
    destruct (decided _ _ v e ow (ok_stays _ _ K1) V) as [X1|X1].
    { left. destruct (H1 X1) as (l & ->). destruct (H3 (proj2 (Q v ow V) (or_introl X1))) as (l' & ->). split; [split; simpl; auto|apply shorter_end]. }
    destruct (decided _ _ v e ow (ok_stays _ _ K2) V) as [X2|X2].
    { right. destruct (H2 X2) as (l & ->). destruct (H3 (proj2 (Q v ow V) (or_intror X2))) as (l' & ->). split; [split; simpl; auto|apply shorter_end]. }
    destruct (decided _ _ v e ow (ok_stays _ _ K3) V) as [X3|X3].
    { destruct (proj1 (Q v ow V) X3) as [Z|Z]; [destruct (not_both _ _ _ _ Z X1)|destruct (not_both _ _ _ _ Z X2)]. }
    rewrite (G1 X1), (G2 X2), (G3 X3). destruct IH as [[A B]|[A B]]; [left|right]; auto using same_more, shorter_more.
Qed.
End Three.
Lemma course_after : forall a1 a2 a3 t1 t2 t3 (k2 k3 : bool), ok a1 t1 -> ok a2 t2 -> ok a3 t3 ->
  (forall v ow, view_in_run ns v -> holds v e ow t3 <-> holds v e ow t1 /\ holds v e ow t2) ->
  forall P D, course ok P D -> P t1 -> same_result (D a2 t2 k2) (D a3 t3 k3).
Proof.
  intros a1 a2 a3 t1 t2 t3 k2 k3 K1 K2 K3 Q P D C. induction C as [P D o H|P D v ow o V H|P D v ow s P' D' V H C IH]; intros HP.
  - rewrite (H a2 t2 k2 K2), (H a3 t3 k3 K3). apply same_refl.
  - destruct (H a1 t1 true K1) as (F & _), (H a2 t2 k2 K2) as (_ & H2 & G2), (H a3 t3 k3 K3) as (_ & H3 & G3). specialize (F HP).
    destruct (decided _ _ v e ow (ok_stays _ _ K2) V) as [X2|X2].
    { destruct (H2 X2) as (l & ->). destruct (H3 (proj2 (Q v ow V) (conj F X2))) as (l' & ->). split; simpl; auto. }
    destruct (decided _ _ v e ow (ok_stays _ _ K3) V) as [X3|X3]; [destruct (not_both _ _ _ _ (proj2 (proj1 (Q v ow V) X3)) X2)|].
    rewrite (G2 X2), (G3 X3). apply same_refl.
  - destruct (H a1 t1 true K1) as (F & F' & _), (H a2 t2 k2 K2) as (_ & _ & H2 & G2), (H a3 t3 k3 K3) as (_ & _ & H3 & G3). specialize (F HP).
    destruct (decided _ _ v e ow (ok_stays _ _ K2) V) as [X2|X2].
    { destruct (H2 X2) as (l & ->). destruct (H3 (proj2 (Q v ow V) (conj F X2))) as (l' & ->). split; simpl; auto. }
    destruct (decided _ _ v e ow (ok_stays _ _ K3) V) as [X3|X3]; [destruct (not_both _ _ _ _ (proj2 (proj1 (Q v ow V) X3)) X2)|].
    rewrite (G2 X2), (G3 X3). apply same_more; auto.
Qed.
Lemma course_both : forall a1 a2 a3 t1 t2 t3 (k1 k2 k3 : bool), ok a1 t1 -> ok a2 t2 -> ok a3 t3 ->
  (forall v ow, view_in_run ns v -> holds v e ow t3 <-> holds v e ow t1 /\ holds v e ow t2) ->
  forall P D, course ok P D -> (same_result (D a1 t1 k1) (D a3 t3 k3) /\ shorter (D a2 t2 k2) (D a1 t1 k1)) \/ (same_result (D a2 t2 k2) (D a3 t3 k3) /\ shorter (D a1 t1 k1) (D a2 t2 k2)).
Proof.
  intros a1 a2 a3 t1 t2 t3 k1 k2 k3 K1 K2 K3 Q P D C.
  assert (Q' : forall v ow, view_in_run ns v -> holds v e ow t3 <-> holds v e ow t2 /\ holds v e ow t1) by (intros; rewrite Q by auto; tauto).
  induction C as [P D o H|P D v ow o V H|P D v ow s P' D' V H C IH].
  - rewrite (H a1 t1 k1 K1), (H a2 t2 k2 K2), (H a3 t3 k3 K3). left. split; [apply same_refl|left; auto].
  - destruct (H a1 t1 k1 K1) as (_ & H1 & G1), (H a2 t2 k2 K2) as (_ & H2 & G2), (H a3 t3 k3 K3) as (_ & H3 & G3).
    destruct (decided _ _ v e ow (ok_stays _ _ K1) V) as [X1|X1], (decided _ _ v e ow (ok_stays _ _ K2) V) as [X2|X2].
    + destruct (H1 X1) as (l1 & ->), (H2 X2) as (l2 & ->), (H3 (proj2 (Q v ow V) (conj X1 X2))) as (l3 & ->). left. split; [split; simpl; auto|apply shorter_end].
    + destruct (H1 X1) as (l1 & ->). right. split; [|apply shorter_end].
      destruct (decided _ _ v e ow (ok_stays _ _ K3) V) as [X3|X3]; [destruct (not_both _ _ _ _ (proj2 (proj1 (Q v ow V) X3)) X2)|]. rewrite (G2 X2), (G3 X3). apply same_refl.
    + destruct (H2 X2) as (l1 & ->). left. split; [|apply shorter_end].
      destruct (decided _ _ v e ow (ok_stays _ _ K3) V) as [X3|X3]; [destruct (not_both _ _ _ _ (proj1 (proj1 (Q v ow V) X3)) X1)|]. rewrite (G1 X1), (G3 X3). apply same_refl.
    + destruct (decided _ _ v e ow (ok_stays _ _ K3) V) as [X3|X3]; [destruct (not_both _ _ _ _ (proj1 (proj1 (Q v ow V) X3)) X1)|].
      rewrite (G1 X1), (G2 X2), (G3 X3). left. split; [apply same_refl|left; auto].
  - destruct (H a1 t1 k1 K1) as (_ & N1 & H1 & G1), (H a2 t2 k2 K2) as (_ & N2 & H2 & G2), (H a3 t3 k3 K3) as (_ & _ & H3 & G3).
    destruct (decided _ _ v e ow (ok_stays _ _ K1) V) as [X1|X1], (decided _ _ v e ow (ok_stays _ _ K2) V) as [X2|X2].
    + destruct (H1 X1) as (l1 & ->), (H2 X2) as (l2 & ->), (H3 (proj2 (Q v ow V) (conj X1 X2))) as (l3 & ->). left. split; [split; simpl; auto|apply shorter_end].
    + destruct (H1 X1) as (l1 & ->). right. split; [|apply shorter_end].
      destruct (decided _ _ v e ow (ok_stays _ _ K3) V) as [X3|X3]; [destruct (not_both _ _ _ _ (proj2 (proj1 (Q v ow V) X3)) X2)|]. rewrite (G2 X2), (G3 X3).
      apply same_more. eapply course_after; [exact K1|..]; eauto.
    + destruct (H2 X2) as (l1 & ->). left. split; [|apply shorter_end].
      destruct (decided _ _ v e ow (ok_stays _ _ K3) V) as [X3|X3]; [destruct (not_both _ _ _ _ (proj1 (proj1 (Q v ow V) X3)) X1)|]. rewrite (G1 X1), (G3 X3).
      apply same_more. eapply course_after; [exact K2|..]; eauto.
    + destruct (decided _ _ v e ow (ok_stays _ _ K3) V) as [X3|X3]; [destruct (not_both _ _ _ _ (proj1 (proj1 (Q v ow V) X3)) X1)|].
      rewrite (G1 X1), (G2 X2), (G3 X3). destruct IH as [[A B]|[A B]]; [left|right]; auto using same_more, shorter_more.
Qed.
End Course.

(** ** The course of the runs of a scheduler *)
Section Runs.
Variables (ns : list node) (e b : eid).
Notation fits := (fun (_ : option tconds) tc => stay_true ns tc).
Lemma drive_stops : forall k f m g m' g' o, resume f m g = (m', g', o) -> (forall s, o <> OYield s) -> result_of (drive (S k) f m g []) = ([], o).
Proof. intros k f m g m' g' o E N. rewrite drive_next, E. destruct o; auto. destruct (N s); auto. Qed.
Notation over m tc := (holds (view_of m e) e (m_owners m) tc).
Lemma course_step : forall (ok : option tconds -> tconds -> Prop), (forall a tc, ok a tc -> stay_true ns tc) -> forall k f m (G : option tconds -> tconds -> bool -> gen) v ow m' p' o, view_in_run ns v ->
  (forall a tc skip, ok a tc -> (over m tc -> holds v e ow tc) /\
    (holds v e ow tc -> exists m' g' l, resume f m (G a tc skip) = (m', g', OReturn l)) /\
    (going v e ow tc -> resume f m (G a tc skip) = (m', with_tc e a tc b skip p', o))) ->
  next_ok ns e v ow (m', p', o) ->
  (forall s, o = OYield s -> course ns e ok (fun tc => over m' tc) (fun a tc skip => result_of (drive k f m' (with_tc e a tc b skip p') []))) ->
  course ns e ok (fun tc => over m tc) (fun a tc skip => result_of (drive (S k) f m (G a tc skip) [])).
Proof.
  intros ok OK k f m G v ow m' p' o V H N C. assert (Y : (exists s, o = OYield s) \/ (forall s, o <> OYield s)) by (destruct o; eauto; right; discriminate).
  destruct Y as [(s & ->)|Y].
  - apply (co_next _ _ _ _ _ v ow s _ _ V) with (2 := C s eq_refl). intros a tc skip S. destruct (H a tc skip S) as (A & B & D). split; auto. split; [apply N; eauto|]. split.
    + intros X. destruct (B X) as (m2 & g2 & l & E). exists l. rewrite drive_next, E. auto.
    + intros X. rewrite drive_next, (D X). auto.
  - apply (co_last _ _ _ _ _ v ow o V). intros a tc skip S. destruct (H a tc skip S) as (A & B & D). split; auto. split.
    + intros X. destruct (B X) as (m2 & g2 & l & E). exists l. rewrite drive_next, E. auto.
    + intros X. eapply drive_stops; [apply (D X)|auto].
Qed.
Lemma course_from : forall f k m p, ready ns e m -> (exists i, p = PLevel i true) \/ p = PIdle ->
  course ns e fits (fun tc => over m tc) (fun a tc skip => result_of (drive k (S f) m (with_tc e a tc b skip p) [])).
Proof.
  intros f. induction k as [|k IH]; intros m p R HP; [apply (co_stop _ _ _ _ _ OFuel); auto|].
  destruct (resume_step ns e f m p R HP) as ([[m' p'] o] & v & ow & V & G & N).
  apply (course_step _ (fun a tc S => S) k (S f) m (fun a tc skip => with_tc e a tc b skip p) v ow m' p' o V); auto.
  - intros a tc skip S. destruct (G a tc b skip S) as (A & B & D). split; auto. split; auto. intros X. destruct (B X) as (m2 & l & E). eauto.
  - intros s ->. destruct N as (R' & P' & _). apply IH; auto.
Qed.
End Runs.

Lemma default_relative : forall ns m m1, add_defaults ns m = Ok m1 -> (forall n c, In (n, c) (m_basic m) -> is_absolute c = false) ->
  forall n c, In (n, c) (m_basic m1) -> is_absolute c = false.
Proof.
  induction ns as [|n0 ns IH]; intros m m1 E B; simpl in E; [inversion E; subst; auto|]. destruct (ahas n0 (m_basic m)); [eauto|].
  destruct (aget n0 (m_graph m)) as [deps|]; [|discriminate]. pose proof (AgainFacts.default_of_the_run (m_next m) deps) as D. destruct (default_cond (m_next m) deps) as [c0 nx]. simpl in D.
  apply (IH _ _ E). intros n c I. simpl in I. apply AgainFacts.In_aset in I. destruct I as [X|X]; [inversion X; subst; apply SpecAgain.or_relative; auto|]. eapply B; eauto.
Qed.
Lemma none_absolute : forall m tc, (forall n c, In (n, c) (m_basic m) -> is_absolute c = false) -> (forall s c, tc s = Some c -> is_absolute c = false) -> absolute_conditions m tc = [].
Proof.
  intros m tc B T. unfold absolute_conditions. rewrite filter_app. assert (X : forall l, (forall c, In c l -> is_absolute c = false) -> filter is_absolute l = []).
  { induction l as [|c l IH]; intros H; simpl; auto. rewrite (H c (or_introl eq_refl)). apply IH. intros; apply H; right; auto. }
  rewrite !X; auto.
  - intros c I. unfold tc_list in I. apply in_flat_map in I. destruct I as (s & _ & I). destruct (tc s) as [c'|] eqn:E; simpl in I; [|contradiction].
    destruct I as [<-|[]]. eapply T; eauto.
  - intros c I. apply in_map_iff in I. destruct I as ([n c'] & <- & I). eapply B; eauto.
Qed.
Lemma start_rest_any : forall m1 e b, can_run m1 e -> exists (q : option exn) m6,
  (forall a skip, (forall s c, in_force m1 a s = Some c -> is_absolute c = false) ->
    start_rest m1 (new_gen e b a skip) = (match q with None => Ok (with_tc e a (in_force m1 a) b skip PStart) | Some ex => Err ex end, m6)) /\
  (q = None -> ready (m_nodes m1) e m6).
Proof.
  intros m1 e b [(h & C) B].
  set (k := the_clock (m_ctxs m1 e)) in *. set (k2 := mkClock (k_tree k) (k_md k) (mkTime (t_val (k_time k)) (t_abs (k_time k)) (t_interval (k_time k)) false) (k_prev k)).
  assert (C2 : clock_after ESU h k2) by (apply ca_abs; auto).
  set (m3 := set_clock (set_clock m1 e k) e k2).
  exists (match init_counts_base m3 e b with (Err ex, _) => Some ex | (Ok _, _) => None end).
  exists (match init_counts_base m3 e b with (Err ex, m4) => m4 | (Ok _, m4) => reset_counts_total ESU (reset_counts_useable m4 e) e end). split.
  - intros a skip T. unfold start_rest. cbv zeta. cbn [new_gen g_eid g_tcarg g_base g_skip]. change (match a with None => m_tconds m1 | Some a0 => combine_tconds (m_tconds m1) a0 end) with (in_force m1 a). unfold setup_absolute.
    assert (NA : absolute_conditions (set_clock m1 e k) (in_force m1 a) = []) by (apply none_absolute; auto). unfold k in NA. rewrite NA. rewrite AgainFacts.the_clock_set. fold k. fold k2. fold m3.
    destruct (init_counts_base m3 e b) as [[u|ex] m4]; auto.
  - intros Q. assert (E3 : m_ctxs m3 e = mkCtx (x_total (m_ctxs m1 e)) (x_use (m_ctxs m1 e)) (x_list (m_ctxs m1 e)) (x_stamps (m_ctxs m1 e)) (Some k2)).
    { unfold m3, set_clock, set_ctx, upd; simpl. rewrite !Nat.eqb_refl. auto. }
    assert (N3 : m_nodes m3 = m_nodes m1) by auto. clearbody m3. revert Q. unfold init_counts_base. rewrite E3. cbn [x_total x_use x_list x_stamps x_clock].
    destruct (copy_entry (x_total (m_ctxs m1 e)) _) as [t|] eqn:Et; [|discriminate]. destruct (copy_entry (x_use (m_ctxs m1 e)) _) as [u|] eqn:Eu; [|discriminate].
    destruct (copy_entry (x_list (m_ctxs m1 e)) _) as [l|] eqn:El; [|discriminate]. cbn [copy_entry]. intros _.
    assert (F : forall A (x y : option A) z, copy_entry x y = Ok z -> z <> None) by (intros A [x|] [y|] z Z; simpl in Z; congruence).
    apply F in Et. apply F in El. unfold reset_counts_total, reset_counts_useable, set_ctx, upd; simpl. rewrite !Nat.eqb_refl. simpl.
    constructor; simpl; rewrite ?Nat.eqb_refl; simpl; auto.
    + destruct t; simpl; congruence.
    + exists h. exact C2.
Qed.
Lemma course_weaken : forall ns e (ok ok' : option tconds -> tconds -> Prop), (forall a tc, ok' a tc -> ok a tc) -> forall P D, course ns e ok P D -> course ns e ok' P D.
Proof.
  intros ns e ok ok' I P D C. induction C; [eapply co_stop|eapply co_last|eapply co_next]; eauto.
Qed.
Definition fit (m : core) (a : option tconds) (tc : tconds) : Prop := tc = in_force m a /\ stay_true (m_nodes m) tc.
Lemma course_run : forall steps fuel m e b, can_run m e ->
  exists P, course (m_nodes m) e (fit m) P (fun a tc skip => result_of (drive steps fuel m (new_gen e b a skip) [])).
Proof.
  intros [|k] fuel m e b CR; [exists (fun _ => True); apply (co_stop _ _ _ _ _ OFuel); auto|].
  assert (STOP : forall o, (forall s, o <> OYield s) -> (forall a skip, stay_true (m_nodes m) (in_force m a) -> exists m' g', resume fuel m (new_gen e b a skip) = (m', g', o)) ->
    exists P, course (m_nodes m) e (fit m) P (fun a tc skip => result_of (drive (S k) fuel m (new_gen e b a skip) []))).
  { intros o N H. exists (fun _ => True). apply (co_stop _ _ _ _ _ o). intros a tc skip (-> & S). destruct (H a skip S) as (m' & g' & E). eapply drive_stops; eauto. }
  assert (RES : forall a skip, resume fuel m (new_gen e b a skip) = match start m (new_gen e b a skip) with (Err ex, m1) => (m1, at_pc (new_gen e b a skip) PDone, ORaise ex) | (Ok g1, m1) => outer fuel m1 g1 end) by reflexivity.
  destruct (toposort (m_graph m)) as [lv| |] eqn:TP; [|apply (STOP (ORaise EScheduler)); [discriminate|]; intros a skip S; rewrite RES, start_eq, TP; eauto|apply (STOP (ORaise EScheduler)); [discriminate|]; intros a skip S; rewrite RES, start_eq, TP; eauto].
  destruct (add_defaults (m_nodes m) m) as [m1|ex] eqn:AD; [|apply (STOP (ORaise ex)); [discriminate|]; intros a skip S; rewrite RES, start_eq, TP, AD; eauto].
  destruct (add_defaults_rest _ _ _ AD) as (N1 & _ & T1 & X1 & _).
  assert (CR1 : can_run m1 e) by (destruct CR as [A B]; constructor; [rewrite X1; auto|eapply default_relative; eauto]).
  assert (IF : forall a, in_force m1 a = in_force m a) by (intros a; unfold in_force; rewrite T1; auto).
  destruct (start_rest_any m1 e b CR1) as (q & m6 & H & R).
  assert (H' : forall a skip, stay_true (m_nodes m) (in_force m a) -> start m (new_gen e b a skip) = (match q with None => Ok (with_tc e a (in_force m a) b skip PStart) | Some ex => Err ex end, m6)).
  { intros a skip (_ & _ & S). rewrite start_eq, TP, AD, H, IF; auto. intros s c Q. rewrite IF in Q. apply (st_relative _ _ (S _ _ Q)). }
  clear H. destruct q as [ex|]; [apply (STOP (ORaise ex)); [discriminate|]; intros a skip S; rewrite RES, H' by auto; eauto|]. specialize (R eq_refl). rewrite N1 in R.
  destruct fuel as [|f]; [apply (STOP OFuel); [discriminate|]; intros a skip S; rewrite RES, H' by auto; simpl; eauto|].
  destruct (outer_step _ _ f m6 PStart R) as ([[m' p'] o] & G & N).
  assert (C : course (m_nodes m) e (fit m) (fun tc => False) (fun a tc skip => result_of (drive (S k) (S f) m (new_gen e b a skip) []))).
  { assert (Y : (exists s, o = OYield s) \/ (forall s, o <> OYield s)) by (destruct o; eauto; right; discriminate). pose proof (ready_view _ _ _ R) as V.
    assert (G' : forall a tc skip, fit m a tc -> (holds (view_of m6 e) e (m_owners m6) tc -> exists m' g' l, resume (S f) m (new_gen e b a skip) = (m', g', OReturn l)) /\
      (going (view_of m6 e) e (m_owners m6) tc -> resume (S f) m (new_gen e b a skip) = (m', with_tc e a tc b skip p', o))).
    { intros a tc skip (-> & S). destruct (G a (in_force m a) b skip S) as (_ & B & D). rewrite RES, H' by auto. split; auto. intros X. destruct (B X) as (m2 & l & E). eauto. }
    destruct Y as [(s & ->)|Y].
    - destruct N as (R' & P' & N).
      assert (C := course_weaken _ _ _ (fit m) (fun a tc K => proj2 K) _ _ (course_from (m_nodes m) e b f k m' p' R' P')).
      apply (co_next _ _ _ _ _ (view_of m6 e) (m_owners m6) s _ _ V) with (2 := C). intros a tc skip F. destruct (G' a tc skip F) as (B & D). split; [tauto|]. split; [apply N, F|]. split.
      + intros X. destruct (B X) as (m2 & g2 & l & E). exists l. rewrite drive_next, E. auto.
      + intros X. rewrite drive_next, (D X). auto.
    - apply (co_last _ _ _ _ _ (view_of m6 e) (m_owners m6) o V). intros a tc skip F. destruct (G' a tc skip F) as (B & D). split; [tauto|]. split.
      + intros X. destruct (B X) as (m2 & g2 & l & E). exists l. rewrite drive_next, E. auto.
      + intros X. eapply drive_stops; [apply (D X)|auto]. }
  eauto.
Qed.

(** ** The claims, for the core and for the scheduler *)
Section Claims.
Variables (m : core) (e : eid).
Hypothesis CR : can_run m e.
Notation run steps fuel b a skip := (result_of (drive steps fuel m (new_gen e b a skip) [])).
Let fits : forall a tc, fit m a tc -> stay_true (m_nodes m) tc := fun a tc K => proj2 K.
Lemma runs_compare : forall steps fuel b a a' skip skip', stay_true (m_nodes m) (in_force m a) -> stay_true (m_nodes m) (in_force m a') ->
  shorter (run steps fuel b a skip) (run steps fuel b a' skip') \/ shorter (run steps fuel b a' skip') (run steps fuel b a skip).
Proof.
  intros steps fuel b a a' skip skip' S S'. destruct (course_run steps fuel m e b CR) as (P & C).
  exact (course_compare _ _ _ fits _ _ a _ skip a' _ skip' C (conj eq_refl S) (conj eq_refl S')).
Qed.
Lemma runs_same : forall steps fuel b a a' skip skip', stay_true (m_nodes m) (in_force m a) -> stay_true (m_nodes m) (in_force m a') ->
  (forall v ow, view_in_run (m_nodes m) v -> holds v e ow (in_force m a) <-> holds v e ow (in_force m a')) ->
  same_result (run steps fuel b a skip) (run steps fuel b a' skip').
Proof.
  intros steps fuel b a a' skip skip' S S' Q. destruct (course_run steps fuel m e b CR) as (P & C).
  exact (course_same _ _ _ fits _ _ a _ skip a' _ skip' C (conj eq_refl S) (conj eq_refl S') Q).
Qed.
Lemma runs_either : forall steps fuel b a1 a2 a3 k1 k2 k3, stay_true (m_nodes m) (in_force m a1) -> stay_true (m_nodes m) (in_force m a2) -> stay_true (m_nodes m) (in_force m a3) ->
  (forall v ow, view_in_run (m_nodes m) v -> holds v e ow (in_force m a3) <-> holds v e ow (in_force m a1) \/ holds v e ow (in_force m a2)) ->
  (same_result (run steps fuel b a1 k1) (run steps fuel b a3 k3) /\ shorter (run steps fuel b a1 k1) (run steps fuel b a2 k2)) \/
  (same_result (run steps fuel b a2 k2) (run steps fuel b a3 k3) /\ shorter (run steps fuel b a2 k2) (run steps fuel b a1 k1)).
Proof.
  intros steps fuel b a1 a2 a3 k1 k2 k3 S1 S2 S3 Q. destruct (course_run steps fuel m e b CR) as (P & C).
  exact (course_either _ _ _ fits a1 a2 a3 _ _ _ k1 k2 k3 (conj eq_refl S1) (conj eq_refl S2) (conj eq_refl S3) Q _ _ C).
Qed.
Lemma runs_both : forall steps fuel b a1 a2 a3 k1 k2 k3, stay_true (m_nodes m) (in_force m a1) -> stay_true (m_nodes m) (in_force m a2) -> stay_true (m_nodes m) (in_force m a3) ->
  (forall v ow, view_in_run (m_nodes m) v -> holds v e ow (in_force m a3) <-> holds v e ow (in_force m a1) /\ holds v e ow (in_force m a2)) ->
  (same_result (run steps fuel b a1 k1) (run steps fuel b a3 k3) /\ shorter (run steps fuel b a2 k2) (run steps fuel b a1 k1)) \/
  (same_result (run steps fuel b a2 k2) (run steps fuel b a3 k3) /\ shorter (run steps fuel b a1 k1) (run steps fuel b a2 k2)).
Proof.
  intros steps fuel b a1 a2 a3 k1 k2 k3 S1 S2 S3 Q. destruct (course_run steps fuel m e b CR) as (P & C).
  exact (course_both _ _ _ fits a1 a2 a3 _ _ _ k1 k2 k3 (conj eq_refl S1) (conj eq_refl S2) (conj eq_refl S3) Q _ _ C).
Qed.
End Claims.

Lemma stays_any : forall ns o c1 c2, stays_true ns c1 -> stays_true ns c2 -> stays_true ns (CAny o [c1; c2]).
Proof.
  intros ns o c1 c2 S1 S2. constructor.
  - intros v e ow st V. simpl. destruct (st_answers _ _ S1 v e ow st V) as ([|] & ->); [eauto|]. destruct (st_answers _ _ S2 v e ow st V) as ([|] & ->); eauto.
  - intros v v' e ow st st' V L. simpl. destruct (st_answers _ _ S1 v e ow st V) as ([|] & A); rewrite A.
    + intros _. rewrite (st_stays _ _ S1 _ _ _ _ st st' V L A). auto.
    + destruct (st_answers _ _ S2 v e ow st V) as ([|] & B); rewrite B; [|discriminate]. intros _.
      destruct (st_answers _ _ S1 v' e ow st' (later_in _ _ _ V L)) as ([|] & ->); auto. rewrite (st_stays _ _ S2 _ _ _ _ st st' V L B). auto.
  - simpl. rewrite (st_relative _ _ S1), (st_relative _ _ S2). auto.
Qed.
Lemma stays_all : forall ns o c1 c2, stays_true ns c1 -> stays_true ns c2 -> stays_true ns (CAll o [c1; c2]).
Proof.
  intros ns o c1 c2 S1 S2. constructor.
  - intros v e ow st V. simpl. destruct (st_answers _ _ S1 v e ow st V) as ([|] & ->); [|eauto]. destruct (st_answers _ _ S2 v e ow st V) as ([|] & ->); eauto.
  - intros v v' e ow st st' V L. simpl. destruct (st_answers _ _ S1 v e ow st V) as ([|] & A); rewrite A; [|discriminate].
    destruct (st_answers _ _ S2 v e ow st V) as ([|] & B); rewrite B; [|discriminate]. intros _.
    rewrite (st_stays _ _ S1 _ _ _ _ st st' V L A), (st_stays _ _ S2 _ _ _ _ st st' V L B). auto.
  - simpl. rewrite (st_relative _ _ S1), (st_relative _ _ S2). auto.
Qed.
Definition is_true v e ow (c : cond) : Prop := forall st, eval v e ow c st = (Ok true, st).
Lemma any_true : forall ns v e ow o c1 c2, stays_true ns c1 -> stays_true ns c2 -> view_in_run ns v -> is_true v e ow (CAny o [c1; c2]) <-> is_true v e ow c1 \/ is_true v e ow c2.
Proof.
  intros ns v e ow o c1 c2 S1 S2 V. unfold is_true. simpl. split.
  - intros H. destruct (cond_decided _ _ v e ow S1 V) as [A|A]; auto. right. intros st. specialize (H st). rewrite A in H. destruct (eval v e ow c2 st) as [[[|]|] st'] eqn:E; congruence.
  - intros [A|A] st; [rewrite A; auto|]. destruct (cond_decided _ _ v e ow S1 V) as [B|B]; rewrite B; auto. rewrite A. auto.
Qed.
Lemma all_true : forall ns v e ow o c1 c2, stays_true ns c1 -> stays_true ns c2 -> view_in_run ns v -> is_true v e ow (CAll o [c1; c2]) <-> is_true v e ow c1 /\ is_true v e ow c2.
Proof.
  intros ns v e ow o c1 c2 S1 S2 V. unfold is_true. simpl. split.
  - intros H. destruct (cond_decided _ _ v e ow S1 V) as [A|A]; [|set (st0 := mkCstate (fun _ _ => 0) (mkWorld (fun _ _ => None) (fun _ _ => None) (fun _ => 0))); specialize (H st0); rewrite A in H; discriminate].
    split; auto. intros st. specialize (H st). rewrite A in H. destruct (eval v e ow c2 st) as [[[|]|] st'] eqn:E; congruence.
  - intros [A B] st. rewrite A, B. auto.
Qed.
Lemma holds_two : forall v e ow tc c1 c2, tc ESU = Some c1 -> tc ES = Some c2 -> holds v e ow tc <-> is_true v e ow c1 \/ is_true v e ow c2.
Proof.
  intros v e ow tc c1 c2 E1 E2. split.
  - intros (s & c & [->| ->] & E & H); [rewrite E1 in E|rewrite E2 in E]; injection E as <-; auto.
  - intros [H|H]; [exists ESU, c1|exists ES, c2]; auto.
Qed.
(** ** Schedulers *)
Lemma runs_of_sched : forall cyc arr d e, can_run (core_of d) e ->
  (forall steps fuel b, exists r, forall a skip, result_of (sdrive cyc arr steps fuel d (new_gen e b a skip) []) = r) \/
  (exists ds, m_nodes (core_of ds) = d_nodes d /\ can_run (core_of ds) e /\ (forall a, in_force (core_of ds) a = in_force (core_of d) a) /\ forall steps fuel b a skip, result_of (sdrive cyc arr steps fuel d (new_gen e b a skip) []) = result_of (drive steps fuel (core_of ds) (new_gen e b a skip) [])).
Proof.
  intros cyc arr d e CR. destruct (sync cyc arr d) as [[u|ex] ds] eqn:SY.
  - right. destruct u. exists ds. pose proof (RegisteredFacts.sync_still _ _ _ _ _ SY) as (SL & T1 & T2 & T3). assert (L : AgainFacts.in_sync ds) by (eapply AgainFacts.sync_last; eauto).
    split; [apply (RegisteredFacts.sl_nodes _ _ SL)|]. split; [|split].
    + destruct CR as [A B]. destruct SL. cbn [core_of m_basic m_ctxs] in *. constructor; cbn [core_of m_basic m_ctxs]; rewrite ?T2, ?sl_ctxs; auto.
    + intros a. unfold in_force. cbn [core_of m_tconds]. rewrite T1. auto.
    + intros [|k] fuel b a skip; [reflexivity|].
      assert (Q : sdrive cyc arr (S k) fuel d (new_gen e b a skip) [] = sdrive cyc arr (S k) fuel ds (new_gen e b a skip) []).
      { cbn [sdrive]. unfold sresume. rewrite SY, (AgainFacts.in_sync_sync _ _ _ L). auto. }
      rewrite Q. pose proof (AgainFacts.drive_in_sync cyc arr fuel (S k) ds (new_gen e b a skip) [] L) as B.
      destruct (drive (S k) fuel (core_of ds) (new_gen e b a skip) []) as [[[m1 g2] ys2] o2]. destruct B as (d' & -> & _). auto.
  - left. intros [|k] fuel b; [exists ([], OFuel); reflexivity|]. exists ([], ORaise ex). intros a skip. cbn [sdrive]. unfold sresume. rewrite SY. cbn [sresume_failed new_gen g_pc]. reflexivity.
Qed.

Section OfSched.
Variables (cyc : graph -> list (list node)) (arr : list (list node) -> list (list node)) (d : sched) (e : eid).
Hypothesis CR : can_run (core_of d) e.
Notation run steps fuel b a skip := (result_of (sdrive cyc arr steps fuel d (new_gen e b a skip) [])).
Lemma same_refl' : forall r r0 r1, r0 = r -> r1 = r -> same_result r0 r1.
Proof. intros r r0 r1 -> ->. apply same_refl. Qed.
Lemma shorter_refl' : forall r r0 r1, r0 = r -> r1 = r -> shorter r0 r1.
Proof. intros r r0 r1 -> ->. left; auto. Qed.
Theorem sched_compare : forall steps fuel b a a' skip skip', ends_for_good d a -> ends_for_good d a' ->
  shorter (run steps fuel b a skip) (run steps fuel b a' skip') \/ shorter (run steps fuel b a' skip') (run steps fuel b a skip).
Proof.
  intros steps fuel b a a' skip skip' S S'. destruct (runs_of_sched cyc arr d e CR) as [X|(ds & ND & CS & IF & X)].
  - destruct (X steps fuel b) as (r & Y). left. eapply shorter_refl'; eauto.
  - rewrite !X. apply runs_compare; auto; rewrite ND, IF; auto.
Qed.
Theorem sched_same : forall steps fuel b a a' skip skip', ends_for_good d a -> ends_for_good d a' ->
  (forall v ow, view_in_run (d_nodes d) v -> holds v e ow (in_force (core_of d) a) <-> holds v e ow (in_force (core_of d) a')) ->
  same_result (run steps fuel b a skip) (run steps fuel b a' skip').
Proof.
  intros steps fuel b a a' skip skip' S S' Q. destruct (runs_of_sched cyc arr d e CR) as [X|(ds & ND & CS & IF & X)].
  - destruct (X steps fuel b) as (r & Y). eapply same_refl'; eauto.
  - rewrite !X. apply runs_same; auto; rewrite ?ND, ?IF; auto.
Qed.
Lemma update_force : forall m c s, in_force m (at_update c) s = match s with ESU => Some c | _ => m_tconds m s end.
Proof. intros m c []; reflexivity. Qed.
Lemma update_good : forall c, ends_for_good d None -> stays_true (d_nodes d) c -> ends_for_good d (at_update c).
Proof.
  intros c (A & B & C) G. split; [discriminate|]. split; [exact B|].
  intros s c' E. rewrite update_force in E. destruct s; try (injection E as <-; auto); eapply (C _ _ E).
Qed.
Theorem sched_any : forall steps fuel b o c1 c2 skip, ends_for_good d None -> stays_true (d_nodes d) c1 -> stays_true (d_nodes d) c2 ->
  let r c := run steps fuel b (at_update c) skip in
  (same_result (r c1) (r (Any o [c1; c2])) /\ shorter (r c1) (r c2)) \/ (same_result (r c2) (r (Any o [c1; c2])) /\ shorter (r c2) (r c1)).
Proof.
  intros steps fuel b o c1 c2 skip H G1 G2. cbv zeta. destruct (runs_of_sched cyc arr d e CR) as [X|(ds & ND & CS & IF & X)].
  - destruct (X steps fuel b) as (r & Y). left. split; [eapply same_refl'|eapply shorter_refl']; eauto.
  - rewrite !X. destruct H as (H1 & E2 & H3). destruct (in_force (core_of d) None ES) as [c0|] eqn:E0; [|congruence]. clear E2.
    assert (H : ends_for_good d None) by (split; auto; split; auto; rewrite E0; discriminate).
    assert (G3 : stays_true (d_nodes d) (CAny o [c1; c2])) by (apply stays_any; auto).
    apply runs_either; auto; rewrite ?IF.
    + rewrite ND. exact (update_good _ H G1).
    + rewrite ND. exact (update_good _ H G2).
    + rewrite ND. exact (update_good _ H G3).
    + intros v ow V. rewrite ND in V. rewrite (holds_two v e ow (in_force (core_of d) (at_update (CAny o [c1; c2]))) (CAny o [c1; c2]) c0 eq_refl E0).
      rewrite (holds_two v e ow (in_force (core_of d) (at_update c1)) c1 c0 eq_refl E0), (holds_two v e ow (in_force (core_of d) (at_update c2)) c2 c0 eq_refl E0).
      rewrite (any_true _ v e ow o c1 c2 G1 G2 V). tauto.
Qed.
Theorem sched_all : forall steps fuel b o c1 c2 skip, ends_for_good d None -> stays_true (d_nodes d) c1 -> stays_true (d_nodes d) c2 ->
  let r c := run steps fuel b (at_update c) skip in
  (same_result (r c1) (r (All o [c1; c2])) /\ shorter (r c2) (r c1)) \/ (same_result (r c2) (r (All o [c1; c2])) /\ shorter (r c1) (r c2)).
Proof.
  intros steps fuel b o c1 c2 skip H G1 G2. cbv zeta. destruct (runs_of_sched cyc arr d e CR) as [X|(ds & ND & CS & IF & X)].
  - destruct (X steps fuel b) as (r & Y). left. split; [eapply same_refl'|eapply shorter_refl']; eauto.
  - rewrite !X. destruct H as (H1 & E2 & H3). destruct (in_force (core_of d) None ES) as [c0|] eqn:E0; [|congruence]. clear E2.
    assert (H : ends_for_good d None) by (split; auto; split; auto; rewrite E0; discriminate).
    assert (G3 : stays_true (d_nodes d) (CAll o [c1; c2])) by (apply stays_all; auto).
    apply runs_both; auto; rewrite ?IF.
    + rewrite ND. exact (update_good _ H G1).
    + rewrite ND. exact (update_good _ H G2).
    + rewrite ND. exact (update_good _ H G3).
    + intros v ow V. rewrite ND in V. rewrite (holds_two v e ow (in_force (core_of d) (at_update (CAll o [c1; c2]))) (CAll o [c1; c2]) c0 eq_refl E0).
      rewrite (holds_two v e ow (in_force (core_of d) (at_update c1)) c1 c0 eq_refl E0), (holds_two v e ow (in_force (core_of d) (at_update c2)) c2 c0 eq_refl E0).
      rewrite (all_true _ v e ow o c1 c2 G1 G2 V). tauto.
Qed.
Theorem sched_swap : forall steps fuel b c c' skip skip', ends_for_good d (at_both c c') ->
  same_result (run steps fuel b (at_both c c') skip) (run steps fuel b (at_both c' c) skip').
Proof.
  intros steps fuel b c c' skip skip' H. apply sched_same; auto.
  - destruct H as (_ & _ & C). split; [discriminate|]. split; [discriminate|]. intros s x E.
    destruct s; first [exact (C CSE _ E)|exact (C PASS _ E)|exact (C ES _ E)|exact (C ESU _ E)|exact (C LIFE _ E)].
  - intros v ow V. rewrite (holds_two v e ow (in_force (core_of d) (at_both c c')) c c' eq_refl eq_refl), (holds_two v e ow (in_force (core_of d) (at_both c' c)) c' c eq_refl eq_refl). tauto.
Qed.
End OfSched.
