(** Runs of schedulers with safe conditions never raise. *)
From Verif Require Export SpecSafe RunHist PureFacts CondFacts DefaultFacts RunIds.
From Verif Require Import TopoProofs SpecSched ResumeFrame SchedFacts SchedThms DefaultRun.

Section Safe.
Variables (ns : list node) (W : world -> Prop) (ran : Prop).

(** ** Evaluation *)
Record good_view (v : view) : Prop := {
  gv_nodes : v_nodes v = ns;
  gv_queue : forall n, In n ns -> exists level, In level (v_queue v) /\ In n level;
  gv_total : v_total v <> None;
  gv_use : v_use v <> None;
  gv_list : exists l, v_list v = Some l /\ (ran -> l <> []);
  gv_clock : exists h, clock_after ESU h (v_clock v)
}.
Lemma owner_level_acc : forall q i n k, exists j, owner_level i q (Some n) (Some k) = Some j.
Proof. induction q as [|cs r IH]; intros i n k; simpl; eauto. destruct (mem n cs); apply IH. Qed.
Lemma owner_level_some : forall q i n acc level, In level q -> In n level -> exists j, owner_level i q (Some n) acc = Some j.
Proof.
  induction q as [|cs r IH]; intros i n acc level L N; [destruct L|]. simpl. destruct L as [->|L]; [|eapply IH; eauto].
  assert (M : mem n level = true) by (apply mem_In; auto). rewrite M. apply owner_level_acc.
Qed.
Lemma relative_ok : forall k q s, (exists h, clock_after ESU h k) -> ts_lt q s -> ts_le ESU s -> exists x, clock_total_relative q s k = Ok x.
Proof. intros k q s [h H] L1 L2. destruct (since_at_least_exists s h) as [h2 S]. eexists. eapply total_relative; eauto. Qed.
Lemma count_ok : forall v s d, good_view v -> In d ns -> exists k, count_total v s d = Ok k.
Proof.
  intros v s d [] I. unfold count_total. destruct (v_total v); [|congruence]. rewrite gv_nodes0.
  assert (M : mem d ns = true) by (apply mem_In; auto). rewrite M. eauto.
Qed.
Lemma finished_ok : forall w e ds, (forall d, In d ds -> w_finished w d e <> None) ->
  (exists b, finished_any w e ds = Ok b) /\ (exists b, finished_all w e ds = Ok b).
Proof.
  intros w e ds. induction ds as [|d r IH]; intros H; simpl; [eauto|].
  destruct IH as [[b1 H1] [b2 H2]]; [intros x X; apply H; simpl; auto|].
  destruct (w_finished w d e) as [[|]|] eqn:E; [| |destruct (H d (or_introl eq_refl) E)]; eauto.
Qed.
Lemma atom_safe : forall v e own a w, good_view v -> safe_atom ns e W ran own a -> W w ->
  exists b w', eval_atom v e own a w = (Ok b, w') /\ W w'.
Proof.
  intros v e own a w G S Hw. pose proof G as [GN GQ GT GU GL GC].
  destruct a; simpl in S |- *; try (eexists; eexists; split; [reflexivity|exact Hw]).
  - destruct S as [S1 S2]. destruct (relative_ok (v_clock v) q base GC S1 S2) as [x ->]. simpl. eauto.
  - destruct S as [S1 S2]. destruct (relative_ok (v_clock v) PASS base GC) as [x ->]; [unfold ts_lt, ts_le in *; simpl in *; lia|exact S2|].
    simpl. destruct n; [congruence|]. eauto.
  - destruct (count_ok v s d G S) as [k ->]. simpl. eauto.
  - destruct S as [S1 S2]. destruct n as [n|]; [|congruence].
    assert (X : forall ds acc, incl ds ns -> exists k, sum_calls v s ds acc = Ok k).
    { induction ds0 as [|d r IH]; intros acc I; simpl; [eauto|]. destruct (count_ok v s d G) as [k ->]; [apply I; simpl; auto|].
      simpl. apply IH. intros y Y; apply I; simpl; auto. }
    destruct (X ds 0 S1) as [k ->]. simpl. eauto.
  - destruct S as [S1 (x & -> & S2)]. unfold count_useable. destruct (v_use v); [|congruence]. rewrite GN.
    assert (M1 : mem d ns = true) by (apply mem_In; auto). assert (M2 : mem x ns = true) by (apply mem_In; auto). rewrite M1, M2. simpl. eauto.
  - destruct GL as (l & -> & L). specialize (L S). destruct (rev l) eqn:R; [|eauto].
    destruct L. apply (f_equal (@rev _)) in R. rewrite rev_involutive in R. auto.
  - assert (X : forall ds, incl ds ns -> exists b, all_have_run v s ds = Ok b).
    { induction ds0 as [|d r IH]; intros I; simpl; [eauto|]. destruct (count_ok v s d G) as [k ->]; [apply I; simpl; auto|].
      destruct (Nat.ltb k 1); [eauto|]. apply IH. intros y Y; apply I; simpl; auto. }
    assert (I : incl (deps_or_nodes v ds) ns) by (unfold deps_or_nodes; destruct ds; [rewrite GN; apply incl_refl|exact S]).
    destruct (X _ I) as [b ->]. eauto.
  - specialize (S w Hw). destruct (w_finished w d e); [|congruence]. eauto.
  - destruct (finished_ok w e (deps_or_nodes v ds)) as [[b ->] _]; [|eauto].
    intros d D. apply S; auto. unfold deps_or_nodes in D. destruct ds; auto. rewrite GN in D; auto.
  - destruct (finished_ok w e (deps_or_nodes v ds)) as [_ [b ->]]; [|eauto].
    intros d D. apply S; auto. unfold deps_or_nodes in D. destruct ds; auto. rewrite GN in D; auto.
  - destruct (S w Hw) as (p & x & -> & A). apply index_value_spec in A. unfold threshold_of. destruct indices as [l|].
    + rewrite A. simpl. eauto.
    + simpl in A. injection A as ->. simpl. eauto.
  - unfold time_interval. destruct repeat as [r|]; [|simpl; eauto].
    destruct S as [S1 (x & -> & S2)].
    assert (O : exists off, match in_exact_time_mode v, start with
                | true, Some s => Some (q_val s)
                | _, _ => match owner_level 0 (v_queue v) (Some x) None with
                          | Some i => Some (inject_Z (Z.of_nat i) * t_interval (k_time (v_clock v)))%Q
                          | None => None
                          end
                end = Some off).
    { destruct (GQ x S2) as (level & L1 & L2). destruct (owner_level_some (v_queue v) 0 x None level L1 L2) as [j ->].
      destruct (in_exact_time_mode v), start; eauto. }
    destruct O as [off ->]. assert (Z : Qeq_bool (q_val r) 0 = false).
    { destruct (Qeq_bool (q_val r) 0) eqn:Z; auto. apply Qeq_bool_iff in Z. contradiction. }
    rewrite Z. simpl. eauto.
  - apply S; auto.
Qed.
Lemma eval_safe : forall v e ow c st, good_view v -> safe ns e W ran ow c -> W (s_world st) ->
  exists b st', eval v e ow c st = (Ok b, st') /\ W (s_world st').
Proof.
  intros v e ow c st G. revert st. induction c as [o a|o cs IH|o cs IH|o c IH|o c n IH] using cond_ind'; intros st S Hw.
  - simpl in *. destruct (atom_safe v e (ow o) a (s_world st) G S Hw) as (b & w' & -> & Hw'). eexists; eexists; split; [reflexivity|]. auto.
  - revert st S Hw. induction IH as [|x l Hx Hl IHl]; intros st S Hw; [simpl; eauto|]. rewrite all_cons. simpl in S. destruct S as [S1 S2].
    destruct (Hx st S1 Hw) as (b & st' & -> & Hw'). destruct b; [apply IHl; auto|eauto].
  - revert st S Hw. induction IH as [|x l Hx Hl IHl]; intros st S Hw; [simpl; eauto|]. rewrite any_cons. simpl in S. destruct S as [S1 S2].
    destruct (Hx st S1 Hw) as (b & st' & -> & Hw'). destruct b; [eauto|apply IHl; auto].
  - simpl in *. destruct (IH st S Hw) as (b & st' & -> & Hw'). eauto.
  - simpl in *. destruct (Nat.ltb (s_sats st o e) n); [|eauto].
    destruct (IH st S Hw) as (b & st' & -> & Hw'). destruct b; eauto.
Qed.

(** ** The state of a run that has started *)
Variables (e : eid) (q : list (list node)).
Definition ctx_good (abs : bool) (x : ctx) : Prop :=
  x_total x <> None /\ x_use x <> None /\ (exists l, x_list x = Some l /\ (ran -> l <> [])) /\ (exists h, clock_after ESU h (the_clock x)) /\
  (abs = true -> x_stamps x <> None).
Record hale (tc : tconds) (abs : bool) (m : core) : Prop := {
  hl_nodes : m_nodes m = ns;
  hl_queue : queue m = q;
  hl_conds : forall n, In n ns -> exists c, aget n (m_basic m) = Some c /\ safe ns e W ran (m_owners m) c;
  hl_tc : forall s, s = ESU \/ s = ES -> exists c, tc s = Some c /\ safe ns e W ran (m_owners m) c;
  hl_world : W (s_world (m_cst m));
  hl_ctx : ctx_good abs (m_ctxs m e)
}.
Hypothesis Q : forall n, In n ns <-> exists level, In level q /\ In n level.
Variables (tc : tconds) (abs : bool).
Lemma hale_view : forall m, hale tc abs m -> good_view (view_of m e).
Proof.
  intros m [A B C D E (X1 & X2 & X3 & X4 & X5)]. constructor; simpl; auto. rewrite B. intros n N. apply Q; auto.
Qed.
Lemma hale_cst : forall m st, hale tc abs m -> W (s_world st) -> hale tc abs (set_cst m st).
Proof. intros m st [] H; constructor; auto. Qed.
Lemma hale_ctx : forall m x, hale tc abs m -> ctx_good abs x -> hale tc abs (set_ctx m e x).
Proof. intros m x [] H; constructor; auto. rewrite set_ctx_at. auto. Qed.
Lemma satisfied_safe : forall m c, hale tc abs m -> safe ns e W ran (m_owners m) c -> exists b m', satisfied m e c = (Ok b, m') /\ hale tc abs m' /\ m_owners m' = m_owners m.
Proof.
  intros m c H S. unfold satisfied. destruct (eval_safe (view_of m e) e (m_owners m) c (m_cst m) (hale_view _ H) S (hl_world _ _ _ H)) as (b & st' & -> & Hw).
  eexists; eexists; split; [reflexivity|]. split; [apply hale_cst; auto|reflexivity].
Qed.
Lemma accept_good : forall m n, hale tc abs m -> hale tc abs (accept m e n).
Proof.
  intros m n H. unfold accept. apply hale_ctx; auto. destruct (hl_ctx _ _ _ H) as (X1 & X2 & X3 & X4 & X5).
  split; [simpl; destruct (x_total (m_ctxs m e)); [discriminate|congruence]|].
  split; [simpl; destruct (x_use (m_ctxs m e)); [discriminate|congruence]|]. split; [exact X3|]. split; [exact X4|exact X5].
Qed.
Lemma round_safe : forall level m exec ch, hale tc abs m -> incl level ns -> exists r m', round m e level exec ch = (Ok r, m') /\ hale tc abs m'.
Proof.
  induction level as [|n r IH]; intros m exec ch H I; simpl; [eauto|].
  assert (I' : incl r ns) by (intros y Y; apply I; simpl; auto). destruct (mem n exec); [apply IH; auto|].
  destruct (hl_conds _ _ _ H n (I n (or_introl eq_refl))) as (c & -> & S). destruct (satisfied_safe m c H S) as (b & m' & -> & H' & _).
  destruct b; [|apply IH; auto].
  replace (mem n (m_nodes m')) with true by (symmetry; apply mem_In; rewrite (hl_nodes _ _ _ H'); apply I; left; auto).
  apply IH; auto using accept_good.
Qed.
Lemma do_level_safe : forall fuel level m exec, hale tc abs m -> incl level ns ->
  match do_level fuel m e level exec with None => True | Some (Ok _, m') => hale tc abs m' | Some (Err _, _) => False end.
Proof.
  induction fuel as [|f IH]; intros level m exec H I; simpl; auto.
  destruct (round_safe level m exec false H I) as ([exec' ch] & m' & -> & H'). destruct ch; auto. apply IH; auto.
Qed.
Lemma check_tc_safe : forall m s, hale tc abs m -> s = ESU \/ s = ES -> exists b m', check_tc m e tc s = (Ok b, m') /\ hale tc abs m'.
Proof.
  intros m s H D. unfold check_tc. destruct (hl_tc _ _ _ H s D) as (c & -> & S). destruct (satisfied_safe m c H S) as (b & m' & -> & H' & _). eauto.
Qed.
Lemma terminated_safe : forall m, hale tc abs m -> exists b m', terminated m e tc = (Ok b, m') /\ hale tc abs m'.
Proof.
  intros m H. unfold terminated. destruct (check_tc_safe m ESU H) as (b & m' & -> & H'); auto. destruct b; [eauto|]. apply check_tc_safe; auto.
Qed.
Lemma append_safe : forall m s, hale tc abs m -> forall b, (b = true -> abs = true) -> exists r m', append_exec m e b s = (Ok r, m') /\ hale tc abs m'.
Proof.
  intros m s H b B. unfold append_exec. destruct (hl_ctx _ _ _ H) as (X1 & X2 & (l & L & R) & X4 & X5). rewrite L.
  assert (N : ran -> l ++ [s] <> []) by (intros _ E; apply app_eq_nil in E; destruct E; discriminate).
  destruct b.
  - destruct (x_stamps (m_ctxs m e)) as [ts|] eqn:T; [|destruct (X5 (B eq_refl)); auto]. eexists; eexists; split; [reflexivity|].
    apply hale_ctx; auto. split; [exact X1|]. split; [exact X2|]. split; [eexists; split; [reflexivity|exact N]|]. split; [exact X4|discriminate].
  - eexists; eexists; split; [reflexivity|].
    apply hale_ctx; auto. split; [exact X1|]. split; [exact X2|]. split; [eexists; split; [reflexivity|exact N]|]. split; [exact X4|exact X5].
Qed.
Lemma incr_safe : forall m s, hale tc abs m -> ts_lt s LIFE -> exists m', incr_clock s m e = Ok m' /\ hale tc abs m'.
Proof.
  intros m s H L. unfold incr_clock. destruct (hl_ctx _ _ _ H) as (X1 & X2 & X3 & (h & X4) & X5).
  destruct (clock_incr_succeeds _ _ _ s X4 L) as [k K]. rewrite K. eexists; split; [reflexivity|]. apply hale_ctx; auto.
  split; [exact X1|]. split; [exact X2|]. split; [exact X3|]. split; [exists (h ++ [s]); simpl; eapply ca_incr; eauto|exact X5].
Qed.
Lemma reset_safe : forall m s, hale tc abs m -> hale tc abs (reset_counts_total s m e).
Proof.
  intros m s H. unfold reset_counts_total. apply hale_ctx; auto. destruct (hl_ctx _ _ _ H) as (X1 & X2 & X3 & X4 & X5).
  split; [simpl; destruct (x_total (m_ctxs m e)); [discriminate|congruence]|]. split; [exact X2|]. split; [exact X3|]. split; [exact X4|exact X5].
Qed.
Definition runs_with (g : gen) : Prop := g_eid g = e /\ g_tc g = tc /\ g_abs g = abs.
Lemma inner_safe : forall g rest m i ch, runs_with g -> hale tc abs m -> incl rest q ->
  match inner m g rest i ch with IYield m' _ _ _ => hale tc abs m' | IEnd m' _ => hale tc abs m' | IErr _ _ => False | IFuel _ => True end.
Proof.
  intros g rest. induction rest as [|level r IH]; intros m i ch G H I; [exact H|]. pose proof G as (Ge & Gt & Ga).
  cbn [inner]. rewrite Ge, Gt, Ga. destruct (terminated_safe m H) as (b & m1 & -> & H1). destruct b; auto.
  assert (IL : incl level ns) by (intros n N; apply Q; exists level; split; auto; apply I; simpl; auto).
  pose proof (do_level_safe (S (length level)) level m1 [] H1 IL) as D. destruct (do_level _ m1 e level []) as [[[exec|] m2]|]; [|contradiction|exact Logic.I].
  destruct (nonempty exec || abs).
  - destruct (append_safe m2 exec D abs (fun x => x)) as (x & m3 & -> & H3). exact H3.
  - apply IH; auto. intros y Y; apply I; simpl; auto.
Qed.
Lemma tail_safe : forall g m ch, runs_with g -> hale tc abs m -> match pass_tail m g ch with TYield m' => hale tc abs m' | TNext m' => hale tc abs m' | TErr _ _ => False end.
Proof.
  intros g m ch (Ge & Gt & Ga) H. unfold pass_tail. rewrite Ge. destruct (negb ch && negb (g_abs g)).
  - destruct (append_safe m [] H false) as (x & m' & -> & H'); auto. discriminate.
  - destruct (incr_safe m PASS H) as (m' & -> & H'); auto. unfold ts_lt; simpl; lia.
Qed.
Lemma finish_safe : forall g m, runs_with g -> hale tc abs m -> exists m' l, finish m g = (m', at_pc g PDone, OReturn l) /\ hale tc abs m'.
Proof.
  intros g m (Ge & Gt & Ga) H. unfold finish. rewrite Ge, Gt.
  assert (X : exists m1, (if g_skip g then Ok m else incr_clock ESU m e) = Ok m1 /\ hale tc abs m1).
  { destruct (g_skip g); [eauto|]. apply incr_safe; auto. unfold ts_lt; simpl; lia. }
  destruct X as (m1 & -> & H1). destruct (check_tc_safe m1 ES H1) as (b & m2 & -> & H2); auto.
  destruct (hl_ctx _ _ _ H2) as (X1 & X2 & (l & L & R) & X4 & X5). rewrite L. eauto.
Qed.
(** what comes of a step: never an exception *)
Definition calm (r : core * gen * outcome) : Prop :=
  match r with (m', g', o) =>
    match o with ORaise _ => False | OYield _ => hale tc abs m' /\ runs_with g' /\ g_pc g' <> PStart | _ => True end
  end.
Lemma at_pc_runs : forall g p, runs_with g -> runs_with (at_pc g p).
Proof. intros g p H; exact H. Qed.
Lemma outer_safe : forall fuel m g, runs_with g -> hale tc abs m -> calm (outer fuel m g).
Proof.
  induction fuel as [|f IH]; intros m g G H; [exact Logic.I|]. cbn [outer]. pose proof G as (Ge & Gt & Ga). rewrite Ge, Gt.
  destruct (terminated_safe m H) as (b & m1 & -> & H1). destruct b.
  { destruct (finish_safe g m1 G H1) as (m' & l & -> & _). exact Logic.I. }
  cbv zeta. pose proof (reset_safe m1 PASS H1) as H2. set (m2 := reset_counts_total PASS m1 e) in *.
  pose proof (inner_safe g (queue m2) m2 0 false G H2) as X. rewrite (hl_queue _ _ _ H2) in X. rewrite (hl_queue _ _ _ H2). specialize (X (incl_refl _)).
  destruct (inner m2 g q 0 false) as [m3 s i ch|m3 ch|m3 ex|m3]; [|  |contradiction|exact Logic.I].
  - split; [exact X|]. split; [apply at_pc_runs; auto|discriminate].
  - pose proof (tail_safe g m3 ch G X) as Y. destruct (pass_tail m3 g ch) as [m4|m4|m4 ex]; [| |contradiction].
    + split; [exact Y|]. split; [apply at_pc_runs; auto|discriminate].
    + apply IH; auto.
Qed.
Lemma skipn_incl : forall A n (l : list A), incl (skipn n l) l.
Proof. induction n as [|n IH]; intros [|x l]; simpl; try apply incl_refl. apply incl_tl. auto. Qed.
Lemma resume_safe : forall fuel m g, runs_with g -> g_pc g <> PStart -> hale tc abs m -> calm (resume fuel m g).
Proof.
  intros fuel m g G P H. pose proof G as (Ge & Gt & Ga). unfold resume. rewrite Ge. destruct (g_pc g) as [|i ch| |]; [congruence| | |exact Logic.I].
  - destruct (incr_safe m CSE H) as (m1 & -> & H1); [unfold ts_lt; simpl; lia|].
    pose proof (inner_safe g (skipn (S i) (queue m1)) m1 (S i) ch G H1) as X. rewrite (hl_queue _ _ _ H1) in X. rewrite (hl_queue _ _ _ H1).
    specialize (X (skipn_incl _ _ _)). destruct (inner m1 g (skipn (S i) q) (S i) ch) as [m3 s j ch'|m3 ch'|m3 ex|m3]; [|  |contradiction|exact Logic.I].
    + split; [exact X|]. split; [apply at_pc_runs; auto|discriminate].
    + pose proof (tail_safe g m3 ch' G X) as Y. destruct (pass_tail m3 g ch') as [m4|m4|m4 ex]; [| |contradiction].
      * split; [exact Y|]. split; [apply at_pc_runs; auto|discriminate].
      * apply outer_safe; auto.
  - destruct (incr_safe m CSE H) as (m1 & -> & H1); [unfold ts_lt; simpl; lia|].
    destruct (incr_safe m1 PASS H1) as (m2 & -> & H2); [unfold ts_lt; simpl; lia|]. apply outer_safe; auto.
Qed.
End Safe.
(** ** The start of a run *)
Lemma safe_all_iff : forall ns e W ran ow o cs, safe ns e W ran ow (CAll o cs) <-> forall c, In c cs -> safe ns e W ran ow c.
Proof.
  intros ns e W ran ow o cs. simpl. induction cs as [|x r IH]; [split; [intros _ c []|auto]|]. split.
  - intros [A B] c [<-|C]; auto. apply IH; auto.
  - intros H. split; [apply H; simpl; auto|]. apply IH. intros c C. apply H; simpl; auto.
Qed.
Lemma safe_any_iff : forall ns e W ran ow o cs, safe ns e W ran ow (CAny o cs) <-> forall c, In c cs -> safe ns e W ran ow c.
Proof. intros. exact (safe_all_iff ns e W ran ow o cs). Qed.
Lemma safe_owners : forall ns e W ran ow ow' c, (forall o, ow' o = ow o \/ exists w, ow' o = Some w /\ In w ns) ->
  safe ns e W ran ow c -> safe ns e W ran ow' c.
Proof.
  intros ns e W ran ow ow' c D. induction c as [o a|o cs IH|o cs IH|o c IH|o c n IH] using cond_ind'; intros S; auto.
  - simpl in *. destruct (D o) as [->|(w & -> & I)]; auto. destruct a; simpl in *; auto.
    + destruct S as [A _]. split; eauto.
    + destruct repeat as [r|]; auto. destruct S as [A _]. split; eauto.
  - rewrite safe_all_iff in *. rewrite Forall_forall in IH. auto.
  - rewrite safe_any_iff in *. rewrite Forall_forall in IH. auto.
Qed.
Lemma default_owners : forall ns l m m', fresh_ids m -> incl l ns -> add_defaults l m = Ok m' ->
  forall o, m_owners m' o = m_owners m o \/ exists w, m_owners m' o = Some w /\ In w ns.
Proof.
  intros ns l. induction l as [|n r IH]; intros m m' F I E o; simpl in E; [injection E as <-; auto|].
  assert (I' : incl r ns) by (intros y Y; apply I; simpl; auto).
  destruct (ahas n (m_basic m)); [eapply IH; eauto|]. destruct (aget n (m_graph m)) as [ds|]; [|discriminate].
  destruct (default_cond (m_next m) ds) as [c nx] eqn:Dc.
  destruct (set_owner_default n ds (m_next m) (m_owners m) F) as (L & A & B). rewrite Dc in L, A, B. cbn [fst snd] in L, A, B.
  assert (F1 : fresh_ids (set_basic m (aset n c (m_basic m)) (set_owner (Some n) c (m_owners m)) nx)) by (intros x Lx; simpl in *; rewrite B by lia; apply F; lia).
  destruct (IH _ _ F1 I' E o) as [H|H]; auto. rewrite H. simpl.
  destruct (le_lt_dec (m_next m) o) as [Lo|Lo]; [|left; apply B; auto]. destruct (le_lt_dec nx o); [left; apply B; auto|].
  right. exists n. split; [apply A; lia|apply I; simpl; auto].
Qed.
Lemma defaults_succeed : forall l m, (forall n, In n l -> aget n (m_graph m) <> None) -> exists m', add_defaults l m = Ok m'.
Proof.
  induction l as [|n r IH]; intros m H; simpl; [eauto|]. destruct (ahas n (m_basic m)); [apply IH; intros x X; apply H; simpl; auto|].
  destruct (aget n (m_graph m)) as [ds|] eqn:G; [|destruct (H n (or_introl eq_refl) G)]. destruct (default_cond (m_next m) ds) as [c nx].
  apply IH. intros x X. apply H. simpl; auto.
Qed.
Lemma default_safe : forall ns e W ran ow k ds b, incl ds ns -> In b ns -> (forall o, k <= o < snd (default_cond k ds) -> ow o = Some b) ->
  safe ns e W ran ow (fst (default_cond k ds)).
Proof.
  intros ns e W ran ow k ds b D B O. destruct ds as [|d [|d2 r]].
  - exact Logic.I.
  - simpl. split; [apply D; simpl; auto|]. exists b. split; [apply O; simpl; lia|auto].
  - set (l := d :: d2 :: r) in *. change (default_cond k l) with (All k (default_parts (S k) l), S k + length l) in *. cbn [fst snd] in *.
    unfold All. rewrite safe_all_iff. assert (O' : forall o, S k <= o < S k + length l -> ow o = Some b) by (intros o L; apply O; lia).
    clear O. revert D O'. generalize (S k). generalize l. clear - B. induction l as [|d r IH]; intros j D O c C; [destruct C|].
    simpl in C. destruct C as [<-|C].
    + simpl. split; [apply D; simpl; auto|]. exists b. split; [apply O; simpl; lia|auto].
    + apply (IH (S j)); auto; [intros y Y; apply D; simpl; auto|]. intros o L. apply O. simpl. lia.
Qed.
Lemma clock_abs_after : forall h k k', clock_after ESU h k -> k_tree k' = k_tree k -> k_md k' = k_md k -> t_val (k_time k') = t_val (k_time k) -> k_prev k' = k_prev k -> clock_after ESU h k'.
Proof.
  intros h k [tr md [tv ta ti te] pr] H E1 E2 E3 E4. simpl in *. subst tr md tv pr. apply ca_abs. exact H.
Qed.
Lemma start_ok : forall W ran m g, fit W ran m g -> g_pc g = PStart ->
  exists mb g1 m1, add_defaults (m_nodes m) m = Ok mb /\ start m g = (Ok g1, m1) /\ m_basic m1 = m_basic mb /\ m_owners m1 = m_owners mb.
Proof.
  intros W ran m g F P. destruct (ft_acyclic _ _ _ _ F) as [q0 T].
  destruct (defaults_succeed (m_nodes m) m) as [mb A]. { intros n N. destruct (ft_graph _ _ _ _ F n N) as (ds & E & _). congruence. }
  exists mb. rewrite start_eq, T, A.
  destruct (RunHist.add_defaults_spec _ _ _ A) as (Xc & St & Xt & Xu & Xs).
  unfold start_rest. cbv zeta. change (match g_tcarg g with None => m_tconds mb | Some a => combine_tconds (m_tconds mb) a end) with (run_tc mb g). set (e := g_eid g). set (m2 := set_clock mb e (the_clock (m_ctxs mb e))).
  assert (Qm : m_nodes m <> [] -> queue m2 <> []).
  { intros N E. assert (E' : queue m = []) by (rewrite <- (static_queue _ _ St); exact E). destruct (m_nodes m) as [|n r] eqn:En; [congruence|].
    assert (I : In n (m_nodes m)) by (rewrite En; simpl; auto). apply (ft_queue _ _ _ _ F) in I. destruct I as (level & L & _). rewrite E' in L. destruct L. }
  assert (S : exists k, setup_absolute m2 e (run_tc mb g) = Ok (set_clock m2 e k)).
  { unfold setup_absolute. destruct (absolute_conditions m2 (run_tc mb g)) as [|c cs] eqn:Ac; [eauto|].
    assert (N : m_nodes m <> []).
    { apply (ft_abs _ _ _ _ F). unfold uses_absolute. rewrite P. assert (I : In c (absolute_conditions m2 (run_tc mb g))) by (rewrite Ac; simpl; auto).
      unfold absolute_conditions in I. apply filter_In in I. destruct I as [I B]. apply existsb_exists. exists c. split; auto.
      apply in_app_or in I. apply in_or_app. destruct I as [I|I]; [left; eapply add_defaults_absolute; eauto|right].
      unfold run_tc in *. rewrite Xt in I. exact I. }
    unfold unit_of, absolute_unit. destruct (flat_map _ _) as [|x xs]; [eauto|].
    specialize (Qm N). destruct (m_exact m2); [eauto|]. destruct (queue m2) as [|lv lvs]; [congruence|]. simpl. eauto. }
  destruct S as [k ->]. destruct (ft_id _ _ _ _ F) as (K1 & K2 & l & K3). unfold init_counts_base.
  set (m3 := set_clock m2 e k).
  assert (Xe : m_ctxs m3 e = ctx_clock k (m_ctxs m e)).
  { unfold m3, set_clock. rewrite set_ctx_at. unfold m2, set_clock. rewrite set_ctx_at, Xc. reflexivity. }
  assert (Xb : forall b, x_total (m_ctxs m3 b) = x_total (m_ctxs m b) /\ x_use (m_ctxs m3 b) = x_use (m_ctxs m b) /\ x_list (m_ctxs m3 b) = x_list (m_ctxs m b)).
  { intros b. destruct (Nat.eq_dec b e) as [->|N]; [rewrite Xe; auto|]. unfold m3, m2, set_clock, set_ctx. simpl. rewrite !upd_other by auto. rewrite Xc. auto. }
  destruct (Xb (g_base g)) as (B1 & B2 & B3). destruct (Xb e) as (E1 & E2 & E3). rewrite E1, E2, E3, B1, B2, B3.
  assert (C1 : exists t, copy_entry (x_total (m_ctxs m e)) (x_total (m_ctxs m (g_base g))) = Ok t) by
    (fold e in K1; destruct (x_total (m_ctxs m e)); simpl; [eauto|]; destruct (x_total (m_ctxs m (g_base g))); [eauto|destruct K1; congruence]).
  assert (C2 : exists t, copy_entry (x_use (m_ctxs m e)) (x_use (m_ctxs m (g_base g))) = Ok t) by
    (fold e in K2; destruct (x_use (m_ctxs m e)); simpl; [eauto|]; destruct (x_use (m_ctxs m (g_base g))); [eauto|destruct K2; congruence]).
  assert (C3 : exists t, copy_entry (x_list (m_ctxs m e)) (x_list (m_ctxs m (g_base g))) = Ok t).
  { unfold list_for in K3. fold e in K3. destruct K3 as [->|[-> ->]]; simpl; eauto. }
  destruct C1 as [c1 ->], C2 as [c2 ->], C3 as [c3 ->]. rewrite Xe. simpl.
  eexists; eexists; split; [reflexivity|]. split; [reflexivity|]. split; reflexivity.
Qed.
Lemma start_hale : forall W ran m g, fit W ran m g -> g_pc g = PStart ->
  exists g1 m1, start m g = (Ok g1, m1) /\ hale (m_nodes m) W ran (g_eid g) (queue m) (run_tc m g) (g_abs g1) m1 /\ runs_with (g_eid g) (run_tc m g) (g_abs g1) g1.
Proof.
  intros W ran m g F P. destruct (start_ok _ _ _ _ F P) as (mb & g1 & m1 & A & S & Eb & Eo). exists g1, m1. split; auto.
  destruct (start_spec _ _ _ _ S) as (St & _ & Sx & Ge & Gs & Gp & Gt). fold (run_tc m g) in Gt.
  split; [|split; auto].
  assert (Mono : forall c, safe (m_nodes m) (g_eid g) W ran (m_owners m) c -> safe (m_nodes m) (g_eid g) W ran (m_owners m1) c).
  { intros c. apply safe_owners. rewrite Eo. eapply default_owners; eauto; [apply (ft_fresh _ _ _ _ F)|apply incl_refl]. }
  destruct (DefaultFacts.add_defaults_spec _ _ _ (ft_fresh _ _ _ _ F) A) as [D H].
  constructor.
  - apply (sc_nodes _ _ St).
  - apply static_queue; auto.
  - intros n N. rewrite Eb. destruct (aget n (m_basic m)) as [c|] eqn:E.
    + exists c. split; [apply (dd_kept _ _ D); auto|]. apply Mono. eapply (ft_conds _ _ _ _ F); eauto.
    + destruct (H n N E) as (ds & G & [(k & X1 & X2 & X3)]). eexists. split; [exact X1|].
      destruct (ft_graph _ _ _ _ F n N) as (ds' & G' & I). assert (ds' = ds) by congruence. subst ds'. rewrite Eo. eapply default_safe; eauto.
  - intros s Ds. destruct (ft_tc _ _ _ _ F s Ds) as (c & C1 & C2). exists c. unfold the_tc in C1. rewrite P in C1. split; auto.
  - rewrite (start_cst _ _ _ _ S). apply (ft_world _ _ _ _ F).
  - destruct Sx as [(t & _ & T) U (l & L & L') Stm (k & K1 & K2 & K3 & K4 & K5)].
    split; [congruence|]. split; [congruence|]. split; [exists l; split; auto; intros R; apply (ft_ran _ _ _ _ F R); exact L|].
    split.
    + destruct (ft_clock _ _ _ _ F) as [h Hc]. exists h. unfold the_clock at 1. rewrite K1. eapply clock_abs_after; eauto.
    + intros B. rewrite Stm. apply (ft_abs _ _ _ _ F). unfold uses_absolute. rewrite P. rewrite <- (start_abs _ _ _ _ S). auto.
Qed.

(** ** Theorems *)
Lemma fit_hale : forall W ran m g, fit W ran m g -> all_conditions m -> g_pc g <> PStart -> x_total (m_ctxs m (g_eid g)) <> None -> x_use (m_ctxs m (g_eid g)) <> None ->
  x_list (m_ctxs m (g_eid g)) <> None ->
  hale (m_nodes m) W ran (g_eid g) (queue m) (g_tc g) (g_abs g) m.
Proof.
  intros W ran m g F A P T U L. constructor; auto.
  - intros n N. destruct (aget n (m_basic m)) as [c|] eqn:E; [|destruct (A n N E)]. exists c. split; auto. eapply (ft_conds _ _ _ _ F); eauto.
  - intros s D. destruct (ft_tc _ _ _ _ F s D) as (c & C1 & C2). exists c. split; auto. unfold the_tc in C1. destruct (g_pc g); congruence.
  - apply (ft_world _ _ _ _ F).
  - split; auto. split; auto. split.
    + destruct (x_list (m_ctxs m (g_eid g))) as [l|] eqn:El; [|congruence]. exists l. split; auto. intros R. apply (ft_ran _ _ _ _ F R). left; auto.
    + split; [apply (ft_clock _ _ _ _ F)|]. intros B. apply (ft_abs _ _ _ _ F). unfold uses_absolute. destruct (g_pc g); congruence.
Qed.
Theorem step_never_raises : forall W ran m g fuel m' g' ex, fit W ran m g -> (g_pc g <> PStart -> under_way m g) -> resume fuel m g <> (m', g', ORaise ex).
Proof.
  intros W ran m g fuel m' g' ex F A E. destruct (g_pc g) eqn:Hp.
  - destruct (start_hale _ _ _ _ F Hp) as (g1 & m1 & S & H & G). unfold resume in E. rewrite Hp, S in E.
    pose proof (outer_safe _ _ _ _ _ (ft_queue _ _ _ _ F) _ _ fuel m1 g1 G H) as X. rewrite E in X. exact X.
  - assert (Hq : g_pc g <> PStart) by congruence. destruct A as (A & T & U & L); [discriminate|].
    pose proof (fit_hale _ _ _ _ F A Hq T U L) as H.
    pose proof (resume_safe _ _ _ _ _ (ft_queue _ _ _ _ F) _ _ fuel m g (conj eq_refl (conj eq_refl eq_refl)) Hq H) as X. rewrite E in X. exact X.
  - assert (Hq : g_pc g <> PStart) by congruence. destruct A as (A & T & U & L); [discriminate|].
    pose proof (fit_hale _ _ _ _ F A Hq T U L) as H.
    pose proof (resume_safe _ _ _ _ _ (ft_queue _ _ _ _ F) _ _ fuel m g (conj eq_refl (conj eq_refl eq_refl)) Hq H) as X. rewrite E in X. exact X.
  - unfold resume in E. rewrite Hp in E. discriminate.
Qed.
Theorem run_never_raises : forall W ran steps fuel m g acc ex, fit W ran m g -> g_pc g = PStart -> snd (drive steps fuel m g acc) <> ORaise ex.
Proof.
  intros W ran steps fuel m g acc ex F P.
  assert (X : forall steps tc abs m' g' acc, runs_with (g_eid g) tc abs g' -> g_pc g' <> PStart -> hale (m_nodes m) W ran (g_eid g) (queue m) tc abs m' ->
    snd (drive steps fuel m' g' acc) <> ORaise ex).
  { clear steps acc. induction steps as [|k IH]; intros tc abs m' g' acc G Hp H; simpl; [discriminate|].
    pose proof (resume_safe _ _ _ _ _ (ft_queue _ _ _ _ F) _ _ fuel m' g' G Hp H) as X.
    destruct (resume fuel m' g') as [[m2 g2] o]. destruct o; simpl in *; try discriminate; [|contradiction].
    destruct X as (X1 & X2 & X3). eapply IH; eauto. }
  destruct steps as [|k]; simpl; [discriminate|].
  destruct (start_hale _ _ _ _ F P) as (g1 & m1 & S & H & G). unfold resume. rewrite P, S.
  pose proof (outer_safe _ _ _ _ _ (ft_queue _ _ _ _ F) _ _ fuel m1 g1 G H) as Y. destruct (outer fuel m1 g1) as [[m2 g2] o].
  destruct o; simpl in *; try discriminate; [|contradiction]. destruct Y as (Y1 & Y2 & Y3). eapply X; eauto.
Qed.

(** ** schedulers *)
Theorem sched_never_raises : forall cyc arr W ran d g fuel r d1 ex, sync cyc arr d = (Ok r, d1) -> fit W ran (core_of d1) g ->
  (g_pc g <> PStart -> under_way (core_of d1) g) -> snd (sresume cyc arr fuel d g) <> ORaise ex.
Proof.
  intros cyc arr W ran d g fuel r d1 ex S F U E. unfold sresume in E. rewrite S in E. destruct (resume fuel (core_of d1) g) as [[m' g'] o] eqn:R. simpl in E. subst.
  exact (step_never_raises _ _ _ _ _ _ _ _ F U R).
Qed.
Definition settled (d : sched) : Prop := exists l, d_last d = Some l /\ same_order l (cs_order (d_cs d)) = true.
Lemma settled_sync : forall cyc arr d, settled d -> sync cyc arr d = (Ok tt, d).
Proof. intros cyc arr d (l & L & E). unfold sync. rewrite L, E. reflexivity. Qed.
Lemma sync_settled : forall cyc arr d r d1, sync cyc arr d = (Ok r, d1) -> settled d1.
Proof.
  intros cyc arr d r d1 S. unfold sync in S. destruct (d_last d) as [l|] eqn:L.
  - destruct (same_order l (cs_order (d_cs d))) eqn:E; [injection S as _ <-; exists l; auto|].
    destruct (pop_graphs _ _) as [[x|] st]; [|discriminate]. destruct st as [|[gr q] st]; [discriminate|]. destruct (push_conds _ _ _ _ _) as [[y|] st']; [|discriminate].
    injection S as _ <-. exists (cs_order (d_cs d)). split; auto. unfold same_order. simpl. destruct (list_eq_dec _ _ _); auto.
  - destruct (pop_graphs _ _) as [[x|] st]; [|discriminate]. destruct st as [|[gr q] st]; [discriminate|]. destruct (push_conds _ _ _ _ _) as [[y|] st']; [|discriminate].
    injection S as _ <-. exists (cs_order (d_cs d)). split; auto. unfold same_order. simpl. destruct (list_eq_dec _ _ _); auto.
Qed.
Lemma sdrive_drive : forall cyc arr fuel steps d g acc, settled d -> match sdrive cyc arr steps fuel d g acc, drive steps fuel (core_of d) g acc with
  (d', g1, l1, o1), (m', g2, l2, o2) => core_of d' = m' /\ g1 = g2 /\ l1 = l2 /\ o1 = o2 end.
Proof.
  intros cyc arr fuel. induction steps as [|k IH]; intros d g acc E; cbn [drive sdrive]; [auto|]. unfold sresume. rewrite (settled_sync _ _ _ E).
  destruct (resume fuel (core_of d) g) as [[m' g'] o] eqn:R. pose proof (core_of_put _ _ _ (grown_resume _ _ _ _ _ _ R)) as C.
  destruct o; auto. rewrite <- C. apply IH. destruct E as (l & L & E). exists l. auto.
Qed.
Lemma sdrive_sync : forall cyc arr steps fuel d g acc d1, 0 < steps -> sync cyc arr d = (Ok tt, d1) -> settled d1 ->
  sdrive cyc arr steps fuel d g acc = sdrive cyc arr steps fuel d1 g acc.
Proof. intros cyc arr [|k] fuel d g acc d1 L S T; [lia|]. cbn [sdrive]. unfold sresume. rewrite S, (settled_sync _ _ _ T). reflexivity. Qed.
Lemma sdrive_settled : forall cyc arr fuel steps d g acc, settled d -> snd (sdrive cyc arr steps fuel d g acc) = snd (drive steps fuel (core_of d) g acc).
Proof.
  intros cyc arr fuel. induction steps as [|k IH]; intros d g acc E; cbn [drive sdrive]; [auto|]. unfold sresume. rewrite (settled_sync _ _ _ E).
  destruct (resume fuel (core_of d) g) as [[m' g'] o] eqn:R. pose proof (core_of_put _ _ _ (grown_resume _ _ _ _ _ _ R)) as C.
  destruct o; auto. rewrite IH; [rewrite C; auto|]. destruct E as (l & L & E). exists l. auto.
Qed.
Theorem sched_run_never_raises : forall cyc arr W ran d g steps fuel r d1 ex, sync cyc arr d = (Ok r, d1) -> fit W ran (core_of d1) g -> g_pc g = PStart ->
  snd (sdrive cyc arr steps fuel d g []) <> ORaise ex.
Proof.
  intros cyc arr W ran d g steps fuel r d1 ex S F P E. pose proof (sync_settled _ _ _ _ _ S) as T.
  apply (run_never_raises W ran steps fuel (core_of d1) g [] ex F P). rewrite <- (sdrive_settled cyc arr), <- E by auto.
  destruct steps as [|k]; [auto|]. cbn [sdrive]. unfold sresume. rewrite S, (settled_sync _ _ _ T). reflexivity.
Qed.
Lemma new_fields : forall cyc arr input base conds tc deid exact du ow nx w r d, arg_graph input = Ok base ->
  new_sched cyc arr input conds tc deid exact du ow nx w = (Ok r, d) -> cs_order (d_cs d) = [] ->
  d_nodes d = gkeys base /\ d_exact d = exact /\ d_next d = nx /\ d_ctxs d = upd (fun _ => ctx_none) deid fresh_ctx /\ s_world (d_cst d) = w /\
  d_stack d = [(base, queue_of arr base)] /\ (d_last d = None \/ d_last d = Some []) /\
  d_tc d = (match tc with None => default_tc 0 1 | Some t => combine_tconds (default_tc 0 1) t end).
Proof.
  intros cyc arr input base conds tc deid exact du ow nx w r d A N O. unfold new_sched in N. rewrite A in N.
  destruct conds as [|p conds]; [injection N as _ <-; simpl; auto 10|].
  set (pc := p :: conds) in N. unfold add_condition_set in N. cbn [d_cs d_owners] in N. destruct (cs_add_set pc cs_empty ow) as [[[r'|] cs] ow'] eqn:C; [|discriminate].
  unfold set_cs in N. simpl in N.
  pose proof (sync_set_stack _ _ _ _ _ N) as (st & l & E). assert (O' : cs_order cs = []) by (rewrite E in O; exact O).
  unfold sync in N. simpl in N. rewrite O' in N. simpl in N. injection N as _ <-. simpl. auto 10.
Qed.
Lemma new_fit : forall cyc arr input base conds tc deid exact du ow nx w r d (W : world -> Prop) b tca skip,
  (forall q, Forall2 (@Permutation node) q (arr q)) -> arg_graph input = Ok base -> wf_graph base -> closed_graph base -> ~ cyclic base -> base <> [] ->
  new_sched cyc arr input conds tc deid exact du ow nx w = (Ok r, d) -> cs_order (d_cs d) = [] ->
  (forall o, nx <= o -> d_owners d o = None) -> W w ->
  (forall n c, aget n (cs_basic (d_cs d)) = Some c -> safe (gkeys base) deid W False (d_owners d) c) ->
  (forall s c, s = ESU \/ s = ES -> (tc = Some c \/ tca = Some c) -> forall x, c s = Some x -> safe (gkeys base) deid W False (d_owners d) x) ->
  exists d1, sync cyc arr d = (Ok tt, d1) /\ core_of d1 = core_of d /\ fit W False (core_of d) (new_gen deid b tca skip).
Proof.
  intros cyc arr input base conds tc deid exact du ow nx w r d W b tca skip AR AG Wf Cl Cy Ne N O Fr Ww Sb St.
  destruct (new_fields _ _ _ _ _ _ _ _ _ _ _ _ _ _ AG N O) as (F1 & F2 & F3 & F4 & F5 & F6 & F7 & F8).
  destruct (proj2 (toposort_ok_iff base Wf) Cy) as (q & TS).
  assert (S : exists d1, sync cyc arr d = (Ok tt, d1) /\ core_of d1 = core_of d).
  { unfold sync. rewrite O. destruct F7 as [L|L]; rewrite L; simpl; [rewrite F6; simpl|eauto].
    eexists. split; [reflexivity|]. unfold core_of, set_stack, top_graph, top_queue. simpl. rewrite F6. auto. }
  destruct S as (d1 & S & Ec). exists d1. split; [exact S|]. split; [exact Ec|]. clear S Ec d1.
  assert (Cn : m_ctxs (core_of d) deid = fresh_ctx) by (simpl; rewrite F4; apply upd_same).
  assert (Nn : m_nodes (core_of d) = gkeys base) by exact F1.
  assert (Gg : m_graph (core_of d) = base) by (simpl; unfold top_graph; rewrite F6; auto).
  assert (Qq : forall n, In n (gkeys base) <-> exists level, In level (queue (core_of d)) /\ In n level).
  { intros n. unfold queue. simpl. rewrite F2. unfold top_graph, top_queue. rewrite F6. destruct exact.
    - split; [intros I; exists (gkeys base); simpl; auto|intros (lv & [<-|[]] & I); auto].
    - unfold queue_of. rewrite TS. destruct (toposort_partition_ex base q Wf TS) as (_ & _ & Cov).
      assert (KG : In n (gkeys base) <-> in_graph base n) by (split; [left; auto|intros [K|(b' & K)]; [auto|eapply Cl; eauto]]).
      rewrite KG, <- Cov. split; intros (lv & L & I); apply In_nth_error in L; destruct L as (i & L).
      + destruct (Forall2_nth' _ _ _ _ _ _ _ (AR q) L) as (lv' & L' & P). exists lv'. split; [eapply nth_error_In; eauto|eapply Permutation_in; eauto].
      + destruct (Forall2_nth _ _ _ _ _ _ _ (AR q) L) as (lv' & L' & P). exists lv'. split; [eapply nth_error_In; eauto|eapply Permutation_in; [apply Permutation_sym; eauto|auto]]. }
  assert (Dd : forall s, s = ESU \/ s = ES -> exists c, default_tc 0 1 s = Some c /\ safe (gkeys base) deid W False (d_owners d) c).
  { intros s [->| ->]; simpl; eexists; split; try reflexivity; simpl; auto using incl_nil_l. }
  constructor; rewrite ?Nn, ?Gg; simpl g_eid; simpl g_base; auto.
  - eauto.
  - intros n I. destruct (aget n base) as [ds|] eqn:A; [|apply aget_None in A; contradiction]. exists ds. split; auto. intros a Ia. apply (Cl a n). exists ds. auto.
  - intros n c I B. apply Sb in B. exact B.
  - intros s D. unfold the_tc. simpl. unfold run_tc. simpl. rewrite F8. simpl in *.
    assert (T0 : exists c, match tc with None => default_tc 0 1 | Some t => combine_tconds (default_tc 0 1) t end s = Some c /\ safe (gkeys base) deid W False (d_owners d) c).
    { destruct tc as [t|]; [|auto]. unfold combine_tconds. destruct (t s) as [x|] eqn:X; [|auto]. exists x. split; auto. eapply St; eauto. }
    destruct tca as [t|]; [|exact T0]. unfold combine_tconds at 1. destruct (t s) as [x|] eqn:X; [|exact T0]. exists x. split; auto. eapply St; eauto.
  - intros o I. apply Fr. simpl in I. lia.
  - simpl. rewrite F5. auto.
  - unfold known_id. simpl g_eid. rewrite Cn. simpl. split; [left; discriminate|]. split; [left; discriminate|]. exists []. left. simpl g_eid. rewrite Cn. auto.
  - rewrite Cn. exists []. constructor. reflexivity.
  - intros _. rewrite Cn. split; [discriminate|]. destruct base; [congruence|discriminate].
Qed.
Theorem new_never_raises : forall cyc arr input base conds tc deid exact du ow nx w r d (W : world -> Prop) b tca skip steps fuel ex,
  (forall q, Forall2 (@Permutation node) q (arr q)) -> arg_graph input = Ok base -> wf_graph base -> closed_graph base -> ~ cyclic base -> base <> [] ->
  new_sched cyc arr input conds tc deid exact du ow nx w = (Ok r, d) -> cs_order (d_cs d) = [] ->
  (forall o, nx <= o -> d_owners d o = None) -> W w ->
  (forall n c, aget n (cs_basic (d_cs d)) = Some c -> safe (gkeys base) deid W False (d_owners d) c) ->
  (forall s c, s = ESU \/ s = ES -> (tc = Some c \/ tca = Some c) -> forall x, c s = Some x -> safe (gkeys base) deid W False (d_owners d) x) ->
  snd (sdrive cyc arr steps fuel d (new_gen deid b tca skip) []) <> ORaise ex.
Proof.
  intros cyc arr input base conds tc deid exact du ow nx w r d W b tca skip steps fuel ex AR AG Wf Cl Cy Ne N O Fr Ww Sb St.
  destruct (new_fit _ _ _ _ _ _ _ _ _ _ _ _ _ _ W b tca skip AR AG Wf Cl Cy Ne N O Fr Ww Sb St) as (d1 & S & Ec & F).
  apply (sched_run_never_raises cyc arr W False d (new_gen deid b tca skip) steps fuel tt d1 ex S); [|reflexivity]. rewrite Ec. exact F.
Qed.
