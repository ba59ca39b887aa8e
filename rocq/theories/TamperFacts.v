(** Schedules do not depend on what execution lists hold, unless a condition reads them. *)
From Verif Require Import SpecCond SpecTamper BaseFacts ResumeFrame RunIds.

Lemma same_ctx_refl : forall x, same_ctx x x.
Proof. intros; constructor; tauto. Qed.
Lemma same_ctx_trans : forall x y z, same_ctx x y -> same_ctx y z -> same_ctx x z.
Proof. intros x y z [] []; constructor; try congruence. tauto. Qed.
Lemma sb_refl : forall m, same_but_lists m m.
Proof. intros; constructor; auto using same_ctx_refl. Qed.
Lemma sb_trans : forall a b c, same_but_lists a b -> same_but_lists b c -> same_but_lists a c.
Proof. intros a b c [] []; constructor; try congruence. intros e. eapply same_ctx_trans; eauto. Qed.

(** the relation carried through a run: the conditions of the nodes ignore the lists *)
Definition ign (m m' : core) : Prop :=
  same_but_lists m m' /\ forall n c, aget n (m_basic m) = Some c -> ignores_lists c.
Lemma ign_ctx : forall m m' e x x', ign m m' -> same_ctx x x' -> ign (set_ctx m e x) (set_ctx m' e x').
Proof.
  intros m m' e x x' [[] B] X. split; auto. constructor; simpl; auto. intros e'. unfold upd. destruct (Nat.eqb e' e); auto.
Qed.
Lemma ign_cst : forall m m' st, ign m m' -> ign (set_cst m st) (set_cst m' st).
Proof. intros m m' st [[] B]. split; auto. constructor; simpl; auto. Qed.
Lemma ign_clock : forall m m' e, ign m m' -> the_clock (m_ctxs m' e) = the_clock (m_ctxs m e).
Proof. intros m m' e [S B]. unfold the_clock. rewrite (sc_clock _ _ (sb_ctxs _ _ S e)). auto. Qed.
Lemma ign_queue : forall m m', ign m m' -> queue m' = queue m.
Proof. intros m m' [S B]. unfold queue. rewrite (sb_exact _ _ S), (sb_graph _ _ S), (sb_levels _ _ S). auto. Qed.
Lemma ign_satisfied : forall m m' e c r m1, ign m m' -> ignores_lists c -> satisfied m e c = (r, m1) ->
  exists m1', satisfied m' e c = (r, m1') /\ ign m1 m1'.
Proof.
  intros m m' e c r m1 R IC E. unfold satisfied in *.
  assert (EV : eval (view_of m' e) e (m_owners m') c (m_cst m') = eval (view_of m e) e (m_owners m) c (m_cst m)).
  { destruct R as [S B]. rewrite (sb_owners _ _ S), (sb_cst _ _ S). pose proof (sb_ctxs _ _ S e) as X.
    destruct (x_list (m_ctxs m e)) as [l|] eqn:EL.
    - destruct (x_list (m_ctxs m' e)) as [l'|] eqn:EL'; [|apply (sc_list _ _ X) in EL'; congruence].
      assert (V : view_of m' e = with_list (view_of m e) l').
      { unfold view_of, with_list, queue, the_clock; simpl. rewrite EL', (sb_nodes _ _ S), (sb_exact _ _ S), (sb_graph _ _ S), (sb_levels _ _ S),
          (sc_total _ _ X), (sc_use _ _ X), (sc_clock _ _ X). auto. }
      rewrite V. apply IC. simpl. congruence.
    - pose proof (proj1 (sc_list _ _ X) EL) as EL'.
      assert (V : view_of m' e = view_of m e).
      { unfold view_of, queue, the_clock; simpl. rewrite EL, EL', (sb_nodes _ _ S), (sb_exact _ _ S), (sb_graph _ _ S), (sb_levels _ _ S),
          (sc_total _ _ X), (sc_use _ _ X), (sc_clock _ _ X). auto. }
      rewrite V. auto. }
  rewrite EV. destruct (eval (view_of m e) e (m_owners m) c (m_cst m)) as [r0 st]. inversion E; subst. eexists. split; [reflexivity|]. apply ign_cst; auto.
Qed.
Lemma ign_accept : forall m m' e n, ign m m' -> ign (accept m e n) (accept m' e n).
Proof.
  intros m m' e n R. unfold accept. apply ign_ctx; auto. destruct R as [S _]. pose proof (sb_ctxs _ _ S e) as [].
  constructor; simpl; auto; congruence.
Qed.
Lemma ign_round : forall level m m' e exec ch r m1, ign m m' -> round m e level exec ch = (r, m1) ->
  exists m1', round m' e level exec ch = (r, m1') /\ ign m1 m1'.
Proof.
  induction level as [|n l IH]; intros m m' e exec ch r m1 R E; simpl in *; [inversion E; subst; eauto|].
  destruct (mem n exec); [eauto|]. pose proof R as [S B]. rewrite (sb_basic _ _ S).
  destruct (aget n (m_basic m)) as [c|] eqn:EB; [|inversion E; subst; eauto].
  destruct (satisfied m e c) as [rr m2] eqn:SA. destruct (ign_satisfied _ _ _ _ _ _ R (B _ _ EB) SA) as (m2' & SA' & R2). rewrite SA'.
  destruct rr as [[|]|]; [|eauto|inversion E; subst; eauto]. rewrite (sb_nodes _ _ (proj1 R2)).
  destruct (mem n (m_nodes m2)); [|inversion E; subst; eauto]. apply (IH (accept m2 e n)); auto. apply ign_accept; auto.
Qed.
Lemma ign_level : forall fuel m m' e level exec, ign m m' ->
  match do_level fuel m e level exec with
  | None => do_level fuel m' e level exec = None
  | Some (r, m1) => exists m1', do_level fuel m' e level exec = Some (r, m1') /\ ign m1 m1'
  end.
Proof.
  induction fuel as [|f IH]; intros m m' e level exec R; simpl; auto.
  destruct (round m e level exec false) as [r m1] eqn:E. destruct (ign_round _ _ _ _ _ _ _ _ R E) as (m1' & E' & R1). rewrite E'.
  destruct r as [[ex [|]]|]; [apply IH; auto|eauto|eauto].
Qed.
Lemma ign_tc : forall m m' e tc s r m1, ign m m' -> all_ignore tc -> check_tc m e tc s = (r, m1) ->
  exists m1', check_tc m' e tc s = (r, m1') /\ ign m1 m1'.
Proof.
  intros m m' e tc s r m1 R T E. unfold check_tc in *. destruct (tc s) as [c|] eqn:C; [|inversion E; subst; eauto]. eapply ign_satisfied; eauto.
Qed.
Lemma ign_terminated : forall m m' e tc r m1, ign m m' -> all_ignore tc -> terminated m e tc = (r, m1) ->
  exists m1', terminated m' e tc = (r, m1') /\ ign m1 m1'.
Proof.
  intros m m' e tc r m1 R T E. unfold terminated in *. destruct (check_tc m e tc ESU) as [rr m2] eqn:C.
  destruct (ign_tc _ _ _ _ _ _ _ R T C) as (m2' & C' & R2). rewrite C'. destruct rr as [[|]|]; [inversion E; subst; eauto| |inversion E; subst; eauto].
  eapply ign_tc; eauto.
Qed.
Lemma ign_append : forall m m' e abs s, ign m m' ->
  match append_exec m e abs s with
  | (Ok _, m1) => exists u m1', append_exec m' e abs s = (Ok u, m1') /\ ign m1 m1'
  | (Err ex, m1) => exists m1', append_exec m' e abs s = (Err ex, m1') /\ ign m1 m1'
  end.
Proof.
  intros m m' e abs s R. pose proof (ign_clock m m' e R) as EK. pose proof R as [S B]. pose proof (sb_ctxs _ _ S e) as X. unfold append_exec.
  destruct (x_list (m_ctxs m e)) as [l|] eqn:EL.
  - destruct (x_list (m_ctxs m' e)) as [l'|] eqn:EL'; [|apply (sc_list _ _ X) in EL'; congruence]. rewrite (sc_stamps _ _ X), EK, (sc_total _ _ X), (sc_use _ _ X), (sc_clock _ _ X).
    destruct abs.
    + destruct (x_stamps (m_ctxs m e)); eexists; [eexists|]; (split; [reflexivity|]); apply ign_ctx; auto; constructor; simpl; auto; intuition discriminate.
    + eexists; eexists; (split; [reflexivity|]); apply ign_ctx; auto; constructor; simpl; auto; intuition discriminate.
  - rewrite (proj1 (sc_list _ _ X) EL). eauto.
Qed.
Lemma ign_set_clock : forall m m' e k, ign m m' -> ign (set_clock m e k) (set_clock m' e k).
Proof.
  intros m m' e k R. unfold set_clock. apply ign_ctx; auto. destruct R as [S _]. pose proof (sb_ctxs _ _ S e) as []. constructor; simpl; auto.
Qed.
Lemma ign_incr : forall s m m' e, ign m m' ->
  match incr_clock s m e with Ok m1 => exists m1', incr_clock s m' e = Ok m1' /\ ign m1 m1' | Err ex => incr_clock s m' e = Err ex end.
Proof.
  intros s m m' e R. unfold incr_clock. rewrite (ign_clock _ _ _ R). destruct (clock_incr s (the_clock (m_ctxs m e))); auto.
  eexists. split; [reflexivity|]. apply ign_set_clock; auto.
Qed.
Definition ign_inner_result (a b : inner_result) : Prop :=
  match a, b with
  | IYield m s i ch, IYield m' s' i' ch' => s' = s /\ i' = i /\ ch' = ch /\ ign m m'
  | IEnd m ch, IEnd m' ch' => ch' = ch /\ ign m m'
  | IErr m ex, IErr m' ex' => ex' = ex /\ ign m m'
  | IFuel m, IFuel m' => ign m m'
  | _, _ => False
  end.
Lemma ign_inner : forall rest m m' g i ch, ign m m' -> all_ignore (g_tc g) -> ign_inner_result (inner m g rest i ch) (inner m' g rest i ch).
Proof.
  induction rest as [|level rest IH]; intros m m' g i ch R T; [simpl; auto|]. cbn [inner].
  destruct (terminated m (g_eid g) (g_tc g)) as [r m1] eqn:E. destruct (ign_terminated _ _ _ _ _ _ R T E) as (m1' & E' & R1). rewrite E'.
  destruct r as [[|]|ex]; [simpl; auto| |simpl; auto].
  pose proof (ign_level (S (length level)) _ _ (g_eid g) level [] R1) as L. destruct (do_level (S (length level)) m1 (g_eid g) level []) as [[rr m2]|].
  - destruct L as (m2' & L & R2). rewrite L. destruct rr as [exec|ex]; simpl; auto.
    destruct (nonempty exec || g_abs g); [|apply IH; auto].
    pose proof (ign_append _ _ (g_eid g) (g_abs g) exec R2) as A. destruct (append_exec m2 (g_eid g) (g_abs g) exec) as [[u|ex] m3].
    + destruct A as (u' & m3' & A & R3). rewrite A. simpl. auto.
    + destruct A as (m3' & A & R3). rewrite A. simpl. auto.
  - rewrite L. simpl. auto.
Qed.
Definition ign_tail_result (a b : tail_result) : Prop :=
  match a, b with
  | TYield m, TYield m' => ign m m'
  | TNext m, TNext m' => ign m m'
  | TErr m ex, TErr m' ex' => ex' = ex /\ ign m m'
  | _, _ => False
  end.
Lemma ign_tail : forall m m' g ch, ign m m' -> ign_tail_result (pass_tail m g ch) (pass_tail m' g ch).
Proof.
  intros m m' g ch R. unfold pass_tail. destruct (negb ch && negb (g_abs g)).
  - pose proof (ign_append _ _ (g_eid g) false [] R) as A. destruct (append_exec m (g_eid g) false []) as [[u|ex] m3].
    + destruct A as (u' & m3' & A & R3). rewrite A. simpl. auto.
    + destruct A as (m3' & A & R3). rewrite A. simpl. auto.
  - pose proof (ign_incr PASS _ _ (g_eid g) R) as A. destruct (incr_clock PASS m (g_eid g)) as [m1|ex].
    + destruct A as (m1' & A & R1). rewrite A. simpl. auto.
    + rewrite A. simpl. auto.
Qed.
Definition tcarg_ignores (a : option tconds) : Prop := forall tc, a = Some tc -> all_ignore tc.
Definition gen_ignores (g : gen) : Prop := all_ignore (g_tc g) /\ tcarg_ignores (g_tcarg g).
Lemma gen_at : forall g p, gen_ignores g -> gen_ignores (at_pc g p).
Proof. auto. Qed.
Definition ign_out (a b : core * gen * outcome) : Prop :=
  match a, b with (m, g, o), (m', g', o') => ign m m' /\ g' = g /\ same_outcome o o' /\ gen_ignores g end.
Lemma same_outcome_refl : forall o, same_outcome o o.
Proof. intros []; simpl; auto. Qed.
Lemma ign_finish : forall m m' g, ign m m' -> gen_ignores g -> ign_out (finish m g) (finish m' g).
Proof.
  intros m m' g R T. unfold finish.
  assert (A : match (if g_skip g then Ok m else incr_clock ESU m (g_eid g)) with
    | Ok m1 => exists m1', (if g_skip g then Ok m' else incr_clock ESU m' (g_eid g)) = Ok m1' /\ ign m1 m1'
    | Err ex => (if g_skip g then Ok m' else incr_clock ESU m' (g_eid g)) = Err ex end).
  { destruct (g_skip g); [eauto|]. apply ign_incr; auto. }
  destruct (if g_skip g then Ok m else incr_clock ESU m (g_eid g)) as [m1|ex].
  - destruct A as (m1' & A & R1). rewrite A. destruct (check_tc m1 (g_eid g) (g_tc g) ES) as [r m2] eqn:C.
    destruct (ign_tc _ _ _ _ _ _ _ R1 (proj1 T) C) as (m2' & C' & R2). rewrite C'. destruct r as [b|ex]; [|simpl; auto].
    pose proof (sb_ctxs _ _ (proj1 R2) (g_eid g)) as X. destruct (x_list (m_ctxs m2 (g_eid g))) as [l|] eqn:EL.
    + destruct (x_list (m_ctxs m2' (g_eid g))) as [l'|] eqn:EL'; [|apply (sc_list _ _ X) in EL'; congruence]. simpl. auto.
    + rewrite (proj1 (sc_list _ _ X) EL). simpl. auto.
  - rewrite A. simpl. auto.
Qed.
Lemma ign_reset_total : forall s m m' e, ign m m' -> ign (reset_counts_total s m e) (reset_counts_total s m' e).
Proof.
  intros s m m' e R. unfold reset_counts_total. apply ign_ctx; auto. destruct R as [S _]. pose proof (sb_ctxs _ _ S e) as [].
  constructor; simpl; auto; congruence.
Qed.
Lemma ign_reset_useable : forall m m' e, ign m m' -> ign (reset_counts_useable m e) (reset_counts_useable m' e).
Proof.
  intros m m' e R. unfold reset_counts_useable. apply ign_ctx; auto. destruct R as [S _]. pose proof (sb_ctxs _ _ S e) as [].
  constructor; simpl; auto; congruence.
Qed.
Lemma ign_continue : forall (k k' : core -> core * gen * outcome) m m' g rest i ch, ign m m' -> gen_ignores g ->
  (forall a b, ign a b -> ign_out (k a) (k' b)) ->
  ign_out (match inner m g rest i ch with
           | IYield m3 s i ch => (m3, at_pc g (PLevel i ch), OYield s)
           | IErr m3 ex => (m3, at_pc g PDone, ORaise ex)
           | IFuel m3 => (m3, g, OFuel)
           | IEnd m3 ch => match pass_tail m3 g ch with
                           | TYield m4 => (m4, at_pc g PIdle, OYield [])
                           | TErr m4 ex => (m4, at_pc g PDone, ORaise ex)
                           | TNext m4 => k m4
                           end
           end)
          (match inner m' g rest i ch with
           | IYield m3 s i ch => (m3, at_pc g (PLevel i ch), OYield s)
           | IErr m3 ex => (m3, at_pc g PDone, ORaise ex)
           | IFuel m3 => (m3, g, OFuel)
           | IEnd m3 ch => match pass_tail m3 g ch with
                           | TYield m4 => (m4, at_pc g PIdle, OYield [])
                           | TErr m4 ex => (m4, at_pc g PDone, ORaise ex)
                           | TNext m4 => k' m4
                           end
           end).
Proof.
  intros k k' m m' g rest i ch R T K. pose proof (ign_inner rest _ _ g i ch R (proj1 T)) as A.
  destruct (inner m g rest i ch) as [m3 s3 i3 c3|m3 c3|m3 x3|m3], (inner m' g rest i ch) as [m4 s4 i4 c4|m4 c4|m4 x4|m4]; simpl in A; try tauto.
  - destruct A as (-> & -> & -> & A). simpl. auto.
  - destruct A as (-> & A). pose proof (ign_tail _ _ g c3 A) as B.
    destruct (pass_tail m3 g c3) as [m5|m5|m5 x5], (pass_tail m4 g c3) as [m6|m6|m6 x6]; simpl in B; try tauto.
    + simpl. auto.
    + apply K; auto.
    + destruct B as (-> & B). simpl. auto.
  - destruct A as (-> & A). simpl. auto.
  - simpl. auto.
Qed.
Lemma ign_outer : forall fuel m m' g, ign m m' -> gen_ignores g -> ign_out (outer fuel m g) (outer fuel m' g).
Proof.
  induction fuel as [|f IH]; intros m m' g R T; [simpl; auto|]. cbn [outer].
  destruct (terminated m (g_eid g) (g_tc g)) as [r m1] eqn:E. destruct (ign_terminated _ _ _ _ _ _ R (proj1 T) E) as (m1' & E' & R1). rewrite E'.
  destruct r as [[|]|ex]; [apply ign_finish; auto| |simpl; auto].
  pose proof (ign_reset_total PASS _ _ (g_eid g) R1) as R2. cbv zeta. rewrite (ign_queue _ _ R2).
  apply (ign_continue (fun m => outer f m g) (fun m => outer f m g)); auto.
Qed.

(** ** the start of a run *)
Lemma sum_calls_list : forall v l s ds k, sum_calls (with_list v l) s ds k = sum_calls v s ds k.
Proof. induction ds as [|d r IH]; intros k; simpl; auto. unfold count_total; simpl. destruct (v_total v); simpl; auto. destruct (mem d (v_nodes v)); simpl; auto. Qed.
Lemma all_have_run_list : forall v l s ds, all_have_run (with_list v l) s ds = all_have_run v s ds.
Proof. induction ds as [|d r IH]; simpl; auto. rewrite IH. auto. Qed.
Lemma built_in_ignores : forall c, without_just_ran c = true -> ignores_lists c.
Proof.
  intros c P v e ow st l H. revert P st. induction c using cond_ind'; intros P st.
  - assert (A : eval_atom (with_list v l) e (ow o) a (s_world st) = eval_atom v e (ow o) a (s_world st)).
    { destruct a; simpl in *; try discriminate; auto.
      - rewrite sum_calls_list. auto.
      - unfold deps_or_nodes. simpl. rewrite all_have_run_list. auto. }
    simpl. rewrite A. auto.
  - simpl in *. revert st. induction H0 as [|x r Hx Hr IH]; intros st; auto.
    simpl in P. apply andb_true_iff in P. destruct P as [Px Pr]. rewrite (Hx Px st).
    destruct (eval v e ow x st) as [[[|]|ex] st1]; simpl; auto.
  - simpl in *. revert st. induction H0 as [|x r Hx Hr IH]; intros st; auto.
    simpl in P. apply andb_true_iff in P. destruct P as [Px Pr]. rewrite (Hx Px st).
    destruct (eval v e ow x st) as [[[|]|ex] st1]; simpl; auto.
  - simpl in *. rewrite (IHc P st). auto.
  - simpl in *. rewrite (IHc P st). auto.
Qed.

Lemma default_ignores : forall k ds, ignores_lists (fst (default_cond k ds)).
Proof.
  intros k ds. apply built_in_ignores. assert (P : forall r j, forallb without_just_ran (default_parts j r) = true) by (induction r; intros; simpl; auto).
  destruct ds as [|d [|d2 r]]; simpl; auto.
Qed.
Lemma ign_basic : forall m m' b ow nx, ign m m' -> (forall n c, aget n b = Some c -> ignores_lists c) -> ign (set_basic m b ow nx) (set_basic m' b ow nx).
Proof. intros m m' b ow nx [[] B] H. split; auto. constructor; simpl; auto. Qed.
Lemma ign_defaults : forall ns m m', ign m m' ->
  match add_defaults ns m with Ok m1 => exists m1', add_defaults ns m' = Ok m1' /\ ign m1 m1' | Err ex => add_defaults ns m' = Err ex end.
Proof.
  induction ns as [|n ns IH]; intros m m' R; simpl; [eauto|]. pose proof R as [S B].
  rewrite (sb_basic _ _ S), (sb_graph _ _ S), (sb_owners _ _ S), (sb_next _ _ S).
  destruct (ahas n (m_basic m)); [apply IH; auto|]. destruct (aget n (m_graph m)) as [deps|]; auto.
  pose proof (default_ignores (m_next m) deps) as D. destruct (default_cond (m_next m) deps) as [c nx]. simpl in D.
  apply IH. apply ign_basic; auto. intros n' c'. destruct (Nat.eq_dec n' n) as [->|NE].
  - rewrite aget_aset_same. intros X; inversion X; subst; auto.
  - rewrite aget_aset_other by auto. apply B.
Qed.
Lemma ign_absolute : forall m m' tc, ign m m' -> absolute_conditions m' tc = absolute_conditions m tc /\ unit_of m' tc = unit_of m tc.
Proof.
  intros m m' tc R. pose proof (ign_queue _ _ R) as Q. destruct R as [S B].
  assert (A : absolute_conditions m' tc = absolute_conditions m tc) by (unfold absolute_conditions; rewrite (sb_basic _ _ S); auto).
  split; auto. unfold unit_of. rewrite A, Q, (sb_exact _ _ S), (sb_unit _ _ S). auto.
Qed.
Lemma ign_setup : forall m m' e tc, ign m m' ->
  match setup_absolute m e tc with Ok m1 => exists m1', setup_absolute m' e tc = Ok m1' /\ ign m1 m1' | Err ex => setup_absolute m' e tc = Err ex end.
Proof.
  intros m m' e tc R. destruct (ign_absolute _ _ tc R) as [A U]. unfold setup_absolute. rewrite A, U, (ign_clock _ _ _ R).
  destruct (absolute_conditions m tc); [eexists; split; [reflexivity|apply ign_set_clock; auto]|].
  destruct (unit_of m tc); auto. eexists; split; [reflexivity|apply ign_set_clock; auto].
Qed.
Lemma ign_init : forall m m' e b, ign m m' ->
  match init_counts_base m e b with (r, m1) => exists m1', init_counts_base m' e b = (r, m1') /\ ign m1 m1' end.
Proof.
  intros m m' e b R. pose proof (sb_ctxs _ _ (proj1 R) e) as [T U L S K]. pose proof (sb_ctxs _ _ (proj1 R) b) as [T' U' L' S' K'].
  unfold init_counts_base. rewrite T, T', U, U', S, K, K'.
  destruct (copy_entry (x_total (m_ctxs m e)) (x_total (m_ctxs m b))) as [t|ex]; [|eauto].
  destruct (copy_entry (x_use (m_ctxs m e)) (x_use (m_ctxs m b))) as [u|ex].
  2:{ eexists. split; [reflexivity|]. apply ign_ctx; auto. constructor; simpl; auto. }
  assert (C : match copy_entry (x_list (m_ctxs m e)) (x_list (m_ctxs m b)), copy_entry (x_list (m_ctxs m' e)) (x_list (m_ctxs m' b)) with
              | Ok (Some _), Ok (Some _) => True | Err ex, Err ex' => ex' = ex | _, _ => False end).
  { unfold copy_entry. destruct (x_list (m_ctxs m e)), (x_list (m_ctxs m' e)); auto; try (exfalso; intuition congruence).
    destruct (x_list (m_ctxs m b)), (x_list (m_ctxs m' b)); auto; exfalso; intuition congruence. }
  destruct (copy_entry (x_list (m_ctxs m e)) (x_list (m_ctxs m b))) as [[l|]|ex], (copy_entry (x_list (m_ctxs m' e)) (x_list (m_ctxs m' b))) as [[l'|]|ex']; try tauto.
  - destruct (copy_entry (x_clock (m_ctxs m e)) (x_clock (m_ctxs m b))); eexists; (split; [reflexivity|]); apply ign_ctx; auto; constructor; simpl; auto; intuition discriminate.
  - subst ex'. eexists. split; [reflexivity|]. apply ign_ctx; auto. constructor; simpl; auto.
Qed.
Lemma ign_start : forall m m' g, ign m m' -> all_ignore (m_tconds m) -> tcarg_ignores (g_tcarg g) ->
  match start m g with (r, m1) => exists m1', start m' g = (r, m1') /\ ign m1 m1' /\ forall g1, r = Ok g1 -> gen_ignores g1 end.
Proof.
  intros m m' g R MT TA. unfold start, validate_run_state. rewrite (sb_graph _ _ (proj1 R)), (sb_nodes _ _ (proj1 R)).
  destruct (toposort (m_graph m)); try (eexists; split; [reflexivity|]; split; auto; discriminate).
  pose proof (ign_defaults (m_nodes m) _ _ R) as D. destruct (add_defaults (m_nodes m) m) as [m1|ex] eqn:ED.
  2:{ rewrite D. eexists; split; [reflexivity|]; split; auto; discriminate. }
  destruct D as (m1' & D & R1). rewrite D.
  destruct (add_defaults_rest _ _ _ ED) as (_ & _ & MT1 & _). cbv zeta. rewrite (sb_tconds _ _ (proj1 R1)), (ign_clock _ _ _ R1).
  set (tc := match g_tcarg g with None => m_tconds m1 | Some a => combine_tconds (m_tconds m1) a end).
  assert (IT : all_ignore tc).
  { unfold tc. rewrite MT1. destruct (g_tcarg g) as [a|]; auto. intros s c. unfold combine_tconds. destruct (a s) eqn:AS; [|apply MT].
    intros X; inversion X; subst. eapply (TA a); eauto. }
  pose proof (ign_set_clock _ _ (g_eid g) (the_clock (m_ctxs m1 (g_eid g))) R1) as R2.
  pose proof (ign_setup _ _ (g_eid g) tc R2) as SU.
  rewrite (proj1 (ign_absolute _ _ tc R2)).
  destruct (setup_absolute (set_clock m1 (g_eid g) (the_clock (m_ctxs m1 (g_eid g)))) (g_eid g) tc) as [m3|ex].
  2:{ rewrite SU. eexists; split; [reflexivity|]; split; auto; discriminate. }
  destruct SU as (m3' & SU & R3). rewrite SU. pose proof (ign_init _ _ (g_eid g) (g_base g) R3) as IN.
  destruct (init_counts_base m3 (g_eid g) (g_base g)) as [r m4]. destruct IN as (m4' & IN & R4). rewrite IN.
  destruct r as [u|ex]; [|eexists; split; [reflexivity|]; split; auto; discriminate].
  eexists. split; [reflexivity|]. split; [apply ign_reset_total, ign_reset_useable; auto|]. intros g1 X. inversion X; subst. split; auto.
Qed.
Theorem ign_resume : forall fuel m m' g, ign m m' -> all_ignore (m_tconds m) -> gen_ignores g ->
  ign_out (resume fuel m g) (resume fuel m' g).
Proof.
  intros fuel m m' g R MT GT. unfold resume. destruct (g_pc g) as [|i ch| |].
  - pose proof (ign_start _ _ g R MT (proj2 GT)) as S. destruct (start m g) as [r m1]. destruct S as (m1' & S & R1 & T). rewrite S.
    destruct r as [g1|ex]; [apply ign_outer; auto|simpl; auto].
  - pose proof (ign_incr CSE _ _ (g_eid g) R) as A. destruct (incr_clock CSE m (g_eid g)) as [m1|ex]; [|rewrite A; simpl; auto].
    destruct A as (m1' & A & R1). rewrite A. rewrite (ign_queue _ _ R1). apply (ign_continue (fun m => outer fuel m g) (fun m => outer fuel m g)); auto.
    intros a b X. apply ign_outer; auto.
  - pose proof (ign_incr CSE _ _ (g_eid g) R) as A. destruct (incr_clock CSE m (g_eid g)) as [m1|ex]; [|rewrite A; simpl; auto].
    destruct A as (m1' & A & R1). rewrite A. pose proof (ign_incr PASS _ _ (g_eid g) R1) as B. destruct (incr_clock PASS m1 (g_eid g)) as [m2|ex]; [|rewrite B; simpl; auto].
    destruct B as (m2' & B & R2). rewrite B. apply ign_outer; auto.
  - simpl. auto.
Qed.

(** ** whole runs *)
Lemma drive_keeps : forall t steps fuel m m' g acc, (forall k x, same_but_lists x (t k x)) -> ign m m' -> all_ignore (m_tconds m) -> gen_ignores g ->
  match drive steps fuel m g acc, drive_tampering t steps fuel m' g acc with
  | (m1, g1, ys1, o1), (m2, g2, ys2, o2) => ign m1 m2 /\ g2 = g1 /\ ys2 = ys1 /\ same_outcome o1 o2
  end.
Proof.
  intros t. induction steps as [|k IH]; intros fuel m m' g acc HT R MT GT; simpl; auto.
  assert (R' : ign m (t (length acc) m')) by (destruct R as [S B]; split; auto; eapply sb_trans; eauto).
  pose proof (ign_resume fuel _ _ g R' MT GT) as P. destruct (resume fuel m g) as [[m1 g1] o1] eqn:E.
  destruct (resume fuel (t (length acc) m') g) as [[m2 g2] o2]. destruct P as (R1 & -> & O & GT1).
  assert (MT1 : all_ignore (m_tconds m1)). { rewrite (gw_tconds _ _ _ (grown_resume _ _ _ _ _ _ E)). auto. }
  destruct o1 as [s|l|ex| |]; destruct o2 as [s2|l2|ex2| |]; simpl in O; try discriminate; auto; inversion O; subst; auto.
  apply IH; auto.
Qed.
Lemma change_last_lists : forall f e m, same_but_lists m (change_last f e m).
Proof.
  intros f e m. unfold change_last. destruct (x_list (m_ctxs m e)) as [l|] eqn:EL; [|apply sb_refl]. destruct (rev l) as [|last r]; [apply sb_refl|].
  constructor; simpl; auto. intros e'. unfold upd. destruct (Nat.eqb_spec e' e) as [->|D]; [|apply same_ctx_refl].
  constructor; simpl; auto. rewrite EL. intuition discriminate.
Qed.
