(** Structure of runs: what each part of [run] does to the state. *)
From Verif Require Export SpecRun BaseFacts TimeProofs.

(* split conjunctions only (not records) *)
Ltac splits := repeat match goal with |- _ /\ _ => split end; auto.

(** ** Frames *)
(* only the condition state changed *)
Record cst_only (m m' : core) : Prop := {
  co_eq : m' = set_cst m (m_cst m')
}.
Lemma cst_only_refl : forall m, cst_only m m.
Proof. intros []; constructor; reflexivity. Qed.
Lemma cst_only_trans : forall a b c, cst_only a b -> cst_only b c -> cst_only a c.
Proof. intros a b c [H1] [H2]; constructor. rewrite H2 at 1. rewrite H1. reflexivity. Qed.
Lemma cst_only_set : forall m st, cst_only m (set_cst m st).
Proof. intros; constructor; reflexivity. Qed.
Lemma cst_only_ctxs : forall m m', cst_only m m' -> m_ctxs m' = m_ctxs m.
Proof. intros m m' [H]; rewrite H; reflexivity. Qed.
Lemma cst_only_basic : forall m m', cst_only m m' -> m_basic m' = m_basic m.
Proof. intros m m' [H]; rewrite H; reflexivity. Qed.
Lemma cst_only_owners : forall m m', cst_only m m' -> m_owners m' = m_owners m.
Proof. intros m m' [H]; rewrite H; reflexivity. Qed.
Lemma cst_only_queue : forall m m', cst_only m m' -> queue m' = queue m.
Proof. intros m m' [H]; rewrite H; reflexivity. Qed.
Lemma cst_only_view : forall m m' e, cst_only m m' -> view_of m' e = view_of m e.
Proof. intros m m' e [H]; rewrite H; reflexivity. Qed.

Section Frames.
Context {tc : tconds}.   (* the termination conditions of the run *)
Lemma satisfied_cst : forall m e c r m', satisfied m e c = (r, m') -> cst_only m m'.
Proof. intros m e c r m' H; unfold satisfied in H. destruct (eval _ _ _ _ _); inversion H; subst. apply cst_only_set. Qed.

(** [frame e m m']: nothing but the entries of e changed, and the condition state only by
    evaluating conditions of the run *)
Record frame (e : eid) (m m' : core) : Prop := {
  fr_nodes : m_nodes m' = m_nodes m;
  fr_graph : m_graph m' = m_graph m;
  fr_levels : m_levels m' = m_levels m;
  fr_exact : m_exact m' = m_exact m;
  fr_unit : m_default_unit m' = m_default_unit m;
  fr_tconds : m_tconds m' = m_tconds m;
  fr_basic : m_basic m' = m_basic m;
  fr_owners : m_owners m' = m_owners m;
  fr_next : m_next m' = m_next m;
  fr_other : forall e', e' <> e -> m_ctxs m' e' = m_ctxs m e';
  fr_cst : evolves (used m tc) e (m_owners m) (m_cst m) (m_cst m')
}.
Lemma evolves_trans : forall cs e ow a b c, evolves cs e ow a b -> evolves cs e ow b c -> evolves cs e ow a c.
Proof. intros cs e ow a b c H1 H2; induction H2; auto. apply ev_eval; auto. Qed.
Lemma evolves_used : forall m m' e ow a b, m_basic m' = m_basic m -> evolves (used m' tc) e ow a b -> evolves (used m tc) e ow a b.
Proof. intros m m' e ow a b E H; induction H; constructor; auto. unfold used in *; rewrite <- E; auto. Qed.
Lemma frame_refl : forall e m, frame e m m.
Proof. intros; constructor; auto. constructor. Qed.
Lemma frame_trans : forall e a b c, frame e a b -> frame e b c -> frame e a c.
Proof.
  intros e a b c [] []; constructor; intros; try congruence.
  - rewrite fr_other1, fr_other0; auto.
  - eapply evolves_trans; eauto. rewrite <- fr_owners0. eapply evolves_used; eauto.
Qed.
Lemma satisfied_frame : forall m e c r m', used m tc c -> satisfied m e c = (r, m') -> frame e m m'.
Proof.
  intros m e c r m' U H. assert (C := satisfied_cst _ _ _ _ _ H). destruct C as [C].
  unfold satisfied in H. destruct (eval (view_of m e) e (m_owners m) c (m_cst m)) as [r' st] eqn:E. inversion H; subst.
  constructor; auto. simpl. replace st with (snd (eval (view_of m e) e (m_owners m) c (m_cst m))) by (rewrite E; auto).
  apply ev_eval; auto. constructor.
Qed.
Lemma frame_set_ctx : forall e m x, frame e m (set_ctx m e x).
Proof. intros; constructor; simpl; auto. - intros; apply upd_other; auto. - constructor. Qed.
Lemma frame_queue : forall e m m', frame e m m' -> queue m' = queue m.
Proof. intros e m m' H; unfold queue. rewrite (fr_exact _ _ _ H), (fr_graph _ _ _ H), (fr_levels _ _ _ H); auto. Qed.
Lemma set_ctx_at : forall m e x, m_ctxs (set_ctx m e x) e = x.
Proof. intros; simpl; apply upd_same. Qed.

(** ** Actions on the entries of one execution id *)
Inductive act := AAccept (n : node) | AReset | AAppend (abs : bool) (s : list node) | AIncr (s : timescale).
Definition ctx_accept (n : node) (x : ctx) : ctx :=
  mkCtx (option_map (bump_total n) (x_total x)) (option_map (spend_use n) (x_use x)) (x_list x) (x_stamps x) (x_clock x).
Definition ctx_reset (x : ctx) : ctx :=
  mkCtx (option_map (reset_total PASS) (x_total x)) (x_use x) (x_list x) (x_stamps x) (x_clock x).
Definition ctx_accepts (s : list node) (x : ctx) : ctx := fold_left (fun x n => ctx_accept n x) s x.
Lemma ctx_accepts_app : forall a b x, ctx_accepts (a ++ b) x = ctx_accepts b (ctx_accepts a x).
Proof. intros; unfold ctx_accepts; apply fold_left_app. Qed.
Lemma ctx_accepts_other : forall s x, x_list (ctx_accepts s x) = x_list x /\ x_stamps (ctx_accepts s x) = x_stamps x
  /\ x_clock (ctx_accepts s x) = x_clock x.
Proof.
  induction s as [|n s IH]; intros x; [simpl; auto|].
  change (ctx_accepts (n :: s) x) with (ctx_accepts s (ctx_accept n x)).
  destruct (IH (ctx_accept n x)) as (A & B & C). rewrite A, B, C. simpl; auto.
Qed.

(** ** Views *)
Definition with_counts (v : view) (x : ctx) : view :=
  mkView (v_nodes v) (v_queue v) (v_exact_mode v) (x_total x) (x_use x) (v_list v) (v_clock v).

(** ** One consideration set *)
Lemma accept_spec : forall m e n, frame e m (accept m e n) /\ m_ctxs (accept m e n) e = ctx_accept n (m_ctxs m e)
   /\ m_cst (accept m e n) = m_cst m.
Proof. intros; unfold accept. split; [apply frame_set_ctx|split; [rewrite set_ctx_at; reflexivity|reflexivity]]. Qed.

(** n's condition was satisfied, in the state m of the scheduler apart from the condition
    state, with the entries of e being x *)
Definition sat_at (m : core) (e : eid) (x : ctx) (n : node) (b : bool) : Prop :=
  exists c st st', aget n (m_basic m) = Some c /\
    evolves (used m tc) e (m_owners m) (m_cst m) st /\
    eval (view_of (set_ctx m e x) e) e (m_owners m) c st = (Ok b, st').

Lemma view_of_frame : forall e m m', frame e m m' -> view_of m' e = view_of (set_ctx m e (m_ctxs m' e)) e.
Proof.
  intros e m m' H. unfold view_of. rewrite set_ctx_at.
  rewrite (frame_queue _ _ _ H), (fr_nodes _ _ _ H), (fr_exact _ _ _ H). reflexivity.
Qed.
Lemma sat_at_intro : forall e m m' n c b m2, frame e m m' -> aget n (m_basic m') = Some c ->
  satisfied m' e c = (Ok b, m2) -> sat_at m e (m_ctxs m' e) n b.
Proof.
  intros e m m' n c b m2 F E H. exists c, (m_cst m').
  unfold satisfied in H. destruct (eval (view_of m' e) e (m_owners m') c (m_cst m')) as [r st] eqn:Ev.
  inversion H; subst. exists st. rewrite <- (fr_basic _ _ _ F); splits.
  - apply (fr_cst _ _ _ F).
  - rewrite <- (view_of_frame _ _ _ F), <- (fr_owners _ _ _ F); auto.
Qed.
Lemma sat_at_frame : forall e m m' x n b, frame e m m' -> sat_at m' e x n b -> sat_at m e x n b.
Proof.
  intros e m m' x n b F (c & st & st' & E & Ev & H). exists c, st, st'.
  rewrite <- (fr_basic _ _ _ F); splits.
  { eapply evolves_trans; [apply (fr_cst _ _ _ F)|]. rewrite <- (fr_owners _ _ _ F).
    eapply evolves_used; [apply (fr_basic _ _ _ F)|auto]. }
  rewrite <- (fr_owners _ _ _ F).
  assert (V : view_of (set_ctx m e x) e = view_of (set_ctx m' e x) e).
  { unfold view_of. rewrite !set_ctx_at. unfold queue; simpl.
    rewrite (fr_nodes _ _ _ F), (fr_exact _ _ _ F), (fr_graph _ _ _ F), (fr_levels _ _ _ F); auto. }
  rewrite V; auto.
Qed.

(** what a (part of a) level did: nodes [added] were added, in this order, to [exec] *)
Record added_ok (m : core) (e : eid) (level exec added : list node) (m' : core) : Prop := {
  ad_frame : frame e m m';
  ad_ctx : m_ctxs m' e = ctx_accepts added (m_ctxs m e);
  ad_incl : incl added level;
  ad_nodup : NoDup exec -> NoDup (exec ++ added);
  ad_sound : forall p n r, added = p ++ n :: r -> sat_at m e (ctx_accepts p (m_ctxs m e)) n true
}.
Lemma added_ok_nil : forall m e level exec m', frame e m m' -> m_ctxs m' e = m_ctxs m e -> added_ok m e level exec [] m'.
Proof.
  intros m e level exec m' H Hx. constructor.
  - auto.
  - auto.
  - intros x [].
  - rewrite app_nil_r; auto.
  - intros p n r E; destruct p; discriminate.
Qed.
Lemma added_ok_incl : forall m e l l' exec a m', incl l l' -> added_ok m e l exec a m' -> added_ok m e l' exec a m'.
Proof. intros m e l l' exec a m' I []; constructor; auto. eapply incl_tran; eauto. Qed.
Lemma added_ok_app : forall m e l exec a b m1 m2,
  added_ok m e l exec a m1 -> added_ok m1 e l (exec ++ a) b m2 -> added_ok m e l exec (a ++ b) m2.
Proof.
  intros m e l exec a b m1 m2 [] []; constructor.
  - eapply frame_trans; eauto.
  - rewrite ctx_accepts_app, <- ad_ctx0; auto.
  - apply incl_app; auto.
  - intros N; rewrite app_assoc; auto.
  - intros p n r E.
    destruct (Nat.le_gt_cases (length a) (length p)) as [L|L].
    + (* in b *) assert (P : exists p', p = a ++ p' /\ b = p' ++ n :: r).
      { clear - E L. revert p E L; induction a as [|x a IH]; intros p E L; simpl in *; [eauto|].
        destruct p as [|y p]; simpl in *; [lia|]. inversion E; subst.
        destruct (IH p) as (p' & -> & ->); auto; [lia|]. eauto. }
      destruct P as (p' & -> & ->). rewrite ctx_accepts_app, <- ad_ctx0.
      eapply sat_at_frame; eauto.
    + assert (P : exists r', a = p ++ n :: r').
      { clear - E L. revert a E L; induction p as [|x p IH]; intros a E L; destruct a as [|y a]; simpl in *; try lia;
        inversion E; subst; eauto. destruct (IH a) as (r' & ->); auto; [lia|eauto]. }
      destruct P as (r' & ->). eapply ad_sound0; eauto.
Qed.

Lemma round_spec : forall level m e exec ch exec' ch' m',
  round m e level exec ch = (Ok (exec', ch'), m') ->
  exists added, exec' = exec ++ added /\ ch' = ch || nonempty added /\ added_ok m e level exec added m'
  /\ (added = [] -> forall n, In n level -> ~ In n exec -> sat_at m e (m_ctxs m e) n false).
Proof.
  induction level as [|n r IH]; intros m e exec ch exec' ch' m' H; simpl in H.
  - inversion H; subst. exists []. rewrite app_nil_r, orb_false_r. splits.
    + apply added_ok_nil; auto using frame_refl. + intros _ x [].
  - destruct (mem n exec) eqn:M.
    + destruct (IH _ _ _ _ _ _ _ H) as (ad & -> & -> & A & B). exists ad. splits.
      * eapply added_ok_incl; [|exact A]. intros x Hx; right; auto.
      * intros E x [->|Hx] Nx; auto. apply mem_In in M; contradiction.
    + destruct (aget n (m_basic m)) as [c|] eqn:Ec; [|discriminate].
      destruct (satisfied m e c) as [[[|]|ex] m1] eqn:Es; [| |discriminate].
      * destruct (mem n (m_nodes m1)); [|discriminate].
        destruct (accept_spec m1 e n) as (F1 & X1 & _).
        assert (C1 := satisfied_cst _ _ _ _ _ Es).
        assert (G1 : frame e m m1) by (eapply satisfied_frame; eauto; left; eauto).
        destruct (IH _ _ _ _ _ _ _ H) as (ad & -> & -> & A & B). exists (n :: ad).
        rewrite <- app_assoc; simpl. splits.
        { simpl; rewrite orb_true_r; auto. }
        2: { discriminate. }
        change (n :: ad) with ([n] ++ ad). apply added_ok_app with (m1 := accept m1 e n).
        { constructor.
          - eapply frame_trans; eauto.
          - rewrite X1, (cst_only_ctxs _ _ C1); auto.
          - intros x [->|[]]; left; auto.
          - intros N; apply NoDup_app_intro; auto.
            + constructor; [intros []|constructor].
            + intros x Hx [->|[]]. apply mem_In in Hx; congruence.
          - intros p n' r' E. destruct p as [|y p]; simpl in E.
            + inversion E; subst. eapply sat_at_intro; eauto. apply frame_refl.
            + destruct p; discriminate. }
        { eapply added_ok_incl; [|exact A]. intros x Hx; right; auto. }
      * assert (C1 := satisfied_cst _ _ _ _ _ Es).
        assert (G1 : frame e m m1) by (eapply satisfied_frame; eauto; left; eauto).
        destruct (IH _ _ _ _ _ _ _ H) as (ad & -> & -> & A & B). exists ad. splits.
        { change ad with ([] ++ ad). apply added_ok_app with (m1 := m1).
          - apply added_ok_nil; auto. rewrite (cst_only_ctxs _ _ C1); auto.
          - rewrite app_nil_r. eapply added_ok_incl; [|exact A]. intros x Hx; right; auto. }
        { intros E x [->|Hx] Nx.
          - eapply sat_at_intro; eauto; apply frame_refl.
          - specialize (B E x Hx Nx). rewrite (cst_only_ctxs _ _ C1) in B.
            eapply sat_at_frame; [exact G1|auto]. }
Qed.

(** a complete level: as above from nothing, and nothing more can be added *)
Record level_ok (m : core) (e : eid) (level s : list node) (m' : core) : Prop := {
  lv_added : added_ok m e level [] s m';
  lv_max : forall n, In n level -> ~ In n s -> sat_at m e (ctx_accepts s (m_ctxs m e)) n false
}.
Lemma do_level_spec : forall fuel m e level exec s m',
  do_level fuel m e level exec = Some (Ok s, m') ->
  exists added, s = exec ++ added /\ added_ok m e level exec added m'
  /\ (forall n, In n level -> ~ In n s -> sat_at m e (ctx_accepts added (m_ctxs m e)) n false).
Proof.
  induction fuel as [|f IH]; intros m e level exec s m' H; simpl in H; [discriminate|].
  destruct (round m e level exec false) as [[[exec' [|]]|ex] m1] eqn:R; [| |discriminate].
  - destruct (round_spec _ _ _ _ _ _ _ _ R) as (a & -> & _ & A & _).
    destruct (IH _ _ _ _ _ _ H) as (b & -> & B & M). exists (a ++ b). rewrite app_assoc. splits.
    + eapply added_ok_app; eauto.
    + intros n I N. specialize (M n I). rewrite <- app_assoc in *. specialize (M N).
      rewrite ctx_accepts_app, <- (ad_ctx _ _ _ _ _ _ A). eapply sat_at_frame; [apply (ad_frame _ _ _ _ _ _ A)|auto].
  - inversion H; subst. destruct (round_spec _ _ _ _ _ _ _ _ R) as (a & -> & C & A & M). exists a. splits.
    simpl in C. destruct a; [|discriminate]. intros n I N. simpl. rewrite app_nil_r in N. auto.
Qed.
Lemma do_level_ok : forall fuel m e level s m',
  do_level fuel m e level [] = Some (Ok s, m') -> level_ok m e level s m'.
Proof.
  intros fuel m e level s m' H. destruct (do_level_spec _ _ _ _ _ _ _ H) as (a & -> & A & M).
  constructor; auto.
Qed.
Lemma level_nodup : forall m e level s m', level_ok m e level s m' -> NoDup s.
Proof. intros m e level s m' [A _]. apply (ad_nodup _ _ _ _ _ _ A). constructor. Qed.

(** termination of the do-while loop *)
Lemma do_level_fuel : forall fuel m e level exec, NoDup exec -> incl exec level ->
  length (s_of level) - length exec < fuel -> do_level fuel m e level exec <> None.
Proof.
  induction fuel as [|f IH]; intros m e level exec N I L; simpl; [lia|].
  destruct (round m e level exec false) as [[[exec' [|]]|ex] m1] eqn:R; try discriminate.
  destruct (round_spec _ _ _ _ _ _ _ _ R) as (a & -> & C & A & _).
  apply IH.
  - apply (ad_nodup _ _ _ _ _ _ A); auto.
  - apply incl_app; auto. apply (ad_incl _ _ _ _ _ _ A).
  - destruct a; [discriminate|].
    assert (P : length (exec ++ n :: a) <= length (s_of level)).
    { apply NoDup_incl_length; [apply (ad_nodup _ _ _ _ _ _ A); auto|].
      intros x Hx. apply s_of_In. apply in_app_iff in Hx. destruct Hx as [Hx|Hx]; auto.
      apply (ad_incl _ _ _ _ _ _ A); auto. }
    assert (Q : length (exec ++ n :: a) = length exec + S (length a)) by (rewrite app_length; auto). unfold node in *. lia.
Qed.
Lemma s_of_length : forall l, length (s_of l) <= length l.
Proof.
  intros. apply NoDup_incl_length; [apply s_of_NoDup|]. intros x; apply s_of_In.
Qed.
Theorem do_level_total : forall m e level, do_level (S (length level)) m e level [] <> None.
Proof.
  intros. apply do_level_fuel; [constructor|intros x []|]. pose proof (s_of_length level). simpl; unfold node in *; lia.
Qed.

(** ** Steps that leave the entries of e alone *)
Definition quiet (e : eid) (m m' : core) : Prop := frame e m m' /\ m_ctxs m' e = m_ctxs m e.
Lemma quiet_refl : forall e m, quiet e m m.
Proof. intros; split; auto using frame_refl. Qed.
Lemma quiet_trans : forall e a b c, quiet e a b -> quiet e b c -> quiet e a c.
Proof. intros e a b c [F1 E1] [F2 E2]; split; [eapply frame_trans; eauto|congruence]. Qed.
Lemma satisfied_quiet : forall m e c r m', used m tc c -> satisfied m e c = (r, m') -> quiet e m m'.
Proof.
  intros m e c r m' U H; split; [eapply satisfied_frame; eauto|].
  rewrite (cst_only_ctxs _ _ (satisfied_cst _ _ _ _ _ H)); auto.
Qed.
Lemma quiet_level : forall m e level m', level_ok m e level [] m' -> quiet e m m'.
Proof. intros m e level m' [A _]. split; [apply (ad_frame _ _ _ _ _ _ A)|apply (ad_ctx _ _ _ _ _ _ A)]. Qed.

Lemma check_tc_quiet : forall m e s r m', check_tc m e tc s = (r, m') -> quiet e m m'.
Proof.
  intros m e s r m' H; unfold check_tc in H. destruct (tc s) as [c|] eqn:E.
  - eapply satisfied_quiet; eauto. right; eauto.
  - inversion H; subst; apply quiet_refl.
Qed.
Lemma terminated_quiet : forall m e r m', terminated m e tc = (r, m') -> quiet e m m'.
Proof.
  intros m e r m' H; unfold terminated in H.
  destruct (check_tc m e tc ESU) as [[[|]|ex] m1] eqn:E; apply check_tc_quiet in E; try (inversion H; subst; auto; fail).
  apply check_tc_quiet in H. eapply quiet_trans; eauto.
Qed.

(** ** Clock increments and appends *)
Definition ctx_clock (k : clock) (x : ctx) : ctx := mkCtx (x_total x) (x_use x) (x_list x) (x_stamps x) (Some k).
Definition tick (s : timescale) (x x' : ctx) : Prop := exists k, clock_incr s (the_clock x) = Ok k /\ x' = ctx_clock k x.
Lemma incr_clock_spec : forall s m e m', incr_clock s m e = Ok m' ->
  frame e m m' /\ tick s (m_ctxs m e) (m_ctxs m' e).
Proof.
  intros s m e m' H; unfold incr_clock in H. destruct (clock_incr s (the_clock (m_ctxs m e))) as [k|] eqn:E; inversion H; subst.
  split; [apply frame_set_ctx|]. exists k; split; auto. unfold set_clock; rewrite set_ctx_at; reflexivity.
Qed.
Definition appended (abs : bool) (s : list node) (x x' : ctx) : Prop :=
  exists l, x_list x = Some l /\
  (if abs then exists ts, x_stamps x = Some ts /\
     x' = mkCtx (x_total x) (x_use x) (Some (l ++ [s])) (Some (ts ++ [k_time (the_clock x)])) (x_clock x)
   else x' = mkCtx (x_total x) (x_use x) (Some (l ++ [s])) (x_stamps x) (x_clock x)).
Lemma append_exec_spec : forall m e abs s r m', append_exec m e abs s = (Ok r, m') ->
  frame e m m' /\ appended abs s (m_ctxs m e) (m_ctxs m' e).
Proof.
  intros m e abs s r m' H; unfold append_exec in H.
  destruct (x_list (m_ctxs m e)) as [l|] eqn:El; [|inversion H].
  destruct abs.
  - destruct (x_stamps (m_ctxs m e)) as [ts|] eqn:Et; inversion H; subst.
    split; [apply frame_set_ctx|]. exists l; split; auto. exists ts; split; auto. rewrite set_ctx_at; auto.
  - inversion H; subst. split; [apply frame_set_ctx|]. exists l; split; auto. rewrite set_ctx_at; auto.
Qed.

(** ** The levels of a pass *)
Definition skipped (e : eid) (m : core) (level : list node) : Prop :=
  exists ma mb, quiet e m ma /\ level_ok ma e level [] mb.
Lemma skipped_quiet : forall e m m' lv, quiet e m m' -> skipped e m' lv -> skipped e m lv.
Proof. intros e m m' lv Q (a & b & Qa & L). exists a, b; split; auto. eapply quiet_trans; eauto. Qed.

End Frames.

Lemma inner_yield : forall rest m g i ch m3 s j ch',
  inner m g rest i ch = IYield m3 s j ch' ->
  exists m0 m1 m2 level,
    i <= j /\ nth_error rest (j - i) = Some level /\ quiet (tc := g_tc g) (g_eid g) m m0 /\
    terminated m0 (g_eid g) (g_tc g) = (Ok false, m1) /\ quiet (tc := g_tc g) (g_eid g) m0 m1 /\
    level_ok (tc := g_tc g) m1 (g_eid g) level s m2 /\
    frame (tc := g_tc g) (g_eid g) m2 m3 /\ appended (g_abs g) s (m_ctxs m2 (g_eid g)) (m_ctxs m3 (g_eid g)) /\
    ch' = ch || nonempty s /\ (g_abs g = false -> s <> []) /\ (g_abs g = true -> j = i) /\
    (forall k lv, k < j - i -> nth_error rest k = Some lv -> skipped (tc := g_tc g) (g_eid g) m lv).
Proof.
  induction rest as [|level rest IH]; intros m g i ch m3 s j ch' H; cbn [inner] in H; [discriminate|].
  destruct (terminated m (g_eid g) (g_tc g)) as [[[|]|ex] m1] eqn:T; try discriminate.
  assert (Q1 := terminated_quiet _ _ _ _ T).
  destruct (do_level (S (length level)) m1 (g_eid g) level []) as [[[exec|ex] m2]|] eqn:D; try discriminate.
  apply (do_level_ok (tc := g_tc g)) in D.
  destruct (nonempty exec || g_abs g) eqn:C.
  - destruct (append_exec m2 (g_eid g) (g_abs g) exec) as [[x|ex] m4] eqn:Ap; inversion H; subst.
    apply (append_exec_spec (tc := g_tc g)) in Ap. destruct Ap as [F Ap].
    exists m, m1, m2, level. rewrite Nat.sub_diag. splits.
    + apply quiet_refl.
    + intros Hg ->. rewrite Hg in C; discriminate.
    + intros k lv L; lia.
  - apply orb_false_iff in C. destruct C as [C1 C2]. destruct exec; [|discriminate].
    simpl in H. rewrite orb_false_r in H.
    destruct (IH _ _ _ _ _ _ _ _ H) as (n0 & n1 & n2 & lv & L & E & Q & T' & Q' & Lv & F & Ap & Ch & NE & Ab & Sk).
    assert (Q2 : quiet (tc := g_tc g) (g_eid g) m m2) by (eapply quiet_trans; [eauto|eapply quiet_level; eauto]).
    exists n0, n1, n2, lv. splits.
    + lia.
    + replace (j - i) with (S (j - S i)) by lia. auto.
    + eapply quiet_trans; eauto.
    + congruence.
    + intros k lv' Lk Ek. destruct k; simpl in Ek.
      * inversion Ek; subst. exists m1, m2; auto.
      * eapply skipped_quiet; [exact Q2|]. apply (Sk k); auto. lia.
Qed.
Lemma inner_end : forall rest m g i ch m3 ch',
  inner m g rest i ch = IEnd m3 ch' ->
  quiet (tc := g_tc g) (g_eid g) m m3 /\ ch' = ch /\
  ((exists m0, quiet (tc := g_tc g) (g_eid g) m m0 /\ rest <> [] /\ terminated m0 (g_eid g) (g_tc g) = (Ok true, m3)) \/
   ((g_abs g = true -> rest = []) /\ forall lv, In lv rest -> skipped (tc := g_tc g) (g_eid g) m lv)).
Proof.
  induction rest as [|level rest IH]; intros m g i ch m3 ch' H; cbn [inner] in H.
  - inversion H; subst. splits; [apply quiet_refl|]. right; split; auto. intros lv [].
  - destruct (terminated m (g_eid g) (g_tc g)) as [[[|]|ex] m1] eqn:T; try discriminate.
    + inversion H; subst. assert (Q1 := terminated_quiet _ _ _ _ T). splits.
      left; exists m; splits; [apply quiet_refl|discriminate].
    + assert (Q1 := terminated_quiet _ _ _ _ T).
      destruct (do_level (S (length level)) m1 (g_eid g) level []) as [[[exec|ex] m2]|] eqn:D; try discriminate.
      apply (do_level_ok (tc := g_tc g)) in D.
      destruct (nonempty exec || g_abs g) eqn:C.
      * destruct (append_exec m2 (g_eid g) (g_abs g) exec) as [[x|ex] m4]; discriminate.
      * apply orb_false_iff in C. destruct C as [C1 C2]. destruct exec; [|discriminate].
        simpl in H. rewrite orb_false_r in H.
        assert (Q2 : quiet (tc := g_tc g) (g_eid g) m m2) by (eapply quiet_trans; [eauto|eapply quiet_level; eauto]).
        destruct (IH _ _ _ _ _ _ H) as (Q & E & D'). splits; [eapply quiet_trans; eauto|].
        destruct D' as [(m0 & Q0 & _ & T0)|(A & S)].
        { left; exists m0; splits; [eapply quiet_trans; eauto|discriminate]. }
        { right; split; [congruence|]. intros lv [<-|Hl].
          - exists m1, m2; auto.
          - eapply skipped_quiet; eauto. }
Qed.
Lemma inner_fuel : forall rest m g i ch m3, inner m g rest i ch <> IFuel m3.
Proof.
  induction rest as [|level rest IH]; intros m g i ch m3 H; cbn [inner] in H; [discriminate|].
  destruct (terminated m (g_eid g) (g_tc g)) as [[[|]|ex] m1] eqn:T; try discriminate.
  destruct (do_level (S (length level)) m1 (g_eid g) level []) as [[[exec|ex] m2]|] eqn:D; try discriminate.
  - destruct (nonempty exec || g_abs g) eqn:C.
    + destruct (append_exec m2 (g_eid g) (g_abs g) exec) as [[x|ex] m4]; discriminate.
    + eapply IH; eauto.
  - eapply (do_level_total (tc := g_tc g)); eauto.
Qed.

(** ** Abstract runs: how the entries of one execution id evolve *)
Inductive phase := Between | Open (p : pass) | AtYield (p : pass) | AtIdle.
Inductive hist (q : list (list node)) (abs : bool) (x0 : ctx) : list pass -> phase -> ctx -> Prop :=
| h_start : hist q abs x0 [] Between x0
| h_begin : forall ps x, hist q abs x0 ps Between x -> hist q abs x0 ps (Open []) (ctx_reset x)
| h_exec : forall ps p i s x x', hist q abs x0 ps (Open p) x -> valid_pass q abs (p ++ [(i, s)]) ->
    appended abs s (ctx_accepts s x) x' -> hist q abs x0 ps (AtYield (p ++ [(i, s)])) x'
| h_tick : forall ps p x x', hist q abs x0 ps (AtYield p) x -> tick CSE x x' -> hist q abs x0 ps (Open p) x'
| h_idle : forall ps x x', abs = false -> hist q abs x0 ps (Open []) x -> appended false [] x x' ->
    hist q abs x0 ps AtIdle x'
| h_idle_end : forall ps x x1 x2, hist q abs x0 ps AtIdle x -> tick CSE x x1 -> tick PASS x1 x2 ->
    hist q abs x0 (ps ++ [[]]) Between x2
| h_end : forall ps p x x', hist q abs x0 ps (Open p) x -> (abs = true \/ p <> []) -> tick PASS x x' ->
    hist q abs x0 (ps ++ [p]) Between x'.

Definition phase_yields (abs : bool) (ph : phase) : list (list node) :=
  match ph with Between => [] | Open p => map snd p | AtYield p => map snd p | AtIdle => [[]] end.
Definition all_yields (abs : bool) (ps : list pass) (ph : phase) : list (list node) :=
  concat (map (pass_yields abs) ps) ++ phase_yields abs ph.

(** yields with the number of their pass, when the first pass has number P *)
Fixpoint tags (abs : bool) (P : nat) (ps : list pass) : list (nat * list node) :=
  match ps with [] => [] | p :: r => map (pair P) (pass_yields abs p) ++ tags abs (S P) r end.
Definition all_tagged (abs : bool) (P : nat) (ps : list pass) (ph : phase) : list (nat * list node) :=
  tags abs P ps ++ map (pair (P + length ps)) (phase_yields abs ph).
Lemma map_snd_pair : forall A B (a : A) (l : list B), map snd (map (pair a) l) = l.
Proof. intros A B a l; rewrite map_map; simpl. apply map_id. Qed.
Lemma tags_snd : forall abs ps P, map snd (tags abs P ps) = concat (map (pass_yields abs) ps).
Proof. induction ps as [|p r IH]; intros P; simpl; auto. rewrite map_app, map_snd_pair, IH; auto. Qed.
Lemma all_tagged_snd : forall abs P ps ph, map snd (all_tagged abs P ps ph) = all_yields abs ps ph.
Proof. intros; unfold all_tagged, all_yields. rewrite map_app, tags_snd, map_snd_pair; auto. Qed.
Lemma tags_app : forall abs ps P qs, tags abs P (ps ++ qs) = tags abs P ps ++ tags abs (P + length ps) qs.
Proof.
  induction ps as [|p r IH]; intros P qs; simpl.
  - rewrite Nat.add_0_r; auto.
  - rewrite IH, <- app_assoc. do 2 f_equal. f_equal. apply Nat.add_succ_comm.
Qed.

Lemma nth_error_snoc : forall A (l : list A) x i a, nth_error (l ++ [x]) i = Some a ->
  nth_error l i = Some a \/ (i = length l /\ a = x).
Proof.
  intros A l x i a H. destruct (Nat.lt_ge_cases i (length l)).
  - rewrite nth_error_app1 in H by auto; auto.
  - rewrite nth_error_app2 in H by auto. destruct (i - length l) eqn:E; simpl in H.
    + inversion H; subst; right; split; auto; lia.
    + destruct n; discriminate.
Qed.
Lemma valid_pass_nil : forall q abs, valid_pass q abs [].
Proof. intros; split; [intros [] ? ? ? H; discriminate|intros k s []]. Qed.
Lemma valid_pass_snoc : forall q abs p i s level, valid_pass q abs p ->
  (forall k, In k (map fst p) -> k < i) -> nth_error q i = Some level -> incl s level -> NoDup s ->
  (abs = false -> s <> []) -> valid_pass q abs (p ++ [(i, s)]).
Proof.
  intros q abs p i s level [A B] L E I N NE. split.
  - intros a b x y Ha Hb Lt. apply nth_error_snoc in Ha. apply nth_error_snoc in Hb.
    assert (a < length (p ++ [(i, s)]) /\ b <= length p).
    { destruct Hb as [Hb|[-> _]].
      - assert (b < length p) by (apply nth_error_Some; congruence). rewrite app_length; simpl; lia.
      - rewrite app_length; simpl; lia. }
    destruct Ha as [Ha|[-> ->]]; [|destruct Hb as [Hb|[-> _]]; [|lia]].
    + destruct Hb as [Hb|[-> ->]]; eauto. simpl. apply L. apply nth_error_In in Ha. apply in_map; auto.
    + assert (b < length p) by (apply nth_error_Some; congruence). lia.
  - intros k t H. apply in_app_iff in H. destruct H as [H|[H|[]]]; auto.
    inversion H; subst. splits. exists level; auto.
Qed.
Lemma valid_pass_prefix : forall q abs p r, valid_pass q abs (p ++ r) -> valid_pass q abs p.
Proof.
  intros q abs p r [A B]; split.
  - intros i j a b Hi Hj. apply A; rewrite nth_error_app1; auto; apply nth_error_Some; congruence.
  - intros k s H. apply B. apply in_app_iff; auto.
Qed.
Definition phase_valid q abs (ph : phase) : Prop :=
  match ph with Open p | AtYield p => valid_pass q abs p | _ => True end.
Lemma hist_valid : forall q abs x0 ps ph x, hist q abs x0 ps ph x ->
  Forall (valid_pass q abs) ps /\ phase_valid q abs ph.
Proof.
  intros q abs x0 ps ph x H; induction H; simpl in *; auto; try (destruct IHhist; split; auto using valid_pass_nil; fail).
  - destruct IHhist; split; auto. apply Forall_app; split; auto. constructor; auto using valid_pass_nil.
  - destruct IHhist; split; auto. apply Forall_app; split; auto.
Qed.
