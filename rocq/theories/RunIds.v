(** Execution ids do not interfere. *)
From Verif Require Export SpecIds PureFacts ResumeFrame.

(** ** Conditions without side effects *)
Record agree (e : eid) (st st1 : cstate) : Prop := {
  ag_sats : forall o, s_sats st o e = s_sats st1 o e;
  ag_world : s_world st = s_world st1
}.
Lemma agree_refl : forall e st, agree e st st.
Proof. intros; constructor; auto. Qed.
Lemma agree_sym : forall e a b, agree e a b -> agree e b a.
Proof. intros e a b []; constructor; auto. Qed.
Lemma agree_trans : forall e a b c, agree e a b -> agree e b c -> agree e a c.
Proof. intros e a b c [] []; constructor; intros; congruence. Qed.
Lemma atom_world : forall v e own a w, no_side_effects (CAtom 0 a) -> snd (eval_atom v e own a w) = w.
Proof. intros v e own a w H; destruct a; simpl in *; auto. Qed.
Lemma bump_agree : forall e o a b, agree e a b -> agree e (bump_sat a o e) (bump_sat b o e).
Proof.
  intros e o a b [S W]; constructor; simpl; auto. intros o'; unfold bump_sat; simpl.
  unfold upd. destruct (Nat.eqb o' o); simpl; auto. rewrite Nat.eqb_refl. rewrite S; auto.
Qed.
Lemma bump_other : forall e e' o a, e' <> e -> agree e' a (bump_sat a o e).
Proof.
  intros e e' o a N; constructor; simpl; auto. intros o'; unfold bump_sat; simpl. unfold upd.
  destruct (Nat.eqb o' o) eqn:E; auto. apply Nat.eqb_eq in E; subst. apply Nat.eqb_neq in N. rewrite N; auto.
Qed.
Lemma eval_agree : forall c v e ow st st1, no_side_effects c -> agree e st st1 ->
  fst (eval v e ow c st) = fst (eval v e ow c st1) /\ agree e (snd (eval v e ow c st)) (snd (eval v e ow c st1)).
Proof.
  intros c v e ow. induction c using cond_ind'; intros st st1 N A.
  - assert (N' : no_side_effects (CAtom 0 a)) by (destruct a; auto).
    simpl. rewrite <- (ag_world _ _ _ A). pose proof (atom_world v e (ow o) a (s_world st) N') as W.
    destruct (eval_atom v e (ow o) a (s_world st)) as [r w]; simpl in *; subst. split; auto.
    destruct A as [S W]; constructor; simpl; auto.
  - simpl in *. revert st st1 A. induction H as [|x l Hx Hl IH]; intros st st1 A; [simpl; auto|].
    destruct N as [Nx Nl]. destruct (Hx st st1 Nx A) as [E A1].
    destruct (eval v e ow x st) as [r s'], (eval v e ow x st1) as [r1 s1']; simpl in *; subst r1.
    destruct r as [[|]|]; simpl; auto.
  - simpl in *. revert st st1 A. induction H as [|x l Hx Hl IH]; intros st st1 A; [simpl; auto|].
    destruct N as [Nx Nl]. destruct (Hx st st1 Nx A) as [E A1].
    destruct (eval v e ow x st) as [r s'], (eval v e ow x st1) as [r1 s1']; simpl in *; subst r1.
    destruct r as [[|]|]; simpl; auto.
  - simpl in *. destruct (IHc st st1 N A) as [E A1].
    destruct (eval v e ow c st) as [r s'], (eval v e ow c st1) as [r1 s1']; simpl in *; subst r1. destruct r; simpl; auto.
  - simpl in *. rewrite <- (ag_sats _ _ _ A). destruct (Nat.ltb (s_sats st o e) n); [|simpl; auto].
    destruct (IHc st st1 N A) as [E A1].
    destruct (eval v e ow c st) as [r s'], (eval v e ow c st1) as [r1 s1']; simpl in *; subst r1.
    destruct r as [[|]|]; simpl; auto using bump_agree.
Qed.
Lemma eval_other : forall c v e e' ow st, no_side_effects c -> e' <> e -> agree e' st (snd (eval v e ow c st)).
Proof.
  intros c v e e' ow st N D; revert st. induction c using cond_ind'; intros st.
  - assert (N' : no_side_effects (CAtom 0 a)) by (destruct a; auto).
    simpl. pose proof (atom_world v e (ow o) a (s_world st) N') as W.
    destruct (eval_atom v e (ow o) a (s_world st)) as [r w]; simpl in *; subst. constructor; auto.
  - simpl in *. revert st. induction H as [|x l Hx Hl IH]; intros st; [simpl; apply agree_refl|].
    destruct N as [Nx Nl]. specialize (Hx Nx st).
    destruct (eval v e ow x st) as [[[|]|] s']; simpl in *; auto. eapply agree_trans; [apply Hx|apply IH; auto].
  - simpl in *. revert st. induction H as [|x l Hx Hl IH]; intros st; [simpl; apply agree_refl|].
    destruct N as [Nx Nl]. specialize (Hx Nx st).
    destruct (eval v e ow x st) as [[[|]|] s']; simpl in *; auto. eapply agree_trans; [apply Hx|apply IH; auto].
  - simpl in *. specialize (IHc N st). destruct (eval v e ow c st) as [[b|] s']; auto.
  - simpl in *. destruct (Nat.ltb (s_sats st o e) n); [|apply agree_refl]. specialize (IHc N st).
    destruct (eval v e ow c st) as [[[|]|] s']; simpl in *; auto. eapply agree_trans; [apply IHc|apply bump_other; auto].
Qed.

(** ** Two states that look the same to execution id e *)
Record sim (e : eid) (m m1 : core) : Prop := {
  si_nodes : m_nodes m1 = m_nodes m;
  si_graph : m_graph m1 = m_graph m;
  si_levels : m_levels m1 = m_levels m;
  si_exact : m_exact m1 = m_exact m;
  si_unit : m_default_unit m1 = m_default_unit m;
  si_tconds : m_tconds m1 = m_tconds m;
  si_basic : m_basic m1 = m_basic m;
  si_owners : m_owners m1 = m_owners m;
  si_next : m_next m1 = m_next m;
  si_ctx : m_ctxs m1 e = m_ctxs m e;
  si_cst : agree e (m_cst m) (m_cst m1)
}.
Lemma sim_set_ctx : forall e m m1 x, sim e m m1 -> sim e (set_ctx m e x) (set_ctx m1 e x).
Proof. intros e m m1 x []; constructor; simpl; auto. rewrite !upd_same; auto. Qed.
Lemma sim_queue : forall e m m1, sim e m m1 -> queue m1 = queue m.
Proof. intros e m m1 []; unfold queue. rewrite si_exact0, si_graph0, si_levels0; auto. Qed.
Lemma sim_view : forall e m m1, sim e m m1 -> view_of m1 e = view_of m e.
Proof. intros e m m1 H. unfold view_of. rewrite (sim_queue _ _ _ H). destruct H. rewrite si_nodes0, si_exact0, si_ctx0; auto. Qed.
Lemma sim_satisfied : forall e m m1 c r m', sim e m m1 -> no_side_effects c -> satisfied m e c = (r, m') ->
  exists m1', satisfied m1 e c = (r, m1') /\ sim e m' m1'.
Proof.
  intros e m m1 c r m' S N H. unfold satisfied in *. rewrite (sim_view _ _ _ S), (si_owners _ _ _ S).
  destruct (eval_agree c (view_of m e) e (m_owners m) _ _ N (si_cst _ _ _ S)) as [E A].
  destruct (eval (view_of m e) e (m_owners m) c (m_cst m)) as [r0 st], (eval (view_of m e) e (m_owners m) c (m_cst m1)) as [r1 st1].
  simpl in *; subst r1. inversion H; subst. eexists; split; [reflexivity|]. destruct S; constructor; simpl; auto.
Qed.
Definition quiet_basic (m : core) : Prop := forall n c, aget n (m_basic m) = Some c -> no_side_effects c.
Lemma quiet_basic_fixed : forall e m m', fixed e m m' -> quiet_basic m -> quiet_basic m'.
Proof. intros e m m' F Q n c. rewrite (fx_basic _ _ _ F); apply Q. Qed.
Lemma sim_accept : forall e m m1 n, sim e m m1 -> sim e (accept m e n) (accept m1 e n).
Proof. intros e m m1 n S. unfold accept. rewrite (si_ctx _ _ _ S). apply sim_set_ctx; auto. Qed.
Lemma sim_round : forall level e m m1 exec ch r m', sim e m m1 -> quiet_basic m -> round m e level exec ch = (r, m') ->
  exists m1', round m1 e level exec ch = (r, m1') /\ sim e m' m1'.
Proof.
  induction level as [|n level IH]; intros e m m1 exec ch r m' S Q H; simpl in *.
  - inversion H; subst; eauto.
  - destruct (mem n exec); [eapply IH; eauto|]. rewrite (si_basic _ _ _ S).
    destruct (aget n (m_basic m)) as [c|] eqn:E; [|inversion H; subst; eauto].
    destruct (satisfied m e c) as [r0 m2] eqn:Sa. destruct (sim_satisfied _ _ _ _ _ _ S (Q _ _ E) Sa) as (m3 & E3 & S3). rewrite E3.
    assert (Q2 : quiet_basic m2) by (apply (quiet_basic_fixed e m); auto; eapply fixed_satisfied; eauto).
    destruct r0 as [[|]|ex].
    + rewrite (si_nodes _ _ _ S3). destruct (mem n (m_nodes m2)); [|inversion H; subst; eauto].
      apply (IH e (accept m2 e n) (accept m3 e n)); auto using sim_accept.
    + eapply IH; eauto.
    + inversion H; subst; eauto.
Qed.
Lemma sim_level : forall fuel e m m1 level exec r m', sim e m m1 -> quiet_basic m -> do_level fuel m e level exec = Some (r, m') ->
  exists m1', do_level fuel m1 e level exec = Some (r, m1') /\ sim e m' m1'.
Proof.
  induction fuel as [|f IH]; intros e m m1 level exec r m' S Q H; simpl in *; [discriminate|].
  destruct (round m e level exec false) as [r0 m2] eqn:Ro. destruct (sim_round _ _ _ _ _ _ _ _ S Q Ro) as (m3 & E3 & S3). rewrite E3.
  assert (Q2 : quiet_basic m2) by (apply (quiet_basic_fixed e m); auto; eapply fixed_round; eauto).
  destruct r0 as [[x [|]]|ex]; [eapply IH; eauto| |]; inversion H; subst; eauto.
Qed.
Lemma sim_level_none : forall fuel e m m1 level exec, sim e m m1 -> quiet_basic m -> do_level fuel m e level exec = None ->
  do_level fuel m1 e level exec = None.
Proof.
  induction fuel as [|f IH]; intros e m m1 level exec S Q H; simpl in *; auto.
  destruct (round m e level exec false) as [r0 m2] eqn:Ro. destruct (sim_round _ _ _ _ _ _ _ _ S Q Ro) as (m3 & E3 & S3). rewrite E3.
  assert (Q2 : quiet_basic m2) by (apply (quiet_basic_fixed e m); auto; eapply fixed_round; eauto).
  destruct r0 as [[x [|]]|ex]; try discriminate. eapply IH; eauto.
Qed.
Lemma sim_tc : forall e m m1 tc s r m', sim e m m1 -> quiet_tconds tc -> check_tc m e tc s = (r, m') ->
  exists m1', check_tc m1 e tc s = (r, m1') /\ sim e m' m1'.
Proof.
  intros e m m1 tc s r m' S Q H. unfold check_tc in *. destruct (tc s) as [c|] eqn:E; [|inversion H; subst; eauto].
  eapply sim_satisfied; eauto.
Qed.
Lemma sim_terminated : forall e m m1 tc r m', sim e m m1 -> quiet_tconds tc -> terminated m e tc = (r, m') ->
  exists m1', terminated m1 e tc = (r, m1') /\ sim e m' m1'.
Proof.
  intros e m m1 tc r m' S Q H. unfold terminated in *.
  destruct (check_tc m e tc ESU) as [r0 m2] eqn:C. destruct (sim_tc _ _ _ _ _ _ _ S Q C) as (m3 & E3 & S3). rewrite E3.
  destruct r0 as [[|]|ex]; [inversion H; subst; eauto| |inversion H; subst; eauto]. eapply sim_tc; eauto.
Qed.
Lemma sim_append : forall e m m1 abs s r m', sim e m m1 -> append_exec m e abs s = (r, m') ->
  exists r1 m1', append_exec m1 e abs s = (r1, m1') /\ sim e m' m1' /\
    match r, r1 with Ok _, Ok _ => True | Err x, Err y => x = y | _, _ => False end.
Proof.
  intros e m m1 abs s r m' S H. unfold append_exec in *. rewrite (si_ctx _ _ _ S).
  destruct (x_list (m_ctxs m e)) as [l|]; [|inversion H; subst; eauto 6].
  destruct abs; [destruct (x_stamps (m_ctxs m e)) as [ts|]|]; inversion H; subst; eauto 7 using sim_set_ctx.
Qed.
Lemma sim_incr : forall e s m m1 m', sim e m m1 -> incr_clock s m e = Ok m' -> exists m1', incr_clock s m1 e = Ok m1' /\ sim e m' m1'.
Proof.
  intros e s m m1 m' S H. unfold incr_clock in *. rewrite (si_ctx _ _ _ S).
  destruct (clock_incr s (the_clock (m_ctxs m e))) as [k|]; inversion H; subst. eexists; split; [reflexivity|].
  unfold set_clock. rewrite (si_ctx _ _ _ S). apply sim_set_ctx; auto.
Qed.
Lemma sim_incr_err : forall e s m m1 ex, sim e m m1 -> incr_clock s m e = Err ex -> incr_clock s m1 e = Err ex.
Proof.
  intros e s m m1 ex S H. unfold incr_clock in *. rewrite (si_ctx _ _ _ S).
  destruct (clock_incr s (the_clock (m_ctxs m e))) as [k|]; inversion H; subst; auto.
Qed.
Definition sim_inner_result (e : eid) (r r1 : inner_result) : Prop :=
  match r, r1 with
  | IYield m s i ch, IYield m1 s1 i1 ch1 => sim e m m1 /\ s = s1 /\ i = i1 /\ ch = ch1
  | IEnd m ch, IEnd m1 ch1 => sim e m m1 /\ ch = ch1
  | IErr m ex, IErr m1 ex1 => sim e m m1 /\ ex = ex1
  | IFuel m, IFuel m1 => sim e m m1
  | _, _ => False
  end.
Lemma sim_inner : forall rest m m1 g i ch, sim (g_eid g) m m1 -> quiet_basic m -> quiet_tconds (g_tc g) ->
  sim_inner_result (g_eid g) (inner m g rest i ch) (inner m1 g rest i ch).
Proof.
  induction rest as [|level rest IH]; intros m m1 g i ch SS Q T; cbn [inner]; [simpl; auto|].
  destruct (terminated m (g_eid g) (g_tc g)) as [r m2] eqn:Te.
  destruct (sim_terminated _ _ _ _ _ _ SS T Te) as (m3 & E3 & S3). rewrite E3.
  assert (Q2 : quiet_basic m2) by (apply (quiet_basic_fixed (g_eid g) m); auto; eapply fixed_terminated; eauto).
  destruct r as [[|]|ex]; [simpl; auto| |simpl; auto].
  destruct (do_level (S (length level)) m2 (g_eid g) level []) as [[r m4]|] eqn:L.
  - destruct (sim_level _ _ _ _ _ _ _ _ S3 Q2 L) as (m5 & E5 & S5).
    rewrite E5.
    assert (Q4 : quiet_basic m4) by (apply (quiet_basic_fixed (g_eid g) m2); auto; eapply (fixed_level (S (length level))); eauto).
    destruct r as [exec|ex]; simpl; auto.
    destruct (nonempty exec || g_abs g).
    + destruct (append_exec m4 (g_eid g) (g_abs g) exec) as [r m6] eqn:A.
      destruct (sim_append _ _ _ _ _ _ _ S5 A) as (r1 & m7 & E7 & S7 & R). rewrite E7.
      destruct r, r1; simpl; auto; contradiction.
    + apply IH; auto.
  - assert (L1 := sim_level_none _ _ _ _ _ _ S3 Q2 L). rewrite L1. simpl; auto.
Qed.
Lemma sim_tail : forall m m1 g ch, sim (g_eid g) m m1 ->
  match pass_tail m g ch, pass_tail m1 g ch with
  | TYield a, TYield b | TNext a, TNext b => sim (g_eid g) a b
  | TErr a x, TErr b y => sim (g_eid g) a b /\ x = y
  | _, _ => False
  end.
Proof.
  intros m m1 g ch SS. unfold pass_tail. destruct (negb ch && negb (g_abs g)).
  - destruct (append_exec m (g_eid g) false []) as [r m2] eqn:A. destruct (sim_append _ _ _ _ _ _ _ SS A) as (r1 & m3 & E & S3 & R).
    rewrite E. destruct r, r1; auto; contradiction.
  - destruct (incr_clock PASS m (g_eid g)) as [m2|ex] eqn:I.
    + destruct (sim_incr _ _ _ _ _ SS I) as (m3 & -> & S3); auto.
    + rewrite (sim_incr_err _ _ _ _ _ SS I); auto.
Qed.
Definition sim_out (e : eid) (r r1 : core * gen * outcome) : Prop :=
  sim e (fst (fst r)) (fst (fst r1)) /\ snd (fst r) = snd (fst r1) /\ snd r = snd r1.
Lemma sim_out_intro : forall e a b g o, sim e a b -> sim_out e (a, g, o) (b, g, o).
Proof. intros; split; [auto|split; auto]. Qed.
Lemma sim_finish : forall m m1 g, sim (g_eid g) m m1 -> quiet_tconds (g_tc g) -> sim_out (g_eid g) (finish m g) (finish m1 g).
Proof.
  intros m m1 g SS T. unfold finish.
  assert (X : match (if g_skip g then Ok m else incr_clock ESU m (g_eid g)), (if g_skip g then Ok m1 else incr_clock ESU m1 (g_eid g)) with
              | Ok a, Ok b => sim (g_eid g) a b | Err x, Err y => x = y | _, _ => False end).
  { destruct (g_skip g); auto. destruct (incr_clock ESU m (g_eid g)) as [m2|ex] eqn:I.
    - destruct (sim_incr _ _ _ _ _ SS I) as (m3 & -> & S3); auto.
    - rewrite (sim_incr_err _ _ _ _ _ SS I); auto. }
  destruct (if g_skip g then Ok m else incr_clock ESU m (g_eid g)) as [a|x], (if g_skip g then Ok m1 else incr_clock ESU m1 (g_eid g)) as [b|y];
    try contradiction; [|subst; apply sim_out_intro; auto].
  destruct (check_tc a (g_eid g) (g_tc g) ES) as [r a2] eqn:C. destruct (sim_tc _ _ _ _ _ _ _ X T C) as (b2 & -> & S2).
  destruct r; [|apply sim_out_intro; auto]. rewrite (si_ctx _ _ _ S2). destruct (x_list (m_ctxs a2 (g_eid g))); apply sim_out_intro; auto.
Qed.
Lemma sim_reset : forall e s m m1, sim e m m1 -> sim e (reset_counts_total s m e) (reset_counts_total s m1 e).
Proof. intros e s m m1 SS. unfold reset_counts_total. rewrite (si_ctx _ _ _ SS). apply sim_set_ctx; auto. Qed.
Lemma sim_outer : forall fuel m m1 g, sim (g_eid g) m m1 -> quiet_basic m -> quiet_tconds (g_tc g) ->
  sim_out (g_eid g) (outer fuel m g) (outer fuel m1 g).
Proof.
  induction fuel as [|f IH]; intros m m1 g SS Q T; [apply sim_out_intro; auto|]. cbn [outer].
  destruct (terminated m (g_eid g) (g_tc g)) as [r m2] eqn:Te. destruct (sim_terminated _ _ _ _ _ _ SS T Te) as (m3 & -> & S3).
  assert (Q2 : quiet_basic m2) by (apply (quiet_basic_fixed (g_eid g) m); auto; eapply fixed_terminated; eauto).
  destruct r as [[|]|ex]; [apply sim_finish; auto| |apply sim_out_intro; auto].
  pose proof (sim_reset _ PASS _ _ S3) as S4. cbv zeta.
  set (a := reset_counts_total PASS m2 (g_eid g)) in *. set (b := reset_counts_total PASS m3 (g_eid g)) in *.
  rewrite (sim_queue _ _ _ S4). assert (Qa : quiet_basic a) by exact Q2.
  pose proof (sim_inner (queue a) a b g 0 false S4 Qa T) as SI.
  pose proof (fixed_inner (queue a) a g 0 false) as FI.
  destruct (inner a g (queue a) 0 false) as [x s i ch|x ch|x ex|x], (inner b g (queue a) 0 false) as [y s' i' ch'|y ch'|y ex'|y]; simpl in SI; try contradiction.
  - destruct SI as (S5 & <- & <- & <-). apply sim_out_intro; auto.
  - destruct SI as (S5 & <-). pose proof (sim_tail x y g ch S5) as ST. simpl in FI.
    pose proof (fixed_tail x g ch) as FT.
    destruct (pass_tail x g ch), (pass_tail y g ch); try contradiction.
    + apply sim_out_intro; auto.
    + simpl in FT. apply IH; auto. apply (quiet_basic_fixed _ _ _ FT), (quiet_basic_fixed _ _ _ FI); auto.
    + destruct ST as [ST <-]. apply sim_out_intro; auto.
  - destruct SI as (S5 & <-). apply sim_out_intro; auto.
  - apply sim_out_intro; auto.
Qed.

(** ** The start of a run *)
Lemma sim_add_defaults : forall e ns m m1, sim e m m1 ->
  match add_defaults ns m, add_defaults ns m1 with Ok a, Ok b => sim e a b | Err x, Err y => x = y | _, _ => False end.
Proof.
  intros e ns; induction ns as [|n ns IH]; intros m m1 SS; simpl; auto.
  rewrite (si_basic _ _ _ SS). destruct (ahas n (m_basic m)); [apply IH; auto|].
  rewrite (si_graph _ _ _ SS), (si_next _ _ _ SS). destruct (aget n (m_graph m)) as [ds|]; auto.
  destruct (default_cond (m_next m) ds) as [c nx]. apply IH; auto. rewrite (si_owners _ _ _ SS).
  destruct SS; constructor; simpl; auto.
Qed.
Lemma ahas_aset : forall A k n (v : A) m, ahas n m = true -> ahas n (aset k v m) = true.
Proof. intros A k n v m H. unfold ahas in *. destruct (Nat.eq_dec k n) as [->|N]; [rewrite aget_aset_same; auto|rewrite aget_aset_other; auto]. Qed.
Lemma add_defaults_keeps : forall ns m m' n, add_defaults ns m = Ok m' -> ahas n (m_basic m) = true -> ahas n (m_basic m') = true.
Proof.
  induction ns as [|k ns IH]; intros m m' n H A; simpl in H; [inversion H; subst; auto|].
  destruct (ahas k (m_basic m)); [eapply IH; eauto|]. destruct (aget k (m_graph m)) as [ds|]; [|discriminate].
  destruct (default_cond (m_next m) ds) as [c nx]. eapply IH; eauto. simpl. apply ahas_aset; auto.
Qed.
Definition complete (m : core) : Prop := forall n, In n (m_nodes m) -> ahas n (m_basic m) = true.
Lemma add_defaults_has : forall ns m m' n, add_defaults ns m = Ok m' -> In n ns -> ahas n (m_basic m') = true.
Proof.
  induction ns as [|k ns IH]; intros m m' n H I; [destruct I|]. simpl in H.
  destruct (ahas k (m_basic m)) eqn:K.
  - destruct I as [<-|I]; [eapply add_defaults_keeps; eauto|eauto].
  - destruct (aget k (m_graph m)) as [ds|]; [|discriminate]. destruct (default_cond (m_next m) ds) as [c nx].
    destruct I as [<-|I]; [|eauto]. eapply add_defaults_keeps; eauto. simpl. unfold ahas. rewrite aget_aset_same; auto.
Qed.
Lemma add_defaults_none : forall ns m, (forall n, In n ns -> ahas n (m_basic m) = true) -> add_defaults ns m = Ok m.
Proof. induction ns as [|k ns IH]; intros m H; simpl; auto. rewrite H by (left; auto). apply IH. intros; apply H; right; auto. Qed.
Lemma add_defaults_rest : forall ns m m', add_defaults ns m = Ok m' -> m_nodes m' = m_nodes m /\ m_graph m' = m_graph m /\ m_tconds m' = m_tconds m
  /\ m_ctxs m' = m_ctxs m /\ m_cst m' = m_cst m.
Proof.
  induction ns as [|k ns IH]; intros m m' H; simpl in H; [inversion H; auto|].
  destruct (ahas k (m_basic m)); [auto|]. destruct (aget k (m_graph m)) as [ds|]; [|discriminate].
  destruct (default_cond (m_next m) ds) as [c nx]. apply IH in H. auto.
Qed.
Lemma add_defaults_twice : forall m m', add_defaults (m_nodes m) m = Ok m' -> add_defaults (m_nodes m') m' = Ok m'.
Proof.
  intros m m' H. apply add_defaults_none. intros n I. destruct (add_defaults_rest _ _ _ H) as (N & _). rewrite N in I.
  eapply add_defaults_has; eauto.
Qed.
Lemma no_side_default : forall k ds, no_side_effects (fst (default_cond k ds)).
Proof.
  intros k ds. destruct ds as [|d [|d' r]]; [simpl; auto|simpl; auto|].
  change (no_side_effects (All k (default_parts (S k) (d :: d' :: r)))).
  generalize (d :: d' :: r). intros l. generalize (S k). induction l as [|x l IH]; intros j; [simpl; auto|]. split; [simpl; auto|apply IH].
Qed.
Lemma add_defaults_quiet : forall ns m m', add_defaults ns m = Ok m' -> quiet_basic m -> quiet_basic m'.
Proof.
  induction ns as [|k ns IH]; intros m m' H Q; simpl in H; [inversion H; subst; auto|].
  destruct (ahas k (m_basic m)); [eauto|]. destruct (aget k (m_graph m)) as [ds|]; [|discriminate].
  destruct (default_cond (m_next m) ds) as [c nx] eqn:D. eapply IH; eauto. intros n c'. simpl.
  destruct (Nat.eq_dec k n) as [->|N].
  - rewrite aget_aset_same. intros E; inversion E; subst. replace c' with (fst (default_cond (m_next m) ds)) by (rewrite D; auto). apply no_side_default.
  - rewrite aget_aset_other; auto. apply Q.
Qed.

(** the rest of the start, after validation *)
Definition start_rest (m1 : core) (g : gen) : res gen * core :=
  let e := g_eid g in
  let tc := match g_tcarg g with None => m_tconds m1 | Some a => combine_tconds (m_tconds m1) a end in
  let m2 := set_clock m1 e (the_clock (m_ctxs m1 e)) in
  let abs := nonempty (absolute_conditions m2 tc) in
  match setup_absolute m2 e tc with
  | Err ex => (Err ex, m2)
  | Ok m3 =>
      match init_counts_base m3 e (g_base g) with
      | (Err ex, m4) => (Err ex, m4)
      | (Ok _, m4) =>
          let m5 := reset_counts_useable m4 e in
          let m6 := reset_counts_total ESU m5 e in
          (Ok (mkGen e (g_base g) (g_tcarg g) (g_skip g) tc abs PStart), m6)
      end
  end.
Lemma start_eq : forall m g, start m g =
  match toposort (m_graph m) with
  | TopoOk _ => match add_defaults (m_nodes m) m with Ok m1 => start_rest m1 g | Err ex => (Err ex, m) end
  | _ => (Err EScheduler, m)
  end.
Proof. intros; unfold start, validate_run_state. destruct (toposort (m_graph m)); auto. destruct (add_defaults (m_nodes m) m); auto. Qed.
Lemma sim_abs : forall e m m1 tc, sim e m m1 -> absolute_conditions m1 tc = absolute_conditions m tc.
Proof. intros e m m1 tc SS. unfold absolute_conditions. rewrite (si_basic _ _ _ SS); auto. Qed.
Lemma sim_set_clock : forall e m m1 k, sim e m m1 -> sim e (set_clock m e k) (set_clock m1 e k).
Proof. intros e m m1 k SS. unfold set_clock. rewrite (si_ctx _ _ _ SS). apply sim_set_ctx; auto. Qed.
Lemma sim_setup : forall e m m1 tc, sim e m m1 ->
  match setup_absolute m e tc, setup_absolute m1 e tc with Ok a, Ok b => sim e a b | Err x, Err y => x = y | _, _ => False end.
Proof.
  intros e m m1 tc SS. unfold setup_absolute. rewrite (sim_abs _ _ _ tc SS), (si_ctx _ _ _ SS).
  destruct (absolute_conditions m tc) eqn:A; [apply sim_set_clock; auto|].
  assert (U : unit_of m1 tc = unit_of m tc).
  { unfold unit_of. rewrite (sim_abs _ _ _ tc SS), (si_unit _ _ _ SS), (si_exact _ _ _ SS), (sim_queue _ _ _ SS); auto. }
  rewrite U. destruct (unit_of m tc); auto. apply sim_set_clock; auto.
Qed.
Lemma sim_init_counts : forall e b m m1, sim e m m1 -> initialised (m_ctxs m e) -> x_clock (m_ctxs m e) <> None ->
  exists m' m1', init_counts_base m e b = (Ok tt, m') /\ init_counts_base m1 e b = (Ok tt, m1') /\ sim e m' m1'.
Proof.
  intros e b m m1 SS (I1 & I2 & I3) C. unfold init_counts_base. rewrite (si_ctx _ _ _ SS).
  destruct (x_total (m_ctxs m e)) as [t|]; [|congruence]. destruct (x_use (m_ctxs m e)) as [u|]; [|congruence].
  destruct (x_list (m_ctxs m e)) as [l|]; [|congruence]. destruct (x_clock (m_ctxs m e)) as [k|]; [|congruence]. simpl.
  do 2 eexists. split; [reflexivity|]. split; [reflexivity|]. apply sim_set_ctx; auto.
Qed.
Lemma setup_ctx : forall m e tc m', setup_absolute m e tc = Ok m' -> exists k, m' = set_clock m e k.
Proof.
  intros m e tc m' H. unfold setup_absolute in H. destruct (absolute_conditions m tc); [inversion H; eauto|].
  destruct (unit_of m tc); inversion H; eauto.
Qed.
Lemma sim_start_rest : forall m m1 g, sim (g_eid g) m m1 -> initialised (m_ctxs m (g_eid g)) ->
  fst (start_rest m g) = fst (start_rest m1 g) /\ sim (g_eid g) (snd (start_rest m g)) (snd (start_rest m1 g)).
Proof.
  intros m m1 g SS I. unfold start_rest. cbv zeta. rewrite (si_tconds _ _ _ SS), (si_ctx _ _ _ SS).
  set (tc := match g_tcarg g with None => m_tconds m | Some a => combine_tconds (m_tconds m) a end).
  pose proof (sim_set_clock _ _ _ (the_clock (m_ctxs m (g_eid g))) SS) as S2. rewrite (sim_abs _ _ _ tc S2).
  pose proof (sim_setup _ _ _ tc S2) as S3.
  destruct (setup_absolute (set_clock m (g_eid g) _) (g_eid g) tc) as [a|x] eqn:E, (setup_absolute (set_clock m1 (g_eid g) _) (g_eid g) tc) as [b|y];
    try contradiction; [|subst; auto].
  apply setup_ctx in E. destruct E as (k & E).
  assert (X : m_ctxs a (g_eid g) = mkCtx (x_total (m_ctxs m (g_eid g))) (x_use (m_ctxs m (g_eid g))) (x_list (m_ctxs m (g_eid g))) (x_stamps (m_ctxs m (g_eid g))) (Some k)).
  { rewrite E. unfold set_clock. simpl. rewrite !upd_same. reflexivity. }
  assert (I2 : initialised (m_ctxs a (g_eid g))) by (rewrite X; apply I).
  assert (C : x_clock (m_ctxs a (g_eid g)) <> None) by (rewrite X; discriminate).
  destruct (sim_init_counts _ (g_base g) _ _ S3 I2 C) as (m' & m1' & -> & -> & S4). simpl. split; auto.
  apply sim_reset. unfold reset_counts_useable. rewrite (si_ctx _ _ _ S4). apply sim_set_ctx; auto.
Qed.
(** real state m, state m1 of the run alone: equal for e up to the default conditions *)
Definition presim (e : eid) (m m1 : core) : Prop :=
  exists mb, (mb = m1 \/ add_defaults (m_nodes m1) m1 = Ok mb) /\ sim e m mb.
Lemma presim_start : forall m m1 g, presim (g_eid g) m m1 -> initialised (m_ctxs m (g_eid g)) ->
  fst (start m g) = fst (start m1 g) /\ presim (g_eid g) (snd (start m g)) (snd (start m1 g)) /\
  (isSome (match fst (start m g) with Ok _ => Some tt | _ => None end) = true -> sim (g_eid g) (snd (start m g)) (snd (start m1 g))).
Proof.
  intros m m1 g (mb & D & SS) I. rewrite !start_eq.
  assert (G : m_graph mb = m_graph m1 /\ m_nodes mb = m_nodes m1).
  { destruct D as [->|D]; auto. apply add_defaults_rest in D. tauto. }
  destruct G as [G N]. rewrite <- G. rewrite (si_graph _ _ _ SS).
  destruct (toposort (m_graph m)) eqn:T; [|simpl; split; [|split; [exists mb|]]; auto; discriminate|simpl; split; [|split; [exists mb|]]; auto; discriminate].
  assert (N1 : m_nodes m1 = m_nodes m) by (rewrite <- N; apply (si_nodes _ _ _ SS)). rewrite N1 in *.
  pose proof (sim_add_defaults _ (m_nodes m) _ _ SS) as A.
  assert (D1 : add_defaults (m_nodes m) m1 = add_defaults (m_nodes m) mb).
  { destruct D as [->|D]; auto. rewrite D. symmetry. pose proof (add_defaults_twice m1 mb) as Tw. rewrite N, N1 in Tw.
    apply Tw. auto. }
  rewrite D1.
  destruct (add_defaults (m_nodes m) m) as [a|x] eqn:Ea, (add_defaults (m_nodes m) mb) as [b|y] eqn:Eb; try contradiction.
  - assert (Ia : initialised (m_ctxs a (g_eid g))).
    { destruct (add_defaults_rest _ _ _ Ea) as (_ & _ & _ & -> & _); auto. }
    destruct (sim_start_rest a b g A Ia) as [E S2]. split; auto. split; auto. exists (snd (start_rest b g)). auto.
  - subst. simpl. split; auto. split; [|discriminate]. exists mb. rewrite N1. auto.
Qed.

(** ** What other execution ids do is invisible *)
Section Other.
Variable e : eid.
Let calm (m m' : core) : Prop := agree e (m_cst m) (m_cst m').
Lemma calm_satisfied : forall m e' c r m', e' <> e -> no_side_effects c -> satisfied m e' c = (r, m') -> calm m m'.
Proof.
  intros m e' c r m' D N H. unfold satisfied in H. pose proof (eval_other c (view_of m e') e' e (m_owners m) (m_cst m) N (not_eq_sym D)) as A.
  destruct (eval (view_of m e') e' (m_owners m) c (m_cst m)); inversion H; subst. exact A.
Qed.
Lemma calm_round : forall level m e' exec ch r m', e' <> e -> quiet_basic m -> round m e' level exec ch = (r, m') -> calm m m'.
Proof.
  induction level as [|n level IH]; intros m e' exec ch r m' D Q H; simpl in H; [inversion H; subst; apply agree_refl|].
  destruct (mem n exec); [eapply IH; eauto|]. destruct (aget n (m_basic m)) as [c|] eqn:E; [|inversion H; subst; apply agree_refl].
  destruct (satisfied m e' c) as [r0 m2] eqn:Sa. pose proof (calm_satisfied _ _ _ _ _ D (Q _ _ E) Sa) as C.
  assert (Q2 : quiet_basic m2) by (apply (quiet_basic_fixed e' m); auto; eapply fixed_satisfied; eauto).
  destruct r0 as [[|]|ex]; [| |inversion H; subst; auto].
  - destruct (mem n (m_nodes m2)); [|inversion H; subst; auto].
    apply (agree_trans _ _ _ _ C). apply (IH (accept m2 e' n) e' _ _ _ _ D Q2 H).
  - apply (agree_trans _ _ _ _ C). apply (IH _ e' _ _ _ _ D Q2 H).
Qed.
Lemma calm_level : forall fuel m e' level exec r m', e' <> e -> quiet_basic m -> do_level fuel m e' level exec = Some (r, m') -> calm m m'.
Proof.
  induction fuel as [|f IH]; intros m e' level exec r m' D Q H; simpl in H; [discriminate|].
  destruct (round m e' level exec false) as [r0 m2] eqn:Ro. pose proof (calm_round _ _ _ _ _ _ _ D Q Ro) as C.
  assert (Q2 : quiet_basic m2) by (apply (quiet_basic_fixed e' m); auto; eapply fixed_round; eauto).
  destruct r0 as [[x [|]]|ex]; [|inversion H; subst; auto|inversion H; subst; auto].
  apply (agree_trans _ _ _ _ C). eapply IH; eauto.
Qed.
Lemma calm_tc : forall m e' tc s r m', e' <> e -> quiet_tconds tc -> check_tc m e' tc s = (r, m') -> calm m m'.
Proof.
  intros m e' tc s r m' D Q H. unfold check_tc in H. destruct (tc s) as [c|] eqn:E; [|inversion H; subst; apply agree_refl].
  eapply calm_satisfied; eauto.
Qed.
Lemma calm_terminated : forall m e' tc r m', e' <> e -> quiet_tconds tc -> terminated m e' tc = (r, m') -> calm m m'.
Proof.
  intros m e' tc r m' D Q H. unfold terminated in H. destruct (check_tc m e' tc ESU) as [r0 m2] eqn:C.
  pose proof (calm_tc _ _ _ _ _ _ D Q C) as A. destruct r0 as [[|]|]; [inversion H; subst; auto| |inversion H; subst; auto].
  apply (agree_trans _ _ _ _ A). eapply calm_tc; eauto.
Qed.
Lemma append_cst : forall m e' abs s r m', append_exec m e' abs s = (r, m') -> m_cst m' = m_cst m.
Proof.
  intros m e' abs s r m' H. unfold append_exec in H. destruct (x_list (m_ctxs m e')); [|inversion H; auto].
  destruct abs; [destruct (x_stamps (m_ctxs m e'))|]; inversion H; auto.
Qed.
Lemma incr_cst : forall s m e' m', incr_clock s m e' = Ok m' -> m_cst m' = m_cst m.
Proof. intros s m e' m' H. apply incr_clock_inv in H. destruct H as (k & ->). reflexivity. Qed.
Lemma calm_inner : forall rest m g i ch, g_eid g <> e -> quiet_basic m -> quiet_tconds (g_tc g) -> calm m (inner_core (inner m g rest i ch)).
Proof.
  induction rest as [|level rest IH]; intros m g i ch D Q T; cbn [inner]; [apply agree_refl|].
  destruct (terminated m (g_eid g) (g_tc g)) as [r m2] eqn:Te. pose proof (calm_terminated _ _ _ _ _ D T Te) as C.
  assert (Q2 : quiet_basic m2) by (apply (quiet_basic_fixed (g_eid g) m); auto; eapply fixed_terminated; eauto).
  destruct r as [[|]|ex]; auto.
  destruct (do_level (S (length level)) m2 (g_eid g) level []) as [[r m4]|] eqn:L; auto.
  pose proof (calm_level _ _ _ _ _ _ _ D Q2 L) as C2. pose proof (agree_trans _ _ _ _ C C2) as C3.
  assert (Q4 : quiet_basic m4) by (apply (quiet_basic_fixed (g_eid g) m2); auto; eapply fixed_level; eauto).
  destruct r as [exec|ex]; auto. cbv zeta. destruct (nonempty exec || g_abs g).
  - destruct (append_exec m4 (g_eid g) (g_abs g) exec) as [r m6] eqn:A. apply append_cst in A.
    destruct r; simpl; unfold calm; rewrite A; auto.
  - apply (agree_trans _ _ _ _ C3). apply IH; auto.
Qed.
Lemma calm_tail : forall m g ch, calm m (tail_core (pass_tail m g ch)).
Proof.
  intros m g ch. unfold pass_tail. destruct (negb ch && negb (g_abs g)).
  - destruct (append_exec m (g_eid g) false []) as [r m2] eqn:A. apply append_cst in A.
    destruct r; simpl; unfold calm; rewrite A; apply agree_refl.
  - destruct (incr_clock PASS m (g_eid g)) eqn:A; [|apply agree_refl]. apply incr_cst in A. unfold calm; simpl; rewrite A; apply agree_refl.
Qed.
Lemma calm_finish : forall m g, g_eid g <> e -> quiet_tconds (g_tc g) -> calm m (fst (fst (finish m g))).
Proof.
  intros m g D T. unfold finish. 
  assert (X : forall m1, (if g_skip g then Ok m else incr_clock ESU m (g_eid g)) = Ok m1 -> m_cst m1 = m_cst m).
  { intros m1. destruct (g_skip g); [intros Z; inversion Z; auto|apply incr_cst]. }
  destruct (if g_skip g then Ok m else incr_clock ESU m (g_eid g)) as [m1|]; [|apply agree_refl].
  destruct (check_tc m1 (g_eid g) (g_tc g) ES) as [r m2] eqn:C. apply calm_tc in C; auto. unfold calm in *. rewrite (X m1 eq_refl) in C.
  destruct r; simpl; auto. destruct (x_list (m_ctxs m2 (g_eid g))); auto.
Qed.
Lemma calm_outer : forall fuel m g, g_eid g <> e -> quiet_basic m -> quiet_tconds (g_tc g) -> calm m (fst (fst (outer fuel m g))).
Proof.
  induction fuel as [|f IH]; intros m g D Q T; [apply agree_refl|]. cbn [outer].
  destruct (terminated m (g_eid g) (g_tc g)) as [r m2] eqn:Te. pose proof (calm_terminated _ _ _ _ _ D T Te) as C.
  assert (Q2 : quiet_basic m2) by (apply (quiet_basic_fixed (g_eid g) m); auto; eapply fixed_terminated; eauto).
  destruct r as [[|]|ex]; auto.
  - apply (agree_trans _ _ _ _ C). apply calm_finish; auto.
  - cbv zeta. set (a := reset_counts_total PASS m2 (g_eid g)). assert (Qa : quiet_basic a) by exact Q2.
    pose proof (calm_inner (queue a) a g 0 false D Qa T) as CI. pose proof (fixed_inner (queue a) a g 0 false) as FI.
    assert (C2 : calm m (inner_core (inner a g (queue a) 0 false))) by (apply (agree_trans _ _ _ _ C CI)).
    destruct (inner a g (queue a) 0 false) as [x s i ch|x ch|x ex|x]; simpl in *; auto.
    pose proof (calm_tail x g ch) as CT. pose proof (fixed_tail x g ch) as FT.
    pose proof (agree_trans _ _ _ _ C2 CT) as C3.
    destruct (pass_tail x g ch); simpl in *; auto.
    apply (agree_trans _ _ _ _ C3). apply IH; auto. apply (quiet_basic_fixed _ _ _ FT), (quiet_basic_fixed _ _ _ FI); auto.
Qed.
Lemma fixed_sim : forall e' m m', e' <> e -> fixed e' m m' -> calm m m' -> sim e m m'.
Proof. intros e' m m' D [] C. constructor; auto. Qed.
(** up to the default conditions *)
Definition osim (m m' : core) : Prop := exists mb, (mb = m \/ add_defaults (m_nodes m) m = Ok mb) /\ sim e mb m'.
Lemma sim_refl : forall m, sim e m m.
Proof. intros; constructor; auto. apply agree_refl. Qed.
Lemma sim_sym : forall m m1, sim e m m1 -> sim e m1 m.
Proof. intros m m1 []; constructor; auto. apply agree_sym; auto. Qed.
Lemma sim_trans : forall a b c, sim e a b -> sim e b c -> sim e a c.
Proof. intros a b c [] []; constructor; try congruence. eapply agree_trans; eauto. Qed.
Lemma start_rest_frame : forall m g, fixed (g_eid g) m (snd (start_rest m g)) /\ m_cst (snd (start_rest m g)) = m_cst m.
Proof.
  intros m g. unfold start_rest; cbv zeta.
  set (tc := match g_tcarg g with None => m_tconds m | Some a => combine_tconds (m_tconds m) a end).
  set (m2 := set_clock m (g_eid g) (the_clock (m_ctxs m (g_eid g)))).
  assert (F2 : fixed (g_eid g) m m2) by apply fixed_ctx.
  destruct (setup_absolute m2 (g_eid g) tc) as [m3|] eqn:E; [|simpl; auto].
  apply setup_ctx in E. destruct E as (k & E).
  assert (F3 : fixed (g_eid g) m m3) by (rewrite E; apply (fixed_trans _ _ _ _ F2); apply fixed_ctx).
  destruct (init_counts_base m3 (g_eid g) (g_base g)) as [r m4] eqn:I.
  assert (C4 : m_cst m4 = m_cst m3).
  { unfold init_counts_base in I. repeat match type of I with context [match copy_entry ?a ?b with _ => _ end] => destruct (copy_entry a b) end; inversion I; subst; auto. }
  apply fixed_init_counts in I. assert (F4 := fixed_trans _ _ _ _ F3 I).
  destruct r; simpl; [|split; auto; rewrite C4, E; auto]. split; [|rewrite C4, E; auto].
  apply (fixed_trans _ _ _ _ F4). apply (fixed_trans _ _ (reset_counts_useable m4 (g_eid g))); apply fixed_ctx.
Qed.
Lemma start_other : forall m g, g_eid g <> e -> quiet_scheduler m -> osim m (snd (start m g)) /\ quiet_scheduler (snd (start m g)).
Proof.
  intros m g D [QT QB]. rewrite start_eq.
  assert (K : osim m m /\ quiet_scheduler m) by (split; [exists m; split; [left; reflexivity|apply sim_refl]|split; auto]).
  destruct (toposort (m_graph m)); [|exact K|exact K].
  destruct (add_defaults (m_nodes m) m) as [mb|] eqn:A; [|exact K].
  destruct (start_rest_frame mb g) as [F C]. split.
  - exists mb. split; [right; auto|]. apply (fixed_sim (g_eid g)); auto. unfold calm. rewrite C. apply agree_refl.
  - split; [rewrite (fx_tconds _ _ _ F); destruct (add_defaults_rest _ _ _ A) as (_ & _ & -> & _); auto|].
    apply (quiet_basic_fixed _ _ _ F). eapply add_defaults_quiet; eauto.
Qed.
Lemma quiet_fixed : forall e' m m', fixed e' m m' -> quiet_scheduler m -> quiet_scheduler m'.
Proof. intros e' m m' F [A B]. split; [rewrite (fx_tconds _ _ _ F); auto|apply (quiet_basic_fixed _ _ _ F); auto]. Qed.
Lemma start_tc_quiet : forall m g g1 m1, start m g = (Ok g1, m1) -> quiet_scheduler m -> quiet_run g -> quiet_tconds (g_tc g1).
Proof.
  intros m g g1 m1 H [QT _] [_ QA]. rewrite start_eq in H. destruct (toposort (m_graph m)); try discriminate.
  destruct (add_defaults (m_nodes m) m) as [mb|] eqn:A; [|discriminate]. destruct (add_defaults_rest _ _ _ A) as (_ & _ & TC & _).
  unfold start_rest in H. cbv zeta in H. destruct (setup_absolute _ _ _) as [ma|]; [|discriminate]. destruct (init_counts_base _ _ _) as [[ua|ea] mi]; [|discriminate].
  inversion H; subst. simpl. rewrite TC. destruct (g_tcarg g) as [a|] eqn:G; auto.
  intros s c. unfold combine_tconds. destruct (a s) eqn:Z; [intros X; inversion X; subst; eapply QA; eauto|apply QT].
Qed.
Lemma resume_other : forall fuel m g m' g' o, g_eid g <> e -> quiet_scheduler m -> quiet_run g -> resume fuel m g = (m', g', o) ->
  osim m m' /\ quiet_scheduler m'.
Proof.
  intros fuel m g m' g' o D QS QR H.
  assert (K : forall a, fixed (g_eid g) m a -> calm m a -> osim m a /\ quiet_scheduler a).
  { intros a F C. split; [exists m; split; auto; eapply fixed_sim; eauto|eapply quiet_fixed; eauto]. }
  assert (O : forall a gg, g_eid gg <> e -> osim m a -> quiet_scheduler a -> quiet_tconds (g_tc gg) ->
            osim m (fst (fst (outer fuel a gg))) /\ quiet_scheduler (fst (fst (outer fuel a gg)))).
  { intros a gg Dg (mb & X & SS) QA T. pose proof (fixed_outer fuel a gg) as F. split; [|eapply quiet_fixed; eauto].
    exists mb. split; auto. apply (sim_trans mb a); auto. eapply fixed_sim; [apply Dg|auto|]. apply calm_outer; auto. exact (proj2 QA). }
  assert (CP : forall a ii ch (rest : list (list node)), fixed (g_eid g) m a -> calm m a ->
            osim m (fst (fst match inner a g rest ii ch with
                    | IYield m3 s i ch => (m3, at_pc g (PLevel i ch), OYield s)
                    | IEnd m3 ch => match pass_tail m3 g ch with TYield m4 => (m4, at_pc g PIdle, OYield []) | TNext m4 => outer fuel m4 g | TErr m4 ex => (m4, at_pc g PDone, ORaise ex) end
                    | IErr m3 ex => (m3, at_pc g PDone, ORaise ex)
                    | IFuel m3 => (m3, g, OFuel) end)) /\
            quiet_scheduler (fst (fst match inner a g rest ii ch with
                    | IYield m3 s i ch => (m3, at_pc g (PLevel i ch), OYield s)
                    | IEnd m3 ch => match pass_tail m3 g ch with TYield m4 => (m4, at_pc g PIdle, OYield []) | TNext m4 => outer fuel m4 g | TErr m4 ex => (m4, at_pc g PDone, ORaise ex) end
                    | IErr m3 ex => (m3, at_pc g PDone, ORaise ex)
                    | IFuel m3 => (m3, g, OFuel) end))).
  { intros a ii ch rest Fa Ca. assert (Qa := quiet_fixed _ _ _ Fa QS).
    pose proof (fixed_inner rest a g ii ch) as FI. pose proof (calm_inner rest a g ii ch D (proj2 Qa) (proj1 QR)) as CI.
    assert (F2 := fixed_trans _ _ _ _ Fa FI). pose proof (agree_trans _ _ _ _ Ca CI) as C2.
    destruct (inner a g rest ii ch) as [x s i c|x c|x ex|x]; simpl in *; try exact (K _ F2 C2).
    pose proof (fixed_tail x g c) as FT. pose proof (calm_tail x g c) as CT.
    assert (F3 := fixed_trans _ _ _ _ F2 FT). pose proof (agree_trans _ _ _ _ C2 CT) as C3.
    destruct (pass_tail x g c); simpl in *; try exact (K _ F3 C3).
    destruct (K _ F3 C3). apply O; auto. exact (proj1 QR). }
  unfold resume in H. destruct (g_pc g) as [|i ch| |] eqn:P.
  - destruct (start m g) as [[g1|ex] m1] eqn:St.
    + pose proof (start_other m g D QS) as [A B]. rewrite St in A, B. simpl in A, B.
      assert (Dg : g_eid g1 <> e) by (rewrite (start_eid _ _ _ _ St); auto).
      specialize (O m1 g1 Dg A B (start_tc_quiet _ _ _ _ St QS QR)). rewrite H in O. exact O.
    + pose proof (start_other m g D QS) as A. rewrite St in A. inversion H; subst. exact A.
  - destruct (incr_clock CSE m (g_eid g)) as [m1|] eqn:I; [|inversion H; subst; apply K; [apply fixed_refl|apply agree_refl]].
    specialize (CP m1 (S i) ch (skipn (S i) (queue m1)) (fixed_incr _ _ _ _ I)). rewrite H in CP. apply CP.
    unfold calm. rewrite (incr_cst _ _ _ _ I). apply agree_refl.
  - destruct (incr_clock CSE m (g_eid g)) as [m1|] eqn:I; [|inversion H; subst; apply K; [apply fixed_refl|apply agree_refl]].
    assert (F1 := fixed_incr _ _ _ _ I). apply incr_cst in I.
    destruct (incr_clock PASS m1 (g_eid g)) as [m2|] eqn:I2.
    + assert (F2 := fixed_trans _ _ _ _ F1 (fixed_incr _ _ _ _ I2)). apply incr_cst in I2.
      destruct (K _ F2) as [A B]; [unfold calm; rewrite I2, I; apply agree_refl|].
      specialize (O m2 g D A B (proj1 QR)). rewrite H in O. exact O.
    + inversion H; subst. apply K; auto. unfold calm. rewrite I. apply agree_refl.
  - inversion H; subst. apply K; [apply fixed_refl|apply agree_refl].
Qed.
End Other.

(** ** Isolation *)
Lemma finish_pc : forall m g, snd (fst (finish m g)) = at_pc g PDone.
Proof.
  intros m g. unfold finish. destruct (if g_skip g then Ok m else incr_clock ESU m (g_eid g)); auto.
  destruct (check_tc _ _ _ _) as [[|] m2]; auto. destruct (x_list (m_ctxs m2 (g_eid g))); auto.
Qed.
Lemma outer_pc : forall fuel m g m' g' o, outer fuel m g = (m', g', o) -> o <> OFuel -> exists p, g' = at_pc g p /\ p <> PStart.
Proof.
  induction fuel as [|f IH]; intros m g m' g' o H N; cbn [outer] in H; [inversion H; subst; congruence|].
  destruct (terminated m (g_eid g) (g_tc g)) as [[[|]|] m1].
  - pose proof (finish_pc m1 g) as F. rewrite H in F. exists PDone; split; auto. discriminate.
  - cbv zeta in H. destruct (inner _ g _ 0 false) as [x s i c|x c|x ex|x].
    + inversion H; subst. exists (PLevel i c); split; auto; discriminate.
    + destruct (pass_tail x g c); [inversion H; subst; exists PIdle; split; auto; discriminate|eauto|
        inversion H; subst; exists PDone; split; auto; discriminate].
    + inversion H; subst; exists PDone; split; auto; discriminate.
    + inversion H; subst; congruence.
  - inversion H; subst; exists PDone; split; auto; discriminate.
Qed.
Lemma resume_pc : forall fuel m g m' g' o, resume fuel m g = (m', g', o) -> o <> OFuel -> g_pc g <> PStart ->
  exists p, g' = at_pc g p /\ p <> PStart.
Proof.
  intros fuel m g m' g' o H N P. unfold resume in H. destruct (g_pc g) as [|i ch| |] eqn:E; [congruence| | |].
  - destruct (incr_clock CSE m (g_eid g)); [|inversion H; subst; exists PDone; split; auto; discriminate].
    cbv zeta in H. destruct (inner _ g _ (S i) ch) as [x s j c|x c|x ex|x].
    + inversion H; subst. exists (PLevel j c); split; auto; discriminate.
    + destruct (pass_tail x g c); [inversion H; subst; exists PIdle; split; auto; discriminate|eapply outer_pc; eauto|
        inversion H; subst; exists PDone; split; auto; discriminate].
    + inversion H; subst; exists PDone; split; auto; discriminate.
    + inversion H; subst; congruence.
  - destruct (incr_clock CSE m (g_eid g)) as [m1|]; [|inversion H; subst; exists PDone; split; auto; discriminate].
    destruct (incr_clock PASS m1 (g_eid g)); [|inversion H; subst; exists PDone; split; auto; discriminate]. eapply outer_pc; eauto.
  - inversion H; subst. exists PDone. split; [|discriminate]. destruct g'; simpl in *; subst; auto.
Qed.
Record related (e : eid) (m : core) (g : gen) (m1 : core) : Prop := {
  rl_eid : g_eid g = e;
  rl_quiet : quiet_scheduler m;
  rl_run : quiet_run g;
  rl_case : (g_pc g = PStart /\ initialised (m_ctxs m e) \/ g_pc g = PDone) /\ presim e m m1
            \/ g_pc g <> PStart /\ sim e m m1 /\ complete m
}.
Lemma complete_sim : forall e m m1, sim e m m1 -> complete m -> complete m1.
Proof. intros e m m1 F C n. rewrite (si_nodes _ _ _ F), (si_basic _ _ _ F). apply C. Qed.
Lemma complete_fixed : forall e m m1, fixed e m m1 -> complete m -> complete m1.
Proof. intros e m m1 F C n. rewrite (fx_nodes _ _ _ F), (fx_basic _ _ _ F). apply C. Qed.
Lemma quiet_at_pc : forall g p, quiet_run g -> quiet_run (at_pc g p).
Proof. intros g p Q; exact Q. Qed.
Lemma presim_osim : forall e m m1 m2, presim e m m1 -> osim e m m2 -> presim e m2 m1.
Proof.
  intros e m m1 m2 (mb & D & SS) (mc & [->|A] & S2).
  - exists mb. split; auto. apply (sim_trans e m2 m mb); auto using sim_sym.
  - pose proof (sim_add_defaults e (m_nodes m) m mb SS) as X. rewrite A in X.
    assert (N : m_nodes mb = m_nodes m1) by (destruct D as [->|D]; auto; apply add_defaults_rest in D; tauto).
    pose proof (si_nodes _ _ _ SS) as N2.
    destruct (add_defaults (m_nodes m) mb) as [b|] eqn:B; [|contradiction].
    exists b. split; [|apply (sim_trans e m2 mc b); auto using sim_sym]. right. destruct D as [->|D].
    + rewrite <- B. f_equal. congruence.
    + pose proof (add_defaults_twice _ _ D) as Tw. rewrite N2, B in Tw. congruence.
Qed.
Lemma related_others : forall e m m', others e m m' -> forall g m1, related e m g m1 -> related e m' g m1.
Proof.
  intros e m m' O. induction O as [m|m ma fuel g0 m2 g0' o O IH Ne QR R|m ma e' m2 O IH Ne E]; intros g m1 RL; auto.
  - destruct (IH _ _ RL) as [E Q QG C]. destruct (resume_other e _ _ _ _ _ _ Ne Q QR R) as [OS Q2]. constructor; auto.
    assert (X : m_ctxs m2 e = m_ctxs ma e).
    { destruct OS as (mb & [->|D] & SS); [apply (si_ctx _ _ _ SS)|]. rewrite (si_ctx _ _ _ SS). destruct (add_defaults_rest _ _ _ D) as (_ & _ & _ & -> & _); auto. }
    destruct C as [(PC & PS)|(PC & SS & C)].
    + left. rewrite X. split; auto. eapply presim_osim; eauto.
    + right. destruct OS as (mb & D & S2). assert (mb = ma).
      { destruct D as [->|D]; auto. rewrite add_defaults_none in D; [congruence|]. exact C. }
      subst mb. split; auto. split; [apply (sim_trans e m2 ma m1); auto using sim_sym|eapply complete_sim; eauto].
  - destruct (IH _ _ RL) as [Ee Q QG C]. unfold end_environment_sequence in E.
    pose proof (fixed_incr _ _ _ _ E) as F. pose proof (incr_cst _ _ _ _ E) as Cs.
    assert (SS : sim e ma m2) by (apply (fixed_sim e e'); auto; rewrite Cs; apply agree_refl).
    constructor; auto; [eapply quiet_fixed; eauto|].
    destruct C as [(PC & PS)|(PC & S2 & C)].
    + left. rewrite (si_ctx _ _ _ SS). split; auto. eapply presim_osim; eauto. exists ma; auto.
    + right. split; auto. split; [apply (sim_trans e m2 ma m1); auto using sim_sym|eapply complete_sim; eauto].
Qed.
Lemma sim_resume : forall fuel m m1 g, g_pc g <> PStart -> sim (g_eid g) m m1 -> quiet_basic m -> quiet_tconds (g_tc g) ->
  sim_out (g_eid g) (resume fuel m g) (resume fuel m1 g).
Proof.
  intros fuel m m1 g P SS Q T. unfold resume. destruct (g_pc g) as [|i ch| |] eqn:E; [congruence| | |].
  - destruct (incr_clock CSE m (g_eid g)) as [a|] eqn:I.
    + pose proof (fixed_incr _ _ _ _ I) as FX. destruct (sim_incr _ _ _ _ _ SS I) as (b & -> & S2). cbv zeta. rewrite (sim_queue _ _ _ S2).
      assert (Qa := quiet_basic_fixed _ _ _ FX Q).
      pose proof (sim_inner (skipn (S i) (queue a)) a b g (S i) ch S2 Qa T) as SI. pose proof (fixed_inner (skipn (S i) (queue a)) a g (S i) ch) as FI.
      destruct (inner a g _ (S i) ch) as [x s j c|x c|x ex|x], (inner b g _ (S i) ch) as [y s' j' c'|y c'|y ex'|y]; simpl in SI; try contradiction.
      * destruct SI as (S5 & <- & <- & <-). apply sim_out_intro; auto.
      * destruct SI as (S5 & <-). pose proof (sim_tail x y g c S5) as ST. simpl in FI. pose proof (fixed_tail x g c) as FT.
        destruct (pass_tail x g c), (pass_tail y g c); try contradiction; [apply sim_out_intro; auto| |destruct ST as [ST <-]; apply sim_out_intro; auto].
        apply sim_outer; auto. apply (quiet_basic_fixed _ _ _ FT), (quiet_basic_fixed _ _ _ FI); auto.
      * destruct SI as (S5 & <-). apply sim_out_intro; auto.
      * apply sim_out_intro; auto.
    + rewrite (sim_incr_err _ _ _ _ _ SS I). apply sim_out_intro; auto.
  - destruct (incr_clock CSE m (g_eid g)) as [a|] eqn:I.
    + pose proof (fixed_incr _ _ _ _ I) as FX. destruct (sim_incr _ _ _ _ _ SS I) as (b & -> & S2).
      destruct (incr_clock PASS a (g_eid g)) as [a2|] eqn:I2.
      * pose proof (fixed_incr _ _ _ _ I2) as FX2. destruct (sim_incr _ _ _ _ _ S2 I2) as (b2 & -> & S3). apply sim_outer; auto.
        apply (quiet_basic_fixed _ _ _ FX2), (quiet_basic_fixed _ _ _ FX); auto.
      * rewrite (sim_incr_err _ _ _ _ _ S2 I2). apply sim_out_intro; auto.
    + rewrite (sim_incr_err _ _ _ _ _ SS I). apply sim_out_intro; auto.
  - apply sim_out_intro; auto.
Qed.
Lemma start_complete : forall m g g1 m1, start m g = (Ok g1, m1) -> complete m1.
Proof.
  intros m g g1 m1 H. rewrite start_eq in H. destruct (toposort (m_graph m)); try discriminate.
  destruct (add_defaults (m_nodes m) m) as [mb|] eqn:A; [|discriminate].
  destruct (start_rest_frame mb g) as [F _]. rewrite H in F. simpl in F. apply (complete_fixed _ _ _ F).
  intros n I. destruct (add_defaults_rest _ _ _ A) as (N & _). rewrite N in I. eapply add_defaults_has; eauto.
Qed.
Lemma start_quiet : forall m g, quiet_scheduler m -> quiet_scheduler (snd (start m g)).
Proof.
  intros m g Q. apply (start_other (S (g_eid g)) m g); auto.
Qed.
Lemma start_tcarg : forall m g g1 m1, start m g = (Ok g1, m1) -> g_tcarg g1 = g_tcarg g.
Proof.
  intros m g g1 m1 H. rewrite start_eq in H. destruct (toposort (m_graph m)); try discriminate.
  destruct (add_defaults (m_nodes m) m) as [mb|] eqn:A; [|discriminate]. unfold start_rest in H. cbv zeta in H.
  destruct (setup_absolute _ _ _) as [ma|]; [|discriminate]. destruct (init_counts_base _ _ _) as [[ua|ea] mi]; [|discriminate]. inversion H; auto.
Qed.
Lemma related_resume : forall e fuel m g m1 m' g' o, related e m g m1 -> resume fuel m g = (m', g', o) -> o <> OFuel ->
  exists m1', resume fuel m1 g = (m1', g', o) /\ related e m' g' m1' /\ m_ctxs m1' e = m_ctxs m' e.
Proof.
  intros e fuel m g m1 m' g' o [E Q QG C] R N. subst e.
  destruct C as [([(P & I)|P] & PS)|(P & SS & C)].
  - unfold resume in *. rewrite P in *. destruct (presim_start _ _ _ PS I) as (Ef & PS' & SS).
    destruct (start m g) as [r a] eqn:Sm, (start m1 g) as [r1 b] eqn:Sb. simpl in Ef, PS', SS. subst r1.
    assert (Qa : quiet_scheduler a) by (replace a with (snd (start m g)) by (rewrite Sm; auto); apply start_quiet; auto).
    destruct r as [g1|ex].
    + specialize (SS eq_refl). assert (E1 := start_eid _ _ _ _ Sm). rewrite <- E1 in SS.
      assert (T1 := start_tc_quiet _ _ _ _ Sm Q QG).
      pose proof (sim_outer fuel a b g1 SS (proj2 Qa) T1) as (S2 & Eg & Eo). pose proof (fixed_outer fuel a g1) as F.
      rewrite R in *. destruct (outer fuel b g1) as [[m1' g1'] o1] eqn:Rb. simpl in *. subst g1' o1.
      rewrite E1 in *. exists m1'. split; auto. split; [|apply (si_ctx _ _ _ S2)].
      destruct (outer_pc _ _ _ _ _ _ R N) as (p & -> & Np). constructor; auto.
      * eapply quiet_fixed; eauto.
      * split; [exact T1|]. simpl. rewrite (start_tcarg _ _ _ _ Sm). apply QG.
      * right. split; auto. split; auto. eapply complete_fixed; eauto. eapply start_complete; eauto.
    + inversion R; subst. exists b. split; auto. split.
      * constructor; auto.
      * destruct PS' as (mb & D & S2). rewrite <- (si_ctx _ _ _ S2). destruct D as [->|D]; auto. destruct (add_defaults_rest _ _ _ D) as (_ & _ & _ & -> & _); auto.
  - unfold resume in *. rewrite P in *. inversion R; subst. exists m1. split; auto. split; [constructor; auto|].
    destruct PS as (mb & D & S2). rewrite <- (si_ctx _ _ _ S2). destruct D as [->|D]; auto. destruct (add_defaults_rest _ _ _ D) as (_ & _ & _ & -> & _); auto.
  - pose proof (sim_resume fuel m m1 g P SS (proj2 Q) (proj1 QG)) as (S2 & Eg & Eo). rewrite R in *.
    destruct (resume fuel m1 g) as [[m1' g1'] o1] eqn:Rb. simpl in *. subst g1' o1. exists m1'. split; auto. split; [|apply (si_ctx _ _ _ S2)].
    destruct (resume_pc _ _ _ _ _ _ R N P) as (p & -> & Np).
    assert (F : quiet_scheduler m' /\ complete m').
    { pose proof (grown_resume _ _ _ _ _ _ R) as G. split.
      - apply (resume_other (S (g_eid g)) _ _ _ _ _ _ (n_Sn _) Q QG R).
      - intros n In. rewrite (gw_nodes _ _ _ G) in In. specialize (C n In). unfold ahas in *. destruct (aget n (m_basic m)) as [c|] eqn:A; [|discriminate].
        rewrite (gw_kept _ _ _ G _ _ A); auto. }
    destruct F. constructor; auto.
Qed.
Lemma alone_app : forall fuel n m g, alone fuel (S n) m g =
  let '(os, m1, g1) := alone fuel n m g in let '(m2, g2, o) := resume fuel m1 g1 in (os ++ [o], m2, g2).
Proof.
  intros fuel; induction n as [|n IH]; intros m g.
  - simpl. destruct (resume fuel m g) as [[m2 g2] o]; auto.
  - change (alone fuel (S (S n)) m g) with (let '(m', g', o) := resume fuel m g in let '(os, m'', g'') := alone fuel (S n) m' g' in (o :: os, m'', g'')).
    change (alone fuel (S n) m g) with (let '(m', g', o) := resume fuel m g in let '(os, m'', g'') := alone fuel n m' g' in (o :: os, m'', g'')).
    destruct (resume fuel m g) as [[m' g'] o]. rewrite IH. destruct (alone fuel n m' g') as [[os m1] g1].
    destruct (resume fuel m1 g1) as [[m2 g2] o2]; auto.
Qed.
Theorem isolation : forall fuel m0 g0 os m g, interleaved fuel m0 g0 os m g -> g_pc g0 = PStart ->
  quiet_scheduler m0 -> quiet_run g0 -> initialised (m_ctxs m0 (g_eid g0)) ->
  exists m1, alone fuel (length os) m0 g0 = (os, m1, g) /\ m_ctxs m (g_eid g0) = m_ctxs m1 (g_eid g0).
Proof.
  intros fuel m0 g0 os m g H P Q QG I.
  assert (X : exists m1, alone fuel (length os) m0 g0 = (os, m1, g) /\ related (g_eid g0) m g m1 /\ m_ctxs m (g_eid g0) = m_ctxs m1 (g_eid g0)).
  { induction H as [|os m g m' H IH O|os m g m' g' o H IH R N].
    - exists m0. split; auto. split; auto. constructor; auto. left. split; auto. exists m0. split; auto. apply sim_refl.
    - destruct IH as (m1 & A & RL & X). exists m1. split; auto. split; [eapply related_others; eauto|]. rewrite <- X.
      clear - O. induction O as [m|m ma fuel g0' m2 g0'' o O IH Ne QR R|m ma e' m2 O IH Ne E]; auto.
      + rewrite <- IH. apply (gw_other _ _ _ (grown_resume _ _ _ _ _ _ R)); auto.
      + rewrite <- IH. apply (fx_other _ _ _ (fixed_incr _ _ _ _ E)); auto.
    - destruct IH as (m1 & A & RL & X). destruct (related_resume _ _ _ _ _ _ _ _ RL R N) as (m1' & R1 & RL1 & X1).
      exists m1'. rewrite app_length; simpl. rewrite Nat.add_1_r, alone_app, A, R1. auto. }
  destruct X as (m1 & A & _ & X). eauto.
Qed.
