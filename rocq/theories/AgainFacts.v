(** Runs whose conditions speak about the run only go the same way every time (C80). *)
From Verif Require Import SpecCond SpecAgain BaseFacts TimeProofs ResumeFrame RunIds SchedFacts SchedThms.
From Verif Require RunProps RegisteredFacts.

Lemma since_app : forall h h2 s, since_at_least ESU h h2 -> ts_lt s ESU -> since_at_least ESU (h ++ [s]) (h2 ++ [s]).
Proof.
  intros h h2 s [F D] L. split; [apply Forall_app; auto|]. destruct D as [->|(h1 & x & -> & X)]; auto. right. exists h1, x. rewrite <- app_assoc. auto.
Qed.
Lemma since_reset : forall h s, ts_le ESU s -> since_at_least ESU (h ++ [s]) [].
Proof. intros h s L. split; auto. right. exists h, s. auto. Qed.
Lemma since_incr : forall k k' s k1, same_since k k' -> ts_lt s LIFE -> clock_incr s k = Ok k1 -> exists k1', clock_incr s k' = Ok k1' /\ same_since k1 k1'.
Proof.
  intros k k' s k1 (h & h' & h2 & C & C' & S & S') L E. destruct (clock_incr_succeeds _ _ _ s C' L) as (k1' & E'). exists k1'. split; auto.
  assert (D : ts_lt s ESU \/ ts_le ESU s) by (unfold ts_lt, ts_le; lia).
  destruct D as [D|D].
  - exists (h ++ [s]), (h' ++ [s]), (h2 ++ [s]). split; [econstructor; eauto|]. split; [econstructor; eauto|]. auto using since_app.
  - exists (h ++ [s]), (h' ++ [s]), []. split; [econstructor; eauto|]. split; [econstructor; eauto|]. auto using since_reset.
Qed.
Lemma since_left : forall k k', same_since k k' -> exists h, clock_after ESU h k.
Proof. intros k k' (h & _ & _ & C & _). eauto. Qed.
Lemma since_total : forall k k' q, same_since k k' -> ts_lt q ESU -> clock_total_relative q ESU k' = clock_total_relative q ESU k.
Proof.
  intros k k' q (h & h' & h2 & C & C' & S & S') L. rewrite (total_relative _ _ _ _ _ _ C L (le_n _) S), (total_relative _ _ _ _ _ _ C' L (le_n _) S'). auto.
Qed.
Lemma same_world_sym_refl : forall e st, same_world e e st st.
Proof. intros; split; auto. Qed.

Lemma within_le : forall s, within_update s = true -> ts_le s ESU.
Proof. intros []; simpl; try discriminate; unfold ts_le; simpl; lia. Qed.
Lemma total_in_run : forall v v' s d, same_in_run v v' -> ts_le s ESU -> count_total v' s d = count_total v s d.
Proof.
  intros v v' s d R L. destruct (sr_total _ _ R) as (f & f' & E & E' & Q). unfold count_total. rewrite E, E', (sr_nodes _ _ R), Q; auto.
Qed.
Lemma sum_in_run : forall v v' s, same_in_run v v' -> ts_le s ESU -> forall ds k, sum_calls v' s ds k = sum_calls v s ds k.
Proof.
  intros v v' s R L. induction ds as [|d r IH]; intros k; simpl; auto. rewrite (total_in_run _ _ _ d R L). destruct (count_total v s d); simpl; auto.
Qed.
Lemma have_run_in_run : forall v v' s, same_in_run v v' -> ts_le s ESU -> forall ds, all_have_run v' s ds = all_have_run v s ds.
Proof. intros v v' s R L. induction ds as [|d r IH]; simpl; auto. rewrite (total_in_run _ _ _ d R L), IH. auto. Qed.
Lemma any_in_run : forall w e e', (forall n, w_finished w n e' = w_finished w n e) -> forall ds, finished_any w e' ds = finished_any w e ds.
Proof. intros w e e' H. induction ds as [|d r IH]; simpl; auto. rewrite H, IH. auto. Qed.
Lemma all_in_run : forall w e e', (forall n, w_finished w n e' = w_finished w n e) -> forall ds, finished_all w e' ds = finished_all w e ds.
Proof. intros w e e' H. induction ds as [|d r IH]; simpl; auto. rewrite H, IH. auto. Qed.
Lemma atom_of_the_run : forall o a v v' e e' own w, speaks_of_the_run (CAtom o a) = true -> same_in_run v v' ->
  (forall n, w_finished w n e' = w_finished w n e) ->
  eval_atom v' e' own a w = eval_atom v e own a w /\ snd (eval_atom v e own a w) = w.
Proof.
  intros o a v v' e e' own w H R F. destruct a; simpl in *; try discriminate; auto.
  - destruct base; try (destruct q; discriminate). assert (L : ts_lt q ESU) by (destruct q; try discriminate; unfold ts_lt; simpl; lia).
    rewrite (since_total _ _ q (sr_clock _ _ R) L). auto.
  - destruct base; try discriminate. rewrite (since_total _ _ PASS (sr_clock _ _ R)) by (unfold ts_lt; simpl; lia). auto.
  - rewrite (total_in_run _ _ _ d R (within_le _ H)). auto.
  - destruct n; auto. rewrite (sum_in_run _ _ _ R (within_le _ H)). auto.
  - unfold count_useable. rewrite (sr_nodes _ _ R), (sr_use _ _ R). auto.
  - unfold deps_or_nodes. rewrite (sr_nodes _ _ R), (have_run_in_run _ _ _ R (within_le _ H)). auto.
  - rewrite F. auto.
  - unfold deps_or_nodes. rewrite (sr_nodes _ _ R), (any_in_run _ _ _ F). auto.
  - unfold deps_or_nodes. rewrite (sr_nodes _ _ R), (all_in_run _ _ _ F). auto.
Qed.
Theorem speaks_of : forall c, speaks_of_the_run c = true -> of_the_run c.
Proof.
  intros c H. constructor.
  - intros v v' e e' ow st st' R. revert H st st'. induction c as [o a|o cs IH|o cs IH|o c IH|o c n IH] using cond_ind'; intros H st st' W.
    + destruct W as [W F]. destruct (atom_of_the_run o a v v' e e' (ow o) (s_world st) H R F) as [A B]. simpl. rewrite W, A.
      destruct (eval_atom v e (ow o) a (s_world st)) as [r w]. simpl in *. subst w. split; auto. split; auto.
    + simpl in *. revert st st' W. induction IH as [|x r Hx Hr I2]; intros st st' W; auto.
      simpl in H. apply andb_true_iff in H. destruct H as [Px Pr]. destruct (Hx Px st st' W) as [A B].
      destruct (eval v e ow x st) as [rx sx], (eval v' e' ow x st') as [rx' sx']. simpl in A, B. subst rx'. destruct rx as [[|]|]; simpl; auto.
    + simpl in *. revert st st' W. induction IH as [|x r Hx Hr I2]; intros st st' W; auto.
      simpl in H. apply andb_true_iff in H. destruct H as [Px Pr]. destruct (Hx Px st st' W) as [A B].
      destruct (eval v e ow x st) as [rx sx], (eval v' e' ow x st') as [rx' sx']. simpl in A, B. subst rx'. destruct rx as [[|]|]; simpl; auto.
    + simpl in *. destruct (IH H st st' W) as [A B]. destruct (eval v e ow c st) as [rx sx], (eval v' e' ow c st') as [rx' sx']. simpl in A, B. subst rx'.
      destruct rx as [[|]|]; simpl; auto.
    + discriminate.
  - induction c as [o a|o cs IH|o cs IH|o c IH|o c n IH] using cond_ind'; simpl in *; auto.
    + destruct a; auto; discriminate.
    + induction IH as [|x r Hx Hr I2]; simpl in *; auto. apply andb_true_iff in H. destruct H as [Px Pr]. rewrite (Hx Px). auto.
    + induction IH as [|x r Hx Hr I2]; simpl in *; auto. apply andb_true_iff in H. destruct H as [Px Pr]. rewrite (Hx Px). auto.
Qed.
Lemma default_of_the_run : forall k ds, of_the_run (fst (default_cond k ds)).
Proof.
  intros k ds. apply speaks_of. assert (P : forall r j, forallb speaks_of_the_run (default_parts j r) = true) by (induction r; intros; simpl; auto).
  destruct ds as [|d [|d2 r]]; simpl; auto.
Qed.

Lemma In_aset : forall A n k (c v : A) m, In (n, c) (aset k v m) -> (n, c) = (k, v) \/ In (n, c) m.
Proof.
  induction m as [|[k0 v0] m IH]; simpl; [intros [X|[]]; auto|]. destruct (Nat.eqb_spec k k0) as [->|D]; simpl; intros [X|X]; auto. destruct (IH X); auto.
Qed.
Lemma the_clock_set : forall m e k, the_clock (m_ctxs (set_clock m e k) e) = k.
Proof. intros. unfold the_clock, set_clock, set_ctx, upd; simpl. rewrite Nat.eqb_refl. auto. Qed.
Lemma begin_since : forall h, (h = [] \/ exists h1 s, h = h1 ++ [s] /\ ts_le ESU s) -> since_at_least ESU h [].
Proof. intros h [->|(h1 & s & -> & L)]; [split; auto|apply since_reset; auto]. Qed.
Definition terms_for (m : core) (g : gen) : tconds := match g_tcarg g with None => m_tconds m | Some a => combine_tconds (m_tconds m) a end.
(** the start of a run at the beginning of an update *)
Lemma start_begun : forall m g, at_beginning m (g_eid g) -> has_records m (g_eid g) (g_base g) -> absolute_conditions m (terms_for m g) = [] ->
  exists m6 f h, start_rest m g = (Ok (mkGen (g_eid g) (g_base g) (g_tcarg g) (g_skip g) (terms_for m g) false PStart), m6) /\
    same_set_up m m6 /\ m_cst m6 = m_cst m /\ x_total (m_ctxs m6 (g_eid g)) = Some f /\ (forall s n, ts_le s ESU -> f s n = 0) /\
    x_use (m_ctxs m6 (g_eid g)) = Some zero_use /\ x_list (m_ctxs m6 (g_eid g)) <> None /\
    clock_after ESU h (the_clock (m_ctxs m6 (g_eid g))) /\ since_at_least ESU h [].
Proof.
  intros m g (h & C & B) (RT & RU & RL) NA. unfold start_rest. cbv zeta. fold (terms_for m g). set (e := g_eid g) in *. set (b := g_base g) in *.
  assert (NA' : absolute_conditions (set_clock m e (the_clock (m_ctxs m e))) (terms_for m g) = []) by exact NA. unfold setup_absolute. rewrite NA', the_clock_set. cbv iota beta.
  set (k := the_clock (m_ctxs m e)) in *. set (k2 := mkClock (k_tree k) (k_md k) (mkTime (t_val (k_time k)) (t_abs (k_time k)) (t_interval (k_time k)) false) (k_prev k)).
  assert (C2 : clock_after ESU h k2) by (apply ca_abs; auto).
  set (m3 := set_clock (set_clock m e k) e k2). 
  assert (E3 : m_ctxs m3 e = mkCtx (x_total (m_ctxs m e)) (x_use (m_ctxs m e)) (x_list (m_ctxs m e)) (x_stamps (m_ctxs m e)) (Some k2)).
  { unfold m3, set_clock, set_ctx, upd; simpl. rewrite !Nat.eqb_refl. auto. }
  assert (B3 : x_total (m_ctxs m3 b) = x_total (m_ctxs m b) /\ x_use (m_ctxs m3 b) = x_use (m_ctxs m b) /\ x_list (m_ctxs m3 b) = x_list (m_ctxs m b)).
  { unfold m3, set_clock, set_ctx, upd; simpl. destruct (Nat.eqb_spec b e) as [->|D]; simpl; rewrite ?Nat.eqb_refl; auto. }
  destruct B3 as (T3 & U3 & L3). assert (F3 : same_set_up m m3 /\ m_cst m3 = m_cst m) by (split; [constructor|]; auto). clearbody m3. destruct F3 as [F3 W3].
  unfold init_counts_base. rewrite E3, T3, U3, L3. cbn [x_total x_use x_list x_stamps x_clock]. unfold copy_entry.
  assert (X : forall A (x y : option A), x <> None \/ y <> None -> exists a, match x with Some a => Ok (Some a) | None => match y with Some b0 => Ok (Some b0) | None => Err EScheduler end end = Ok (Some a)).
  { intros A [x|] [y|] [Z|Z]; try congruence; eauto. }
  destruct (X _ _ _ RT) as (t & ->). destruct (X _ _ _ RU) as (u & ->). destruct (X _ _ _ RL) as (l & ->). cbn [nonempty].
  eexists. exists (reset_total ESU t), h. split; [reflexivity|]. split; [destruct F3; constructor; auto|]. split; [auto|].
  unfold reset_counts_total, reset_counts_useable, set_ctx, upd, the_clock; simpl. rewrite !Nat.eqb_refl. simpl.
  split; auto. split; [|split; [auto|split; [discriminate|split; [exact C2|apply begin_since; auto]]]].
  intros s n L. unfold reset_total. assert (Y : ts_leb s ESU = true) by (unfold ts_leb; apply Nat.leb_le; exact L). rewrite Y. auto.
Qed.

Section Two.
Variables e e' : eid.
Record in_step (m m' : core) : Prop := {
  is_set_up : same_set_up m m';
  is_basic : forall n c, In (n, c) (m_basic m) -> of_the_run c;
  is_world : same_world e e' (m_cst m) (m_cst m');
  is_total : same_counts (x_total (m_ctxs m e)) (x_total (m_ctxs m' e'));
  is_use : x_use (m_ctxs m' e') = x_use (m_ctxs m e) /\ x_use (m_ctxs m e) <> None;
  is_list : x_list (m_ctxs m e) <> None /\ x_list (m_ctxs m' e') <> None;
  is_clock : same_since (the_clock (m_ctxs m e)) (the_clock (m_ctxs m' e')) }.
Record ctx_step (x x' : ctx) : Prop := {
  cp_total : same_counts (x_total x) (x_total x');
  cp_use : x_use x' = x_use x /\ x_use x <> None;
  cp_list : x_list x <> None /\ x_list x' <> None;
  cp_clock : same_since (the_clock x) (the_clock x') }.
Lemma step_ctxs : forall m m', in_step m m' -> ctx_step (m_ctxs m e) (m_ctxs m' e').
Proof. intros m m' []. constructor; auto. Qed.
Lemma step_ctx : forall m m' x x', in_step m m' -> ctx_step x x' -> in_step (set_ctx m e x) (set_ctx m' e' x').
Proof.
  intros m m' x x' [U B W _ _ _ _] []. constructor; simpl; auto; unfold upd; rewrite ?Nat.eqb_refl; auto. destruct U. constructor; auto.
Qed.
Lemma step_queue : forall m m', in_step m m' -> queue m' = queue m.
Proof. intros m m' S. pose proof (is_set_up _ _ S) as U. unfold queue. rewrite (su_exact _ _ U), (su_graph _ _ U), (su_levels _ _ U). auto. Qed.
Lemma step_view : forall m m', in_step m m' -> same_in_run (view_of m e) (view_of m' e').
Proof.
  intros m m' R. pose proof (is_set_up _ _ R) as U. constructor; simpl.
  - apply (su_nodes _ _ U).
  - apply step_queue; auto.
  - apply (su_exact _ _ U).
  - apply (is_total _ _ R).
  - apply (is_use _ _ R).
  - apply (is_clock _ _ R).
Qed.
Lemma step_satisfied : forall m m' c r m1, in_step m m' -> of_the_run c -> satisfied m e c = (r, m1) ->
  exists m1', satisfied m' e' c = (r, m1') /\ in_step m1 m1'.
Proof.
  intros m m' c r m1 R O E. unfold satisfied in *. pose proof (is_set_up _ _ R) as U. rewrite (su_owners _ _ U).
  destruct (or_eval c O _ _ e e' (m_owners m) _ _ (step_view _ _ R) (is_world _ _ R)) as [A B].
  destruct (eval (view_of m e) e (m_owners m) c (m_cst m)) as [r0 st], (eval (view_of m' e') e' (m_owners m) c (m_cst m')) as [r1 st'].
  simpl in A, B. inversion E; subst. eexists. split; [reflexivity|]. destruct R as [[] ? ? ? ? ? ?]. constructor; auto. constructor; auto.
Qed.
Lemma step_accept : forall m m' n, in_step m m' -> in_step (accept m e n) (accept m' e' n).
Proof.
  intros m m' n R. unfold accept. apply step_ctx; auto. destruct (step_ctxs _ _ R) as [(f & f' & E & E' & T) [U UN] L K]. constructor; simpl; auto.
  - rewrite E, E'. exists (bump_total n f), (bump_total n f'). simpl. split; auto. split; auto. intros s x Ls. unfold bump_total. rewrite T by auto. auto.
  - rewrite U. split; auto. destruct (x_use (m_ctxs m e)); simpl; congruence.
Qed.
Lemma step_round : forall level m m' exec ch r m1, in_step m m' -> round m e level exec ch = (r, m1) ->
  exists m1', round m' e' level exec ch = (r, m1') /\ in_step m1 m1'.
Proof.
  induction level as [|n l IH]; intros m m' exec ch r m1 R E; simpl in *; [inversion E; subst; eauto|].
  destruct (mem n exec); [eauto|]. pose proof (is_set_up _ _ R) as U. rewrite (su_basic _ _ U).
  destruct (aget n (m_basic m)) as [c|] eqn:EB; [|inversion E; subst; eauto].
  destruct (satisfied m e c) as [rr m2] eqn:SA. destruct (step_satisfied _ _ _ _ _ R (is_basic _ _ R _ _ (aget_In _ _ _ _ EB)) SA) as (m2' & SA' & R2). rewrite SA'.
  destruct rr as [[|]|]; [|eauto|inversion E; subst; eauto]. rewrite (su_nodes _ _ (is_set_up _ _ R2)).
  destruct (mem n (m_nodes m2)); [|inversion E; subst; eauto]. apply (IH (accept m2 e n)); auto. apply step_accept; auto.
Qed.
Lemma step_level : forall fuel m m' level exec, in_step m m' ->
  match do_level fuel m e level exec with
  | None => do_level fuel m' e' level exec = None
  | Some (r, m1) => exists m1', do_level fuel m' e' level exec = Some (r, m1') /\ in_step m1 m1'
  end.
Proof.
  induction fuel as [|f IH]; intros m m' level exec R; simpl; auto.
  destruct (round m e level exec false) as [r m1] eqn:E. destruct (step_round _ _ _ _ _ _ _ R E) as (m1' & E' & R1). rewrite E'.
  destruct r as [[ex [|]]|]; [apply IH; auto|eauto|eauto].
Qed.
Lemma step_tc : forall m m' tc s r m1, in_step m m' -> all_of_the_run tc -> check_tc m e tc s = (r, m1) ->
  exists m1', check_tc m' e' tc s = (r, m1') /\ in_step m1 m1'.
Proof.
  intros m m' tc s r m1 R T E. unfold check_tc in *. destruct (tc s) as [c|] eqn:C; [|inversion E; subst; eauto]. eapply step_satisfied; eauto.
Qed.
Lemma step_terminated : forall m m' tc r m1, in_step m m' -> all_of_the_run tc -> terminated m e tc = (r, m1) ->
  exists m1', terminated m' e' tc = (r, m1') /\ in_step m1 m1'.
Proof.
  intros m m' tc r m1 R T E. unfold terminated in *. destruct (check_tc m e tc ESU) as [rr m2] eqn:C.
  destruct (step_tc _ _ _ _ _ _ R T C) as (m2' & C' & R2). rewrite C'. destruct rr as [[|]|]; [inversion E; subst; eauto| |inversion E; subst; eauto].
  eapply step_tc; eauto.
Qed.
Lemma step_append : forall m m' s, in_step m m' ->
  exists u u', fst (append_exec m e false s) = Ok u /\ fst (append_exec m' e' false s) = Ok u' /\
    in_step (snd (append_exec m e false s)) (snd (append_exec m' e' false s)).
Proof.
  intros m m' s R. pose proof (step_ctxs _ _ R) as [T U [L L'] K]. unfold append_exec.
  destruct (x_list (m_ctxs m e)) as [l|] eqn:EL; [|congruence]. destruct (x_list (m_ctxs m' e')) as [l'|] eqn:EL'; [|congruence].
  eexists; eexists. split; [reflexivity|]. split; [reflexivity|]. apply step_ctx; auto. constructor; simpl; auto. split; discriminate.
Qed.
Lemma step_incr : forall s m m', in_step m m' -> ts_lt s LIFE ->
  exists m1 m1', incr_clock s m e = Ok m1 /\ incr_clock s m' e' = Ok m1' /\ in_step m1 m1'.
Proof.
  intros s m m' R L. pose proof (step_ctxs _ _ R) as [T U Li K]. destruct (since_left _ _ K) as (h & C). unfold incr_clock.
  destruct (clock_incr_succeeds _ _ _ s C L) as (k1 & E). destruct (since_incr _ _ _ _ K L E) as (k1' & E' & K1). rewrite E, E'.
  eexists; eexists. split; [reflexivity|]. split; [reflexivity|]. unfold set_clock. apply step_ctx; auto. constructor; simpl; auto.
Qed.
(** the generators *)
Record gens (g g' : gen) : Prop := {
  gs_eid : g_eid g = e;
  gs_eid' : g_eid g' = e';
  gs_tc : g_tc g' = g_tc g;
  gs_tcarg : g_tcarg g' = g_tcarg g;
  gs_skip : g_skip g' = g_skip g;
  gs_pc : g_pc g' = g_pc g }.
Definition going (g g' : gen) : Prop := gens g g' /\ g_abs g = false /\ g_abs g' = false /\ all_of_the_run (g_tc g).
Lemma going_at : forall g g' p, going g g' -> going (at_pc g p) (at_pc g' p).
Proof. intros g g' p ([] & A & A' & T). split; auto. constructor; auto. Qed.
Definition step_inner_result (a b : inner_result) : Prop :=
  match a, b with
  | IYield m s i ch, IYield m' s' i' ch' => s' = s /\ i' = i /\ ch' = ch /\ in_step m m'
  | IEnd m ch, IEnd m' ch' => ch' = ch /\ in_step m m'
  | IErr m ex, IErr m' ex' => ex' = ex
  | IFuel m, IFuel m' => True
  | _, _ => False
  end.
Lemma step_inner : forall rest m m' g g' i ch, in_step m m' -> going g g' -> step_inner_result (inner m g rest i ch) (inner m' g' rest i ch).
Proof.
  induction rest as [|level rest IH]; intros m m' g g' i ch R GG; [simpl; auto|]. pose proof GG as ([] & A & A' & T). cbn [inner]. rewrite gs_eid0, gs_eid'0, gs_tc0, A, A'.
  destruct (terminated m e (g_tc g)) as [r m1] eqn:E. destruct (step_terminated _ _ _ _ _ R T E) as (m1' & E' & R1). rewrite E'.
  destruct r as [[|]|ex]; [simpl; auto| |simpl; auto].
  pose proof (step_level (S (length level)) _ _ level [] R1) as L. destruct (do_level (S (length level)) m1 e level []) as [[rr m2]|].
  - destruct L as (m2' & L & R2). rewrite L. destruct rr as [exec|ex]; simpl; auto.
    destruct (nonempty exec || false); [|apply IH; auto].
    destruct (step_append _ _ exec R2) as (u & u' & Z & Z' & R3). destruct (append_exec m2 e false exec) as [ra m3], (append_exec m2' e' false exec) as [ra' m3'].
    simpl in *. subst. simpl. auto.
  - rewrite L. simpl. auto.
Qed.
Definition step_tail_result (a b : tail_result) : Prop :=
  match a, b with
  | TYield m, TYield m' => in_step m m'
  | TNext m, TNext m' => in_step m m'
  | _, _ => False
  end.
Lemma step_tail : forall m m' g g' ch, in_step m m' -> going g g' -> step_tail_result (pass_tail m g ch) (pass_tail m' g' ch).
Proof.
  intros m m' g g' ch R ([] & A & A' & T). unfold pass_tail. rewrite gs_eid0, gs_eid'0, A, A'. destruct (negb ch && negb false).
  - destruct (step_append _ _ [] R) as (u & u' & Z & Z' & R3). destruct (append_exec m e false []) as [ra m3], (append_exec m' e' false []) as [ra' m3'].
    simpl in *. subst. simpl. auto.
  - destruct (step_incr PASS _ _ R) as (m1 & m1' & I1 & I1' & R1); [unfold ts_lt; simpl; lia|]. rewrite I1, I1'. simpl. auto.
Qed.
(** the states of two runs after the same number of resumptions *)
Definition over_again (g : gen) (l : list (list node)) (m m' : core) : Prop :=
  in_step m m' /\ x_list (m_ctxs m e) = Some l /\ (g_skip g = false -> at_beginning m e /\ at_beginning m' e').
Definition step_out (a b : core * gen * outcome) : Prop :=
  match a, b with (m, g, o), (m', g', o') => same_outcome o o' /\
    (forall s, o = OYield s -> in_step m m' /\ going g g') /\ (forall l, o = OReturn l -> over_again g l m m') end.
Lemma step_begin : forall m m' m1 m1', in_step m m' -> incr_clock ESU m e = Ok m1 -> incr_clock ESU m' e' = Ok m1' -> at_beginning m1 e /\ at_beginning m1' e'.
Proof.
  intros m m' m1 m1' R I I'. destruct (is_clock _ _ R) as (h & h' & h2 & C & C' & _ & _). unfold incr_clock in *.
  destruct (clock_incr ESU (the_clock (m_ctxs m e))) as [k|] eqn:K; [|discriminate]. destruct (clock_incr ESU (the_clock (m_ctxs m' e'))) as [k'|] eqn:K'; [|discriminate].
  inversion I; inversion I'; subst. unfold at_beginning, the_clock, set_clock, set_ctx, upd; simpl. rewrite !Nat.eqb_refl. simpl. split.
  - exists (h ++ [ESU]). split; [econstructor; eauto|]. right. exists h, ESU. split; auto. unfold ts_le; auto.
  - exists (h' ++ [ESU]). split; [econstructor; eauto|]. right. exists h', ESU. split; auto. unfold ts_le; auto.
Qed.
Lemma satisfied_ctxs : forall m i c r m1, satisfied m i c = (r, m1) -> m_ctxs m1 = m_ctxs m.
Proof. intros m i c r m1 E. unfold satisfied in E. destruct (eval _ _ _ _ _). inversion E; auto. Qed.
Lemma check_ctxs : forall m i tc s r m1, check_tc m i tc s = (r, m1) -> m_ctxs m1 = m_ctxs m.
Proof. intros m i tc s r m1 E. unfold check_tc in E. destruct (tc s); [eapply satisfied_ctxs; eauto|inversion E; auto]. Qed.
Lemma step_finish : forall m m' g g', in_step m m' -> going g g' -> step_out (finish m g) (finish m' g').
Proof.
  intros m m' g g' R GG. pose proof GG as ([] & A & A' & T). unfold finish. rewrite gs_eid0, gs_eid'0, gs_tc0, gs_skip0.
  assert (X : exists m1 m1', (if g_skip g then Ok m else incr_clock ESU m e) = Ok m1 /\ (if g_skip g then Ok m' else incr_clock ESU m' e') = Ok m1' /\
              in_step m1 m1' /\ (g_skip g = false -> at_beginning m1 e /\ at_beginning m1' e')).
  { destruct (g_skip g).
    - exists m, m'. split; auto. split; auto. split; auto. discriminate.
    - destruct (step_incr ESU _ _ R) as (m1 & m1' & I1 & I1' & R1); [unfold ts_lt; simpl; lia|]. exists m1, m1'. split; auto. split; auto. split; auto.
      intros _. exact (step_begin _ _ _ _ R I1 I1'). }
  destruct X as (m1 & m1' & -> & -> & R1 & B1). destruct (check_tc m1 e (g_tc g) ES) as [r m2] eqn:C. destruct (step_tc _ _ _ _ _ _ R1 T C) as (m2' & C' & R2). rewrite C'.
  destruct r as [b|ex]; [|split; [simpl; auto|split; discriminate]].
  destruct (is_list _ _ R2) as [L L']. destruct (x_list (m_ctxs m2 e)) as [l|] eqn:XL; [|congruence]. destruct (x_list (m_ctxs m2' e')) as [l'|]; [|congruence].
  split; [simpl; auto|]. split; [discriminate|]. intros l0 X. injection X as <-. split; auto. split; auto. intros SK. unfold at_beginning in *. rewrite (check_ctxs _ _ _ _ _ _ C), (check_ctxs _ _ _ _ _ _ C'). auto.
Qed.
Lemma step_reset_total : forall s m m', in_step m m' -> in_step (reset_counts_total s m e) (reset_counts_total s m' e').
Proof.
  intros s m m' R. unfold reset_counts_total. apply step_ctx; auto. destruct (step_ctxs _ _ R) as [(f & f' & E & E' & T) U L K]. constructor; simpl; auto.
  rewrite E, E'. exists (reset_total s f), (reset_total s f'). simpl. split; auto. split; auto. intros s0 x Ls. unfold reset_total. destruct (ts_leb s0 s); auto.
Qed.
Lemma step_continue : forall (k k' : core -> core * gen * outcome) m m' g g' rest i ch, in_step m m' -> going g g' ->
  (forall a b, in_step a b -> step_out (k a) (k' b)) ->
  step_out (match inner m g rest i ch with
           | IYield m3 s i ch => (m3, at_pc g (PLevel i ch), OYield s)
           | IErr m3 ex => (m3, at_pc g PDone, ORaise ex)
           | IFuel m3 => (m3, g, OFuel)
           | IEnd m3 ch => match pass_tail m3 g ch with
                           | TYield m4 => (m4, at_pc g PIdle, OYield [])
                           | TErr m4 ex => (m4, at_pc g PDone, ORaise ex)
                           | TNext m4 => k m4
                           end
           end)
          (match inner m' g' rest i ch with
           | IYield m3 s i ch => (m3, at_pc g' (PLevel i ch), OYield s)
           | IErr m3 ex => (m3, at_pc g' PDone, ORaise ex)
           | IFuel m3 => (m3, g', OFuel)
           | IEnd m3 ch => match pass_tail m3 g' ch with
                           | TYield m4 => (m4, at_pc g' PIdle, OYield [])
                           | TErr m4 ex => (m4, at_pc g' PDone, ORaise ex)
                           | TNext m4 => k' m4
                           end
           end).
Proof.
  intros k k' m m' g g' rest i ch R T K. pose proof (step_inner rest _ _ g g' i ch R T) as A.
  destruct (inner m g rest i ch) as [m3 s3 i3 c3|m3 c3|m3 x3|m3], (inner m' g' rest i ch) as [m4 s4 i4 c4|m4 c4|m4 x4|m4]; simpl in A; try tauto.
  - destruct A as (-> & -> & -> & A). split; [simpl; auto|]. split; [|discriminate]. intros s _. split; auto. apply going_at; auto.
  - destruct A as (-> & A). pose proof (step_tail _ _ g g' c3 A T) as B.
    destruct (pass_tail m3 g c3) as [m5|m5|m5 x5], (pass_tail m4 g' c3) as [m6|m6|m6 x6]; simpl in B; try tauto.
    + split; [simpl; auto|]. split; [|discriminate]. intros s _. split; auto. apply going_at; auto.
    + apply K; auto.
  - subst x4. split; [simpl; auto|]. split; discriminate.
  - split; [simpl; auto|]. split; discriminate.
Qed.
Lemma step_outer : forall fuel m m' g g', in_step m m' -> going g g' -> step_out (outer fuel m g) (outer fuel m' g').
Proof.
  induction fuel as [|f IH]; intros m m' g g' R GG; [split; [simpl; auto|split; discriminate]|]. pose proof GG as ([] & A & A' & T). cbn [outer].
  rewrite gs_eid0, gs_eid'0, gs_tc0.
  destruct (terminated m e (g_tc g)) as [r m1] eqn:E. destruct (step_terminated _ _ _ _ _ R T E) as (m1' & E' & R1). rewrite E'.
  destruct r as [[|]|ex]; [apply step_finish; auto| |split; [simpl; auto|split; discriminate]].
  pose proof (step_reset_total PASS _ _ R1) as R2. cbv zeta. rewrite (step_queue _ _ R2).
  apply (step_continue (fun m => outer f m g) (fun m => outer f m g')); auto.
Qed.

(** ** the start of a run *)
Lemma set_up_defaults : forall ns m m', same_set_up m m' ->
  match add_defaults ns m with Ok m1 => exists m1', add_defaults ns m' = Ok m1' /\ same_set_up m1 m1' | Err ex => add_defaults ns m' = Err ex end.
Proof.
  induction ns as [|n ns IH]; intros m m' S; simpl; [eauto|]. rewrite (su_basic _ _ S), (su_graph _ _ S), (su_owners _ _ S), (su_next _ _ S).
  destruct (ahas n (m_basic m)); [apply IH; auto|]. destruct (aget n (m_graph m)) as [deps|]; auto.
  destruct (default_cond (m_next m) deps) as [c nx]. apply IH. destruct S; constructor; simpl; auto.
Qed.
Lemma basic_defaults : forall ns m m1, add_defaults ns m = Ok m1 -> (forall n c, In (n, c) (m_basic m) -> of_the_run c) ->
  forall n c, In (n, c) (m_basic m1) -> of_the_run c.
Proof.
  induction ns as [|n0 ns IH]; intros m m1 E B; simpl in E; [inversion E; subst; auto|]. destruct (ahas n0 (m_basic m)); [eauto|].
  destruct (aget n0 (m_graph m)) as [deps|]; [|discriminate]. pose proof (default_of_the_run (m_next m) deps) as D. destruct (default_cond (m_next m) deps) as [c0 nx]. simpl in D.
  apply (IH _ _ E). intros n c I. simpl in I. apply In_aset in I. destruct I as [X|X]; [inversion X; subst; auto|]. eapply B; eauto.
Qed.
Lemma no_absolute : forall m tc, (forall n c, In (n, c) (m_basic m) -> of_the_run c) -> all_of_the_run tc ->
  absolute_conditions m tc = [].
Proof.
  intros m tc B T. unfold absolute_conditions. rewrite filter_app. assert (X : forall l, (forall c, In c l -> is_absolute c = false) -> filter is_absolute l = []).
  { induction l as [|c l IH]; intros H; simpl; auto. rewrite (H c (or_introl eq_refl)). apply IH. intros; apply H; right; auto. }
  rewrite !X; auto.
  - intros c I. unfold tc_list in I. apply in_flat_map in I. destruct I as (s & _ & I). destruct (tc s) as [c'|] eqn:E; simpl in I; [|contradiction].
    destruct I as [<-|[]]. apply or_relative. eapply T; eauto.
  - intros c I. apply in_map_iff in I. destruct I as ((n & c') & <- & I). apply or_relative. apply (B n). auto.
Qed.
(** two runs before their start *)
Record both_fresh (m m' : core) (g g' : gen) : Prop := {
  bf_set_up : same_set_up m m';
  bf_about : all_about_the_run m (g_tcarg g);
  bf_world : same_world e e' (m_cst m) (m_cst m');
  bf_begin : at_beginning m e;
  bf_begin' : at_beginning m' e';
  bf_records : has_records m e (g_base g);
  bf_records' : has_records m' e' (g_base g');
  bf_gens : gens g g';
  bf_start : g_pc g = PStart }.
Lemma terms_of_the_run : forall m tcarg, all_about_the_run m tcarg ->
  all_of_the_run (match tcarg with None => m_tconds m | Some a => combine_tconds (m_tconds m) a end).
Proof.
  intros m tcarg (_ & T & A). destruct tcarg as [a|]; auto. intros s c. unfold combine_tconds. destruct (a s) eqn:E; [|apply T].
  intros X; inversion X; subst. eapply (A a); eauto.
Qed.
Lemma fresh_start : forall m m' g g', both_fresh m m' g g' ->
  match start m g, start m' g' with
  | (Ok g1, m1), (Ok g1', m1') => in_step m1 m1' /\ going g1 g1'
  | (Err ex, _), (Err ex', _) => ex' = ex
  | _, _ => False
  end.
Proof.
  intros m m' g g' [U AB W BG BG' RC RC' GG ST]. rewrite !start_eq. rewrite (su_graph _ _ U), (su_nodes _ _ U).
  destruct (toposort (m_graph m)); auto. pose proof (set_up_defaults (m_nodes m) _ _ U) as D. destruct (add_defaults (m_nodes m) m) as [mb|ex] eqn:A; [|rewrite D; auto].
  destruct D as (mb' & A' & Ub). rewrite A'. pose proof (basic_defaults _ _ _ A (proj1 AB)) as Bb.
  destruct (add_defaults_rest _ _ _ A) as (_ & _ & T1 & X1 & S1). destruct (add_defaults_rest _ _ _ A') as (_ & _ & T1' & X1' & S1').
  pose proof (terms_of_the_run _ _ AB) as TT. rewrite <- T1 in TT. fold (terms_for mb g) in TT.
  assert (TE : terms_for mb' g' = terms_for mb g) by (unfold terms_for; rewrite (gs_tcarg _ _ GG), (su_tconds _ _ Ub); auto).
  pose proof (gs_eid _ _ GG) as Ee. pose proof (gs_eid' _ _ GG) as Ee'.
  destruct (start_begun mb g) as (m6 & f & h & Q & S6 & W6 & T6 & Z6 & U6 & L6 & C6 & N6).
  { unfold at_beginning in *. rewrite X1, Ee. auto. }
  { unfold has_records in *. rewrite X1, Ee. auto. }
  { apply no_absolute; auto. }
  destruct (start_begun mb' g') as (m6' & f' & h' & Q' & S6' & W6' & T6' & Z6' & U6' & L6' & C6' & N6').
  { unfold at_beginning in *. rewrite X1', Ee'. auto. }
  { unfold has_records in *. rewrite X1', Ee'. auto. }
  { rewrite TE. apply no_absolute; auto. rewrite (su_basic _ _ Ub). auto. }
  rewrite Q, Q'. rewrite Ee in *. rewrite Ee' in *. split.
  - constructor.
    + destruct Ub, S6, S6'. constructor; congruence.
    + rewrite (su_basic _ _ S6). auto.
    + rewrite W6, W6', S1, S1'. auto.
    + exists f, f'. split; auto. split; auto. intros s n L. rewrite Z6, Z6' by auto. auto.
    + rewrite U6, U6'. split; auto. discriminate.
    + auto.
    + exists h, h', []. auto.
  - split; [|simpl; auto]. destruct GG. constructor; simpl; auto.
Qed.
Theorem fresh_resume : forall fuel m m' g g', both_fresh m m' g g' -> step_out (resume fuel m g) (resume fuel m' g').
Proof.
  intros fuel m m' g g' F. pose proof (fresh_start _ _ _ _ F) as X. unfold resume. rewrite (gs_pc _ _ (bf_gens _ _ _ _ F)), (bf_start _ _ _ _ F).
  destruct (start m g) as [[g1|ex] m1], (start m' g') as [[g1'|ex'] m1']; try tauto.
  - destruct X as [R G]. apply step_outer; auto.
  - subst ex'. split; [simpl; auto|]. split; discriminate.
Qed.
Theorem going_resume : forall fuel m m' g g', in_step m m' -> going g g' -> g_pc g <> PStart -> step_out (resume fuel m g) (resume fuel m' g').
Proof.
  intros fuel m m' g g' R GG NS. pose proof GG as (G & _). unfold resume. rewrite (gs_pc _ _ G), (gs_eid _ _ G), (gs_eid' _ _ G). destruct (g_pc g) as [|i ch| |]; [congruence| | |].
  - destruct (step_incr CSE _ _ R) as (m1 & m1' & -> & -> & R1); [unfold ts_lt; simpl; lia|]. rewrite (step_queue _ _ R1).
    apply (step_continue (fun m => outer fuel m g) (fun m => outer fuel m g')); auto. intros a b X. apply step_outer; auto.
  - destruct (step_incr CSE _ _ R) as (m1 & m1' & -> & -> & R1); [unfold ts_lt; simpl; lia|].
    destruct (step_incr PASS _ _ R1) as (m2 & m2' & -> & -> & R2); [unfold ts_lt; simpl; lia|]. apply step_outer; auto.
  - split; [simpl; auto|]. split; discriminate.
Qed.
(** ** whole runs *)
Definition step_end (a b : core * gen * list (list node) * outcome) : Prop :=
  match a, b with (m, g, ys, o), (m', g', ys', o') => ys' = ys /\ same_outcome o o' /\ (forall l, o = OReturn l -> over_again g l m m') end.
Lemma going_drive : forall steps fuel m m' g g' acc, in_step m m' -> going g g' -> g_pc g <> PStart ->
  step_end (drive steps fuel m g acc) (drive steps fuel m' g' acc).
Proof.
  induction steps as [|k IH]; intros fuel m m' g g' acc R GG NS; simpl; [split; auto; split; auto; discriminate|].
  pose proof (going_resume fuel _ _ _ _ R GG NS) as X. destruct (resume fuel m g) as [[m1 g1] o] eqn:E, (resume fuel m' g') as [[m1' g1'] o'] eqn:E'.
  destruct X as (O & Y & Z). destruct o; destruct o'; simpl in O; try discriminate; try (split; auto; split; auto; fail).
  - injection O as ->. destruct (Y _ eq_refl) as [R1 G1]. apply IH; auto. destruct (resume_pc _ _ _ _ _ _ E) as (p & -> & NP); auto. discriminate.
Qed.
Theorem fresh_drive : forall steps fuel m m' g g', both_fresh m m' g g' -> step_end (drive steps fuel m g []) (drive steps fuel m' g' []).
Proof.
  intros [|k] fuel m m' g g' F; simpl; [split; auto; split; auto; discriminate|].
  pose proof (fresh_resume fuel _ _ _ _ F) as X. destruct (resume fuel m g) as [[m1 g1] o] eqn:E, (resume fuel m' g') as [[m1' g1'] o'] eqn:E'.
  destruct X as (O & Y & Z). destruct o; destruct o'; simpl in O; try discriminate; try (split; auto; split; auto; fail).
  - injection O as ->. destruct (Y _ eq_refl) as [R1 G1]. apply going_drive; auto.
    unfold resume in E. rewrite (bf_start _ _ _ _ F) in E. destruct (start m g) as [[g2|ex] m2]; [|discriminate].
    destruct (outer_pc _ _ _ _ _ _ E) as (p & -> & NP); auto. discriminate.
Qed.
End Two.

(** ** one run after the other *)
Lemma skip_outer : forall fuel m g m' g' o, outer fuel m g = (m', g', o) -> g_skip g' = g_skip g.
Proof.
  induction fuel as [|f IH]; intros m g m' g' o E; simpl in E; [inversion E; auto|].
  destruct (terminated m (g_eid g) (g_tc g)) as [[[|]|] m1]; [|cbv zeta in E|inversion E; auto].
  - unfold finish in E. destruct (if g_skip g then _ else _); [|inversion E; auto]. destruct (check_tc _ _ _ _) as [[|] m2]; [|inversion E; auto]. destruct (x_list _); inversion E; auto.
  - destruct (inner _ _ _ _ _); try (inversion E; auto; fail). destruct (pass_tail _ _ _); try (inversion E; auto; fail). eauto.
Qed.
Lemma skip_resume : forall fuel m g m' g' o, resume fuel m g = (m', g', o) -> g_skip g' = g_skip g.
Proof.
  intros fuel m g m' g' o E. unfold resume in E. destruct (g_pc g) as [|i ch| |]; [| | |inversion E; auto].
  - destruct (start m g) as [[g1|ex] m1] eqn:SE; [|inversion E; auto]. rewrite (skip_outer _ _ _ _ _ _ E). rewrite start_eq in SE.
    destruct (toposort (m_graph m)); try discriminate. destruct (add_defaults (m_nodes m) m); [|discriminate].
    unfold start_rest in SE. cbv zeta in SE. destruct (setup_absolute _ _ _); [|discriminate]. destruct (init_counts_base _ _ _) as [[|] ?]; [|discriminate]. inversion SE; subst; auto.
  - destruct (incr_clock CSE m (g_eid g)); [|inversion E; auto]. cbv zeta in E. destruct (inner _ _ _ _ _); try (inversion E; auto; fail).
    destruct (pass_tail _ _ _); try (inversion E; auto; fail). eapply skip_outer; eauto.
  - destruct (incr_clock CSE m (g_eid g)) as [m1|]; [|inversion E; auto]. destruct (incr_clock PASS m1 (g_eid g)); [|inversion E; auto]. eapply skip_outer; eauto.
Qed.
Lemma complete_resume : forall fuel m g m' g' o, complete m -> quiet_scheduler m -> quiet_run g -> resume fuel m g = (m', g', o) ->
  sim (S (g_eid g)) m m' /\ complete m' /\ quiet_scheduler m' /\ (forall s, o = OYield s -> quiet_run g' /\ g_eid g' = g_eid g).
Proof.
  intros fuel m g m' g' o C Q QR E. assert (D : g_eid g <> S (g_eid g)) by lia.
  destruct (resume_other _ _ _ _ _ _ _ D Q QR E) as ((mb & X & SM) & Q'). assert (mb = m) as ->.
  { destruct X as [X|X]; auto. rewrite add_defaults_none in X by exact C. inversion X; auto. }
  split; auto. split; [eapply complete_sim; eauto|]. split; auto. intros s ->. unfold resume in E. destruct (g_pc g) as [|i ch| |] eqn:P.
  - destruct (start m g) as [[g1|ex] m1] eqn:SE; [|discriminate]. destruct (outer_pc _ _ _ _ _ _ E) as (p & -> & _); [discriminate|].
    pose proof (start_tc_quiet _ _ _ _ SE Q QR) as T. assert (G : g_tcarg g1 = g_tcarg g /\ g_eid g1 = g_eid g).
    { rewrite start_eq in SE. destruct (toposort (m_graph m)); try discriminate. destruct (add_defaults (m_nodes m) m); [|discriminate].
      unfold start_rest in SE. cbv zeta in SE. destruct (setup_absolute _ _ _); [|discriminate]. destruct (init_counts_base _ _ _) as [[|] ?]; [|discriminate]. inversion SE; subst; auto. }
    destruct G as [G1 G2]. split; [|exact G2]. split; [exact T|]. cbn [g_tcarg at_pc]. rewrite G1. apply QR.
  - assert (E2 : resume fuel m g = (m', g', OYield s)) by (unfold resume; rewrite P; exact E).
    destruct (resume_pc _ _ _ _ _ _ E2) as (p & -> & _); [discriminate|congruence|]. split; auto.
  - assert (E2 : resume fuel m g = (m', g', OYield s)) by (unfold resume; rewrite P; exact E).
    destruct (resume_pc _ _ _ _ _ _ E2) as (p & -> & _); [discriminate|congruence|]. split; auto.
  - discriminate.
Qed.
Lemma complete_drive : forall steps fuel m g acc m' g' ys o, complete m -> quiet_scheduler m -> quiet_run g ->
  drive steps fuel m g acc = (m', g', ys, o) -> sim (S (g_eid g)) m m' /\ complete m' /\ quiet_scheduler m'.
Proof.
  induction steps as [|k IH]; intros fuel m g acc m' g' ys o C Q QR E; simpl in E; [inversion E; subst; split; auto using sim_refl|].
  destruct (resume fuel m g) as [[m1 g1] o1] eqn:R. destruct (complete_resume _ _ _ _ _ _ C Q QR R) as (S1 & C1 & Q1 & N).
  destruct o1; try (inversion E; subst; auto; fail). destruct (N _ eq_refl) as [QR1 G1]. destruct (IH _ _ _ _ _ _ _ _ C1 Q1 QR1 E) as (S2 & C2 & Q2).
  rewrite G1 in S2. split; auto. eapply sim_trans; eauto.
Qed.
Theorem again_core : forall steps fuel m e b tcarg m1 g1 ys l, complete m -> quiet_scheduler m -> (forall t, tcarg = Some t -> quiet_tconds t) ->
  at_beginning m e -> has_records m e b -> all_about_the_run m tcarg ->
  drive steps fuel m (new_gen e b tcarg false) [] = (m1, g1, ys, OReturn l) ->
  at_beginning m1 e /\ has_records m1 e b /\ all_about_the_run m1 tcarg /\ complete m1 /\ quiet_scheduler m1 /\ x_list (m_ctxs m1 e) = Some l /\
  forall b', exists m2 g2 l2, drive steps fuel m1 (new_gen e b' tcarg false) [] = (m2, g2, ys, OReturn l2).
Proof.
  intros steps fuel m e b tcarg m1 g1 ys l C Q QT BG RC AB E.
  assert (QR : forall b', quiet_run (new_gen e b' tcarg false)) by (intros b'; split; [intros s c X; discriminate|exact QT]).
  destruct (complete_drive _ _ _ _ _ _ _ _ _ C Q (QR b) E) as (S1 & C1 & Q1). cbn [g_eid new_gen] in S1.
  assert (U : same_set_up m m1) by (destruct S1; constructor; auto).
  assert (F0 : both_fresh e e m m (new_gen e b tcarg false) (new_gen e b tcarg false)).
  { constructor; auto. - constructor; auto. - apply same_world_sym_refl. - constructor; auto. }
  pose proof (fresh_drive e e steps fuel _ _ _ _ F0) as X. rewrite E in X. destruct X as (_ & _ & X). destruct (X _ eq_refl) as (IS & XL & B1).
  assert (SK : g_skip g1 = false).
  { clear X. assert (Y : forall k m g acc m' g' ys o, drive k fuel m g acc = (m', g', ys, o) -> g_skip g' = g_skip g).
    { clear. induction k as [|k IH]; intros m g acc m' g' ys o E; simpl in E; [inversion E; subst; auto|].
      destruct (resume fuel m g) as [[m1 g1] o1] eqn:R. pose proof (skip_resume _ _ _ _ _ _ R) as S1. destruct o1; try (inversion E; subst; auto; fail). rewrite <- S1. eapply IH; eauto. }
    apply Y in E. exact E. }
  destruct (B1 SK) as [B2 _].
  assert (AB1 : all_about_the_run m1 tcarg). { destruct AB as (A & B & D). split; [rewrite (su_basic _ _ U); auto|]. split; auto. rewrite (su_tconds _ _ U). auto. }
  assert (RC1 : forall b', has_records m1 e b').
  { intros b'. destruct (is_total _ _ _ _ IS) as (f & _ & T & _). destruct (is_use _ _ _ _ IS) as [_ N]. unfold has_records. rewrite T, XL. split; [left; discriminate|]. split; left; auto. discriminate. }
  split; auto. split; auto. split; auto. split; auto. split; auto. split; auto. intros b'.
  assert (F1 : both_fresh e e m m1 (new_gen e b tcarg false) (new_gen e b' tcarg false)).
  { constructor; auto. - split; auto. symmetry. apply (ag_world _ _ _ (si_cst _ _ _ S1)). - constructor; auto. }
  pose proof (fresh_drive e e steps fuel _ _ _ _ F1) as Y. rewrite E in Y. destruct (drive steps fuel m1 (new_gen e b' tcarg false) []) as [[[m2 g2] ys2] o2].
  destruct Y as (-> & O & _). destruct o2; simpl in O; try discriminate. eauto.
Qed.

Lemma speaks_quiet : forall c, speaks_of_the_run c = true -> no_side_effects c.
Proof.
  induction c as [o a|o cs IH|o cs IH|o c IH|o c n IH] using cond_ind'; simpl; auto; try discriminate.
  - destruct a; auto; discriminate.
  - intros H. induction IH as [|x r Hx Hr I2]; simpl in *; auto. apply andb_true_iff in H. destruct H. split; [auto|apply I2; assumption].
  - intros H. induction IH as [|x r Hx Hr I2]; simpl in *; auto. apply andb_true_iff in H. destruct H. split; [auto|apply I2; assumption].
Qed.
Definition in_sync (d : sched) : Prop := exists l, d_last d = Some l /\ map sc_oid l = map sc_oid (cs_order (d_cs d)).
Lemma sync_last : forall cyc arr d d', sync cyc arr d = (Ok tt, d') -> in_sync d'.
Proof.
  intros cyc arr d d' E. unfold in_sync. unfold sync in E. destruct (d_last d) as [l|] eqn:EL.
  - unfold same_order in E. destruct (list_eq_dec _ _ _) as [O|_]; [inversion E; subst; eauto|]. cbv zeta in E.
    destruct (pop_graphs _ _) as [[|] st]; [|discriminate]. destruct st as [|[g q] st]; [discriminate|]. destruct (push_conds _ _ _ _ _ _) as [[|] st']; [|discriminate]. inversion E; subst. simpl. eauto.
  - cbv zeta in E. destruct (pop_graphs _ _) as [[|] st]; [|discriminate]. destruct st as [|[g q] st]; [discriminate|]. destruct (push_conds _ _ _ _ _ _) as [[|] st']; [|discriminate]. inversion E; subst. simpl. eauto.
Qed.
Lemma in_sync_sync : forall cyc arr d, in_sync d -> sync cyc arr d = (Ok tt, d).
Proof. intros cyc arr d (l & E & O). unfold sync. rewrite E. unfold same_order. destruct (list_eq_dec _ _ _); [auto|congruence]. Qed.
Lemma drive_in_sync : forall cyc arr fuel steps d g acc, in_sync d ->
  let '(m', g', acc', o) := drive steps fuel (core_of d) g acc in
  exists d', sdrive cyc arr steps fuel d g acc = (d', g', acc', o) /\ core_of d' = m' /\ in_sync d'.
Proof.
  intros cyc arr fuel. induction steps as [|k IH]; intros d g acc E; cbn [drive sdrive]; [eauto|].
  unfold sresume. rewrite in_sync_sync by auto. destruct (resume fuel (core_of d) g) as [[m' g'] o] eqn:R.
  assert (C : core_of (put_core d m') = m') by (eapply core_of_put; eapply grown_resume; eauto).
  assert (L : in_sync (put_core d m')) by exact E.
  destruct o; try (exists (put_core d m'); auto; fail). rewrite <- C. apply IH; auto.
Qed.
Lemma repeatable_defaults : forall m mb e b tcarg, add_defaults (m_nodes m) m = Ok mb -> repeatable m e b tcarg -> repeatable mb e b tcarg /\ complete mb.
Proof.
  intros m mb e b tcarg A [[QT QB] QA BG RC AB]. destruct (add_defaults_rest _ _ _ A) as (N & _ & T & X & _). split.
  - constructor; auto.
    + split; [rewrite T; auto|]. eapply add_defaults_quiet; eauto.
    + unfold at_beginning. rewrite X. auto.
    + unfold has_records. rewrite X. auto.
    + destruct AB as (B & TT & AA). split; [eapply basic_defaults; eauto|]. split; auto. rewrite T; auto.
  - intros n I. rewrite N in I. eapply add_defaults_has; eauto.
Qed.
Theorem again_run : forall steps fuel m e b tcarg m1 g1 ys l, repeatable m e b tcarg ->
  drive steps fuel m (new_gen e b tcarg false) [] = (m1, g1, ys, OReturn l) ->
  repeatable m1 e b tcarg /\
  forall b', exists m2 g2, drive steps fuel m1 (new_gen e b' tcarg false) [] = (m2, g2, ys, OReturn (l ++ ys)).
Proof.
  intros steps fuel m e b tcarg m1 g1 ys l R E.
  assert (X : exists mb, complete mb /\ repeatable mb e b tcarg /\ drive steps fuel mb (new_gen e b tcarg false) [] = (m1, g1, ys, OReturn l)).
  { destruct steps as [|k]; [discriminate|]. cbn [drive] in *. unfold resume in *. cbn [g_pc new_gen] in *.
    destruct (start m (new_gen e b tcarg false)) as [[g2|ex] m2] eqn:SE; [|discriminate].
    rewrite start_eq in SE. destruct (toposort (m_graph m)) eqn:TS; try discriminate. destruct (add_defaults (m_nodes m) m) as [mb|] eqn:A; [|discriminate].
    destruct (repeatable_defaults _ _ _ _ _ A R) as [R' C']. exists mb. split; auto. split; auto.
    rewrite start_eq, (add_defaults_twice _ _ A). destruct (add_defaults_rest _ _ _ A) as (_ & -> & _). rewrite TS, SE. exact E. }
  clear E R. destruct X as (mb & C & [Q QA BG RC AB] & E).
  destruct (again_core _ _ _ _ _ _ _ _ _ _ C Q QA BG RC AB E) as (BG1 & RC1 & AB1 & C1 & Q1 & XL & N). split; [constructor; auto|].
  intros b'. destruct (N b') as (m2 & g2 & l2 & E2). exists m2, g2. rewrite E2. do 2 f_equal.
  assert (RT : returned m1 (new_gen e b' tcarg false) ys m2 l2).
  { clear - E2. assert (Y : forall k m g acc, running m1 (new_gen e b' tcarg false) acc m g -> drive k fuel m g acc = (m2, g2, ys, OReturn l2) -> returned m1 (new_gen e b' tcarg false) ys m2 l2).
    { induction k as [|k IH]; intros m g acc RR E; simpl in E; [discriminate|]. destruct (resume fuel m g) as [[m3 g3] o] eqn:RE. destruct o; try discriminate.
      - eapply IH; [|exact E]. eapply run_yields; eauto.
      - inversion E; subst. exists m, g, fuel, g2. auto. }
    apply (Y _ _ _ _ (run_created _ _) E2). }
  destruct (RunProps.returned_list _ _ _ _ _ _ RT eq_refl XL) as [-> _]. auto.
Qed.
Theorem again_sched : forall cyc arr steps fuel d e b tcarg d1 g1 ys l, repeatable (core_of d) e b tcarg ->
  sdrive cyc arr steps fuel d (new_gen e b tcarg false) [] = (d1, g1, ys, OReturn l) ->
  repeatable (core_of d1) e b tcarg /\
  forall b', exists d2 g2, sdrive cyc arr steps fuel d1 (new_gen e b' tcarg false) [] = (d2, g2, ys, OReturn (l ++ ys)).
Proof.
  intros cyc arr steps fuel d e b tcarg d1 g1 ys l R E. destruct steps as [|k]; [discriminate|].
  destruct (sync cyc arr d) as [[u|ex] ds] eqn:SY; [|cbn [sdrive] in E; unfold sresume in E; rewrite SY in E; discriminate].
  destruct u. pose proof (RegisteredFacts.sync_still _ _ _ _ _ SY) as (SL & T1 & T2 & T3).
  assert (L : in_sync ds) by (eapply sync_last; eauto).
  assert (E' : sdrive cyc arr (S k) fuel ds (new_gen e b tcarg false) [] = (d1, g1, ys, OReturn l)).
  { rewrite <- E. cbn [sdrive]. unfold sresume. rewrite SY, (in_sync_sync _ _ _ L). auto. }
  assert (R' : repeatable (core_of ds) e b tcarg).
  { destruct R as [[QT QB] QA BG RC (AB & AT & AA)]. unfold at_beginning, has_records, all_about_the_run in *. destruct SL. cbn [core_of m_tconds m_basic m_ctxs] in *.
    constructor; auto; unfold quiet_scheduler, at_beginning, has_records, all_about_the_run; cbn [core_of m_tconds m_basic m_ctxs]; rewrite ?T1, ?T2, ?sl_ctxs; auto. }
  clear E R SY SL T1 T2 T3 d. pose proof (drive_in_sync cyc arr fuel (S k) ds (new_gen e b tcarg false) [] L) as B.
  destruct (drive (S k) fuel (core_of ds) (new_gen e b tcarg false) []) as [[[m1 g2] ys2] o2] eqn:D. destruct B as (d' & B & C & LL). rewrite B in E'. injection E' as -> -> -> ->.
  destruct (again_run _ _ _ _ _ _ _ _ _ _ R' D) as (R1 & N). rewrite C. split; auto. intros b'. destruct (N b') as (m2 & g2 & D2). rewrite <- C in D2.
  pose proof (drive_in_sync cyc arr fuel (S k) d1 (new_gen e b' tcarg false) [] LL) as B2. rewrite D2 in B2. destruct B2 as (d2 & B2 & _). eauto.
Qed.
Theorem every_time : forall cyc arr steps fuel d e b tcarg d1 g1 ys l, repeatable (core_of d) e b tcarg ->
  sdrive cyc arr steps fuel d (new_gen e b tcarg false) [] = (d1, g1, ys, OReturn l) ->
  forall n, exists d2, runs_in_turn cyc arr steps fuel (new_gen e b tcarg false) n d (repeat ys n) d2.
Proof.
  intros cyc arr steps fuel d e b tcarg d1 g1 ys l R E n. revert d d1 g1 l R E. induction n as [|n IH]; intros d d1 g1 l R E; simpl; [eexists; constructor|].
  destruct (again_sched _ _ _ _ _ _ _ _ _ _ _ _ R E) as (R1 & N). destruct (N b) as (d2 & g2 & E2). destruct (IH _ _ _ _ R1 E2) as (d3 & X). exists d3. econstructor; eauto.
Qed.
Theorem two_runs : forall steps fuel m m' e e' b b' tcarg skip, same_set_up m m' -> all_about_the_run m tcarg -> same_world e e' (m_cst m) (m_cst m') ->
  at_beginning m e -> at_beginning m' e' -> has_records m e b -> has_records m' e' b' ->
  let '(_, _, ys, o) := drive steps fuel m (new_gen e b tcarg skip) [] in let '(_, _, ys', o') := drive steps fuel m' (new_gen e' b' tcarg skip) [] in
  ys' = ys /\ same_outcome o o'.
Proof.
  intros steps fuel m m' e e' b b' tcarg skip U AB W BG BG' RC RC'.
  assert (F : both_fresh e e' m m' (new_gen e b tcarg skip) (new_gen e' b' tcarg skip)) by (constructor; auto; constructor; auto).
  pose proof (fresh_drive e e' steps fuel _ _ _ _ F) as X. destruct (drive steps fuel m (new_gen e b tcarg skip) []) as [[[m1 g1] ys] o].
  destruct (drive steps fuel m' (new_gen e' b' tcarg skip) []) as [[[m1' g1'] ys'] o']. destruct X as (A & B & _). auto.
Qed.
Theorem again_new : forall cyc arr input base conds tc deid exact du ow nx w r d e b tcarg, arg_graph input = Ok base ->
  new_sched cyc arr input conds tc deid exact du ow nx w = (Ok r, d) -> (e = deid \/ b = deid) ->
  (forall n c, In (n, c) (cs_basic (d_cs d)) -> speaks_of_the_run c = true) ->
  (forall t s c, tc = Some t \/ tcarg = Some t -> t s = Some c -> speaks_of_the_run c = true) ->
  repeatable (core_of d) e b tcarg.
Proof.
  intros cyc arr input base conds tc deid exact du ow nx w r d e b tcarg AG E I B T.
  destruct (RegisteredFacts.new_sched_facts _ _ _ _ _ _ _ _ _ _ _ _ _ _ AG E) as (_ & _ & _ & _ & _ & X & TC & _).
  assert (TC' : forall s c, d_tc d s = Some c -> speaks_of_the_run c = true).
  { intros s c H. rewrite TC in H. unfold SpecRegistered.given_first in H. assert (D : default_tc 0 1 s = Some c -> speaks_of_the_run c = true) by (destruct s; simpl; try discriminate; intros H'; injection H' as <-; reflexivity).
    destruct tc as [t|]; auto. unfold SpecRegistered.over in H. destruct (t s) as [c'|] eqn:EQ; auto. injection H as <-. eapply T; eauto. }
  constructor.
  - split; [intros s c H; apply speaks_quiet; eapply TC'; eauto|]. intros n c H. apply speaks_quiet. eapply B. cbn [core_of m_basic] in H. eapply aget_In; eauto.
  - intros t H s c H'. apply speaks_quiet. eapply T; eauto.
  - exists []. split; auto. constructor. cbn [core_of m_ctxs]. rewrite X. unfold upd. destruct (Nat.eqb _ _); reflexivity.
  - unfold has_records. cbn [core_of m_ctxs]. rewrite X. unfold upd. destruct I as [->| ->]; rewrite Nat.eqb_refl; (split; [|split]); (left; discriminate) || (right; discriminate).
  - split; [|split].
    + intros n c H. apply speaks_of. eapply B; eauto.
    + intros s c H. apply speaks_of. eapply TC'; eauto.
    + intros t H s c H'. apply speaks_of. eapply T; eauto.
Qed.
