(** Proofs for C82, part 3: runs do not look at the names *)
From Verif Require Import SpecRename RenameGraph RenameEval BaseFacts.
Open Scope nat_scope.

Section Names.
Variable R : renaming.
Notation f := (r_node R).
Hypothesis inj : injective f.
Notation rs := (rn_set R). Notation rss := (rn_sets R). Notation rg := (rn_graph R). Notation rc := (rn_cond R).

Record kf (m m' : core) : Prop := {
  kf_nodes : m_nodes m' = rs (m_nodes m);
  kf_graph : m_graph m' = rg (m_graph m);
  kf_levels : m_levels m' = rss (m_levels m);
  kf_exact : m_exact m' = m_exact m;
  kf_unit : m_default_unit m' = m_default_unit m;
  kf_tc : tc_follows R (m_tconds m) (m_tconds m');
  kf_basic : m_basic m' = rn_map R rc (m_basic m);
  kf_ok : forall n c, In (n, c) (m_basic m) -> users_follow R c;
  kf_owners : forall o, m_owners m' o = option_map f (m_owners m o);
  kf_next : m_next m' = m_next m;
  kf_cst : cst_follows R (m_cst m) (m_cst m');
  kf_ctxs : forall e, ctx_follows R (m_ctxs m e) (m_ctxs m' e) }.

Lemma kf_set_ctx : forall m m' e x x', kf m m' -> ctx_follows R x x' -> kf (set_ctx m e x) (set_ctx m' e x').
Proof. intros m m' e x x' [] X. constructor; simpl; auto. intros e0. unfold upd. destruct (Nat.eqb e0 e); auto. Qed.
Lemma kf_set_cst : forall m m' s s', kf m m' -> cst_follows R s s' -> kf (set_cst m s) (set_cst m' s').
Proof. intros m m' s s' [] X. constructor; simpl; auto. Qed.
Lemma clock_f : forall x x', ctx_follows R x x' -> the_clock x' = the_clock x.
Proof. intros x x' X. unfold the_clock. rewrite (cf_clock _ _ _ X). auto. Qed.
Lemma kf_queue : forall m m', kf m m' -> queue m' = rss (queue m).
Proof. intros m m' K. unfold queue. rewrite (kf_exact _ _ K), (kf_graph _ _ K), (kf_levels _ _ K), gkeys_f. destruct (m_exact m); auto. Qed.
Lemma kf_set_clock : forall m m' e k, kf m m' -> kf (set_clock m e k) (set_clock m' e k).
Proof. intros m m' e k K. unfold set_clock. apply kf_set_ctx; auto. destruct (kf_ctxs _ _ K e). constructor; simpl; auto. Qed.
Lemma incr_clock_f : forall s m m' e, kf m m' ->
  match incr_clock s m e, incr_clock s m' e with Ok a, Ok b => kf a b | Err x, Err y => x = y | _, _ => False end.
Proof.
  intros s m m' e K. unfold incr_clock. rewrite (clock_f _ _ (kf_ctxs _ _ K e)). destruct (clock_incr s (the_clock (m_ctxs m e))); auto. apply kf_set_clock. auto.
Qed.
Lemma view_f : forall m m' e, kf m m' -> view_follows R (view_of m e) (view_of m' e).
Proof.
  intros m m' e K. assert (X := kf_ctxs _ _ K e). unfold view_of. cbv zeta. constructor; simpl; try apply X.
  - apply (kf_nodes _ _ K).
  - apply kf_queue; auto.
  - apply (kf_exact _ _ K).
  - apply clock_f; auto.
Qed.
Lemma satisfied_f : forall m m' e c, kf m m' -> users_follow R c ->
  fst (satisfied m' e (rc c)) = fst (satisfied m e c) /\ kf (snd (satisfied m e c)) (snd (satisfied m' e (rc c))).
Proof.
  intros m m' e c K U. unfold satisfied. destruct (eval_f R inj _ _ e _ _ (view_f _ _ e K) (kf_owners _ _ K) c U _ _ (kf_cst _ _ K)) as [H1 H2].
  destruct (eval (view_of m e) e (m_owners m) c (m_cst m)) as [r st], (eval (view_of m' e) e (m_owners m') (rc c) (m_cst m')) as [r' st']. simpl in *. split; auto. apply kf_set_cst; auto.
Qed.
Lemma reset_total_f : forall s m m' e, kf m m' -> kf (reset_counts_total s m e) (reset_counts_total s m' e).
Proof.
  intros s m m' e K. unfold reset_counts_total. apply kf_set_ctx; auto. destruct (kf_ctxs _ _ K e). constructor; simpl; auto.
  destruct (x_total (m_ctxs m e)), (x_total (m_ctxs m' e)); simpl in *; auto. intros s' y. unfold reset_total. rewrite cf_total. auto.
Qed.
Lemma reset_useable_f : forall m m' e, kf m m' -> kf (reset_counts_useable m e) (reset_counts_useable m' e).
Proof. intros m m' e K. unfold reset_counts_useable. apply kf_set_ctx; auto. destruct (kf_ctxs _ _ K e). constructor; simpl; auto. intros a b. auto. Qed.
Lemma accept_f : forall m m' e n, kf m m' -> kf (accept m e n) (accept m' e (f n)).
Proof.
  intros m m' e n K. unfold accept. apply kf_set_ctx; auto. destruct (kf_ctxs _ _ K e). constructor; simpl; auto.
  - destruct (x_total (m_ctxs m e)), (x_total (m_ctxs m' e)); simpl in *; auto. intros s' y. unfold bump_total. rewrite cf_total, (eqb_f R inj). auto.
  - destruct (x_use (m_ctxs m e)), (x_use (m_ctxs m' e)); simpl in *; auto. intros y z. unfold spend_use. rewrite cf_use, !(eqb_f R inj). auto.
Qed.
Lemma copy_entry_f : forall A B (P : A -> B -> Prop) a a' b b', opt_follow P a a' -> opt_follow P b b' ->
  match copy_entry a b, copy_entry a' b' with Ok x, Ok y => opt_follow P x y | Err x, Err y => x = y | _, _ => False end.
Proof. intros A B P a a' b b' HA HB. destruct a, a'; simpl in *; auto; try tauto. destruct b, b'; simpl in *; auto. Qed.
Lemma init_counts_f : forall m m' e b, kf m m' -> fst (init_counts_base m' e b) = fst (init_counts_base m e b) /\ kf (snd (init_counts_base m e b)) (snd (init_counts_base m' e b)).
Proof.
  intros m m' e b K. assert (X := kf_ctxs _ _ K e). assert (Y := kf_ctxs _ _ K b). unfold init_counts_base. cbv zeta.
  set (x := m_ctxs m e) in *. set (x' := m_ctxs m' e) in *. set (y := m_ctxs m b) in *. set (y' := m_ctxs m' b) in *. destruct X as [XT XU XL XS XC], Y as [YT YU YL YS YC].
  assert (H1 := copy_entry_f _ _ _ _ _ _ _ XT YT). destruct (copy_entry (x_total x) (x_total y)) as [t|], (copy_entry (x_total x') (x_total y')) as [t'|]; try tauto; [|subst; split; auto].
  assert (H2 := copy_entry_f _ _ _ _ _ _ _ XU YU). destruct (copy_entry (x_use x) (x_use y)) as [u|], (copy_entry (x_use x') (x_use y')) as [u'|]; try tauto; [|subst; split; auto; apply kf_set_ctx; auto; constructor; auto].
  rewrite XL, YL, XC, YC, XS. destruct (x_list x) as [l|]; simpl.
  - destruct (copy_entry (x_clock x) (x_clock y)); simpl; split; auto; apply kf_set_ctx; auto; constructor; auto.
  - destruct (x_list y) as [l|]; simpl; [|split; auto; apply kf_set_ctx; auto; constructor; auto; rewrite XL; auto].
    destruct (copy_entry (x_clock x) (x_clock y)); simpl; split; auto; apply kf_set_ctx; auto; constructor; auto.
Qed.
Lemma append_exec_f : forall m m' e b s, kf m m' ->
  match fst (append_exec m e b s), fst (append_exec m' e b (rs s)) with Ok _, Ok _ => True | Err x, Err y => x = y | _, _ => False end /\
  kf (snd (append_exec m e b s)) (snd (append_exec m' e b (rs s))).
Proof.
  intros m m' e b s K. assert (X := kf_ctxs _ _ K e). unfold append_exec. cbv zeta. assert (C := clock_f _ _ X). rewrite C, (cf_list _ _ _ X), (cf_stamps _ _ _ X).
  assert (E : forall l, rss l ++ [rs s] = rss (l ++ [s])) by (intros; unfold rn_sets; rewrite map_app; auto).
  destruct (x_list (m_ctxs m e)) as [l|]; simpl; auto. rewrite E. destruct X. destruct b; [destruct (x_stamps (m_ctxs m e))|]; simpl; split; auto; apply kf_set_ctx; auto; constructor; auto.
Qed.
Definition rex (p : list node * bool) := (rs (fst p), snd p).
Lemma round_f : forall level m m' e exec ch, kf m m' ->
  fst (round m' e (rs level) (rs exec) ch) = rn_res rex (fst (round m e level exec ch)) /\ kf (snd (round m e level exec ch)) (snd (round m' e (rs level) (rs exec) ch)).
Proof.
  induction level as [|n r IH]; intros m m' e exec ch K; cbn [round rn_set map]; [split; auto|]. change (map f r) with (rs r). rewrite (mem_f R inj). destruct (mem n exec); [apply IH; auto|].
  rewrite (kf_basic _ _ K), (aget_f R inj). destruct (aget n (m_basic m)) as [c|] eqn:EC; cbn [option_map]; [|split; auto].
  assert (U : users_follow R c) by (apply (kf_ok _ _ K n); apply aget_In; auto).
  destruct (satisfied_f m m' e c K U) as [H1 H2]. destruct (satisfied m e c) as [r1 m1], (satisfied m' e (rc c)) as [r1' m1']. cbn [fst snd] in H1, H2. subst r1'.
  destruct r1 as [[|]|]; [|apply IH; auto|split; auto]. rewrite (kf_nodes _ _ H2), (mem_f R inj). destruct (mem n (m_nodes m1)); [|split; auto].
  assert (E : rs exec ++ [f n] = rs (exec ++ [n])) by (unfold rn_set; rewrite map_app; auto). rewrite E. apply IH. apply accept_f; auto.
Qed.
Lemma do_level_f : forall k m m' e level exec, kf m m' ->
  match do_level k m e level exec, do_level k m' e (rs level) (rs exec) with
  | Some (r, a), Some (r', a') => r' = rn_res rs r /\ kf a a' | None, None => True | _, _ => False end.
Proof.
  induction k as [|k IH]; intros m m' e level exec K; cbn [do_level]; auto. destruct (round_f level m m' e exec false K) as [H1 H2].
  destruct (round m e level exec false) as [r m1], (round m' e (rs level) (rs exec) false) as [r' m1']. cbn [fst snd] in H1, H2. subst r'. destruct r as [[x [|]]|]; cbn [rn_res rex fst snd]; auto. apply IH; auto.
Qed.
Lemma check_tc_f : forall m m' e tc tc' s, kf m m' -> tc_follows R tc tc' -> fst (check_tc m' e tc' s) = fst (check_tc m e tc s) /\ kf (snd (check_tc m e tc s)) (snd (check_tc m' e tc' s)).
Proof. intros m m' e tc tc' s K T. unfold check_tc. destruct (T s) as [E U]. rewrite E. destruct (tc s) as [c|]; cbn [option_map]; [|split; auto]. apply satisfied_f; auto. Qed.
Lemma terminated_f : forall m m' e tc tc', kf m m' -> tc_follows R tc tc' -> fst (terminated m' e tc') = fst (terminated m e tc) /\ kf (snd (terminated m e tc)) (snd (terminated m' e tc')).
Proof.
  intros m m' e tc tc' K T. unfold terminated. destruct (check_tc_f m m' e tc tc' ESU K T) as [H1 H2]. destruct (check_tc m e tc ESU) as [r m1], (check_tc m' e tc' ESU) as [r' m1']. cbn [fst snd] in *. subst r'.
  destruct r as [[|]|]; [split; auto|apply check_tc_f; auto|split; auto].
Qed.
Definition inner_follows (a b : inner_result) : Prop :=
  match a, b with
  | IYield m s i ch, IYield m' s' i' ch' => kf m m' /\ s' = rs s /\ i' = i /\ ch' = ch
  | IEnd m ch, IEnd m' ch' => kf m m' /\ ch' = ch
  | IErr m ex, IErr m' ex' => kf m m' /\ ex' = ex
  | IFuel m, IFuel m' => kf m m'
  | _, _ => False
  end.
Lemma nonempty_f : forall l, nonempty (rs l) = nonempty l.
Proof. intros []; auto. Qed.
Lemma inner_f : forall rest m m' g g' i ch, kf m m' -> same_call R g g' -> inner_follows (inner m g rest i ch) (inner m' g' (rss rest) i ch).
Proof.
  induction rest as [|lv rest IH]; intros m m' g g' i ch K G; cbn [inner rn_sets map]; [split; auto|]. change (map rs rest) with (rss rest).
  rewrite (sg_eid _ _ _ G). destruct (terminated_f m m' (g_eid g) _ _ K (sg_tc _ _ _ G)) as [H1 H2].
  destruct (terminated m (g_eid g) (g_tc g)) as [r m1], (terminated m' (g_eid g) (g_tc g')) as [r' m1']. cbn [fst snd] in *. subst r'. destruct r as [[|]|]; [split; auto| |split; auto].
  rewrite length_f. assert (D := do_level_f (S (length lv)) m1 m1' (g_eid g) lv [] H2). change (rs []) with (@nil node) in D.
  destruct (do_level (S (length lv)) m1 (g_eid g) lv []) as [[r m2]|], (do_level (S (length lv)) m1' (g_eid g) (rs lv) []) as [[r' m2']|]; try tauto.
  destruct D as [-> D]. destruct r as [ex|]; cbn [rn_res]; [|split; auto]. rewrite nonempty_f, (sg_abs _ _ _ G). destruct (nonempty ex || g_abs g); [|apply IH; auto].
  destruct (append_exec_f m2 m2' (g_eid g) (g_abs g) ex D) as [A1 A2]. destruct (append_exec m2 (g_eid g) (g_abs g) ex) as [a m3], (append_exec m2' (g_eid g) (g_abs g) (rs ex)) as [a' m3']. cbn [fst snd] in *.
  destruct a, a'; try tauto; [split; [|split; [|split]]; auto|subst; split; auto].
Qed.
Definition tail_follows (a b : tail_result) : Prop :=
  match a, b with TYield m, TYield m' => kf m m' | TNext m, TNext m' => kf m m' | TErr m x, TErr m' y => kf m m' /\ y = x | _, _ => False end.
Lemma pass_tail_f : forall m m' g g' ch, kf m m' -> same_call R g g' -> tail_follows (pass_tail m g ch) (pass_tail m' g' ch).
Proof.
  intros m m' g g' ch K G. unfold pass_tail. rewrite (sg_abs _ _ _ G), (sg_eid _ _ _ G). destruct (_ && _).
  - destruct (append_exec_f m m' (g_eid g) false [] K) as [A1 A2]. change (rs []) with (@nil node) in *.
    destruct (append_exec m (g_eid g) false []) as [a m3], (append_exec m' (g_eid g) false []) as [a' m3']. cbn [fst snd] in *. destruct a, a'; try tauto; subst; simpl; auto.
  - assert (C := incr_clock_f PASS m m' (g_eid g) K). destruct (incr_clock PASS m (g_eid g)), (incr_clock PASS m' (g_eid g)); try tauto; subst; simpl; auto.
Qed.
Definition out_follows (a b : core * gen * outcome) : Prop :=
  kf (fst (fst a)) (fst (fst b)) /\ same_call R (snd (fst a)) (snd (fst b)) /\ snd b = rn_outcome R (snd a).
Lemma out_mk : forall m m' g g' o o', kf m m' -> same_call R g g' -> o' = rn_outcome R o -> out_follows (m, g, o) (m', g', o').
Proof. intros. split; [|split]; auto. Qed.
Lemma at_pc_f : forall g g' p, same_call R g g' -> same_call R (at_pc g p) (at_pc g' p).
Proof. intros g g' p []. constructor; simpl; auto. Qed.
Lemma finish_f : forall m m' g g', kf m m' -> same_call R g g' -> out_follows (finish m g) (finish m' g').
Proof.
  intros m m' g g' K G. unfold finish. cbv zeta. rewrite (sg_skip _ _ _ G), (sg_eid _ _ _ G). assert (D := at_pc_f _ _ PDone G).
  assert (C : match (if g_skip g then Ok m else incr_clock ESU m (g_eid g)), (if g_skip g then Ok m' else incr_clock ESU m' (g_eid g)) with Ok a, Ok b => kf a b | Err x, Err y => x = y | _, _ => False end).
  { destruct (g_skip g); auto. apply incr_clock_f; auto. }
  destruct (if g_skip g then Ok m else incr_clock ESU m (g_eid g)) as [m1|], (if g_skip g then Ok m' else incr_clock ESU m' (g_eid g)) as [m1'|]; try tauto; [|subst; apply out_mk; auto using at_pc_f].
  destruct (check_tc_f m1 m1' (g_eid g) _ _ ES C (sg_tc _ _ _ G)) as [H1 H2]. destruct (check_tc m1 (g_eid g) (g_tc g) ES) as [r m2], (check_tc m1' (g_eid g) (g_tc g') ES) as [r' m2']. cbn [fst snd] in *. subst r'.
  destruct r; [|apply out_mk; auto using at_pc_f]. rewrite (cf_list _ _ _ (kf_ctxs _ _ H2 (g_eid g))). destruct (x_list (m_ctxs m2 (g_eid g))); apply out_mk; auto.
Qed.
Lemma outer_f : forall k m m' g g', kf m m' -> same_call R g g' -> out_follows (outer k m g) (outer k m' g').
Proof.
  induction k as [|k IH]; intros m m' g g' K G; cbn [outer]; [apply out_mk; auto using at_pc_f|]. rewrite (sg_eid _ _ _ G). destruct (terminated_f m m' (g_eid g) _ _ K (sg_tc _ _ _ G)) as [H1 H2].
  destruct (terminated m (g_eid g) (g_tc g)) as [r m1], (terminated m' (g_eid g) (g_tc g')) as [r' m1']. cbn [fst snd] in *. subst r'. destruct r as [[|]|]; [apply finish_f; auto| |apply out_mk; auto using at_pc_f].
  assert (K2 := reset_total_f PASS m1 m1' (g_eid g) H2). rewrite (kf_queue _ _ K2). assert (N := inner_f (queue (reset_counts_total PASS m1 (g_eid g))) _ _ g g' 0 false K2 G). cbv zeta.
  destruct (inner (reset_counts_total PASS m1 (g_eid g)) g _ 0 false) as [m3 s i ch|m3 ch|m3 ex|m3], (inner (reset_counts_total PASS m1' (g_eid g)) g' _ 0 false) as [m3' s' i' ch'|m3' ch'|m3' ex'|m3']; simpl in N; try tauto.
  - destruct N as [N [-> [-> ->]]]. apply out_mk; auto using at_pc_f.
  - destruct N as [N ->]. assert (T := pass_tail_f m3 m3' g g' ch N G). destruct (pass_tail m3 g ch), (pass_tail m3' g' ch); simpl in T; try tauto; [apply out_mk; auto using at_pc_f|apply IH; auto|destruct T as [T ->]; apply out_mk; auto using at_pc_f].
  - destruct N as [N ->]. apply out_mk; auto using at_pc_f.
  - apply out_mk; auto using at_pc_f.
Qed.

(** ** Start *)
Lemma In_aset : forall A n k (c v : A) m, In (n, c) (aset k v m) -> (n, c) = (k, v) \/ In (n, c) m.
Proof. intros A n k c v. induction m as [|[k' v'] m IH]; simpl; [intros [H|[]]; auto|]. destruct (Nat.eqb_spec k k'); simpl; intros [H|H]; auto. destruct (IH H); auto. Qed.
Lemma default_parts_f : forall l k, default_parts k (rs l) = map rc (default_parts k l).
Proof. induction l as [|d l IH]; intros k; simpl; auto. rewrite IH. auto. Qed.
Lemma default_cond_f : forall k l, default_cond k (rs l) = (rc (fst (default_cond k l)), snd (default_cond k l)).
Proof. intros k [|d [|d2 l]]; auto. cbn [default_cond rn_set map fst snd]. unfold All. cbn [rn_cond]. rewrite <- default_parts_f. cbn [rn_set map length]. rewrite map_length. auto. Qed.
Lemma default_users : forall k l, users_follow R (fst (default_cond k l)).
Proof.
  intros k [|d [|d2 l]]; try exact I. refine (proj2 (users_all R (default_parts (S k) (d :: d2 :: l))) _). generalize (S k) as j. generalize (d :: d2 :: l) as q. induction q as [|y q IH]; intros j x H; [destruct H|].
  destruct H as [<-|H]; [exact I|]. exact (IH _ x H).
Qed.
Lemma add_defaults_f : forall ns m m', kf m m' -> match add_defaults ns m, add_defaults (rs ns) m' with Ok a, Ok b => kf a b | Err x, Err y => x = y | _, _ => False end.
Proof.
  induction ns as [|n ns IH]; intros m m' K; cbn [add_defaults rn_set map]; auto. change (map f ns) with (rs ns). rewrite (kf_basic _ _ K), (ahas_f R inj). destruct (ahas n (m_basic m)); [apply IH; auto|].
  rewrite (kf_graph _ _ K). unfold rn_graph. rewrite (aget_f R inj). destruct (aget n (m_graph m)) as [deps|]; cbn [option_map]; auto. rewrite (kf_next _ _ K), default_cond_f.
  assert (U := default_users (m_next m) deps). destruct (default_cond (m_next m) deps) as [c nx]. cbn [fst snd] in *. apply IH.
  assert (E := aset_f R inj _ _ rc n c (m_basic m)). rewrite E. assert (O := set_owner_f R inj c (Some n) _ _ (kf_owners _ _ K)). destruct K. constructor; simpl; auto.
  intros n0 c0 H. apply In_aset in H. destruct H as [H|H]; [injection H as -> ->; auto|eauto].
Qed.
Lemma validate_f : forall m m', kf m m' ->
  match fst (validate_run_state m), fst (validate_run_state m') with Ok _, Ok _ => True | Err x, Err y => x = y | _, _ => False end /\ kf (snd (validate_run_state m)) (snd (validate_run_state m')).
Proof.
  intros m m' K. unfold validate_run_state. rewrite (kf_graph _ _ K), (toposort_f R inj). destruct (toposort (m_graph m)); cbn [rn_topo fst snd]; try (split; auto; fail). rewrite (kf_nodes _ _ K).
  assert (A := add_defaults_f (m_nodes m) m m' K). destruct (add_defaults (m_nodes m) m), (add_defaults (rs (m_nodes m)) m'); try tauto; cbn [fst snd]; split; auto.
Qed.
Lemma combine_f : forall t t' a a', tc_follows R t t' -> tc_follows R a a' -> tc_follows R (combine_tconds t a) (combine_tconds t' a').
Proof. intros t t' a a' T A s. unfold combine_tconds. destruct (A s) as [E U]. rewrite E. destruct (a s); cbn [option_map]; auto. Qed.
Lemma absolute_f : forall m m' tc tc', kf m m' -> tc_follows R tc tc' -> absolute_conditions m' tc' = map rc (absolute_conditions m tc).
Proof.
  intros m m' tc tc' K T. unfold absolute_conditions. assert (F : forall l, filter is_absolute (map rc l) = map rc (filter is_absolute l)).
  { induction l as [|c l IH]; simpl; auto. rewrite is_absolute_f. destruct (is_absolute c); simpl; rewrite IH; auto. }
  rewrite <- F, map_app. f_equal. f_equal.
  - rewrite (kf_basic _ _ K). unfold rn_map. rewrite !map_map. auto.
  - unfold tc_list. induction all_timescales as [|s l IH]; simpl; auto. rewrite map_app, IH. f_equal. destruct (T s) as [E _]. rewrite E. destruct (tc s); auto.
Qed.
Lemma setup_f : forall m m' e tc tc', kf m m' -> tc_follows R tc tc' -> match setup_absolute m e tc, setup_absolute m' e tc' with Ok a, Ok b => kf a b | Err x, Err y => x = y | _, _ => False end.
Proof.
  intros m m' e tc tc' K T. assert (U : unit_of m' tc' = unit_of m tc).
  { unfold unit_of. cbv zeta. rewrite (absolute_f m m' tc tc' K T), (kf_unit _ _ K), (kf_exact _ _ K), (kf_queue _ _ K). unfold rn_sets. rewrite map_length. f_equal.
    generalize (absolute_conditions m tc) as l. induction l as [|c l IH]; simpl; auto. rewrite IH, absolute_intervals_f, fixed_points_f. auto. }
  assert (F : first_time (absolute_conditions m' tc') = first_time (absolute_conditions m tc)).
  { rewrite (absolute_f m m' tc tc' K T). unfold first_time. rewrite map_map. f_equal. apply map_ext. intros c. rewrite fixed_points_f. auto. }
  unfold setup_absolute. cbv zeta. rewrite (clock_f _ _ (kf_ctxs _ _ K e)), U. assert (A := absolute_f m m' tc tc' K T). destruct (absolute_conditions m tc) as [|c l]; rewrite A in *; cbn [map] in *.
  - apply kf_set_clock; auto.
  - rewrite F. destruct (unit_of m tc); auto. apply kf_set_clock; auto.
Qed.
Lemma start_f : forall m m' g g', kf m m' -> same_call R g g' ->
  match fst (start m g), fst (start m' g') with Ok a, Ok b => same_call R a b | Err x, Err y => x = y | _, _ => False end /\ kf (snd (start m g)) (snd (start m' g')).
Proof.
  intros m m' g g' K G. unfold start. destruct (validate_f m m' K) as [V1 V2]. destruct (validate_run_state m) as [r m1], (validate_run_state m') as [r' m1']. cbn [fst snd] in *. destruct r, r'; try tauto.
  cbv zeta. rewrite (sg_eid _ _ _ G), (sg_base _ _ _ G), (sg_skip _ _ _ G). set (tc := match g_tcarg g with None => m_tconds m1 | Some a => combine_tconds (m_tconds m1) a end).
  set (tc' := match g_tcarg g' with None => m_tconds m1' | Some a => combine_tconds (m_tconds m1') a end).
  assert (TA := sg_tcarg _ _ _ G). assert (T : tc_follows R tc tc').
  { unfold tc, tc'. destruct (g_tcarg g), (g_tcarg g'); simpl in TA; try tauto; [apply combine_f; auto|]; apply (kf_tc _ _ V2). }
  rewrite (clock_f _ _ (kf_ctxs _ _ V2 (g_eid g))). assert (K2 := kf_set_clock _ _ (g_eid g) (the_clock (m_ctxs m1 (g_eid g))) V2).
  assert (A := absolute_f _ _ tc tc' K2 T). rewrite A. assert (S3 := setup_f _ _ (g_eid g) tc tc' K2 T).
  destruct (setup_absolute (set_clock m1 (g_eid g) _) (g_eid g) tc) as [m3|], (setup_absolute (set_clock m1' (g_eid g) _) (g_eid g) tc') as [m3'|]; try tauto.
  destruct (init_counts_f m3 m3' (g_eid g) (g_base g) S3) as [I1 I2]. destruct (init_counts_base m3 (g_eid g) (g_base g)) as [q m4], (init_counts_base m3' (g_eid g) (g_base g)) as [q' m4']. cbn [fst snd] in *. subst q'.
  destruct q; [|cbn [fst snd]; split; auto]. split; [|apply reset_total_f, reset_useable_f; auto]. cbn [fst]. constructor; simpl; auto. destruct (absolute_conditions _ tc); auto.
Qed.
Lemma resume_f : forall k m m' g g', kf m m' -> same_call R g g' -> out_follows (resume k m g) (resume k m' g').
Proof.
  intros k m m' g g' K G. unfold resume. cbv zeta. rewrite (sg_pc _ _ _ G), (sg_eid _ _ _ G). destruct (g_pc g).
  - destruct (start_f m m' g g' K G) as [S1 S2]. destruct (start m g) as [r m1], (start m' g') as [r' m1']. cbn [fst snd] in *. destruct r, r'; try tauto; [apply outer_f; auto|subst; apply out_mk; auto using at_pc_f].
  - assert (C := incr_clock_f CSE m m' (g_eid g) K). destruct (incr_clock CSE m (g_eid g)) as [m1|], (incr_clock CSE m' (g_eid g)) as [m1'|]; try tauto; [|subst; apply out_mk; auto using at_pc_f].
    rewrite (kf_queue _ _ C). unfold rn_sets. rewrite skipn_map. fold (rss (skipn (S i) (queue m1))). assert (N := inner_f (skipn (S i) (queue m1)) _ _ g g' (S i) changed C G).
    destruct (inner m1 g _ (S i) changed) as [m3 s i0 ch|m3 ch|m3 ex|m3], (inner m1' g' _ (S i) changed) as [m3' s' i' ch'|m3' ch'|m3' ex'|m3']; simpl in N; try tauto.
    + destruct N as [N [-> [-> ->]]]. apply out_mk; auto using at_pc_f.
    + destruct N as [N ->]. assert (T := pass_tail_f m3 m3' g g' ch N G). destruct (pass_tail m3 g ch), (pass_tail m3' g' ch); simpl in T; try tauto; [apply out_mk; auto using at_pc_f|apply outer_f; auto|destruct T as [T ->]; apply out_mk; auto using at_pc_f].
    + destruct N as [N ->]. apply out_mk; auto using at_pc_f.
    + apply out_mk; auto using at_pc_f.
  - assert (C := incr_clock_f CSE m m' (g_eid g) K). destruct (incr_clock CSE m (g_eid g)) as [m1|], (incr_clock CSE m' (g_eid g)) as [m1'|]; try tauto; [|subst; apply out_mk; auto using at_pc_f].
    assert (C2 := incr_clock_f PASS m1 m1' (g_eid g) C). destruct (incr_clock PASS m1 (g_eid g)) as [m2|], (incr_clock PASS m1' (g_eid g)) as [m2'|]; try tauto; [|subst; apply out_mk; auto using at_pc_f].
    apply outer_f; auto.
  - apply out_mk; auto using at_pc_f.
Qed.
End Names.
