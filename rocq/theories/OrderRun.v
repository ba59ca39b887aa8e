(** Whole runs do not depend on the order inside consideration sets (C05). *)
From Verif Require Import BaseFacts SpecOrder PureFacts DefaultFacts RunFacts RunProofs ResumeFrame RunIds OrderFacts.

(** ** the relation *)
Lemma apart_alike : forall q q' d n, alike_sets q q' -> apart q d n -> apart q' d n.
Proof.
  intros q q' d n F H (s & I & D & N). apply H. clear H. induction F as [|a b q q' P F IH]; [destruct I|].
  destruct I as [->|I].
  - exists a. split; [left; auto|]. split; (eapply Permutation_in; [apply Permutation_sym; eauto|auto]).
  - destruct (IH I) as (s' & I' & X). exists s'. split; [right; auto|auto].
Qed.
Lemma alike_queue : forall m m', alike m m' -> alike_sets (queue m) (queue m').
Proof.
  intros m m' A. unfold queue. rewrite (al_exact _ _ A). destruct (m_exact m); [|apply A].
  constructor; [|constructor]. apply Permutation_map. apply A.
Qed.
Lemma alike_close : forall m m' e, alike m m' -> close (apart (queue m)) e m m'.
Proof. intros m m' e A. constructor; try apply A. apply alike_queue; auto. Qed.
Lemma alike_set_cst : forall m m' st, alike m m' -> alike (set_cst m st) (set_cst m' st).
Proof. intros m m' st []. constructor; auto. Qed.
Lemma alike_set_ctx : forall m m' e x x', alike m m' -> alike_ctx (apart (queue m)) x x' -> alike (set_ctx m e x) (set_ctx m' e x').
Proof.
  intros m m' e x x' A X. destruct A. constructor; auto. intros e'. simpl. unfold upd. change (queue (set_ctx m e x)) with (queue m). destruct (Nat.eqb e' e); auto.
Qed.
Lemma alike_view_of : forall m m' e, alike m m' -> alike_view eq (apart (queue m)) (view_of m e) (view_of m' e).
Proof.
  intros m m' e A. pose proof (al_ctxs _ _ A e) as [T U Li S K]. unfold view_of. constructor; simpl; auto; try apply A.
  - apply alike_queue; auto.
  - unfold the_clock. rewrite K. auto.
Qed.
(** what makes the conditions of a run well behaved is kept *)
Lemma fixed_queue : forall e m m', fixed e m m' -> queue m' = queue m.
Proof. intros e m m' F. unfold queue. rewrite (fx_exact _ _ _ F), (fx_graph _ _ _ F), (fx_levels _ _ _ F). auto. Qed.
Lemma steady_fixed : forall e e' m m', fixed e' m m' -> steady e m -> steady e m'.
Proof.
  intros e e' m m' F [sg sf sc sd]. pose proof (fixed_queue _ _ _ F) as Q. constructor.
  - rewrite (fx_graph _ _ _ F); auto.
  - intros o. rewrite (fx_next _ _ _ F), (fx_owners _ _ _ F). auto.
  - intros n c. rewrite (fx_basic _ _ _ F), (fx_owners _ _ _ F), Q. unfold exists_in. rewrite (fx_next _ _ _ F). apply sc.
  - intros n d. rewrite (fx_basic _ _ _ F), (fx_nodes _ _ _ F), (fx_graph _ _ _ F), Q. apply sd.
Qed.
Lemma blind_fixed : forall e e' m m' tc, fixed e' m m' -> blind_terms m e tc -> blind_terms m' e tc.
Proof.
  intros e e' m m' tc F B s c E. unfold exists_in. rewrite (fx_next _ _ _ F), (fx_owners _ _ _ F), (fixed_queue _ _ _ F). apply (B s c E).
Qed.
Lemma steady_mono : forall e m, steady e m -> mono_all (apart (queue m)) e m.
Proof. intros e m S n c E. apply (sy_cond _ _ S n c E). Qed.

(** ** the parts of a run *)
Lemma check_alike : forall m m' e tc s, alike m m' -> blind_terms m e tc ->
  fst (check_tc m' e tc s) = fst (check_tc m e tc s) /\ alike (snd (check_tc m e tc s)) (snd (check_tc m' e tc s)).
Proof.
  intros m m' e tc s A B. unfold check_tc. destruct (tc s) as [c|] eqn:E; [|split; auto].
  destruct (B s c E) as [_ H]. unfold satisfied. rewrite (al_owners _ _ A), (al_cst _ _ A), (H _ _ (m_cst m) (alike_view_of m m' e A)).
  destruct (eval (view_of m e) e (m_owners m) c (m_cst m)) as [r st]. simpl. split; auto using alike_set_cst.
Qed.
Lemma terminated_alike : forall m m' e tc, alike m m' -> blind_terms m e tc ->
  fst (terminated m' e tc) = fst (terminated m e tc) /\ alike (snd (terminated m e tc)) (snd (terminated m' e tc)).
Proof.
  intros m m' e tc A B. unfold terminated. destruct (check_alike m m' e tc ESU A B) as [E1 A1].
  pose proof (fixed_tc m e tc ESU) as F.
  destruct (check_tc m e tc ESU) as [r m1], (check_tc m' e tc ESU) as [r' m1']. simpl in *. subst r'.
  destruct r as [[|]|]; auto. apply check_alike; auto. eapply blind_fixed; eauto.
Qed.
Lemma incr_alike : forall s m m' e, alike m m' ->
  match incr_clock s m e, incr_clock s m' e with Ok a, Ok b => alike a b | Err x, Err y => x = y | _, _ => False end.
Proof.
  intros s m m' e A. pose proof (al_ctxs _ _ A e) as X. destruct X as [T U Li S K]. unfold incr_clock, the_clock. rewrite K.
  destruct (clock_incr s _) as [k|]; auto. unfold set_clock. apply alike_set_ctx; auto. constructor; auto.
Qed.
Lemma append_alike : forall m m' e abs s s', alike m m' -> Permutation s s' ->
  match append_exec m e abs s, append_exec m' e abs s' with
  | (Ok _, a), (Ok _, b) => alike a b | (Err x, _), (Err y, _) => x = y | _, _ => False end.
Proof.
  intros m m' e abs s s' A P. pose proof (al_ctxs _ _ A e) as X. destruct X as [T U Li S K]. unfold append_exec.
  destruct (x_list (m_ctxs m e)) as [l|], (x_list (m_ctxs m' e)) as [l'|]; simpl in Li; try tauto.
  assert (Li' : alike_sets (l ++ [s]) (l' ++ [s'])) by (apply Forall2_app; auto).
  rewrite S. destruct abs; [destruct (x_stamps (m_ctxs m e))|]; auto; apply alike_set_ctx; auto; constructor; simpl; auto.
  unfold the_clock. rewrite K. auto.
Qed.
Lemma level_run : forall e m m' l l' s s' f f' m1 m1', alike m m' -> steady e m -> In l (queue m) -> Permutation l l' ->
  do_level f m e l [] = Some (Ok s, m1) -> do_level f' m' e l' [] = Some (Ok s', m1') -> Permutation s s' /\ alike m1 m1'.
Proof.
  intros e m m' l l' s s' f f' m1 m1' A S I P D D'.
  destruct (level_alike (apart (queue m)) m m' e l l' s s' f f' m1 m1' (alike_close _ _ _ A) (steady_mono _ _ S) P D D') as (PS & C1 & C2 & X).
  split; auto. pose proof (fixed_level _ _ _ _ _ _ _ D) as F. pose proof (fixed_level _ _ _ _ _ _ _ D') as F'.
  constructor; try (rewrite ?(fx_nodes _ _ _ F), ?(fx_nodes _ _ _ F'), ?(fx_graph _ _ _ F), ?(fx_graph _ _ _ F'), ?(fx_levels _ _ _ F), ?(fx_levels _ _ _ F'),
    ?(fx_exact _ _ _ F), ?(fx_exact _ _ _ F'), ?(fx_unit _ _ _ F), ?(fx_unit _ _ _ F'), ?(fx_tconds _ _ _ F), ?(fx_tconds _ _ _ F'), ?(fx_basic _ _ _ F), ?(fx_basic _ _ _ F'),
    ?(fx_owners _ _ _ F), ?(fx_owners _ _ _ F'), ?(fx_next _ _ _ F), ?(fx_next _ _ _ F'), ?C1, ?C2; apply A; fail).
  intros e'. rewrite (fixed_queue _ _ _ F). destruct (Nat.eq_dec e' e) as [->|N].
  - destruct X as [T U Li St K]. constructor; auto. destruct (x_use (m_ctxs m1 e)), (x_use (m_ctxs m1' e)); simpl in *; auto.
    intros d w Ap. apply U. split; auto. intros [Hd Hw]. apply Ap. eauto.
  - rewrite (fx_other _ _ _ F _ N), (fx_other _ _ _ F' _ N). apply A.
Qed.
Definition inner_like (r r' : inner_result) : Prop :=
  match r, r' with
  | IErr _ _, _ | _, IErr _ _ => True
  | IYield m s i ch, IYield m' s' i' ch' => alike m m' /\ Permutation s s' /\ i' = i /\ ch' = ch
  | IEnd m ch, IEnd m' ch' => alike m m' /\ ch' = ch
  | IFuel m, IFuel m' => alike m m'
  | _, _ => False
  end.
Lemma nonempty_perm : forall (a b : list node), Permutation a b -> nonempty b = nonempty a.
Proof. intros a b P. destruct a, b; auto; [apply Permutation_nil in P; discriminate|apply Permutation_sym, Permutation_nil in P; discriminate]. Qed.
Lemma inner_alike : forall rest rest' m m' g i ch, alike m m' -> steady (g_eid g) m -> blind_terms m (g_eid g) (g_tc g) ->
  alike_sets rest rest' -> incl rest (queue m) -> inner_like (inner m g rest i ch) (inner m' g rest' i ch).
Proof.
  intros rest rest' m m' g i ch A S B F I. revert m m' i ch A S B I. induction F as [|l l' rest rest' P F IH]; intros m m' i ch A S B I; cbn [inner]; [split; auto|].
  destruct (terminated_alike m m' (g_eid g) (g_tc g) A B) as [E A1]. pose proof (fixed_terminated m (g_eid g) (g_tc g)) as FT.
  destruct (terminated m (g_eid g) (g_tc g)) as [r m1], (terminated m' (g_eid g) (g_tc g)) as [r' m1']. cbn [fst snd] in E, A1. subst r'.
  specialize (FT _ _ eq_refl). destruct r as [[|]|]; [split; auto| |exact Logic.I].
  pose proof (steady_fixed _ _ _ _ FT S) as S1. pose proof (blind_fixed _ _ _ _ _ FT B) as B1.
  assert (Il : In l (queue m1)) by (rewrite (fixed_queue _ _ _ FT); apply I; left; auto).
  destruct (do_level (Datatypes.S (length l)) m1 (g_eid g) l []) as [[[s|] m2]|] eqn:D; [|destruct (do_level (Datatypes.S (length l')) m1' (g_eid g) l' []) as [[[|] ?]|]; simpl; auto..].
  - destruct (do_level (Datatypes.S (length l')) m1' (g_eid g) l' []) as [[[s'|] m2']|] eqn:D'.
    + destruct (level_run _ _ _ _ _ _ _ _ _ _ _ A1 S1 Il P D D') as [PS A2]. rewrite (nonempty_perm _ _ PS).
      pose proof (fixed_level _ _ _ _ _ _ _ D) as F2.
      destruct (nonempty s || g_abs g).
      * pose proof (append_alike m2 m2' (g_eid g) (g_abs g) s s' A2 PS) as AP.
        destruct (append_exec m2 (g_eid g) (g_abs g) s) as [[|] m3], (append_exec m2' (g_eid g) (g_abs g) s') as [[|] m3']; simpl; auto.
      * apply IH; auto.
        { eapply steady_fixed; eauto. }
        { eapply blind_fixed; eauto. }
        { rewrite (fixed_queue _ _ _ F2), (fixed_queue _ _ _ FT). intros x Hx. apply I. right; auto. }
    + destruct (nonempty s || g_abs g); [destruct (append_exec m2 (g_eid g) (g_abs g) s) as [[|] ?]; simpl; auto|]. destruct (inner m2 g rest (Datatypes.S i) (ch || nonempty s)); simpl; auto.
    + exfalso. eapply (do_level_total (tc := g_tc g)); eauto.
  - exfalso. eapply (do_level_total (tc := g_tc g)); eauto.
Qed.
Definition like_result (r r' : core * gen * outcome) : Prop :=
  raises (snd r) \/ raises (snd r') \/
  (alike (fst (fst r)) (fst (fst r')) /\ snd (fst r') = snd (fst r) /\ alike_outcome (snd r) (snd r')).
Lemma finish_alike : forall m m' g, alike m m' -> blind_terms m (g_eid g) (g_tc g) -> like_result (finish m g) (finish m' g).
Proof.
  intros m m' g A B. unfold finish. pose proof (incr_alike ESU m m' (g_eid g) A) as I.
  assert (J : match (if g_skip g then Ok m else incr_clock ESU m (g_eid g)), (if g_skip g then Ok m' else incr_clock ESU m' (g_eid g)) with
              | Ok a, Ok b => alike a b /\ fixed (g_eid g) m a | Err x, Err y => x = y | _, _ => False end).
  { destruct (g_skip g); [split; auto using fixed_refl|]. pose proof (fixed_incr ESU m (g_eid g)) as FI. destruct (incr_clock ESU m (g_eid g)), (incr_clock ESU m' (g_eid g)); auto. }
  destruct (if g_skip g then Ok m else incr_clock ESU m (g_eid g)) as [m1|], (if g_skip g then Ok m' else incr_clock ESU m' (g_eid g)) as [m1'|]; try tauto; [|left; simpl; eexists; eauto].
  destruct J as [A1 F1]. destruct (check_alike m1 m1' (g_eid g) (g_tc g) ES A1 (blind_fixed _ _ _ _ _ F1 B)) as [E A2].
  destruct (check_tc m1 (g_eid g) (g_tc g) ES) as [r m2], (check_tc m1' (g_eid g) (g_tc g) ES) as [r' m2']. simpl in *. subst r'.
  destruct r; [|left; simpl; eexists; eauto]. pose proof (ac_list _ _ _ (al_ctxs _ _ A2 (g_eid g))) as Li.
  destruct (x_list (m_ctxs m2 (g_eid g))), (x_list (m_ctxs m2' (g_eid g))); simpl in Li; try tauto; [|left; simpl; eexists; eauto].
  right; right. simpl. auto.
Qed.
Definition tail_like (r r' : tail_result) : Prop :=
  match r, r' with
  | TErr _ _, _ | _, TErr _ _ => True
  | TYield m, TYield m' | TNext m, TNext m' => alike m m'
  | _, _ => False
  end.
Lemma tail_alike : forall m m' g ch, alike m m' -> tail_like (pass_tail m g ch) (pass_tail m' g ch).
Proof.
  intros m m' g ch A. unfold pass_tail. destruct (negb ch && negb (g_abs g)).
  - pose proof (append_alike m m' (g_eid g) false [] [] A (Permutation_refl _)) as P.
    destruct (append_exec m (g_eid g) false []) as [[|] ?], (append_exec m' (g_eid g) false []) as [[|] ?]; simpl; auto.
  - pose proof (incr_alike PASS m m' (g_eid g) A) as I. destruct (incr_clock PASS m (g_eid g)), (incr_clock PASS m' (g_eid g)); simpl; auto.
Qed.
Lemma reset_total_alike : forall s m m' e, alike m m' -> alike (reset_counts_total s m e) (reset_counts_total s m' e).
Proof.
  intros s m m' e A. pose proof (al_ctxs _ _ A e) as [T U Li S K]. unfold reset_counts_total. apply alike_set_ctx; auto. constructor; simpl; auto.
  destruct (x_total (m_ctxs m e)), (x_total (m_ctxs m' e)); simpl in *; auto. intros s' n'. unfold reset_total. rewrite T. auto.
Qed.
Lemma outer_alike : forall f m m' g, alike m m' -> steady (g_eid g) m -> blind_terms m (g_eid g) (g_tc g) ->
  like_result (outer f m g) (outer f m' g).
Proof.
  induction f as [|f IH]; intros m m' g A S B; cbn [outer]; [right; right; simpl; auto|].
  destruct (terminated_alike m m' (g_eid g) (g_tc g) A B) as [E A1]. pose proof (fixed_terminated m (g_eid g) (g_tc g)) as FT.
  destruct (terminated m (g_eid g) (g_tc g)) as [r m1], (terminated m' (g_eid g) (g_tc g)) as [r' m1']. cbn [fst snd] in E, A1. subst r'.
  specialize (FT _ _ eq_refl). pose proof (blind_fixed _ _ _ _ _ FT B) as B1. destruct r as [[|]|]; [apply finish_alike; auto| |left; simpl; eexists; eauto].
  set (m2 := reset_counts_total PASS m1 (g_eid g)). set (m2' := reset_counts_total PASS m1' (g_eid g)).
  assert (A2 : alike m2 m2') by (apply reset_total_alike; auto).
  assert (F2 : fixed (g_eid g) m m2) by (eapply fixed_trans; [exact FT|apply fixed_ctx]).
  pose proof (inner_alike (queue m2) (queue m2') m2 m2' g 0 false A2 (steady_fixed _ _ _ _ F2 S) (blind_fixed _ _ _ _ _ F2 B) (alike_queue _ _ A2) (incl_refl _)) as IL.
  pose proof (fixed_inner (queue m2) m2 g 0 false) as FI.
  destruct (inner m2 g (queue m2) 0 false) as [m3 s i c|m3 c|m3 ex|m3]; destruct (inner m2' g (queue m2') 0 false) as [m3' s' i' c'|m3' c'|m3' ex'|m3'];
  simpl in IL, FI; try tauto; try (left; simpl; eexists; eauto; fail); try (right; left; simpl; eexists; eauto; fail).
  - destruct IL as (A3 & P & -> & ->). right; right. simpl. auto.
  - destruct IL as (A3 & ->). pose proof (tail_alike m3 m3' g c A3) as TL. pose proof (fixed_tail m3 g c) as FL.
    destruct (pass_tail m3 g c) as [m4|m4|m4 ex], (pass_tail m3' g c) as [m4'|m4'|m4' ex']; simpl in TL, FL; try tauto;
    try (left; simpl; eexists; eauto; fail); try (right; left; simpl; eexists; eauto; fail).
    + right; right. simpl. auto.
    + assert (F4 : fixed (g_eid g) m m4) by (eapply fixed_trans; [exact F2|]; eapply fixed_trans; eauto).
      apply IH; auto; [eapply steady_fixed; eauto|eapply blind_fixed; eauto].
  - right; right. simpl. auto.
Qed.

(** ** the start of a run *)
Lemma aget_perm : forall A (g g' : amap A) n, NoDup (akeys g) -> Permutation g g' -> aget n g' = aget n g.
Proof.
  intros A g g' n N P. assert (N' : NoDup (akeys g')) by (eapply Permutation_NoDup; [apply (Permutation_map fst P)|auto]).
  destruct (aget n g) as [v|] eqn:E.
  - apply aget_In_NoDup; auto. eapply Permutation_in; eauto. apply aget_In; auto.
  - apply aget_None. apply aget_None in E. intros I. apply E. eapply Permutation_in; [apply Permutation_sym, (Permutation_map fst P)|auto].
Qed.
Lemma default_alike : forall m m' b ow nx, alike m m' -> alike (set_basic m b ow nx) (set_basic m' b ow nx).
Proof. intros m m' b ow nx []. constructor; auto. Qed.
Lemma add_defaults_alike : forall ns m m', wf_graph (m_graph m) -> alike m m' ->
  match add_defaults ns m, add_defaults ns m' with Ok a, Ok b => alike a b | Err x, Err y => x = y | _, _ => False end.
Proof.
  induction ns as [|n r IH]; intros m m' W A; simpl; auto. rewrite (al_basic _ _ A).
  destruct (ahas n (m_basic m)); [apply IH; auto|]. rewrite (aget_perm _ _ _ n W (al_graph _ _ A)).
  destruct (aget n (m_graph m)) as [ds|]; auto. rewrite (al_next _ _ A), (al_owners _ _ A).
  destruct (default_cond (m_next m) ds) as [c nx]. apply IH; auto. apply default_alike; auto.
Qed.
Lemma monotone_owners : forall R e ow ow' c, (forall o, In o (oids c) -> ow o = ow' o) -> monotone R e ow c -> monotone R e ow' c.
Proof.
  intros R e ow ow' c E [M1 M2]. constructor.
  - intros v st. unfold state_after in *. rewrite <- (eval_owners v e c ow ow' st E). auto.
  - intros v v' st V. unfold is_satisfied in *. rewrite <- (eval_owners v e c ow ow' st E), <- (eval_owners v' e c ow ow' st E). apply M2; auto.
Qed.
Lemma blind_owners : forall R e ow ow' c, (forall o, In o (oids c) -> ow o = ow' o) -> blind R e ow c -> blind R e ow' c.
Proof. intros R e ow ow' c E B v v' st V. rewrite <- (eval_owners v e c ow ow' st E), <- (eval_owners v' e c ow ow' st E). auto. Qed.
Lemma default_lower : forall (R : node -> node -> Prop) k ds ow n, (forall o, k <= o < snd (default_cond k ds) -> ow o = Some n) -> (forall d, In d ds -> R d n) ->
  lower_bounds R ow (fst (default_cond k ds)).
Proof.
  intros R k ds ow n O H. destruct ds as [|d [|d2 r]].
  - simpl; auto.
  - simpl. rewrite O by (simpl; lia). apply H; left; auto.
  - set (l := d :: d2 :: r) in *. change (default_cond k l) with (All k (default_parts (S k) l), S k + length l) in *. cbn [fst snd] in *.
    assert (O' : forall o, S k <= o < S k + length l -> ow o = Some n) by (intros; apply O; lia).
    change (fold_right (fun c' P => lower_bounds R ow c' /\ P) True (default_parts (S k) l)). clearbody l. clear O. revert O' H. generalize (S k).
    induction l as [|z t IH]; intros j O H; simpl; auto. split.
    + rewrite O by (simpl; lia). apply H; left; auto.
    + apply IH; [intros o L; apply O; simpl; lia|intros; apply H; right; auto].
Qed.
Lemma steady_default_step : forall e m n ds c nx tc, steady e m -> blind_terms m e tc -> In n (m_nodes m) ->
  aget n (m_basic m) = None -> aget n (m_graph m) = Some ds -> default_cond (m_next m) ds = (c, nx) ->
  let m1 := set_basic m (aset n c (m_basic m)) (set_owner (Some n) c (m_owners m)) nx in steady e m1 /\ blind_terms m1 e tc.
Proof.
  intros e m n ds c nx tc S B I N G D m1. destruct (set_owner_default n ds (m_next m) (m_owners m) (sy_fresh _ _ S)) as (L & O1 & O2).
  pose proof (default_oids (m_next m) ds) as DO. rewrite D in L, O1, O2, DO. cbn [fst snd] in *.
  split.
  - constructor.
    + apply S.
    + intros o Lo. simpl in *. rewrite O2 by lia. apply (sy_fresh _ _ S). lia.
    + intros x cx Ex. simpl in Ex. rewrite aget_aset in Ex. change (queue m1) with (queue m). destruct (Nat.eqb_spec x n) as [->|Nx].
      * injection Ex as <-. split; [intros o Ho; apply DO in Ho; simpl; lia|]. apply lower_monotone. pose proof (default_lower (fun d w => w = n /\ apart (queue m) d n) (m_next m) ds (m_owners m1) n) as X.
        rewrite D in X. cbn [fst snd] in X. apply X; [simpl; auto|]. intros d Hd. split; auto. apply (sy_default _ _ S n d I N). exists ds; auto.
      * destruct (sy_cond _ _ S x cx Ex) as [E M]. split; [intros o Ho; apply E in Ho; simpl; lia|].
        eapply monotone_owners; [|exact M]. intros o Ho. simpl. symmetry. apply O2. left. apply E; auto.
    + intros x d Hx Nx Ed. change (queue m1) with (queue m). simpl in Hx, Nx, Ed. rewrite aget_aset in Nx. destruct (Nat.eqb_spec x n); [discriminate|]. eapply sy_default; eauto.
  - intros s cx Es. destruct (B s cx Es) as [E M]. split; [intros o Ho; apply E in Ho; simpl; lia|].
    change (queue m1) with (queue m). eapply blind_owners; [|exact M]. intros o Ho. simpl. symmetry. apply O2. left. apply E; auto.
Qed.
Lemma steady_defaults : forall ns e m m1 tc, incl ns (m_nodes m) -> steady e m -> blind_terms m e tc -> add_defaults ns m = Ok m1 ->
  steady e m1 /\ blind_terms m1 e tc.
Proof.
  induction ns as [|n r IH]; intros e m m1 tc I S B E; simpl in E; [inversion E; subst; auto|].
  assert (I' : incl r (m_nodes m)) by (intros x Hx; apply I; right; auto).
  unfold ahas in E. destruct (aget n (m_basic m)) eqn:N; simpl in E; [eapply IH; eauto|].
  destruct (aget n (m_graph m)) as [ds|] eqn:G; [|discriminate]. destruct (default_cond (m_next m) ds) as [c nx] eqn:D.
  destruct (steady_default_step e m n ds c nx tc S B (I n (or_introl eq_refl)) N G D) as [S1 B1]. eapply IH; [|exact S1|exact B1|exact E]. auto.
Qed.
Lemma copy_alike : forall A (R : A -> A -> Prop) a a' b b', both R a a' -> both R b b' ->
  match copy_entry a b, copy_entry a' b' with Ok x, Ok y => both R x y | Err x, Err y => x = y | _, _ => False end.
Proof. intros A R a a' b b' H H'. destruct a, a', b, b'; simpl in *; tauto. Qed.
Lemma init_counts_alike : forall m m' e b, alike m m' ->
  match init_counts_base m e b, init_counts_base m' e b with (Ok _, a), (Ok _, c) => alike a c | (Err x, _), (Err y, _) => x = y | _, _ => False end.
Proof.
  intros m m' e b A. pose proof (al_ctxs _ _ A e) as [T U Li S K]. pose proof (al_ctxs _ _ A b) as [T' U' Li' S' K']. unfold init_counts_base.
  pose proof (copy_alike _ _ _ _ _ _ T T') as CT. pose proof (copy_alike _ _ _ _ _ _ U U') as CU. pose proof (copy_alike _ _ _ _ _ _ Li Li') as CL.
  rewrite K, K', S. clear T U Li T' U' Li'.
  destruct (copy_entry (x_total (m_ctxs m e)) _), (copy_entry (x_total (m_ctxs m' e)) _); try tauto.
  destruct (copy_entry (x_use (m_ctxs m e)) _), (copy_entry (x_use (m_ctxs m' e)) _); try tauto.
  destruct (copy_entry (x_list (m_ctxs m e)) _), (copy_entry (x_list (m_ctxs m' e)) _); try tauto.
  destruct (copy_entry (x_clock (m_ctxs m e)) _); auto. apply alike_set_ctx; auto. constructor; auto.
Qed.
Lemma setup_alike : forall m m' e tc, alike m m' ->
  match setup_absolute m e tc, setup_absolute m' e tc with Ok a, Ok b => alike a b | Err x, Err y => x = y | _, _ => False end.
Proof.
  intros m m' e tc A. pose proof (al_ctxs _ _ A e) as X. unfold setup_absolute, absolute_conditions, unit_of, absolute_conditions.
  rewrite (al_basic _ _ A), (al_exact _ _ A), (al_unit _ _ A), (alike_length _ _ (alike_queue _ _ A)). unfold set_clock, the_clock. rewrite (ac_clock _ _ _ X).
  assert (Y : forall k, alike_ctx (apart (queue m)) (mkCtx (x_total (m_ctxs m e)) (x_use (m_ctxs m e)) (x_list (m_ctxs m e)) (x_stamps (m_ctxs m e)) k)
                                   (mkCtx (x_total (m_ctxs m' e)) (x_use (m_ctxs m' e)) (x_list (m_ctxs m' e)) (x_stamps (m_ctxs m' e)) k)).
  { intros k. destruct X. constructor; auto. }
  destruct (filter is_absolute _); [apply alike_set_ctx; auto|]. destruct (absolute_unit _ _ _ _); auto. apply alike_set_ctx; auto.
Qed.
Lemma start_rest_alike : forall m m' g, alike m m' ->
  match start_rest m g, start_rest m' g with (Ok g1, a), (Ok g2, b) => g2 = g1 /\ alike a b | (Err x, _), (Err y, _) => x = y | _, _ => False end.
Proof.
  intros m m' g A. unfold start_rest; cbv zeta. rewrite (al_tconds _ _ A).
  set (tc := match g_tcarg g with None => m_tconds m | Some a => combine_tconds (m_tconds m) a end).
  assert (A2 : alike (set_clock m (g_eid g) (the_clock (m_ctxs m (g_eid g)))) (set_clock m' (g_eid g) (the_clock (m_ctxs m' (g_eid g))))).
  { pose proof (al_ctxs _ _ A (g_eid g)) as X. unfold set_clock, the_clock. rewrite (ac_clock _ _ _ X). apply alike_set_ctx; auto. destruct X. constructor; auto. }
  assert (E : absolute_conditions (set_clock m' (g_eid g) (the_clock (m_ctxs m' (g_eid g)))) tc = absolute_conditions (set_clock m (g_eid g) (the_clock (m_ctxs m (g_eid g)))) tc).
  { unfold absolute_conditions. rewrite (al_basic _ _ A2). auto. }
  rewrite E. pose proof (setup_alike _ _ (g_eid g) tc A2) as SA.
  destruct (setup_absolute (set_clock m _ _) _ _) as [m3|], (setup_absolute (set_clock m' _ _) _ _) as [m3'|]; try tauto.
  pose proof (init_counts_alike m3 m3' (g_eid g) (g_base g) SA) as IA.
  destruct (init_counts_base m3 _ _) as [[|] m4], (init_counts_base m3' _ _) as [[|] m4']; try tauto. split; auto.
  apply reset_total_alike. pose proof (al_ctxs _ _ IA (g_eid g)) as X. unfold reset_counts_useable. apply alike_set_ctx; auto. destruct X. constructor; simpl; auto.
Qed.
Lemma start_rest_gen : forall m g g1 m1, start_rest m g = (Ok g1, m1) ->
  g_eid g1 = g_eid g /\ g_tc g1 = match g_tcarg g with None => m_tconds m | Some a => combine_tconds (m_tconds m) a end.
Proof.
  intros m g g1 m1 E. unfold start_rest in E; cbv zeta in E. destruct (setup_absolute _ _ _) as [m3|]; [|discriminate].
  destruct (init_counts_base _ _ _) as [[|] m4]; [|discriminate]. injection E as <- _. auto.
Qed.
Lemma start_alike : forall m m' g, alike m m' -> steady (g_eid g) m -> g_pc g = PStart -> blind_terms m (g_eid g) (terms_of m g) ->
  match start m g, start m' g with
  | (Ok g1, a), (Ok g2, b) => g2 = g1 /\ g_eid g1 = g_eid g /\ alike a b /\ steady (g_eid g) a /\ blind_terms a (g_eid g) (g_tc g1)
  | (Err _, _), _ | _, (Err _, _) => True
  end.
Proof.
  intros m m' g A S P B. rewrite !start_eq, (al_nodes _ _ A).
  destruct (toposort (m_graph m)); [|destruct (toposort (m_graph m')); auto; destruct (add_defaults _ _); auto; destruct (start_rest _ _) as [[|] ?]; auto..].
  pose proof (add_defaults_alike (m_nodes m) m m' (sy_graph _ _ S) A) as DA.
  destruct (add_defaults (m_nodes m) m) as [m1|] eqn:E; [|destruct (toposort (m_graph m')); auto; destruct (add_defaults _ m'); auto; destruct (start_rest _ _) as [[|] ?]; auto].
  destruct (start_rest m1 g) as [[g1|] m2] eqn:E2; auto.
  destruct (toposort (m_graph m')); auto. destruct (add_defaults (m_nodes m) m') as [m1'|]; auto.
  pose proof (start_rest_alike m1 m1' g DA) as SR. rewrite E2 in SR. destruct (start_rest m1' g) as [[g1'|] m2'] eqn:E3; auto.
  destruct SR as [-> A2]. pose proof (start_rest_gen _ _ _ _ E2) as [G1 G2].
  destruct (steady_defaults _ _ _ _ _ (incl_refl _) S B E) as [S1 B1].
  pose proof (start_rest_frame m1 g) as [F _]. rewrite E2 in F. simpl in F.
  splits; auto; [eapply steady_fixed; eauto|]. eapply blind_fixed; eauto. rewrite G2.
  destruct (add_defaults_rest _ _ _ E) as (_ & _ & T & _). rewrite T. unfold terms_of in B1. rewrite P in B1. auto.
Qed.

(** ** resuming a run *)
Lemma yield_fixed : forall f m g m1 g1 s, outer f m g = (m1, g1, OYield s) ->
  fixed (g_eid g) m m1 /\ exists p, p <> PStart /\ g1 = at_pc g p.
Proof.
  intros f m g m1 g1 s E. split; [pose proof (fixed_outer f m g) as F; rewrite E in F; auto|].
  revert m E. induction f as [|f IH]; intros m E; cbn [outer] in E; [discriminate|].
  destruct (terminated m (g_eid g) (g_tc g)) as [[[|]|] m2]; [|  |discriminate].
  - unfold finish in E. destruct (if g_skip g then _ else _); [|discriminate]. destruct (check_tc _ _ _ _) as [[|] ?]; [|discriminate].
    destruct (x_list _); discriminate.
  - destruct (inner _ _ _ _ _) as [m3 s' i c|m3 c|m3 ex|m3]; try discriminate.
    + injection E as _ <- _. eexists. split; [|reflexivity]. discriminate.
    + destruct (pass_tail m3 g c); try discriminate; [|eapply IH; eauto]. injection E as _ <- _. eexists. split; [|reflexivity]. discriminate.
Qed.
Lemma prepared_at : forall m m1 g p, steady (g_eid g) m -> blind_terms m (g_eid g) (g_tc g) -> fixed (g_eid g) m m1 -> p <> PStart -> prepared m1 (at_pc g p).
Proof.
  intros m m1 g p S B F N. split; [eapply steady_fixed; eauto|]. unfold terms_of. cbn [at_pc g_pc g_tcarg g_tc g_eid].
  destruct p; [congruence|..]; eapply blind_fixed; eauto.
Qed.
Definition stepped (r r' : core * gen * outcome) : Prop :=
  raises (snd r) \/ raises (snd r') \/
  (alike (fst (fst r)) (fst (fst r')) /\ snd (fst r') = snd (fst r) /\ alike_outcome (snd r) (snd r') /\
   forall s, snd r = OYield s -> prepared (fst (fst r)) (snd (fst r))).
Lemma outer_stepped : forall f m m' g, alike m m' -> steady (g_eid g) m -> blind_terms m (g_eid g) (g_tc g) -> stepped (outer f m g) (outer f m' g).
Proof.
  intros f m m' g A S B. destruct (outer_alike f m m' g A S B) as [R|[R|(X & Y & Z)]]; [left; auto|right; left; auto|]. right; right. splits; auto.
  intros s E. destruct (outer f m g) as [[m1 g1] o] eqn:O. simpl in *. subst o.
  apply yield_fixed in O. destruct O as [F (p & N & ->)]. eapply prepared_at; eauto.
Qed.
Lemma skipn_alike : forall k q q', alike_sets q q' -> alike_sets (skipn k q) (skipn k q').
Proof. induction k; intros q q' F; simpl; auto. destruct F; [constructor|]. apply IHk; auto. Qed.
Theorem resume_alike : forall f m m' g, alike m m' -> prepared m g -> stepped (resume f m g) (resume f m' g).
Proof.
  intros f m m' g A [S B]. unfold resume; cbv zeta. unfold terms_of in B. destruct (g_pc g) as [|i ch| |] eqn:P.
  - pose proof (start_alike m m' g A S P) as SA. unfold terms_of in SA. rewrite P in SA. specialize (SA B).
    destruct (start m g) as [[g1|] m1]; [|left; simpl; eexists; eauto].
    destruct (start m' g) as [[g2|] m1']; [|right; left; simpl; eexists; eauto].
    destruct SA as (-> & E & A1 & S1 & B1). apply outer_stepped; auto; rewrite E; auto.
  - pose proof (incr_alike CSE m m' (g_eid g) A) as IA. pose proof (fixed_incr CSE m (g_eid g)) as FI.
    destruct (incr_clock CSE m (g_eid g)) as [m1|], (incr_clock CSE m' (g_eid g)) as [m1'|]; try tauto; [|left; simpl; eexists; eauto].
    specialize (FI _ eq_refl). pose proof (steady_fixed _ _ _ _ FI S) as S1. pose proof (blind_fixed _ _ _ _ _ FI B) as B1.
    pose proof (alike_queue _ _ IA) as Q.
    pose proof (inner_alike _ _ m1 m1' g (Datatypes.S i) ch IA S1 B1 (skipn_alike (Datatypes.S i) _ _ Q)) as IL.
    assert (I : incl (skipn (Datatypes.S i) (queue m1)) (queue m1)).
    { intros x Hx. rewrite <- (firstn_skipn (Datatypes.S i)). apply in_or_app. right; auto. }
    specialize (IL I). pose proof (fixed_inner (skipn (Datatypes.S i) (queue m1)) m1 g (Datatypes.S i) ch) as F2.
    destruct (inner m1 g _ _ _) as [m3 s i' c|m3 c|m3 ex|m3]; destruct (inner m1' g _ _ _) as [m3' s' i'' c'|m3' c'|m3' ex'|m3'];
    simpl in IL, F2; try tauto; try (left; simpl; eexists; eauto; fail); try (right; left; simpl; eexists; eauto; fail).
    + destruct IL as (A3 & PS & -> & ->). right; right. simpl. splits; auto. intros _ _. eapply prepared_at; eauto. discriminate.
    + destruct IL as (A3 & ->). pose proof (tail_alike m3 m3' g c A3) as TL. pose proof (fixed_tail m3 g c) as FL.
      destruct (pass_tail m3 g c) as [m4|m4|m4 ex], (pass_tail m3' g c) as [m4'|m4'|m4' ex']; simpl in TL, FL; try tauto;
      try (left; simpl; eexists; eauto; fail); try (right; left; simpl; eexists; eauto; fail).
      * right; right. simpl. splits; auto. intros _ _. eapply prepared_at; [exact S1|exact B1|eapply fixed_trans; eauto|discriminate].
      * apply outer_stepped; auto; [eapply steady_fixed; [eapply fixed_trans; [exact F2|exact FL]|auto]|eapply blind_fixed; [eapply fixed_trans; [exact F2|exact FL]|auto]].
    + right; right. simpl. splits; auto. discriminate.
  - pose proof (incr_alike CSE m m' (g_eid g) A) as IA. pose proof (fixed_incr CSE m (g_eid g)) as FI.
    destruct (incr_clock CSE m (g_eid g)) as [m1|], (incr_clock CSE m' (g_eid g)) as [m1'|]; try tauto; [|left; simpl; eexists; eauto].
    specialize (FI _ eq_refl). pose proof (incr_alike PASS m1 m1' (g_eid g) IA) as IA2. pose proof (fixed_incr PASS m1 (g_eid g)) as FI2.
    destruct (incr_clock PASS m1 (g_eid g)) as [m2|], (incr_clock PASS m1' (g_eid g)) as [m2'|]; try tauto; [|left; simpl; eexists; eauto].
    specialize (FI2 _ eq_refl). pose proof (fixed_trans _ _ _ _ FI FI2) as F. apply outer_stepped; auto; [eapply steady_fixed; eauto|eapply blind_fixed; eauto].
  - right; right. simpl. splits; auto. discriminate.
Qed.
Theorem drive_alike : forall n f m m' g acc acc', alike m m' -> prepared m g -> alike_sets acc acc' ->
  let '(m1, g1, l, o) := drive n f m g acc in let '(m1', g1', l', o') := drive n f m' g acc' in
  raises o \/ raises o' \/ (alike m1 m1' /\ g1' = g1 /\ alike_sets l l' /\ alike_outcome o o').
Proof.
  induction n as [|n IH]; intros f m m' g acc acc' A P L; cbn [drive]; [right; right; simpl; auto|].
  pose proof (resume_alike f m m' g A P) as R. destruct (resume f m g) as [[m1 g1] o], (resume f m' g) as [[m1' g1'] o']. simpl in R.
  destruct R as [(ex & R)|[(ex & R)|(A1 & G & O & Y)]].
  - simpl in R. subst o. destruct o'; [|left; eexists; eauto..]. destruct (drive _ _ _ _ _) as [[[? ?] ?] ?]. left; eexists; eauto.
  - simpl in R. subst o'. destruct o; [|right; left; eexists; eauto..]. destruct (drive _ _ _ _ _) as [[[? ?] ?] ?]. right; left; eexists; eauto.
  - simpl in *. subst g1'. destruct o as [s|l|ex| |], o' as [s'|l'|ex'| |]; simpl in O; try tauto; try (right; right; splits; simpl; auto; fail).
    apply IH; auto. { apply (Y s); auto. } apply Forall2_app; auto.
Qed.

(** ** the statements of the property file *)
Lemma close_refl : forall R e m, close R e m m.
Proof.
  intros R e m. assert (A : forall q, alike_sets q q) by (induction q; constructor; auto).
  constructor; auto. constructor; auto; try (destruct (x_total _); simpl; auto; fail); try (destruct (x_use _); simpl; auto; fail).
  destruct (x_list _); simpl; auto.
Qed.
Theorem one_level : forall m e l l' f f' s s' m1 m1',
  (forall n c, aget n (m_basic m) = Some c -> monotone (fun d w => w = n) e (m_owners m) c) -> Permutation l l' ->
  do_level f m e l [] = Some (Ok s, m1) -> do_level f' m e l' [] = Some (Ok s', m1') -> Permutation s s'.
Proof.
  intros m e l l' f f' s s' m1 m1' M P D D'.
  apply (level_alike (fun _ _ => True) m m e l l' s s' f f' m1 m1' (close_refl _ _ _)); auto.
  intros n c E. destruct (M n c E) as [M1 M2]. constructor; auto. intros v v' st V. apply M2. destruct V. constructor; auto.
  destruct (v_use v), (v_use v'); simpl in *; auto.
Qed.
Theorem one_resume : forall f m m' g, alike m m' -> prepared m g ->
  let '(m1, g1, o) := resume f m g in let '(m1', g1', o') := resume f m' g in
  raises o \/ raises o' \/
  (alike m1 m1' /\ g1' = g1 /\ alike_outcome o o' /\ forall s, o = OYield s -> prepared m1 g1).
Proof.
  intros f m m' g A P. pose proof (resume_alike f m m' g A P) as X.
  destruct (resume f m g) as [[m1 g1] o], (resume f m' g) as [[m1' g1'] o']. exact X.
Qed.
Theorem one_run : forall n f m m' g, alike m m' -> prepared m g ->
  let '(m1, g1, l, o) := drive n f m g [] in let '(m1', g1', l', o') := drive n f m' g [] in
  raises o \/ raises o' \/ (alike m1 m1' /\ g1' = g1 /\ alike_sets l l' /\ alike_outcome o o').
Proof. intros n f m m' g A P. apply drive_alike; auto. constructor. Qed.
