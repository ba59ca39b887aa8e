(** A part of a scheduler runs as its conditions tell, whatever the rest does (C79). *)
From Verif Require Export SpecPart PassFacts.
From Verif Require DefaultFacts ResumeFrame SessionFacts.

Lemma part_sets_app : forall p a b, part_sets p (a ++ b) = part_sets p a ++ part_sets p b.
Proof. intros. unfold part_sets. rewrite map_app, filter_app. reflexivity. Qed.
Lemma coarse_app : forall a b, coarse (a ++ b) = coarse a ++ coarse b.
Proof. intros. apply filter_app. Qed.
Lemma mem_filter : forall p n l, p n = true -> mem n (filter p l) = mem n l.
Proof.
  intros p n l H. destruct (mem n l) eqn:M.
  - apply mem_In. apply filter_In. split; [apply mem_In; auto|auto].
  - destruct (mem n (filter p l)) eqn:M'; auto. apply mem_In in M'. apply filter_In in M'. destruct M' as [M' _]. apply mem_In in M'. congruence.
Qed.

Section Part.
Variables (p : node -> bool) (F : node -> ruling).
Hypothesis Ab : forall n, p n = true -> about p (F n).

(** ** what the part does, by itself *)
Record ast := mkA { a_t : timescale -> node -> nat; a_u : node -> node -> nat; a_h : list timescale }.
Definition a_sat (n : node) (x : ast) : bool := F n (a_t x) (a_u x) (a_h x).
Definition a_accept (n : node) (x : ast) : ast := mkA (bump_total n (a_t x)) (spend_use n (a_u x)) (a_h x).
Definition a_reset (x : ast) : ast := mkA (reset_total PASS (a_t x)) (a_u x) (a_h x).
Definition a_tick (x : ast) : ast := mkA (a_t x) (a_u x) (a_h x ++ [PASS]).
Fixpoint a_round (x : ast) (lv ex : list node) (ch : bool) : ast * list node * bool :=
  match lv with
  | [] => (x, ex, ch)
  | n :: r => if mem n ex then a_round x r ex ch
              else if a_sat n x then a_round (a_accept n x) r (ex ++ [n]) true
              else a_round x r ex ch
  end.
Inductive a_level (lv : list node) : ast -> list node -> ast -> list node -> Prop :=
| al_end : forall x ex x' ex', a_round x lv ex false = (x', ex', false) -> a_level lv x ex x' ex'
| al_step : forall x ex x1 ex1 x' ex', a_round x lv ex false = (x1, ex1, true) -> a_level lv x1 ex1 x' ex' -> a_level lv x ex x' ex'.
Definition some_set (ex : list node) : list (list node) := if nonempty ex then [ex] else [].
Inductive a_pass : ast -> list (list node) -> ast -> list (list node) -> Prop :=
| ap_nil : forall x, a_pass x [] x []
| ap_cons : forall x lv rest x1 ex x2 S, a_level lv x [] x1 ex -> a_pass x1 rest x2 S -> a_pass x (lv :: rest) x2 (some_set ex ++ S).
Inductive a_passes (Q : list (list node)) (x : ast) : list (list (list node)) -> ast -> Prop :=
| as_nil : a_passes Q x [] x
| as_next : forall l x1 x2 S, a_passes Q x l x1 -> a_pass (a_reset x1) Q x2 S -> a_passes Q x (l ++ [S]) (a_tick x2).

Lemma a_pass_app : forall x l1 x1 S1, a_pass x l1 x1 S1 -> forall l2 x2 S2, a_pass x1 l2 x2 S2 -> a_pass x (l1 ++ l2) x2 (S1 ++ S2).
Proof. intros x l1 x1 S1 H. induction H; intros l2 y2 S2 H2; simpl; auto. rewrite <- app_assoc. econstructor; eauto. Qed.
Lemma a_level_det : forall lv x ex x1 ex1, a_level lv x ex x1 ex1 -> forall x2 ex2, a_level lv x ex x2 ex2 -> x2 = x1 /\ ex2 = ex1.
Proof.
  intros lv x ex x1 ex1 H. induction H as [x ex x1 ex1 R|x ex xa exa x1 ex1 R L IH]; intros x2 ex2 H2; inversion H2 as [? ? ? ? R2|? ? ? ? ? ? R2 L2]; subst;
    rewrite R in R2; inversion R2; subst; auto.
Qed.
Lemma a_pass_det : forall x l x1 S1, a_pass x l x1 S1 -> forall x2 S2, a_pass x l x2 S2 -> x2 = x1 /\ S2 = S1.
Proof.
  intros x l x1 S1 H. induction H as [x|x lv rest xa ex x1 S1 L P IH]; intros x2 S2 H2; inversion H2 as [|? ? ? ? ? ? ? L2 P2]; subst; auto.
  destruct (a_level_det _ _ _ _ _ L _ _ L2) as [-> ->]. destruct (IH _ _ P2) as [-> ->]. auto.
Qed.
Lemma a_pass_nonempty : forall x l x1 S, a_pass x l x1 S -> a_pass x (filter nonempty l) x1 S.
Proof.
  intros x l x1 S H. induction H as [|x lv rest xa ex x1 S L P IH]; [constructor|]. simpl. destruct lv as [|n lv].
  - simpl. inversion L as [? ? ? ? R|? ? ? ? ? ? R]; subst; simpl in R; inversion R; subst. exact IH.
  - simpl. econstructor; eauto.
Qed.
Lemma a_passes_nonempty : forall Q x l x1, a_passes Q x l x1 -> a_passes (filter nonempty Q) x l x1.
Proof. intros Q x l x1 H. induction H; econstructor; eauto. apply a_pass_nonempty; auto. Qed.
Lemma a_passes_det : forall Q x l1 x1, a_passes Q x l1 x1 -> forall l2 x2, a_passes Q x l2 x2 -> length l1 = length l2 -> l2 = l1 /\ x2 = x1.
Proof.
  intros Q x l1 x1 H. induction H as [|l1 x1 xa S1 H IH P]; intros l2 x2 H2 L; inversion H2 as [|l3 x3 xb S3 H3 P3]; subst; auto.
  - rewrite app_length in L; simpl in L; lia.
  - rewrite app_length in L; simpl in L; lia.
  - rewrite !app_length in L; simpl in L. destruct (IH _ _ H3 ltac:(lia)) as [-> ->].
    destruct (a_pass_det _ _ _ _ P _ _ P3) as [-> ->]. auto.
Qed.
Lemma a_passes_firstn : forall Q x l x1, a_passes Q x l x1 -> forall k, exists y, a_passes Q x (firstn k l) y.
Proof.
  intros Q x l x1 H. induction H as [|l x1 x2 S H IH P]; intros k; [rewrite firstn_nil; eexists; constructor|].
  rewrite firstn_app. destruct (Nat.le_gt_cases k (length l)) as [L|L].
  - replace (k - length l) with 0 by lia. simpl. rewrite app_nil_r. apply IH.
  - rewrite firstn_all2 by lia. destruct (k - length l) as [|j] eqn:E; [lia|]. simpl. rewrite firstn_nil. eexists. econstructor; eauto.
Qed.
Lemma a_passes_same : forall Q x l1 x1 l2 x2, a_passes Q x l1 x1 -> a_passes Q x l2 x2 -> forall j A B, nth_error l1 j = Some A -> nth_error l2 j = Some B -> A = B.
Proof.
  intros Q x l1 x1 l2 x2 H1 H2 j A B E1 E2.
  destruct (a_passes_firstn _ _ _ _ H1 (S j)) as (y1 & K1). destruct (a_passes_firstn _ _ _ _ H2 (S j)) as (y2 & K2).
  assert (L1 : j < length l1) by (apply nth_error_Some; congruence). assert (L2 : j < length l2) by (apply nth_error_Some; congruence).
  destruct (a_passes_det _ _ _ _ K1 _ _ K2) as [E _]; [rewrite !firstn_length; lia|].
  assert (X : forall l : list (list (list node)), nth_error (firstn (S j) l) j = nth_error l j).
  { clear. intros l. revert l. induction j as [|j IH]; intros [|a l]; simpl; auto. apply (IH l). }
  rewrite <- (X l1) in E1. rewrite <- (X l2) in E2. congruence.
Qed.

(** ** the part in a scheduler *)
Variable e : eid.
Definition alike (t : timescale -> node -> nat) (u : node -> node -> nat) (x : ast) : Prop :=
  (forall s n, p n = true -> t s n = a_t x s n) /\ (forall a b, p a = true -> p b = true -> u a b = a_u x a b).
Definition sim (c : ctx) (x : ast) : Prop := exists t u h, x_total c = Some t /\ x_use c = Some u /\ clock_after ESU h (the_clock c) /\ coarse h = a_h x /\ alike t u x.
Definition ptold (m : core) : Prop := forall n c, p n = true -> aget n (m_basic m) = Some c -> told_by (m_owners m) (F n) c.
Lemma ptold_frame : forall tc m m', frame (tc := tc) e m m' -> ptold m -> ptold m'.
Proof. intros tc m m' Fr T n c Hn E. rewrite (fr_owners _ _ _ Fr). rewrite (fr_basic _ _ _ Fr) in E. auto. Qed.
Lemma sim_same : forall c c' x, x_total c' = x_total c -> x_use c' = x_use c -> x_clock c' = x_clock c -> sim c x -> sim c' x.
Proof. intros c c' x A B C (t & u & h & H). exists t, u, h. unfold the_clock in *. rewrite A, B, C. exact H. Qed.
Lemma sim_accept_in : forall m n x, p n = true -> sim (m_ctxs m e) x -> sim (m_ctxs (accept m e n) e) (a_accept n x).
Proof.
  intros m n x Hn (t & u & h & A & B & C & D & E1 & E2). unfold accept. rewrite set_ctx_at. exists (bump_total n t), (spend_use n u), h. simpl. rewrite A, B.
  splits. split; simpl.
  - intros s k Hk. unfold bump_total. rewrite E1; auto.
  - intros a b Ha Hb. unfold spend_use. rewrite E2; auto.
Qed.
Lemma sim_accept_out : forall m n x, p n = false -> sim (m_ctxs m e) x -> sim (m_ctxs (accept m e n) e) x.
Proof.
  intros m n x Hn (t & u & h & A & B & C & D & E1 & E2). unfold accept. rewrite set_ctx_at. exists (bump_total n t), (spend_use n u), h. simpl. rewrite A, B.
  splits. split; simpl.
  - intros s k Hk. unfold bump_total. destruct (Nat.eqb_spec k n) as [->|]; [congruence|auto].
  - intros a b Ha Hb. unfold spend_use. destruct (Nat.eqb_spec b n) as [->|]; [congruence|]. destruct (Nat.eqb_spec a n) as [->|]; [congruence|auto].
Qed.
Lemma ptold_accept : forall m n, ptold m -> ptold (accept m e n).
Proof. intros m n T. exact T. Qed.
Lemma sat_part : forall m n c r m' x, ptold m -> sim (m_ctxs m e) x -> p n = true -> aget n (m_basic m) = Some c -> satisfied m e c = (Ok r, m') -> r = a_sat n x.
Proof.
  intros m n c r m' x T (t & u & h & A & B & C & D & E1 & E2) Hn Ec S. unfold satisfied in S.
  destruct (eval (view_of m e) e (m_owners m) c (m_cst m)) as [r1 st] eqn:Ev. injection S as -> _.
  rewrite (T n c Hn Ec (view_of m e) e (m_cst m) st r h t u); auto. unfold a_sat. rewrite D. apply Ab; auto.
Qed.
Lemma round_part : forall level m exec ch exec' ch' m' x cha, ptold m -> sim (m_ctxs m e) x ->
  round m e level exec ch = (Ok (exec', ch'), m') -> (cha = true -> ch = true) ->
  exists x' cha', a_round x (filter p level) (filter p exec) cha = (x', filter p exec', cha') /\ sim (m_ctxs m' e) x' /\ ptold m' /\ (cha' = true -> ch' = true) /\
    (cha' = false -> x' = x /\ filter p exec' = filter p exec).
Proof.
  induction level as [|n r IH]; intros m exec ch exec' ch' m' x cha T Sm H Hc; simpl in H.
  - injection H as <- <- <-. simpl. exists x, cha. auto 6.
  - cbn [filter]. destruct (mem n exec) eqn:M.
    + destruct (p n) eqn:Pn; [|eauto]. cbn [a_round]. rewrite mem_filter, M by auto. eauto.
    + destruct (aget n (m_basic m)) as [c|] eqn:Ec; [|discriminate].
      destruct (satisfied m e c) as [[b|] m1] eqn:S; [|discriminate].
      pose proof (satisfied_cst _ _ _ _ _ S) as K.
      assert (T1 : ptold m1) by (intros k ck; rewrite (cst_only_basic _ _ K), (cst_only_owners _ _ K); apply T).
      assert (S1 : sim (m_ctxs m1 e) x) by (rewrite (cst_only_ctxs _ _ K); auto).
      destruct (p n) eqn:Pn.
      * cbn [a_round]. rewrite mem_filter, M by auto. rewrite <- (sat_part m n c b m1 x) by auto. destruct b.
        -- destruct (mem n (m_nodes m1)); [|discriminate].
           destruct (IH _ _ _ _ _ _ (a_accept n x) true (ptold_accept _ n T1) (sim_accept_in _ _ _ Pn S1) H (fun _ => eq_refl)) as (x' & ca & R & A & B & C & D).
           rewrite filter_app in R. cbn [filter] in R. rewrite Pn in R. exists x', ca. splits. intros ->.
           assert (X : forall lv y ex, snd (a_round y lv ex true) = true).
           { clear. induction lv as [|k lv IH]; intros y ex; simpl; auto. destruct (mem k ex); auto. destruct (a_sat k y); auto. }
           specialize (X (filter p r) (a_accept n x) (filter p exec ++ [n])). rewrite R in X. discriminate.
        -- eauto.
      * destruct b; [|eauto]. destruct (mem n (m_nodes m1)); [|discriminate].
        destruct (IH _ _ _ _ _ _ x cha (ptold_accept _ n T1) (sim_accept_out _ _ _ Pn S1) H (fun _ => eq_refl)) as (x' & ca & R & A & B & C & D).
        rewrite filter_app in R. cbn [filter] in R. rewrite Pn, app_nil_r in R. rewrite filter_app in D. cbn [filter] in D. rewrite Pn, app_nil_r in D. exists x', ca. splits.
Qed.
Lemma do_level_part : forall fuel level m exec s m' x, ptold m -> sim (m_ctxs m e) x -> do_level fuel m e level exec = Some (Ok s, m') ->
  exists x', a_level (filter p level) x (filter p exec) x' (filter p s) /\ sim (m_ctxs m' e) x' /\ ptold m'.
Proof.
  induction fuel as [|f IH]; intros level m exec s m' x T Sm H; simpl in H; [discriminate|].
  destruct (round m e level exec false) as [[[exec' [|]]|ex] m1] eqn:R; [| |discriminate].
  - destruct (round_part _ _ _ _ _ _ _ x false T Sm R) as (x1 & ca & Ra & S1 & T1 & _ & D); [discriminate|].
    destruct (IH _ _ _ _ _ x1 T1 S1 H) as (x' & L & S2 & T2). exists x'. splits. destruct ca.
    + eapply al_step; eauto.
    + destruct (D eq_refl) as [-> E]. rewrite E in L. exact L.
  - injection H as <- <-. destruct (round_part _ _ _ _ _ _ _ x false T Sm R) as (x1 & ca & Ra & S1 & T1 & C & D); [discriminate|].
    exists x1. splits. apply al_end. destruct ca; [specialize (C eq_refl); discriminate|auto].
Qed.

Variable q : list (list node).
Let Q := map (filter p) q.
Lemma sim_tick_cse : forall x x' a, tick CSE x x' -> sim x a -> sim x' a.
Proof.
  intros x x' a T (t & u & h & A & B & C & D & E). exists t, u, (h ++ [CSE]). rewrite (tick_total _ _ _ T), (tick_use _ _ _ T), coarse_app. simpl. rewrite app_nil_r.
  splits. eapply RunFacts.tick_clock; eauto.
Qed.
Lemma sim_tick_pass : forall x x' a, tick PASS x x' -> sim x a -> sim x' (a_tick a).
Proof.
  intros x x' a T (t & u & h & A & B & C & D & E). exists t, u, (h ++ [PASS]). rewrite (tick_total _ _ _ T), (tick_use _ _ _ T), coarse_app. simpl. rewrite D.
  splits. eapply RunFacts.tick_clock; eauto.
Qed.
Lemma sim_clocked : forall x a, sim x a -> exists h0, clocked h0 x.
Proof. intros x a (t & u & h & _ & _ & C & _). exists h. exists h. split; [apply during_self|auto]. Qed.
Lemma sim_appended : forall abs s x x' a, appended abs s x x' -> sim x a -> sim x' a.
Proof. intros abs s x x' a Ap S. destruct (appended_same _ _ _ _ Ap) as (A & B & C). eapply sim_same; eauto. Qed.
Lemma sim_reset : forall x a, sim x a -> sim (ctx_reset x) (a_reset a).
Proof.
  intros x a (t & u & h & A & B & C & D & E1 & E2). exists (reset_total PASS t), u, h. unfold ctx_reset; simpl. rewrite A. splits. split; simpl; auto.
  intros s n Hn. unfold reset_total. rewrite E1; auto.
Qed.
Lemma some_set_part : forall s, some_set (filter p s) = part_sets p [s].
Proof. intros s. unfold some_set, part_sets. simpl. destruct (nonempty (filter p s)); reflexivity. Qed.
Lemma inner_part : forall rest m g i ch x, g_eid g = e -> ptold m -> sim (m_ctxs m e) x ->
  match inner m g rest i ch with
  | IYield m3 s j ch' => exists x', i <= j /\ j - i < length rest /\ a_pass x (map (filter p) (firstn (S (j - i)) rest)) x' (part_sets p [s]) /\ sim (m_ctxs m3 e) x' /\ ptold m3 /\
      (g_abs g = false -> ch' = true) /\ frame (tc := g_tc g) e m m3 /\ pass_of (m_ctxs m3 e) = pass_of (m_ctxs m e)
  | IEnd m3 ch' => quiet (tc := g_tc g) e m m3 /\ ch' = ch /\ ((exists x', a_pass x (map (filter p) rest) x' [] /\ sim (m_ctxs m3 e) x' /\ ptold m3) \/
      exists m0, quiet (tc := g_tc g) e m m0 /\ terminated m0 e (g_tc g) = (Ok true, m3))
  | _ => True
  end.
Proof.
  induction rest as [|lv rest IH]; intros m g i ch x Ge T Sm; cbn [inner].
  - split; [apply quiet_refl|]. split; auto. left. exists x. splits. constructor.
  - rewrite Ge. destruct (terminated m e (g_tc g)) as [[[|]|ex] m1] eqn:Tm; auto.
    + assert (Q1 := terminated_quiet (tc := g_tc g) _ _ _ _ Tm). splits. right. exists m. split; auto. apply quiet_refl.
    + assert (Q1 := terminated_quiet (tc := g_tc g) _ _ _ _ Tm).
      assert (T1 : ptold m1) by (eapply ptold_frame; [apply Q1|auto]).
      assert (S1 : sim (m_ctxs m1 e) x) by (rewrite (proj2 Q1); auto).
      destruct (do_level (S (length lv)) m1 e lv []) as [[[s|ex] m2]|] eqn:D; auto.
      destruct (do_level_part _ _ _ _ _ _ _ T1 S1 D) as (x2 & L2 & S2 & T2). cbn [filter] in L2.
      apply (do_level_ok (tc := g_tc g)) in D.
      assert (F2 : frame (tc := g_tc g) e m1 m2) by apply (lv_added _ _ _ _ _ D).
      assert (X2 : m_ctxs m2 e = ctx_accepts s (m_ctxs m e)) by (rewrite (ad_ctx _ _ _ _ _ _ (lv_added _ _ _ _ _ D)), (proj2 Q1); auto).
      destruct (nonempty s || g_abs g) eqn:C.
      * destruct (append_exec m2 e (g_abs g) s) as [[r|ex] m3] eqn:Ap; auto.
        apply (append_exec_spec (tc := g_tc g)) in Ap. destruct Ap as [F3 A3]. exists x2. rewrite Nat.sub_diag. cbn [firstn map length].
        split; [lia|]. split; [lia|]. split; [rewrite <- some_set_part, <- (app_nil_r (some_set _)); econstructor; eauto; constructor|].
        split; [eapply sim_appended; eauto|]. split; [eapply ptold_frame; eauto|]. split; [intros E; rewrite E, orb_false_r in C; rewrite C; apply orb_true_r|].
        split; [eapply frame_trans; [apply Q1|]; eapply frame_trans; eauto|].
        unfold pass_of, the_clock. destruct (appended_same _ _ _ _ A3) as (_ & _ & ->). rewrite X2. apply accepts_pass.
      * apply orb_false_iff in C. destruct C as [C1 C2]. destruct s; [|discriminate]. simpl nonempty. rewrite orb_false_r.
        assert (Q2 : quiet (tc := g_tc g) e m m2) by (split; [eapply frame_trans; [apply Q1|auto]|rewrite X2; reflexivity]).
        specialize (IH m2 g (S i) ch x2 Ge T2 S2). destruct (inner m2 g rest (S i) ch) as [m3 s j ch'|m3 ch'|m3 ex|m3]; auto.
        -- destruct IH as (x' & A & B & P & S3 & T3 & H3 & F3 & E3). exists x'. split; [lia|]. cbn [length]. split; [lia|].
           replace (S (j - i)) with (S (S (j - S i))) by lia. split; [|split; [auto|split; [auto|split; [auto|split; [eapply frame_trans; [apply Q2|auto]|rewrite E3, X2; reflexivity]]]]].
           change (firstn (S (S (j - S i))) (lv :: rest)) with (lv :: firstn (S (j - S i)) rest). cbn [map].
           change (part_sets p [s]) with (some_set [] ++ part_sets p [s]). econstructor; eauto.
        -- destruct IH as (A & B & P). split; [eapply quiet_trans; eauto|]. split; auto. destruct P as [(x' & P & S3 & T3)|(m0 & Q0 & T0)].
           ++ left. exists x'. split; auto. cbn [map]. change (@nil (list node)) with (some_set [] ++ []). econstructor; eauto.
           ++ right. exists m0. split; auto. eapply quiet_trans; eauto.
Qed.
(** a suspended run: x1 is the state of the part at the beginning of the pass, x2 the present one,
    S what the part has done since *)
Definition at_part (x1 x2 : ast) (S1 : list (list node)) (m : core) (g : gen) : Prop := sim (m_ctxs m e) x2 /\
  match g_pc g with
  | PLevel i ch => a_pass (a_reset x1) (map (filter p) (firstn (S i) q)) x2 S1 /\ S i <= length q /\ (g_abs g = false -> ch = true)
  | PIdle => a_pass (a_reset x1) Q x2 S1 \/ exists h0, cut e h0 m g
  | _ => False
  end.
Lemma outer_part : forall fuel m g m' g' s x0 l0 x, g_eid g = e -> queue m = q -> ptold m -> tcs_over g -> sim (m_ctxs m e) x ->
  a_passes Q x0 l0 x -> outer fuel m g = (m', g', OYield s) ->
  exists k x1 x2, a_passes Q x0 (l0 ++ repeat [] k) x1 /\ pass_of (m_ctxs m' e) = pass_of (m_ctxs m e) + k /\ at_part x1 x2 (part_sets p [s]) m' g'.
Proof.
  induction fuel as [|f IH]; intros m g m' g' s x0 l0 x Ge Hq T Kt Sm P0 E; [simpl in E; inversion E|].
  cbn [outer] in E. rewrite Ge in E. destruct (terminated m e (g_tc g)) as [[[|]|ex] m1] eqn:Tm.
  - exfalso. unfold finish in E.
    destruct (if g_skip g then Ok m1 else incr_clock ESU m1 (g_eid g)) as [mm|]; [|inversion E].
    destruct (check_tc mm (g_eid g) (g_tc g) ES) as [[y|] m2]; [|inversion E].
    destruct (x_list (m_ctxs m2 (g_eid g))); inversion E.
  - assert (Q1 := terminated_quiet (tc := g_tc g) _ _ _ _ Tm).
    destruct (reset_spec (g_tc g) m1 e) as [Fr Xr]. set (m2 := reset_counts_total PASS m1 e) in *.
    assert (F2 : frame (tc := g_tc g) e m m2) by (eapply frame_trans; [apply Q1|auto]).
    assert (Hq2 : queue m2 = q) by (rewrite (frame_queue _ _ _ F2); auto). rewrite Hq2 in E.
    rewrite (quiet_at _ _ _ _ Q1) in Xr.
    assert (T2 : ptold m2) by (eapply ptold_frame; eauto).
    assert (S2 : sim (m_ctxs m2 e) (a_reset x)) by (rewrite Xr; apply sim_reset; auto).
    assert (P2 : pass_of (m_ctxs m2 e) = pass_of (m_ctxs m e)) by (rewrite Xr; reflexivity).
    pose proof (inner_part q m2 g 0 false (a_reset x) Ge T2 S2) as I.
    destruct (inner m2 g q 0 false) as [m3 s' i ch|m3 ch|m3 ex|m3].
    + injection E as <- <- <-. destruct I as (x' & A & B & P & S3 & T3 & H3 & F3 & E3). exists 0, x, x'. simpl repeat. rewrite app_nil_r, E3, P2.
      split; [auto|]. split; [lia|]. split; [auto|]. simpl. rewrite Nat.sub_0_r in *. splits.
    + destruct I as (Q3 & -> & D). assert (V3 := quiet_view _ _ _ _ Q3). assert (X3 := quiet_at _ _ _ _ Q3).
      unfold pass_tail in E. simpl in E. rewrite Ge in E. destruct (g_abs g) eqn:Ha; simpl in E.
      * destruct (incr_clock PASS m3 e) as [m4|ex] eqn:Ic; [|inversion E].
        apply (incr_clock_spec (tc := g_tc g)) in Ic. destruct Ic as [F4 T4].
        assert (F34 : frame (tc := g_tc g) e m2 m4) by (eapply frame_trans; [apply Q3|auto]).
        assert (P4 := tick_next _ _ T4). rewrite X3, P2 in P4.
        destruct D as [(x' & P & S3 & T3)|(m0 & Q0 & Tm0)].
        -- destruct (IH m4 g m' g' s x0 (l0 ++ [[]]) (a_tick x')) as (k & y1 & y2 & A & B & C); auto.
           ++ rewrite (frame_queue _ _ _ F34); auto.
           ++ eapply ptold_frame; eauto.
           ++ eapply sim_tick_pass; eauto.
           ++ econstructor; eauto.
           ++ exists (S k), y1, y2. rewrite <- app_assoc in A. split; [exact A|]. split; [lia|auto].
        -- exfalso. destruct (sim_clocked _ _ S2) as (h0 & C2). eapply (outer_cut e h0 f m0 m3 m4 g); eauto.
           ++ rewrite (quiet_at _ _ _ _ Q0); auto.
           ++ apply (next_pass_tick e (g_tc g) m0 m3 m4); auto. rewrite V3. symmetry. eapply quiet_view; eauto.
      * destruct (append_exec m3 e false []) as [[r|ex] m4] eqn:Ap; [|inversion E]. injection E as <- <- <-.
        apply (append_exec_spec (tc := g_tc g)) in Ap. destruct Ap as [F4 A4].
        exists 0, x. simpl repeat. rewrite app_nil_r.
        assert (E4 : pass_of (m_ctxs m4 e) = pass_of (m_ctxs m e) + 0).
        { unfold pass_of, the_clock. destruct (appended_same _ _ _ _ A4) as (_ & _ & ->). rewrite X3. rewrite Nat.add_0_r. exact P2. }
        destruct D as [(x' & P & S3 & T3)|(m0 & Q0 & Tm0)].
        -- exists x'. split; [auto|]. split; [auto|]. split; [eapply sim_appended; eauto|]. simpl. left. exact P.
        -- exists (a_reset x). split; [auto|]. split; [auto|]. split; [eapply sim_appended; eauto; rewrite X3; auto|]. simpl. right.
           destruct (sim_clocked _ _ S2) as (h0 & C2). exists h0. destruct A4 as (l & El & A4). exists m0, m3, l. rewrite X3 in *. rewrite (quiet_at _ _ _ _ Q0). splits.
           assert (F24 : frame (tc := g_tc g) e m2 m4) by (eapply frame_trans; [apply Q3|auto]).
           rewrite (quiet_view _ _ _ _ Q0). unfold view_of. rewrite A4, (frame_queue _ _ _ F24), (fr_nodes _ _ _ F24), (fr_exact _ _ _ F24). reflexivity.
    + inversion E.
    + inversion E.
  - inversion E.
Qed.
Lemma resume_part : forall fuel m g m' g' s x0 l0 x1 x2 S1, g_eid g = e -> queue m = q -> ptold m -> tcs_over g -> a_passes Q x0 l0 x1 ->
  at_part x1 x2 S1 m g -> resume fuel m g = (m', g', OYield s) ->
  (exists x2', pass_of (m_ctxs m' e) = pass_of (m_ctxs m e) /\ at_part x1 x2' (S1 ++ part_sets p [s]) m' g') \/
  (exists k y1 y2, pass_of (m_ctxs m' e) = pass_of (m_ctxs m e) + S k /\ a_passes Q x0 (l0 ++ [S1] ++ repeat [] k) y1 /\ at_part y1 y2 (part_sets p [s]) m' g').
Proof.
  intros fuel m g m' g' s x0 l0 x1 x2 S1 Ge Hq T Kt P0 [Sm Hpc] E. unfold resume in E. rewrite Ge in E. destruct (g_pc g) as [|i ch| |] eqn:Epc; try contradiction.
  - destruct Hpc as (A & Li & Hch).
    destruct (incr_clock CSE m e) as [m1|ex] eqn:Ic; [|inversion E].
    apply (incr_clock_spec (tc := g_tc g)) in Ic. destruct Ic as [F1 Tk1].
    assert (Hq1 : queue m1 = q) by (rewrite (frame_queue _ _ _ F1); auto). rewrite Hq1 in E.
    assert (T1 := ptold_frame _ _ _ F1 T). assert (S1' := sim_tick_cse _ _ _ Tk1 Sm). assert (P1 := tick_cse _ _ Tk1).
    pose proof (inner_part (skipn (S i) q) m1 g (S i) ch x2 Ge T1 S1') as I.
    destruct (inner m1 g (skipn (S i) q) (S i) ch) as [m3 s' j ch'|m3 ch'|m3 ex|m3]; cbv beta zeta iota in E.
    + injection E as <- <- <-. destruct I as (x' & L & B & P & S3 & T3 & H3 & F3 & E3). left. exists x'. split; [congruence|]. split; [auto|]. simpl g_pc. cbv iota.
      rewrite skipn_length in B. split; [|split; [lia|auto]].
      replace (S j) with (S i + S (j - S i)) by lia.
      replace (firstn (S i + S (j - S i)) q) with (firstn (S i) q ++ firstn (S (j - S i)) (skipn (S i) q)).
      * rewrite map_app. eapply a_pass_app; eauto.
      * rewrite <- (firstn_skipn (S i) (firstn (S i + S (j - S i)) q)). rewrite firstn_firstn, Nat.min_l by lia. f_equal. symmetry. rewrite skipn_firstn_comm. f_equal. lia.
    + destruct I as (Q3 & -> & D). assert (V3 := quiet_view _ _ _ _ Q3). assert (X3 := quiet_at _ _ _ _ Q3).
      unfold pass_tail in E. rewrite Ge in E. destruct (negb ch && negb (g_abs g)) eqn:C.
      { exfalso. apply andb_true_iff in C. destruct C as [D1 D2]. destruct (g_abs g); [discriminate|].
        rewrite (Hch eq_refl) in D1; discriminate. }
      destruct (incr_clock PASS m3 e) as [m4|ex] eqn:Ic; [|inversion E].
      apply (incr_clock_spec (tc := g_tc g)) in Ic. destruct Ic as [F4 T4].
      assert (F14 : frame (tc := g_tc g) e m1 m4) by (eapply frame_trans; [apply Q3|auto]).
      assert (P4 := tick_next _ _ T4). rewrite X3, P1 in P4.
      destruct D as [(x' & P & S3 & T3)|(m0 & Q0 & Tm0)].
      * right. assert (Pq : a_pass (a_reset x1) Q x' S1).
        { unfold Q. rewrite <- (firstn_skipn (S i) q), map_app, <- (app_nil_r S1). eapply a_pass_app; eauto. }
        destruct (outer_part fuel m4 g m' g' s x0 (l0 ++ [S1]) (a_tick x')) as (k & y1 & y2 & B & B' & B''); auto.
        -- rewrite (frame_queue _ _ _ F14); auto.
        -- eapply ptold_frame; eauto.
        -- eapply sim_tick_pass; eauto.
        -- econstructor; eauto.
        -- exists k, y1, y2. rewrite <- app_assoc in B. split; [lia|auto].
      * exfalso. destruct (sim_clocked _ _ S1') as (h0 & C2). eapply (outer_cut e h0 fuel m0 m3 m4 g); eauto.
        -- rewrite (quiet_at _ _ _ _ Q0); auto.
        -- apply (next_pass_tick e (g_tc g) m0 m3 m4); auto. rewrite V3. symmetry. eapply quiet_view; eauto.
    + inversion E.
    + inversion E.
  - destruct (incr_clock CSE m e) as [m1|ex] eqn:Ic; [|inversion E].
    apply (incr_clock_spec (tc := g_tc g)) in Ic. destruct Ic as [F1 T1].
    destruct (incr_clock PASS m1 e) as [m2|ex] eqn:Ic; [|inversion E].
    apply (incr_clock_spec (tc := g_tc g)) in Ic. destruct Ic as [F2 T2].
    assert (F' : frame (tc := g_tc g) e m m2) by (eapply frame_trans; eauto).
    assert (P1 := tick_cse _ _ T1). assert (P2 := tick_next _ _ T2). rewrite P1 in P2.
    destruct Hpc as [D|(h0 & m0 & m3 & l & Tm & Ck0 & El & V)].
    + right. destruct (outer_part fuel m2 g m' g' s x0 (l0 ++ [S1]) (a_tick x2)) as (k & y1 & y2 & B & B' & B''); auto.
      * rewrite (frame_queue _ _ _ F'); auto.
      * eapply ptold_frame; eauto.
      * eapply sim_tick_pass; eauto. eapply sim_tick_cse; eauto.
      * econstructor; eauto.
      * exists k, y1, y2. rewrite <- app_assoc in B. split; [lia|auto].
    + exfalso. eapply (outer_cut e h0 fuel m0 m3 m2 g); eauto.
      destruct (tick_view _ _ _ _ _ F1 T1) as (k1 & Ck1 & V1). destruct (tick_view _ _ _ _ _ F2 T2) as (k2 & Ck2 & V2).
      rewrite V1 in Ck2, V2. rewrite V in Ck1, Ck2, V2. simpl in *. rewrite V2. unfold next_pass; simpl. splits.
      right. exists l, k1. splits.
Qed.
End Part.

Lemma in_pass_last : forall k ts s, in_pass k (ts ++ [(k, s)]) = in_pass k ts ++ [s].
Proof. intros. unfold in_pass. rewrite filter_app, map_app. simpl. rewrite Nat.eqb_refl. reflexivity. Qed.
Lemma nth_repeat_nil : forall (A : Type) (k j : nat), j < k -> nth_error (repeat (@nil A) k) j = Some [].
Proof. intros A. induction k as [|k IH]; intros [|j] H; simpl; try lia; auto. apply IH. lia. Qed.

Section PartRun.
Variables (p : node -> bool) (F : node -> ruling).
Hypothesis Ab : forall n, p n = true -> about p (F n).
Definition passes_of (m0 : core) (e : eid) (ts : list (nat * list node)) (l : list (list (list node))) : Prop :=
  forall j, j < length l -> nth_error l j = Some (part_sets p (in_pass (pass_number m0 e + j) ts)).
Theorem part_run : forall m0 g0 ts m g t0 h0 x0, running_while_in_passes (part_ruled p F g0) m0 g0 ts m g -> g_pc g0 = PStart ->
  x_total (m_ctxs m0 (g_eid g0)) = Some t0 -> clock_after ESU h0 (the_clock (m_ctxs m0 (g_eid g0))) ->
  alike p (reset_total ESU t0) zero_use x0 -> a_h x0 = coarse h0 ->
  (ts = [] /\ g = g0 /\ undisturbed (g_eid g0) m0 m) \/
  (ts <> [] /\ g_eid g = g_eid g0 /\ tcs_over g /\ static m0 m /\ exists l x1 x2, a_passes F (map (filter p) (queue m0)) x0 l x1 /\
     pass_number m (g_eid g0) = pass_number m0 (g_eid g0) + length l /\ at_part p F (g_eid g0) (queue m0) x1 x2 (part_sets p (in_pass (pass_number m (g_eid g0)) ts)) m g /\
     passes_of m0 (g_eid g0) ts l).
Proof.
  intros m0 g0 ts m g t0 h0 x0 R Hp Et Ck Al Ah. set (e := g_eid g0) in *.
  induction R as [Pm|ts m g m' R IH U Pm|ts m g fuel m' g' s R IH E Pm].
  - left. splits. apply undisturbed_refl.
  - destruct IH as [(-> & -> & U0)|(Ne & Ee & Kt & St & l & x1 & x2 & A & B & [C P] & D)].
    + left; splits. eapply undisturbed_trans; eauto.
    + right; splits; [eapply static_trans; [eauto|eapply static_undisturbed; eauto]|].
      exists l, x1, x2. unfold e in *. rewrite (undisturbed_pass _ _ _ U). splits. split; [rewrite (ud_ctx _ _ _ U); auto|].
      destruct (g_pc g); auto. destruct P as [P|(hh & ma & mb & l1 & T & C0 & El & V)]; [left; auto|right]. exists hh, ma, mb, l1. splits.
      rewrite <- V. unfold view_of. rewrite (ud_ctx _ _ _ U). pose proof (static_undisturbed _ _ _ U) as S.
      rewrite (static_queue _ _ S), (sc_nodes _ _ S), (sc_exact _ _ S). reflexivity.
  - destruct (rwp_passes _ _ _ _ _ _ R) as (Rp & Pm0). right.
    destruct IH as [(-> & -> & U)|(Ne & Ee & Kt & St & l & x1 & x2 & A & B & Pt & D)].
    + destruct (run_first _ _ _ _ _ _ _ Hp U E) as (g1 & m1 & ps & ph & S & Rs & Y & _).
      destruct (start_spec _ _ _ _ S) as (Sst & _ & Sc & Ge & _ & _ & Gt).
      assert (Gg : g' = at_pc g1 (g_pc g')) by (apply (rs_gen _ _ _ _ _ _ _ _ _ Rs)).
      assert (Fr : frame (tc := g_tc g1) (g_eid g1) m1 m') by (inversion Y; subst; auto). rewrite Ge in Fr.
      assert (S0 : static m0 m) by (eapply static_undisturbed; eauto).
      assert (T1 : ptold p F m1).
      { intros n c Hn Ec. rewrite <- (fr_owners _ _ _ Fr). rewrite <- (fr_basic _ _ _ Fr) in Ec. apply (proj1 Pm); auto. }
      assert (Q1 : queue m1 = queue m0) by (rewrite (static_queue _ _ Sst); apply static_queue; auto).
      assert (Kt : tcs_over g1) by (unfold tcs_over; rewrite Gt; apply Pm0).
      assert (Sr : started m0 g0 g1 m1) by (exists m; auto).
      assert (Sm : sim p (m_ctxs m1 e) x0).
      { destruct Sc as [(t & Dt & Qt) Us _ _ _]. unfold e in *. rewrite (ud_ctx _ _ _ U) in Dt. rewrite Et in Dt. destruct Dt as [Dt|[Dt _]]; [|discriminate]. injection Dt as <-.
        exists (reset_total ESU t0), zero_use, h0. splits. apply (started_clock m0 g0 g1 m1 h0); auto. }
      assert (Pe : pass_of (m_ctxs m1 e) = pass_number m0 e) by apply (started_pass _ _ _ _ Sr).
      unfold resume in E. rewrite Hp, S in E.
      destruct (outer_part p F Ab e (queue m0) fuel m1 g1 m' g' s x0 [] x0) as (k & x1 & x2 & B1 & B2 & B3); auto; [constructor|].
      rewrite Pe in B2. change (pass_of (m_ctxs m' e)) with (pass_number m' e) in B2. simpl in B1.
      split; [discriminate|]. split; [rewrite Gg; auto|]. split; [rewrite Gg; exact Kt|]. split; [apply (rs_static _ _ _ _ _ _ _ _ _ Rs)|].
      exists (repeat [] k), x1, x2. rewrite repeat_length. split; [exact B1|]. split; [exact B2|]. split.
      * change ([] ++ [(pass_number m' e, s)]) with ([] ++ [(pass_number m' e, s)]). rewrite in_pass_last. exact B3.
      * intros j Lj. rewrite repeat_length in Lj. rewrite nth_repeat_nil by auto. f_equal. rewrite in_pass_snoc by (fold e; lia). reflexivity.
    + destruct (passes_history _ _ _ _ _ Rp Hp) as [(-> & _)|(g1 & m1 & ps & ph & St1 & _)]; [congruence|].
      destruct (run_next _ _ _ _ _ _ _ _ _ _ _ _ _ St1 E) as (ps' & ph' & St2 & _ & _).
      assert (Gs : g_eid g' = g_eid g /\ g_tc g' = g_tc g).
      { rewrite (rs_gen _ _ _ _ _ _ _ _ _ St1), (rs_gen _ _ _ _ _ _ _ _ _ St2). simpl; auto. }
      destruct Gs as [Ge Gt].
      assert (Nu : forall k, pass_number m e < k -> in_pass k ts = []).
      { intros k Lk. apply in_pass_none. intros [a sa] Ia. apply In_nth_error in Ia. destruct Ia as (x & Ex). pose proof (passes_numbered _ _ _ _ _ _ _ _ Rp Hp Ex).
        unfold e in Lk. simpl. lia. }
      assert (T : ptold p F m) by exact (proj1 Pm0). fold e.
      split; [destruct ts; discriminate|]. split; [congruence|]. split; [unfold tcs_over; rewrite Gt; auto|].
      split; [apply (rs_static _ _ _ _ _ _ _ _ _ St2)|].
      destruct (resume_part p F Ab e (queue m0) fuel m g m' g' s x0 l x1 x2 _ Ee (static_queue _ _ St) T Kt A Pt E) as [(y2 & E1 & P')|(k & y1 & y2 & E1 & A' & P')];
        change (pass_of (m_ctxs m' e)) with (pass_number m' e) in E1; change (pass_of (m_ctxs m e)) with (pass_number m e) in E1.
      * exists l, x1, y2. rewrite E1 in *. split; [auto|]. split; [auto|]. split; [rewrite in_pass_last, part_sets_app; exact P'|].
        intros j Lj. rewrite in_pass_snoc by lia. auto.
      * exists (l ++ [part_sets p (in_pass (pass_number m e) ts)] ++ repeat [] k), y1, y2. rewrite !app_length, repeat_length. simpl length.
        split; [exact A'|]. split; [lia|]. split; [rewrite in_pass_last, Nu by lia; exact P'|].
        intros j Lj. rewrite !app_length, repeat_length in Lj. simpl length in Lj. rewrite in_pass_snoc by lia.
        destruct (Nat.lt_trichotomy j (length l)) as [L|[->|L]].
        -- rewrite nth_error_app1 by auto. auto.
        -- rewrite nth_error_app2, Nat.sub_diag by lia. simpl. rewrite B. reflexivity.
        -- rewrite nth_error_app2 by lia. destruct (j - length l) as [|i] eqn:Ei; [lia|]. simpl. rewrite nth_repeat_nil by lia. rewrite Nu by lia. reflexivity.
Qed.
End PartRun.

(** ** histories *)
Lemma units_app : forall q s h x, units_now q s (h ++ [x]) = if ts_leb s x then 0 else if ts_eqb q x then S (units_now q s h) else units_now q s h.
Proof. intros. unfold units_now. rewrite fold_left_app. reflexivity. Qed.
Lemma ts_leb_le : forall a b, ts_leb a b = true <-> ts_le a b.
Proof. intros a b. unfold ts_leb, ts_le. apply Nat.leb_le. Qed.
Lemma units_is : forall q s h k, units_within q s h k -> units_now q s h = k.
Proof.
  intros q s h k (h2 & (Fa & D) & ->). destruct D as [->|(h1 & x & -> & L)].
  - revert Fa. induction h2 as [|x h IH] using rev_ind; intros Fa; [reflexivity|]. rewrite units_app. apply Forall_app in Fa. destruct Fa as [Fa Fx]. inversion Fx as [|? ? Lx]; subst.
    destruct (ts_leb s x) eqn:E; [apply ts_leb_le in E; unfold ts_le, ts_lt in *; lia|]. rewrite IH by auto. unfold count. rewrite filter_app, app_length. simpl.
    destruct (ts_eqb q x); simpl; lia.
  - revert Fa. induction h2 as [|y h IH] using rev_ind; intros Fa.
    + rewrite units_app. apply ts_leb_le in L. rewrite L. reflexivity.
    + change (h1 ++ x :: h ++ [y]) with (h1 ++ (x :: h) ++ [y]). rewrite app_assoc, units_app. apply Forall_app in Fa. destruct Fa as [Fa Fx]. inversion Fx as [|? ? Lx]; subst.
      destruct (ts_leb s y) eqn:E; [apply ts_leb_le in E; unfold ts_le, ts_lt in *; lia|]. rewrite IH by auto. unfold count. rewrite filter_app, app_length. simpl.
      destruct (ts_eqb q y); simpl; lia.
Qed.
Lemma units_coarse : forall q s h, ts_le PASS q -> ts_le PASS s -> units_now q s (coarse h) = units_now q s h.
Proof.
  intros q s h Lq Ls. induction h as [|x h IH] using rev_ind; [reflexivity|]. rewrite coarse_app, units_app. simpl. destruct (ts_leb PASS x) eqn:E.
  - rewrite units_app, IH. reflexivity.
  - rewrite app_nil_r, IH. assert (x = CSE) by (destruct x; simpl in E; auto; discriminate). subst x.
    destruct s; try (unfold ts_le in Ls; simpl in Ls; lia); destruct q; try (unfold ts_le in Lq; simpl in Lq; lia); reflexivity.
Qed.
Lemma count_coarse : forall q h, ts_le PASS q -> count q (coarse h) = count q h.
Proof.
  intros q h L. unfold count. induction h as [|x h IH]; [reflexivity|]. simpl. destruct (ts_leb PASS x) eqn:E; simpl.
  - destruct (ts_eqb q x); simpl; auto.
  - assert (x = CSE) by (destruct x; simpl in E; auto; discriminate). subst x. destruct q; auto. unfold ts_le in L; simpl in L; lia.
Qed.
Lemma same_pass : forall h h' k k', clock_after ESU h k -> clock_after ESU h' k' -> coarse h = coarse h' -> t_val (k_time k) PASS = t_val (k_time k') PASS.
Proof.
  assert (X : forall h k, clock_after ESU h k -> t_val (k_time k) PASS = units_now PASS ESU h).
  { intros h k Hh. destruct (since_at_least_exists ESU h) as (h2 & Fa & D). symmetry. apply units_is. exists h2. split; [split; auto|].
    apply (time_component ESU h _ PASS h2 Hh). split.
    - eapply Forall_impl; [|exact Fa]. unfold ts_lt, ts_le; simpl; intros; lia.
    - destruct D as [->|(h1 & x & -> & L)]; [left; auto|right]. exists h1, x. split; auto. }
  intros h h' k k' A B E. rewrite (X _ _ A), (X _ _ B). rewrite <- (units_coarse PASS ESU h), <- (units_coarse PASS ESU h'), E; auto; unfold ts_le; simpl; lia.
Qed.

(** ** the library's conditions *)
Lemma tells_about : forall p ow f c, tells p ow f c -> about p f.
Proof.
  intros p ow f c H. induction H as [| | | | |o cm d n s Pd|o ds n s Pd|o ds s Ne Pd|o d n b Eo Pb Pd|o f c H IH| |o f g c cs H IH H' IH'| |o f g c cs H IH H' IH'|f g c H IH E];
    intros t t' u u' h Et Eu; simpl; auto.
  - f_equal. clear -Pd Et. induction ds as [|d ds IH]; simpl; auto. rewrite Et by (apply Pd; left; auto). rewrite IH; auto. intros; apply Pd; right; auto.
  - clear -Pd Et. induction ds as [|d ds IH]; simpl; auto. rewrite Et by (apply Pd; left; auto). rewrite IH; auto. intros; apply Pd; right; auto.
  - rewrite (IH t t' u u' h); auto.
  - rewrite (IH t t' u u' h), (IH' t t' u u' h); auto.
  - rewrite (IH t t' u u' h), (IH' t t' u u' h); auto.
  - rewrite !E. auto.
Qed.
Lemma tells_told : forall p ow f c, tells p ow f c -> told_by ow f c.
Proof.
  intros p ow f c H. induction H as [| |o cm q n s Lq Ls Le|o n s Ls|o cm n|o cm d n s Pd|o ds n s Pd|o ds s Ne Pd|o d n b Eo Pb Pd|o f c H IH|o|o f g c cs H IH H' IH'|o|o f g c cs H IH H' IH'|f g c H IH E];
    intros v e st st' r h t u Hh Et Eu Ev.
  - simpl in Ev. inversion Ev; auto.
  - simpl in Ev. inversion Ev; auto.
  - destruct (units_within_exists q s h) as (k & Hk). rewrite (eval_time cm q n s v e ow st o h k) in Ev by auto. injection Ev as <- _.
    rewrite units_coarse, (units_is _ _ _ _ Hk); auto. unfold ts_le, ts_lt in *; simpl in *; lia.
  - destruct (units_within_exists PASS s h) as (k & Hk). pose proof (units_is _ _ _ _ Hk) as Ek. destruct Hk as (h2 & S & ->).
    simpl in Ev. rewrite (total_relative ESU h _ PASS s h2) in Ev by (auto; unfold ts_lt, ts_le in *; simpl in *; lia). simpl in Ev.
    rewrite units_coarse, Ek by (unfold ts_le in *; simpl in *; lia). destruct n; inversion Ev; auto.
  - simpl in Ev. destruct (SessionFacts.since_all _ _ Hh) as [S _].
    rewrite (time_component _ _ _ _ _ Hh S) in Ev. injection Ev as <- _. rewrite count_coarse; auto. unfold ts_le; simpl; lia.
  - simpl in Ev. unfold count_total in Ev. rewrite Et in Ev. destruct (mem d (v_nodes v)); simpl in Ev; inversion Ev; auto.
  - simpl in Ev. assert (X : forall l a k, sum_calls v s l a = Ok k -> k = a + sum_over (t s) l).
    { clear -Et. induction l as [|d l IH]; intros a k E; simpl in E; [inversion E; simpl; lia|]. unfold count_total in E. rewrite Et in E.
      destruct (mem d (v_nodes v)); simpl in E; [|discriminate]. apply IH in E. simpl. lia. }
    destruct (sum_calls v s ds 0) as [k|] eqn:E; simpl in Ev; inversion Ev; subst. rewrite (X _ _ _ E). reflexivity.
  - simpl in Ev. injection Ev as Ev _. destruct ds as [|d0 ds0]; [congruence|]. simpl deps_or_nodes in Ev. set (ds := d0 :: ds0) in *. clearbody ds. clear -Ev Et. revert r Ev.
    induction ds as [|d ds IH]; intros r Ev; cbn [all_have_run] in Ev; [inversion Ev; auto|]. unfold count_total in Ev. rewrite Et in Ev.
    destruct (mem d (v_nodes v)); [|discriminate]. cbn [forallb]. destruct (t s d) as [|k]; simpl in Ev |- *; [inversion Ev; auto|apply IH; auto].
  - simpl in Ev. unfold count_useable in Ev. rewrite Eu, Eo in Ev. destruct (mem d (v_nodes v)); simpl in Ev; [|inversion Ev]. destruct (mem b (v_nodes v)); simpl in Ev; inversion Ev; auto.
  - simpl in Ev. destruct (eval v e ow c st) as [[b|] st1] eqn:E; inversion Ev; subst. rewrite (IH _ _ _ _ _ _ _ _ Hh Et Eu E). reflexivity.
  - simpl in Ev. inversion Ev; auto.
  - simpl in Ev. destruct (eval v e ow c st) as [[b|] st1] eqn:E; [|inversion Ev]. rewrite <- (IH _ _ _ _ _ _ _ _ Hh Et Eu E). destruct b; [|inversion Ev; auto].
    simpl. apply (IH' v e st1 st' r h t u); auto.
  - simpl in Ev. inversion Ev; auto.
  - simpl in Ev. destruct (eval v e ow c st) as [[b|] st1] eqn:E; [|inversion Ev]. rewrite <- (IH _ _ _ _ _ _ _ _ Hh Et Eu E). destruct b; [inversion Ev; auto|].
    simpl. apply (IH' v e st1 st' r h t u); auto.
  - rewrite E. eapply IH; eauto.
Qed.
Lemma tells_ow : forall p ow ow' f c, tells p ow f c -> (forall o, In o (oids c) -> ow' o = ow o) -> tells p ow' f c.
Proof.
  intros p ow ow' f c H. induction H as [| | | | |o cm d n s Pd|o ds n s Pd|o ds s Ne Pd|o d n b Eo Pb Pd|o f c H IH| |o f g c cs H IH H' IH'| |o f g c cs H IH H' IH'|f g c H IH E]; intros O;
    try (constructor; auto; fail).
  - apply te_every; auto. rewrite O; [auto|left; auto].
  - constructor. apply IH. intros; apply O; right; auto.
  - constructor; [apply IH|apply IH']; intros o' I; apply O; simpl in *; rewrite in_app_iff; tauto.
  - constructor; [apply IH|apply IH']; intros o' I; apply O; simpl in *; rewrite in_app_iff; tauto.
  - eapply te_same; eauto.
Qed.
Lemma tells_default : forall p ow n ds k, p n = true -> (forall d, In d ds -> p d = true) -> (forall o, In o (oids (fst (default_cond k ds))) -> ow o = Some n) ->
  tells p ow (fun _ u _ => forallb (fun d => Nat.leb 1 (u d n)) ds) (fst (default_cond k ds)).
Proof.
  intros p ow n ds k Pn Pd O. destruct ds as [|d [|d2 r]].
  - apply te_always.
  - eapply te_same; [apply (te_every p ow k d 1 n); auto|]; [apply O; left; auto|apply Pd; left; auto|]. intros; simpl. apply andb_true_r.
  - set (l := d :: d2 :: r) in *. change (fst (default_cond k l)) with (CAll k (default_parts (S k) l)) in *. clearbody l. simpl in O.
    assert (O' : forall o, In o (flat_map oids (default_parts (S k) l)) -> ow o = Some n) by (intros; apply O; right; auto). clear O. revert O'. generalize (S k) as j. revert Pd.
    induction l as [|a l IH]; intros Pd j O; [apply te_all_nil|]. simpl. simpl in O.
    apply (te_all p ow k (fun _ u _ => Nat.leb 1 (u a n)) (fun _ u _ => forallb (fun d => Nat.leb 1 (u d n)) l)).
    + apply te_every; auto. apply Pd; left; auto.
    + apply IH; auto. intros; apply Pd; right; auto.
Qed.

(** ** the part is ready throughout *)
Section Ready.
Variables (p : node -> bool) (F : node -> ruling).
Lemma ready_like : forall m m', m_graph m' = m_graph m -> m_basic m' = m_basic m -> m_owners m' = m_owners m -> m_next m' = m_next m -> part_ready p F m -> part_ready p F m'.
Proof. intros m m' A B C D [Fr R]. unfold part_ready, fresh_ids. rewrite A, B, C, D. auto. Qed.
Lemma ready_defaults : forall ns m m', part_ready p F m -> add_defaults ns m = Ok m' -> part_ready p F m'.
Proof.
  induction ns as [|n r IH]; intros m m' R E; simpl in E; [inversion E; subst; auto|].
  unfold ahas in E. destruct (aget n (m_basic m)) as [c0|] eqn:An; simpl in E; [eauto|].
  destruct (aget n (m_graph m)) as [ds|] eqn:G; [|discriminate]. destruct (default_cond (m_next m) ds) as [c nx] eqn:Dc.
  eapply IH; [|exact E]. destruct R as [Fr R].
  destruct (DefaultFacts.set_owner_default n ds (m_next m) (m_owners m) Fr) as (L & A & B). pose proof (ResumeFrame.default_cond_oids (m_next m) ds) as O. rewrite Dc in L, A, B, O. cbn [fst snd] in L, A, B, O.
  split; [intros o Lo; simpl in *; rewrite B by lia; apply Fr; lia|]. intros x Px. simpl. rewrite aget_aset. destruct (Nat.eqb_spec x n) as [->|Nx].
  - split; [|intros o Io; apply O in Io; lia]. specialize (R n Px). rewrite An in R. destruct R as (ds' & G' & Pd & Ef). assert (ds' = ds) by congruence. subst ds'.
    eapply te_same; [|exact Ef]. pose proof (tells_default p (set_owner (Some n) c (m_owners m)) n ds (m_next m) Px Pd) as X. rewrite Dc in X. apply X. intros o Io. apply A. apply O. auto.
  - specialize (R x Px). destruct (aget x (m_basic m)) as [cx|]; [|auto]. destruct R as [T K]. split; [|intros o Io; specialize (K o Io); lia].
    eapply tells_ow; eauto.
Qed.
Lemma ready_start : forall m g g1 m1, part_ready p F m -> start m g = (Ok g1, m1) -> part_ready p F m1.
Proof.
  intros m g g1 m1 R S. assert (Gr := ResumeFrame.grown_start _ _ _ _ S). unfold start in S. destruct (validate_run_state m) as [[ma|ex] mb] eqn:V; [|discriminate].
  unfold validate_run_state in V. destruct (toposort (m_graph m)); try discriminate.
  destruct (add_defaults (m_nodes m) m) as [m'|] eqn:A; [|discriminate]. inversion V; subst ma mb. clear V.
  assert (R' := ready_defaults _ _ _ R A). destruct (RunHist.add_defaults_spec _ _ _ A) as (_ & St & _).
  assert (B : m_basic m1 = m_basic m' /\ m_owners m1 = m_owners m' /\ m_next m1 = m_next m').
  { revert S. set (tc := match g_tcarg g with None => _ | Some a => _ end).
    destruct (setup_absolute _ _ _) as [m3|] eqn:SA; [|discriminate].
    assert (B3 : m_basic m3 = m_basic m' /\ m_owners m3 = m_owners m' /\ m_next m3 = m_next m').
    { unfold setup_absolute in SA. destruct (absolute_conditions _ _); [inversion SA; auto|].
      destruct (unit_of _ _); [inversion SA; auto|discriminate]. }
    destruct (init_counts_base m3 (g_eid g) (g_base g)) as [[r|] m4] eqn:IC; [|discriminate]. intros S. inversion S; subst; simpl.
    destruct (DefaultFacts.init_counts_conds _ _ _ _ _ IC) as (X1 & X2 & X3). rewrite X1, X2, X3. auto. }
  destruct B as (B1 & B2 & B3). eapply ready_like; [| | | |exact R']; auto. rewrite (ResumeFrame.gw_graph _ _ _ Gr). symmetry. apply (sc_graph _ _ St).
Qed.
Lemma ready_runs : forall g0 m0 ts m g, running_beside (part_fit p F g0) m0 g0 ts m g -> g_pc g0 = PStart ->
  running_while_in_passes (part_fit p F g0) m0 g0 ts m g /\ (ts <> [] -> g_pc g <> PStart).
Proof.
  intros g0 m0 ts m g R Hp. induction R as [Pm|ts m g m' R IH U Pm|ts m g fuel m' g' s R IH E].
  - split; [constructor; auto|congruence].
  - destruct IH as [IH N]. split; [eapply rwp_env; eauto|auto].
  - destruct IH as [IH N]. destruct (rwp_passes _ _ _ _ _ _ IH) as (Rp & Pm).
    assert (X : part_ready p F m' /\ m_tconds m' = m_tconds m /\ g_pc g' <> PStart).
    { destruct (passes_history _ _ _ _ _ Rp Hp) as [(-> & -> & U)|(g1 & m1 & ps & ph & St1 & _)].
      - destruct (run_first _ _ _ _ _ _ _ Hp U E) as (g1 & m1 & ps & ph & S & Rs & Y & _). pose proof (ready_start _ _ _ _ (proj1 Pm) S) as R1.
        assert (Fr : frame (tc := g_tc g1) (g_eid g1) m1 m') by (inversion Y; subst; auto). pose proof (ResumeFrame.grown_start _ _ _ _ S) as Gr.
        split; [eapply ready_like; [apply (fr_graph _ _ _ Fr)|apply (fr_basic _ _ _ Fr)|apply (fr_owners _ _ _ Fr)|apply (fr_next _ _ _ Fr)|auto]|].
        split; [rewrite (fr_tconds _ _ _ Fr); apply (ResumeFrame.gw_tconds _ _ _ Gr)|]. inversion Y; subst; simpl; discriminate.
      - destruct (run_next _ _ _ _ _ _ _ _ _ _ _ _ _ St1 E) as (ps' & ph' & St2 & Y & _).
        assert (Fr : frame (tc := g_tc g1) (g_eid g1) m m') by (inversion Y; subst; auto).
        split; [eapply ready_like; [apply (fr_graph _ _ _ Fr)|apply (fr_basic _ _ _ Fr)|apply (fr_owners _ _ _ Fr)|apply (fr_next _ _ _ Fr)|apply Pm]|].
        split; [apply (fr_tconds _ _ _ Fr)|]. inversion Y; subst; simpl; discriminate. }
    destruct X as (X1 & X2 & X3). split; [|auto]. eapply rwp_yields; eauto. split; [auto|]. unfold run_tc. rewrite X2. apply Pm.
Qed.
End Ready.
Lemma fit_about : forall p F g m n, part_fit p F g m -> p n = true -> about p (F n).
Proof.
  intros p F g m n [[_ R] _] Pn. specialize (R n Pn). destruct (aget n (m_basic m)) as [c|]; [eapply tells_about; apply R|].
  destruct R as (ds & _ & Pd & E). intros t t' u u' h Et Eu. rewrite !E. clear -Pd Pn Eu. induction ds as [|d ds IH]; simpl; auto.
  rewrite Eu by (auto; apply Pd; left; auto). f_equal. apply IH. intros; apply Pd; right; auto.
Qed.
Lemma fit_ruled : forall p F g m, part_fit p F g m -> part_ruled p F g m.
Proof.
  intros p F g m [[_ R] T]. split; [|auto]. intros n c Pn E. specialize (R n Pn). rewrite E in R. eapply tells_told; apply R.
Qed.
Lemma reset_alike : forall p t t' h, (forall s n, p n = true -> ts_lt ESU s -> t s n = t' s n) -> alike p (reset_total ESU t') zero_use (mkA (reset_total ESU t) zero_use h).
Proof.
  intros p t t' h E. split; simpl; auto. intros s n Pn. unfold reset_total. destruct s; simpl; auto; symmetry; apply E; auto; unfold ts_lt; simpl; lia.
Qed.
Theorem parts_agree : forall p F m0 g0 ts m g n0 h0 us n h t t' H H', (forall x, p x = true -> about p (F x)) ->
  running_while_in_passes (part_ruled p F g0) m0 g0 ts m g -> running_while_in_passes (part_ruled p F h0) n0 h0 us n h -> g_pc g0 = PStart -> g_pc h0 = PStart ->
  part_sets p (queue m0) = part_sets p (queue n0) ->
  x_total (m_ctxs m0 (g_eid g0)) = Some t -> x_total (m_ctxs n0 (g_eid h0)) = Some t' -> (forall s x, p x = true -> ts_lt ESU s -> t s x = t' s x) ->
  clock_after ESU H (the_clock (m_ctxs m0 (g_eid g0))) -> clock_after ESU H' (the_clock (m_ctxs n0 (g_eid h0))) -> coarse H = coarse H' ->
  pass_number m0 (g_eid g0) = pass_number n0 (g_eid h0) /\
  forall k, k < pass_number m (g_eid g0) -> k < pass_number n (g_eid h0) -> part_sets p (in_pass k ts) = part_sets p (in_pass k us).
Proof.
  intros p F m0 g0 ts m g n0 h0 us n h t t' H H' Ab R R' Hp Hp' Eq Et Et' Es C C' Ec.
  assert (Pe : pass_number m0 (g_eid g0) = pass_number n0 (g_eid h0)) by (apply (same_pass H H'); auto). split; [exact Pe|].
  set (x0 := mkA (reset_total ESU t) zero_use (coarse H)).
  assert (A0 : alike p (reset_total ESU t) zero_use x0) by (apply reset_alike; auto).
  assert (A := part_run p F Ab m0 g0 ts m g t H x0 R Hp Et C A0 eq_refl).
  assert (B := part_run p F Ab n0 h0 us n h t' H' x0 R' Hp' Et' C' (reset_alike _ _ _ _ Es) Ec).
  assert (N : forall m0 g0 ts m g, running_while_in_passes (part_ruled p F g0) m0 g0 ts m g -> g_pc g0 = PStart -> forall k, k < pass_number m0 (g_eid g0) -> in_pass k ts = []).
  { clear. intros m0 g0 ts m g R Hp k L. destruct (rwp_passes _ _ _ _ _ _ R) as (Rp & _). apply in_pass_none. intros [a sa] Ia. apply In_nth_error in Ia. destruct Ia as (x & Ex).
    pose proof (passes_numbered _ _ _ _ _ _ _ _ Rp Hp Ex). simpl. lia. }
  intros k Lk Lk'. destruct (Nat.lt_ge_cases k (pass_number m0 (g_eid g0))) as [L|L].
  { rewrite (N _ _ _ _ _ R Hp k L), (N _ _ _ _ _ R' Hp' k) by lia. reflexivity. }
  destruct A as [(_ & _ & U)|(_ & _ & _ & _ & l & x1 & x2 & A & An & _ & Al)]; [rewrite (undisturbed_pass _ _ _ U) in Lk; lia|].
  destruct B as [(_ & _ & U)|(_ & _ & _ & _ & l' & y1 & y2 & B & Bn & _ & Bl)]; [rewrite (undisturbed_pass _ _ _ U) in Lk'; lia|].
  apply a_passes_nonempty in A, B. fold (part_sets p (queue m0)) in A. fold (part_sets p (queue n0)) in B. rewrite <- Eq in B.
  set (j := k - pass_number m0 (g_eid g0)).
  assert (Lj : j < length l) by (unfold j; lia). assert (Lj' : j < length l') by (unfold j; lia).
  pose proof (Al j Lj) as X. pose proof (Bl j Lj') as Y. rewrite <- Pe in Y. replace (pass_number m0 (g_eid g0) + j) with k in X, Y by (unfold j; lia).
  apply (a_passes_same F _ _ _ _ _ _ A B j _ _ X Y).
Qed.
Theorem parts_fit : forall p F m0 g0 ts m g n0 h0 us n h t t' H H',
  running_beside (part_fit p F g0) m0 g0 ts m g -> running_beside (part_fit p F h0) n0 h0 us n h -> g_pc g0 = PStart -> g_pc h0 = PStart ->
  part_sets p (queue m0) = part_sets p (queue n0) ->
  x_total (m_ctxs m0 (g_eid g0)) = Some t -> x_total (m_ctxs n0 (g_eid h0)) = Some t' -> (forall s x, p x = true -> ts_lt ESU s -> t s x = t' s x) ->
  clock_after ESU H (the_clock (m_ctxs m0 (g_eid g0))) -> clock_after ESU H' (the_clock (m_ctxs n0 (g_eid h0))) -> coarse H = coarse H' ->
  pass_number m0 (g_eid g0) = pass_number n0 (g_eid h0) /\
  forall k, k < pass_number m (g_eid g0) -> k < pass_number n (g_eid h0) -> part_sets p (in_pass k ts) = part_sets p (in_pass k us).
Proof.
  intros p F m0 g0 ts m g n0 h0 us n h t t' H H' R R' Hp Hp' Eq Et Et' Es C C' Ec.
  destruct (ready_runs _ _ _ _ _ _ _ R Hp) as [Q _]. destruct (ready_runs _ _ _ _ _ _ _ R' Hp') as [Q' _]. destruct (rwp_passes _ _ _ _ _ _ Q) as (_ & Pm).
  apply (parts_agree p F m0 g0 ts m g n0 h0 us n h t t' H H'); auto.
  - intros x Px. eapply fit_about; eauto.
  - eapply rwp_weaken; [|exact Q]. apply fit_ruled.
  - eapply rwp_weaken; [|exact Q']. apply fit_ruled.
Qed.

(** ** the consideration sets of a part *)
Lemma walk_closed : forall p G G' a k n, part_closed p G G' -> p n = true -> walk G a k n -> walk G' a k n /\ p a = true.
Proof.
  intros p G G' a k n Cl Pn W. revert Pn. induction W as [|k b c W IH E D]; intros Pn; [split; [constructor|auto]|].
  destruct (Cl c Pn) as (ds & ds' & E1 & E2 & X). destruct E as (l & El & Il). assert (l = ds) by congruence. subst l.
  destruct (X b) as [X1 X2]. destruct (IH (X2 Il)) as [W' Pa]. split; [|auto]. econstructor; eauto. exists ds'. split; [auto|]. apply X1; auto.
Qed.
Lemma closed_sym : forall p G G', part_closed p G G' -> part_closed p G' G.
Proof.
  intros p G G' C n Pn. destruct (C n Pn) as (ds & ds' & A & B & X). exists ds', ds. split; [auto|]. split; [auto|]. intros d. destruct (X d) as [X1 X2]. split; [tauto|]. intros I. apply X2, X1; auto.
Qed.
Lemma closed_level : forall p m m' n i l, queue_built m -> queue_built m' -> part_closed p (m_graph m) (m_graph m') -> p n = true ->
  nth_error (m_levels m) i = Some l -> In n l -> exists l', nth_error (m_levels m') i = Some l' /\ In n l'.
Proof.
  intros p m m' n i l (Wf & q & Tq & P) (Wf' & q' & Tq' & P') Cl Pn E I.
  destruct (RunProps.Forall2_nth _ _ _ _ _ P _ _ E) as (l0 & E0 & P0). assert (I0 : In n l0) by (eapply Permutation_in; [apply Permutation_sym; eauto|auto]).
  destruct (TopoProofs.toposort_depth _ _ _ _ _ Wf Tq E0 I0) as ((a & W) & M).
  destruct (walk_closed _ _ _ _ _ _ Cl Pn W) as (W' & _).
  assert (G' : In n (concat q')).
  { apply (TopoProofs.toposort_partition _ _ Wf' Tq'). destruct (Cl n Pn) as (ds & ds' & _ & B & _). left. apply aget_In in B. apply in_map_iff. exists (n, ds'). auto. }
  apply in_concat in G'. destruct G' as (l1 & I1 & In1). apply In_nth_error in I1. destruct I1 as (j & Ej).
  destruct (TopoProofs.toposort_depth _ _ _ _ _ Wf' Tq' Ej In1) as ((b & Wb) & Mb).
  destruct (walk_closed _ _ _ _ _ _ (closed_sym _ _ _ Cl) Pn Wb) as (Wb' & _). apply M in Wb'. apply Mb in W'. assert (j = i) by lia. subst j.
  destruct (Forall2_nth_l _ _ _ _ _ P' _ _ Ej) as (l' & E' & Pl'). exists l'. split; [auto|]. eapply Permutation_in; eauto.
Qed.
Lemma nonempty_In : forall (l : list node), nonempty l = true <-> exists n, In n l.
Proof. intros [|n l]; simpl; split; try discriminate; auto. - intros (x & []). - intros _. exists n; auto. Qed.
Lemma part_sets_perm : forall p l l', Forall (@NoDup node) l -> Forall (@NoDup node) l' ->
  (forall i n, p n = true -> (exists a, nth_error l i = Some a /\ In n a) <-> (exists a, nth_error l' i = Some a /\ In n a)) ->
  Forall2 (@Permutation node) (part_sets p l) (part_sets p l').
Proof.
  assert (Z : forall p l, (forall i n, p n = true -> ~ exists a, nth_error l i = Some a /\ In n a) -> part_sets p l = []).
  { intros p. induction l as [|a l IH]; intros H; [reflexivity|]. unfold part_sets. simpl. destruct (filter p a) as [|x r] eqn:E.
    - simpl. apply IH. intros i n Pn (b & Eb & Ib). apply (H (S i) n Pn). exists b. auto.
    - exfalso. assert (I : In x (filter p a)) by (rewrite E; left; auto). apply filter_In in I. apply (H 0 x (proj2 I)). exists a. simpl. tauto. }
  intros p. induction l as [|a l IH]; intros l' Nd Nd' H.
  - rewrite (Z p l'); [constructor|]. intros i n Pn X. apply H in X; auto. destruct X as (b & E & _). destruct i; discriminate.
  - destruct l' as [|a' l'].
    + rewrite (Z p (a :: l)); [constructor|]. intros i n Pn X. apply H in X; auto. destruct X as (b & E & _). destruct i; discriminate.
    + inversion Nd as [|? ? N0 N1]; subst. inversion Nd' as [|? ? N0' N1']; subst.
      assert (P : Permutation (filter p a) (filter p a')).
      { apply NoDup_Permutation; try (apply NoDup_filter; auto). intros x. rewrite !filter_In. split; intros [I Px]; (split; [|auto]).
        - destruct (proj1 (H 0 x Px)) as (b & E & Ib); [exists a; auto|]. simpl in E. inversion E; subst; auto.
        - destruct (proj2 (H 0 x Px)) as (b & E & Ib); [exists a'; auto|]. simpl in E. inversion E; subst; auto. }
      assert (R : Forall2 (@Permutation node) (part_sets p l) (part_sets p l')) by (apply IH; auto; intros i n Pn; apply (H (S i) n Pn)).
      unfold part_sets in *. simpl. destruct (filter p a) as [|x r] eqn:E.
      * apply Permutation_nil in P. rewrite P. simpl. auto.
      * destruct (filter p a') as [|x' r']; [apply Permutation_sym, Permutation_nil in P; discriminate|]. simpl. constructor; auto.
Qed.
Theorem part_levels : forall p m m', queue_built m -> queue_built m' -> part_closed p (m_graph m) (m_graph m') ->
  Forall2 (@Permutation node) (part_sets p (m_levels m)) (part_sets p (m_levels m')).
Proof.
  intros p m m' B B' Cl.
  assert (N : forall m, queue_built m -> Forall (@NoDup node) (m_levels m)).
  { clear. intros m (Wf & q & T & P). destruct (TopoProofs.toposort_partition _ _ Wf T) as (Nd & _). apply Forall_forall. intros l I. apply In_nth_error in I. destruct I as (i & Ei).
    destruct (RunProps.Forall2_nth _ _ _ _ _ P _ _ Ei) as (l0 & E0 & P0). eapply Permutation_NoDup; [exact P0|]. apply nth_error_In in E0. clear -Nd E0.
    induction q as [|a q IH]; [destruct E0|]. simpl in Nd. destruct (BaseFacts.NoDup_app_elim _ _ _ Nd) as (X & Y & _). destruct E0 as [->|I]; auto. }
  apply part_sets_perm; auto. intros i n Pn. split; intros (a & E & I).
  - apply (closed_level p m m' n i a); auto.
  - apply (closed_level p m' m n i a); auto. apply closed_sym; auto.
Qed.
