(** What resuming a generator can change at all, whatever the outcome. *)
From Verif Require Import BaseFacts SpecCond SpecRun CondSetFacts.

(** everything outside the entries of e and the condition state is the same *)
Record fixed (e : eid) (m m' : core) : Prop := {
  fx_nodes : m_nodes m' = m_nodes m;
  fx_graph : m_graph m' = m_graph m;
  fx_levels : m_levels m' = m_levels m;
  fx_exact : m_exact m' = m_exact m;
  fx_unit : m_default_unit m' = m_default_unit m;
  fx_tconds : m_tconds m' = m_tconds m;
  fx_basic : m_basic m' = m_basic m;
  fx_owners : m_owners m' = m_owners m;
  fx_next : m_next m' = m_next m;
  fx_other : forall e', e' <> e -> m_ctxs m' e' = m_ctxs m e'
}.
Lemma fixed_refl : forall e m, fixed e m m.
Proof. intros; constructor; auto. Qed.
Lemma fixed_trans : forall e a b c, fixed e a b -> fixed e b c -> fixed e a c.
Proof. intros e a b c [] []; constructor; intros; try congruence. rewrite fx_other1, fx_other0; auto. Qed.
Lemma fixed_ctx : forall e m x, fixed e m (set_ctx m e x).
Proof. intros; constructor; auto. intros e' D. simpl. apply upd_other; auto. Qed.
Lemma fixed_cst : forall e m st, fixed e m (set_cst m st).
Proof. intros; constructor; auto. Qed.
Lemma fixed_satisfied : forall e m e' c r m', satisfied m e' c = (r, m') -> fixed e m m'.
Proof. intros e m e' c r m' H. unfold satisfied in H. destruct (eval _ _ _ _ _). inversion H; subst. apply fixed_cst. Qed.
Lemma fixed_round : forall level m e exec ch r m', round m e level exec ch = (r, m') -> fixed e m m'.
Proof.
  induction level as [|n l IH]; intros m e exec ch r m' H; simpl in H.
  - inversion H; subst; apply fixed_refl.
  - destruct (mem n exec); [eauto|]. destruct (aget n (m_basic m)); [|inversion H; subst; apply fixed_refl].
    destruct (satisfied m e c) as [[[|]|] m1] eqn:S; pose proof (fixed_satisfied e _ _ _ _ _ S) as F.
    + destruct (mem n (m_nodes m1)); [|inversion H; subst; auto].
      eapply fixed_trans; [exact F|]. eapply fixed_trans; [|eapply IH; eauto]. apply fixed_ctx.
    + eapply fixed_trans; [exact F|]. eauto.
    + inversion H; subst; auto.
Qed.
Lemma fixed_level : forall fuel m e level exec r m', do_level fuel m e level exec = Some (r, m') -> fixed e m m'.
Proof.
  induction fuel as [|f IH]; intros m e level exec r m' H; simpl in H; [discriminate|].
  destruct (round m e level exec false) as [[[ex [|]]|] m1] eqn:R; pose proof (fixed_round _ _ _ _ _ _ _ R) as F.
  - eapply fixed_trans; eauto.
  - inversion H; subst; auto.
  - inversion H; subst; auto.
Qed.
Lemma fixed_tc : forall m e tc s r m', check_tc m e tc s = (r, m') -> fixed e m m'.
Proof. intros m e tc s r m' H. unfold check_tc in H. destruct (tc s); [eapply fixed_satisfied; eauto|inversion H; subst; apply fixed_refl]. Qed.
Lemma fixed_terminated : forall m e tc r m', terminated m e tc = (r, m') -> fixed e m m'.
Proof.
  intros m e tc r m' H. unfold terminated in H. destruct (check_tc m e tc ESU) as [[[|]|] m1] eqn:C; pose proof (fixed_tc _ _ _ _ _ _ C) as F.
  - inversion H; subst; auto.
  - eapply fixed_trans; [exact F|]. eapply fixed_tc; eauto.
  - inversion H; subst; auto.
Qed.
Lemma fixed_append : forall m e abs s r m', append_exec m e abs s = (r, m') -> fixed e m m'.
Proof.
  intros m e abs s r m' H. unfold append_exec in H. destruct (x_list _); [|inversion H; subst; apply fixed_refl].
  destruct abs; [destruct (x_stamps _)|]; inversion H; subst; apply fixed_ctx.
Qed.
Lemma fixed_incr : forall s m e m', incr_clock s m e = Ok m' -> fixed e m m'.
Proof. intros s m e m' H. unfold incr_clock in H. destruct (clock_incr _ _); inversion H; subst. apply fixed_ctx. Qed.
Definition inner_core (r : inner_result) : core := match r with IYield m _ _ _ | IEnd m _ | IErr m _ | IFuel m => m end.
Lemma fixed_inner : forall rest m g i ch, fixed (g_eid g) m (inner_core (inner m g rest i ch)).
Proof.
  induction rest as [|level rest IH]; intros m g i ch; cbn [inner]; [apply fixed_refl|].
  destruct (terminated m (g_eid g) (g_tc g)) as [[[|]|] m1] eqn:T; pose proof (fixed_terminated _ _ _ _ _ T) as F; auto.
  destruct (do_level (S (length level)) m1 (g_eid g) level []) as [[[exec|] m2]|] eqn:D; auto.
  - pose proof (fixed_level _ _ _ _ _ _ _ D) as F2. destruct (nonempty exec || g_abs g).
    + destruct (append_exec m2 (g_eid g) (g_abs g) exec) as [[|] m3] eqn:A; simpl; eauto using fixed_trans, fixed_append.
    + eapply fixed_trans; [|apply IH]. eapply fixed_trans; eauto.
  - simpl. eauto using fixed_trans, fixed_level.
Qed.
Definition tail_core (r : tail_result) : core := match r with TYield m | TNext m | TErr m _ => m end.
Lemma fixed_tail : forall m g ch, fixed (g_eid g) m (tail_core (pass_tail m g ch)).
Proof.
  intros m g ch. unfold pass_tail. destruct (negb ch && negb (g_abs g)).
  - destruct (append_exec m (g_eid g) false []) as [[|] m1] eqn:A; simpl; eapply fixed_append; eauto.
  - destruct (incr_clock PASS m (g_eid g)) eqn:I; simpl; [eapply fixed_incr; eauto|apply fixed_refl].
Qed.
Lemma fixed_finish : forall m g, fixed (g_eid g) m (fst (fst (finish m g))).
Proof.
  intros m g. unfold finish. destruct (if g_skip g then Ok m else incr_clock ESU m (g_eid g)) as [m1|] eqn:I; [|apply fixed_refl].
  assert (F : fixed (g_eid g) m m1) by (destruct (g_skip g); [inversion I; subst; apply fixed_refl|eapply fixed_incr; eauto]).
  destruct (check_tc m1 (g_eid g) (g_tc g) ES) as [[|] m2] eqn:C; pose proof (fixed_tc _ _ _ _ _ _ C) as F2; [destruct (x_list _)|]; simpl; eauto using fixed_trans.
Qed.
Lemma fixed_outer : forall fuel m g, fixed (g_eid g) m (fst (fst (outer fuel m g))).
Proof.
  induction fuel as [|f IH]; intros m g; cbn [outer]; [apply fixed_refl|].
  destruct (terminated m (g_eid g) (g_tc g)) as [[[|]|] m1] eqn:T; pose proof (fixed_terminated _ _ _ _ _ T) as F; auto.
  - eapply fixed_trans; [exact F|]. apply fixed_finish.
  - pose proof (fixed_inner (queue (reset_counts_total PASS m1 (g_eid g))) (reset_counts_total PASS m1 (g_eid g)) g 0 false) as FI.
    assert (F2 : fixed (g_eid g) m (inner_core (inner (reset_counts_total PASS m1 (g_eid g)) g (queue (reset_counts_total PASS m1 (g_eid g))) 0 false))).
    { eapply fixed_trans; [exact F|]. eapply fixed_trans; [|exact FI]. apply fixed_ctx. }
    destruct (inner _ _ _ _ _) as [m3 s i c|m3 c|m3 ex|m3]; simpl in F2; auto.
    pose proof (fixed_tail m3 g c) as FT. destruct (pass_tail m3 g c) as [m4|m4|m4 ex]; simpl in FT; simpl; eauto using fixed_trans.
Qed.

(** ** with the start of a run *)
Record grown (e : eid) (m m' : core) : Prop := {
  gw_nodes : m_nodes m' = m_nodes m;
  gw_graph : m_graph m' = m_graph m;
  gw_levels : m_levels m' = m_levels m;
  gw_exact : m_exact m' = m_exact m;
  gw_unit : m_default_unit m' = m_default_unit m;
  gw_tconds : m_tconds m' = m_tconds m;
  gw_next : m_next m <= m_next m';
  gw_owners : forall o, o < m_next m -> m_owners m' o = m_owners m o;
  gw_basic : forall n c, aget n (m_basic m') = Some c -> aget n (m_basic m) = Some c \/ (aget n (m_basic m) = None /\ forall o, In o (oids c) -> m_next m <= o < m_next m');
  gw_kept : forall n c, aget n (m_basic m) = Some c -> aget n (m_basic m') = Some c;
  gw_keys : NoDup (akeys (m_basic m)) -> NoDup (akeys (m_basic m'));
  gw_other : forall e', e' <> e -> m_ctxs m' e' = m_ctxs m e';
  gw_fresh : fresh_ids m -> fresh_ids m' /\
    forall n c, aget n (m_basic m) = None -> aget n (m_basic m') = Some c -> NoDup (oids c) /\ forall o, In o (oids c) -> m_owners m' o = Some n
}.
Lemma grown_refl : forall e m, grown e m m.
Proof. intros; constructor; auto. intros F. split; auto. intros; congruence. Qed.
Lemma grown_fixed : forall e m m', fixed e m m' -> grown e m m'.
Proof.
  intros e m m' []; constructor; try (intros; try congruence; rewrite ?fx_next0, ?fx_basic0 in *; auto; fail).
  intros F. split; [|intros; congruence]. intros o L. rewrite fx_owners0. apply F. lia.
Qed.
Lemma grown_trans : forall e a b c, grown e a b -> grown e b c -> grown e a c.
Proof.
  intros e a b c G1 G2. destruct G1 as [x1 x2 x3 x4 x5 x6 x7 x8 x9 x10 x11 x12 x13], G2 as [y1 y2 y3 y4 y5 y6 y7 y8 y9 y10 y11 y12 y13]. constructor; try congruence; auto.
  - lia.
  - intros o L. rewrite y8 by lia. auto.
  - intros n c' E. destruct (y9 _ _ E) as [E'|(E' & Q)].
    + destruct (x9 _ _ E') as [|(N & Q)]; auto. right. split; auto. intros o O. specialize (Q o O). lia.
    + right. split; [|intros o O; specialize (Q o O); lia]. destruct (aget n (m_basic a)) eqn:Z; auto. apply x10 in Z. congruence.
  - intros e' D. rewrite y12, x12; auto.
  - intros F. destruct (x13 F) as [F1 N1]. destruct (y13 F1) as [F2 N2]. split; auto. intros n c' A C.
    destruct (aget n (m_basic b)) as [c2|] eqn:B; [|auto]. pose proof (y10 _ _ B) as E. assert (c' = c2) by congruence. subst c2.
    destruct (N1 _ _ A B) as [ND O]. split; auto. intros o X. rewrite y8; auto. destruct (x9 _ _ B) as [E'|[_ Q]]; [congruence|]. apply Q; auto.
Qed.
Lemma default_parts_oids : forall ds k o, In o (flat_map oids (default_parts k ds)) -> k <= o < k + length ds.
Proof. induction ds as [|d ds IH]; intros k o H; simpl in *; [tauto|]. destruct H as [<-|H]; [lia|]. apply IH in H. lia. Qed.
Lemma default_cond_oids : forall k ds o, In o (oids (fst (default_cond k ds))) -> k <= o < snd (default_cond k ds).
Proof.
  intros k [|d [|d' ds]] o H; unfold default_cond in *; cbn [fst snd] in *; [simpl in H; lia|simpl in H; lia|].
  simpl in H. destruct H as [<-|[<-|[<-|H]]]; simpl; try lia. apply default_parts_oids in H. lia.
Qed.
Lemma default_cond_next : forall k ds, k < snd (default_cond k ds).
Proof. intros k [|d [|d' ds]]; unfold default_cond; cbn [snd]; lia. Qed.
Lemma default_parts_NoDup : forall ds k, NoDup (flat_map oids (default_parts k ds)).
Proof. induction ds as [|d ds IH]; intros k; simpl; constructor; auto. intros X. apply default_parts_oids in X. lia. Qed.
Lemma default_cond_NoDup : forall k ds, NoDup (oids (fst (default_cond k ds))).
Proof.
  intros k [|d [|d' ds]]; unfold default_cond; cbn [fst]; try (repeat constructor; simpl; tauto).
  pose proof (default_parts_NoDup (d :: d' :: ds) (S k)) as N.
  change (NoDup (k :: flat_map oids (default_parts (S k) (d :: d' :: ds)))). constructor; auto.
  intros X. apply default_parts_oids in X. lia.
Qed.
Lemma grown_defaults : forall e ns m m', add_defaults ns m = Ok m' -> grown e m m'.
Proof.
  intros e. induction ns as [|n ns IH]; intros m m' H; simpl in H; [inversion H; subst; apply grown_refl|].
  destruct (ahas n (m_basic m)) eqn:A; [auto|]. destruct (aget n (m_graph m)) as [ds|]; [|discriminate].
  destruct (default_cond (m_next m) ds) as [c nx] eqn:D.
  pose proof (default_cond_oids (m_next m) ds) as O. pose proof (default_cond_next (m_next m) ds) as L. rewrite D in O, L. cbn [fst snd] in O, L.
  eapply grown_trans; [|apply IH; eauto]. assert (N : aget n (m_basic m) = None) by (unfold ahas in A; destruct (aget n (m_basic m)); [discriminate|auto]).
  constructor; simpl; auto.
  - lia.
  - intros o Lo. apply set_owner_other. intros X. apply O in X. lia.
  - intros n' c' E. rewrite aget_aset in E. destruct (Nat.eqb_spec n' n) as [->|]; [inversion E; subst; auto|auto].
  - intros n' c' E. rewrite aget_aset. destruct (Nat.eqb_spec n' n) as [->|]; [congruence|auto].
  - intros K. apply NoDup_aset; auto.
  - intros F. pose proof (default_cond_NoDup (m_next m) ds) as ND. rewrite D in ND. simpl in ND.
    assert (SO : forall o, In o (oids c) -> set_owner (Some n) c (m_owners m) o = Some n) by (apply set_owner_new; auto; intros o X _; apply F; apply O; auto).
    split.
    + intros o Lo. simpl in *. rewrite set_owner_other; [apply F; lia|]. intros X. apply O in X. lia.
    + intros n' c' E1 E2. simpl in *. rewrite aget_aset in E2. destruct (Nat.eqb_spec n' n) as [->|]; [inversion E2; subst; auto|congruence].
Qed.
Lemma fixed_init_counts : forall m e b r m', init_counts_base m e b = (r, m') -> fixed e m m'.
Proof.
  intros m e b r m' H. unfold init_counts_base in H.
  repeat match type of H with context [match copy_entry ?x ?y with _ => _ end] => destruct (copy_entry x y) end; inversion H; subst; apply fixed_ctx || apply fixed_refl.
Qed.
Lemma grown_start : forall m g r m', start m g = (r, m') -> grown (g_eid g) m m'.
Proof.
  intros m g r m' H. unfold start in H. destruct (validate_run_state m) as [r1 m1] eqn:V.
  assert (G1 : grown (g_eid g) m m1).
  { unfold validate_run_state in V. destruct (toposort (m_graph m)); [|inversion V; subst; apply grown_refl|inversion V; subst; apply grown_refl].
    destruct (add_defaults (m_nodes m) m) eqn:A; inversion V; subst; [eapply grown_defaults; eauto|apply grown_refl]. }
  destruct r1 as [x|ex]; [|inversion H; subst; auto].
  assert (G2 : grown (g_eid g) m (set_clock m1 (g_eid g) (the_clock (m_ctxs m1 (g_eid g))))) by (eapply grown_trans; [exact G1|apply grown_fixed, fixed_ctx]).
  cbv zeta in H. match type of H with context [setup_absolute ?a ?b ?c] => destruct (setup_absolute a b c) as [m3|] eqn:SA end; [|inversion H; subst; auto].
  assert (G3 : grown (g_eid g) m m3).
  { eapply grown_trans; [exact G2|]. unfold setup_absolute in SA. destruct (absolute_conditions _ _); [inversion SA; subst; apply grown_fixed, fixed_ctx|].
    destruct (unit_of _ _); inversion SA; subst; apply grown_fixed, fixed_ctx. }
  destruct (init_counts_base m3 (g_eid g) (g_base g)) as [[x'|] m4] eqn:IC; pose proof (fixed_init_counts _ _ _ _ _ IC) as F4.
  - inversion H; subst. eapply grown_trans; [exact G3|]. apply grown_fixed. eapply fixed_trans; [exact F4|]. eapply fixed_trans; [apply fixed_ctx|apply fixed_ctx].
  - inversion H; subst. eapply grown_trans; [exact G3|]. apply grown_fixed; auto.
Qed.
Lemma start_eid : forall m g g1 m1, start m g = (Ok g1, m1) -> g_eid g1 = g_eid g.
Proof.
  intros m g g1 m1 H. unfold start in H. destruct (validate_run_state m) as [[|] ?]; [|discriminate]. cbv zeta in H.
  match type of H with context [setup_absolute ?a ?b ?c] => destruct (setup_absolute a b c) end; [|discriminate].
  destruct (init_counts_base _ _ _) as [[|] ?]; inversion H; auto.
Qed.
Theorem grown_resume : forall fuel m g m' g' o, resume fuel m g = (m', g', o) -> grown (g_eid g) m m'.
Proof.
  intros fuel m g m' g' o H. unfold resume in H. cbv zeta in H.
  assert (C : forall r, match r with
    | IYield m3 s i ch => (m3, at_pc g (PLevel i ch), OYield s)
    | IErr m3 ex => (m3, at_pc g PDone, ORaise ex)
    | IFuel m3 => (m3, g, OFuel)
    | IEnd m3 ch => match pass_tail m3 g ch with
        | TYield m4 => (m4, at_pc g PIdle, OYield [])
        | TErr m4 ex => (m4, at_pc g PDone, ORaise ex)
        | TNext m4 => outer fuel m4 g
        end
    end = (m', g', o) -> fixed (g_eid g) m (inner_core r) -> grown (g_eid g) m m').
  { intros [m3 s i ch|m3 ch|m3 ex|m3] E F; simpl in F; try (inversion E; subst; apply grown_fixed; auto; fail).
    pose proof (fixed_tail m3 g ch) as FT. destruct (pass_tail m3 g ch) as [m4|m4|m4 ex]; simpl in FT.
    - inversion E; subst. apply grown_fixed. eapply fixed_trans; eauto.
    - pose proof (fixed_outer fuel m4 g) as FO. rewrite E in FO. simpl in FO. apply grown_fixed. eapply fixed_trans; [exact F|]. eapply fixed_trans; eauto.
    - inversion E; subst. apply grown_fixed. eapply fixed_trans; eauto. }
  destruct (g_pc g) as [|i ch| |].
  - destruct (start m g) as [[g1|] m1] eqn:S; pose proof (grown_start _ _ _ _ S) as G.
    + pose proof (fixed_outer fuel m1 g1) as FO. rewrite H in FO. simpl in FO. rewrite (start_eid _ _ _ _ S) in FO.
      eapply grown_trans; [exact G|]. apply grown_fixed; auto.
    + inversion H; subst; auto.
  - destruct (incr_clock CSE m (g_eid g)) as [m1|] eqn:I; [|inversion H; subst; apply grown_refl].
    apply C in H; auto. eapply fixed_trans; [eapply fixed_incr; eauto|]. apply fixed_inner.
  - destruct (incr_clock CSE m (g_eid g)) as [m1|] eqn:I; [|inversion H; subst; apply grown_refl].
    pose proof (fixed_incr _ _ _ _ I) as F1. destruct (incr_clock PASS m1 (g_eid g)) as [m2|] eqn:I2.
    + pose proof (fixed_outer fuel m2 g) as FO. rewrite H in FO. simpl in FO. apply grown_fixed. eapply fixed_trans; [exact F1|]. eapply fixed_trans; [eapply fixed_incr; eauto|auto].
    + inversion H; subst; apply grown_fixed; auto.
  - inversion H; subst; apply grown_refl.
Qed.
