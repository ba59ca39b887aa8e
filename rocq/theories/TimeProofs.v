(** Clocks and history trees against increment histories. *)
From Verif Require Export SpecTime BaseFacts.

Lemma ts_eqb_eq : forall a b, ts_eqb a b = true <-> a = b.
Proof. intros [] []; unfold ts_eqb; simpl; split; intros; congruence. Qed.
Lemma ts_eqb_neq : forall a b, ts_eqb a b = false <-> a <> b.
Proof. intros [] []; unfold ts_eqb; simpl; split; intros; congruence. Qed.
Lemma ts_eqb_refl : forall a, ts_eqb a a = true.
Proof. intros []; auto. Qed.
Lemma ts_ltb_lt : forall a b, ts_ltb a b = true <-> ts_lt a b.
Proof. intros; unfold ts_ltb, ts_lt; apply Nat.ltb_lt. Qed.
Lemma ts_leb_le : forall a b, ts_leb a b = true <-> ts_le a b.
Proof. intros; unfold ts_leb, ts_le; apply Nat.leb_le. Qed.
Lemma ts_ltb_ge : forall a b, ts_ltb a b = false <-> ts_le b a.
Proof. intros; unfold ts_ltb, ts_le; apply Nat.ltb_ge. Qed.
Lemma ts_val_inj : forall a b, ts_val a = ts_val b -> a = b.
Proof. intros [] []; simpl; congruence. Qed.
Lemma ts_child_val : forall s c, ts_child s = Some c <-> ts_val s = S (ts_val c).
Proof. intros [] []; unfold ts_child; simpl; split; intros; congruence. Qed.

(** ** units, latest first *)
Fixpoint units (c : timescale) (past : list timescale) : list (list timescale) :=
  match past with
  | [] => [[]]
  | s :: r =>
      if ts_eqb s c then [] :: units c r
      else match units c r with
           | u :: us => (s :: u) :: us
           | [] => [[s]]
           end
  end.
Lemma units_cons : forall c past, exists u us, units c past = u :: us.
Proof.
  induction past as [|s r (u & us & E)]; simpl; eauto.
  destruct (ts_eqb s c); rewrite ?E; eauto.
Qed.

(** [rep md sc t past]: t is the tree of a unit of scale sc whose events were past *)
Inductive rep (md : timescale) : timescale -> tree -> list timescale -> Prop :=
| rep_leaf : forall sc tot past,
    (forall c, ts_child sc = Some c -> ts_leb md c = false) ->
    (forall q, ts_lt q sc -> tot q = count q past) ->
    rep md sc (Tree sc [] tot) past
| rep_node : forall sc c ch tot past,
    ts_child sc = Some c -> ts_leb md c = true ->
    (forall q, ts_lt q sc -> tot q = count q past) ->
    Forall2 (rep md c) ch (units c past) ->
    rep md sc (Tree sc ch tot) past.

Lemma rep_scale : forall md sc t past, rep md sc t past -> h_scale t = sc.
Proof. intros md sc t past H; inversion H; auto. Qed.
Lemma rep_total : forall md sc t past q, rep md sc t past -> ts_lt q sc -> h_total t q = count q past.
Proof. intros md sc t past q H L; inversion H; subst; simpl; auto. Qed.

Lemma new_tree_rep : forall md s t, new_tree md s = Some t -> rep md s t [].
Proof.
  intros md s t; destruct md, s; vm_compute; intros H; inversion H; subst; clear H;
  repeat (first
    [ apply rep_leaf; [intros [] E; vm_compute in E |- *; congruence | intros; reflexivity]
    | eapply rep_node; [reflexivity|reflexivity|intros; reflexivity|simpl; constructor; [|constructor]] ]).
Qed.
Lemma new_tree_ok : forall md s, ts_lt CSE md -> ts_lt CSE s -> exists t, new_tree md s = Some t.
Proof. intros md s H1 H2; unfold ts_lt in *; destruct md, s; simpl in *; try lia; vm_compute; eauto. Qed.

Lemma count_cons : forall q s r, count q (s :: r) = (if ts_eqb q s then 1 else 0) + count q r.
Proof. intros; unfold count; simpl; destruct (ts_eqb q s); auto. Qed.

Lemma tot_cons : forall sc s tot past, 
  (forall q, ts_lt q sc -> tot q = count q past) ->
  forall q, ts_lt q sc -> upd_ts tot s (S (tot s)) q = count q (s :: past).
Proof.
  intros sc s tot past H q L. rewrite count_cons. unfold upd_ts.
  destruct (ts_eqb q s) eqn:E; [apply ts_eqb_eq in E; subst|]; simpl; rewrite H; auto.
Qed.

Lemma tree_incr_rep : forall md s n sc t past, ts_val sc <= n -> ts_lt CSE md ->
  rep md sc t past -> ts_lt s sc ->
  exists t', tree_incr md s t = Ok t' /\ rep md sc t' (s :: past).
Proof.
  intros md s n; induction n as [|n IH]; intros sc t past Ln Hmd R L.
  - unfold ts_lt in L; lia.
  - assert (Lb : ts_ltb s sc = true) by (apply ts_ltb_lt; auto).
    inversion R; subst.
    + assert (Hc : exists c, ts_child sc = Some c)
        by (destruct sc; unfold ts_lt in L; simpl in *; try lia; unfold ts_child; simpl; eauto).
      destruct Hc as (c & Hc). simpl; rewrite Hc, (H _ Hc), Lb.
      eexists; split; [reflexivity|]. apply rep_leaf; auto. apply tot_cons; auto.
    + simpl; rewrite H, H0, Lb.
      assert (Vc := H). apply ts_child_val in Vc.
      destruct (ts_eqb s c) eqn:E.
      * apply ts_eqb_eq in E; subst s.
        assert (Cc : ts_lt CSE c).
        { apply ts_leb_le in H0. unfold ts_le, ts_lt in *; lia. }
        destruct (new_tree_ok md c Hmd Cc) as (t' & Et). rewrite Et.
        eexists; split; [reflexivity|]. eapply rep_node; eauto.
        -- apply tot_cons; auto.
        -- simpl; rewrite ts_eqb_refl. constructor; auto. apply new_tree_rep; auto.
      * destruct (units_cons c past) as (u & us & Eu). rewrite Eu in H2. inversion H2; subst.
        destruct (IH c x u) as (t' & Et & Rt); auto.
        -- lia.
        -- apply ts_eqb_neq in E. unfold ts_lt in *.
           assert (ts_val s <> ts_val c) by (intros X; apply ts_val_inj in X; auto). lia.
        -- rewrite Et. eexists; split; [reflexivity|]. eapply rep_node; eauto.
           ++ apply tot_cons; auto.
           ++ simpl; rewrite E, Eu. constructor; auto.
Qed.

(** LIFE increments are rejected *)
Lemma tree_incr_life : forall md t past, rep md LIFE t past -> forall t', tree_incr md LIFE t <> Ok t'.
Proof.
  intros md t past R t' H. inversion R; subst; simpl in H; unfold ts_child in *; simpl in *.
  - rewrite (H0 ES eq_refl) in H. vm_compute in H; discriminate.
  - inversion H0; subst. rewrite H1 in H.
    destruct ch as [|x ch']; [vm_compute in H; discriminate|].
    change (ts_eqb LIFE ES) with false in H. cbv iota in H.
    destruct (tree_incr md LIFE x); vm_compute in H; discriminate.
Qed.

(** ** clock invariant *)
Fixpoint upto (s : timescale) (l : list timescale) : list timescale :=
  match l with [] => [] | x :: r => if ts_ltb s x then [] else x :: upto s r end.
Definition time_ok (t : Time) (past : list timescale) : Prop :=
  forall s, t_val t s = count s (upto s past).
Lemma time_ok_upto : forall t past, time_ok t past <-> forall s, t_val t s = count s (upto s past).
Proof. intros; unfold time_ok; tauto. Qed.
Lemma time_incr_ok : forall t past s, time_ok t past -> time_ok (time_incr s t) (s :: past).
Proof.
  intros t past s H. apply time_ok_upto. rewrite time_ok_upto in H. intros s'.
  assert (E : t_val (time_incr s t) s' = if ts_ltb s' s then 0 else upd_ts (t_val t) s (S (t_val t s)) s').
  { unfold time_incr. destruct (_ && _); simpl; auto. }
  rewrite E. simpl. destruct (ts_ltb s' s) eqn:L; auto.
  rewrite count_cons. unfold upd_ts. destruct (ts_eqb s' s) eqn:X; simpl.
  - apply ts_eqb_eq in X; subst; rewrite H; auto.
  - rewrite H; auto.
Qed.

Record clock_ok (md : timescale) (past : list timescale) (k : clock) : Prop := {
  ck_md : k_md k = md;
  ck_rep : rep md LIFE (k_tree k) past;
  ck_time : time_ok (k_time k) past;
  ck_life : Forall (fun s => ts_lt s LIFE) past
}.
Lemma clock_incr_ok : forall md past k s, ts_lt CSE md -> clock_ok md past k -> ts_lt s LIFE ->
  exists k', clock_incr s k = Ok k' /\ clock_ok md (s :: past) k'.
Proof.
  intros md past k s Hmd [M R T F] L. unfold clock_incr. rewrite M.
  destruct (tree_incr_rep md s 4 LIFE (k_tree k) past) as (t' & E & R'); auto.
  rewrite E. eexists; split; [reflexivity|]. constructor; simpl; auto. apply time_incr_ok; auto.
Qed.
Lemma clock_md_ok : forall md k, clock_md md = Some k -> clock_ok md [] k.
Proof.
  intros md k H. unfold clock_md in H. destruct (new_tree md LIFE) eqn:E; inversion H; subst.
  constructor; simpl; auto. apply new_tree_rep; auto. intros s; reflexivity.
Qed.
Lemma clock_md_cse : forall md k, clock_md md = Some k -> ts_lt CSE md.
Proof. intros [] k H; unfold ts_lt; simpl; try lia. vm_compute in H; discriminate. Qed.
Lemma clock_after_cse : forall md h k, clock_after md h k -> ts_lt CSE md.
Proof. intros md h k H; induction H; auto. eapply clock_md_cse; eauto. Qed.

Lemma clock_incr_inv : forall md past k s k', ts_lt CSE md -> clock_ok md past k -> clock_incr s k = Ok k' ->
  ts_lt s LIFE.
Proof.
  intros md past k s k' Hmd [M R T F] H. unfold clock_incr in H. rewrite M in H.
  destruct s; unfold ts_lt; simpl; try lia. exfalso.
  destruct (tree_incr md LIFE (k_tree k)) eqn:E; [|discriminate]. eapply tree_incr_life; eauto.
Qed.
Theorem clock_after_ok : forall md h k, clock_after md h k -> clock_ok md (rev h) k.
Proof.
  intros md h k H; induction H.
  - apply clock_md_ok; auto.
  - assert (Hmd := clock_after_cse _ _ _ H). rewrite rev_app_distr; simpl.
    assert (L := clock_incr_inv _ _ _ _ _ Hmd IHclock_after H0).
    destruct (clock_incr_ok md (rev h) k s Hmd IHclock_after L) as (k2 & E & O).
    rewrite E in H0; inversion H0; subst; auto.
  - destruct IHclock_after as [M R T F]; constructor; simpl; auto.
Qed.
Lemma new_clock_md : clock_md ESU = Some new_clock.
Proof. reflexivity. Qed.

(** ** histories: latest-first prefixes and oldest-first suffixes *)
Lemma count_rev : forall q l, count q (rev l) = count q l.
Proof. intros; unfold count. induction l as [|x r IH]; simpl; auto.
  rewrite filter_app, app_length; simpl. destruct (ts_eqb q x); simpl; rewrite ?IH; lia. Qed.
Lemma count_app : forall q a b, count q (a ++ b) = count q a + count q b.
Proof. intros; unfold count; rewrite filter_app, app_length; auto. Qed.

Fixpoint below (b : timescale) (l : list timescale) : list timescale :=
  match l with [] => [] | x :: r => if ts_leb b x then [] else x :: below b r end.

Lemma below_app : forall b l x r, Forall (fun s => ts_lt s b) l -> ts_le b x -> below b (l ++ x :: r) = l.
Proof.
  induction 1; intros L; simpl.
  - assert (E : ts_leb b x = true) by (apply ts_leb_le; auto). rewrite E; auto.
  - assert (E : ts_leb b x0 = false) by (unfold ts_leb; apply Nat.leb_gt; auto). rewrite E; f_equal; auto.
Qed.
Lemma below_all : forall b l, Forall (fun s => ts_lt s b) l -> below b l = l.
Proof.
  induction 1; simpl; auto.
  assert (E : ts_leb b x = false) by (unfold ts_leb; apply Nat.leb_gt; auto). rewrite E; f_equal; auto.
Qed.
Lemma below_since : forall b h h2, since_at_least b h h2 -> below b (rev h) = rev h2.
Proof.
  intros b h h2 [F [->|(h1 & x & -> & L)]].
  - apply below_all. apply Forall_rev; auto.
  - rewrite rev_app_distr; simpl. rewrite <- app_assoc; simpl. apply below_app; auto. apply Forall_rev; auto.
Qed.
Lemma upto_app : forall b l x r, Forall (fun s => ts_le s b) l -> ts_lt b x -> upto b (l ++ x :: r) = l.
Proof.
  induction 1; intros L; simpl.
  - assert (E : ts_ltb b x = true) by (apply ts_ltb_lt; auto). rewrite E; auto.
  - assert (E : ts_ltb b x0 = false) by (apply ts_ltb_ge; auto). rewrite E; f_equal; auto.
Qed.
Lemma upto_all : forall b l, Forall (fun s => ts_le s b) l -> upto b l = l.
Proof.
  induction 1; simpl; auto.
  assert (E : ts_ltb b x = false) by (apply ts_ltb_ge; auto). rewrite E; f_equal; auto.
Qed.
Lemma upto_since : forall s h h2, since_coarser s h h2 -> upto s (rev h) = rev h2.
Proof.
  intros b h h2 [F [->|(h1 & x & -> & L)]].
  - apply upto_all. apply Forall_rev; auto.
  - rewrite rev_app_distr; simpl. rewrite <- app_assoc; simpl. apply upto_app; auto. apply Forall_rev; auto.
Qed.
Lemma since_at_least_exists : forall b h, exists h2, since_at_least b h h2.
Proof.
  intros b h. induction h as [|x r (h2 & F & D)] using rev_ind.
  - exists []; split; auto.
  - destruct (ts_leb b x) eqn:E.
    + exists []; split; auto. right; exists r, x; split; auto. apply ts_leb_le; auto.
    + assert (Lx : ts_lt x b) by (unfold ts_leb in E; apply Nat.leb_gt in E; auto).
      exists (h2 ++ [x]); split; [apply Forall_app; auto|].
      destruct D as [->|(h1 & y & -> & L)]; auto.
      right; exists h1, y; split; auto. rewrite <- app_assoc; auto.
Qed.
Lemma since_coarser_exists : forall s h, exists h2, since_coarser s h h2.
Proof.
  intros b h. induction h as [|x r (h2 & F & D)] using rev_ind.
  - exists []; split; auto.
  - destruct (ts_ltb b x) eqn:E.
    + exists []; split; auto. right; exists r, x; split; auto. apply ts_ltb_lt; auto.
    + apply ts_ltb_ge in E. exists (h2 ++ [x]); split; [apply Forall_app; auto|].
      destruct D as [->|(h1 & y & -> & L)]; auto.
      right; exists h1, y; split; auto. rewrite <- app_assoc; auto.
Qed.

(** ** C39 *)
Theorem time_component : forall md h k s h2, clock_after md h k -> since_coarser s h h2 ->
  t_val (k_time k) s = count s h2.
Proof.
  intros md h k s h2 H S. apply clock_after_ok in H. destruct H as [M R T F].
  rewrite time_ok_upto in T. rewrite T, (upto_since _ _ _ S), count_rev; auto.
Qed.

(** ** walking down the latest children *)
Lemma hd_units : forall c past, Forall (fun s => ts_le s c) past -> hd [] (units c past) = below c past.
Proof.
  induction past as [|s r IH]; intros F; simpl; auto.
  inversion F; subst. destruct (ts_eqb s c) eqn:E.
  - apply ts_eqb_eq in E; subst. unfold ts_leb; rewrite Nat.leb_refl; auto.
  - destruct (units_cons c r) as (u & us & Eu). rewrite Eu in *; simpl in *.
    assert (X : ts_leb c s = false).
    { unfold ts_leb; apply Nat.leb_gt. apply ts_eqb_neq in E. unfold ts_le in H1.
      assert (ts_val s <> ts_val c) by (intros X; apply ts_val_inj in X; auto). lia. }
    rewrite X; f_equal; auto.
Qed.
Lemma below_below : forall a b l, ts_le a b -> below a (below b l) = below a l.
Proof.
  induction l as [|x r IH]; intros L; simpl; auto.
  destruct (ts_leb b x) eqn:E; simpl.
  - assert (X : ts_leb a x = true) by (apply ts_leb_le; apply ts_leb_le in E; unfold ts_le in *; lia). rewrite X; auto.
  - destruct (ts_leb a x); auto. f_equal; auto.
Qed.
Lemma below_lt : forall b l, Forall (fun s => ts_lt s b) (below b l).
Proof.
  induction l as [|x r IH]; simpl; auto. destruct (ts_leb b x) eqn:E; auto.
  constructor; auto. unfold ts_leb in E; apply Nat.leb_gt in E; auto.
Qed.

(** length of units *)
Lemma units_length : forall c past, length (units c past) = S (count c past).
Proof.
  induction past as [|s r IH]; simpl; auto. rewrite count_cons.
  destruct (ts_eqb s c) eqn:E.
  - apply ts_eqb_eq in E; subst; rewrite ts_eqb_refl; simpl; rewrite IH; auto.
  - assert (X : ts_eqb c s = false) by (apply ts_eqb_neq in E; apply ts_eqb_neq; auto). rewrite X.
    destruct (units_cons c r) as (u & us & Eu). rewrite Eu in *; simpl in *. auto.
Qed.

(** the nodes of a represented tree reached by following, below scale sc, positions counted
    from the oldest child *)
Lemma Forall2_len : forall A B (R : A -> B -> Prop) l1 l2, Forall2 R l1 l2 -> length l1 = length l2.
Proof. induction 1; simpl; auto. Qed.
Lemma child_at_units : forall md c ch us i, Forall2 (rep md c) ch us ->
  match nth_error us (length us - 1 - i), Nat.ltb i (length us) with
  | Some u, true => exists t, child_at ch i = Some t /\ rep md c t u
  | _, _ => child_at ch i = None
  end.
Proof.
  intros md c ch us i H. assert (L := Forall2_len _ _ _ _ _ H). unfold child_at. rewrite <- L.
  destruct (Nat.ltb_spec i (length ch)).
  - assert (P : length ch - 1 - i < length ch) by lia.
    clear L. revert P. generalize (length ch - 1 - i) as n. clear H0 i.
    induction H; intros n P; simpl in *; [lia|].
    destruct n; simpl; [eauto|]. apply IHForall2; lia.
  - destruct (nth_error us _); auto.
Qed.

(** chronological description of the node reached *)
Fixpoint follow (idx : timescale -> option nat) (cs : list timescale) (past : list timescale) : option (list timescale) :=
  match cs with
  | [] => Some past
  | c :: r =>
      let us := units c past in
      match idx c with
      | None => follow idx r (hd [] us)
      | Some i => if Nat.ltb i (length us) then
                    match nth_error us (length us - 1 - i) with Some u => follow idx r u | None => None end
                  else None
      end
  end.
Definition scales_between (top base : timescale) : list timescale :=
  filter (fun s => ts_leb base s && ts_ltb s top) [ES; ESU; PASS; CSE].

Lemma scales_between_cons : forall sc base, ts_lt base sc -> exists c, ts_child sc = Some c /\ scales_between sc base = c :: scales_between c base.
Proof.
  intros [] [] H; unfold ts_lt in H; simpl in H; try lia; eexists; split; reflexivity.
Qed.
Lemma scales_between_nil : forall sc base, ts_le sc base -> scales_between sc base = [].
Proof. intros [] [] H; unfold ts_le in H; simpl in H; try lia; reflexivity. Qed.

Lemma tree_walk_spec : forall md base idx fuel sc t past,
  ts_val sc - ts_val base <= fuel -> ts_le md base -> rep md sc t past ->
  match follow idx (scales_between sc base) past with
  | Some u => exists t', tree_walk base idx fuel t = Ok t' /\ rep md (if ts_ltb base sc then base else sc) t' u
  | None => tree_walk base idx fuel t = Err ETimeScale
  end.
Proof.
  intros md base idx fuel; induction fuel as [|f IH]; intros sc t past Lf Lmd R.
  - assert (L : ts_le sc base) by (unfold ts_le; lia).
    rewrite (scales_between_nil _ _ L). simpl. rewrite (rep_scale _ _ _ _ R).
    assert (X : ts_ltb base sc = false) by (apply ts_ltb_ge; auto). rewrite X; eauto.
  - simpl. rewrite (rep_scale _ _ _ _ R). destruct (ts_ltb base sc) eqn:X.
    + apply ts_ltb_lt in X. destruct (scales_between_cons _ _ X) as (c & Ec & Es). rewrite Es, Ec.
      assert (Vc := Ec). apply ts_child_val in Vc.
      assert (Hm : ts_leb md c = true) by (apply ts_leb_le; unfold ts_le, ts_lt in *; lia).
      inversion R; subst.
      { exfalso. rewrite (H _ Ec) in Hm; discriminate. }
      assert (c0 = c) by congruence; subst c0. simpl.
      destruct (idx c) as [i|].
      * pose proof (child_at_units md c ch (units c past) i H2) as Hc.
        destruct (Nat.ltb_spec i (length (units c past))).
        -- destruct (nth_error (units c past) (length (units c past) - 1 - i)) as [u|] eqn:Eu.
           ++ destruct Hc as (t' & E' & R'). rewrite E'.
              specialize (IH c t' u). assert (Lc : ts_val c - ts_val base <= f) by lia.
              specialize (IH Lc Lmd R').
              destruct (follow idx (scales_between c base) u); auto.
              destruct IH as (t2 & E2 & R2). exists t2; split; auto.
              destruct (ts_ltb base c) eqn:B; auto.
              apply ts_ltb_ge in B. unfold ts_le, ts_lt in *.
              assert (c = base) by (apply ts_val_inj; lia). subst; auto.
           ++ apply nth_error_None in Eu; lia.
        -- destruct (nth_error _ _); rewrite Hc; auto.
      * destruct (units_cons c past) as (u & us & Eu). rewrite Eu in H2; inversion H2 as [|x ? ? ? H5]; subst. rewrite Eu; simpl.
        assert (Lc : ts_val c - ts_val base <= f) by lia.
        specialize (IH c x u Lc Lmd H5).
        destruct (follow idx (scales_between c base) u); auto.
        destruct IH as (t2 & E2 & R2). exists t2; split; auto.
        destruct (ts_ltb base c) eqn:B; auto.
        apply ts_ltb_ge in B. unfold ts_le, ts_lt in *.
        assert (c = base) by (apply ts_val_inj; lia). subst; auto.
    + apply ts_ltb_ge in X. rewrite (scales_between_nil _ _ X). simpl. eauto.
Qed.

Lemma tree_total_relative_spec : forall md q idx t past, rep md LIFE t past ->
  ts_lt q LIFE -> ts_le md (base_scale q idx) -> ts_lt q (base_scale q idx) ->
  tree_total_relative q idx t =
  match follow idx (scales_between LIFE (base_scale q idx)) past with
  | Some u => Ok (count q u)
  | None => Err ETimeScale
  end.
Proof.
  intros md q idx t past R Lq Lm Lb. unfold tree_total_relative. rewrite (rep_scale _ _ _ _ R).
  assert (X : ts_leb LIFE q = false) by (unfold ts_leb; apply Nat.leb_gt; auto). rewrite X.
  assert (Y : ts_ltb LIFE (base_scale q idx) = false) by (destruct (base_scale q idx); reflexivity). rewrite Y.
  assert (Lf : ts_val LIFE - ts_val (base_scale q idx) <= 5) by (change (ts_val LIFE) with 4; lia).
  pose proof (tree_walk_spec md (base_scale q idx) idx 5 LIFE t past Lf Lm R) as S.
  destruct (follow idx (scales_between LIFE (base_scale q idx)) past).
  - destruct S as (t' & E & R'). rewrite E. f_equal. eapply rep_total; eauto.
    destruct (ts_ltb (base_scale q idx) LIFE) eqn:Z; auto.
  - rewrite S; auto.
Qed.

(** ** C38: relative totals *)
Lemma base_scale_single : forall q b i, ts_lt q b ->
  base_scale q (fun s => if ts_eqb s b then Some i else if ts_eqb s LIFE then Some 0 else None) = b.
Proof. intros [] [] i H; unfold ts_lt in H; simpl in H; try lia; reflexivity. Qed.

Lemma upto_below_life : forall l, Forall (fun s => ts_lt s LIFE) l -> below LIFE l = l.
Proof. intros; apply below_all; auto. Qed.

(* following the latest child everywhere, with the index of the base the current one *)
Lemma follow_latest : forall past b i, Forall (fun s => ts_lt s LIFE) past ->
  ts_lt CSE b -> ts_lt b LIFE ->
  i = count b (upto b past) ->
  follow (fun s => if ts_eqb s b then Some i else if ts_eqb s LIFE then Some 0 else None)
         (scales_between LIFE b) past = Some (below b past).
Proof.
  intros past b i F L1 L2 Hi.
  assert (F' : Forall (fun s => ts_le s ES) past).
  { eapply Forall_impl; [|exact F]. intros s; unfold ts_lt, ts_le; simpl; lia. }
  assert (U : forall s c, ts_val c = S (ts_val s) -> upto s past = below c past).
  { intros s c V. clear - V. induction past as [|x r IH]; simpl; auto.
    assert (E : ts_ltb s x = ts_leb c x) by (unfold ts_ltb, ts_leb; rewrite V; reflexivity).
    rewrite E; destruct (ts_leb c x); auto; f_equal; auto. }
  assert (last : forall c p, Forall (fun s => ts_le s c) p ->
     Nat.ltb (count c p) (length (units c p)) = true /\
     nth_error (units c p) (length (units c p) - 1 - count c p) = Some (below c p)).
  { intros c p Fp. rewrite units_length. split; [apply Nat.ltb_lt; lia|].
    replace (S (count c p) - 1 - count c p) with 0 by lia.
    rewrite <- hd_units by auto. destruct (units_cons c p) as (u & us & ->); auto. }
  assert (G : forall c c' p, ts_val c' = S (ts_val c) -> Forall (fun s => ts_le s c) (below c' p)).
  { intros c c' p V. eapply Forall_impl; [|apply below_lt]. intros s; unfold ts_lt, ts_le; lia. }
  destruct b; unfold ts_lt in *; simpl in L1, L2; try lia.
  - (* PASS *) change (scales_between LIFE PASS) with [ES; ESU; PASS]; cbn [follow].
    rewrite (U PASS ESU) in Hi by reflexivity.
    change (ts_eqb ES PASS) with false; change (ts_eqb ES LIFE) with false;
    change (ts_eqb ESU PASS) with false; change (ts_eqb ESU LIFE) with false; change (ts_eqb PASS PASS) with true; cbv iota.
    rewrite (hd_units ES past) by auto.
    rewrite (hd_units ESU (below ES past)) by (apply (G ESU ES); auto).
    rewrite (below_below ESU ES past) by (unfold ts_le; simpl; lia).
    destruct (last PASS (below ESU past) (G PASS ESU past eq_refl)) as [A B]. rewrite <- Hi in A, B. rewrite A, B.
    rewrite below_below by (unfold ts_le; simpl; lia). auto.
  - (* ESU *) change (scales_between LIFE ESU) with [ES; ESU]; cbn [follow].
    rewrite (U ESU ES) in Hi by reflexivity.
    change (ts_eqb ES ESU) with false; change (ts_eqb ES LIFE) with false; change (ts_eqb ESU ESU) with true; cbv iota.
    rewrite (hd_units ES past) by auto.
    destruct (last ESU (below ES past) (G ESU ES past eq_refl)) as [A B]. rewrite <- Hi in A, B. rewrite A, B.
    rewrite below_below by (unfold ts_le; simpl; lia). auto.
  - (* ES *) change (scales_between LIFE ES) with [ES]; cbn [follow].
    change (ts_eqb ES ES) with true; cbv iota.
    rewrite (upto_all ES past F') in Hi.
    destruct (last ES past F') as [A B]. rewrite <- Hi in A, B. rewrite A, B. auto.
Qed.

Theorem total_relative : forall md h k q b h2, clock_after md h k ->
  ts_lt q b -> ts_le md b -> since_at_least b h h2 ->
  clock_total_relative q b k = Ok (count q h2).
Proof.
  intros md h k q b h2 H Lq Lm S.
  assert (Hc := clock_after_cse _ _ _ H). apply clock_after_ok in H. destruct H as [M R T F].
  unfold clock_total_relative, clock_total_relative_at.
  rewrite (tree_total_relative_spec md q _ _ _ R); rewrite ?base_scale_single; auto.
  2: { destruct b; unfold ts_lt in *; simpl in *; lia. }
  rewrite <- (count_rev q h2), <- (below_since _ _ _ S).
  destruct (ts_eqb b LIFE) eqn:E.
  - apply ts_eqb_eq in E; subst b. simpl. rewrite below_all; auto.
  - rewrite follow_latest; auto.
    + unfold ts_lt, ts_le in *; lia.
    + apply ts_eqb_neq in E. destruct b; unfold ts_lt; simpl; try lia; congruence.
Qed.

(** totals at the root *)
Theorem root_total : forall md h k q, clock_after md h k -> ts_lt q LIFE -> h_total (k_tree k) q = count q h.
Proof.
  intros md h k q H L. apply clock_after_ok in H. destruct H as [M R T F].
  rewrite (rep_total _ _ _ _ _ R L), count_rev; auto.
Qed.

(** ** C40: past scopes *)
Lemma units_app_last : forall c l1 x, units c (l1 ++ [x]) =
  if ts_eqb x c then units c l1 ++ [[]]
  else match units c l1 with
       | us => removelast us ++ [last us [] ++ [x]]
       end.
Proof.
  induction l1 as [|y r IH]; intros x; simpl.
  - destruct (ts_eqb x c); auto.
  - rewrite IH. destruct (ts_eqb y c) eqn:Ey.
    + destruct (ts_eqb x c); auto. destruct (units_cons c r) as (u & us & E). rewrite E. reflexivity.
    + destruct (ts_eqb x c).
      * destruct (units_cons c r) as (u & us & E). rewrite E. reflexivity.
      * destruct (units_cons c r) as (u & us & E). rewrite E.
        destruct us; simpl; auto.
Qed.
Lemma segments_cons : forall c h, exists u us, segments c h = u :: us.
Proof.
  induction h as [|s r (u & us & E)]; simpl; eauto.
  destruct (ts_eqb s c); rewrite ?E; eauto.
Qed.
Lemma units_segments : forall c h, units c (rev h) = rev (map (@rev timescale) (segments c h)).
Proof.
  induction h as [|s r IH]; simpl; auto.
  rewrite units_app_last, IH. destruct (segments_cons c r) as (u & us & E). rewrite E in *.
  destruct (ts_eqb s c).
  - reflexivity.
  - simpl map. simpl rev. rewrite removelast_last, last_last. reflexivity.
Qed.
Lemma nth_error_rev : forall A (l : list A) i, i < length l -> nth_error (rev l) (length l - 1 - i) = nth_error l i.
Proof.
  intros A l i L. destruct (nth_error l i) as [x|] eqn:E; [|apply nth_error_None in E; lia].
  rewrite (nth_error_nth' (rev l) x) by (rewrite rev_length; lia).
  rewrite rev_nth by lia. f_equal. replace (length l - S (length l - 1 - i)) with i by lia.
  apply nth_error_nth; auto.
Qed.
Lemma nth_units_segments : forall c h i,
  (if Nat.ltb i (length (units c (rev h))) then nth_error (units c (rev h)) (length (units c (rev h)) - 1 - i) else None)
  = option_map (@rev timescale) (nth_error (segments c h) i).
Proof.
  intros c h i. rewrite units_segments. rewrite rev_length, map_length.
  destruct (Nat.ltb_spec i (length (segments c h))).
  - replace (length (segments c h)) with (length (map (@rev timescale) (segments c h))) at 1 by apply map_length.
    rewrite nth_error_rev by (rewrite map_length; auto). apply nth_error_map.
  - assert (E : nth_error (segments c h) i = None) by (apply nth_error_None; auto). rewrite E; auto.
Qed.

Definition scope (i j : nat) : timescale -> option nat :=
  fun s => match s with ES => Some i | ESU => Some j | LIFE => Some 0 | _ => None end.
Theorem past_scope : forall md h k q i j, clock_after md h k -> ts_lt q ESU -> ts_le md ESU ->
  tree_total_relative q (scope i j) (k_tree k) =
  match nth_error (segments ES h) i with
  | Some u => match nth_error (segments ESU u) j with
              | Some v => Ok (count q v)
              | None => Err ETimeScale
              end
  | None => Err ETimeScale
  end.
Proof.
  intros md h k q i j H Lq Lm. apply clock_after_ok in H. destruct H as [M R T F].
  assert (B : base_scale q (scope i j) = ESU) by (destruct q; unfold ts_lt in Lq; simpl in Lq; try lia; reflexivity).
  rewrite (tree_total_relative_spec md q _ _ _ R); rewrite ?B; auto.
  2: { destruct q; unfold ts_lt in *; simpl in *; lia. }
  change (scales_between LIFE ESU) with [ES; ESU]; cbn [follow scope].
  pose proof (nth_units_segments ES h i) as E1.
  destruct (nth_error (segments ES h) i) as [u|]; simpl in E1.
  - destruct (Nat.ltb i (length (units ES (rev h)))); [|discriminate]. rewrite E1.
    pose proof (nth_units_segments ESU u j) as E2.
    destruct (nth_error (segments ESU u) j) as [v|]; simpl in E2.
    + destruct (Nat.ltb j (length (units ESU (rev u)))); [|discriminate]. rewrite E2. rewrite count_rev; auto.
    + destruct (Nat.ltb j (length (units ESU (rev u)))); auto. rewrite E2; auto.
  - destruct (Nat.ltb i (length (units ES (rev h)))); auto. rewrite E1; auto.
Qed.
(** one index, for an environment sequence *)
Definition scope_es (i : nat) : timescale -> option nat :=
  fun s => match s with ES => Some i | LIFE => Some 0 | _ => None end.
Theorem past_scope_es : forall md h k q i, clock_after md h k -> ts_lt q ES -> ts_le md ES ->
  tree_total_relative q (scope_es i) (k_tree k) =
  match nth_error (segments ES h) i with
  | Some u => Ok (count q u)
  | None => Err ETimeScale
  end.
Proof.
  intros md h k q i H Lq Lm. apply clock_after_ok in H. destruct H as [M R T F].
  assert (B : base_scale q (scope_es i) = ES) by (destruct q; unfold ts_lt in Lq; simpl in Lq; try lia; reflexivity).
  rewrite (tree_total_relative_spec md q _ _ _ R); rewrite ?B; auto.
  2: { destruct q; unfold ts_lt in *; simpl in *; lia. }
  change (scales_between LIFE ES) with [ES]; cbn [follow scope_es].
  pose proof (nth_units_segments ES h i) as E1.
  destruct (nth_error (segments ES h) i) as [u|]; simpl in E1.
  - destruct (Nat.ltb i (length (units ES (rev h)))); [|discriminate]. rewrite E1. rewrite count_rev; auto.
  - destruct (Nat.ltb i (length (units ES (rev h)))); auto. rewrite E1; auto.
Qed.


(** increments of every scale but LIFE succeed *)
Theorem clock_incr_succeeds : forall md h k s, clock_after md h k -> ts_lt s LIFE ->
  exists k', clock_incr s k = Ok k'.
Proof.
  intros md h k s H L. assert (Hc := clock_after_cse _ _ _ H). apply clock_after_ok in H.
  destruct (clock_incr_ok _ _ _ _ Hc H L) as (k' & E & _); eauto.
Qed.
Theorem clock_incr_prev : forall s k k', clock_incr s k = Ok k' -> k_prev k' = Some (k_time k).
Proof. intros s k k' H. unfold clock_incr in H. destruct (tree_incr _ _ _); inversion H; auto. Qed.
(** every history without LIFE increments is the history of a clock *)
Theorem clock_after_exists : forall md h, ts_lt CSE md -> no_life h -> exists k, clock_after md h k.
Proof.
  intros md h Hmd N. induction h as [|s h IH] using rev_ind.
  - destruct (new_tree_ok md LIFE Hmd) as (t & E); [unfold ts_lt; simpl; lia|].
    exists (mkClock t md time0 None). apply ca_new. unfold clock_md; rewrite E; auto.
  - apply Forall_app in N; destruct N as [N1 N2]. destruct (IH N1) as (k & Hk).
    inversion N2; subst. destruct (clock_incr_succeeds _ _ _ s Hk) as (k' & E); auto.
    exists k'; eapply ca_incr; eauto.
Qed.
(** the tree depth limits which bases can be asked for *)
Lemma tree_walk_too_fine : forall md base idx fuel sc t past, ts_lt base sc -> ts_lt base md ->
  rep md sc t past -> tree_walk base idx fuel t = Err ETimeScale.
Proof.
  intros md base idx fuel; induction fuel as [|f IH]; intros sc t past L Lm R.
  - simpl. rewrite (rep_scale _ _ _ _ R). apply ts_ltb_lt in L; rewrite L; auto.
  - simpl. rewrite (rep_scale _ _ _ _ R). assert (L' := L). apply ts_ltb_lt in L'; rewrite L'.
    destruct (scales_between_cons _ _ L) as (c & Ec & _). rewrite Ec.
    inversion R; subst; simpl.
    + destruct (idx c); unfold child_at; simpl; auto.
    + assert (c0 = c) by congruence; subst c0.
      assert (Lc : ts_lt base c) by (apply ts_leb_le in H0; unfold ts_le, ts_lt in *; lia).
      destruct (idx c) as [i|].
      * pose proof (child_at_units md c ch (units c past) i H2) as Hc.
        destruct (nth_error _ _) as [u|]; [destruct (Nat.ltb i _)|].
        -- destruct Hc as (t' & E' & R'). rewrite E'. eapply IH; eauto.
        -- rewrite Hc; auto.
        -- rewrite Hc; auto.
      * destruct H2; simpl; auto. eapply IH; eauto.
Qed.
Theorem total_relative_too_fine : forall md h k q b, clock_after md h k -> ts_lt q b -> ts_lt b md ->
  clock_total_relative q b k = Err ETimeScale.
Proof.
  intros md h k q b H Lq Lm. apply clock_after_ok in H. destruct H as [M R T F].
  unfold clock_total_relative, clock_total_relative_at, tree_total_relative.
  rewrite (rep_scale _ _ _ _ R), base_scale_single by auto.
  destruct (ts_leb LIFE q); auto. destruct (ts_ltb LIFE b); auto.
  rewrite (tree_walk_too_fine md b _ 5 LIFE _ (rev h)); auto. destruct b, md; unfold ts_lt in *; simpl in *; lia.
Qed.
(** any indices *)
Lemma base_finest : forall q idx b, finest_given q idx b -> base_scale q idx = b.
Proof.
  intros q idx b (Lq & Gb & Fb). unfold base_scale. cbn [fold_left].
  assert (F1 := Fb ES). assert (F2 := Fb ESU). assert (F3 := Fb PASS).
  destruct (idx LIFE) as [x0|], (idx ES) as [x1|] eqn:E1, (idx ESU) as [x2|] eqn:E2, (idx PASS) as [x3|] eqn:E3; destruct q, b;
    unfold ts_lt, ts_le in *; cbn [ts_val isSome andb] in *; try lia; try reflexivity;
    try (exfalso; destruct Gb as [Gb|Gb]; [discriminate|congruence]);
    try (exfalso; assert (X := F1 ltac:(lia) ltac:(discriminate)); lia);
    try (exfalso; assert (X := F2 ltac:(lia) ltac:(discriminate)); lia);
    try (exfalso; assert (X := F3 ltac:(lia) ltac:(discriminate)); lia).
Qed.
Lemma follow_part : forall idx cs h, follow idx cs (rev h) = option_map (@rev timescale) (part idx cs h).
Proof.
  intros idx. induction cs as [|c cs IH]; intros h; [reflexivity|]. cbn [follow part]. unfold chosen. destruct (idx c) as [i|].
  - pose proof (nth_units_segments c h i) as E. destruct (nth_error (segments c h) i) as [u|]; cbn [option_map] in E.
    + destruct (Nat.ltb i _); [|discriminate]. rewrite E. apply IH.
    + destruct (Nat.ltb i _); auto. rewrite E. auto.
  - assert (L : length (segments c h) = length (units c (rev h))) by (rewrite units_segments, rev_length, map_length; auto).
    pose proof (nth_units_segments c h (length (segments c h) - 1)) as E. destruct (units_cons c (rev h)) as (u & us & Eu).
    rewrite L, Eu in *. cbn [length] in *. replace (S (length us) - 1) with (length us) in * by lia.
    destruct (Nat.ltb_spec (length us) (S (length us))); [|lia]. rewrite Nat.sub_diag in E. cbn [nth_error hd] in *.
    destruct (nth_error (segments c h) (length us)) as [w|]; [|discriminate]. injection E as ->. apply IH.
Qed.
Theorem past_indices : forall md h k q idx b, clock_after md h k -> finest_given q idx b ->
  (ts_le md b -> tree_total_relative q idx (k_tree k) = match part idx (down_to b) h with Some u => Ok (count q u) | None => Err ETimeScale end) /\
  (ts_lt b md -> tree_total_relative q idx (k_tree k) = Err ETimeScale).
Proof.
  intros md h k q idx b H F. assert (B := base_finest _ _ _ F). destruct F as (Lq & _).
  assert (Ll : ts_lt q LIFE) by (destruct q, b; unfold ts_lt in *; simpl in *; lia).
  apply clock_after_ok in H. destruct H as [M R T _]. split; intros Lm.
  - rewrite (tree_total_relative_spec md q _ _ _ R); rewrite ?B; auto.
    replace (scales_between LIFE b) with (down_to b) by (destruct b; reflexivity). rewrite follow_part.
    destruct (part idx (down_to b) h); simpl; auto. rewrite count_rev. auto.
  - unfold tree_total_relative. rewrite (rep_scale _ _ _ _ R), B.
    destruct (ts_leb LIFE q); auto. destruct (ts_ltb LIFE b); auto.
    rewrite (tree_walk_too_fine md b _ 5 LIFE _ (rev h)); auto. destruct b, md; unfold ts_lt in *; simpl in *; lia.
Qed.
(** asking for a scale that is not finer than the base silently counts over the whole life *)
Theorem total_relative_coarse_query : forall md h k q b, clock_after md h k -> ts_le b q -> ts_lt q LIFE ->
  clock_total_relative q b k = Ok (count q h).
Proof.
  intros md h k q b H Lq L. assert (R := root_total _ _ _ q H L). apply clock_after_ok in H. destruct H as [M Rp T F].
  unfold clock_total_relative, clock_total_relative_at, tree_total_relative.
  rewrite (rep_scale _ _ _ _ Rp).
  assert (B : forall i, base_scale q (fun s => if ts_eqb s b then Some i else if ts_eqb s LIFE then Some 0 else None) = LIFE).
  { intros i. destruct q, b; unfold ts_le, ts_lt in *; simpl in *; try lia; reflexivity. }
  rewrite B. assert (X : ts_leb LIFE q = false) by (destruct q; unfold ts_lt in *; simpl in *; try lia; reflexivity).
  rewrite X. simpl. rewrite (rep_scale _ _ _ _ Rp). simpl. rewrite R; auto.
Qed.
Theorem clock_incr_no_life : forall md h k k', clock_after md h k -> clock_incr LIFE k <> Ok k'.
Proof.
  intros md h k k' H E. assert (Hc := clock_after_cse _ _ _ H). apply clock_after_ok in H.
  assert (L := clock_incr_inv _ _ _ _ _ Hc H E). unfold ts_lt in L; simpl in L; lia.
Qed.
