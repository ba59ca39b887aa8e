(** Termination condition dicts. *)
From Coq Require Import String.
From Verif Require Import BaseFacts SpecTerm.

Lemma ts_eqb_spec : forall a b, ts_eqb a b = true <-> a = b.
Proof. intros a b; split; [destruct a, b; simpl; intros; auto; discriminate|intros ->; destruct b; auto]. Qed.
Lemma ts_eqb_refl : forall a, ts_eqb a a = true.
Proof. intros; apply ts_eqb_spec; auto. Qed.
Lemma tkey_eqb_spec : forall a b, tkey_eqb a b = true <-> a = b.
Proof.
  intros [s|s|n] [t|t|k]; simpl; split; intros H; try discriminate; try congruence.
  - apply ts_eqb_spec in H; congruence.
  - inversion H; apply ts_eqb_refl.
  - apply String.eqb_eq in H; congruence.
  - inversion H; apply String.eqb_refl.
  - apply Nat.eqb_eq in H; congruence.
  - inversion H; apply Nat.eqb_refl.
Qed.
Lemma tkey_eqb_refl : forall a, tkey_eqb a a = true.
Proof. intros; apply tkey_eqb_spec; auto. Qed.
Lemma tkey_eqb_sym : forall a b, tkey_eqb a b = tkey_eqb b a.
Proof.
  intros a b. destruct (tkey_eqb a b) eqn:E, (tkey_eqb b a) eqn:F; auto.
  - apply tkey_eqb_spec in E. subst. rewrite tkey_eqb_refl in F. discriminate.
  - apply tkey_eqb_spec in F. subst. rewrite tkey_eqb_refl in E. discriminate.
Qed.
Lemma td_get_In : forall k d, td_get k d <> None <-> In k (map fst d).
Proof.
  induction d as [|[k' v] r IH]; simpl; [split; [congruence|tauto]|]. destruct (tkey_eqb k k') eqn:E.
  - apply tkey_eqb_spec in E. subst. split; auto. congruence.
  - rewrite IH. split; auto. intros [->|]; auto. rewrite tkey_eqb_refl in E. discriminate.
Qed.
Lemma td_get_None : forall k d, td_get k d = None <-> ~ In k (map fst d).
Proof. intros. rewrite <- td_get_In. destruct (td_get k d); split; intros; try congruence; try tauto. exfalso; apply H; discriminate. Qed.
Lemma td_get_set : forall k k' v d, td_get k' (td_set k v d) = if tkey_eqb k' k then Some v else td_get k' d.
Proof.
  induction d as [|[k2 v2] r IH]; simpl.
  - destruct (tkey_eqb k' k) eqn:E; auto.
  - destruct (tkey_eqb k k2) eqn:E; simpl.
    + apply tkey_eqb_spec in E. subst k2. destruct (tkey_eqb k' k); auto.
    + destruct (tkey_eqb k' k2) eqn:F; auto. apply tkey_eqb_spec in F. subst k2. rewrite tkey_eqb_sym, E. auto.
Qed.
Lemma td_set_keys : forall k v d, In k (map fst d) -> map fst (td_set k v d) = map fst d.
Proof.
  induction d as [|[k2 v2] r IH]; simpl; intros H; [tauto|]. destruct (tkey_eqb k k2) eqn:E; simpl; auto. rewrite IH; auto.
  destruct H as [->|]; auto. rewrite tkey_eqb_refl in E. discriminate.
Qed.
Lemma td_set_new : forall k v d, ~ In k (map fst d) -> length (td_set k v d) = S (length d).
Proof.
  induction d as [|[k2 v2] r IH]; simpl; intros H; auto. destruct (tkey_eqb k k2) eqn:E; simpl; auto.
  - apply tkey_eqb_spec in E. subst. tauto.
  - rewrite IH; auto.
Qed.

Section Names.
Variable attr : string -> option timescale.
Lemma last_value_app : forall l l', last_value (l ++ l') = match last_value l' with Some v => Some v | None => last_value l end.
Proof. intros. unfold last_value. rewrite rev_app_distr. destruct (rev l'); auto. Qed.
Lemma named_app : forall t a b, named_values attr t (a ++ b) = named_values attr t a ++ named_values attr t b.
Proof. intros. apply flat_map_app. Qed.
Lemma own_value : forall t d, NoDup (map fst d) -> last_value (own_values t d) = td_get (KScale t) d.
Proof.
  intros t d. induction d as [|[k v] r IH]; simpl; intros N; auto. inversion N; subst.
  unfold own_values in *. cbn [flat_map fst]. rewrite last_value_app, IH by auto.
  destruct k as [s|s|n]; simpl; try (destruct (td_get _ r); reflexivity).
  destruct (ts_eqb s t) eqn:E.
  - apply ts_eqb_spec in E. subst. rewrite ts_eqb_refl. assert (X : td_get (KScale t) r = None) by (apply td_get_None; auto). rewrite X. auto.
  - destruct (ts_eqb t s) eqn:F; [apply ts_eqb_spec in F; subst; rewrite ts_eqb_refl in E; discriminate|]. destruct (td_get _ r); auto.
Qed.

(** the loop over the keys [map fst rest], with [done] already handled *)
Lemma loop_spec : forall rest done d0 d del r d', d0 = (done ++ rest)%list -> NoDup (map fst d0) ->
  map fst d = map fst d0 -> (forall s, td_get (KStr s) d = td_get (KStr s) d0) ->
  (forall t, td_get (KScale t) d = match last_value (named_values attr t done) with Some v => Some v | None => td_get (KScale t) d0 end) ->
  (forall k, In k del <-> In k (map fst done) /\ exists s, k = KStr s /\ attr s <> None) ->
  (forall s t, In (KStr s) (map fst done) -> attr s = Some t -> In (KScale t) (map fst d0)) ->
  parse_loop attr (map fst rest) d del = (r, d') ->
  match r with
  | Err ex => ex = ERuntime /\ names_missing attr d0 /\ length d' = S (length d0)
  | Ok del' =>
      ~ names_missing attr d0 /\ map fst d' = map fst d0 /\
      (forall t, td_get (KScale t) d' = match last_value (named_values attr t d0) with Some v => Some v | None => td_get (KScale t) d0 end) /\
      (forall k, In k del' <-> In k (map fst d0) /\ exists s, k = KStr s /\ attr s <> None)
  end.
Proof.
  induction rest as [|[k v] rest IH]; intros done d0 d del r d' E0 N KM SM TM DM AM P; cbn [map fst parse_loop] in P.
  - rewrite app_nil_r in E0. subst done. inversion P; subst r d'. split; [|split; [auto|split; auto]].
    intros (s & t & A & B & C). apply C. eapply AM; eauto.
  - assert (E1 : d0 = ((done ++ [(k, v)]) ++ rest)%list) by (rewrite <- app_assoc; auto).
    assert (skip : (forall s t, k = KStr s -> attr s = Some t -> False) -> parse_loop attr (map fst rest) d del = (r, d') -> match r with
      | Err ex => ex = ERuntime /\ names_missing attr d0 /\ length d' = S (length d0)
      | Ok del' => ~ names_missing attr d0 /\ map fst d' = map fst d0 /\
         (forall t, td_get (KScale t) d' = match last_value (named_values attr t d0) with Some v => Some v | None => td_get (KScale t) d0 end) /\
         (forall k, In k del' <-> In k (map fst d0) /\ exists s, k = KStr s /\ attr s <> None) end).
    { intros NS P'. refine (IH (done ++ [(k, v)])%list d0 d del r d' E1 N KM SM _ _ _ P').
      - intros t. rewrite named_app, last_value_app. unfold named_values at 1. simpl. rewrite app_nil_r.
        destruct k as [u|s|n]; simpl; auto. destruct (attr s) as [u|] eqn:Y; [exfalso; eapply NS; eauto|simpl; auto].
      - intros k'. rewrite DM, map_app, in_app_iff. simpl. split; [tauto|]. intros [[A|[<-|[]]] (s & B & C)]; eauto.
        exfalso. destruct (attr s) eqn:Y; [eapply NS; eauto|congruence].
      - intros s t A B. rewrite map_app, in_app_iff in A. simpl in A. destruct A as [A|[A|[]]]; eauto. exfalso. eapply NS; eauto. }
    destruct k as [u|s|n]; try (apply skip; auto; intros; discriminate).
    destruct (attr s) as [t|] eqn:AS; [|apply skip; auto; intros s' t' X Y; inversion X; subst; congruence].
    assert (GV : td_get (KStr s) d = Some v).
    { rewrite SM. subst d0. clear -N. induction done as [|[k2 v2] done IH]; simpl in *; [rewrite String.eqb_refl; auto|].
      inversion N; subst. destruct k2; simpl; auto. destruct (String.eqb_spec s s0) as [->|]; auto. exfalso. apply H1. rewrite map_app. apply in_or_app. right. simpl; auto. }
    rewrite GV in P. cbv zeta in P. destruct (in_dec (fun a b => ltac:(destruct (tkey_eqb a b) eqn:Q; [left; apply tkey_eqb_spec; auto|right; intros X; apply tkey_eqb_spec in X; congruence])) (KScale t) (map fst d)) as [I|I].
    + assert (KS := td_set_keys (KScale t) v d I). assert (LS : length (td_set (KScale t) v d) = length d) by (rewrite <- (map_length fst), KS, map_length; auto).
      rewrite LS, Nat.eqb_refl in P. refine (IH (done ++ [(KStr s, v)])%list d0 _ _ r d' E1 N _ _ _ _ _ P).
      * rewrite KS; auto.
      * intros s'. rewrite td_get_set. simpl. auto.
      * intros t'. rewrite td_get_set, named_app, last_value_app. unfold named_values at 1. simpl. rewrite AS, app_nil_r.
        destruct (ts_eqb t' t) eqn:TT.
        -- apply ts_eqb_spec in TT. subst. rewrite ts_eqb_refl. auto.
        -- destruct (ts_eqb t t') eqn:TT'; [apply ts_eqb_spec in TT'; subst; rewrite ts_eqb_refl in TT; discriminate|]. simpl. auto.
      * intros k'. simpl. rewrite DM, map_app, in_app_iff. simpl. split.
        -- intros [<-|[A B]]; [split; auto; exists s; split; auto; congruence|auto].
        -- intros [[A|[A|[]]] B]; auto.
      * intros s' t' A B. rewrite map_app, in_app_iff in A. simpl in A. destruct A as [A|[A|[]]]; eauto. inversion A; subst. rewrite AS in B. inversion B; subst. rewrite <- KM. auto.
    + rewrite (td_set_new _ _ _ I) in P. destruct (Nat.eqb_spec (S (length d)) (length d)); [lia|]. inversion P; subst r d'. split; auto. split.
      * exists s, t. split; [subst d0; rewrite map_app; apply in_or_app; right; simpl; auto|]. split; auto. rewrite <- KM. auto.
      * rewrite td_set_new by auto. f_equal. rewrite <- (map_length fst d), KM, map_length. auto.
Qed.

Lemma keep_keys : forall d k, k_in k (map fst (parse_keep d)) = true <-> exists s c, k = KScale s /\ In (KScale s, VCond c) d.
Proof.
  intros d k. unfold k_in. rewrite existsb_exists. split.
  - intros (k' & A & B). apply tkey_eqb_spec in B. subst k'. apply in_map_iff in A. destruct A as ([k2 v] & E & F). apply filter_In in F. simpl in E. subst k2. destruct F as [F G].
    destruct k; try discriminate. destruct v; try discriminate. eauto.
  - intros (s & c & -> & I). exists (KScale s). split; [|apply tkey_eqb_refl]. apply in_map_iff. exists (KScale s, VCond c). split; auto. apply filter_In. auto.
Qed.
Lemma td_get_entry : forall d k v, NoDup (map fst d) -> (In (k, v) d <-> td_get k d = Some v).
Proof.
  induction d as [|[k' v'] r IH]; simpl; intros k v N; [split; [tauto|discriminate]|]. inversion N; subst. destruct (tkey_eqb k k') eqn:E.
  - apply tkey_eqb_spec in E. subst. split; intros X; [|inversion X; auto]. destruct X as [X|X]; [inversion X; auto|]. exfalso. apply H1. apply (in_map fst) in X. auto.
  - rewrite <- IH by auto. split; auto. intros [X|X]; auto. inversion X; subst. rewrite tkey_eqb_refl in E. discriminate.
Qed.
Lemma keep_get : forall d s, NoDup (map fst d) -> td_get (KScale s) (parse_keep d) = match td_get (KScale s) d with Some (VCond c) => Some (VCond c) | _ => None end.
Proof.
  induction d as [|[k v] r IH]; simpl; intros s N; auto. inversion N; subst. destruct k as [u|u|n]; simpl.
  - destruct v as [c|n]; simpl.
    + destruct (ts_eqb s u); auto.
    + destruct (ts_eqb s u) eqn:E; auto. apply ts_eqb_spec in E. subst u. rewrite IH by auto.
      destruct (td_get (KScale s) r) eqn:G; auto. apply td_get_None in H1. congruence.
  - auto.
  - auto.
Qed.
(** what the parser accepts, and what it returns *)
Theorem parse_spec : forall d, wf_dict d -> match parse_termination_conditions attr d with
  | (Ok p, d') => ~ names_missing attr d /\ well_formed attr d /\ map fst d' = map fst d /\ forall t, td_conds p t = entry_cond attr d t
  | (Err ex, d') => (ex = ERuntime /\ names_missing attr d /\ length d' = S (length d)) \/
                    (ex = EScheduler /\ ~ names_missing attr d /\ ~ well_formed attr d)
  end.
Proof.
  intros d N. unfold parse_termination_conditions. destruct (parse_loop attr (map fst d) d []) as [r d1] eqn:P.
  pose proof (loop_spec d [] d d [] r d1 eq_refl N eq_refl (fun _ => eq_refl)) as LS. simpl in LS.
  specialize (LS (fun _ => eq_refl)).
  assert (LS' := LS ltac:(intros k; simpl; tauto) ltac:(simpl; tauto) P). clear LS. rename LS' into LS. destruct r as [del|ex]; [|left; auto].
  destruct LS as (NM & KM & TM & DM).
  assert (EN : forall t, td_get (KScale t) d1 = entry attr d t).
  { intros t. unfold entry. rewrite last_value_app, own_value by auto. apply TM. }
  assert (N1 : NoDup (map fst d1)) by (rewrite KM; auto).
  assert (INV : forall k, In k (parse_invalid d1 del) <-> In k (map fst d) /\ match k with KScale t => forall c, entry attr d t <> Some (VCond c) | KStr s => attr s = None | KOther _ => True end).
  { intros k. unfold parse_invalid. rewrite filter_In, KM. split; intros [A B]; split; auto.
    - apply andb_true_iff in B. destruct B as [B1 B2]. apply negb_true_iff in B1, B2.
      destruct k as [t|s|n]; auto.
      + intros c X. rewrite <- EN in X. apply td_get_entry in X; auto.
        assert (k_in (KScale t) (map fst (parse_keep d1)) = true) by (apply keep_keys; eauto). congruence.
      + destruct (attr s) eqn:AS; auto. exfalso. assert (X : k_in (KStr s) del = true); [|congruence].
        apply existsb_exists. exists (KStr s). split; [|apply tkey_eqb_refl]. apply DM. split; auto. exists s. split; auto. congruence.
    - apply andb_true_iff. split; apply negb_true_iff.
      + destruct (k_in k (map fst (parse_keep d1))) eqn:X; auto. apply keep_keys in X. destruct X as (s & c & -> & X). exfalso.
        apply td_get_entry in X; auto. rewrite EN in X. eapply B; eauto.
      + destruct (k_in k del) eqn:X; auto. exfalso. unfold k_in in X. apply existsb_exists in X. destruct X as (k' & X & Y). apply tkey_eqb_spec in Y. subst k'.
        apply DM in X. destruct X as [_ (s & -> & X)]. auto. }
  assert (EIN : forall t v, entry attr d t = Some v -> In (KScale t) (map fst d)).
  { intros t v X. rewrite <- EN in X. rewrite <- KM. apply td_get_In. congruence. }
  destruct (parse_invalid d1 del) as [|k l] eqn:PI.
  - split; auto. split; [|split; auto].
    + split.
      * intros k K. destruct k as [t|s|n]; auto.
        -- intros X. apply (proj2 (INV (KStr s))). auto.
        -- apply (proj2 (INV (KOther n))). auto.
      * intros t v X. destruct v as [c|n]; [eauto|]. exfalso. apply (proj2 (INV (KScale t))). split; [eauto|]. intros c. congruence.
    + intros t. unfold td_conds, entry_cond. rewrite keep_get by auto. rewrite EN. destruct (entry attr d t) as [[|]|]; auto.
  - right. split; auto. split; auto. intros [W1 W2]. destruct (proj1 (INV k) (or_introl eq_refl)) as [A B]. destruct k as [t|s|n].
    + assert (X : exists v, entry attr d t = Some v).
      { rewrite <- EN. destruct (td_get (KScale t) d1) eqn:G; eauto. apply td_get_None in G. rewrite KM in G. tauto. }
      destruct X as (v & X). destruct (W2 _ _ X) as (c & ->). eapply B; eauto.
    + apply (W1 _ A). auto.
    + apply (W1 _ A).
Qed.
Lemma no_named : forall (d : tdict), (forall k, In k (map fst d) -> exists t, k = KScale t) -> forall t, named_values attr t d = [].
Proof.
  induction d as [|[k v] r IH]; simpl; intros H t; auto. rewrite IH; auto. destruct (H k (or_introl eq_refl)) as (u & ->). auto.
Qed.
(** a dict from time scales to conditions is accepted and means itself *)
Theorem parse_plain : forall d, wf_dict d -> (forall k v, In (k, v) d -> exists t c, k = KScale t /\ v = VCond c) ->
  exists p d', parse_termination_conditions attr d = (Ok p, d') /\
    forall t c, td_conds p t = Some c <-> In (KScale t, VCond c) d.
Proof.
  intros d N V. pose proof (parse_spec d N) as S. destruct (parse_termination_conditions attr d) as [[p|ex] d'].
  - exists p, d'. split; auto. destruct S as (_ & _ & _ & S). intros t c. rewrite S. unfold entry_cond, entry.
    rewrite no_named by (intros k K; apply in_map_iff in K; destruct K as ([k' v] & <- & K); destruct (V _ _ K) as (u & c' & -> & _); exists u; auto).
    rewrite app_nil_r, own_value by auto. rewrite td_get_entry by auto. destruct (td_get (KScale t) d) as [[|]|]; split; intros X; inversion X; auto.
  - exfalso. assert (NN : ~ names_missing attr d).
    { intros (s & t & A & B & C). apply in_map_iff in A. destruct A as ([k v] & E & A). destruct (V _ _ A) as (u & c & -> & _). discriminate. }
    destruct S as [(_ & S & _)|(_ & _ & S)]; [auto|]. apply S. split.
    + intros k K. apply in_map_iff in K. destruct K as ([k' v] & <- & K). destruct (V _ _ K) as (u & c & -> & _). simpl. auto.
    + intros t v. unfold entry. rewrite no_named by (intros k K; apply in_map_iff in K; destruct K as ([k' v'] & <- & K); destruct (V _ _ K) as (u & c' & -> & _); exists u; auto).
      rewrite app_nil_r, own_value by auto. intros X. apply td_get_entry in X; auto. destruct (V _ _ X) as (_ & c & _ & ->). eauto.
Qed.

Lemma assigns_app : forall a b d, assigns attr (a ++ b) d = match assigns attr a d with Some d' => assigns attr b d' | None => None end.
Proof. induction a as [|x a IH]; intros b d; simpl; auto. destruct (assign_termination_conds attr x d) as [[[|] d'] ?]; auto. Qed.
Theorem assigns_spec : forall l d d', (forall a, In (Some a) l -> wf_dict a) -> d_tc d = d_default_tc d -> assigns attr l d = Some d' ->
  d_default_tc d' = d_default_tc d /\ forall t, d_tc d' t = in_force attr (d_default_tc d) (rev l) t.
Proof.
  intros l. induction l as [|a l IH] using rev_ind; intros d d' W D A.
  - inversion A; subst. split; auto. intros t. simpl. congruence.
  - rewrite assigns_app in A. destruct (assigns attr l d) as [d1|] eqn:A1; [|discriminate]. simpl in A.
    destruct (IH d d1) as [I1 I2]; auto; [intros x X; apply W; apply in_or_app; auto|]. rewrite rev_app_distr. simpl rev. simpl app.
    destruct a as [a|]; simpl in A.
    + assert (WA : wf_dict a) by (apply W; apply in_or_app; right; simpl; auto). pose proof (parse_spec a WA) as S.
      destruct (parse_termination_conditions attr a) as [[p|] a']; [|discriminate]. inversion A; subst. simpl. split; auto. intros t.
      destruct S as (_ & _ & _ & S). unfold combine_tconds. rewrite S. destruct (entry_cond attr a t); auto.
    + inversion A; subst. simpl. split; auto. intros t. rewrite I1. auto.
Qed.

(** the dict built by the constructor, {**defaults, **arg} *)
Lemma td_set_fresh : forall k v d, ~ In k (map fst d) -> td_set k v d = (d ++ [(k, v)])%list.
Proof.
  induction d as [|[k2 v2] r IH]; simpl; intros H; auto. destruct (tkey_eqb k k2) eqn:E; [apply tkey_eqb_spec in E; subst; tauto|]. rewrite IH; auto.
Qed.
Lemma tkey_in_dec : forall k (l : list tkey), In k l \/ ~ In k l.
Proof.
  induction l as [|a l [I|I]]; simpl; auto. destruct (tkey_eqb a k) eqn:E; [left; left; apply tkey_eqb_spec; auto|].
  right. intros [->|X]; auto. rewrite tkey_eqb_refl in E. discriminate.
Qed.
Lemma td_set_in : forall k v d k', In k' (map fst (td_set k v d)) <-> k' = k \/ In k' (map fst d).
Proof.
  intros k v d k'. destruct (tkey_in_dec k (map fst d)) as [I|I].
  - rewrite td_set_keys by auto. split; auto. intros [->|]; auto.
  - rewrite td_set_fresh, map_app, in_app_iff by auto. simpl. intuition.
Qed.
Lemma td_set_nodup : forall k v d, NoDup (map fst d) -> NoDup (map fst (td_set k v d)).
Proof.
  intros k v d N. destruct (tkey_in_dec k (map fst d)) as [I|I].
  - rewrite td_set_keys; auto.
  - rewrite td_set_fresh, map_app by auto. simpl. apply (NoDup_Add (a:=k) (l:=map fst d)); [|auto]. replace (map fst d) with (map fst d ++ [])%list at 1 by apply app_nil_r. apply Add_app.
Qed.
Lemma named_set_scale : forall t s v d, named_values attr t (td_set (KScale s) v d) = named_values attr t d.
Proof.
  induction d as [|[k2 v2] r IH]; simpl; auto. destruct k2; simpl; try (rewrite IH; auto). destruct (ts_eqb s s0); simpl; auto.
Qed.
Lemma named_set_other : forall t n v d, named_values attr t (td_set (KOther n) v d) = named_values attr t d.
Proof.
  induction d as [|[k2 v2] r IH]; simpl; auto. destruct k2; simpl; try (rewrite IH; auto). destruct (Nat.eqb n n0); simpl; auto.
Qed.
Lemma update_spec : forall e d, NoDup (map fst e) -> NoDup (map fst d) -> (forall s, In (KStr s) (map fst e) -> ~ In (KStr s) (map fst d)) ->
  NoDup (map fst (td_update d e)) /\ (forall k, In k (map fst (td_update d e)) <-> In k (map fst d) \/ In k (map fst e)) /\
  (forall k, td_get k (td_update d e) = match td_get k e with Some v => Some v | None => td_get k d end) /\
  (forall t, named_values attr t (td_update d e) = (named_values attr t d ++ named_values attr t e)%list).
Proof.
  unfold td_update. induction e as [|[k v] e IH]; intros d Ne Nd Di; simpl.
  - repeat split; auto; try tauto. intros; rewrite app_nil_r; auto.
  - inversion Ne; subst. destruct (IH (td_set k v d)) as (A & B & C & D); auto.
    + apply td_set_nodup; auto.
    + intros s I X. apply td_set_in in X. destruct X as [<-|X]; [auto|]. apply (Di s); simpl; auto.
    + split; [exact A|]. split; [|split].
      * intros k'. rewrite B, td_set_in. split; [intros [[->|]|]|intros [|[->|]]]; auto.
      * intros k'. rewrite C, td_get_set. destruct (tkey_eqb k' k) eqn:E; auto. apply tkey_eqb_spec in E. subst k'.
        destruct (td_get k e) eqn:G; auto. exfalso. apply H1. apply td_get_In. congruence.
      * intros t. rewrite D. unfold named_values at 4. cbn [flat_map fst snd]. fold (named_values attr t e). destruct k as [u|s|n].
        -- rewrite named_set_scale. auto.
        -- rewrite td_set_fresh by (apply Di; simpl; auto). rewrite named_app, <- app_assoc. f_equal. f_equal. unfold named_values. simpl. rewrite app_nil_r. auto.
        -- rewrite named_set_other. auto.
Qed.
Theorem init_spec : forall arg, wf_dict arg -> match init_termination_conds attr (Some arg) with
  | Ok p => ~ names_missing_besides attr [ES; ESU] arg /\ well_formed attr arg /\
      forall t, td_conds p t = match entry_cond attr arg t with Some c => Some c | None => default_tc 0 1 t end
  | Err ex => (ex = ERuntime /\ names_missing_besides attr [ES; ESU] arg) \/
      (ex = EScheduler /\ ~ names_missing_besides attr [ES; ESU] arg /\ ~ well_formed attr arg)
  end.
Proof.
  intros arg W. unfold init_termination_conds.
  destruct (update_spec arg td_default) as (N & K & G & Nv); auto.
  { repeat constructor; simpl; intuition discriminate. }
  { intros s _ [X|[X|[]]]; discriminate. }
  assert (En : forall t, entry attr (td_update td_default arg) t = match entry attr arg t with Some v => Some v | None => td_get (KScale t) td_default end).
  { intros t. unfold entry. rewrite !last_value_app, !own_value, G by auto. rewrite Nv. replace (named_values attr t td_default) with (@nil tval) by reflexivity.
    simpl app. destruct (last_value (named_values attr t arg)); auto. }
  assert (M : names_missing attr (td_update td_default arg) <-> names_missing_besides attr [ES; ESU] arg).
  { unfold names_missing, names_missing_besides. split; intros (s & t & A & B & C).
    - exists s, t. split; [apply K in A; destruct A as [[X|[X|[]]]|A]; try discriminate; auto|]. split; auto. rewrite K in C. split; [tauto|].
      intros [<-|[<-|[]]]; apply C; simpl; auto.
    - exists s, t. split; [apply K; auto|]. split; auto. destruct C as [C C']. rewrite K. intros [[X|[X|[]]]|X]; auto; inversion X; subst; apply C'; simpl; auto. }
  assert (D : forall t v, td_get (KScale t) td_default = Some v -> exists c, v = VCond c).
  { intros t v E. destruct t; simpl in E; try discriminate; injection E as <-; eauto. }
  assert (Wf : well_formed attr (td_update td_default arg) <-> well_formed attr arg).
  { unfold well_formed. split; intros [A B]; split.
    - intros k I. apply A. apply K. auto.
    - intros t v E. apply (B t). rewrite En, E. auto.
    - intros k I. apply K in I. destruct I as [[<-|[<-|[]]]|I]; simpl; auto. apply A; auto.
    - intros t v E. rewrite En in E. destruct (entry attr arg t) eqn:F; [injection E as <-; eauto|eauto]. }
  pose proof (parse_spec (td_update td_default arg) N) as P. destruct (parse_termination_conditions attr _) as [[p|ex] d']; simpl.
  - rewrite M, Wf in P. destruct P as (P1 & P2 & _ & P4). split; [auto|]. split; [auto|]. intros t. rewrite P4. unfold entry_cond. rewrite En.
    destruct P2 as [_ P2]. destruct (entry attr arg t) as [v|] eqn:F; [destruct (P2 _ _ F) as (c & ->); auto|]. destruct t; reflexivity.
  - rewrite M, Wf in P. destruct P as [(P1 & P2 & _)|P]; auto.
Qed.
Theorem run_spec : forall arg d, wf_dict arg -> match run_termination_conds attr (Some arg) d with
  | Ok f => ~ names_missing attr arg /\ well_formed attr arg /\ forall t, f t = match entry_cond attr arg t with Some c => Some c | None => d_tc d t end
  | Err ex => (ex = ERuntime /\ names_missing attr arg) \/ (ex = EScheduler /\ ~ names_missing attr arg /\ ~ well_formed attr arg)
  end.
Proof.
  intros arg d W. unfold run_termination_conds. pose proof (parse_spec arg W) as P. destruct (parse_termination_conditions attr arg) as [[p|ex] d']; simpl.
  - destruct P as (P1 & P2 & _ & P4). split; [auto|]. split; [auto|]. intros t. unfold combine_tconds. rewrite P4. auto.
  - destruct P as [(P1 & P2 & _)|P]; auto.
Qed.
End Names.
