(** Proofs about time scale aliases. *)
From Verif Require Import SpecAlias.
Open Scope nat_scope.
Open Scope list_scope.

(** ** strings *)
Lemma prefix_self : forall a b, String.prefix a (a ++ b)%string = true.
Proof. induction a as [|c a IH]; intros b; simpl; [destruct b; auto|]. destruct (ascii_dec c c); [auto|congruence]. Qed.
Lemma contains_self : forall a b, contains a (a ++ b)%string = true.
Proof. intros a b. pose proof (prefix_self a b) as P. destruct (a ++ b)%string; cbn [contains]; rewrite P; auto. Qed.
Lemma contains_replace : forall old new s, old <> EmptyString -> contains old s = true -> contains new (replace old new s) = true.
Proof.
  intros old new s N. unfold replace. induction s as [|c r IH]; intros H.
  - destruct old; [congruence|]. simpl in H. discriminate.
  - cbn [contains] in H. cbn [replace_skip]. destruct (String.prefix old (String c r)) eqn:P; [apply contains_self|].
    cbn [contains]. simpl orb in H. rewrite IH; auto. apply orb_true_r.
Qed.
Lemma class_nonempty : forall s, ts_class_str s <> EmptyString.
Proof. destruct s; vm_compute; discriminate. Qed.

(** ** dicts *)
Lemma sget_none : forall {A} (d : sdict A) k, ~ In k (map fst d) -> sget k d = None.
Proof.
  induction d as [|[k' v] r IH]; intros k N; simpl; auto. destruct (String.eqb_spec k k') as [->|]; [exfalso; apply N; simpl; auto|].
  apply IH. intros X; apply N; simpl; auto.
Qed.
Lemma sset_new : forall {A} (d : sdict A) k v, ~ In k (map fst d) -> sset k v d = d ++ [(k, v)].
Proof.
  induction d as [|[k' v'] r IH]; intros k v N; simpl; auto. destruct (String.eqb_spec k k') as [->|]; [exfalso; apply N; simpl; auto|].
  rewrite IH; auto. intros X; apply N; simpl; auto.
Qed.
Lemma sget_app : forall {A} (d e : sdict A) k, sget k (d ++ e) = match sget k d with Some v => Some v | None => sget k e end.
Proof. induction d as [|[k' v'] r IH]; intros e k; simpl; auto. destruct (String.eqb k k'); auto. Qed.
Lemma sget_last : forall {A} (d : sdict A) k v, ~ In k (map fst d) -> sget k (d ++ [(k, v)]) = Some v.
Proof. intros. rewrite sget_app, sget_none; auto. simpl. rewrite String.eqb_refl. auto. Qed.
Lemma sdel_at : forall {A} (d : sdict A) k v e, ~ In k (map fst d) -> sdel k (d ++ (k, v) :: e) = d ++ e.
Proof.
  induction d as [|[k' v'] r IH]; intros k v e N; simpl; [rewrite String.eqb_refl; auto|].
  destruct (String.eqb_spec k k') as [->|]; [exfalso; apply N; simpl; auto|]. rewrite IH; auto. intros X; apply N; simpl; auto.
Qed.
Lemma sremove_at : forall l k e, ~ In k l -> sremove k (l ++ k :: e) = l ++ e.
Proof.
  induction l as [|x r IH]; intros k e N; simpl; [rewrite String.eqb_refl; auto|].
  destruct (String.eqb_spec k x) as [->|]; [exfalso; apply N; simpl; auto|]. rewrite IH; auto. intros X; apply N; simpl; auto.
Qed.
Lemma smem_at : forall l k e, smem k (l ++ k :: e) = true.
Proof. intros. unfold smem. apply existsb_exists. exists k. split; [apply in_or_app; simpl; auto|apply String.eqb_refl]. Qed.
Lemma shas_at : forall {A} (d : sdict A) k v e, shas k (d ++ (k, v) :: e) = true.
Proof. intros. unfold shas. rewrite sget_app. destruct (sget k d); auto. simpl. rewrite String.eqb_refl. auto. Qed.
Lemma sget_in : forall {A} (d : sdict A) k v, NoDup (map fst d) -> In (k, v) d -> sget k d = Some v.
Proof.
  induction d as [|[k' v'] r IH]; intros k v N H; [destruct H|]. inversion N; subst. simpl. destruct H as [H|H].
  - inversion H; subst. rewrite String.eqb_refl. auto.
  - destruct (String.eqb_spec k k') as [->|]; auto. exfalso. apply H2. apply (in_map fst) in H. auto.
Qed.
(** registry *)
Lemma ts_eqb_refl : forall s, ts_eqb s s = true.
Proof. destruct s; auto. Qed.
Lemma ts_eqb_iff : forall a b, ts_eqb a b = true <-> a = b.
Proof. intros a b. destruct a, b; simpl; split; intros; try discriminate; auto. Qed.
Lemma rset_new : forall d t v, (forall n, ~ In (t, n) d) -> rset t v d = d ++ [(t, v)].
Proof.
  induction d as [|[k w] r IH]; intros t v N; simpl; auto. destruct (ts_eqb t k) eqn:E.
  - apply ts_eqb_iff in E. subst. exfalso. apply (N w). simpl; auto.
  - rewrite IH; auto. intros n X. apply (N n). simpl; auto.
Qed.
Lemma rdel_last : forall d t v, (forall n, ~ In (t, n) d) -> rdel t (d ++ [(t, v)]) = d.
Proof.
  induction d as [|[k w] r IH]; intros t v N; simpl; [rewrite ts_eqb_refl; auto|]. destruct (ts_eqb t k) eqn:E.
  - apply ts_eqb_iff in E. subst. exfalso. apply (N w). simpl; auto.
  - rewrite IH; auto. intros n X. apply (N n). simpl; auto.
Qed.
Lemma aliased_none : forall d name, (forall s, ~ In (s, name) d) -> aliased name d = [].
Proof.
  induction d as [|[k w] r IH]; intros name N; auto. unfold aliased in *. simpl. destruct (String.eqb_spec w name) as [->|].
  - exfalso. apply (N k). simpl; auto.
  - apply IH. intros s X. apply (N s). simpl; auto.
Qed.
Lemma aliased_last : forall d name t, (forall s, ~ In (s, name) d) -> aliased name (d ++ [(t, name)]) = [t].
Proof. intros d name t N. unfold aliased. rewrite filter_app, map_app. apply aliased_none in N. unfold aliased in N. rewrite N. simpl. rewrite String.eqb_refl. auto. Qed.
Lemma aliased_some : forall d name s, In (s, name) d -> aliased name d <> [].
Proof.
  intros d name s H E. assert (X : In s (aliased name d)) by (apply in_map_iff; exists (s, name); split; auto; apply filter_In; split; auto; apply String.eqb_refl).
  rewrite E in X. destruct X.
Qed.
Lemma ts_member_none : forall name, (forall s, name <> ts_name s) -> ts_member name = None.
Proof.
  intros name N. unfold ts_member. destruct (find _ _) as [s|] eqn:F; auto. apply find_some in F. destruct F as [_ F].
  apply String.eqb_eq in F. exfalso. apply (N s). auto.
Qed.

(** ** setting *)
(** the new entries of the namespaces *)
Definition new_items (old new : string) (items : sdict nat) : sdict nat :=
  map (fun i => (replace old new (fst i), snd i)) (filter (fun i => contains old (fst i)) items).
Lemma add_loop : forall old new items st,
  (forall n, In n (map fst (new_items old new items)) -> ~ known_name st n) -> NoDup (map fst (new_items old new items)) ->
  fold_left (fun s item => add_class_alias old new item s) items st =
  mkA (a_reg st) (a_scale st) (a_time st) (a_simple st) (a_gs st ++ new_items old new items) (a_cond st ++ new_items old new items)
      (a_gs_all st ++ map fst (new_items old new items)) (a_cond_all st ++ map fst (new_items old new items)).
Proof.
  intros old new. induction items as [|[n v] r IH]; intros st K D.
  - simpl. rewrite !app_nil_r. destruct st; auto.
  - cbn [fold_left]. unfold add_class_alias at 2. cbn [fst snd]. unfold new_items in *. cbn [filter fst] in *.
    destruct (contains old n) eqn:C; [|apply IH; auto]. cbn [map fst snd] in *. inversion D as [|? ? D1 D2]; subst.
    set (m := replace old new n) in *. pose proof (K m (or_introl eq_refl)) as Km. unfold known_name in Km.
    rewrite IH; clear IH; auto.
    + cbn [a_reg a_scale a_time a_simple a_gs a_cond a_gs_all a_cond_all]. rewrite !sset_new by tauto. rewrite <- !app_assoc. auto.
    + intros x X Kx. apply (K x (or_intror X)). unfold known_name in *. cbn [a_gs a_cond a_gs_all a_cond_all] in Kx.
      rewrite !sset_new in Kx by tauto. rewrite !map_app, !in_app_iff in Kx. simpl in Kx.
      assert (Nx : m <> x) by (intros ->; contradiction). tauto.
Qed.
Lemma new_items_in : forall old new items x, In x (map fst (new_items old new items)) <->
  exists n, In n (map fst items) /\ contains old n = true /\ x = replace old new n.
Proof.
  intros old new items x. unfold new_items. rewrite map_map. simpl. rewrite in_map_iff. split.
  - intros ([n v] & E & H). apply filter_In in H. destruct H as [H C]. simpl in *. exists n. split; auto. apply (in_map fst) in H. auto.
  - intros (n & H & C & ->). apply in_map_iff in H. destruct H as ([n' v] & E & H). simpl in E. subst n'. exists (n, v). split; auto.
    apply filter_In. auto.
Qed.
Lemma new_items_nodup : forall old new items, NoDup (map fst items) ->
  (forall a b, In a (map fst items) -> In b (map fst items) -> contains old a = true -> contains old b = true -> replace old new a = replace old new b -> a = b) ->
  NoDup (map fst (new_items old new items)).
Proof.
  intros old new. induction items as [|[n v] r IH]; intros N D; [constructor|]. inversion N; subst.
  assert (IH' : NoDup (map fst (new_items old new r))) by (apply IH; auto; intros; apply D; simpl; auto).
  unfold new_items in *. cbn [filter fst]. destruct (contains old n) eqn:C; auto. cbn [map fst snd]. constructor; auto.
  intros X. apply (new_items_in old new r) in X. destruct X as (n' & I & C' & E).
  assert (n = n') by (apply D; simpl; auto). subst. contradiction.
Qed.

Definition with_alias (st : astate) (name : string) (t : timescale) (new : sdict nat) : astate :=
  mkA (a_reg st ++ [(t, name)]) (a_scale st ++ [(name, t)]) (a_time st ++ [(lower name, AAlias t)]) (a_simple st ++ [(lower name, AAlias t)])
      (a_gs st ++ new) (a_cond st ++ new) (a_gs_all st ++ map fst new) (a_cond_all st ++ map fst new).
Lemma set_fresh : forall st name t seg ta, fresh_alias st name t seg -> wf_modules st -> resolve_target st ta = Some t ->
  set_alias name ta st = (Ok tt, with_alias st name t (new_items (ts_class_str t) seg (a_gs st))) /\
  NoDup (map fst (new_items (ts_class_str t) seg (a_gs st))) /\
  (forall x, In x (map fst (new_items (ts_class_str t) seg (a_gs st))) -> contains seg x = true /\ ~ known_name st x).
Proof.
  intros st name t seg ta [Fs Fn Ft Fm Fc Fti Fsi Fk Fd] W R.
  assert (ND : NoDup (map fst (new_items (ts_class_str t) seg (a_gs st)))) by (apply new_items_nodup; auto).
  assert (Nw : forall x, In x (map fst (new_items (ts_class_str t) seg (a_gs st))) -> contains seg x = true /\ ~ known_name st x).
  { intros x X. assert (C : contains seg x = true).
    { apply new_items_in in X. destruct X as (n & _ & C & ->). apply contains_replace; auto. apply class_nonempty. }
    split; auto. intros K. apply Fk in K. congruence. }
  split; [|split; auto]. unfold set_alias. rewrite (aliased_none _ _ Fn), R, (ts_member_none _ Fm), Fs.
  rewrite add_loop; auto.
  - cbn [a_reg a_scale a_time a_simple a_gs a_cond a_gs_all a_cond_all]. unfold with_alias. rewrite (rset_new _ _ _ Ft), !sset_new; auto.
  - intros n X K. apply (proj2 (Nw n X)). exact K.
Qed.

(** ** removing *)
Lemma del_loop_skip : forall new items st, (forall n, In n (map fst items) -> contains new n = false) ->
  del_class_aliases new items st = (Ok tt, st).
Proof.
  intros new. induction items as [|[n v] r IH]; intros st H; auto. cbn [del_class_aliases]. unfold del_class_alias. cbn [fst].
  rewrite (H n); [apply IH|simpl; auto]. intros x X. apply H. simpl; auto.
Qed.
Lemma del_loop_app : forall new a b st, (forall n, In n (map fst a) -> contains new n = false) ->
  del_class_aliases new (a ++ b) st = del_class_aliases new b st.
Proof.
  intros new. induction a as [|[n v] r IH]; intros b st H; auto. cbn [app del_class_aliases]. unfold del_class_alias at 1. cbn [fst].
  rewrite (H n) by (simpl; auto). apply IH. intros x X. apply H. simpl; auto.
Qed.
Lemma del_loop : forall seg items rg sc ti si gs cd ga ca, NoDup (map fst items) ->
  (forall n, In n (map fst items) -> contains seg n = true /\ ~ In n (map fst gs) /\ ~ In n (map fst cd) /\ ~ In n ga /\ ~ In n ca) ->
  del_class_aliases seg items (mkA rg sc ti si (gs ++ items) (cd ++ items) (ga ++ map fst items) (ca ++ map fst items)) =
  (Ok tt, mkA rg sc ti si gs cd ga ca).
Proof.
  intros seg. induction items as [|[n v] r IH]; intros rg sc ti si gs cd ga ca D K.
  - simpl. rewrite !app_nil_r. auto.
  - cbn [del_class_aliases]. inversion D; subst. destruct (K n (or_introl eq_refl)) as (C & K1 & K2 & K3 & K4).
    unfold del_class_alias. cbn [fst map]. rewrite C.
    cbn [a_reg a_scale a_time a_simple a_gs a_cond a_gs_all a_cond_all]. rewrite !shas_at, !smem_at. cbn [negb].
    rewrite !sdel_at, !sremove_at by auto. apply IH; auto. intros x X. apply K. simpl; auto.
Qed.
Theorem alias_roundtrip : forall st name t seg ta, fresh_alias st name t seg -> wf_modules st -> resolve_target st ta = Some t ->
  exists st1, set_alias name ta st = (Ok tt, st1) /\ remove_alias name st1 = (Ok tt, st).
Proof.
  intros st name t seg ta F W R. destruct (set_fresh _ _ _ _ _ F W R) as (E & ND & Nw). eexists. split; [exact E|].
  destruct F as [Fs Fn Ft Fm Fc Fti Fsi Fk Fd]. unfold remove_alias, with_alias. cbn [a_reg a_scale a_time a_simple a_gs a_cond a_gs_all a_cond_all].
  rewrite (aliased_last _ _ _ Fn), (rdel_last _ _ _ Ft), !shas_at, Fs. cbn [negb]. rewrite !sdel_at by auto. rewrite !app_nil_r.
  rewrite del_loop_app by (intros n X; apply Fk; left; auto).
  rewrite del_loop; auto.
  - destruct st; auto.
  - intros n X. destruct (Nw n X) as [C K]. unfold known_name in K. tauto.
Qed.

(** ** effects *)
Lemma sget_keys : forall {A} (d : sdict A) k v, sget k d = Some v -> In k (map fst d).
Proof.
  induction d as [|[k' w] r IH]; intros k v H; simpl in *; [discriminate|]. destruct (String.eqb_spec k k') as [->|]; auto.
  right. eapply IH; eauto.
Qed.
Lemma sget_some : forall {A} (d : sdict A) k, In k (map fst d) -> exists v, sget k d = Some v.
Proof.
  induction d as [|[k' w] r IH]; intros k H; [destruct H|]. simpl in *. destruct (String.eqb_spec k k') as [->|N]; [eauto|].
  destruct H as [->|H]; [congruence|auto].
Qed.
Lemma sget_pair : forall {A} (d : sdict A) k v, sget k d = Some v -> In (k, v) d.
Proof.
  induction d as [|[k' w] r IH]; intros k v H; simpl in *; [discriminate|]. destruct (String.eqb_spec k k') as [->|]; auto.
  inversion H; subst; auto.
Qed.
Theorem alias_effect : forall st name t seg ta st1, fresh_alias st name t seg -> wf_modules st -> resolve_target st ta = Some t ->
  set_alias name ta st = (Ok tt, st1) ->
  resolve_target st1 (TName name) = Some t /\
  (forall n v, sget n (a_gs st) = Some v -> contains (ts_class_str t) n = true ->
     sget (replace (ts_class_str t) seg n) (a_gs st1) = Some v /\ sget (replace (ts_class_str t) seg n) (a_cond st1) = Some v /\
     In (replace (ts_class_str t) seg n) (a_gs_all st1) /\ In (replace (ts_class_str t) seg n) (a_cond_all st1)) /\
  (forall n, known_name st1 n -> known_name st n \/
     exists n0, In n0 (map fst (a_gs st)) /\ contains (ts_class_str t) n0 = true /\ n = replace (ts_class_str t) seg n0) /\
  (forall n, known_name st n -> sget n (a_gs st1) = sget n (a_gs st) /\ sget n (a_cond st1) = sget n (a_cond st)).
Proof.
  intros st name t seg ta st1 F W R E. destruct (set_fresh _ _ _ _ _ F W R) as (E' & ND & Nw). rewrite E in E'. inversion E'; subst st1. clear E E'.
  set (nw := new_items (ts_class_str t) seg (a_gs st)) in *. destruct F as [Fs Fn Ft Fm Fc Fti Fsi Fk Fd]. unfold with_alias.
  split; [|split; [|split]].
  - cbn [resolve_target a_scale]. rewrite (ts_member_none _ Fm). apply sget_last; auto.
  - intros n v G C. cbn [a_gs a_cond a_gs_all a_cond_all].
    assert (X : In (replace (ts_class_str t) seg n, v) nw).
    { unfold nw, new_items. apply in_map_iff. exists (n, v). split; auto. apply filter_In. split; auto. apply sget_pair; auto. }
    assert (Y : In (replace (ts_class_str t) seg n) (map fst nw)) by (apply (in_map fst) in X; auto).
    destruct (Nw _ Y) as [_ K]. unfold known_name in K. rewrite !sget_app, (sget_none (a_gs st)), (sget_none (a_cond st)) by tauto.
    rewrite (sget_in nw _ v) by auto. rewrite !in_app_iff. auto.
  - intros n K. unfold known_name in *. cbn [a_gs a_cond a_gs_all a_cond_all] in K. rewrite !map_app, !in_app_iff in K.
    assert (X : In n (map fst nw) -> exists n0, In n0 (map fst (a_gs st)) /\ contains (ts_class_str t) n0 = true /\ n = replace (ts_class_str t) seg n0).
    { intros H. apply new_items_in in H. auto. }
    tauto.
  - intros n K. cbn [a_gs a_cond]. assert (X : sget n nw = None).
    { apply sget_none. intros X. apply (proj2 (Nw n X)); auto. }
    rewrite !sget_app, X. destruct (sget n (a_gs st)), (sget n (a_cond st)); auto.
Qed.
Lemma ts_attr_inj : forall a b, ts_attr a = ts_attr b -> a = b.
Proof. intros a b. destruct a, b; vm_compute; intros H; auto; discriminate. Qed.
Lemma ts_of_attr_self : forall s, ts_of_attr (ts_attr s) = Some s.
Proof. destruct s; reflexivity. Qed.
Theorem alias_attributes : forall st name t seg ta st1, fresh_alias st name t seg -> wf_modules st -> resolve_target st ta = Some t ->
  set_alias name ta st = (Ok tt, st1) ->
  (forall tm, time_attr st1 tm (lower name) = Ok (t_val tm t)) /\
  (forall tm v, exists tm', set_time_attr st1 tm (lower name) v = Ok tm' /\ t_val tm' t = v /\ (forall s, s <> t -> t_val tm' s = t_val tm s) /\
     t_abs tm' = t_abs tm /\ t_interval tm' = t_interval tm /\ t_abs_enabled tm' = t_abs_enabled tm) /\
  (forall tm, simple_own t = true -> shas (ts_attr t) (a_simple st) = true -> simple_attr st1 tm (lower name) = Ok (t_val tm t)) /\
  (forall tm n, n <> lower name -> time_attr st1 tm n = time_attr st tm n) /\
  (forall kw a i b, t_val (new_time st1 kw a i b) t = match sget (lower name) kw, sget (ts_attr t) kw with Some v, _ => v | None, Some v => v | None, None => 0 end) /\
  (forall kw a i b s, s <> t -> t_val (new_time st1 kw a i b) s = t_val (new_time st kw a i b) s).
Proof.
  intros st name t seg ta st1 F W R E. destruct (set_fresh _ _ _ _ _ F W R) as (E' & ND & Nw). rewrite E in E'. inversion E'; subst st1. clear E E'.
  destruct F as [Fs Fn Ft Fm Fc Fti Fsi Fk Fd]. unfold with_alias. split; [|split; [|split; [|split; [|split]]]].
  - intros tm. unfold time_attr. cbn [a_time]. rewrite sget_last; auto.
  - intros tm v. unfold set_time_attr. cbn [a_time]. rewrite sget_last by auto. eexists. split; [reflexivity|]. cbn [t_val t_abs t_interval t_abs_enabled].
    unfold upd_ts. rewrite ts_eqb_refl. split; [auto|]. split; [|auto]. intros s N. destruct (ts_eqb s t) eqn:E; auto. apply ts_eqb_iff in E. congruence.
  - intros tm O H. unfold simple_attr. cbn [a_simple]. rewrite sget_last by auto. rewrite O. unfold shas in *. rewrite sget_app.
    destruct (sget (ts_attr t) (a_simple st)); [auto|discriminate].
  - intros tm n N. unfold time_attr. cbn [a_time]. rewrite sget_app. destruct (sget n (a_time st)); auto. simpl.
    destruct (String.eqb_spec n (lower name)); [congruence|auto].
  - intros kw a i b. unfold new_time, init_value. cbn [t_val a_reg]. clear -Ft.
    assert (X : rget t (a_reg st ++ [(t, name)]) = Some name).
    { induction (a_reg st) as [|[k w] r IH]; simpl; [rewrite ts_eqb_refl; auto|]. destruct (ts_eqb t k) eqn:E.
      - apply ts_eqb_iff in E. subst. exfalso. apply (Ft w). simpl; auto.
      - apply IH. intros n X. apply (Ft n). simpl; auto. }
    rewrite X. destruct (sget (lower name) kw); auto.
  - intros kw a i b s N. unfold new_time, init_value. cbn [t_val a_reg].
    assert (X : rget s (a_reg st ++ [(t, name)]) = rget s (a_reg st)).
    { clear - N. induction (a_reg st) as [|[k w] r IH]; simpl; [|destruct (ts_eqb s k); auto].
      destruct (ts_eqb s t) eqn:E; auto. apply ts_eqb_iff in E. congruence. }
    rewrite X. auto.
Qed.
(** refusals *)
Theorem alias_taken : forall st name ta s, In (s, name) (a_reg st) -> set_alias name ta st = (Err EValue, st).
Proof. intros st name ta s H. unfold set_alias. destruct (aliased name (a_reg st)) eqn:E; auto. exfalso. eapply aliased_some; eauto. Qed.
Theorem alias_bad_target : forall st name n, (forall s, n <> ts_name s) -> ~ In n (map fst (a_scale st)) -> set_alias name (TName n) st = (Err EValue, st).
Proof.
  intros st name n N S. unfold set_alias. destruct (aliased name (a_reg st)); auto. cbn [resolve_target]. rewrite (ts_member_none _ N), sget_none; auto.
Qed.
Theorem alias_absent : forall st name, (forall s, ~ In (s, name) (a_reg st)) -> remove_alias name st = (Ok tt, st).
Proof. intros st name N. unfold remove_alias. rewrite aliased_none; auto. Qed.

(** ** two aliases *)
Definition rest (seg : string) (items : sdict nat) : sdict nat := filter (fun i => negb (contains seg (fst i))) items.
Lemma rest_in : forall seg items n, In n (map fst (rest seg items)) -> In n (map fst items).
Proof. intros seg items n H. apply in_map_iff in H. destruct H as (i & <- & H). apply filter_In in H. apply in_map. tauto. Qed.
Lemma rest_nodup : forall seg items, NoDup (map fst items) -> NoDup (map fst (rest seg items)).
Proof.
  intros seg. induction items as [|[n v] r IH]; intros H; [constructor|]. inversion H; subst. unfold rest in *. cbn [filter fst].
  destruct (negb (contains seg n)); auto. cbn [map fst]. constructor; auto. intros X. apply (rest_in seg r) in X. auto.
Qed.
Lemma del_loop_rest : forall seg items rg sc ti si gs cd ga ca, NoDup (map fst items) ->
  (forall n, In n (map fst items) -> ~ In n (map fst gs) /\ ~ In n (map fst cd) /\ ~ In n ga /\ ~ In n ca) ->
  del_class_aliases seg items (mkA rg sc ti si (gs ++ items) (cd ++ items) (ga ++ map fst items) (ca ++ map fst items)) =
  (Ok tt, mkA rg sc ti si (gs ++ rest seg items) (cd ++ rest seg items) (ga ++ map fst (rest seg items)) (ca ++ map fst (rest seg items))).
Proof.
  intros seg. induction items as [|[n v] r IH]; intros rg sc ti si gs cd ga ca D K; [simpl; auto|].
  cbn [del_class_aliases]. inversion D; subst. destruct (K n (or_introl eq_refl)) as (K1 & K2 & K3 & K4).
  unfold del_class_alias. unfold rest. cbn [fst map filter]. destruct (contains seg n) eqn:C; cbn [negb].
  - cbn [a_reg a_scale a_time a_simple a_gs a_cond a_gs_all a_cond_all]. rewrite !shas_at, !smem_at. cbn [negb].
    rewrite !sdel_at, !sremove_at by auto. apply IH; auto. intros x X. apply K. simpl; auto.
  - cbn [map fst].
    replace (gs ++ (n, v) :: r) with ((gs ++ [(n, v)]) ++ r) by (rewrite <- app_assoc; auto).
    replace (cd ++ (n, v) :: r) with ((cd ++ [(n, v)]) ++ r) by (rewrite <- app_assoc; auto).
    replace (ga ++ n :: map fst r) with ((ga ++ [n]) ++ map fst r) by (rewrite <- app_assoc; auto).
    replace (ca ++ n :: map fst r) with ((ca ++ [n]) ++ map fst r) by (rewrite <- app_assoc; auto).
    rewrite IH; auto.
    + rewrite <- !app_assoc. auto.
    + intros x X. destruct (K x (or_intror X)) as (L1 & L2 & L3 & L4). assert (Nx : n <> x) by (intros ->; contradiction).
      rewrite !map_app, !in_app_iff. simpl. tauto.
Qed.
Lemma aliased_two : forall d a b t1 t2, (forall s, ~ In (s, a) d) -> a <> b -> aliased a ((d ++ [(t1, a)]) ++ [(t2, b)]) = [t1].
Proof.
  intros d a b t1 t2 N D. pose proof (aliased_last d a t1 N) as X. unfold aliased in *. rewrite filter_app, map_app, X. simpl.
  destruct (String.eqb_spec b a); [congruence|auto].
Qed.
Lemma rdel_two : forall d t1 t2 a b, (forall n, ~ In (t1, n) d) -> rdel t1 ((d ++ [(t1, a)]) ++ [(t2, b)]) = d ++ [(t2, b)].
Proof.
  induction d as [|[k w] r IH]; intros t1 t2 a b N; simpl; [rewrite ts_eqb_refl; auto|]. destruct (ts_eqb t1 k) eqn:E.
  - apply ts_eqb_iff in E. subst. exfalso. apply (N w). simpl; auto.
  - rewrite IH; auto. intros n X. apply (N n). simpl; auto.
Qed.
Theorem alias_two : forall st a ta t1 seg1 b tb t2 seg2 s1 s2, wf_modules st ->
  fresh_alias st a t1 seg1 -> resolve_target st ta = Some t1 -> set_alias a ta st = (Ok tt, s1) ->
  fresh_alias s1 b t2 seg2 -> resolve_target s1 tb = Some t2 -> set_alias b tb s1 = (Ok tt, s2) ->
  (exists s3, remove_alias a s2 = (Ok tt, s3) /\ remove_alias b s3 = (Ok tt, st)) /\
  (exists s3, remove_alias b s2 = (Ok tt, s3) /\ remove_alias a s3 = (Ok tt, st)).
Proof.
  intros st a ta t1 seg1 b tb t2 seg2 s1 s2 W F1 R1 E1 F2 R2 E2.
  destruct (set_fresh _ _ _ _ _ F1 W R1) as (E1' & ND1 & Nw1). rewrite E1 in E1'. inversion E1' as [S1]. clear E1'.
  set (n1 := new_items (ts_class_str t1) seg1 (a_gs st)) in *.
  assert (W1 : wf_modules s1).
  { rewrite S1. unfold wf_modules, with_alias. cbn [a_gs]. rewrite map_app. clear -W ND1 Nw1. unfold wf_modules in W.
    assert (D : forall n, In n (map fst n1) -> ~ In n (map fst (a_gs st))) by (intros n X Y; apply (proj2 (Nw1 n X)); left; auto).
    induction (map fst (a_gs st)) as [|x r IH]; auto. simpl. inversion W; subst. constructor.
    - rewrite in_app_iff. intros [X|X]; [contradiction|]. apply (D x X). simpl; auto.
    - apply IH; auto. intros n X Y. apply (D n X). simpl; auto. }
  split; [|].
  2:{ destruct (alias_roundtrip _ _ _ _ _ F2 W1 R2) as (x & X1 & X2). rewrite E2 in X1. inversion X1; subst x. exists s1. split; auto.
      destruct (alias_roundtrip _ _ _ _ _ F1 W R1) as (y & Y1 & Y2). rewrite E1 in Y1. inversion Y1; subst. auto. }
  destruct (set_fresh _ _ _ _ _ F2 W1 R2) as (E2' & ND2 & Nw2). rewrite E2 in E2'. inversion E2' as [S2]. clear E2'.
  set (n2 := new_items (ts_class_str t2) seg2 (a_gs s1)) in *. clearbody n2. subst s1.
  destruct F1 as [Fs Fn Ft Fm Fc Fti Fsi Fk Fd], F2 as [Gs Gn Gt Gm Gc Gti Gsi Gk Gd].
  unfold with_alias in *. cbn [a_reg a_scale a_time a_simple a_gs a_cond a_gs_all a_cond_all] in *.
  assert (Nab : a <> b) by (intros ->; apply (Gn t1); apply in_or_app; simpl; auto).
  assert (K2 : forall n, In n (map fst n2) -> contains seg2 n = true /\ ~ known_name st n /\ ~ In n (map fst n1)).
  { intros n X. destruct (Nw2 n X) as [C K]. split; auto. unfold known_name in *. cbn [a_gs a_cond a_gs_all a_cond_all] in K.
    rewrite !map_app, !in_app_iff in K. tauto. }
  eexists. split.
  - rewrite S2. unfold remove_alias. cbn [a_reg a_scale a_time a_simple a_gs a_cond a_gs_all a_cond_all].
    rewrite (aliased_two _ _ _ _ _ Fn Nab), (rdel_two _ _ _ _ _ Ft). rewrite <- !(app_assoc _ [_] [_]). cbn [app]. rewrite !shas_at, Fs. cbn [negb].
    rewrite !sdel_at by auto. rewrite <- !app_assoc.
    rewrite del_loop_app by (intros n X; apply Fk; left; auto).
    rewrite <- !map_app. rewrite del_loop_rest; [reflexivity| |].
    + rewrite map_app. clear -ND1 ND2 K2. induction (map fst n1) as [|x r IH]; auto. simpl. inversion ND1; subst. constructor.
      * rewrite in_app_iff. intros [X|X]; [contradiction|]. apply (proj2 (proj2 (K2 x X))). simpl; auto.
      * apply IH; auto. intros n X. destruct (K2 n X) as (A & B & C). split; auto. split; auto. intros Y. apply C. simpl; auto.
    + intros n X. rewrite map_app, in_app_iff in X. assert (K : ~ known_name st n) by (destruct X as [X|X]; [apply (Nw1 n X)|apply (K2 n X)]).
      unfold known_name in K. tauto.
  - assert (Z1 : rest seg1 n1 = []).
    { clear -Nw1. unfold rest. induction n1 as [|[n v] r IH]; auto. cbn [filter fst]. destruct (Nw1 n (or_introl eq_refl)) as [C _].
      rewrite C. cbn [negb]. apply IH. intros x X. apply Nw1. simpl; auto. }
    assert (Z2 : rest seg1 (n1 ++ n2) = rest seg1 n2) by (unfold rest in *; rewrite filter_app, Z1; auto).
    rewrite Z2. unfold remove_alias. cbn [a_reg a_scale a_time a_simple a_gs a_cond a_gs_all a_cond_all].
    assert (Gn' : forall s, ~ In (s, b) (a_reg st)) by (intros s X; apply (Gn s), in_or_app; auto).
    assert (Gt' : forall n, ~ In (t2, n) (a_reg st)) by (intros n X; apply (Gt n), in_or_app; auto).
    rewrite (aliased_last _ _ _ Gn'), (rdel_last _ _ _ Gt'), !shas_at, Gs. cbn [negb].
    rewrite !map_app, !in_app_iff in *. rewrite !sdel_at by tauto. rewrite !app_nil_r.
    rewrite del_loop_app by (intros n X; apply Gk; left; cbn [a_gs]; rewrite map_app, in_app_iff; auto).
    rewrite del_loop.
    + destruct st; auto.
    + apply rest_nodup; auto.
    + intros n X. apply rest_in in X. destruct (K2 n X) as (C & K & _). split; auto. unfold known_name in K. tauto.
Qed.

(** ** the names as the package is imported *)
Local Definition rows : list (timescale * string * string) :=
  [(CSE, "CONSIDERATION_SET_EXECUTION", "consideration_set_execution"); (PASS, "PASS", "pass_");
   (ESU, "ENVIRONMENT_STATE_UPDATE", "environment_state_update"); (ES, "ENVIRONMENT_SEQUENCE", "environment_sequence"); (LIFE, "LIFE", "life")]%string.
Lemma member_rows : forall n s, ts_member n = Some s <-> exists a, In (s, n, a) rows.
Proof.
  intros n s. unfold ts_member. cbn [find all_timescales ts_name]. split.
  - intros H. repeat (match type of H with (if ?b then _ else _) = _ => destruct b eqn:? end;
      [match goal with E : String.eqb _ _ = true |- _ => apply String.eqb_eq in E end; injection H as <-; subst n; eexists; simpl; eauto 10|]). discriminate.
  - intros (a & I). simpl in I. repeat (destruct I as [I|I]; [injection I as <- <- <-; reflexivity|]). destruct I.
Qed.
Lemma attr_rows : forall n s, ts_of_attr n = Some s <-> exists m, In (s, m, n) rows.
Proof.
  intros n s. unfold ts_of_attr. cbn [find all_timescales]. split.
  - intros H. repeat (match type of H with (if ?b then _ else _) = _ => destruct b eqn:? end;
      [match goal with E : String.eqb _ _ = true |- _ => apply String.eqb_eq in E end; injection H as <-; subst n; eexists; vm_compute; eauto 10|]). discriminate.
  - intros (a & I). simpl in I. repeat (destruct I as [I|I]; [injection I as <- <- <-; reflexivity|]). destruct I.
Qed.
Lemma own_only : forall l n x, sget n (map (fun n => (n, AOwn)) l) = Some x -> x = AOwn.
Proof. induction l as [|y l IH]; simpl; intros n x H; [discriminate|]. destruct (String.eqb n y); [congruence|eauto]. Qed.
Theorem scale_tables : 
  (forall n s, ts_member n = Some s <-> exists a, In (s, n, a) rows) /\
  (forall tm n v, time_attr imported tm n = Ok v <-> exists s m, In (s, m, n) rows /\ v = t_val tm s) /\
  (forall tm n v, simple_attr imported tm n = Ok v <-> exists s m, In (s, m, n) rows /\ s <> PASS /\ s <> LIFE /\ v = t_val tm s) /\
  (forall tm n v tm', set_time_attr imported tm n v = Ok tm' ->
     exists s m, In (s, m, n) rows /\ t_val tm' s = v /\ (forall s', s' <> s -> t_val tm' s' = t_val tm s')).
Proof.
  split; [exact member_rows|]. split; [|split].
  - intros tm n v. unfold time_attr. assert (X : forall x, sget n (a_time imported) = Some x -> x = AOwn) by (intros x; apply own_only).
    assert (E : match sget n (a_time imported) with Some (AAlias s) => Ok (t_val tm s) | _ => match ts_of_attr n with Some s => Ok (t_val tm s) | None => Err EAttribute end end
                = match ts_of_attr n with Some s => Ok (t_val tm s) | None => Err EAttribute end).
    { destruct (sget n (a_time imported)) as [[|s]|]; auto. specialize (X _ eq_refl). discriminate. }
    rewrite E. clear E X. destruct (ts_of_attr n) as [s|] eqn:A.
    + split; [intros H; injection H as <-; apply attr_rows in A; destruct A as (m & I); eauto|].
      intros (s' & m & I & ->). assert (B : ts_of_attr n = Some s') by (apply attr_rows; eauto). congruence.
    + split; [discriminate|]. intros (s' & m & I & ->). assert (B : ts_of_attr n = Some s') by (apply attr_rows; eauto). congruence.
  - intros tm n v. unfold simple_attr. assert (X : forall x, sget n (a_simple imported) = Some x -> x = AOwn) by (intros x; apply own_only).
    cbv zeta. set (own := fun s => if (simple_own s && shas (ts_attr s) (a_simple imported))%bool then Ok (t_val tm s) else Err EAttribute).
    assert (E : match sget n (a_simple imported) with Some (AAlias s) => own s | _ => match ts_of_attr n with Some s => own s | None => Err EAttribute end end
                = match ts_of_attr n with Some s => own s | None => Err EAttribute end).
    { destruct (sget n (a_simple imported)) as [[|s]|]; auto. specialize (X _ eq_refl). discriminate. }
    change (match sget n (a_simple imported) with Some (AAlias s) => own s | _ => match ts_of_attr n with Some s => own s | None => Err EAttribute end end = Ok v <-> exists s m, In (s, m, n) rows /\ s <> PASS /\ s <> LIFE /\ v = t_val tm s).
    rewrite E. clear E X.
    assert (O : forall s, own s = Ok v <-> s <> PASS /\ s <> LIFE /\ v = t_val tm s).
    { intros s. unfold own. destruct s; cbn [simple_own andb];
        try (match goal with |- context [shas ?a ?b] => replace (shas a b) with true by (vm_compute; reflexivity) end);
        split; try discriminate; try (intros H; injection H as <-; repeat split; discriminate); intros (? & ? & ?); congruence. }
    clearbody own. destruct (ts_of_attr n) as [s|] eqn:A.
    + split; [intros H; apply O in H; apply attr_rows in A; destruct A as (m & I); exists s, m; tauto|].
      intros (s' & m & I & P). assert (B : ts_of_attr n = Some s') by (apply attr_rows; eauto). rewrite B in A. injection A as <-. apply O, P.
    + split; [discriminate|]. intros (s' & m & I & P). assert (B : ts_of_attr n = Some s') by (apply attr_rows; eauto). congruence.
  - intros tm n v tm' H. unfold set_time_attr in H. assert (X : forall x, sget n (a_time imported) = Some x -> x = AOwn) by (intros x; apply own_only).
    destruct (sget n (a_time imported)) as [[|s]|]; [|specialize (X _ eq_refl); discriminate|];
      (destruct (ts_of_attr n) as [s|] eqn:A; [|discriminate]; injection H as <-; apply attr_rows in A; destruct A as (m & I); exists s, m; split; [exact I|];
       cbn [t_val]; unfold upd_ts; split; [rewrite ts_eqb_refl; reflexivity|]; intros s' N; destruct s, s'; cbn [ts_eqb]; try reflexivity; exfalso; apply N; reflexivity).
Qed.
Theorem new_time_absolute : forall st kw a i b, t_abs (new_time st kw a i b) = 0%Q /\ t_interval (new_time st kw a i b) = 1%Q /\ t_abs_enabled (new_time st kw a i b) = false.
Proof. repeat split. Qed.
