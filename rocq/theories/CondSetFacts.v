(** Condition sets: owners, refinement to a map and a log. *)
From Verif Require Import BaseFacts PureFacts SpecSched.

(** ** owners *)
Definition go_owner (w : option node) := fix go (l : list cond) (own : oid -> option node) : oid -> option node :=
  match l with [] => own | x :: r => go r (if isSome (own (cond_oid x)) then own else set_owner w x own) end.
Lemma set_owner_all_eq : forall w o cs own, set_owner w (CAll o cs) own = go_owner w cs (upd own o w).
Proof. reflexivity. Qed.
Lemma set_owner_any_eq : forall w o cs own, set_owner w (CAny o cs) own = go_owner w cs (upd own o w).
Proof. reflexivity. Qed.
Lemma upd_same : forall A (f : nat -> A) k v, upd f k v k = v.
Proof. intros. unfold upd. rewrite Nat.eqb_refl. auto. Qed.
Lemma upd_other : forall A (f : nat -> A) k v x, x <> k -> upd f k v x = f x.
Proof. intros. unfold upd. destruct (Nat.eqb_spec x k); congruence. Qed.
Lemma cond_oid_in : forall c, In (cond_oid c) (oids c).
Proof. destruct c; simpl; auto. Qed.
Lemma set_owner_other : forall w c own o, ~ In o (oids c) -> set_owner w c own o = own o.
Proof.
  intros w c. induction c using cond_ind'; intros own x N.
  - simpl in *. apply upd_other. intuition.
  - rewrite set_owner_all_eq. simpl in N. assert (G : forall own, go_owner w cs own x = own x).
    { induction cs as [|c cs IH]; intros own'; simpl; auto. inversion H; subst. rewrite IH; auto.
      - destruct (isSome _); auto. apply H2. intros X. apply N. right. simpl. apply in_or_app. auto.
      - simpl in N. intros X. apply N. destruct X; auto. right. apply in_or_app. auto. }
    rewrite G. apply upd_other. intuition.
  - rewrite set_owner_any_eq. simpl in N. assert (G : forall own, go_owner w cs own x = own x).
    { induction cs as [|c cs IH]; intros own'; simpl; auto. inversion H; subst. rewrite IH; auto.
      - destruct (isSome _); auto. apply H2. intros X. apply N. right. simpl. apply in_or_app. auto.
      - simpl in N. intros X. apply N. destruct X; auto. right. apply in_or_app. auto. }
    rewrite G. apply upd_other. intuition.
  - simpl in *. rewrite IHc by intuition. apply upd_other. intuition.
  - simpl in *. rewrite IHc by intuition. apply upd_other. intuition.
Qed.
Lemma set_owner_none : forall c own o, own o = None -> set_owner None c own o = None.
Proof.
  assert (U : forall own x o, own o = None -> upd own x (@None node) o = None) by (intros own x o E; unfold upd; destruct (Nat.eqb o x); auto).
  induction c as [o' a|o' cs H|o' cs H|o' c IH|o' c n IH] using cond_ind'; intros own o E.
  - simpl. auto.
  - rewrite set_owner_all_eq. apply (U own o') in E. revert E. generalize (upd own o' None). clear own.
    induction H as [|x l Hx Hl IHl]; intros own E; simpl; auto. apply IHl. destruct (isSome _); auto.
  - rewrite set_owner_any_eq. apply (U own o') in E. revert E. generalize (upd own o' None). clear own.
    induction H as [|x l Hx Hl IHl]; intros own E; simpl; auto. apply IHl. destruct (isSome _); auto.
  - simpl. auto.
  - simpl. auto.
Qed.
Lemma set_owner_none_top : forall c own, set_owner None c own (cond_oid c) = None.
Proof.
  intros c own. assert (E := upd_same _ own (cond_oid c) (@None node)). destruct c as [o a|o cs|o cs|o c|o c n]; auto.
  - rewrite set_owner_all_eq. revert E. cbn [cond_oid]. generalize (upd own o None). induction cs as [|x l IH]; intros own' E; simpl; auto.
    apply IH. destruct (isSome _); auto using set_owner_none.
  - rewrite set_owner_any_eq. revert E. cbn [cond_oid]. generalize (upd own o None). induction cs as [|x l IH]; intros own' E; simpl; auto.
    apply IH. destruct (isSome _); auto using set_owner_none.
  - simpl. apply set_owner_none. auto.
  - simpl. apply set_owner_none. auto.
Qed.
Lemma NoDup_app_inv : forall A (a b : list A), NoDup (a ++ b) -> NoDup a /\ NoDup b /\ forall x, In x a -> ~ In x b.
Proof.
  induction a as [|x a IH]; simpl; intros b N; [split; [constructor|split; auto]|].
  inversion N; subst. destruct (IH _ H2) as (A1 & A2 & A3). split; [constructor; auto; intros X; apply H1; apply in_or_app; auto|].
  split; auto. intros y [<-|Y] Z; [apply H1; apply in_or_app; auto|]. eapply A3; eauto.
Qed.
Lemma go_owner_other : forall w cs own x, ~ In x (flat_map oids cs) -> go_owner w cs own x = own x.
Proof.
  induction cs as [|c cs IH]; intros own x N; simpl; auto. simpl in N. rewrite IH by (intros X; apply N; apply in_or_app; auto).
  destruct (isSome _); auto. apply set_owner_other. intros X. apply N. apply in_or_app; auto.
Qed.
(** a new condition: afterwards all its objects have the owner *)
Lemma set_owner_new : forall w c own, NoDup (oids c) -> (forall o, In o (oids c) -> o <> cond_oid c -> own o = None) ->
  forall o, In o (oids c) -> set_owner (Some w) c own o = Some w.
Proof.
  intros w c.
  assert (GO : forall cs, Forall (fun c => forall own, NoDup (oids c) -> (forall o, In o (oids c) -> o <> cond_oid c -> own o = None) ->
                  forall o, In o (oids c) -> set_owner (Some w) c own o = Some w) cs ->
               forall own, NoDup (flat_map oids cs) -> (forall o, In o (flat_map oids cs) -> own o = None) ->
               forall o, In o (flat_map oids cs) -> go_owner (Some w) cs own o = Some w).
  { intros cs F. induction F as [|c' cs P F IH]; intros own N E o X; simpl in *; [tauto|].
    apply NoDup_app_inv in N. destruct N as (N1 & N2 & D).
    rewrite (E (cond_oid c')) by (apply in_or_app; left; apply cond_oid_in). simpl.
    apply in_app_or in X. destruct X as [X|X].
    - rewrite go_owner_other by (apply D; auto). apply P; auto. intros o' Y _. apply E. apply in_or_app; auto.
    - apply IH; auto. intros o' Y. rewrite set_owner_other by (intros Z; apply (D o'); auto). apply E. apply in_or_app; auto. }
  induction c using cond_ind'; intros own N E x X.
  - simpl in *. destruct X as [<-|[]]. apply upd_same.
  - rewrite set_owner_all_eq. simpl in *. inversion N; subst. destruct X as [<-|X].
    + rewrite go_owner_other by auto. apply upd_same.
    + apply GO; auto. intros o' Y. assert (o' <> o) by congruence. rewrite upd_other by auto. apply E; auto.
  - rewrite set_owner_any_eq. simpl in *. inversion N; subst. destruct X as [<-|X].
    + rewrite go_owner_other by auto. apply upd_same.
    + apply GO; auto. intros o' Y. assert (o' <> o) by congruence. rewrite upd_other by auto. apply E; auto.
  - simpl in *. inversion N; subst. destruct X as [<-|X]; [rewrite set_owner_other by auto; apply upd_same|].
    apply IHc; auto. intros o' Y _. assert (o' <> o) by congruence. rewrite upd_other by auto. apply E; auto.
  - simpl in *. inversion N; subst. destruct X as [<-|X]; [rewrite set_owner_other by auto; apply upd_same|].
    apply IHc; auto. intros o' Y _. assert (o' <> o) by congruence. rewrite upd_other by auto. apply E; auto.
Qed.
Lemma set_owner_top : forall w c own, NoDup (oids c) -> set_owner w c own (cond_oid c) = w.
Proof.
  intros w [] own N; simpl in *; inversion N; subst.
  - apply upd_same.
  - fold (go_owner w). change (go_owner w cs (upd own o w) o = w). rewrite go_owner_other by auto. apply upd_same.
  - change (go_owner w cs (upd own o w) o = w). rewrite go_owner_other by auto. apply upd_same.
  - rewrite set_owner_other by auto. apply upd_same.
  - rewrite set_owner_other by auto. apply upd_same.
Qed.

(** ** logs *)
Lemma remove_first_filter : forall o l, NoDup (map sc_oid l) -> remove_first o l = filter (fun s => negb (Nat.eqb (sc_oid s) o)) l.
Proof.
  induction l as [|s l IH]; intros N; simpl; auto. inversion N; subst. destruct (Nat.eqb_spec (sc_oid s) o) as [<-|D]; simpl.
  - symmetry. clear IH. assert (G : forall x, In x l -> negb (Nat.eqb (sc_oid x) (sc_oid s)) = true).
    { intros x X. apply negb_true_iff. apply Nat.eqb_neq. intros E. apply H1. rewrite <- E. apply in_map; auto. }
    clear - G. induction l as [|y l IH]; simpl; auto. rewrite (G y) by (simpl; auto). f_equal. apply IH. intros x X. apply G. simpl; auto.
  - f_equal. auto.
Qed.
Lemma has_oid_spec : forall o l, has_oid o l = true <-> exists s, In s l /\ sc_oid s = o.
Proof. intros o l. unfold has_oid. rewrite existsb_exists. split; intros (s & A & B); exists s; split; auto; apply Nat.eqb_eq; auto. Qed.
Lemma filter_all : forall A (f : A -> bool) l, (forall x, In x l -> f x = true) -> filter f l = l.
Proof. induction l as [|x l IH]; simpl; intros H; auto. rewrite H by auto. f_equal. auto. Qed.
Lemma filter_comm : forall A (f g : A -> bool) l, filter f (filter g l) = filter g (filter f l).
Proof.
  induction l as [|x l IH]; simpl; auto. destruct (g x) eqn:G, (f x) eqn:F; simpl; rewrite ?F, ?G; rewrite ?IH; auto.
Qed.
Lemma filter_map : forall A B (f : B -> bool) (h : A -> B) l, filter f (map h l) = map h (filter (fun x => f (h x)) l).
Proof. induction l as [|x l IH]; simpl; auto. destruct (f (h x)); simpl; rewrite IH; auto. Qed.
Lemma owned_app : forall w L L', owned w (L ++ L') = owned w L ++ owned w L'.
Proof. intros. unfold owned. rewrite filter_app, map_app. auto. Qed.
Lemma owned_In : forall w L s, In s (owned w L) <-> In (w, s) L.
Proof.
  intros w L s. unfold owned. rewrite in_map_iff. split.
  - intros ([w' s'] & E & X). simpl in E. subst s'. apply filter_In in X. destruct X as [X E]. simpl in E. apply Nat.eqb_eq in E. subst; auto.
  - intros X. exists (w, s). split; auto. apply filter_In. split; auto. simpl. apply Nat.eqb_refl.
Qed.
Lemma NoDup_map_filter : forall A B (f : A -> B) p l, NoDup (map f l) -> NoDup (map f (filter p l)).
Proof.
  induction l as [|x l IH]; simpl; intros N; auto. inversion N; subst. destruct (p x); simpl; auto. constructor; auto.
  intros X. apply H1. apply in_map_iff in X. destruct X as (y & <- & Y). apply in_map. apply filter_In in Y. tauto.
Qed.

Lemma NoDup_adel : forall A k (m : amap A), NoDup (akeys m) -> NoDup (akeys (adel k m)).
Proof.
  intros A k m N. induction m as [|[k' v] m IH]; simpl; auto. inversion N; subst. simpl in *.
  destruct (Nat.eqb k k'); auto. simpl. constructor; auto. intros X. apply akeys_adel in X; auto. tauto.
Qed.

(** ** the invariant *)
Definition lookup_owned (l : list scond) : option (list scond) := match l with [] => None | _ => Some l end.
Record INV (ow0 : owners_t) (A : list (node * anycond)) (B : node -> option cond) (L : list (node * scond)) (cs : condset) (ow : owners_t) : Prop := {
  i_basic : forall w, aget w (cs_basic cs) = B w;
  i_order : cs_order cs = map snd L;
  i_struct : forall w, aget w (cs_struct cs) = lookup_owned (owned w L);
  i_keys : NoDup (akeys (cs_basic cs)) /\ NoDup (akeys (cs_struct cs));
  i_cache : cs_rebuild cs = false -> forall w, aget w (cs_cache cs) = entry_for (B w) (owned w L);
  i_inB : forall w c, B w = Some c -> In (w, Basic c) A;
  i_inL : forall w s, In (w, s) L -> In (w, Struct s) A;
  i_ndL : NoDup (map (fun p => sc_oid (snd p)) L);
  i_ownB : forall w c, B w = Some c -> ow (cond_oid c) = Some w /\
             ((forall o, In o (objects A) -> ow0 o = None) -> forall o, In o (oids c) -> ow o = Some w);
  i_ownL : forall w s, In (w, s) L -> ow (sc_oid s) = Some w;
  i_out : forall o, ~ In o (objects A) -> ow o = ow0 o
}.
Lemma inv_empty : forall ow0, INV ow0 [] (fun _ => None) [] cs_empty ow0.
Proof. intros; constructor; simpl; auto; try tauto; try (intros; discriminate); try (split; constructor); constructor. Qed.

(** different entries have no object in common *)
Lemma objects_disjoint : forall A x y o, NoDup (objects A) -> In x A -> In y A -> x <> y -> In o (any_oids (snd x)) -> ~ In o (any_oids (snd y)).
Proof.
  induction A as [|z A IH]; simpl; intros x y o N X Y D O O'; [tauto|]. unfold objects in N. simpl in N. apply NoDup_app_inv in N. destruct N as (N1 & N2 & DJ).
  destruct X as [<-|X], Y as [<-|Y]; try congruence.
  - apply (DJ o); auto. apply in_flat_map; eauto.
  - apply (DJ o); auto. apply in_flat_map; eauto.
  - exact (IH x y o N2 X Y D O O').
Qed.
Lemma objects_app : forall A A', objects (A ++ A') = objects A ++ objects A'.
Proof. intros. unfold objects. apply flat_map_app. Qed.
Lemma in_objects : forall A w a o, In (w, a) A -> In o (any_oids a) -> In o (objects A).
Proof. intros A w a o X O. apply in_flat_map. exists (w, a). auto. Qed.
Lemma any_oid_in : forall a, In (any_oid a) (any_oids a).
Proof. intros [c|s]; simpl; auto. apply cond_oid_in. Qed.

Lemma aget_map_snd : forall A B (f : A -> B) (m : amap A) w, aget w (map (fun p => (fst p, f (snd p))) m) = option_map f (aget w m).
Proof. induction m as [|[k v] m IH]; intros w; simpl; auto. destruct (Nat.eqb w k); auto. Qed.
Definition merged (c : option centry) (l : list scond) : option centry :=
  match c with
  | Some c => Some (Many (entry_list c ++ map Struct l))
  | None => match map Struct l with [a] => Some (One a) | sl => Some (Many sl) end
  end.
Lemma aget_merge : forall conds n l w, aget w (merge_struct conds (n, l)) = if Nat.eqb w n then merged (aget w conds) l else aget w conds.
Proof.
  intros conds n l w. unfold merge_struct, merged. destruct (Nat.eqb_spec w n) as [->|D].
  - destruct (aget n conds); [apply aget_aset_same|]. destruct (map Struct l) as [|a [|]]; apply aget_aset_same.
  - destruct (aget n conds); [apply aget_aset_other; auto|]. destruct (map Struct l) as [|a [|]]; apply aget_aset_other; auto.
Qed.
Lemma aget_build : forall l conds w, NoDup (akeys l) ->
  aget w (fold_left merge_struct l conds) = match aget w l with Some sl => merged (aget w conds) sl | None => aget w conds end.
Proof.
  induction l as [|[n sl] l IH]; intros conds w N; [simpl; auto|]. inversion N; subst. cbn [fold_left]. rewrite IH by auto. rewrite aget_merge. cbn [aget].
  destruct (Nat.eqb_spec w n) as [->|D]; auto. assert (X : aget n l = None) by (apply aget_None; auto). rewrite X. auto.
Qed.
Lemma inv_build : forall ow0 A B L cs ow, INV ow0 A B L cs ow -> forall w, aget w (build_conditions cs) = entry_for (B w) (owned w L).
Proof.
  intros ow0 A B L cs ow I w. unfold build_conditions. rewrite aget_build by (apply (i_keys _ _ _ _ _ _ I)).
  rewrite (aget_map_snd _ _ (fun c => One (Basic c))), (i_basic _ _ _ _ _ _ I), (i_struct _ _ _ _ _ _ I). unfold lookup_owned, merged, entry_for.
  destruct (owned w L) as [|s l] eqn:E, (B w); simpl; auto. destruct l; auto.
Qed.
Lemma inv_conditions : forall ow0 A B L cs ow, INV ow0 A B L cs ow ->
  (forall w, aget w (fst (cs_conditions cs)) = entry_for (B w) (owned w L)) /\ INV ow0 A B L (snd (cs_conditions cs)) ow.
Proof.
  intros ow0 A B L cs ow I. unfold cs_conditions. destruct (cs_rebuild cs) eqn:R; simpl.
  - split; [eapply inv_build; eauto|]. pose proof (inv_build _ _ _ _ _ _ I) as BU. destruct I. constructor; simpl; auto.
  - split; auto. apply (i_cache _ _ _ _ _ _ I R).
Qed.

Lemma inv_add : forall ow0 A B L cs ow w a cs' ow', INV ow0 A B L cs ow -> NoDup (objects (A ++ [(w, a)])) -> cs_add w a cs ow = Ok (cs', ow') ->
  INV ow0 (A ++ [(w, a)]) (reg_basic1 B (w, a)) (L ++ structs [(w, a)]) cs' ow'.
Proof.
  intros ow0 A B L cs ow w a cs' ow' I N E. rewrite objects_app in N. apply NoDup_app_inv in N. destruct N as (N1 & N2 & DJ).
  assert (Oa : forall o, In o (any_oids a) -> In o (objects [(w, a)])) by (intros o O; apply in_flat_map; exists (w, a); simpl; auto).
  assert (FR : forall o, In o (any_oids a) -> ~ In o (objects A)) by (intros o O X; apply (DJ o); auto).
  assert (INA : forall w' b, In (w', b) A -> forall o, In o (any_oids b) -> ~ In o (any_oids a)).
  { intros w' b X o O O'. apply (FR o); auto. eapply in_objects; eauto. }
  unfold objects in N2; simpl in N2; rewrite app_nil_r in N2.
  destruct I as [Ib Io Is Ik Ic IB IL IN IoB IoL Iout]. destruct a as [c|s]; unfold cs_add in E.
  - inversion E; subst. clear E. unfold reg_basic1, structs; simpl. rewrite app_nil_r. constructor; simpl; auto.
    + intros w'. rewrite aget_aset. unfold upd. destruct (Nat.eqb w' w); auto.
    + destruct Ik; split; auto. apply NoDup_aset; auto.
    + intros; discriminate.
    + intros w' c' H. apply in_or_app. unfold upd in H. destruct (Nat.eqb_spec w' w) as [->|D]; [inversion H; subst; simpl; auto|left; auto].
    + intros w' s' H. apply in_or_app. auto.
    + intros w' c' H. unfold upd in H. destruct (Nat.eqb_spec w' w) as [->|D].
      * inversion H; subst c'. split; [apply set_owner_top; auto|]. intros Z o O. apply set_owner_new; auto.
        intros o' O' _. rewrite Iout by auto. apply Z. rewrite objects_app. apply in_or_app. right. apply Oa; auto.
      * destruct (IoB _ _ H) as [P Q]. assert (NI : forall o, In o (oids c') -> ~ In o (oids c)) by (intros o O; apply (INA w' (Basic c')); auto).
        split; [rewrite set_owner_other; auto; apply NI, cond_oid_in|]. intros Z o O. rewrite set_owner_other by auto. apply Q; auto.
        intros o' O'. apply Z. rewrite objects_app. apply in_or_app; auto.
    + intros w' s' H. rewrite set_owner_other; auto. apply (INA w' (Struct s')); simpl; auto.
    + intros o H. rewrite objects_app in H. rewrite set_owner_other; [apply Iout; intros X; apply H; apply in_or_app; auto|].
      intros X. apply H. apply in_or_app. right. apply Oa; auto.
  - destruct (gsc_owner_ok (sc_gsc s) w) eqn:G; [|discriminate]. inversion E; subst. clear E. unfold reg_basic1, structs; simpl. 
    assert (NS : forall w' s', In (w', s') L -> sc_oid s' <> sc_oid s).
    { intros w' s' X Y. apply (INA w' (Struct s') (IL _ _ X) (sc_oid s')); simpl; auto. }
    constructor; simpl; auto.
    + rewrite Io, map_app. auto.
    + intros w'. rewrite aget_aset, owned_app. unfold owned at 2. simpl. rewrite !Is. rewrite (Nat.eqb_sym w w'). destruct (Nat.eqb_spec w' w) as [->|D]; simpl.
      * unfold lookup_owned. destruct (owned w L); auto.
      * rewrite app_nil_r. auto.
    + destruct Ik; split; auto. apply NoDup_aset; auto.
    + intros; discriminate.
    + intros w' c' H. apply in_or_app; auto.
    + intros w' s' H. apply in_or_app. apply in_app_or in H. destruct H as [H|[H|[]]]; [auto|inversion H; subst; simpl; auto].
    + rewrite map_app. simpl. apply NoDup_app_intro; auto. intros x X [<-|[]]. apply in_map_iff in X. destruct X as ([w' s'] & X & Y). eapply NS; eauto.
    + intros w' c' H. destruct (IoB _ _ H) as [P Q]. assert (NI : forall o, In o (oids c') -> o <> sc_oid s).
      { intros o O ->. apply (INA w' (Basic c') (IB _ _ H) (sc_oid s)); simpl; auto. }
      split; [rewrite upd_other; auto; apply NI, cond_oid_in|]. intros Z o O. rewrite upd_other by auto. apply Q; auto.
      intros o' O'. apply Z. rewrite objects_app. apply in_or_app; auto.
    + intros w' s' H. apply in_app_or in H. destruct H as [H|[H|[]]].
      * rewrite upd_other; auto. eapply NS; eauto.
      * inversion H; subst. apply upd_same.
    + intros o H. rewrite objects_app in H. rewrite upd_other; [apply Iout; intros X; apply H; apply in_or_app; auto|].
      intros ->. apply H. apply in_or_app. right. apply Oa; simpl; auto.
Qed.

Lemma structs_app : forall a b, structs (a ++ b) = structs a ++ structs b.
Proof. intros; apply flat_map_app. Qed.
Lemma inv_add_list : forall ow0 w l A B L cs ow cs' ow', INV ow0 A B L cs ow -> NoDup (objects (A ++ map (pair w) l)) ->
  cs_add_list w l cs ow = (Ok tt, cs', ow') ->
  INV ow0 (A ++ map (pair w) l) (fold_left reg_basic1 (map (pair w) l) B) (L ++ structs (map (pair w) l)) cs' ow'.
Proof.
  intros ow0 w l. induction l as [|a l IH]; intros A B L cs ow cs' ow' I N E; cbn [cs_add_list] in E.
  - inversion E; subst. simpl. rewrite !app_nil_r. auto.
  - destruct (cs_add w a cs ow) as [[cs1 ow1]|] eqn:E1; [|discriminate].
    cbn [map fold_left] in *.
    replace (A ++ (w, a) :: map (pair w) l) with ((A ++ [(w, a)]) ++ map (pair w) l) in * by (rewrite <- app_assoc; auto).
    replace (structs ((w, a) :: map (pair w) l)) with (structs [(w, a)] ++ structs (map (pair w) l)) by (rewrite <- structs_app; auto).
    rewrite app_assoc. eapply IH; eauto. eapply inv_add; eauto. rewrite objects_app in N. apply NoDup_app_inv in N. tauto.
Qed.
Lemma cs_add_list_ok : forall w l cs ow r cs' ow', cs_add_list w l cs ow = (Ok r, cs', ow') -> r = tt.
Proof. intros. destruct r. auto. Qed.
Lemma inv_add_set : forall ow0 s A B L cs ow cs' ow', INV ow0 A B L cs ow -> NoDup (objects (A ++ adds (SAddSet s))) ->
  cs_add_set s cs ow = (Ok tt, cs', ow') ->
  INV ow0 (A ++ adds (SAddSet s)) (fold_left reg_basic1 (adds (SAddSet s)) B) (L ++ structs (adds (SAddSet s))) cs' ow'.
Proof.
  intros ow0 s. induction s as [|[w e] s IH]; intros A B L cs ow cs' ow' I N E; cbn [cs_add_set] in E.
  - inversion E; subst. simpl. rewrite !app_nil_r. auto.
  - destruct (cs_add_list w (entry_list e) cs ow) as [[[[]|] cs1] ow1] eqn:E1; [|discriminate].
    assert (Q : adds (SAddSet ((w, e) :: s)) = map (pair w) (entry_list e) ++ adds (SAddSet s)) by reflexivity.
    rewrite Q in *. rewrite fold_left_app, structs_app, !app_assoc. rewrite app_assoc in N. eapply IH; eauto.
    eapply inv_add_list; eauto. rewrite objects_app in N. apply NoDup_app_inv in N. tauto.
Qed.

Lemma inv_ext : forall ow0 A B B' L cs ow, (forall w, B' w = B w) -> INV ow0 A B L cs ow -> INV ow0 A B' L cs ow.
Proof. intros ow0 A B B' L cs ow E []. constructor; intros; rewrite ?E in *; auto. Qed.
(** a basic condition goes away *)
Lemma inv_remove_basic : forall ow0 A B L cs ow w c, INV ow0 A B L cs ow -> NoDup (objects A) -> B w = Some c ->
  INV ow0 A (upd B w None) L (set_rebuild (mkCS (adel w (cs_basic cs)) (cs_struct cs) (cs_order cs) (cs_cache cs) (cs_rebuild cs))) (set_owner None c ow).
Proof.
  intros ow0 A B L cs ow w c [Ib Io Is Ik Ic IB IL IN IoB IoL Iout] N E. constructor; simpl; auto.
  - intros w'. rewrite aget_adel by apply Ik. unfold upd. destruct (Nat.eqb w' w); auto.
  - destruct Ik; split; auto. apply NoDup_adel; auto.
  - intros; discriminate.
  - intros w' c' H. unfold upd in H. destruct (Nat.eqb_spec w' w); [discriminate|auto].
  - intros w' c' H. unfold upd in H. destruct (Nat.eqb_spec w' w) as [|D]; [discriminate|].
    assert (NI : forall o, In o (oids c') -> ~ In o (oids c)).
    { intros o O. apply (objects_disjoint A (w', Basic c') (w, Basic c)); auto. congruence. }
    destruct (IoB _ _ H) as [P Q]. split; [rewrite set_owner_other; auto; apply NI, cond_oid_in|].
    intros Z o O. rewrite set_owner_other by auto. auto.
  - intros w' s H. rewrite set_owner_other; auto. apply (objects_disjoint A (w', Struct s) (w, Basic c)); simpl; auto. congruence.
  - intros o H. rewrite set_owner_other; auto. intros X. apply H. eapply in_objects; [apply IB; eauto|]. auto.
Qed.
Lemma owned_filter : forall w L o, owned w (filter (fun p => negb (Nat.eqb (sc_oid (snd p)) o)) L) = filter (fun s => negb (Nat.eqb (sc_oid s) o)) (owned w L).
Proof. intros. unfold owned. rewrite filter_comm, filter_map. auto. Qed.
(** a structural condition goes away *)
Lemma inv_remove_struct : forall ow0 A B L cs ow w s, INV ow0 A B L cs ow -> NoDup (objects A) -> In (w, s) L ->
  cs_remove_struct w (sc_oid s) cs = (true, mkCS (cs_basic cs) 
     (match remove_first (sc_oid s) (owned w L) with [] => adel w (cs_struct cs) | l' => aset w l' (cs_struct cs) end)
     (remove_first (sc_oid s) (cs_order cs)) (cs_cache cs) (cs_rebuild cs)) /\
  INV ow0 A B (filter (fun p => negb (Nat.eqb (sc_oid (snd p)) (sc_oid s))) L) (set_rebuild (snd (cs_remove_struct w (sc_oid s) cs))) ow.
Proof.
  intros ow0 A B L cs ow w s [Ib Io Is Ik Ic IB IL IN IoB IoL Iout] N H.
  assert (HO : In s (owned w L)) by (apply owned_In; auto).
  assert (E1 : cs_remove_struct w (sc_oid s) cs = (true, mkCS (cs_basic cs) 
     (match remove_first (sc_oid s) (owned w L) with [] => adel w (cs_struct cs) | l' => aset w l' (cs_struct cs) end)
     (remove_first (sc_oid s) (cs_order cs)) (cs_cache cs) (cs_rebuild cs))).
  { unfold cs_remove_struct. rewrite Is. destruct (owned w L) as [|x l] eqn:E; [destruct HO|]. cbn [lookup_owned].
    assert (H1 : has_oid (sc_oid s) (x :: l) = true) by (apply has_oid_spec; eauto).
    assert (H2 : has_oid (sc_oid s) (cs_order cs) = true).
    { apply has_oid_spec. exists s. split; auto. rewrite Io. apply in_map_iff. exists (w, s); auto. }
    rewrite H1, H2. destruct (remove_first (sc_oid s) (x :: l)); auto. }
  split; auto. rewrite E1. simpl.
  assert (ND : forall w', NoDup (map sc_oid (owned w' L))).
  { intros w'. unfold owned. rewrite map_map. apply NoDup_map_filter; auto. }
  constructor; simpl; auto.
  - rewrite Io, remove_first_filter, filter_map; auto. rewrite map_map. auto.
  - intros w'. rewrite owned_filter, remove_first_filter by auto. destruct (Nat.eq_dec w' w) as [->|D].
    + destruct (filter _ (owned w L)) eqn:F; simpl.
      * rewrite aget_adel by apply Ik. rewrite Nat.eqb_refl. auto.
      * rewrite aget_aset_same. auto.
    + assert (F2 : filter (fun s0 => negb (Nat.eqb (sc_oid s0) (sc_oid s))) (owned w' L) = owned w' L).
      { apply filter_all. intros s' X. apply negb_true_iff, Nat.eqb_neq. intros Y. apply owned_In in X.
        pose proof (IoL _ _ X) as O1. pose proof (IoL _ _ H) as O2. rewrite Y in O1. congruence. }
      rewrite F2, <- Is. destruct (filter _ (owned w L)); [rewrite aget_adel by apply Ik|rewrite aget_aset_other by auto; auto].
      destruct (Nat.eqb_spec w' w); [congruence|auto].
  - destruct Ik as [K1 K2]. split; auto. destruct (remove_first _ _); [apply NoDup_adel; auto|apply NoDup_aset; auto].
  - intros; discriminate.
  - intros w' s' X. apply filter_In in X. destruct X; auto.
  - apply NoDup_map_filter. auto.
  - intros w' s' X. apply filter_In in X. destruct X; auto.
Qed.

(** ** every call keeps it *)
Lemma inv_call : forall ow0 k A B L cs ow cs' ow', INV ow0 A B L cs ow -> NoDup (objects (A ++ adds k)) ->
  (forall a w b, k = SRemove a -> In (w, b) A -> any_oid a = any_oid b -> a = b) ->
  set_perform k (cs, ow) = Some (cs', ow') -> INV ow0 (A ++ adds k) (reg_basic B k) (reg_struct L k) cs' ow'.
Proof.
  intros ow0 k A B L cs ow cs' ow' I N SO E. destruct k as [w a|s|a|w]; cbn [set_perform] in E.
  - destruct (cs_add w a cs ow) as [[cs1 ow1]|] eqn:E1; inversion E; subst. eapply inv_add; eauto.
  - destruct (cs_add_set s cs ow) as [[[[]|] cs1] ow1] eqn:E1; inversion E; subst. eapply inv_add_set; eauto.
  - cbn [adds] in *. rewrite app_nil_r in *. specialize (fun w b => SO a w b eq_refl). unfold cs_remove_cond in E.
    destruct (ow (any_oid a)) as [w|] eqn:OA; [|discriminate]. rewrite (i_basic _ _ _ _ _ _ I) in E.
    destruct (match B w with Some c => Nat.eqb (cond_oid c) (any_oid a) | None => false end) eqn:IB.
    + destruct (B w) as [c|] eqn:Bw; [|discriminate]. apply Nat.eqb_eq in IB.
      assert (a = Basic c) by (apply (SO w); auto; eapply i_inB; eauto). subst a. inversion E; subst.
      cbn [reg_basic reg_struct adds structs flat_map]. rewrite app_nil_r. eapply inv_ext; [|eapply inv_remove_basic; eauto].
      intros w'. unfold upd. destruct (Nat.eqb_spec w' w) as [->|D]; [rewrite Bw, Nat.eqb_refl; auto|].
      destruct (B w') as [c'|] eqn:Bw'; auto. destruct (Nat.eqb_spec (cond_oid c') (cond_oid c)) as [Q|]; auto.
      exfalso. apply D. destruct (i_ownB _ _ _ _ _ _ I _ _ Bw') as [O1 _]. simpl in OA. congruence.
    + destruct a as [c|s].
      * (* not registered *)
        assert (NB : forall w', match B w' with Some c' => Nat.eqb (cond_oid c') (cond_oid c) | None => false end = false).
        { intros w'. destruct (B w') as [c'|] eqn:Bw'; auto. destruct (Nat.eqb_spec (cond_oid c') (cond_oid c)) as [Q|]; auto.
          destruct (i_ownB _ _ _ _ _ _ I _ _ Bw') as [O1 _]. simpl in OA. assert (w' = w) by congruence. subst w'.
          rewrite Bw', Q in IB. simpl in IB. rewrite Nat.eqb_refl in IB. discriminate. }
        assert (NL : cs_remove_struct w (cond_oid c) cs = (false, cs)).
        { unfold cs_remove_struct. rewrite (i_struct _ _ _ _ _ _ I). destruct (lookup_owned (owned w L)) as [l|] eqn:LO; auto.
          destruct (has_oid (cond_oid c) l) eqn:HO; auto. exfalso. apply has_oid_spec in HO. destruct HO as (s & X & Y).
          assert (l = owned w L) by (unfold lookup_owned in LO; destruct (owned w L); congruence). subst l. apply owned_In in X.
          assert (Basic c = Struct s) by (apply (SO w); simpl; auto; eapply i_inL; eauto). discriminate. }
        cbn [any_oid] in E. rewrite NL in E. inversion E; subst. cbn [reg_basic reg_struct adds structs flat_map]. rewrite app_nil_r.
        eapply inv_ext; [|eauto]. intros w'. specialize (NB w'). destruct (B w'); auto. rewrite NB. auto.
      * cbn [any_oid] in *. cbn [reg_basic reg_struct].
        destruct (in_dec Nat.eq_dec (sc_oid s) (map (fun p => sc_oid (snd p)) L)) as [Y|Y].
        -- apply in_map_iff in Y. destruct Y as ([w' s'] & Q & X). simpl in Q.
           assert (Struct s = Struct s') by (apply (SO w'); simpl; auto; eapply i_inL; eauto). inversion H; subst s'.
           assert (w' = w) by (pose proof (i_ownL _ _ _ _ _ _ I _ _ X); congruence). subst w'.
           destruct (inv_remove_struct _ _ _ _ _ _ _ _ I N X) as [R1 R2]. rewrite R1 in *. simpl in E, R2. inversion E; subst. auto.
        -- assert (NL : cs_remove_struct w (sc_oid s) cs = (false, cs)).
           { unfold cs_remove_struct. rewrite (i_struct _ _ _ _ _ _ I). destruct (lookup_owned (owned w L)) as [l|] eqn:LO; auto.
             destruct (has_oid (sc_oid s) l) eqn:HO; auto. exfalso. apply has_oid_spec in HO. destruct HO as (s' & X & Q).
             assert (l = owned w L) by (unfold lookup_owned in LO; destruct (owned w L); congruence). subst l. apply owned_In in X.
             apply Y. rewrite <- Q. apply in_map_iff. exists (w, s'). auto. }
           rewrite NL in E. inversion E; subst. rewrite filter_all; auto.
           intros [w' s'] X. simpl. apply negb_true_iff, Nat.eqb_neq. intros Q. apply Y. rewrite <- Q. apply in_map_iff. exists (w', s'); auto.
  - cbn [adds] in *. rewrite app_nil_r in *. unfold cs_remove_owner in E. rewrite (i_basic _ _ _ _ _ _ I), (i_struct _ _ _ _ _ _ I) in E.
    cbn [reg_basic reg_struct adds structs flat_map]. rewrite app_nil_r.
    destruct (B w) as [c|] eqn:Bw; destruct (lookup_owned (owned w L)) as [l|] eqn:LO; try discriminate.
    + inversion E; subst. eapply inv_remove_basic; eauto.
    + destruct l as [|x [|]].
      * inversion E; subst. eapply inv_ext; [|eauto]. intros w'. unfold upd. destruct (Nat.eqb_spec w' w); subst; auto.
      * destruct (cs_remove_struct w (sc_oid x) cs); discriminate.
      * discriminate.
    + inversion E; subst. eapply inv_ext; [|eauto]. intros w'. unfold upd. destruct (Nat.eqb_spec w' w); subst; auto.
Qed.
Lemma inv_calls : forall ow0 ks A B L cs ow cs' ow', INV ow0 A B L cs ow -> NoDup (objects (A ++ flat_map adds ks)) ->
  (forall a w b, In (SRemove a) ks -> In (w, b) (A ++ flat_map adds ks) -> any_oid a = any_oid b -> a = b) ->
  set_performs ks (cs, ow) = Some (cs', ow') ->
  INV ow0 (A ++ flat_map adds ks) (fold_left reg_basic ks B) (fold_left reg_struct ks L) cs' ow'.
Proof.
  intros ow0 ks. induction ks as [|k ks IH]; intros A B L cs ow cs' ow' I N SO E.
  - simpl in *. inversion E; subst. rewrite app_nil_r. auto.
  - cbn [set_performs] in E. destruct (set_perform k (cs, ow)) as [[cs1 ow1]|] eqn:E1; [|discriminate].
    cbn [flat_map fold_left] in *. rewrite app_assoc in *. eapply IH; eauto.
    + eapply inv_call; eauto.
      * rewrite objects_app in N. apply NoDup_app_inv in N. tauto.
      * intros a w b -> X Y. apply (SO a w b); simpl; auto. apply in_or_app; left; apply in_or_app; auto.
    + intros a w b X Y Z. apply (SO a w b); simpl; auto.
Qed.

(** C35 *)
Theorem condset_refines : forall ow0 ks cs ow, distinct_objects ks -> set_performs ks (cs_empty, ow0) = Some (cs, ow) ->
  (forall w, aget w (cs_basic cs) = registered_basic ks w) /\
  cs_order cs = map snd (registered_struct ks) /\
  (forall w, aget w (cs_struct cs) = match owned w (registered_struct ks) with [] => None | l => Some l end) /\
  (forall w, cs_getitem w cs = entry_for (registered_basic ks w) (owned w (registered_struct ks))) /\
  (forall w, cs_contains w cs = isSome (entry_for (registered_basic ks w) (owned w (registered_struct ks)))).
Proof.
  intros ow0 ks cs ow [N SO] E.
  pose proof (inv_calls ow0 ks [] (fun _ => None) [] cs_empty ow0 cs ow (inv_empty ow0) N SO E) as I.
  fold (registered_basic ks) in I. fold (registered_struct ks) in I. simpl app in I.
  pose proof (proj1 (inv_conditions _ _ _ _ _ _ I)) as GC. destruct I as [Ib Io Is _ _ _ _ _ _ _ _].
  split; [exact Ib|split; [exact Io|split; [intros w; rewrite Is; unfold lookup_owned; destruct (owned w _); auto|split; [exact GC|]]]].
  intros w. unfold cs_contains, ahas. specialize (GC w). rewrite GC. destruct (entry_for _ _); auto.
Qed.
(** C37 *)
Theorem condset_owners : forall ow0 ks cs ow, distinct_objects ks -> set_performs ks (cs_empty, ow0) = Some (cs, ow) ->
  (forall o, In o (objects (flat_map adds ks)) -> ow0 o = None) ->
  forall w c, registered_basic ks w = Some c -> forall o, In o (oids c) -> ow o = Some w.
Proof.
  intros ow0 ks cs ow [N SO] E Z w c R o O.
  pose proof (inv_calls ow0 ks [] (fun _ => None) [] cs_empty ow0 cs ow (inv_empty ow0) N SO E) as I.
  destruct (i_ownB _ _ _ _ _ _ I w c R) as [_ Q]. apply Q; auto.
Qed.
