(** Condition sets given to condition sets. *)
From Verif Require Import BaseFacts PureFacts CondSetFacts SpecCopy.

(** ** sets whose cache is right *)
Record sane (cs : condset) : Prop := {
  n_keys : NoDup (akeys (cs_basic cs)) /\ NoDup (akeys (cs_struct cs));
  n_some : forall w l, aget w (cs_struct cs) = Some l -> l <> [];
  n_ok : forall w l s, aget w (cs_struct cs) = Some l -> In s l -> gsc_owner_ok (sc_gsc s) w = true;
  n_cache : cs_rebuild cs = false -> cs_cache cs = build_conditions cs
}.
Lemma sane_empty : sane cs_empty.
Proof. constructor; simpl; try (split; constructor); intros; try discriminate; auto. Qed.
Lemma sane_conds : forall cs, sane cs -> fst (cs_conditions cs) = build_conditions cs.
Proof. intros cs N. unfold cs_conditions. destruct (cs_rebuild cs) eqn:R; simpl; auto. apply (n_cache _ N R). Qed.
Lemma sane_look : forall cs, sane cs -> sane (snd (cs_conditions cs)).
Proof. intros cs N. unfold cs_conditions. destruct (cs_rebuild cs) eqn:R; simpl; auto. destruct N. constructor; simpl; auto. Qed.
Lemma look_same : forall cs, cs_basic (snd (cs_conditions cs)) = cs_basic cs /\ cs_struct (snd (cs_conditions cs)) = cs_struct cs /\ cs_order (snd (cs_conditions cs)) = cs_order cs.
Proof. intros cs. unfold cs_conditions. destruct (cs_rebuild cs); simpl; auto. Qed.
Lemma sane_get : forall cs, sane cs -> forall w, aget w (fst (cs_conditions cs)) = entry_for (aget w (cs_basic cs)) (listed (aget w (cs_struct cs))).
Proof.
  intros cs N w. rewrite sane_conds by auto. unfold build_conditions. rewrite aget_build by apply (n_keys _ N).
  rewrite (aget_map_snd _ _ (fun c => One (Basic c))). unfold merged, entry_for.
  destruct (aget w (cs_struct cs)) as [l|] eqn:E; simpl; [|destruct (aget w (cs_basic cs)); auto].
  pose proof (n_some _ N _ _ E) as X. destruct l as [|s l]; [congruence|]. destruct (aget w (cs_basic cs)); simpl; auto. destruct l; auto.
Qed.
Lemma keys_merge : forall l conds, NoDup (akeys conds) -> NoDup (akeys (fold_left merge_struct l conds)).
Proof.
  induction l as [|[n sl] l IH]; intros conds N; cbn [fold_left]; auto. apply IH. unfold merge_struct.
  destruct (aget n conds); [apply NoDup_aset; auto|]. destruct (map Struct sl) as [|a [|]]; apply NoDup_aset; auto.
Qed.
Lemma sane_nodup : forall cs, sane cs -> NoDup (akeys (fst (cs_conditions cs))).
Proof.
  intros cs N. rewrite sane_conds by auto. apply keys_merge. unfold akeys. rewrite map_map. apply (n_keys _ N).
Qed.
Lemma sane_keys : forall cs, sane cs -> forall w, In w (akeys (fst (cs_conditions cs))) <-> cs_contains w cs = true.
Proof.
  intros cs N w. unfold cs_contains, ahas. destruct (aget w (fst (cs_conditions cs))) eqn:E.
  - split; auto. intros _. destruct (in_dec Nat.eq_dec w (akeys (fst (cs_conditions cs)))) as [|X]; auto. apply aget_None in X. congruence.
  - split; [|discriminate]. intros X. apply aget_None in E. tauto.
Qed.

Lemma sane_add : forall w a cs ow cs' ow', sane cs -> cs_add w a cs ow = Ok (cs', ow') -> sane cs'.
Proof.
  intros w a cs ow cs' ow' N E. destruct N as [[K1 K2] Nn No Nc]. destruct a as [c|s]; unfold cs_add in E.
  - inversion E; subst. constructor; simpl; auto; [|discriminate]. split; auto. apply NoDup_aset; auto.
  - destruct (gsc_owner_ok (sc_gsc s) w) eqn:G; [|discriminate]. inversion E; subst. constructor; simpl; [split; auto; apply NoDup_aset; auto| | |discriminate].
    + intros w' l. rewrite aget_aset. destruct (Nat.eqb w' w); [intros X; inversion X; subst|apply Nn]. destruct (aget w (cs_struct cs)) as [[|]|]; discriminate.
    + intros w' l s'. rewrite aget_aset. destruct (Nat.eqb_spec w' w) as [->|D]; [|apply No]. intros X Y. inversion X; subst. clear X.
      apply in_app_or in Y. destruct Y as [Y|[<-|[]]]; auto. destruct (aget w (cs_struct cs)) eqn:A; [eapply No; eauto|destruct Y].
Qed.
Lemma sane_add_list : forall w l cs ow r cs' ow', sane cs -> cs_add_list w l cs ow = (r, cs', ow') -> sane cs'.
Proof.
  induction l as [|a l IH]; intros cs ow r cs' ow' N E; cbn [cs_add_list] in E; [inversion E; subst; auto|].
  destruct (cs_add w a cs ow) as [[c1 o1]|] eqn:A; [|inversion E; subst; auto]. eapply IH; [|eauto]. eapply sane_add; eauto.
Qed.
Lemma sane_add_set : forall d cs ow r cs' ow', sane cs -> cs_add_set d cs ow = (r, cs', ow') -> sane cs'.
Proof.
  induction d as [|[w e] d IH]; intros cs ow r cs' ow' N E; cbn [cs_add_set] in E; [inversion E; subst; auto|].
  destruct (cs_add_list w (entry_list e) cs ow) as [[[u|ex] c1] o1] eqn:A; pose proof (sane_add_list _ _ _ _ _ _ _ N A); [eapply IH; eauto|inversion E; subst; auto].
Qed.
Lemma remove_first_in : forall o l s, In s (remove_first o l) -> In s l.
Proof. induction l as [|x l IH]; simpl; intros s H; auto. destruct (Nat.eqb (sc_oid x) o); [auto|destruct H; auto]. Qed.
Lemma sane_remove_struct : forall ow0 A B L cs ow w o b cs', INV ow0 A B L cs ow -> sane cs -> cs_remove_struct w o cs = (b, cs') ->
  if b then sane (set_rebuild cs') else cs' = cs.
Proof.
  intros ow0 A B L cs ow w o b cs' I N E. unfold cs_remove_struct in E. destruct (aget w (cs_struct cs)) as [l|] eqn:G; [|inversion E; subst; auto].
  destruct (has_oid o l) eqn:H; [|inversion E; subst; auto].
  destruct (has_oid o (cs_order cs)) eqn:H'.
  - inversion E; subst. clear E. destruct N as [[K1 K2] Nn No Nc]. constructor; simpl; [split; auto| | |discriminate].
    + destruct (remove_first o l); [apply NoDup_adel; auto|apply NoDup_aset; auto].
    + intros w' l'. destruct (remove_first o l) eqn:R.
      * rewrite aget_adel by auto. destruct (Nat.eqb w' w); [discriminate|apply Nn].
      * rewrite aget_aset. destruct (Nat.eqb w' w); [intros X; inversion X; discriminate|apply Nn].
    + intros w' l' s'. destruct (remove_first o l) eqn:R.
      * rewrite aget_adel by auto. destruct (Nat.eqb w' w); [discriminate|apply No].
      * rewrite aget_aset. destruct (Nat.eqb_spec w' w) as [->|D]; [|apply No]. intros X Y. inversion X; subst. eapply No; eauto.
        apply remove_first_in with (o := o). rewrite R. auto.
  - exfalso. apply has_oid_spec in H. destruct H as (s & X & Y). assert (has_oid o (cs_order cs) = true); [|congruence].
    apply has_oid_spec. exists s. split; auto. rewrite (i_order _ _ _ _ _ _ I). rewrite (i_struct _ _ _ _ _ _ I) in G.
    assert (l = owned w L) by (unfold lookup_owned in G; destruct (owned w L); congruence). subst l. apply owned_In in X. apply in_map_iff. exists (w, s). auto.
Qed.
Lemma sane_call : forall ow0 A B L cs ow k cs' ow', INV ow0 A B L cs ow -> sane cs -> set_perform k (cs, ow) = Some (cs', ow') -> sane cs'.
Proof.
  intros ow0 A B L cs ow k cs' ow' I N E. destruct k as [w a|s|a|w]; cbn [set_perform] in E.
  - destruct (cs_add w a cs ow) as [[c o]|] eqn:X; inversion E; subst. eapply sane_add; eauto.
  - destruct (cs_add_set s cs ow) as [[[u|] c] o] eqn:X; inversion E; subst. eapply sane_add_set; eauto.
  - unfold cs_remove_cond in E. destruct (ow (any_oid a)) as [w|]; [|discriminate]. destruct (match aget w (cs_basic cs) with Some _ => _ | None => _ end).
    + inversion E; subst. destruct N as [[K1 K2] Nn No Nc]. constructor; simpl; auto; [split; auto; apply NoDup_adel; auto|discriminate].
    + destruct (cs_remove_struct w (any_oid a) cs) as [b c] eqn:R. pose proof (sane_remove_struct _ _ _ _ _ _ _ _ _ _ I N R) as Z.
      destruct b; inversion E; subst; auto.
  - unfold cs_remove_owner in E. destruct (aget w (cs_basic cs)) eqn:Eb, (aget w (cs_struct cs)) as [l|] eqn:Es; try discriminate.
    + inversion E; subst. destruct N as [[K1 K2] Nn No Nc]. constructor; simpl; auto; [split; auto; apply NoDup_adel; auto|discriminate].
    + destruct l as [|x [|]]; [inversion E; subst; auto|destruct (cs_remove_struct w (sc_oid x) cs); discriminate|discriminate].
    + inversion E; subst; auto.
Qed.
Lemma used_inv : forall ow0 ks A B L cs ow cs' ow', INV ow0 A B L cs ow -> sane cs -> NoDup (objects (A ++ flat_map adds (calls ks))) ->
  (forall a w b, In (SRemove a) (calls ks) -> In (w, b) (A ++ flat_map adds (calls ks)) -> any_oid a = any_oid b -> a = b) ->
  used ks (cs, ow) = Some (cs', ow') ->
  INV ow0 (A ++ flat_map adds (calls ks)) (fold_left reg_basic (calls ks) B) (fold_left reg_struct (calls ks) L) cs' ow' /\ sane cs'.
Proof.
  intros ow0 ks. induction ks as [|[k|] ks IH]; intros A B L cs ow cs' ow' I S N SO E.
  - simpl in *. inversion E; subst. rewrite app_nil_r. auto.
  - cbn [used] in E. destruct (set_perform k (cs, ow)) as [[cs1 ow1]|] eqn:E1; [|discriminate].
    change (calls (Some k :: ks)) with (k :: calls ks) in *. cbn [flat_map fold_left] in *. rewrite app_assoc in *. eapply IH; [| |exact N| |exact E].
    + eapply inv_call; eauto.
      * rewrite objects_app in N. apply NoDup_app_inv in N. tauto.
      * intros a w b -> X Y. apply (SO a w b); simpl; auto. apply in_or_app; left; apply in_or_app; auto.
    + eapply sane_call; eauto.
    + intros a w b X Y Z. apply (SO a w b); simpl; auto.
  - cbn [used fst snd] in E. change (calls (None :: ks)) with (calls ks) in *. eapply IH; [| |exact N|exact SO|exact E].
    + apply inv_conditions. auto.
    + apply sane_look. auto.
Qed.
Lemma used_sane : forall ow0 ks cs ow, distinct_objects (calls ks) -> used ks (cs_empty, ow0) = Some (cs, ow) ->
  INV ow0 (flat_map adds (calls ks)) (registered_basic (calls ks)) (registered_struct (calls ks)) cs ow /\ sane cs.
Proof. intros ow0 ks cs ow [N SO] E. exact (used_inv ow0 ks [] (fun _ => None) [] cs_empty ow0 cs ow (inv_empty ow0) sane_empty N SO E). Qed.

(** ** adding lists and dicts *)
Definition st_of (l : list anycond) : list scond := flat_map (fun a => match a with Struct s => [s] | Basic _ => [] end) l.
Definition ba_of (l : list anycond) : option cond := fold_left (fun r a => match a with Basic c => Some c | Struct _ => r end) l None.
Lemma ba_acc : forall l r, fold_left (fun r a => match a with Basic c => Some c | Struct _ => r end) l r = first_of (ba_of l) r.
Proof.
  induction l as [|[c|s] l IH]; intros r; simpl; auto; unfold ba_of; simpl; rewrite ?IH; unfold first_of; destruct (ba_of l); auto.
Qed.
Definition some_list (l : list scond) : option (list scond) := match l with [] => None | _ => Some l end.
Lemma joined_none : forall a, joined a None = a.
Proof. intros [|]; auto. Qed.
Lemma joined_assoc : forall a b c, joined (joined a b) c = joined a (joined b c).
Proof. intros [a|] [b|] [c|]; simpl; auto. rewrite app_assoc. auto. Qed.
Lemma joined_some : forall a b, joined (some_list a) (some_list b) = some_list (a ++ b).
Proof. intros [|x a] [|y b]; simpl; auto. rewrite app_nil_r. auto. Qed.
Lemma add_list_does : forall w l cs ow, (forall s, In (Struct s) l -> gsc_owner_ok (sc_gsc s) w = true) ->
  exists cs' ow', cs_add_list w l cs ow = (Ok tt, cs', ow') /\
    (forall w', aget w' (cs_basic cs') = if Nat.eqb w' w then first_of (ba_of l) (aget w' (cs_basic cs)) else aget w' (cs_basic cs)) /\
    (forall w', aget w' (cs_struct cs') = if Nat.eqb w' w then joined (aget w' (cs_struct cs)) (some_list (st_of l)) else aget w' (cs_struct cs)) /\
    cs_order cs' = cs_order cs ++ st_of l.
Proof.
  intros w l. induction l as [|a l IH]; intros cs ow G.
  - exists cs, ow. simpl. rewrite app_nil_r. split; [auto|split; [|split; [|auto]]]; intros w'; destruct (Nat.eqb w' w); auto. rewrite joined_none. auto.
  - cbn [cs_add_list]. assert (X : exists cs1 ow1, cs_add w a cs ow = Ok (cs1, ow1) /\
      (forall w', aget w' (cs_basic cs1) = if Nat.eqb w' w then first_of (ba_of [a]) (aget w' (cs_basic cs)) else aget w' (cs_basic cs)) /\
      (forall w', aget w' (cs_struct cs1) = if Nat.eqb w' w then joined (aget w' (cs_struct cs)) (some_list (st_of [a])) else aget w' (cs_struct cs)) /\
      cs_order cs1 = cs_order cs ++ st_of [a]).
    { destruct a as [c|s]; unfold cs_add.
      - do 2 eexists. split; [reflexivity|]. simpl. rewrite app_nil_r. split; [|split; auto].
        + intros w'. rewrite aget_aset. destruct (Nat.eqb w' w); auto.
        + intros w'. rewrite joined_none. destruct (Nat.eqb w' w); auto.
      - rewrite (G s) by (simpl; auto). do 2 eexists. split; [reflexivity|]. simpl. split; [|split; auto].
        + intros w'. destruct (Nat.eqb w' w); auto.
        + intros w'. rewrite aget_aset. destruct (Nat.eqb_spec w' w) as [->|]; auto. destruct (aget w (cs_struct cs)); auto. }
    destruct X as (cs1 & ow1 & -> & B1 & S1 & O1).
    destruct (IH cs1 ow1) as (cs' & ow' & -> & B2 & S2 & O2); [intros s H; apply G; simpl; auto|].
    assert (SA : st_of (a :: l) = st_of [a] ++ st_of l) by exact (flat_map_app _ [a] l).
    exists cs', ow'. split; [auto|split; [|split]].
    + intros w'. rewrite B2, B1. destruct (Nat.eqb w' w); auto.
      assert (Q : ba_of (a :: l) = first_of (ba_of l) (ba_of [a])) by exact (ba_acc l (ba_of [a])). rewrite Q. unfold first_of. destruct (ba_of l); auto.
    + intros w'. rewrite S2, S1. destruct (Nat.eqb w' w); auto. rewrite joined_assoc, joined_some, <- SA. auto.
    + rewrite O2, O1, <- app_assoc, <- SA. auto.
Qed.
Lemma entry_st : forall b l e, entry_for b l = Some e -> st_of (entry_list e) = l.
Proof.
  assert (M : forall l, st_of (map Struct l) = l) by (induction l as [|x l IH]; simpl; auto; f_equal; auto).
  intros [c|] [|s l] e H; simpl in H; try discriminate.
  - inversion H; auto.
  - inversion H; subst. cbn [entry_list]. change (st_of (Basic c :: Struct s :: map Struct l)) with (st_of (map Struct (s :: l))). auto.
  - destruct l; inversion H; subst; [auto|]. cbn [entry_list]. exact (M (s :: s0 :: l)).
Qed.
Lemma entry_ba : forall b l e, entry_for b l = Some e -> ba_of (entry_list e) = b.
Proof.
  assert (M : forall l, ba_of (map Struct l) = None) by (unfold ba_of; induction l as [|x l IH]; simpl; auto).
  intros [c|] [|s l] e H; simpl in H; try discriminate.
  - inversion H; auto.
  - inversion H; subst. cbn [entry_list]. unfold ba_of. simpl. rewrite ba_acc, M. auto.
  - destruct l; inversion H; subst; [auto|]. cbn [entry_list]. exact (M (s :: s0 :: l)).
Qed.
Lemma entry_none : forall b l, entry_for b l = None -> b = None /\ l = [].
Proof. intros [c|] [|s l] H; simpl in H; try discriminate; auto. destruct l; discriminate. Qed.

Lemma add_set_does : forall d cs ow, NoDup (akeys d) -> (forall w e s, In (w, e) d -> In (Struct s) (entry_list e) -> gsc_owner_ok (sc_gsc s) w = true) ->
  exists cs' ow', cs_add_set d cs ow = (Ok tt, cs', ow') /\
    (forall w, aget w (cs_basic cs') = match aget w d with Some e => first_of (ba_of (entry_list e)) (aget w (cs_basic cs)) | None => aget w (cs_basic cs) end) /\
    (forall w, aget w (cs_struct cs') = match aget w d with Some e => joined (aget w (cs_struct cs)) (some_list (st_of (entry_list e))) | None => aget w (cs_struct cs) end) /\
    cs_order cs' = cs_order cs ++ flat_map (fun p => st_of (entry_list (snd p))) d.
Proof.
  induction d as [|[w e] d IH]; intros cs ow N G.
  - exists cs, ow. simpl. rewrite app_nil_r. auto.
  - inversion N; subst. cbn [cs_add_set].
    destruct (add_list_does w (entry_list e) cs ow) as (cs1 & ow1 & -> & B1 & S1 & O1); [intros s X; eapply G; simpl; eauto|].
    destruct (IH cs1 ow1) as (cs' & ow' & -> & B2 & S2 & O2); auto; [intros w' e' s X Y; apply (G w' e' s); simpl; auto|].
    assert (ND : aget w d = None) by (apply aget_None; auto).
    exists cs', ow'. split; [auto|split; [|split]].
    + intros w'. rewrite B2. cbn [aget]. rewrite B1. destruct (Nat.eqb_spec w' w) as [->|D]; auto. rewrite ND. auto.
    + intros w'. rewrite S2. cbn [aget]. rewrite S1. destruct (Nat.eqb_spec w' w) as [->|D]; auto. rewrite ND. auto.
    + rewrite O2, O1, <- app_assoc. auto.
Qed.

(** ** one set to another *)
Lemma st_owner_ok : forall cs, sane cs -> forall w e s, aget w (fst (cs_conditions cs)) = Some e -> In (Struct s) (entry_list e) -> gsc_owner_ok (sc_gsc s) w = true.
Proof.
  intros cs N w e s E X. rewrite sane_get in E by auto. assert (Y : In s (st_of (entry_list e))).
  { unfold st_of. apply in_flat_map. exists (Struct s). simpl. auto. }
  rewrite (entry_st _ _ _ E) in Y. destruct (aget w (cs_struct cs)) as [l|] eqn:G; [|destruct Y]. eapply n_ok; eauto.
Qed.
Lemma sane_in : forall cs, sane cs -> forall w e, In (w, e) (fst (cs_conditions cs)) -> aget w (fst (cs_conditions cs)) = Some e.
Proof. intros cs N w e H. apply aget_In_NoDup; auto. apply sane_nodup; auto. Qed.
Lemma some_listed : forall cs, sane cs -> forall w, some_list (listed (aget w (cs_struct cs))) = aget w (cs_struct cs).
Proof. intros cs N w. destruct (aget w (cs_struct cs)) as [l|] eqn:E; auto. pose proof (n_some _ N _ _ E). destruct l; simpl; congruence. Qed.
Lemma order_flat : forall cs, sane cs -> flat_map (fun p => st_of (entry_list (snd p))) (fst (cs_conditions cs)) =
  flat_map (fun w => listed (aget w (cs_struct cs))) (akeys (fst (cs_conditions cs))).
Proof.
  intros cs N. pose proof (sane_in cs N) as H. pose proof (sane_get cs N) as G. revert H G. generalize (fst (cs_conditions cs)) at 1 4 5. intros d H G.
  induction d as [|[w e] d IH]; simpl; auto. rewrite IH by (intros; apply H; simpl; auto). f_equal.
  specialize (H w e (or_introl eq_refl)). rewrite G in H. apply (entry_st _ _ _ H).
Qed.
Lemma copy_does : forall src dst ow, sane src ->
  exists dst' ow', cs_add_from src dst ow = (Ok tt, dst', ow') /\
    (forall w, aget w (cs_basic dst') = first_of (aget w (cs_basic src)) (aget w (cs_basic dst))) /\
    (forall w, aget w (cs_struct dst') = joined (aget w (cs_struct dst)) (aget w (cs_struct src))) /\
    cs_order dst' = cs_order dst ++ flat_map (fun w => listed (aget w (cs_struct src))) (akeys (fst (cs_conditions src))).
Proof.
  intros src dst ow N. unfold cs_add_from.
  destruct (add_set_does (fst (cs_conditions src)) dst ow) as (dst' & ow' & E & B & S & O).
  - apply sane_nodup; auto.
  - intros w e s H X. eapply st_owner_ok; eauto. apply sane_in; auto.
  - exists dst', ow'. split; [exact E|split; [|split]].
    + intros w. rewrite B. destruct (aget w (fst (cs_conditions src))) as [e|] eqn:X; rewrite sane_get in X by auto.
      * rewrite (entry_ba _ _ _ X). auto.
      * apply entry_none in X. destruct X as [-> _]. auto.
    + intros w. rewrite S. destruct (aget w (fst (cs_conditions src))) as [e|] eqn:X; rewrite sane_get in X by auto.
      * rewrite (entry_st _ _ _ X), some_listed by auto. auto.
      * apply entry_none in X. destruct X as [_ X]. rewrite <- (some_listed src N w), X. simpl. rewrite joined_none. auto.
    + rewrite O, order_flat by auto. auto.
Qed.
Theorem copy : forall ow0 ks src ow dst, distinct_objects (calls ks) -> used ks (cs_empty, ow0) = Some (src, ow) ->
  exists dst' ow' owners, cs_add_from src dst ow = (Ok tt, dst', ow') /\
    (forall w, aget w (cs_basic dst') = first_of (aget w (cs_basic src)) (aget w (cs_basic dst))) /\
    (forall w, aget w (cs_struct dst') = joined (aget w (cs_struct dst)) (aget w (cs_struct src))) /\
    NoDup owners /\ (forall w, In w owners <-> cs_contains w src = true) /\
    cs_order dst' = cs_order dst ++ flat_map (fun w => listed (aget w (cs_struct src))) owners.
Proof.
  intros ow0 ks src ow dst D U. destruct (used_sane _ _ _ _ D U) as [I N]. destruct (copy_does src dst ow N) as (dst' & ow' & E & B & S & O).
  exists dst', ow', (akeys (fst (cs_conditions src))). split; [exact E|split; [exact B|split; [exact S|split; [apply sane_nodup; auto|split; [apply sane_keys; auto|exact O]]]]].
Qed.
Lemma flat_only : forall A (f : nat -> list A) w ks, NoDup ks -> In w ks -> (forall w', w' <> w -> f w' = []) -> flat_map f ks = f w.
Proof.
  intros A f w ks N H Z. induction ks as [|k ks IH]; [destruct H|]. inversion N; subst. simpl. destruct H as [->|H].
  - assert (E : flat_map f ks = []); [|rewrite E, app_nil_r; auto]. clear - H2 Z. induction ks as [|k ks IH]; simpl; auto.
    rewrite Z by (intros ->; apply H2; simpl; auto). apply IH. intros X. apply H2. simpl; auto.
  - rewrite Z by (intros ->; tauto). simpl. auto.
Qed.
Theorem copy_order : forall ow0 ks src ow dst dst' ow', distinct_objects (calls ks) -> used ks (cs_empty, ow0) = Some (src, ow) ->
  cs_add_from src dst ow = (Ok tt, dst', ow') ->
  (forall w w', aget w (cs_struct src) <> None -> aget w' (cs_struct src) <> None -> w = w') ->
  cs_order dst' = cs_order dst ++ cs_order src.
Proof.
  intros ow0 ks src ow dst dst' ow' D U E One. destruct (used_sane _ _ _ _ D U) as [I N]. destruct (copy_does src dst ow N) as (d1 & o1 & E1 & B & S & O).
  rewrite E in E1. injection E1 as <- <-. rewrite O. f_equal. rewrite (i_order _ _ _ _ _ _ I).
  destruct (registered_struct (calls ks)) as [|[w s] L] eqn:RL.
  - simpl. assert (Z : forall w, aget w (cs_struct src) = None) by (intros w; rewrite (i_struct _ _ _ _ _ _ I); reflexivity).
    clear - Z. induction (akeys (fst (cs_conditions src))) as [|k r IH]; simpl; auto. rewrite Z. auto.
  - rewrite <- RL in *. assert (A : forall w' s', In (w', s') (registered_struct (calls ks)) -> aget w' (cs_struct src) = Some (owned w' (registered_struct (calls ks)))).
    { intros w' s' X. apply owned_In in X. rewrite (i_struct _ _ _ _ _ _ I). unfold lookup_owned. destruct (owned w' _); [destruct X|auto]. }
    assert (Aw : aget w (cs_struct src) = Some (owned w (registered_struct (calls ks)))) by (apply (A w s); rewrite RL; simpl; auto).
    rewrite (flat_only _ _ w); [|apply sane_nodup; auto| |].
    + rewrite Aw. simpl. unfold owned. rewrite filter_all; auto. intros [w' s'] X. simpl. apply Nat.eqb_eq. apply One; [rewrite (A w' s' X)|rewrite Aw]; discriminate.
    + apply sane_keys; auto. unfold cs_contains, ahas. rewrite sane_get by auto. rewrite Aw. simpl.
      pose proof (n_some _ N _ _ Aw) as X. destruct (owned w (registered_struct (calls ks))) as [|x [|]]; [congruence|..]; destruct (aget w (cs_basic src)); auto.
    + intros w' X. destruct (aget w' (cs_struct src)) eqn:Y; auto. exfalso. apply X. apply One; [rewrite Y|rewrite Aw]; discriminate.
Qed.

(** ** owners *)
Lemma upd_id : forall A (f : nat -> A) k v, f k = v -> forall x, upd f k v x = f x.
Proof. intros A f k v E x. unfold upd. destruct (Nat.eqb_spec x k); congruence. Qed.
Lemma go_owner_same : forall w cs own, (forall o, In o (flat_map oids cs) -> own o = Some w) -> go_owner (Some w) cs own = own.
Proof.
  induction cs as [|c cs IH]; intros own H; simpl; auto. rewrite (H (cond_oid c)) by (simpl; apply in_or_app; left; apply cond_oid_in). simpl.
  apply IH. intros o X. apply H. simpl. apply in_or_app; auto.
Qed.
Lemma set_owner_same : forall w c own, (forall o, In o (oids c) -> own o = Some w) -> forall x, set_owner (Some w) c own x = own x.
Proof.
  intros w c. induction c using cond_ind'; intros own G x.
  - simpl. apply upd_id. apply G. simpl; auto.
  - rewrite set_owner_all_eq, go_owner_same; [apply upd_id; apply G; simpl; auto|]. intros o' X. rewrite upd_id by (apply G; simpl; auto). apply G. simpl; auto.
  - rewrite set_owner_any_eq, go_owner_same; [apply upd_id; apply G; simpl; auto|]. intros o' X. rewrite upd_id by (apply G; simpl; auto). apply G. simpl; auto.
  - simpl. rewrite IHc; [apply upd_id; apply G; simpl; auto|]. intros o' X. rewrite upd_id by (apply G; simpl; auto). apply G. simpl; auto.
  - simpl. rewrite IHc; [apply upd_id; apply G; simpl; auto|]. intros o' X. rewrite upd_id by (apply G; simpl; auto). apply G. simpl; auto.
Qed.
Definition owned_by (w : node) (a : anycond) (ow : owners_t) : Prop := forall o, In o (any_oids a) -> ow o = Some w.
Lemma owners_add : forall w a cs ow cs' ow', owned_by w a ow -> cs_add w a cs ow = Ok (cs', ow') -> forall o, ow' o = ow o.
Proof.
  intros w [c|s] cs ow cs' ow' H E; unfold cs_add in E.
  - inversion E; subst. intros o. apply set_owner_same. exact H.
  - destruct (gsc_owner_ok (sc_gsc s) w); [|discriminate]. inversion E; subst. intros o. apply upd_id. apply H. simpl; auto.
Qed.
Lemma owners_add_list : forall w l cs ow r cs' ow', (forall a, In a l -> owned_by w a ow) -> cs_add_list w l cs ow = (r, cs', ow') -> forall o, ow' o = ow o.
Proof.
  induction l as [|a l IH]; intros cs ow r cs' ow' H E; cbn [cs_add_list] in E; [inversion E; subst; auto|].
  destruct (cs_add w a cs ow) as [[c1 o1]|] eqn:A; [|inversion E; subst; auto]. pose proof (owners_add _ _ _ _ _ _ (H a (or_introl eq_refl)) A) as Q.
  intros o. rewrite (IH _ _ _ _ _ (fun b X o Y => eq_trans (Q o) (H b (or_intror X) o Y)) E). auto.
Qed.
Lemma owners_add_set : forall d cs ow r cs' ow', (forall w e a, In (w, e) d -> In a (entry_list e) -> owned_by w a ow) -> cs_add_set d cs ow = (r, cs', ow') -> forall o, ow' o = ow o.
Proof.
  induction d as [|[w e] d IH]; intros cs ow r cs' ow' H E; cbn [cs_add_set] in E; [inversion E; subst; auto|].
  destruct (cs_add_list w (entry_list e) cs ow) as [[[u|ex] c1] o1] eqn:A; pose proof (owners_add_list _ _ _ _ _ _ _ (fun a => H w e a (or_introl eq_refl)) A) as Q.
  - intros o. rewrite (IH _ _ _ _ _ (fun w' e' b X Y o Z => eq_trans (Q o) (H w' e' b (or_intror X) Y o Z)) E). auto.
  - inversion E; subst; auto.
Qed.
Theorem copy_owners : forall ow0 ks src ow dst r dst' ow', distinct_objects (calls ks) -> used ks (cs_empty, ow0) = Some (src, ow) ->
  (forall o, In o (objects (flat_map adds (calls ks))) -> ow0 o = None) ->
  cs_add_from src dst ow = (r, dst', ow') -> forall o, ow' o = ow o.
Proof.
  intros ow0 ks src ow dst r dst' ow' D U Z E. destruct (used_sane _ _ _ _ D U) as [I N]. unfold cs_add_from in E. eapply owners_add_set; eauto.
  intros w e a X Y. apply sane_in in X; auto. rewrite sane_get in X by auto. rewrite (i_basic _ _ _ _ _ _ I), (i_struct _ _ _ _ _ _ I) in X.
  assert (X' : entry_for (registered_basic (calls ks) w) (owned w (registered_struct (calls ks))) = Some e).
  { rewrite <- X. f_equal. unfold lookup_owned. destruct (owned w _); auto. }
  assert (Q : (exists c, a = Basic c /\ registered_basic (calls ks) w = Some c) \/ (exists s, a = Struct s /\ In s (owned w (registered_struct (calls ks))))).
  { destruct a as [c|s].
    - left. exists c. split; auto. destruct (registered_basic (calls ks) w) as [c'|] eqn:B, (owned w (registered_struct (calls ks))) as [|s l] eqn:OL; simpl in X'; try discriminate.
      + inversion X'; subst. destruct Y as [Y|[]]. congruence.
      + inversion X'; subst. destruct Y as [Y|[Y|Y]]; try congruence. apply in_map_iff in Y. destruct Y as (? & ? & _). discriminate.
      + destruct l; inversion X'; subst; [destruct Y as [Y|[]]; discriminate|]. destruct Y as [Y|[Y|Y]]; try discriminate. apply in_map_iff in Y. destruct Y as (? & ? & _). discriminate.
    - right. exists s. split; auto. rewrite <- (entry_st _ _ _ X'). unfold st_of. apply in_flat_map. exists (Struct s). simpl; auto. }
  destruct Q as [(c & -> & Bc)|(s & -> & Is)]; intros o O.
  - destruct (i_ownB _ _ _ _ _ _ I _ _ Bc) as [_ P]. apply P; auto.
  - destruct O as [<-|[]]. apply (i_ownL _ _ _ _ _ _ I). apply owned_In. auto.
Qed.

(** ** a set to itself *)
Definition single (w : node) (cs : condset) : Prop := aget w (cs_basic cs) <> None \/ length (listed (aget w (cs_struct cs))) <= 1.
Lemma single_dec : forall w cs, single w cs \/ (aget w (cs_basic cs) = None /\ 2 <= length (listed (aget w (cs_struct cs)))).
Proof. intros w cs. unfold single. destruct (aget w (cs_basic cs)); [left; left; discriminate|]. destruct (Nat.le_gt_cases (length (listed (aget w (cs_struct cs)))) 1); auto. Qed.
Lemma add_one : forall w a cs ow, cs_add_list w [a] cs ow = match cs_add w a cs ow with Ok (cs', ow') => (Ok tt, cs', ow') | Err ex => (Err ex, cs, ow) end.
Proof. intros. simpl. destruct (cs_add w a cs ow) as [[]|]; auto. Qed.
Lemma self_owner : forall fuel w cs ow, sane cs -> cs_contains w cs = true -> single w cs ->
  exists cs' ow', cs_add_self_owner fuel w cs ow = Some (Ok tt, cs', ow') /\ sane cs' /\
    (forall w', aget w' (cs_basic cs') = aget w' (cs_basic cs)) /\
    (forall w', aget w' (cs_struct cs') = if Nat.eqb w' w then joined (aget w' (cs_struct cs)) (aget w' (cs_struct cs)) else aget w' (cs_struct cs)) /\
    cs_order cs' = cs_order cs ++ listed (aget w (cs_struct cs)).
Proof.
  intros fuel w cs ow N C Si. unfold cs_add_self_owner. pose proof (sane_get cs N w) as G. pose proof (sane_look cs N) as N1. destruct (look_same cs) as (L1 & L2 & L3).
  pose proof (st_owner_ok cs N w) as SO. unfold cs_contains, ahas in C.
  destruct (cs_conditions cs) as [conds cs1] eqn:CC. cbn [fst snd] in *. destruct (aget w conds) as [e|] eqn:E; [|discriminate]. symmetry in G.
  destruct (add_list_does w (entry_list e) cs1 ow) as (cs' & ow' & A & B & S & O); [intros s X; eapply SO; eauto|].
  rewrite (entry_ba _ _ _ G), L1 in B. rewrite (entry_st _ _ _ G), some_listed, L2 in S by auto. rewrite (entry_st _ _ _ G), L3 in O.
  exists cs', ow'.
  assert (R : (match e with
               | One a => match cs_add w a cs1 ow with Ok (cs', ow') => Some (Ok tt, cs', ow') | Err ex => Some (Err ex, cs1, ow) end
               | Many l => if ahas w (cs_basic cs1) then Some (cs_add_list w l cs1 ow) else cs_add_live fuel w 0 cs1 ow
               end) = Some (Ok tt, cs', ow')).
  { destruct e as [a|l]; cbn [entry_list] in A.
    - rewrite add_one in A. destruct (cs_add w a cs1 ow) as [[x y]|]; [|discriminate]. injection A as -> ->. auto.
    - assert (H : ahas w (cs_basic cs1) = true); [|rewrite H, A; auto]. unfold ahas. rewrite L1. destruct (aget w (cs_basic cs)) as [c|] eqn:Eb; auto.
      exfalso. destruct Si as [Si|Si]; [congruence|]. destruct (listed (aget w (cs_struct cs))) as [|x [|y l']]; simpl in G, Si; try discriminate; lia. }
  split; [exact R|split; [eapply sane_add_list; eauto|split; [|split]]].
  - intros w'. rewrite B. destruct (Nat.eqb_spec w' w) as [->|]; auto. destruct (aget w (cs_basic cs)); auto.
  - intros w'. rewrite S. destruct (Nat.eqb_spec w' w) as [->|]; auto.
  - exact O.
Qed.
Lemma live_never : forall fuel w i cs ow, sane cs -> i < length (listed (aget w (cs_struct cs))) -> cs_add_live fuel w i cs ow = None.
Proof.
  induction fuel as [|f IH]; intros w i cs ow N H; cbn [cs_add_live]; auto. fold (listed (aget w (cs_struct cs))).
  destruct (nth_error (listed (aget w (cs_struct cs))) i) as [s|] eqn:E; [|apply nth_error_None in E; lia].
  assert (G : gsc_owner_ok (sc_gsc s) w = true).
  { apply nth_error_In in E. destruct (aget w (cs_struct cs)) as [l|] eqn:A; [eapply n_ok; eauto|destruct E]. }
  destruct (cs_add w (Struct s) cs ow) as [[cs1 ow1]|] eqn:A; [|unfold cs_add in A; rewrite G in A; discriminate].
  apply IH; [eapply sane_add; eauto|]. unfold cs_add in A. rewrite G in A. inversion A; subst. simpl. rewrite aget_aset_same. simpl. rewrite app_length. simpl.
  unfold listed in H. lia.
Qed.
Lemma self_owner_never : forall fuel w cs ow, sane cs -> aget w (cs_basic cs) = None -> 2 <= length (listed (aget w (cs_struct cs))) ->
  cs_add_self_owner fuel w cs ow = None.
Proof.
  intros fuel w cs ow N B H. unfold cs_add_self_owner. pose proof (sane_get cs N w) as G. pose proof (sane_look cs N) as N1. destruct (look_same cs) as (L1 & L2 & L3).
  destruct (cs_conditions cs) as [conds cs1] eqn:CC. cbn [fst snd] in *. rewrite G, B. unfold ahas. rewrite L1, B, <- L2 in *.
  destruct (listed (aget w (cs_struct cs1))) as [|x [|y l]] eqn:E; simpl in H; try lia. cbn [entry_for]. apply live_never; auto. rewrite E. simpl. lia.
Qed.
Lemma contains_at : forall w cs, sane cs -> cs_contains w cs = isSome (entry_for (aget w (cs_basic cs)) (listed (aget w (cs_struct cs)))).
Proof. intros w cs N. unfold cs_contains, ahas. rewrite sane_get by auto. destruct (entry_for _ _); auto. Qed.
Lemma self_owners : forall fuel ws cs ow, NoDup ws -> sane cs -> (forall w, In w ws -> cs_contains w cs = true) -> (forall w, In w ws -> single w cs) ->
  exists cs' ow', cs_add_self_owners fuel ws cs ow = Some (Ok tt, cs', ow') /\
    (forall w, aget w (cs_basic cs') = aget w (cs_basic cs)) /\
    (forall w, aget w (cs_struct cs') = if in_dec Nat.eq_dec w ws then joined (aget w (cs_struct cs)) (aget w (cs_struct cs)) else aget w (cs_struct cs)) /\
    cs_order cs' = cs_order cs ++ flat_map (fun w => listed (aget w (cs_struct cs))) ws.
Proof.
  intros fuel ws. induction ws as [|w ws IH]; intros cs ow D N C Si.
  - exists cs, ow. simpl. rewrite app_nil_r. auto.
  - inversion D; subst. cbn [cs_add_self_owners].
    destruct (self_owner fuel w cs ow N) as (cs1 & ow1 & -> & N1 & B1 & S1 & O1); [apply C; simpl; auto|apply Si; simpl; auto|].
    assert (S1' : forall w', In w' ws -> aget w' (cs_struct cs1) = aget w' (cs_struct cs)).
    { intros w' X. rewrite S1. destruct (Nat.eqb_spec w' w) as [->|]; tauto. }
    destruct (IH cs1 ow1) as (cs' & ow' & -> & B2 & S2 & O2); auto.
    + intros w' X. rewrite contains_at, B1, S1' by auto. rewrite <- contains_at by auto. apply C. simpl; auto.
    + intros w' X. unfold single. rewrite B1, S1' by auto. apply Si. simpl; auto.
    + exists cs', ow'. split; [auto|split; [|split]].
      * intros w'. rewrite B2. auto.
      * intros w'. rewrite S2, S1. simpl. destruct (Nat.eq_dec w w') as [<-|X].
        -- rewrite Nat.eqb_refl. destruct (in_dec Nat.eq_dec w ws); tauto.
        -- destruct (Nat.eqb_spec w' w); [congruence|]. destruct (in_dec Nat.eq_dec w' ws); auto.
      * rewrite O2, O1, <- app_assoc. cbn [flat_map]. do 2 f_equal. clear - S1'. induction ws as [|x ws IH]; auto. simpl. rewrite S1' by (simpl; auto).
        f_equal. apply IH. intros w' X. apply S1'. simpl; auto.
Qed.
Lemma self_owners_never : forall fuel ws w cs ow, NoDup ws -> sane cs -> In w ws -> (forall w', In w' ws -> cs_contains w' cs = true) ->
  aget w (cs_basic cs) = None -> 2 <= length (listed (aget w (cs_struct cs))) -> cs_add_self_owners fuel ws cs ow = None.
Proof.
  intros fuel ws w. induction ws as [|x ws IH]; intros cs ow D N H C B L; [destruct H|]. inversion D; subst. cbn [cs_add_self_owners].
  destruct (Nat.eq_dec x w) as [->|X]; [rewrite self_owner_never by auto; auto|]. destruct H as [H|H]; [congruence|].
  destruct (single_dec x cs) as [Si|[B' L']]; [|rewrite self_owner_never by auto; auto].
  destruct (self_owner fuel x cs ow N (C x (or_introl eq_refl)) Si) as (cs1 & ow1 & -> & N1 & B1 & S1 & O1).
  assert (S1' : forall w', In w' ws -> aget w' (cs_struct cs1) = aget w' (cs_struct cs)).
  { intros w' Y. rewrite S1. destruct (Nat.eqb_spec w' x) as [->|]; tauto. }
  apply IH; auto.
  - intros w' Y. rewrite contains_at, B1, S1' by auto. rewrite <- contains_at by auto. apply C. simpl; auto.
  - rewrite B1. auto.
  - rewrite S1' by auto. auto.
Qed.
Lemma look_contains : forall w cs, sane cs -> cs_contains w (snd (cs_conditions cs)) = cs_contains w cs.
Proof. intros w cs N. destruct (look_same cs) as (L1 & L2 & _). rewrite !contains_at by (auto using sane_look). rewrite L1, L2. auto. Qed.
Theorem to_itself : forall ow0 ks cs ow fuel, distinct_objects (calls ks) -> used ks (cs_empty, ow0) = Some (cs, ow) ->
  (forall w, aget w (cs_basic cs) <> None \/ length (listed (aget w (cs_struct cs))) <= 1) ->
  exists cs' ow' owners, cs_add_self fuel cs ow = Some (Ok tt, cs', ow') /\
    (forall w, aget w (cs_basic cs') = aget w (cs_basic cs)) /\
    (forall w, aget w (cs_struct cs') = joined (aget w (cs_struct cs)) (aget w (cs_struct cs))) /\
    NoDup owners /\ (forall w, In w owners <-> cs_contains w cs = true) /\
    cs_order cs' = cs_order cs ++ flat_map (fun w => listed (aget w (cs_struct cs))) owners.
Proof.
  intros ow0 ks cs ow fuel D U Si. destruct (used_sane _ _ _ _ D U) as [_ N]. pose proof (look_same cs) as L. pose proof (sane_look cs N) as N1.
  pose proof (sane_keys cs N) as K. pose proof (sane_nodup cs N) as ND. pose proof (fun w => look_contains w cs N) as LC. unfold cs_add_self.
  destruct (cs_conditions cs) as [conds cs1] eqn:CC. cbn [fst snd] in *. destruct L as (L1 & L2 & L3).
  destruct (self_owners fuel (akeys conds) cs1 ow ND N1) as (cs' & ow' & E & B & S & O).
  - intros w X. rewrite LC. apply K. auto.
  - intros w _. unfold single. rewrite L1, L2. apply Si.
  - exists cs', ow', (akeys conds). rewrite L1, L2, L3 in *. split; [exact E|split; [exact B|split; [|split; [exact ND|split; [exact K|exact O]]]]].
    intros w. rewrite S. destruct (in_dec Nat.eq_dec w (akeys conds)) as [|X]; auto.
    destruct (aget w (cs_struct cs)) as [l|] eqn:Y; auto. exfalso. apply X. apply K. rewrite contains_at by auto. rewrite Y. pose proof (n_some _ N _ _ Y).
    destruct l as [|a [|b l]]; [congruence|..]; destruct (aget w (cs_basic cs)); auto.
Qed.
Theorem to_itself_never : forall ow0 ks cs ow w, distinct_objects (calls ks) -> used ks (cs_empty, ow0) = Some (cs, ow) ->
  aget w (cs_basic cs) = None -> 2 <= length (listed (aget w (cs_struct cs))) -> forall fuel, cs_add_self fuel cs ow = None.
Proof.
  intros ow0 ks cs ow w D U B L fuel. destruct (used_sane _ _ _ _ D U) as [_ N]. pose proof (look_same cs) as Ls. pose proof (sane_look cs N) as N1.
  pose proof (sane_keys cs N) as K. pose proof (sane_nodup cs N) as ND. pose proof (fun w => look_contains w cs N) as LC. unfold cs_add_self.
  destruct (cs_conditions cs) as [conds cs1] eqn:CC. cbn [fst snd] in *. destruct Ls as (L1 & L2 & L3).
  apply self_owners_never with (w := w); auto.
  - apply K. rewrite contains_at by auto. rewrite B. destruct (listed (aget w (cs_struct cs))) as [|x [|y l]]; simpl in *; auto; lia.
  - intros w' X. rewrite LC. apply K. auto.
  - rewrite L1. auto.
  - rewrite L2. auto.
Qed.
