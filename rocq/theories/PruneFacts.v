(** Proofs about pruned calls. *)
From Verif Require Import SpecPrune BaseFacts RunProofs.
Open Scope nat_scope.

Lemma has_var_kw_iff : forall sig, has_var_kw sig = true <-> exists p, In p sig /\ p_kind p = VarKw.
Proof.
  intros sig. unfold has_var_kw. rewrite existsb_exists. split; intros (p & I & H); exists p; split; auto; [|rewrite H; auto].
  destruct (p_kind p); try discriminate; auto.
Qed.
Lemma has_var_pos_iff : forall sig, has_var_pos sig = true <-> exists p, In p sig /\ p_kind p = VarPos.
Proof.
  intros sig. unfold has_var_pos. rewrite existsb_exists. split; intros (p & I & H); exists p; split; auto; [|rewrite H; auto].
  destruct (p_kind p); try discriminate; auto.
Qed.
Lemma mem_iff : forall x l, mem x l = true <-> In x l.
Proof. intros x l. unfold mem. rewrite existsb_exists. split; [intros (y & I & E); apply Nat.eqb_eq in E; subst; auto|intros I; exists x; split; auto; apply Nat.eqb_refl]. Qed.
Lemma kwargs_names_in : forall sig k, In k (kwargs_names sig) <-> exists p, In p sig /\ p_name p = k /\ (p_kind p = PosOrKw \/ p_kind p = KwOnly).
Proof.
  intros sig k. unfold kwargs_names. rewrite in_map_iff. split.
  - intros (p & E & I). apply filter_In in I. destruct I as [I N]. exists p. split; auto. split; auto. unfold named in N. destruct (p_kind p); try discriminate; auto.
  - intros (p & I & E & K). exists p. split; auto. apply filter_In. split; auto. unfold named. destruct K as [K|K]; rewrite K; auto.
Qed.
Theorem keywords_kept : forall {V} sig (args : args_in V) kw k v,
  In (k, v) (snd (prune_unused_args sig args (Some kw))) <-> In (k, v) kw /\ accepts_keyword sig k.
Proof.
  intros V sig args kw k v. unfold prune_unused_args, accepts_keyword. cbn [snd]. rewrite <- has_var_kw_iff, <- kwargs_names_in. destruct (has_var_kw sig).
  - tauto.
  - rewrite filter_In. simpl. rewrite mem_iff. intuition discriminate.
Qed.
Theorem positional_kept : forall {V} sig (args : args_in V) kw, let l := match args with NoArgs => [] | Args l => l | OneArg v => [v] end in
  ((exists p, In p sig /\ p_kind p = VarPos) -> fst (prune_unused_args sig args kw) = l) /\
  (~ (exists p, In p sig /\ p_kind p = VarPos) ->
     fst (prune_unused_args sig args kw) = firstn (length (filter (fun p => named p && negb (p_default p)) sig)) l).
Proof.
  intros V sig args kw. cbv zeta. unfold prune_unused_args. cbn [fst]. rewrite <- has_var_pos_iff. split; intros H.
  - rewrite H. auto.
  - destruct (has_var_pos sig); [congruence|]. reflexivity.
Qed.

(** ** calls *)
Lemma bind_app : forall {V} ps r (args : list V) kw, Forall (fun p => p_kind p = PosOrKw) ps ->
  bind_params (ps ++ r) args kw =
  match bind_params ps args kw with
  | Some b => match bind_params r (skipn (length ps) args) kw with Some b' => Some (b ++ b') | None => None end
  | None => None
  end.
Proof.
  intros V. induction ps as [|p ps IH]; intros r args kw F.
  - simpl. destruct (bind_params r args kw); auto.
  - inversion F as [|? ? K F']; subst. cbn [app bind_params length]. unfold positional, named. rewrite K.
    destruct args as [|v args'].
    + cbn [skipn]. assert (S0 : forall n, skipn n (@nil V) = []) by (destruct n; auto).
      destruct (aget (p_name p) kw); [rewrite IH, S0 by auto; destruct (bind_params ps [] kw); auto; destruct (bind_params r [] kw); auto|].
      destruct (p_default p); auto. rewrite IH, S0 by auto. destruct (bind_params ps [] kw); auto. destruct (bind_params r [] kw); auto.
    + cbn [skipn]. cbn [andb]. destruct (ahas (p_name p) kw); auto. rewrite IH by auto. destruct (bind_params ps args' kw); auto.
      destruct (bind_params r (skipn (length ps) args') kw); auto.
Qed.
Lemma bind_pos : forall {V} ps (args : list V) kw, Forall (fun p => p_kind p = PosOrKw) ps ->
  (bind_params ps args kw = None <->
     (exists i p, nth_error ps i = Some p /\ i < length args /\ ahas (p_name p) kw = true) \/
     (exists i p, nth_error ps i = Some p /\ length args <= i /\ ahas (p_name p) kw = false /\ p_default p = false)) /\
  (forall b, bind_params ps args kw = Some b -> map fst b = map p_name ps /\
     forall i p, nth_error ps i = Some p -> nth_error b i = Some (p_name p, match nth_error args i with Some v => Some v | None => aget (p_name p) kw end)).
Proof.
  intros V. induction ps as [|p ps IH]; intros args kw F.
  - simpl. split.
    + split; [discriminate|]. intros [(i & q & H & _)|(i & q & H & _)]; destruct i; discriminate.
    + intros b H. inversion H; subst. split; auto. intros i q X. destruct i; discriminate.
  - inversion F as [|? ? K F']; subst. cbn [bind_params]. unfold positional, named. rewrite K. unfold ahas in *.
    destruct args as [|v args'].
    + destruct (IH [] kw F') as [H1 H2]. cbn [length] in *. destruct (aget (p_name p) kw) as [w|] eqn:G.
      * split.
        -- transitivity (bind_params ps [] kw = None); [destruct (bind_params ps [] kw); split; intros; auto; discriminate|]. rewrite H1. split.
           ++ intros [(i & q & A & B & C)|(i & q & A & B & C)]; [lia|]. right. exists (S i), q. simpl. splits; lia || tauto.
           ++ intros [(i & q & A & B & C)|(i & q & A & B & C & D)]; [lia|]. destruct i as [|i]; [simpl in A; inversion A; subst; rewrite G in C; discriminate|].
              right. exists i, q. splits. lia.
        -- intros b H. destruct (bind_params ps [] kw) as [b'|] eqn:E; [|discriminate]. inversion H; subst. destruct (H2 b' eq_refl) as [A B]. split; [simpl; congruence|].
           intros i q X. destruct i as [|i]; simpl in *; [inversion X; subst; rewrite G; auto|]. specialize (B i q X). destruct i; auto.
      * destruct (p_default p) eqn:Df.
        -- split.
           ++ transitivity (bind_params ps [] kw = None); [destruct (bind_params ps [] kw); split; intros; auto; discriminate|]. rewrite H1. split.
              ** intros [(i & q & A & B & C)|(i & q & A & B & C)]; [lia|]. right. exists (S i), q. simpl. splits; lia || tauto.
              ** intros [(i & q & A & B & C)|(i & q & A & B & C & D)]; [lia|]. destruct i as [|i]; [simpl in A; inversion A; subst; congruence|].
                 right. exists i, q. splits. lia.
           ++ intros b H. destruct (bind_params ps [] kw) as [b'|] eqn:E; [|discriminate]. inversion H; subst. destruct (H2 b' eq_refl) as [A B]. split; [simpl; congruence|].
              intros i q X. destruct i as [|i]; simpl in *; [inversion X; subst; rewrite G; auto|]. specialize (B i q X). destruct i; auto.
        -- split; [|discriminate]. split; auto. intros _. right. exists 0, p. simpl. rewrite G. auto.
    + destruct (IH args' kw F') as [H1 H2]. cbn [length andb] in *. destruct (aget (p_name p) kw) as [w|] eqn:G.
      * split; [|discriminate]. split; auto. intros _. left. exists 0, p. simpl. rewrite G. splits. lia.
      * split.
        -- transitivity (bind_params ps args' kw = None); [destruct (bind_params ps args' kw); split; intros; auto; discriminate|]. rewrite H1. split.
           ++ intros [(i & q & A & B & C)|(i & q & A & B & C)]; [left|right]; exists (S i), q; simpl; splits; try lia; tauto.
           ++ intros [(i & q & A & B & C)|(i & q & A & B & C & D)]; (destruct i as [|i]; [simpl in A; inversion A; subst; try lia; rewrite G in C; discriminate|]).
              ** left. exists i, q. splits. lia.
              ** right. exists i, q. splits. lia.
        -- intros b H. destruct (bind_params ps args' kw) as [b'|] eqn:E; [|discriminate]. inversion H; subst. destruct (H2 b' eq_refl) as [A B]. split; [simpl; congruence|].
           intros i q X. destruct i as [|i]; simpl in *; [inversion X; subst; auto|]. apply B; auto.
Qed.
Lemma bind_kwo : forall {V} ps r (args : list V) kw, Forall (fun p => p_kind p = KwOnly /\ p_default p = true) ps ->
  (r = [] \/ exists p, r = [p] /\ p_kind p = VarKw) ->
  bind_params (ps ++ r) args kw = Some (map (fun p => (p_name p, aget (p_name p) kw)) ps).
Proof.
  intros V. induction ps as [|p ps IH]; intros r args kw F R.
  - destruct R as [->|(q & -> & K)]; auto. simpl. rewrite K. auto.
  - inversion F as [|? ? [K D] F']; subst. cbn [app bind_params map]. unfold positional, named. rewrite K, D. rewrite (IH r args kw F' R).
    destruct (aget (p_name p) kw); auto.
Qed.
Lemma filter_all : forall {A} (f : A -> bool) l, Forall (fun x => f x = true) l -> filter f l = l.
Proof. induction l as [|x l IH]; intros H; auto. inversion H; subst. simpl. rewrite H2. f_equal; auto. Qed.
Lemma filter_no : forall {A} (f : A -> bool) l, Forall (fun x => f x = false) l -> filter f l = [].
Proof. induction l as [|x l IH]; intros H; auto. inversion H; subst. simpl. rewrite H2. auto. Qed.
Ltac block := match goal with
  | H : Forall ?P ?l |- Forall ?Q ?l => revert H; apply Forall_impl; intros ? ?; unfold named, positional in *; intuition; repeat match goal with E : p_kind _ = _ |- _ => rewrite E in * end; repeat match goal with E : p_default _ = _ |- _ => rewrite E in * end; auto
  end.
Lemma ordinary_facts : forall sig req opt va kwo vk, ordinary sig req opt va kwo vk ->
  count_positional sig = length req /\ n_positional sig = length (req ++ opt) /\
  kwargs_names sig = map p_name (req ++ opt ++ kwo) /\
  has_var_pos sig = (match va with [] => false | _ => true end) /\ has_var_kw sig = (match vk with [] => false | _ => true end).
Proof.
  intros sig req opt va kwo vk [-> R O V K W _]. unfold count_positional, n_positional, kwargs_names, has_var_pos, has_var_kw.
  rewrite !filter_app, !existsb_app.
  rewrite (filter_all (fun p => named p && negb (p_default p)) req) by block.
  rewrite (filter_no (fun p => named p && negb (p_default p)) opt) by block.
  rewrite (filter_no (fun p => named p && negb (p_default p)) kwo) by block.
  rewrite (filter_all positional req), (filter_all positional opt), (filter_no positional kwo), (filter_all named req), (filter_all named opt), (filter_all named kwo) by block.
  assert (E : forall (f : param -> bool) l, Forall (fun p => f p = false) l -> existsb f l = false).
  { induction l as [|x l IH]; intros H; auto. inversion H; subst. simpl. rewrite H2; auto. }
  rewrite !(E _ req), !(E _ opt), !(E _ kwo) by block.
  destruct V as [->|(p & -> & Kp)], W as [->|(q & -> & Kq)]; simpl; unfold named, positional; rewrite ?Kp, ?Kq; simpl; rewrite ?app_nil_r; auto 10.
Qed.
Lemma NoDup_nth_names : forall {V} ps (b : amap (option V)), map fst b = map p_name ps -> NoDup (map p_name ps) ->
  forall i p (x : option V), nth_error ps i = Some p -> nth_error b i = Some (p_name p, x) -> aget (p_name p) b = Some x.
Proof.
  intros V. induction ps as [|q ps IH]; intros b E N i p x A B; [destruct i; discriminate|].
  destruct b as [|[k w] b]; [discriminate|]. simpl in E. inversion E; subst. inversion N; subst. destruct i as [|i]; simpl in *.
  - inversion A; subst. inversion B; subst. rewrite Nat.eqb_refl. auto.
  - destruct (Nat.eqb_spec (p_name p) (p_name q)) as [Eq|]; [|eapply IH; eauto].
    exfalso. apply H2. rewrite <- Eq. apply in_map. eapply nth_error_In; eauto.
Qed.
Lemma aget_app : forall {V} (a b : amap (option V)) k, aget k (a ++ b) = match aget k a with Some v => Some v | None => aget k b end.
Proof. intros V. induction a as [|[k' v] a IH]; intros b k; simpl; auto. destruct (Nat.eqb k k'); auto. Qed.
Lemma aget_kwo : forall {V} kwo (kw : kwdict V) p, NoDup (map p_name kwo) -> In p kwo ->
  aget (p_name p) (map (fun p => (p_name p, aget (p_name p) kw)) kwo) = Some (aget (p_name p) kw).
Proof.
  intros V. induction kwo as [|q l IH]; intros kw p N I; [destruct I|]. inversion N; subst. simpl. destruct I as [->|I]; [rewrite Nat.eqb_refl; auto|].
  destruct (Nat.eqb_spec (p_name p) (p_name q)) as [E|]; auto. exfalso. apply H1. rewrite <- E. apply in_map; auto.
Qed.
Lemma aget_none_keys : forall {V} (b : amap (option V)) k, ~ In k (map fst b) -> aget k b = None.
Proof. intros V. induction b as [|[k' v] b IH]; intros k N; simpl; auto. destruct (Nat.eqb_spec k k') as [->|]; [exfalso; apply N; simpl; auto|]. apply IH. intros X; apply N; simpl; auto. Qed.

Theorem call_received : forall {V} sig req opt va kwo vk (args : list V) kw, ordinary sig req opt va kwo vk ->
  (call_with_pruned_args sig args kw = None <->
     (exists i p, nth_error req i = Some p /\ length args <= i /\ ahas (p_name p) kw = false) \/
     (exists i p, nth_error (reached req opt va) i = Some p /\ i < length args /\ ahas (p_name p) kw = true)) /\
  (forall b, call_with_pruned_args sig args kw = Some b ->
     (forall i p v, nth_error (reached req opt va) i = Some p -> nth_error args i = Some v -> aget (p_name p) (b_values b) = Some (Some v)) /\
     (forall p, In p (req ++ opt ++ kwo) -> (forall i, nth_error (reached req opt va) i = Some p -> length args <= i) ->
        aget (p_name p) (b_values b) = Some (aget (p_name p) kw)) /\
     b_args b = (match va with [] => [] | _ => skipn (length (req ++ opt)) args end) /\
     (forall k v, In (k, v) (b_kwargs b) <-> vk <> [] /\ In (k, v) kw /\ ~ In k (map p_name (req ++ opt ++ kwo)))).
Proof.
  intros W0 sig req opt va kwo vk args kw Od. pose proof (ordinary_facts _ _ _ _ _ _ Od) as (Cp & Np & Kn & Vp & Vk).
  destruct Od as [Es R O V K W ND]. unfold call_with_pruned_args, prune_unused_args, py_call. cbn [fst snd]. rewrite Cp, Np, Kn, Vp, Vk.
  set (names := map p_name (req ++ opt ++ kwo)). set (args' := if match va with [] => false | _ => true end then args else firstn (length req) args).
  set (kw' := if match vk with [] => false | _ => true end then kw else filter (fun p => mem (fst p) names) kw).
  assert (Lp : Forall (fun p => p_kind p = PosOrKw) (req ++ opt)) by (apply Forall_app; split; [clear -R|clear -O]; block).
  assert (La : ((length (req ++ opt) <? length args') && negb match va with [] => false | _ => true end)%bool = false).
  { unfold args'. destruct va; [|apply andb_false_r]. cbn [negb]. rewrite andb_true_r. apply Nat.ltb_ge. rewrite firstn_length, app_length. lia. }
  assert (Lk : (negb match vk with [] => false | _ => true end && existsb (fun p => negb (mem (fst p) names)) kw')%bool = false).
  { unfold kw'. destruct vk; [|auto]. cbn [negb andb]. destruct (existsb _ _) eqn:X; auto. apply existsb_exists in X. destruct X as (p & I & N).
    apply filter_In in I. destruct I as [_ I]. rewrite I in N. discriminate. }
  rewrite La, Lk.
  assert (Gk : forall p, In p (req ++ opt ++ kwo) -> aget (p_name p) kw' = aget (p_name p) kw).
  { intros p I. unfold kw'. destruct vk; auto. assert (M : mem (p_name p) names = true) by (apply mem_iff, in_map; auto). clear -M.
    induction kw as [|[k v] r IH]; auto. simpl. destruct (mem k names) eqn:X; simpl; destruct (Nat.eqb_spec (p_name p) k) as [E|]; auto. rewrite E in M. congruence. }
  assert (Hk : forall p, In p (req ++ opt ++ kwo) -> ahas (p_name p) kw' = ahas (p_name p) kw) by (intros p I; unfold ahas; rewrite Gk; auto).
  assert (Bd : bind_params sig args' kw' = match bind_params (req ++ opt) args' kw' with
     | Some b => Some (b ++ map (fun p => (p_name p, aget (p_name p) kw')) kwo) | None => None end).
  { rewrite Es, app_assoc, bind_app by auto. destruct (bind_params (req ++ opt) args' kw'); auto.
    assert (X : bind_params (va ++ kwo ++ vk) (skipn (length (req ++ opt)) args') kw' = Some (map (fun p => (p_name p, aget (p_name p) kw')) kwo)).
    { destruct V as [->|(p & -> & Kp)]; cbn [app]; [apply bind_kwo; auto|]. cbn [bind_params]. rewrite Kp. apply bind_kwo; auto. }
    rewrite X. auto. }
  destruct (bind_pos (req ++ opt) args' kw' Lp) as [BN BS].
  assert (Sub : forall i p, nth_error (req ++ opt) i = Some p -> In p (req ++ opt ++ kwo)).
  { intros i p X. apply nth_error_In in X. rewrite app_assoc. apply in_or_app; auto. }
  (* which positions args' fills *)
  assert (Fill : forall i p, nth_error (req ++ opt) i = Some p -> (i < length args' <-> nth_error (reached req opt va) i = Some p /\ i < length args)).
  { intros i p X. unfold args', reached. destruct va; [|tauto]. rewrite firstn_length. split.
    - intros L. split; [|lia]. rewrite nth_error_app1 in X; auto. lia.
    - intros [Y L]. assert (nth_error req i <> None) by congruence. apply nth_error_Some in H. lia. }
  assert (Rch : forall i p, nth_error (reached req opt va) i = Some p -> nth_error (req ++ opt) i = Some p).
  { intros i p X. unfold reached in X. destruct va; auto. rewrite nth_error_app1; auto. apply nth_error_Some. congruence. }
  assert (Arg : forall i p, nth_error (reached req opt va) i = Some p -> nth_error args' i = nth_error args i).
  { intros i p X. unfold args', reached in *. destruct va; auto. assert (L : i < length req) by (apply nth_error_Some; congruence).
    clear -L. revert i args L. generalize (length req). induction n as [|n IH]; intros i args L; [lia|]. destruct args as [|v args]; [destruct i; auto|].
    destruct i as [|i]; auto. simpl. apply IH. lia. }
  split.
  - transitivity (bind_params (req ++ opt) args' kw' = None).
    { rewrite Bd. destruct (bind_params (req ++ opt) args' kw'); split; intros; auto; discriminate. }
    rewrite BN. split.
    + intros [(i & p & A & B & C)|(i & p & A & B & C & D)].
      * right. exists i, p. destruct (proj1 (Fill i p A) B) as [X Y]. splits. rewrite <- Hk; eauto.
      * left. assert (Ri : nth_error req i = Some p).
        { destruct (Nat.lt_ge_cases i (length req)) as [L|L]; [rewrite nth_error_app1 in A; auto|]. rewrite nth_error_app2 in A by auto.
          apply nth_error_In in A. rewrite Forall_forall in O. apply O in A. destruct A; congruence. }
        exists i, p. splits.
        -- destruct (Nat.lt_ge_cases i (length args)) as [L|L]; auto. exfalso. assert (X : i < length args'); [|lia]. apply (Fill i p A). split; auto.
           unfold reached. destruct va; auto.
        -- rewrite <- Hk; eauto.
    + intros [(i & p & A & B & C)|(i & p & A & B & C)].
      * right. assert (Ri : nth_error (req ++ opt) i = Some p) by (rewrite nth_error_app1; auto; apply nth_error_Some; congruence).
        exists i, p. splits.
        -- destruct (Nat.lt_ge_cases i (length args')) as [L|L]; auto. apply (Fill i p Ri) in L. lia.
        -- rewrite Hk; eauto.
        -- apply nth_error_In in A. rewrite Forall_forall in R. apply R in A. tauto.
      * left. exists i, p. splits; auto. { apply (Fill i p); auto. } rewrite Hk; eauto.
  - intros b Hb. rewrite Bd in Hb. destruct (bind_params (req ++ opt) args' kw') as [b0|] eqn:E0; [|discriminate]. inversion Hb; subst b. clear Hb.
    cbn [b_values b_args b_kwargs]. destruct (BS b0 eq_refl) as [Kb Vb].
    assert (N1 : NoDup (map p_name (req ++ opt)) /\ NoDup (map p_name kwo) /\ (forall p, In p kwo -> ~ In (p_name p) (map p_name (req ++ opt)))).
    { rewrite Es, !map_app in ND. rewrite !app_assoc in ND. rewrite <- map_app in ND. clear -ND.
      assert (X : forall (a c : list nat), NoDup (a ++ c) -> NoDup a /\ NoDup c /\ forall x, In x c -> ~ In x a).
      { induction a as [|x a IH]; intros c H; simpl in *; [splits; constructor|]. inversion H; subst. destruct (IH c H3) as (A & B & C). rewrite in_app_iff in H2.
        split; [constructor; tauto|]. split; auto. intros y Y [->|Z]; [tauto|]. apply (C y); auto. }
      apply X in ND. destruct ND as (ND & _ & _). apply X in ND. destruct ND as (N & N2 & N3). apply X in N. destruct N as (N & _ & _).
      split; auto. split; auto. intros p I Y. apply (N3 (p_name p)); [apply in_map; auto|]. apply in_or_app; auto. }
    destruct N1 as (N1 & N2 & N3).
    split; [|split; [|split]].
    + intros i p v A B. rewrite aget_app. pose proof (Vb i p (Rch i p A)) as X. rewrite (Arg i p A), B in X.
      rewrite (NoDup_nth_names _ _ Kb N1 _ _ _ (Rch i p A) X). auto.
    + intros p I Nr. rewrite aget_app. rewrite app_assoc, in_app_iff in I. destruct I as [I|I].
      * destruct (In_nth_error _ _ I) as (i & A). pose proof (Vb i p A) as X.
        assert (L : nth_error args' i = None).
        { apply nth_error_None. destruct (Nat.lt_ge_cases i (length args')) as [L|L]; auto. apply (Fill i p A) in L. destruct L as [L1 L2]. apply Nr in L1. lia. }
        rewrite L in X. rewrite (NoDup_nth_names _ _ Kb N1 _ _ _ A X). rewrite Gk; eauto.
      * rewrite (aget_none_keys b0) by (rewrite Kb; auto). rewrite aget_kwo by auto. f_equal. apply Gk. rewrite app_assoc. apply in_or_app; auto.
    + unfold args'. destruct va; auto. rewrite skipn_all2; auto. rewrite firstn_length, app_length. lia.
    + intros k v. rewrite filter_In. cbn [fst]. unfold kw'. destruct vk.
      * rewrite filter_In. cbn [fst]. split; [intros [[_ A] B]; rewrite A in B; discriminate|intros [A _]; congruence].
      * rewrite negb_true_iff. destruct (mem k names) eqn:M.
        -- apply mem_iff in M. split; [intros [_ X]; discriminate|]. intros (_ & _ & X). contradiction.
        -- split; [intros [A _]|intros (_ & A & _); auto]. splits; try discriminate. fold names. intros X. apply mem_iff in X. congruence.
Qed.

(** ** conditions *)
Lemma aget_update : forall {V} (e d : kwdict V) k, NoDup (akeys e) -> aget k (aupdate d e) = match aget k e with Some v => Some v | None => aget k d end.
Proof.
  intros V. induction e as [|[k' v] e IH]; intros d k N; simpl; auto. inversion N; subst. rewrite IH by auto. rewrite aget_aset.
  destruct (Nat.eqb_spec k k') as [->|]; auto. destruct (aget k' e) eqn:G; auto. exfalso. apply H1. apply aget_In in G. apply (in_map fst) in G. auto.
Qed.
Theorem condition_received : forall {V} xid sig req opt va kwo vk (args0 : list V) kwargs0 args e kwargs b,
  ordinary sig req opt va kwo vk -> NoDup (akeys kwargs) ->
  condition_call xid sig args0 kwargs0 args e kwargs = Some b ->
  (forall i p v, nth_error (reached req opt va) i = Some p -> nth_error (args0 ++ args) i = Some v -> aget (p_name p) (b_values b) = Some (Some v)) /\
  (forall p, In p (req ++ opt ++ kwo) -> (forall i, nth_error (reached req opt va) i = Some p -> length (args0 ++ args) <= i) ->
     aget (p_name p) (b_values b) =
     Some (if Nat.eqb (p_name p) xid then Some e else match aget (p_name p) kwargs with Some v => Some v | None => aget (p_name p) kwargs0 end)).
Proof.
  intros V xid sig req opt va kwo vk args0 kwargs0 args e kwargs b Od N E. unfold condition_call in E. cbv zeta in E.
  destruct (ahas xid (aupdate kwargs0 kwargs)) eqn:H; [discriminate|].
  destruct (call_received sig req opt va kwo vk (args0 ++ args) ((xid, e) :: aupdate kwargs0 kwargs) Od) as [_ R]. destruct (R b E) as (A & B & _).
  split; auto. intros p I Nr. rewrite (B p I Nr). cbn [aget]. destruct (Nat.eqb (p_name p) xid); auto. rewrite aget_update; auto.
Qed.
