(** Conditions: counts, NWhen, composites, defaults, thresholds. *)
From Verif Require Export StopFacts CondProofs.

(** ** Call counts *)
Lemma sum_calls_value : forall v s t ds acc, v_total v = Some t -> incl ds (v_nodes v) -> sum_calls v s ds acc = Ok (acc + sum_over (t s) ds).
Proof.
  induction ds as [|d r IH]; intros acc T I; simpl; [f_equal; lia|]. unfold count_total. rewrite T.
  assert (M : mem d (v_nodes v) = true) by (apply mem_In, I; left; auto). rewrite M. simpl.
  rewrite IH; auto; [f_equal; lia|]. intros x Hx; apply I; right; auto.
Qed.
Lemma all_have_run_value : forall v s t ds, v_total v = Some t -> incl ds (v_nodes v) ->
  decides (all_have_run v s ds) (forall d, In d ds -> t s d >= 1).
Proof.
  induction ds as [|d r IH]; intros T I; simpl.
  - exists true; split; auto. split; auto. intros _ d [].
  - unfold count_total. rewrite T. assert (M : mem d (v_nodes v) = true) by (apply mem_In, I; left; auto). rewrite M.
    destruct (Nat.ltb_spec (t s d) 1).
    + exists false; split; auto. split; [discriminate|]. intros H0. specialize (H0 d (or_introl eq_refl)). lia.
    + destruct IH as (b & E & B); auto; [intros x Hx; apply I; right; auto|]. exists b; split; auto. rewrite B. split.
      * intros H0 x [->|Hx]; auto.
      * intros H0 x Hx; apply H0; right; auto.
Qed.
Theorem call_conditions : forall v e ow st o d n s t, v_total v = Some t -> In d (v_nodes v) ->
  decides (is_satisfied v e ow st (BeforeNCalls o d n s)) (t s d < n) /\
  decides (is_satisfied v e ow st (AtNCalls o d n s)) (t s d = n) /\
  decides (is_satisfied v e ow st (AfterCall o d n s)) (t s d > n) /\
  decides (is_satisfied v e ow st (AfterNCalls o d n s)) (t s d >= n).
Proof.
  intros v e ow st o d n s t T I. unfold is_satisfied; simpl. unfold count_total. rewrite T.
  apply mem_In in I. rewrite I. simpl.
  repeat split; eexists; (split; [reflexivity|]);
  first [apply Nat.ltb_lt | apply Nat.eqb_eq | apply Nat.leb_le].
Qed.
Theorem combined_condition : forall v e ow st o ds n s t, v_total v = Some t -> incl ds (v_nodes v) ->
  decides (is_satisfied v e ow st (AfterNCallsCombined o ds (Some n) s)) (sum_over (t s) ds >= n).
Proof.
  intros v e ow st o ds n s t T I. unfold is_satisfied; simpl. rewrite (sum_calls_value v s t ds 0 T I). simpl.
  eexists; split; [reflexivity|]. apply Nat.leb_le.
Qed.
Theorem all_have_run_condition : forall v e ow st o ds s t, v_total v = Some t -> incl ds (v_nodes v) ->
  decides (is_satisfied v e ow st (AllHaveRun o ds s)) (forall d, In d (match ds with [] => v_nodes v | _ => ds end) -> t s d >= 1).
Proof.
  intros v e ow st o ds s t T I. unfold is_satisfied; simpl. apply all_have_run_value; auto.
  destruct ds; auto. intros x Hx; auto.
Qed.
Theorem just_ran_condition : forall v e ow st o d l last, v_list v = Some (l ++ [last]) ->
  decides (is_satisfied v e ow st (JustRan o d)) (In d last).
Proof.
  intros v e ow st o d l last E. unfold is_satisfied; simpl. rewrite E, rev_app_distr. simpl.
  eexists; split; [reflexivity|]. apply mem_In.
Qed.
(** what the counts of a view are, in terms of the sets yielded so far and the nodes already added *)
Lemma occurrences_snoc : forall n l s, occurrences n (l ++ [s]) = occurrences n l + (if mem n s then 1 else 0).
Proof. intros n l s. unfold occurrences. rewrite filter_app, app_length. simpl. destruct (mem n s); auto. Qed.
Theorem counts_in_view : forall m0 g0 ts m g fuel m' g' s p v t0, running_in_passes m0 g0 ts m g -> g_pc g0 = PStart ->
  resume fuel m g = (m', g', OYield s) -> considered m' (g_eid g0) (map snd ts) s p v -> incl p s ->
  x_total (m_ctxs m0 (g_eid g0)) = Some t0 ->
  exists t, v_total v = Some t /\ forall d,
    t ESU d = occurrences d (map snd ts ++ [p]) /\
    t LIFE d = t0 LIFE d + occurrences d (map snd ts ++ [p]) /\
    t ES d = t0 ES d + occurrences d (map snd ts ++ [p]) /\
    t PASS d = occurrences d (in_pass (pass_number m' (g_eid g0)) ts ++ [p]) /\
    t CSE d = t PASS d.
Proof.
  intros m0 g0 ts m g fuel m' g' s p v t0 R Hp E C I T0.
  assert (R' := rp_yields _ _ _ _ _ _ _ _ _ R E).
  destruct (run_counts _ _ _ _ _ t0 R' Hp) as (t' & Et' & Pt); auto.
  { intros X; apply app_eq_nil in X; destruct X; discriminate. }
  destruct (cv_total _ _ _ _ _ _ C) as (t & t2 & Ev & E2 & P2). rewrite Et' in E2. inversion E2; subst t2.
  exists t; split; auto. intros d. destruct (Pt d) as (A & B & D & F & G).
  assert (M : forall l, occurrences d (l ++ [s]) = occurrences d (l ++ [p]) + (if mem d s && negb (mem d p) then 1 else 0)).
  { intros l. rewrite !occurrences_snoc. destruct (mem d s) eqn:Ms; simpl.
    - destruct (mem d p); simpl; lia.
    - destruct (mem d p) eqn:Mp; simpl; auto. apply mem_In in Mp. apply I, mem_In in Mp. congruence. }
  rewrite map_app in *. simpl in *. rewrite M in A, B, D.
  rewrite in_pass_app in F. unfold in_pass at 2 in F. simpl in F. rewrite Nat.eqb_refl in F. simpl in F. rewrite M in F.
  rewrite P2 in A, B, D, F, G. rewrite P2 in G. splits; lia.
Qed.

(** ** NWhen *)
Lemma eval_keeps_sats : forall v e ow c st o e', ~ In o (oids c) \/ e' <> e -> s_sats (snd (eval v e ow c st)) o e' = s_sats st o e'.
Proof.
  intros v e ow c. induction c using cond_ind'; intros st o1 e' N; simpl.
  - destruct (eval_atom _ _ _ _ _); auto.
  - assert (N' : forall x, In x cs -> ~ In o1 (oids x) \/ e' <> e).
    { intros x Hx. destruct N as [N|N]; auto. left. intros X; apply N; simpl; right. apply in_flat_map; eauto. }
    clear N. revert st. induction H as [|x l Hx Hl IH]; intros st; auto.
    specialize (Hx st o1 e' (N' x (or_introl eq_refl))).
    destruct (eval v e ow x st) as [[[|]|] st1]; simpl in *; auto. rewrite IH; auto.
  - assert (N' : forall x, In x cs -> ~ In o1 (oids x) \/ e' <> e).
    { intros x Hx. destruct N as [N|N]; auto. left. intros X; apply N; simpl; right. apply in_flat_map; eauto. }
    clear N. revert st. induction H as [|x l Hx Hl IH]; intros st; auto.
    specialize (Hx st o1 e' (N' x (or_introl eq_refl))).
    destruct (eval v e ow x st) as [[[|]|] st1]; simpl in *; auto. rewrite IH; auto.
  - assert (N' : ~ In o1 (oids c) \/ e' <> e) by (destruct N as [N|N]; auto; left; intros X; apply N; right; auto).
    specialize (IHc st o1 e' N'). destruct (eval v e ow c st) as [[b|] st1]; auto.
  - assert (N' : ~ In o1 (oids c) \/ e' <> e) by (destruct N as [N|N]; auto; left; intros X; apply N; right; auto).
    destruct (Nat.ltb (s_sats st o e) n); auto.
    specialize (IHc st o1 e' N'). destruct (eval v e ow c st) as [[[|]|] st1]; simpl in *; auto.
    rewrite <- IHc. unfold upd. destruct (Nat.eqb_spec o1 o) as [->|Ho]; auto.
    destruct (Nat.eqb_spec e' e) as [->|He]; auto. destruct N as [N|N]; [exfalso; apply N; left; auto|congruence].
Qed.
Definition trues {A} (f : A -> bool) (l : list A) : nat := length (filter f l).
Lemma nwhen_counter : forall o c n e h st, ~ In o (oids c) -> nwhen_history o c n e h st ->
  s_sats st o e = trues snd h /\ trues snd h = Nat.min n (trues fst h) /\ Forall (fun p => snd p = true -> fst p = true) h.
Proof.
  intros o c n e h st N H. induction H as [st Z|h st st' H IH Z|h st v ow b r st' H IH Eb Er].
  - rewrite Z. splits. unfold trues; simpl. lia.
  - rewrite Z. auto.
  - destruct IH as (A & B & F). simpl in Er. unfold trues in *. rewrite !filter_app, !app_length. simpl.
    destruct (Nat.ltb_spec (s_sats st o e) n) as [L|L].
    + pose proof (eval_keeps_sats v e ow c st o e (or_introl N)) as K. unfold is_satisfied in Eb.
      destruct (eval v e ow c st) as [x st1]. simpl in *. subst x.
      destruct b; inversion Er; subst; simpl.
      * unfold upd. rewrite !Nat.eqb_refl, K. assert (F' : Forall (fun p : bool * bool => snd p = true -> fst p = true) (h ++ [(true, true)])) by (apply Forall_app; split; auto). splits; lia.
      * rewrite K, !Nat.add_0_r. assert (F' : Forall (fun p : bool * bool => snd p = true -> fst p = true) (h ++ [(false, false)])) by (apply Forall_app; split; auto). splits.
    + inversion Er; subst. simpl. rewrite Nat.add_0_r. splits; [destruct b; simpl; lia|].
      apply Forall_app; split; auto. constructor; auto. simpl; discriminate.
Qed.
Theorem nwhen_at_most : forall o c n e h st, ~ In o (oids c) -> nwhen_history o c n e h st ->
  length (filter snd h) = Nat.min n (length (filter fst h)) /\ length (filter snd h) <= n /\
  forall b r, In (b, r) h -> r = true -> b = true.
Proof.
  intros o c n e h st N H. destruct (nwhen_counter _ _ _ _ _ _ N H) as (_ & B & F). unfold trues in B. splits; [lia|].
  intros b r I R. rewrite Forall_forall in F. apply (F _ I); auto.
Qed.

(** ** All, Any, Not *)
Lemma all_cons : forall v e ow st o x cs, eval v e ow (CAll o (x :: cs)) st =
  match eval v e ow x st with (Ok true, st') => eval v e ow (CAll o cs) st' | (Ok false, st') => (Ok false, st') | (Err ex, st') => (Err ex, st') end.
Proof. reflexivity. Qed.
Lemma any_cons : forall v e ow st o x cs, eval v e ow (CAny o (x :: cs)) st =
  match eval v e ow x st with (Ok true, st') => (Ok true, st') | (Ok false, st') => eval v e ow (CAny o cs) st' | (Err ex, st') => (Err ex, st') end.
Proof. reflexivity. Qed.
Theorem all_any_not : forall v e ow st o cs (P : cond -> Prop), (forall c, In c cs -> observer e ow c) ->
  (forall c, In c cs -> decides (is_satisfied v e ow st c) (P c)) ->
  decides (is_satisfied v e ow st (All o cs)) (forall c, In c cs -> P c) /\
  decides (is_satisfied v e ow st (Any o cs)) (exists c, In c cs /\ P c) /\
  (forall c, In c cs -> decides (is_satisfied v e ow st (Not o c)) (~ P c)).
Proof.
  intros v e ow st o cs P Ob D. unfold is_satisfied, All, Any in *. splits.
  - induction cs as [|x l IH]; [exists true; split; auto; split; auto; intros _ c []|].
    rewrite all_cons. destruct (D x (or_introl eq_refl)) as (b & E & B).
    pose proof (ob_state _ _ _ (Ob x (or_introl eq_refl)) v st) as S. unfold state_after in S.
    destruct (eval v e ow x st) as [r st1]. simpl in *; subst. destruct b.
    + destruct IH as (b & E & B'); [intros; apply Ob; auto|intros; apply D; auto|]. exists b; split; auto. rewrite B'.
      split; [intros H c [<-|Hc]; [apply B; auto|auto]|intros H c Hc; auto].
    + exists false; split; auto. split; [discriminate|]. intros H. apply B, H; auto.
  - induction cs as [|x l IH]; [exists false; split; auto; split; [discriminate|intros (c & [] & _)]|].
    rewrite any_cons. destruct (D x (or_introl eq_refl)) as (b & E & B).
    pose proof (ob_state _ _ _ (Ob x (or_introl eq_refl)) v st) as S. unfold state_after in S.
    destruct (eval v e ow x st) as [r st1]. simpl in *; subst. destruct b.
    + exists true; split; auto. split; auto. intros _. exists x; split; auto. apply B; auto.
    + destruct IH as (b & E & B'); [intros; apply Ob; auto|intros; apply D; auto|]. exists b; split; auto. rewrite B'.
      split; [intros (c & Hc & Pc); eauto|intros (c & [<-|Hc] & Pc); eauto]. apply B in Pc; discriminate.
  - intros c Hc. destruct (D c Hc) as (b & E & B). simpl. destruct (eval v e ow c st) as [r st1]. simpl in *; subst.
    exists (negb b); split; auto. rewrite <- B. destruct b; simpl; split; auto; congruence.
Qed.
Theorem composites_observe : forall e ow o cs c, (forall x, In x cs -> observer e ow x) -> observer e ow c ->
  observer e ow (All o cs) /\ observer e ow (Any o cs) /\ observer e ow (Not o c).
Proof.
  intros e ow o cs c Ob Oc. unfold All, Any, Not. splits.
  - induction cs as [|x l IH]; [constructor; auto|]. destruct IH as [I1 I2]; [intros; apply Ob; right; auto|].
    destruct (Ob x (or_introl eq_refl)) as [S V]. unfold state_after, is_satisfied in *. constructor; unfold state_after, is_satisfied; intros.
    + rewrite all_cons. specialize (S v st). specialize (I1 v st). destruct (eval v e ow x st) as [[[|]|] st1]; simpl in *; subst; auto.
    + rewrite !all_cons. pose proof (S v st) as S1. pose proof (S v' st) as S2. specialize (V v v' st H). specialize (I2 v v' st H).
      destruct (eval v e ow x st) as [r st1], (eval v' e ow x st) as [r' st1']. simpl in *; subst. destruct r as [[|]|]; auto.
  - induction cs as [|x l IH]; [constructor; auto|]. destruct IH as [I1 I2]; [intros; apply Ob; right; auto|].
    destruct (Ob x (or_introl eq_refl)) as [S V]. unfold state_after, is_satisfied in *. constructor; unfold state_after, is_satisfied; intros.
    + rewrite any_cons. specialize (S v st). specialize (I1 v st). destruct (eval v e ow x st) as [[[|]|] st1]; simpl in *; subst; auto.
    + rewrite !any_cons. pose proof (S v st) as S1. pose proof (S v' st) as S2. specialize (V v v' st H). specialize (I2 v v' st H).
      destruct (eval v e ow x st) as [r st1], (eval v' e ow x st) as [r' st1']. simpl in *; subst. destruct r as [[|]|]; auto.
  - destruct Oc as [S V]. unfold state_after, is_satisfied in *. constructor; unfold state_after, is_satisfied; intros; simpl.
    + specialize (S v st). destruct (eval v e ow c st) as [[b|] st1]; simpl in *; auto.
    + specialize (V v v' st H). destruct (eval v e ow c st) as [r st1], (eval v' e ow c st) as [r' st1']. simpl in *; subst. destruct r; auto.
Qed.
(** the arguments after the deciding one are not evaluated, whatever they are *)
Theorem short_circuit : forall v e ow o cs c rest st st1 st2,
  (eval v e ow (All o cs) st = (Ok true, st1) -> eval v e ow c st1 = (Ok false, st2) ->
     eval v e ow (All o (cs ++ c :: rest)) st = (Ok false, st2)) /\
  (eval v e ow (Any o cs) st = (Ok false, st1) -> eval v e ow c st1 = (Ok true, st2) ->
     eval v e ow (Any o (cs ++ c :: rest)) st = (Ok true, st2)).
Proof.
  intros v e ow o cs c rest st st1 st2. unfold All, Any. revert st. induction cs as [|x l IH]; intros st; split; intros H Hc.
  - simpl in H; inversion H; subst. simpl app. rewrite all_cons, Hc. auto.
  - simpl in H; inversion H; subst. simpl app. rewrite any_cons, Hc. auto.
  - simpl app. rewrite all_cons in *. destruct (eval v e ow x st) as [[[|]|] st']; try discriminate. apply IH; auto.
  - simpl app. rewrite any_cons in *. destruct (eval v e ow x st) as [[[|]|] st']; try discriminate. apply IH; auto.
Qed.

(** ** Threshold *)
Lemma Qltb_lt : forall a b, Qltb a b = true <-> (a < b)%Q.
Proof.
  intros a b. unfold Qltb. destruct (Qle_bool b a) eqn:E; simpl.
  - apply Qle_bool_iff in E. split; [discriminate|]. intros H. exfalso. eapply Qlt_not_le; eauto.
  - split; auto. intros _. apply Qnot_le_lt. intros H. apply Qle_bool_iff in H. congruence.
Qed.
Lemma threshold_cmp_spec : forall c x t atol rtol, threshold_cmp c x t atol rtol = true <-> compares c x t atol rtol.
Proof.
  intros c x t atol rtol. destruct c; simpl; try apply Qltb_lt; try apply Qle_bool_iff. unfold isclose.
  rewrite negb_true_iff. rewrite <- Qle_bool_iff. destruct (Qle_bool _ _); split; auto; try discriminate; congruence.
Qed.
Lemma item_element : forall (A : Type) (l : list A) i x, item l i = Some x <-> element l i x.
Proof.
  intros A l i x. unfold item, element. split.
  - destruct (Z.ltb_spec i 0).
    + destruct (Z.ltb_spec (i + Z.of_nat (length l)) 0); [discriminate|]. intros H1. eexists; split; [exact H1|]. right. rewrite Z2Nat.id by lia. lia.
    + intros H1. eexists; split; [exact H1|]. left. rewrite Z2Nat.id; lia.
  - intros (k & H & E). assert (k < length l) by (apply nth_error_Some; congruence). destruct E as [->| ->].
    + destruct (Z.ltb_spec (Z.of_nat k) 0); [lia|]. rewrite Nat2Z.id. auto.
    + destruct (Z.ltb_spec (Z.of_nat k - Z.of_nat (length l)) 0); [|lia].
      replace (Z.of_nat k - Z.of_nat (length l) + Z.of_nat (length l))%Z with (Z.of_nat k) by lia.
      destruct (Z.ltb_spec (Z.of_nat k) 0); [lia|]. rewrite Nat2Z.id. auto.
Qed.
Lemma index_value_spec : forall ix p y, at_index p ix y -> index_value p ix = Ok y.
Proof. intros ix p y H; induction H; simpl; auto. apply item_element in H. rewrite H; auto. Qed.
Theorem threshold_condition : forall v e ow st o d par t c ix atol rtol p x, w_param (s_world st) d par = Some p ->
  at_index p (match ix with None => [] | Some l => l end) (PNum x) ->
  decides (is_satisfied v e ow st (Threshold o d par t c ix atol rtol)) (compares c x t atol rtol).
Proof.
  intros v e ow st o d par t c ix atol rtol p x W A. unfold is_satisfied; simpl. rewrite W. unfold threshold_of.
  apply index_value_spec in A. destruct ix as [l|].
  - rewrite A. simpl. eexists; split; [reflexivity|]. apply threshold_cmp_spec.
  - simpl in A. inversion A; subst. simpl. eexists; split; [reflexivity|]. apply threshold_cmp_spec.
Qed.
