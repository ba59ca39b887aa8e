(** Default conditions (C22). *)
From Verif Require Export CondFacts.

Record default_at (b : node) (ds : list node) (m : core) : Prop := {
  da_cond : exists k, aget b (m_basic m) = Some (fst (default_cond k ds)) /\ snd (default_cond k ds) <= m_next m /\
            forall o, k <= o < snd (default_cond k ds) -> m_owners m o = Some b
}.
Lemma parts_oids : forall ds k, map cond_oid (default_parts k ds) = seq k (length ds).
Proof. induction ds; intros; simpl; auto. f_equal; auto. Qed.
Lemma go_parts : forall w ds k own, (forall o, k <= o -> own o = None) ->
  let own' := (fix go (l : list cond) (own : oid -> option node) :=
     match l with [] => own | x :: r => go r (if isSome (own (cond_oid x)) then own else set_owner (Some w) x own) end) (default_parts k ds) own in
  (forall o, k <= o < k + length ds -> own' o = Some w) /\ (forall o, o < k \/ k + length ds <= o -> own' o = own o).
Proof.
  intros w ds. induction ds as [|d r IH]; intros k own F; simpl.
  - split; auto. intros; lia.
  - rewrite (F k) by lia. simpl.
    destruct (IH (S k) (upd own k (Some w))) as [A B].
    { intros o L. unfold upd. destruct (Nat.eqb_spec o k); [lia|apply F; lia]. }
    split.
    + intros o L. destruct (Nat.eq_dec o k) as [->|N]; [|apply A; lia]. rewrite B by lia. apply upd_same.
    + intros o L. rewrite B by lia. unfold upd. destruct (Nat.eqb_spec o k); [lia|auto].
Qed.
Lemma set_owner_default : forall b ds k own, (forall o, k <= o -> own o = None) ->
  k < snd (default_cond k ds) /\
  (forall o, k <= o < snd (default_cond k ds) -> set_owner (Some b) (fst (default_cond k ds)) own o = Some b) /\
  (forall o, o < k \/ snd (default_cond k ds) <= o -> set_owner (Some b) (fst (default_cond k ds)) own o = own o).
Proof.
  intros b ds k own F. destruct ds as [|d [|d2 r]].
  - simpl. split; [lia|]. split; intros o L; unfold upd; destruct (Nat.eqb_spec o k); auto; lia.
  - simpl. split; [lia|]. split; intros o L; unfold upd; destruct (Nat.eqb_spec o k); auto; lia.
  - set (l := d :: d2 :: r). change (default_cond k l) with (All k (default_parts (S k) l), S k + length l). cbn [fst snd].
    split; [lia|]. unfold All. cbn [set_owner cond_oid].
    destruct (go_parts b l (S k) (upd own k (Some b))) as [A B].
    { intros o L. unfold upd. destruct (Nat.eqb_spec o k); [lia|apply F; lia]. }
    split.
    + intros o L. destruct (Nat.eq_dec o k) as [->|N]; [rewrite B by lia; apply upd_same|apply A; lia].
    + intros o L. rewrite B by lia. unfold upd. destruct (Nat.eqb_spec o k); [lia|auto].
Qed.
Record defaults_done (m m' : core) : Prop := {
  dd_fresh : fresh_ids m';
  dd_next : m_next m <= m_next m';
  dd_owners : forall o, o < m_next m -> m_owners m' o = m_owners m o;
  dd_kept : forall n c, aget n (m_basic m) = Some c -> aget n (m_basic m') = Some c;
  dd_graph : m_graph m' = m_graph m
}.
Lemma defaults_done_refl : forall m, fresh_ids m -> defaults_done m m.
Proof. intros m F; constructor; auto. Qed.
Lemma default_at_kept : forall b ds m m', defaults_done m m' -> default_at b ds m -> default_at b ds m'.
Proof.
  intros b ds m m' D [(k & A & B & C)]. constructor. exists k. split; [apply (dd_kept _ _ D); auto|].
  split; [pose proof (dd_next _ _ D); lia|]. intros o L. rewrite (dd_owners _ _ D); [auto|lia].
Qed.
Lemma add_defaults_spec : forall ns m m', fresh_ids m -> add_defaults ns m = Ok m' ->
  defaults_done m m' /\ forall n, In n ns -> aget n (m_basic m) = None -> exists ds, aget n (m_graph m) = Some ds /\ default_at n ds m'.
Proof.
  induction ns as [|n r IH]; intros m m' F E; simpl in E.
  - inversion E; subst. split; [apply defaults_done_refl; auto|intros n []].
  - unfold ahas in E. destruct (aget n (m_basic m)) as [c|] eqn:An; simpl in E.
    + destruct (IH _ _ F E) as [D H]. split; auto. intros x [<-|I] Nx; [congruence|auto].
    + destruct (aget n (m_graph m)) as [ds|] eqn:G; [|discriminate].
      destruct (default_cond (m_next m) ds) as [c nx] eqn:Dc.
      destruct (set_owner_default n ds (m_next m) (m_owners m) F) as (L & A & B). rewrite Dc in L, A, B. cbn [fst snd] in L, A, B.
      set (m1 := set_basic m (aset n c (m_basic m)) (set_owner (Some n) c (m_owners m)) nx) in *.
      assert (F1 : fresh_ids m1). { intros o Lo. simpl in *. rewrite B by lia. apply F. lia. }
      destruct (IH m1 m' F1 E) as [D H].
      assert (D1 : defaults_done m m1).
      { constructor; auto; simpl; [lia|intros o Lo; apply B; auto|]. intros x cx Ex. rewrite aget_aset.
        destruct (Nat.eqb_spec x n) as [->|]; [congruence|auto]. }
      split.
      * destruct D, D1. constructor; auto; try lia; try congruence; intros o Lo; rewrite dd_owners0 by lia; auto.
      * intros x I Nx. destruct (Nat.eq_dec x n) as [->|N].
        -- exists ds. split; auto. apply (default_at_kept _ _ _ _ D). constructor. exists (m_next m). rewrite Dc. simpl.
           rewrite aget_aset, Nat.eqb_refl. auto.
        -- destruct I as [<-|I]; [congruence|]. apply H; auto. simpl. rewrite aget_aset.
           destruct (Nat.eqb_spec x n); [congruence|auto].
Qed.
Lemma every_value : forall v e ow st o d b u, v_use v = Some u -> In b (v_nodes v) -> In d (v_nodes v) -> ow o = Some b ->
  eval v e ow (EveryNCalls o d 1) st = (Ok (Nat.leb 1 (u d b)), st).
Proof.
  intros v e ow st o d b u U Ib Id O. destruct st. simpl. rewrite O. unfold count_useable. rewrite U.
  apply mem_In in Ib. apply mem_In in Id. rewrite Ib, Id. auto.
Qed.
Lemma default_oids : forall k ds o, In o (oids (fst (default_cond k ds))) -> k <= o < snd (default_cond k ds).
Proof.
  intros k ds o I. destruct ds as [|d [|d2 r]].
  - simpl in *. lia.
  - simpl in *. lia.
  - set (l := d :: d2 :: r) in *. change (default_cond k l) with (All k (default_parts (S k) l), S k + length l) in *.
    cbn [fst snd] in *. destruct I as [<-|I]; [lia|].
    assert (P : forall l j, In o (flat_map oids (default_parts j l)) -> j <= o < j + length l).
    { clear. induction l as [|d r IH]; intros j I; [destruct I|]. simpl in *. destruct I as [<-|I]; [lia|]. apply IH in I. lia. }
    apply P in I. lia.
Qed.
Lemma eval_owners : forall v e c ow ow' st, (forall o, In o (oids c) -> ow o = ow' o) -> eval v e ow c st = eval v e ow' c st.
Proof.
  intros v e c. induction c using cond_ind'; intros ow ow' st E; simpl.
  - rewrite (E o); simpl; auto.
  - assert (E' : forall x, In x cs -> forall o, In o (oids x) -> ow o = ow' o).
    { intros x Hx o' Ho. apply E. simpl. right. apply in_flat_map; eauto. }
    clear E. revert st. induction H as [|x l Hx Hl IH]; intros st; auto.
    rewrite (Hx ow ow' st); [|apply E'; left; auto]. destruct (eval v e ow' x st) as [[[|]|] st1]; auto.
    apply IH. intros y Hy. apply E'; right; auto.
  - assert (E' : forall x, In x cs -> forall o, In o (oids x) -> ow o = ow' o).
    { intros x Hx o' Ho. apply E. simpl. right. apply in_flat_map; eauto. }
    clear E. revert st. induction H as [|x l Hx Hl IH]; intros st; auto.
    rewrite (Hx ow ow' st); [|apply E'; left; auto]. destruct (eval v e ow' x st) as [[[|]|] st1]; auto.
    apply IH. intros y Hy. apply E'; right; auto.
  - rewrite (IHc ow ow' st); auto. intros o' Ho. apply E; right; auto.
  - rewrite (IHc ow ow' st); auto. intros o' Ho. apply E; right; auto.
Qed.
Lemma default_waits : forall b ds m, default_at b ds m -> waits_for b ds m.
Proof.
  intros b ds m [(k & A & K & C)]. exists (fst (default_cond k ds)). split; auto. split.
  { intros o I. apply default_oids in I. lia. }
  clear K. intros v u e st U Ib I.
  destruct ds as [|d [|d2 r]].
  - simpl. exists true. split; auto. split; auto. intros _ d [].
  - simpl in *. unfold is_satisfied. rewrite (every_value v e (m_owners m) st k d b u); auto. 2: apply I; left; auto.
    eexists; split; [reflexivity|]. rewrite Nat.leb_le. split; [intros H x [<-|[]]; auto|intros H; apply H; auto].
  - set (l := d :: d2 :: r) in *. change (default_cond k l) with (All k (default_parts (S k) l), S k + length l) in *. cbn [fst snd] in *.
    assert (C' : forall o, S k <= o < S k + length l -> m_owners m o = Some b) by (intros o L; apply C; lia).
    clear C A. unfold is_satisfied, All. generalize l I C'. generalize (S k). clear l d d2 r I C'. intros j l; revert j.
    induction l as [|d r IH]; intros j I C.
    + exists true. split; auto. split; auto. intros _ d [].
    + cbn [default_parts]. rewrite all_cons. rewrite (every_value v e (m_owners m) st j d b u); auto.
      2: apply I; left; auto. 2: apply C; simpl; lia.
      destruct (Nat.leb_spec 1 (u d b)) as [L|L].
      * destruct (IH (S j)) as (x & E & X); [intros y Hy; apply I; right; auto|intros o Lo; apply C; simpl; lia|].
        exists x. split; auto. rewrite X. split; [intros H y [<-|Hy]; auto|intros H y Hy; apply H; right; auto].
      * exists false. split; auto. split; [discriminate|]. intros H. specialize (H d (or_introl eq_refl)). lia.
Qed.
Lemma init_counts_conds : forall m e b r m', init_counts_base m e b = (r, m') ->
  m_basic m' = m_basic m /\ m_owners m' = m_owners m /\ m_next m' = m_next m.
Proof.
  intros m e b r m' H. unfold init_counts_base in H.
  repeat match type of H with context [match copy_entry ?x ?y with _ => _ end] => destruct (copy_entry x y) end; inversion H; subst; auto.
Qed.
(** what the start of a run does to the conditions *)
Theorem start_defaults : forall m g g1 m1, start m g = (Ok g1, m1) -> fresh_ids m ->
  (forall n c, aget n (m_basic m) = Some c -> aget n (m_basic m1) = Some c) /\
  (forall o, o < m_next m -> m_owners m1 o = m_owners m o) /\ m_next m <= m_next m1 /\ fresh_ids m1 /\
  (forall n, In n (m_nodes m) -> aget n (m_basic m) = None -> exists ds, aget n (m_graph m) = Some ds /\ waits_for n ds m1).
Proof.
  intros m g g1 m1 S F. unfold start in S. destruct (validate_run_state m) as [[ma|ex] mb] eqn:V; [|discriminate].
  unfold validate_run_state in V. destruct (toposort (m_graph m)); try discriminate.
  destruct (add_defaults (m_nodes m) m) as [m'|] eqn:A; [|discriminate]. inversion V; subst ma mb. clear V.
  destruct (add_defaults_spec _ _ _ F A) as [D H].
  assert (B : m_basic m1 = m_basic m' /\ m_owners m1 = m_owners m' /\ m_next m1 = m_next m').
  { revert S. set (tc := match g_tcarg g with None => _ | Some a => _ end).
    destruct (setup_absolute _ _ _) as [m3|] eqn:SA; [|discriminate].
    assert (B3 : m_basic m3 = m_basic m' /\ m_owners m3 = m_owners m' /\ m_next m3 = m_next m').
    { unfold setup_absolute in SA. destruct (absolute_conditions _ _); [inversion SA; auto|].
      destruct (unit_of _ _); [inversion SA; auto|discriminate]. }
    destruct (init_counts_base m3 (g_eid g) (g_base g)) as [[r|] m4] eqn:IC; [|discriminate]. intros S. inversion S; subst; simpl.
    destruct (init_counts_conds _ _ _ _ _ IC) as (X1 & X2 & X3). rewrite X1, X2, X3. auto. }
  destruct B as (B1 & B2 & B3). split.
  - intros n c E. rewrite B1. apply (dd_kept _ _ D); auto.
  - rewrite B2, B3. split; [apply (dd_owners _ _ D)|]. split; [apply (dd_next _ _ D)|]. split; [intros o; rewrite B2, B3; apply (dd_fresh _ _ D)|]. intros n I N. destruct (H n I N) as (ds & G & X). exists ds. split; auto. apply default_waits in X.
    destruct X as (c & Ec & K & W). exists c. rewrite B1, B2, B3. auto.
Qed.

(** ** Runs *)
Lemma waits_frame : forall tc e b ds m m', frame (tc := tc) e m m' -> waits_for b ds m -> waits_for b ds m'.
Proof.
  intros tc e b ds m m' F (c & E & K & W). exists c. rewrite (fr_basic _ _ _ F), (fr_owners _ _ _ F), (fr_next _ _ _ F). auto.
Qed.
Lemma yielded_frame' : forall hq q g x0 m ps m' g' s ph, yielded hq q g x0 m ps m' g' s ph -> frame (tc := g_tc g) (g_eid g) m m'.
Proof. intros hq q g x0 m ps m' g' s ph H; destruct H; auto. Qed.
Lemma start_waits : forall m g g1 m1 b ds, start m g = (Ok g1, m1) -> In b (m_nodes m) -> aget b (m_graph m) = Some ds ->
  default_state b ds m -> waits_for b ds m1.
Proof.
  intros m g g1 m1 b ds S I G (F & D). destruct (start_defaults _ _ _ _ S F) as (K & O & L & _ & N). destruct D as [E|(c & E & C & W)].
  - destruct (N b I E) as (ds' & G' & W). rewrite G in G'; inversion G'; subst; auto.
  - exists c. split; [auto|]. split; [intros o Ho; apply C in Ho; lia|]. intros v u e st U Ib Id.
    destruct (W v u e st U Ib Id) as (r & Er & R). exists r. split; auto. rewrite <- Er. unfold is_satisfied.
    f_equal. apply eval_owners. intros o Ho. apply O; auto.
Qed.
Lemma running_nodes : forall m0 g0 ys m g, running m0 g0 ys m g -> g_pc g0 = PStart -> m_nodes m = m_nodes m0 /\ m_graph m = m_graph m0.
Proof.
  intros m0 g0 ys m g R Hp. destruct (run_history _ _ _ _ _ R Hp) as [(-> & -> & U)|(g1 & m1 & ps & ph & St)].
  - split; [apply (ud_nodes _ _ _ U)|apply (ud_graph _ _ _ U)].
  - destruct (rs_static _ _ _ _ _ _ _ _ _ St) as [A B C D]. auto.
Qed.
Theorem senders_since : forall m0 g0 ys m g b ds, running_while (default_state b ds) m0 g0 ys m g -> g_pc g0 = PStart ->
  In b (m_nodes m0) -> aget b (m_graph m0) = Some ds -> incl ds (m_nodes m0) ->
  forall A B d, concat ys = A ++ b :: B -> In d ds -> (d <> b /\ exists j, runs_since d b A j /\ 1 <= j) \/ (d = b /\ In b A).
Proof.
  intros m0 g0 ys m g b ds R Hp Ib G Id. induction R as [Pm|ys m g m' R IH U Pm|ys m g fuel m' g' s R IH E Pm].
  - intros A B d H. symmetry in H. apply app_eq_nil in H. destruct H; discriminate.
  - auto.
  - intros A B d H Hd. rewrite concat_app in H. simpl in H. rewrite app_nil_r in H.
    assert (X : (exists B', concat ys = A ++ b :: B') \/ exists p r, s = p ++ b :: r /\ A = concat ys ++ p).
    { clear - H. revert A H. induction (concat ys) as [|y l IHl]; intros A H; simpl in H.
      - right. exists A, B; auto.
      - destruct A as [|a A]; simpl in H; inversion H; subst.
        + left. exists l; auto.
        + destruct (IHl _ H2) as [(B' & ->)|(p & r & -> & ->)]; [left; exists B'; auto|right; exists p, r; auto]. }
    destruct X as [(B' & X)|(p & r & -> & ->)]; [eauto|].
    assert (Rn := while_running _ _ _ _ _ _ R).
    destruct (sound _ _ _ _ _ _ _ _ _ Rn Hp E _ _ _ eq_refl) as (v & C & (c & st & st' & Ec & _ & Ev)).
    destruct (cv_use _ _ _ _ _ _ C) as (u & Eu & [Uab Uaa]).
    assert (Nv : v_nodes v = m_nodes m0).
    { rewrite (cv_nodes _ _ _ _ _ _ C). eapply running_nodes; eauto. eapply run_yields; eauto. }
    assert (W : waits_for b ds m').
    { destruct Pm as (_ & [Pm|Pm]); auto. congruence. }
    destruct W as (c' & Ec' & _ & W). rewrite Ec in Ec'; inversion Ec'; subst c'.
    rewrite <- Nv in Ib, Id. destruct (W v u (g_eid g') st Eu Ib Id) as (x & Ex & Hx).
    unfold is_satisfied in Ex. rewrite Ev in Ex. simpl in Ex. inversion Ex; subst x.
    assert (Hu : u d b >= 1) by (apply Hx; auto).
    destruct (Nat.eq_dec d b) as [->|Ne].
    + right. split; auto. rewrite Uaa in Hu. destruct (mem b (concat ys ++ p)) eqn:M; [apply mem_In; auto|lia].
    + left. split; auto. exists (u d b). split; auto.
Qed.
(** a node with a self-loop and the default condition is never executed *)
Lemma first_in : forall (l : list node) b, In b l -> exists A B, l = A ++ b :: B /\ ~ In b A.
Proof.
  induction l as [|x l IH]; intros b H; [destruct H|]. destruct (Nat.eq_dec x b) as [->|N].
  - exists [], l. split; auto.
  - destruct H as [H|H]; [congruence|]. destruct (IH b H) as (A & B & -> & NA). exists (x :: A), B. split; auto. intros [?|?]; auto.
Qed.
Theorem self_loop_never : forall m0 g0 ys m g b ds, running_while (default_state b ds) m0 g0 ys m g -> g_pc g0 = PStart ->
  In b (m_nodes m0) -> aget b (m_graph m0) = Some ds -> incl ds (m_nodes m0) -> In b ds -> ~ In b (concat ys).
Proof.
  intros m0 g0 ys m g b ds R Hp Ib G Id S H. destruct (first_in _ _ H) as (A & B & E & N).
  destruct (senders_since _ _ _ _ _ _ _ R Hp Ib G Id A B b E S) as [[X _]|[_ X]]; auto.
Qed.
(** and so a run with the default termination conditions never returns *)
Lemma all_have_run_all : forall v s t ds, v_total v = Some t -> all_have_run v s ds = Ok true -> forall d, In d ds -> 1 <= t s d.
Proof.
  intros v s t ds T. induction ds as [|x r IH]; intros H d I; [destruct I|]. simpl in H. unfold count_total in H. rewrite T in H.
  destruct (mem x (v_nodes v)); [|discriminate]. destruct (Nat.ltb_spec (t s x) 1); [discriminate|]. destruct I as [->|I]; auto.
Qed.
Theorem self_loop_forever : forall m0 g0 ys m g b ds oN oA t0 fuel m' g' l, running_while (default_state b ds) m0 g0 ys m g -> g_pc g0 = PStart ->
  In b (m_nodes m0) -> aget b (m_graph m0) = Some ds -> incl ds (m_nodes m0) -> In b ds -> x_total (m_ctxs m0 (g_eid g0)) = Some t0 ->
  the_tc m g ESU = Some (AllHaveRun oA [] ESU) -> the_tc m g ES = Some (Never oN) -> resume fuel m g <> (m', g', OReturn l).
Proof.
  intros m0 g0 ys m g b ds oN oA t0 fuel m' g' l R Hp Ib G Id S T0 T1 T2 E.
  pose proof (while_running _ _ _ _ _ _ R) as Rn.
  destruct (returned_counts m0 g0 ys m' l t0) as (t & Et & C); auto; [exists m, g, fuel, g'; auto|].
  destruct (returns_terminated _ _ _ _ _ _ _ _ _ Rn Hp E) as (v & ow & c & st & st' & [A|A] & V & Ev).
  - rewrite T1 in A. inversion A; subst c. cbn in Ev. inversion Ev. unfold deps_or_nodes in H0.
    rewrite (vr_nodes _ _ _ _ _ V) in H0. apply (all_have_run_all _ _ t) with (d := b) in H0; auto.
    2:{ rewrite (vr_total _ _ _ _ _ V). auto. }
    destruct (C b) as (_ & _ & X). rewrite X in H0. apply (self_loop_never _ _ _ _ _ _ _ R Hp Ib G Id S).
    unfold occurrences in H0. destruct (filter (mem b) ys) as [|s r] eqn:F; [simpl in H0; lia|].
    assert (I : In s (filter (mem b) ys)) by (rewrite F; simpl; auto). apply filter_In in I. destruct I as [I M]. apply in_concat. exists s. split; auto. apply mem_In; auto.
  - rewrite T2 in A. inversion A; subst c. cbn in Ev. discriminate.
Qed.
(** the state of the conditions is kept by the scheduler itself *)
Theorem default_state_kept : forall m0 g0 ys m g fuel m' g' s b ds, running m0 g0 ys m g -> g_pc g0 = PStart ->
  In b (m_nodes m0) -> aget b (m_graph m0) = Some ds -> default_state b ds m ->
  resume fuel m g = (m', g', OYield s) -> default_state b ds m'.
Proof.
  intros m0 g0 ys m g fuel m' g' s b ds R Hp Ib G D E.
  destruct (running_nodes _ _ _ _ _ R Hp) as [En Eg].
  destruct (run_history _ _ _ _ _ R Hp) as [(-> & -> & U)|(g1 & m1 & ps & ph & St)].
  - destruct (run_first _ _ _ _ _ _ _ Hp U E) as (g1 & m1 & ps & ph & S & _ & Y & _). apply yielded_frame' in Y.
    rewrite <- En in Ib. rewrite <- Eg in G. pose proof (start_waits _ _ _ _ _ _ S Ib G D) as W.
    split; [|right; eapply waits_frame; eauto].
    destruct D as [F _]. intros o. rewrite (fr_next _ _ _ Y), (fr_owners _ _ _ Y). destruct (start_defaults _ _ _ _ S F) as (_ & _ & _ & F1 & _); apply F1.
  - destruct (run_next _ _ _ _ _ _ _ _ _ _ _ _ _ St E) as (ps' & ph' & _ & Y & _). apply yielded_frame' in Y.
    destruct D as [F D]. split.
    + intros o. rewrite (fr_next _ _ _ Y), (fr_owners _ _ _ Y). apply F.
    + destruct D as [D|D]; [left; rewrite (fr_basic _ _ _ Y); auto|right; eapply waits_frame; eauto].
Qed.
