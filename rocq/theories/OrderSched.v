(** Schedulers whose consideration sets are iterated in different orders (C05). *)
From Verif Require Import BaseFacts SpecOrder SpecDefault SpecGSC PureFacts DefaultFacts RunFacts RunProofs RunProps ResumeFrame RunIds CondSetFacts SchedFacts SchedThms OrderFacts OrderRun.

Definition alike_stack (st st' : list (graph * list (list node))) : Prop :=
  Forall2 (fun p p' => fst p' = fst p /\ alike_sets (snd p) (snd p')) st st'.
Definition restacked (d d' : sched) : Prop := exists st', d' = set_stack d st' (d_last d) /\ alike_stack (d_stack d) st'.
Lemma alike_sets_sym : forall q q', alike_sets q q' -> alike_sets q' q.
Proof. induction 1; constructor; auto. apply Permutation_sym; auto. Qed.
Lemma alike_sets_trans : forall q q' q'', alike_sets q q' -> alike_sets q' q'' -> alike_sets q q''.
Proof. intros q q' q'' H. revert q''. induction H; intros q'' H'; inversion H'; subst; constructor; [eapply Permutation_trans; eauto|apply IHForall2; auto]. Qed.

Section Two.
Variable cyc : graph -> list (list node).
Variables arr arr' : list (list node) -> list (list node).
Hypothesis R : forall q, alike_sets q (arr q).
Hypothesis R' : forall q, alike_sets q (arr' q).

Lemma queue_of_alike : forall g, alike_sets (queue_of arr g) (queue_of arr' g).
Proof.
  intros g. unfold queue_of. destruct (toposort g) as [q| |]; [|repeat constructor..].
  eapply alike_sets_trans; [apply alike_sets_sym, R|apply R'].
Qed.
Lemma push_graph_alike : forall g st st', alike_stack st st' -> alike_stack (push_graph arr g st) (push_graph arr' g st').
Proof. intros g st st' H. constructor; auto. simpl. split; auto. apply queue_of_alike. Qed.
Lemma pop_alike : forall k st st', alike_stack st st' ->
  fst (pop_graphs k st') = fst (pop_graphs k st) /\ alike_stack (snd (pop_graphs k st)) (snd (pop_graphs k st')).
Proof.
  induction k as [|k IH]; intros st st' H; [simpl; auto|]. destruct H; simpl; [split; auto; constructor|]. apply IH; auto.
Qed.
Lemma push_conds_alike : forall cs ow g st st', alike_stack st st' ->
  fst (push_conds cyc arr' cs ow g st') = fst (push_conds cyc arr cs ow g st) /\
  alike_stack (snd (push_conds cyc arr cs ow g st)) (snd (push_conds cyc arr' cs ow g st')).
Proof.
  induction cs as [|c cs IH]; intros ow g st st' H; cbn [push_conds]; [simpl; auto|].
  destruct (modify_graph cyc (ow (sc_oid c)) (sc_gsc c) g); [|simpl; auto]. apply IH. apply push_graph_alike; auto.
Qed.
Lemma sync_alike : forall d d', restacked d d' ->
  fst (sync cyc arr' d') = fst (sync cyc arr d) /\ restacked (snd (sync cyc arr d)) (snd (sync cyc arr' d')).
Proof.
  intros d d' (st' & -> & H). unfold sync. cbn [set_stack d_cs d_last d_stack d_owners].
  destruct (match d_last d with Some l => same_order l (cs_order (d_cs d)) | None => false end) eqn:SO.
  { split; auto. exists st'. auto. }
  set (last := match d_last d with Some l => l | None => [] end). set (k := common_prefix _ _).
  destruct (pop_alike (length last - k) (d_stack d) st' H) as [E P].
  destruct (pop_graphs (length last - k) (d_stack d)) as [r st1], (pop_graphs (length last - k) st') as [r' st1']. cbn [fst snd] in E, P. subst r'.
  destruct r as [u|]; [|split; auto; exists st1'; auto].
  destruct P as [|[g q] [g' q'] st1 st1' [E1 E2] P]; [split; auto; exists []; split; auto; constructor|]. cbn [fst snd] in E1. subst g'.
  destruct (push_conds_alike (skipn k (cs_order (d_cs d))) (d_owners d) g ((g, q) :: st1) ((g, q') :: st1')) as [E P2].
  { constructor; auto. }
  destruct (push_conds cyc arr _ _ _ _) as [r st2], (push_conds cyc arr' _ _ _ _) as [r' st2']. cbn [fst snd] in E, P2. subst r'.
  destruct r as [u'|]; split; auto; exists st2'; auto.
Qed.
Lemma new_alike : forall input conds tc deid exact du ow nx w,
  fst (new_sched cyc arr' input conds tc deid exact du ow nx w) = fst (new_sched cyc arr input conds tc deid exact du ow nx w) /\
  restacked (snd (new_sched cyc arr input conds tc deid exact du ow nx w)) (snd (new_sched cyc arr' input conds tc deid exact du ow nx w)).
Proof.
  intros input conds tc deid exact du ow nx w. unfold new_sched. destruct (arg_graph input) as [g|].
  - set (dtc := match tc with None => _ | Some t => _ end).
    set (b := fun st => mkSched (gkeys g) exact du deid dtc dtc cs_empty ow nx st None (mkCstate (fun _ _ => 0) w) (upd (fun _ => ctx_none) deid fresh_ctx)).
    assert (P : alike_stack (push_graph arr g []) (push_graph arr' g [])) by (apply push_graph_alike; constructor).
    destruct conds as [|p conds]; [split; auto; exists (push_graph arr' g []); auto|].
    unfold add_condition_set. cbn [d_cs d_owners].
    destruct (cs_add_set (p :: conds) cs_empty ow) as [[[r|] cs] ow'].
    + apply sync_alike. exists (push_graph arr' g []). auto.
    + split; auto. exists (push_graph arr' g []). auto.
  - split; auto. exists []. split; auto. constructor.
Qed.
Lemma restacked_core : forall d d', restacked d d' -> wf_graph (top_graph d) -> alike (core_of d) (core_of d').
Proof.
  intros d d' (st' & -> & H) W.
  assert (G : top_graph (set_stack d st' (d_last d)) = top_graph d /\ alike_sets (top_queue d) (top_queue (set_stack d st' (d_last d)))).
  { unfold top_graph, top_queue. simpl. destruct H as [|[? ?] [? ?] ? ? [? ?]]; split; auto. constructor. }
  destruct G as [G Q]. constructor; try reflexivity.
  - simpl. rewrite G. auto.
  - exact Q.
  - intros e. simpl. constructor; auto; try (destruct (x_total _); simpl; auto; fail); try (destruct (x_use _); simpl; auto; fail).
    destruct (x_list _) as [l|]; simpl; auto. clear. induction l; constructor; auto.
Qed.
End Two.

(** a built-in sort of acyclic graph in standard mode: senders are in other sets *)
Lemma built_apart : forall m a b, queue_built m -> m_exact m = false -> edge (m_graph m) a b -> a <> b -> apart (queue m) a b.
Proof.
  intros m a b B X E N (s & I & Ia & Ib). unfold queue in I. rewrite X in I. apply In_nth_error in I. destruct I as (i & I).
  destruct (levels_order m i i s s a b B I I Ia Ib) as [_ H]. specialize (H E N). lia.
Qed.
Lemma lower_owned : forall (R R' : node -> node -> Prop) ow n c, (forall o, In o (oids c) -> ow o = Some n) -> (forall d, R d n -> R' d n) ->
  lower_bounds R (fun _ => Some n) c -> lower_bounds R' ow c.
Proof.
  intros R R' ow n c. induction c using cond_ind'; intros O HR.
  - destruct a; simpl; auto. rewrite O by (left; auto). auto.
  - simpl. assert (O' : forall x, In x cs -> forall o, In o (oids x) -> ow o = Some n).
    { intros x Hx o' Ho. apply O. simpl. right. apply in_flat_map; eauto. }
    clear O. induction H as [|x l Hx Hl IH]; simpl; auto. intros [A B]. split; [apply Hx; auto; apply O'; left; auto|]. apply IH; auto. intros y Hy. apply O'; right; auto.
  - simpl. assert (O' : forall x, In x cs -> forall o, In o (oids x) -> ow o = Some n).
    { intros x Hx o' Ho. apply O. simpl. right. apply in_flat_map; eauto. }
    clear O. induction H as [|x l Hx Hl IH]; simpl; auto. intros [A B]. split; [apply Hx; auto; apply O'; left; auto|]. apply IH; auto. intros y Hy. apply O'; right; auto.
  - simpl; auto.
  - simpl; auto.
Qed.
Lemma user_unowned : forall (R R' : node -> node -> Prop) ow c, (forall o, In o (oids c) -> ow o = None) ->
  no_user_functions R (fun _ => None) c -> no_user_functions R' ow c.
Proof.
  intros R R' ow c. induction c using cond_ind'; intros O.
  - destruct a; simpl; auto. rewrite O by (left; auto). auto.
  - simpl. assert (O' : forall x, In x cs -> forall o, In o (oids x) -> ow o = None).
    { intros x Hx o' Ho. apply O. simpl. right. apply in_flat_map; eauto. }
    clear O. induction H as [|x l Hx Hl IH]; simpl; auto. intros [A B]. split; [apply Hx; auto; apply O'; left; auto|]. apply IH; auto. intros y Hy. apply O'; right; auto.
  - simpl. assert (O' : forall x, In x cs -> forall o, In o (oids x) -> ow o = None).
    { intros x Hx o' Ho. apply O. simpl. right. apply in_flat_map; eauto. }
    clear O. induction H as [|x l Hx Hl IH]; simpl; auto. intros [A B]. split; [apply Hx; auto; apply O'; left; auto|]. apply IH; auto. intros y Hy. apply O'; right; auto.
  - simpl. apply IHc. intros o' Ho. apply O. right; auto.
  - simpl. apply IHc. intros o' Ho. apply O. right; auto.
Qed.
Lemma new_basic : forall cyc arr nx input conds tc deid exact du ow w r d,
  new_sched cyc arr input conds tc deid exact du ow nx w = (Ok r, d) -> proper_objects nx ow [SAddSet conds] ->
  d_next d = nx /\ (forall o, nx <= o -> d_owners d o = None) /\
  (forall o, ~ In o (objects (adds (SAddSet conds))) -> o < nx -> d_owners d o = ow o) /\
  forall n c, aget n (cs_basic (d_cs d)) = Some c -> In (n, Basic c) (adds (SAddSet conds)) /\ forall o, In o (oids c) -> o < nx /\ d_owners d o = Some n.
Proof.
  intros cyc arr nx input conds tc deid exact du ow w r d E (ND & LOW & HI & RM). cbn [flat_map] in ND, LOW. rewrite app_nil_r in ND, LOW.
  assert (X : d_next d = nx /\ BINV nx ow (adds (SAddSet conds)) (fold_left reg_basic [SAddSet conds] (fun _ => None)) d).
  { unfold new_sched in E. destruct (arg_graph input) as [base|]; [|discriminate].
    set (b := mkSched _ _ _ _ _ _ _ _ _ _ _ _ _) in E.
    assert (Ib : BINV nx ow [] (fun _ => None) b) by (constructor; simpl; auto; try (intros; discriminate); try constructor).
    destruct conds as [|p conds]; [inversion E; subst; split; [auto|exact Ib]|].
    unfold add_condition_set in E. destruct (cs_add_set (p :: conds) (d_cs b) (d_owners b)) as [[[r'|] cs] ow'] eqn:C; [|discriminate].
    destruct (sync_set_stack _ _ _ _ _ E) as (st & l & ->). split; [reflexivity|]. apply binv_set_stack.
    apply (binv_add_set nx ow (adds (SAddSet (p :: conds))) LOW (p :: conds) [] (fun _ => None) b r' cs ow' Ib); auto.
    intros x H. exact H. }
  destruct X as [N B]. split; auto. split; [intros o L; apply (b_fresh _ _ _ _ _ B); lia|]. split; [apply (b_new _ _ _ _ _ B)|].
  intros n c A. destruct (b_entry _ _ _ _ _ B n c A) as (O1 & O2 & _ & O3).
  split; [|intros o Ho; split; auto; rewrite <- N; auto]. destruct O3 as [O3|O3]; auto.
  assert (X : In (cond_oid c) (oids c)) by (destruct c; left; auto). specialize (O3 _ X). specialize (O2 _ X). lia.
Qed.

(** the first run of two new schedulers that differ in the order inside the sets *)
Theorem scheduler_alike : forall cyc arr arr' is_s nx input base conds tc deid du ow w r d gr d1 g n f,
  (forall q, alike_sets q (arr q)) -> (forall q, alike_sets q (arr' q)) -> arg_graph input = Ok base -> wf_graph base -> closed_graph base ->
  new_sched cyc arr input conds tc deid false du ow nx w = (Ok r, d) ->
  well_kinded is_s nx [SAddSet conds] -> added_once [SAddSet conds] -> proper_objects nx ow [SAddSet conds] ->
  (forall p, In p (registered_struct [SAddSet conds]) -> keeps_nodes (sc_gsc (snd p))) ->
  get_graph cyc arr d = (Ok gr, d1) -> loop_free gr ->
  (forall b c, In (b, Basic c) (adds (SAddSet conds)) -> lower_bounds (fun a _ => apart (top_queue d1) a b) (fun _ => Some b) c) ->
  g_pc g = PStart ->
  (forall s c, terms_of (core_of d) g s = Some c -> no_user_functions (fun _ _ => True) (fun _ => None) c /\
     forall o, In o (oids c) -> o < nx /\ ow o = None /\ ~ In o (objects (adds (SAddSet conds)))) ->
  exists d', new_sched cyc arr' input conds tc deid false du ow nx w = (Ok r, d') /\
    let '(_, _, ys, o) := sdrive cyc arr n f d g [] in let '(_, _, ys', o') := sdrive cyc arr' n f d' g [] in
    raises o \/ raises o' \/ (alike_sets ys ys' /\ alike_outcome o o').
Proof.
  intros cyc arr arr' is_s nx input base conds tc deid du ow w r d gr d1 g n f R R' AG W C N WK AO PO BI GG LF CO PC TC.
  destruct (new_alike cyc arr arr' R R' input conds tc deid false du ow nx w) as [E RS]. rewrite N in E, RS.
  destruct (new_sched cyc arr' input conds tc deid false du ow nx w) as [r' d'] eqn:N'. cbn [fst snd] in E, RS. subst r'. exists d'. split; auto.
  destruct (run_state cyc arr is_s nx input base conds tc deid false du ow w r d [] d gr d1 R AG W C N eq_refl WK AO BI GG (proj1 LF)) as (G1 & QB & NO & DR).
  destruct (new_basic _ _ _ _ _ _ _ _ _ _ _ _ _ N PO) as (NX & FR & OW & BA).
  unfold get_graph in GG. destruct (sync cyc arr d) as [[u|] d1x] eqn:S; [|discriminate]. injection GG as GG ->.
  destruct (sync_alike cyc arr arr' R R' d d' RS) as [E2 RS2]. rewrite S in E2, RS2. destruct (sync cyc arr' d') as [r2 d1'] eqn:S'. cbn [fst snd] in E2, RS2. subst r2.
  assert (WG : wf_graph (top_graph d1)) by apply QB.
  pose proof (restacked_core d1 d1' RS2 WG) as A.
  destruct (sync_set_stack _ _ _ _ _ S) as (st & l & D1).
  assert (EX : d_exact d = false /\ d_exact d1 = false).
  { assert (X : d_exact d = false).
    { unfold new_sched in N. rewrite AG in N. destruct conds; [inversion N; auto|]. unfold add_condition_set in N.
      destruct (cs_add_set _ _ _) as [[[|] ?] ?]; [|discriminate]. destruct (sync_set_stack _ _ _ _ _ N) as (? & ? & ->). auto. }
    split; auto. rewrite D1. auto. }
  assert (Q : queue (core_of d1) = top_queue d1) by (unfold queue; simpl; rewrite (proj2 EX); auto).
  assert (P : prepared (core_of d1) g).
  { assert (B1 : m_basic (core_of d1) = cs_basic (d_cs d)) by (rewrite D1; auto).
    assert (O1 : m_owners (core_of d1) = d_owners d) by (rewrite D1; auto).
    assert (X1 : m_next (core_of d1) = nx) by (rewrite D1; simpl; auto).
    split; [constructor|].
    - auto.
    - intros o. rewrite X1, O1. auto.
    - intros b c. rewrite B1, O1, Q. intros Hc. destruct (BA b c Hc) as [I O]. split; [intros o Ho; rewrite X1; apply O; auto|].
      apply lower_monotone. eapply lower_owned; [intros o Ho; apply O; auto| |apply CO; exact I]. simpl. auto.
    - intros b a _ _ Ed. apply built_apart; auto; [apply EX|]. intros ->. rewrite G1 in Ed. apply (proj2 LF b Ed).
    - intros s c Es. assert (Et : terms_of (core_of d) g s = Some c) by (rewrite <- Es; rewrite D1; auto).
      destruct (TC s c Et) as [NU HO]. split; [intros o Ho; rewrite X1; apply HO; auto|]. apply no_user_blind. rewrite O1. eapply user_unowned; [|exact NU].
      intros o Ho. destruct (HO o Ho) as (L & O & I). rewrite OW; auto. }
  destruct n as [|n]; [cbn [sdrive]; right; right; split; simpl; auto; constructor|].
  pose proof (DR (Datatypes.S n) f g) as D.
  assert (GG' : get_graph cyc arr' d' = (Ok gr, d1')).
  { unfold get_graph. rewrite S'. f_equal. f_equal. rewrite <- GG. destruct RS2 as (st' & -> & H). unfold top_graph. simpl. destruct H as [|[? ?] [? ?] ? ? [? ?]]; auto. }
  destruct (run_state cyc arr' is_s nx input base conds tc deid false du ow w r d' [] d' gr d1' R' AG W C N' eq_refl WK AO BI GG' (proj1 LF)) as (_ & _ & _ & DR').
  pose proof (DR' (Datatypes.S n) f g) as D'.
  pose proof (drive_alike (Datatypes.S n) f _ _ g [] [] A P (Forall2_nil _)) as DA.
  destruct (drive (Datatypes.S n) f (core_of d1) g []) as [[[m2 g2] ys] o], (drive (Datatypes.S n) f (core_of d1') g []) as [[[m2' g2'] ys'] o'].
  destruct D as (d2 & -> & _). destruct D' as (d2' & -> & _). tauto.
Qed.
