(** Proofs for C82, part 4: schedulers do not look at the names *)
From Verif Require Import SpecRename RenameGraph RenameEval RenameRun BaseFacts.
Open Scope nat_scope.

Section Names.
Variable R : renaming.
Notation f := (r_node R).
Hypothesis inj : injective f.
Notation rs := (rn_set R). Notation rss := (rn_sets R). Notation rg := (rn_graph R). Notation rc := (rn_cond R).
Notation rsc := (rn_scond R). Notation rcs := (rn_condset R). Notation ra := (rn_any R).
Definition of_follow (ow ow' : owners_t) : Prop := forall o, ow' o = option_map f (ow o).

Lemma gsc_owner_ok_f : forall s w, gsc_owner_ok (rn_gsc R s) (f w) = gsc_owner_ok s w.
Proof. intros s w. unfold gsc_owner_ok. destruct s; simpl; auto; rewrite ?(mem_f R inj), ?(eqb_f R inj); auto. Qed.
Lemma ra_oid : forall a, any_oid (ra a) = any_oid a.
Proof. intros [c|s]; simpl; auto using rc_oid. Qed.
Lemma upd_f : forall ow ow' k w, of_follow ow ow' -> of_follow (upd ow k w) (upd ow' k (option_map f w)).
Proof. intros ow ow' k w H o. unfold upd. destruct (Nat.eqb o k); auto. Qed.
Lemma cs_add_f : forall w a cs ow ow', any_follows R a -> condset_ok R cs -> of_follow ow ow' ->
  match cs_add w a cs ow, cs_add (f w) (ra a) (rcs cs) ow' with
  | Ok (cs1, ow1), Ok (cs1', ow1') => cs1' = rcs cs1 /\ condset_ok R cs1 /\ of_follow ow1 ow1'
  | Err x, Err y => x = y | _, _ => False end.
Proof.
  intros w a cs ow ow' A K O. destruct K as [KB KO]. destruct a as [c|s]; cbn [rn_any cs_add].
  - split; [|split].
    + unfold rn_condset; simpl. rewrite <- (aset_f R inj _ _ rc). auto.
    + split; simpl; auto. intros n c0 H. apply In_aset in H. destruct H as [H|H]; eauto. injection H as -> ->. exact A.
    + exact (set_owner_f R inj c (Some w) ow ow' O).
  - cbn [rn_scond sc_gsc]. rewrite gsc_owner_ok_f. destruct (gsc_owner_ok (sc_gsc s) w); auto. split; [|split].
    + unfold rn_condset; simpl. rewrite (aget_f R inj), map_app. f_equal. rewrite <- (aset_f R inj _ _ (map rsc)), map_app. destruct (aget w (cs_struct cs)); auto.
    + split; simpl; auto. intros s0 H. apply in_app_or in H. destruct H as [H|[<-|[]]]; auto.
    + apply (upd_f ow ow' (sc_oid s) (Some w) O).
Qed.
Lemma has_oid_f : forall o l, has_oid o (map rsc l) = has_oid o l.
Proof. intros o. unfold has_oid. induction l as [|s l IH]; simpl; auto. rewrite IH. auto. Qed.
Lemma remove_first_f : forall o l, remove_first o (map rsc l) = map rsc (remove_first o l).
Proof. intros o. induction l as [|s l IH]; simpl; auto. destruct (Nat.eqb (sc_oid s) o); simpl; rewrite ?IH; auto. Qed.
Lemma remove_first_in : forall o l s, In s (remove_first o l) -> In s l.
Proof. intros o. induction l as [|x l IH]; simpl; auto. intros s. destruct (Nat.eqb (sc_oid x) o); simpl; auto. intros [H|H]; auto. Qed.
Lemma adel_in : forall A k (m : amap A) p, In p (adel k m) -> In p m.
Proof. intros A k m p. induction m as [|[k' v'] m IH]; simpl; auto. destruct (Nat.eqb k k'); simpl; auto. intros [H|H]; auto. Qed.
Lemma In_skipn : forall A k (l : list A) x, In x (skipn k l) -> In x l.
Proof. intros A. induction k as [|k IH]; intros [|y l] x; simpl; auto. Qed.
Lemma remove_struct_f : forall w o cs, condset_ok R cs ->
  cs_remove_struct (f w) o (rcs cs) = (fst (cs_remove_struct w o cs), rcs (snd (cs_remove_struct w o cs))) /\ condset_ok R (snd (cs_remove_struct w o cs)).
Proof.
  intros w o cs K. unfold cs_remove_struct. cbn [rn_condset cs_struct]. rewrite (aget_f R inj). destruct (aget w (cs_struct cs)) as [l|]; cbn [option_map fst snd]; [|split; auto].
  rewrite has_oid_f. destruct (has_oid o l); cbn [fst snd]; [|split; auto]. cbn [rn_condset cs_order]. rewrite !remove_first_f, has_oid_f. destruct K as [KB KO]. destruct (has_oid o (cs_order cs)); cbn [fst snd]; split.
  - unfold rn_condset; simpl. do 2 f_equal. destruct (remove_first o l) as [|s0 r0]; [apply (adel_f R inj)|apply (aset_f R inj _ _ (map rsc) w (s0 :: r0))].
  - split; simpl; auto. intros s H. apply KO. eapply remove_first_in; eauto.
  - unfold rn_condset; simpl. rewrite <- (aset_f R inj). auto.
  - split; auto.
Qed.
Lemma set_rebuild_f : forall cs, set_rebuild (rcs cs) = rcs (set_rebuild cs).
Proof. auto. Qed.
Definition rem_follows (x y : res (option anycond) * condset * owners_t) : Prop :=
  let '(r, cs, ow) := x in let '(r', cs', ow') := y in
  r' = rn_res (option_map ra) r /\ cs' = rcs cs /\ condset_ok R cs /\ of_follow ow ow'.
Lemma drop_ok : forall w cs, condset_ok R cs -> condset_ok R (set_rebuild (mkCS (adel w (cs_basic cs)) (cs_struct cs) (cs_order cs) (cs_cache cs) (cs_rebuild cs))).
Proof. intros w cs [K1 K2]. split; simpl; auto. intros n c H. apply adel_in in H. eauto. Qed.
Lemma drop_f : forall w cs, set_rebuild (mkCS (adel (f w) (cs_basic (rcs cs))) (cs_struct (rcs cs)) (cs_order (rcs cs)) (cs_cache (rcs cs)) (cs_rebuild (rcs cs))) =
  rcs (set_rebuild (mkCS (adel w (cs_basic cs)) (cs_struct cs) (cs_order cs) (cs_cache cs) (cs_rebuild cs))).
Proof. intros. unfold rn_condset, set_rebuild; simpl. rewrite (adel_f R inj). auto. Qed.
Lemma remove_owner_f : forall w cs ow ow', condset_ok R cs -> of_follow ow ow' -> rem_follows (cs_remove_owner w cs ow) (cs_remove_owner (f w) (rcs cs) ow').
Proof.
  intros w cs ow ow' K O. unfold cs_remove_owner. rewrite drop_f. cbn [rn_condset cs_basic cs_struct]. rewrite !(aget_f R inj). destruct (aget w (cs_basic cs)) as [c|], (aget w (cs_struct cs)) as [l|]; cbn [option_map].
  - repeat split; auto; apply K.
  - split; [|split; [|split]]; auto using drop_ok. exact (set_owner_f R inj c None ow ow' O).
  - destruct l as [|s [|s2 l]]; cbn [map].
    + repeat split; auto; apply K.
    + destruct (remove_struct_f w (sc_oid s) cs K) as [H1 H2]. cbn [rn_scond sc_oid]. fold (rcs cs). rewrite H1. destruct (cs_remove_struct w (sc_oid s) cs). cbn [fst snd] in *. split; [|split; [|split]]; auto.
    + repeat split; auto; apply K.
  - repeat split; auto; apply K.
Qed.
Lemma remove_cond_f : forall a cs ow ow', condset_ok R cs -> of_follow ow ow' -> rem_follows (cs_remove_cond a cs ow) (cs_remove_cond (ra a) (rcs cs) ow').
Proof.
  intros a cs ow ow' K O. unfold cs_remove_cond. rewrite ra_oid, O. destruct (ow (any_oid a)) as [w|]; cbn [option_map]; [|split; [|split; [|split]]; auto]. cbv zeta.
  assert (E : match aget (f w) (cs_basic (rcs cs)) with Some c => Nat.eqb (cond_oid c) (any_oid a) | None => false end = match aget w (cs_basic cs) with Some c => Nat.eqb (cond_oid c) (any_oid a) | None => false end).
 
  { cbn [rn_condset cs_basic]. rewrite (aget_f R inj). destruct (aget w (cs_basic cs)); cbn [option_map]; auto. rewrite (rc_oid R inj). auto. }
  rewrite E. destruct (match aget w (cs_basic cs) with Some c => _ | None => false end).
  - rewrite drop_f. split; [|split; [|split]]; auto using drop_ok. destruct a as [c|s]; cbn [rn_any]; [exact (set_owner_f R inj c None ow ow' O)|exact (upd_f ow ow' (sc_oid s) None O)].
  - destruct (remove_struct_f w (any_oid a) cs K) as [H1 H2]. rewrite H1. destruct (cs_remove_struct w (any_oid a) cs) as [b cs1]. cbn [fst snd] in *. destruct b; split; auto; split; auto.
Qed.
Definition add_follows (x y : res unit * condset * owners_t) : Prop :=
  let '(r, cs, ow) := x in let '(r', cs', ow') := y in r' = r /\ cs' = rcs cs /\ condset_ok R cs /\ of_follow ow ow'.
Lemma add_list_f : forall l w cs ow ow', (forall a, In a l -> any_follows R a) -> condset_ok R cs -> of_follow ow ow' -> add_follows (cs_add_list w l cs ow) (cs_add_list (f w) (map ra l) (rcs cs) ow').
Proof.
  induction l as [|a l IH]; intros w cs ow ow' A K O; cbn [cs_add_list map]; [split; auto|]. assert (H := cs_add_f w a cs ow ow' (A a (or_introl eq_refl)) K O).
  destruct (cs_add w a cs ow) as [[cs1 ow1]|], (cs_add (f w) (ra a) (rcs cs) ow') as [[cs1' ow1']|]; try tauto.
  - destruct H as [-> [H1 H2]]. apply IH; auto. intros x X. apply A. right; auto.
  - subst. split; auto.
Qed.
Lemma entry_list_f : forall c, entry_list (rn_entry R c) = map ra (entry_list c).
Proof. intros [a|l]; auto. Qed.
Lemma add_set_f : forall d cs ow ow', (forall n c a, In (n, c) d -> In a (entry_list c) -> any_follows R a) -> condset_ok R cs -> of_follow ow ow' ->
  add_follows (cs_add_set d cs ow) (cs_add_set (rn_map R (rn_entry R) d) (rcs cs) ow').
Proof.
  induction d as [|[w c] d IH]; intros cs ow ow' A K O; cbn [cs_add_set rn_map map fst snd]; [split; auto|]. rewrite entry_list_f.
  assert (H := add_list_f (entry_list c) w cs ow ow' (fun a => A w c a (or_introl eq_refl)) K O).
  destruct (cs_add_list w (entry_list c) cs ow) as [[r cs1] ow1], (cs_add_list (f w) (map ra (entry_list c)) (rcs cs) ow') as [[r' cs1'] ow1']. destruct H as [-> [-> [H1 H2]]].
  destruct r; [|split; auto]. apply IH; auto. intros n c0 b I1 I2. apply (A n c0 b); auto. right; auto.
Qed.

(** ** Schedulers *)
Variables cyc cyc' : graph -> list (list node).
Variables arr arr' : list (list node) -> list (list node).
Hypothesis CF : cycles_follow R cyc cyc'.
Hypothesis AF : order_follows R arr arr'.
Notation rst := (map (fun p : graph * list (list node) => (rg (fst p), rss (snd p)))).

Lemma push_conds_f : forall l ow ow' g st, (forall s, In s l -> gsc_follows R (sc_gsc s)) -> of_follow ow ow' ->
  push_conds cyc' arr' (map rsc l) ow' (rg g) (rst st) = (fst (push_conds cyc arr l ow g st), rst (snd (push_conds cyc arr l ow g st))).
Proof.
  induction l as [|c l IH]; intros ow ow' g st G O; cbn [push_conds map]; auto. cbn [rn_scond sc_oid sc_gsc]. rewrite O, (modify_graph_f R inj cyc cyc' CF) by (apply G; left; auto).
  destruct (modify_graph cyc (ow (sc_oid c)) (sc_gsc c) g) as [g'|]; cbn [rn_res fst snd]; auto. unfold push_graph. rewrite (queue_of_f R inj arr arr') by auto.
  assert (H := IH ow ow' g' ((g', queue_of arr g') :: st) (fun s I => G s (or_intror I)) O). exact H.
Qed.
Lemma common_prefix_f : forall a b, common_prefix (map rsc a) (map rsc b) = common_prefix a b.
Proof. induction a as [|x a IH]; intros [|y b]; simpl; auto. rewrite IH. auto. Qed.
Lemma same_order_f : forall a b, same_order (map rsc a) (map rsc b) = same_order a b.
Proof. intros a b. unfold same_order. rewrite !map_map. auto. Qed.
Lemma pop_graphs_f : forall k st, pop_graphs k (rst st) = (fst (pop_graphs k st), rst (snd (pop_graphs k st))).
Proof. induction k as [|k IH]; intros [|x st]; cbn [pop_graphs map]; auto. Qed.
Lemma set_stack_f : forall d d' st l, renamed R d d' -> renamed R (set_stack d st l) (set_stack d' (rst st) (option_map (map rsc) l)).
Proof. intros d d' st l []. constructor; simpl; auto. Qed.
Lemma sync_f : forall d d', renamed R d d' -> fst (sync cyc' arr' d') = fst (sync cyc arr d) /\ renamed R (snd (sync cyc arr d)) (snd (sync cyc' arr' d')).
Proof.
  intros d d' N. unfold sync. cbv zeta. rewrite (nm_cs _ _ _ N), (nm_last _ _ _ N), (nm_stack _ _ _ N). cbn [rn_condset cs_order].
  assert (E : match option_map (map rsc) (d_last d) with Some l => same_order l (map rsc (cs_order (d_cs d))) | None => false end = match d_last d with Some l => same_order l (cs_order (d_cs d)) | None => false end).
  { destruct (d_last d); simpl; auto using same_order_f. }
  rewrite E. destruct (match d_last d with Some l => same_order l (cs_order (d_cs d)) | None => false end); [split; auto|].
  assert (L : match option_map (map rsc) (d_last d) with Some l => l | None => [] end = map rsc (match d_last d with Some l => l | None => [] end)) by (destruct (d_last d); auto).
  rewrite L, map_length, common_prefix_f, pop_graphs_f. set (k := common_prefix _ _). destruct (pop_graphs _ (d_stack d)) as [r st]. cbn [fst snd].
  destruct r; [|split; auto; exact (set_stack_f d d' st (d_last d) N)]. destruct st as [|[g q] st]; cbn [map fst snd]; [split; auto; exact (set_stack_f d d' [] (d_last d) N)|].
  rewrite skipn_map. assert (O : of_follow (d_owners d) (d_owners d')) by (exact (nm_owners _ _ _ N)).
  assert (P := push_conds_f (skipn k (cs_order (d_cs d))) (d_owners d) (d_owners d') g ((g, q) :: st) (fun s I => proj2 (nm_ok _ _ _ N) s (In_skipn _ _ _ _ I)) O). cbn [map fst snd] in P. rewrite P.
  destruct (push_conds cyc arr (skipn k (cs_order (d_cs d))) (d_owners d) g ((g, q) :: st)) as [r st']. cbn [fst snd]. destruct r; split; auto; [exact (set_stack_f d d' st' (Some (cs_order (d_cs d))) N)|exact (set_stack_f d d' st' (d_last d) N)].
Qed.
Lemma top_graph_f : forall d d', renamed R d d' -> top_graph d' = rg (top_graph d).
Proof. intros d d' N. unfold top_graph. rewrite (nm_stack _ _ _ N). destruct (d_stack d) as [|[g q] st]; auto. Qed.
Lemma top_queue_f : forall d d', renamed R d d' -> top_queue d' = rss (top_queue d).
Proof. intros d d' N. unfold top_queue. rewrite (nm_stack _ _ _ N). destruct (d_stack d) as [|[g q] st]; auto. Qed.
Lemma set_cs_f : forall d d' cs ow ow', renamed R d d' -> condset_ok R cs -> of_follow ow ow' -> renamed R (set_cs d cs ow) (set_cs d' (rcs cs) ow').
Proof. intros d d' cs ow ow' [] K O. constructor; simpl; auto. Qed.
Lemma get_graph_f : forall d d', renamed R d d' -> fst (get_graph cyc' arr' d') = rn_res rg (fst (get_graph cyc arr d)) /\ renamed R (snd (get_graph cyc arr d)) (snd (get_graph cyc' arr' d')).
Proof.
  intros d d' N. unfold get_graph. destruct (sync_f d d' N) as [S1 S2]. destruct (sync cyc arr d) as [r d1], (sync cyc' arr' d') as [r' d1']. cbn [fst snd] in *. subst r'. destruct r; cbn [fst snd rn_res]; split; auto. rewrite (top_graph_f d1 d1'); auto.
Qed.
Lemma get_queue_f : forall d d', renamed R d d' -> fst (get_queue cyc' arr' d') = rn_res rss (fst (get_queue cyc arr d)) /\ renamed R (snd (get_queue cyc arr d)) (snd (get_queue cyc' arr' d')).
Proof.
  intros d d' N. unfold get_queue. destruct (sync_f d d' N) as [S1 S2]. destruct (sync cyc arr d) as [r d1], (sync cyc' arr' d') as [r' d1']. cbn [fst snd] in *. subst r'. destruct r; cbn [fst snd rn_res]; split; auto.
  rewrite (top_graph_f d1 d1'), (top_queue_f d1 d1'), (nm_exact _ _ _ S2), gkeys_f; auto. destruct (d_exact d1); auto.
Qed.
Lemma add_condition_f : forall w a d d', any_follows R a -> renamed R d d' ->
  fst (add_condition cyc' arr' (f w) (ra a) d') = fst (add_condition cyc arr w a d) /\ renamed R (snd (add_condition cyc arr w a d)) (snd (add_condition cyc' arr' (f w) (ra a) d')).
Proof.
  intros w a d d' A N. unfold add_condition. rewrite (nm_cs _ _ _ N). assert (H := cs_add_f w a (d_cs d) (d_owners d) (d_owners d') A (nm_ok _ _ _ N) (nm_owners _ _ _ N)).
  destruct (cs_add w a (d_cs d) (d_owners d)) as [[cs ow]|], (cs_add (f w) (ra a) (rcs (d_cs d)) (d_owners d')) as [[cs' ow']|]; try tauto.
  - destruct H as [-> [H1 H2]]. apply sync_f. apply set_cs_f; auto.
  - subst. split; auto.
Qed.
Lemma add_condition_set_f : forall s d d', (forall n c a, In (n, c) s -> In a (entry_list c) -> any_follows R a) -> renamed R d d' ->
  fst (add_condition_set cyc' arr' (rn_map R (rn_entry R) s) d') = fst (add_condition_set cyc arr s d) /\ renamed R (snd (add_condition_set cyc arr s d)) (snd (add_condition_set cyc' arr' (rn_map R (rn_entry R) s) d')).
Proof.
  intros s d d' A N. unfold add_condition_set. rewrite (nm_cs _ _ _ N). assert (H := add_set_f s (d_cs d) (d_owners d) (d_owners d') A (nm_ok _ _ _ N) (nm_owners _ _ _ N)).
  destruct (cs_add_set s (d_cs d) (d_owners d)) as [[r cs] ow], (cs_add_set (rn_map R (rn_entry R) s) (rcs (d_cs d)) (d_owners d')) as [[r' cs'] ow']. destruct H as [-> [-> [H1 H2]]].
  destruct r; [apply sync_f; apply set_cs_f; auto|split; auto; apply set_cs_f; auto].
Qed.
Lemma remove_condition_owner_f : forall w d d', renamed R d d' ->
  fst (remove_condition_owner (f w) d') = rn_res (option_map ra) (fst (remove_condition_owner w d)) /\ renamed R (snd (remove_condition_owner w d)) (snd (remove_condition_owner (f w) d')).
Proof.
  intros w d d' N. unfold remove_condition_owner. rewrite (nm_cs _ _ _ N). assert (H := remove_owner_f w (d_cs d) (d_owners d) (d_owners d') (nm_ok _ _ _ N) (nm_owners _ _ _ N)).
  destruct (cs_remove_owner w (d_cs d) (d_owners d)) as [[r cs] ow], (cs_remove_owner (f w) (rcs (d_cs d)) (d_owners d')) as [[r' cs'] ow']. destruct H as [-> [-> [H1 H2]]]. split; auto. apply set_cs_f; auto.
Qed.
Lemma remove_condition_f : forall a d d', renamed R d d' ->
  fst (remove_condition (ra a) d') = rn_res (option_map ra) (fst (remove_condition a d)) /\ renamed R (snd (remove_condition a d)) (snd (remove_condition (ra a) d')).
Proof.
  intros a d d' N. unfold remove_condition. rewrite (nm_cs _ _ _ N). assert (H := remove_cond_f a (d_cs d) (d_owners d) (d_owners d') (nm_ok _ _ _ N) (nm_owners _ _ _ N)).
  destruct (cs_remove_cond a (d_cs d) (d_owners d)) as [[r cs] ow], (cs_remove_cond (ra a) (rcs (d_cs d)) (d_owners d')) as [[r' cs'] ow']. destruct H as [-> [-> [H1 H2]]]. split; auto. apply set_cs_f; auto.
Qed.
Lemma default_tc_f : forall a b, tc_follows R (default_tc a b) (default_tc a b).
Proof. intros a b s. destruct s; simpl; split; auto; try discriminate; intros c E; injection E as <-; exact I. Qed.
Lemma fresh_f : forall deid e, ctx_follows R (upd (fun _ => ctx_none) deid fresh_ctx e) (upd (fun _ => ctx_none) deid fresh_ctx e).
Proof. intros deid e. unfold upd. destruct (Nat.eqb e deid); constructor; simpl; auto; intros a b; auto. Qed.
Lemma new_sched_f : forall input conds tc tc' deid exact du ow ow' nx w w', (forall n c a, In (n, c) conds -> In a (entry_list c) -> any_follows R a) ->
  opt_follow (tc_follows R) tc tc' -> of_follow ow ow' -> world_follows R w w' ->
  fst (new_sched cyc' arr' (rn_arg R input) (rn_map R (rn_entry R) conds) tc' deid exact du ow' nx w') = fst (new_sched cyc arr input conds tc deid exact du ow nx w) /\
  renamed R (snd (new_sched cyc arr input conds tc deid exact du ow nx w)) (snd (new_sched cyc' arr' (rn_arg R input) (rn_map R (rn_entry R) conds) tc' deid exact du ow' nx w')).
Proof.
  intros input conds tc tc' deid exact du ow ow' nx w w' A T O W. unfold new_sched. cbv zeta. rewrite (arg_graph_f R inj).
  assert (DT : tc_follows R (match tc with None => default_tc 0 1 | Some t => combine_tconds (default_tc 0 1) t end) (match tc' with None => default_tc 0 1 | Some t => combine_tconds (default_tc 0 1) t end)).
  { destruct tc, tc'; simpl in T; try tauto; [apply combine_f|]; auto using default_tc_f. }
  set (dt := match tc with None => default_tc 0 1 | Some t => _ end) in *. set (dt' := match tc' with None => default_tc 0 1 | Some t => _ end) in *.
  assert (B : forall g st, renamed R (mkSched (gkeys g) exact du deid dt dt cs_empty ow nx st None (mkCstate (fun _ _ => 0) w) (upd (fun _ => ctx_none) deid fresh_ctx))
    (mkSched (gkeys (rg g)) exact du deid dt' dt' cs_empty ow' nx (rst st) None (mkCstate (fun _ _ => 0) w') (upd (fun _ => ctx_none) deid fresh_ctx))).
  { intros g st. constructor; simpl; auto using gkeys_f, fresh_f. - split; simpl; tauto. - split; auto. }
  destruct (arg_graph input) as [g|]; cbn [rn_res]; [|split; auto; exact (B [] [])].
  assert (P : push_graph arr' (rg g) [] = rst (push_graph arr g [])) by (unfold push_graph; rewrite (queue_of_f R inj arr arr') by auto; auto). rewrite P.
  destruct conds as [|[n c] conds]; cbn [rn_map map fst snd]; [split; auto|]. apply (add_condition_set_f ((n, c) :: conds)); auto.
Qed.
Lemma set_tconds_f : forall t t' d d', opt_follow (tc_follows R) t t' -> renamed R d d' -> renamed R (set_termination_conds t d) (set_termination_conds t' d').
Proof.
  intros t t' d d' T N. unfold set_termination_conds. destruct t, t'; simpl in T; try tauto; destruct N; constructor; simpl; auto. apply combine_f; auto.
Qed.
Lemma core_of_f : forall d d', renamed R d d' -> kf R (core_of d) (core_of d').
Proof.
  intros d d' N. assert (TG := top_graph_f d d' N). assert (TQ := top_queue_f d d' N). destruct N. constructor; simpl; auto.
  - rewrite nm_cs. auto.
  - destruct nm_ok. auto.
Qed.
Lemma rn_map_length : forall A B (h : A -> B) m, length (rn_map R h m) = length m.
Proof. intros. apply map_length. Qed.
Lemma put_core_f : forall d d' m m', renamed R d d' -> kf R m m' -> renamed R (put_core d m) (put_core d' m').
Proof.
  intros d d' m m' N K. unfold put_core. cbv zeta. constructor; simpl; try apply N; try apply K.
  - rewrite (nm_cs _ _ _ N), (kf_basic _ _ _ K). unfold rn_condset; simpl. rewrite !rn_map_length. auto.
  - split; simpl; [apply K|]. apply (nm_ok _ _ _ N).
Qed.
Definition sout_follows (a b : sched * gen * outcome) : Prop :=
  renamed R (fst (fst a)) (fst (fst b)) /\ same_call R (snd (fst a)) (snd (fst b)) /\ snd b = rn_outcome R (snd a).
Lemma sout_mk : forall m m' g g' o o', renamed R m m' -> same_call R g g' -> o' = rn_outcome R o -> sout_follows (m, g, o) (m', g', o').
Proof. intros. split; [|split]; auto. Qed.
Lemma sresume_failed_f : forall d d' d1 d1' g g' ex, renamed R d d' -> renamed R d1 d1' -> same_call R g g' -> sout_follows (sresume_failed d d1 g ex) (sresume_failed d' d1' g' ex).
Proof.
  intros d d' d1 d1' g g' ex N N1 G. unfold sresume_failed. cbv zeta. rewrite (sg_pc _ _ _ G), (sg_eid _ _ _ G). assert (K := core_of_f d d' N). assert (D := at_pc_f R g g' PDone G). destruct (g_pc g).
  - apply sout_mk; auto.
  - assert (C := incr_clock_f R CSE _ _ (g_eid g) K). destruct (incr_clock CSE (core_of d) (g_eid g)), (incr_clock CSE (core_of d') (g_eid g)); try tauto; [|subst]; apply sout_mk; auto using put_core_f.
  - assert (C := incr_clock_f R CSE _ _ (g_eid g) K). destruct (incr_clock CSE (core_of d) (g_eid g)) as [m1|], (incr_clock CSE (core_of d') (g_eid g)) as [m1'|]; try tauto; [|subst; apply sout_mk; auto using put_core_f].
    assert (C2 := incr_clock_f R PASS _ _ (g_eid g) C). destruct (incr_clock PASS m1 (g_eid g)) as [m2|], (incr_clock PASS m1' (g_eid g)) as [m2'|]; try tauto; [|subst; apply sout_mk; auto using put_core_f].
    destruct (terminated_f R inj m2 m2' (g_eid g) _ _ C2 (sg_tc _ _ _ G)) as [T1 T2]. destruct (terminated m2 (g_eid g) (g_tc g)) as [r m3], (terminated m2' (g_eid g) (g_tc g')) as [r' m3']. cbn [fst snd] in *. subst r'.
    destruct r as [[|]|].
    + assert (F := finish_f R inj m3 m3' g g' T2 G). destruct (finish m3 g) as [[m4 g4] o4], (finish m3' g') as [[m4' g4'] o4']. destruct F as [F1 [F2 F3]]. cbn [fst snd] in *. apply sout_mk; auto using put_core_f.
    + apply sout_mk; auto. apply put_core_f; auto. apply reset_total_f; auto.
    + apply sout_mk; auto using put_core_f.
  - apply sout_mk; auto.
Qed.
Lemma sresume_f : forall k d d' g g', renamed R d d' -> same_call R g g' -> sout_follows (sresume cyc arr k d g) (sresume cyc' arr' k d' g').
Proof.
  intros k d d' g g' N G. unfold sresume. destruct (sync_f d d' N) as [S1 S2]. destruct (sync cyc arr d) as [r d1], (sync cyc' arr' d') as [r' d1']. cbn [fst snd] in *. subst r'. destruct r.
  - assert (F := resume_f R inj k _ _ g g' (core_of_f d1 d1' S2) G). destruct (resume k (core_of d1) g) as [[m4 g4] o4], (resume k (core_of d1') g') as [[m4' g4'] o4']. destruct F as [F1 [F2 F3]]. cbn [fst snd] in *. apply sout_mk; auto using put_core_f.
  - apply sresume_failed_f; auto.
Qed.
Lemma sdrive_f : forall n k d d' g g' acc, renamed R d d' -> same_call R g g' ->
  match sdrive cyc arr n k d g acc, sdrive cyc' arr' n k d' g' (rss acc) with
  | (d1, g1, ys, o), (d1', g1', ys', o') => renamed R d1 d1' /\ same_call R g1 g1' /\ ys' = rss ys /\ o' = rn_outcome R o end.
Proof.
  induction n as [|n IH]; intros k d d' g g' acc N G; cbn [sdrive]; [repeat split; auto; try apply N; try apply G|]. assert (F := sresume_f k d d' g g' N G).
  destruct (sresume cyc arr k d g) as [[d1 g1] o], (sresume cyc' arr' k d' g') as [[d1' g1'] o']. destruct F as [F1 [F2 F3]]. cbn [fst snd] in *. subst o'.
  destruct o; cbn [rn_outcome]; try (split; [|split; [|split]]; auto; fail).
  assert (E : rss acc ++ [rs s] = rss (acc ++ [s])) by (unfold rn_sets; rewrite map_app; auto). rewrite E. apply IH; auto.
Qed.
Lemma send_sequence_f : forall e d d', renamed R d d' -> match send_environment_sequence e d, send_environment_sequence e d' with Ok a, Ok b => renamed R a b | Err x, Err y => x = y | _, _ => False end.
Proof.
  intros e d d' N. unfold send_environment_sequence, end_environment_sequence. assert (C := incr_clock_f R ES _ _ e (core_of_f d d' N)). destruct (incr_clock ES (core_of d) e), (incr_clock ES (core_of d') e); try tauto; simpl; auto using put_core_f.
Qed.
Lemma new_gen_f : forall e b t t' s, opt_follow (tc_follows R) t t' -> same_call R (new_gen e b t s) (new_gen e b t' s).
Proof. intros e b t t' s T. constructor; simpl; auto. intros x. split; auto. discriminate. Qed.
End Names.
