(** Custom graph structure conditions: what the function receives, what it can change. *)
From Verif Require Import BaseFacts SpecCustom SpecSched SpecGSC CondSetFacts GSCFacts HeapFacts GSCProps ResumeFrame SchedFacts SchedThms EdgeFacts.

Lemma private_hclone : forall h, private_copy h (hclone h).
Proof.
  intros h. unfold private_copy. repeat match goal with |- _ /\ _ => split end.
  - unfold hclone. rewrite unload_hload. unfold clone_graph, gkeys, akeys. rewrite map_map. reflexivity.
  - intros a b. rewrite !edge_unload. apply hget_hclone_In.
  - unfold hclone. rewrite unload_hload. intros n l I. unfold clone_graph in I. apply in_map_iff in I. destruct I as ([k v] & E & _).
    injection E as _ <-. apply s_of_NoDup.
  - unfold hclone, hload. simpl. rewrite app_length. lia.
  - intros n l A. unfold hclone, hload in *. simpl in *. apply load_from_range in A. rewrite app_length, map_length. exact A.
  - intros n m l A B. unfold hclone, hload in *. simpl in *. eapply load_from_inj; eauto.
  - intros l L. unfold hclone, hload. simpl. apply s_get_app1; auto.
Qed.
Section Custom.
Variable cyc : graph -> list (list node).
Theorem receives : forall u w h, exists c, private_copy h c /\
  (forall a, called_with u w a -> modify_graph_in cyc (Some w) (GCustom u) h = u_call u a c) /\
  (forall k, u_self u = Some (S k) -> modify_graph_in cyc (Some w) (GCustom u) h = Err ECondition) /\
  modify_graph_in cyc None (GCustom u) h = Err ECondition.
Proof.
  intros u w h. exists (hclone h). split; [apply private_hclone|]. unfold modify_graph_in, custom_process. cbn [gsc_graph_ok]. repeat (split; auto).
  - intros a [[-> ->]|[-> ->]]; reflexivity.
  - intros k ->; reflexivity.
Qed.
Theorem untouched : forall u w h r, touches_only_argument u -> modify_graph_in cyc (Some w) (GCustom u) h = Ok r ->
  forall l, l < length (h_store h) -> s_get (h_store r) l = s_get (h_store h) l.
Proof.
  intros u w h r T M. destruct (receives u w h) as (c & (P1 & P2 & P3 & P0 & P4 & P5 & P6) & A & B & _).
  assert (E : exists a, u_call u a c = Ok r).
  { destruct (u_self u) as [[|k]|] eqn:Us.
    - exists (Some w). rewrite <- A; auto. right; auto.
    - rewrite (B k eq_refl) in M. discriminate.
    - exists None. rewrite <- A; auto. left; auto. }
  destruct E as (a & E). intros l L. destruct (T a c r E) as (L1 & T1). rewrite <- P6 by auto. apply T1; [lia|].
  intros n X. apply P4 in X. lia.
Qed.
Theorem untouched_graph : forall u w h r, touches_only_argument u -> (forall n l, aget n (h_refs h) = Some l -> l < length (h_store h)) ->
  NoDup (akeys (h_refs h)) -> modify_graph_in cyc (Some w) (GCustom u) h = Ok r -> unload (mkH (h_refs h) (h_store r)) = unload h.
Proof.
  intros u w h r T L ND M. unfold unload. simpl. apply map_ext_in. intros [n l] I. simpl. f_equal.
  apply (untouched u w h r T M). apply (L n). apply aget_In_NoDup; auto.
Qed.
End Custom.
Lemma custom_value : forall cyc u w g a r, called_with u w a -> (exists c, private_copy (load g) c /\ modify_graph_in cyc (Some w) (GCustom u) (load g) = u_call u a c /\ u_call u a c = r) ->
  modify_graph cyc (Some w) (GCustom u) g = bind r (fun h => Ok (unload h)).
Proof. intros cyc u w g a r C (c & _ & M & E). unfold modify_graph. rewrite M, E. reflexivity. Qed.

(** ** Only nodes of the scheduler are ever executed *)
Lemma round_known : forall level m e exec ch exec' ch' m', round m e level exec ch = (Ok (exec', ch'), m') -> incl exec (m_nodes m) -> incl exec' (m_nodes m).
Proof.
  induction level as [|n l IH]; intros m e exec ch exec' ch' m' H I; simpl in H; [injection H as <- _ _; auto|].
  destruct (mem n exec); [eauto|]. destruct (aget n (m_basic m)) as [c|]; [|discriminate].
  destruct (satisfied m e c) as [[[|]|] m1] eqn:S; [| |discriminate]; pose proof (fx_nodes _ _ _ (fixed_satisfied e _ _ _ _ _ S)) as E.
  - destruct (mem n (m_nodes m1)) eqn:M; [|discriminate]. apply IH in H.
    + change (m_nodes (accept m1 e n)) with (m_nodes m1) in H. rewrite E in H. exact H.
    + change (m_nodes (accept m1 e n)) with (m_nodes m1). apply mem_In in M. intros x X. apply in_app_or in X. destruct X as [X|[<-|[]]]; auto. rewrite E; auto.
  - rewrite <- E. apply IH in H; auto. rewrite E. exact I.
Qed.
Lemma level_known : forall fuel m e level exec s m', do_level fuel m e level exec = Some (Ok s, m') -> incl exec (m_nodes m) -> incl s (m_nodes m).
Proof.
  induction fuel as [|f IH]; intros m e level exec s m' H I; simpl in H; [discriminate|].
  destruct (round m e level exec false) as [[[ex [|]]|] m1] eqn:R; [| |discriminate]; pose proof (fx_nodes _ _ _ (fixed_round _ _ _ _ _ _ _ R)) as E;
    apply round_known in R; auto.
  - apply IH in H; [|rewrite E; auto]. rewrite <- E. exact H.
  - injection H as <- _. exact R.
Qed.
Lemma inner_known : forall rest m g i ch m' s j ch', inner m g rest i ch = IYield m' s j ch' -> incl s (m_nodes m).
Proof.
  induction rest as [|level rest IH]; intros m g i ch m' s j ch' H; cbn [inner] in H; [discriminate|].
  destruct (terminated m (g_eid g) (g_tc g)) as [[[|]|] m1] eqn:T; try discriminate. pose proof (fx_nodes _ _ _ (fixed_terminated _ _ _ _ _ T)) as E1.
  destruct (do_level (S (length level)) m1 (g_eid g) level []) as [[[exec|] m2]|] eqn:D; try discriminate.
  pose proof (fx_nodes _ _ _ (fixed_level _ _ _ _ _ _ _ D)) as E2. apply level_known in D; [|intros x []]. rewrite E1 in D.
  destruct (nonempty exec || g_abs g).
  - destruct (append_exec m2 (g_eid g) (g_abs g) exec) as [[|] m3]; [|discriminate]. injection H as _ <- _ _. exact D.
  - apply IH in H. rewrite E2, E1 in H. exact H.
Qed.
Lemma outer_known : forall fuel m g m' g' s, outer fuel m g = (m', g', OYield s) -> incl s (m_nodes m).
Proof.
  induction fuel as [|f IH]; intros m g m' g' s H; cbn [outer] in H; [discriminate|].
  destruct (terminated m (g_eid g) (g_tc g)) as [[[|]|] m1] eqn:T; [| |discriminate].
  - unfold finish in H. destruct (if g_skip g then Ok m1 else _); [|discriminate]. destruct (check_tc _ _ _ _) as [[|] ?]; [|discriminate].
    destruct (x_list _); discriminate.
  - pose proof (fx_nodes _ _ _ (fixed_terminated _ _ _ _ _ T)) as E1. cbv zeta in H.
    set (m2 := reset_counts_total PASS m1 (g_eid g)) in *. assert (E2 : m_nodes m2 = m_nodes m) by exact E1.
    pose proof (fixed_inner (queue m2) m2 g 0 false) as F. destruct (inner m2 g (queue m2) 0 false) as [m3 s3 i ch|m3 ch|m3 ex|m3] eqn:I; try discriminate.
    + injection H as _ _ <-. apply inner_known in I. rewrite E2 in I. exact I.
    + pose proof (fixed_tail m3 g ch) as F3. destruct (pass_tail m3 g ch) as [m4|m4|m4 ex]; try discriminate.
      * injection H as _ _ <-. intros x [].
      * apply IH in H. simpl in F, F3. rewrite (fx_nodes _ _ _ F3), (fx_nodes _ _ _ F), E2 in H. exact H.
Qed.
Theorem resume_known : forall fuel m g m' g' s, resume fuel m g = (m', g', OYield s) -> incl s (m_nodes m).
Proof.
  intros fuel m g m' g' s H. unfold resume in H. cbv zeta in H. destruct (g_pc g) as [|i ch| |]; [| | |discriminate].
  - destruct (start m g) as [[g1|] m1] eqn:S; [|discriminate]. apply outer_known in H. rewrite (gw_nodes _ _ _ (grown_start _ _ _ _ S)) in H. exact H.
  - destruct (incr_clock CSE m (g_eid g)) as [m1|] eqn:E; [|discriminate]. pose proof (fx_nodes _ _ _ (fixed_incr _ _ _ _ E)) as E1.
    pose proof (fixed_inner (skipn (S i) (queue m1)) m1 g (S i) ch) as F.
    destruct (inner m1 g (skipn (S i) (queue m1)) (S i) ch) as [m3 s3 j ch'|m3 ch'|m3 ex|m3] eqn:I; try discriminate.
    + injection H as _ _ <-. apply inner_known in I. rewrite E1 in I. exact I.
    + pose proof (fixed_tail m3 g ch') as F3. destruct (pass_tail m3 g ch') as [m4|m4|m4 ex]; try discriminate.
      * injection H as _ _ <-. intros x [].
      * apply outer_known in H. simpl in F, F3. rewrite (fx_nodes _ _ _ F3), (fx_nodes _ _ _ F), E1 in H. exact H.
  - destruct (incr_clock CSE m (g_eid g)) as [m1|] eqn:E; [|discriminate]. pose proof (fx_nodes _ _ _ (fixed_incr _ _ _ _ E)) as E1.
    destruct (incr_clock PASS m1 (g_eid g)) as [m2|] eqn:E'; [|discriminate]. pose proof (fx_nodes _ _ _ (fixed_incr _ _ _ _ E')) as E2.
    apply outer_known in H. rewrite E2, E1 in H. exact H.
Qed.
Section Nodes.
Variable cyc : graph -> list (list node).
Variable arr : list (list node) -> list (list node).
Lemma sync_nodes : forall d, d_nodes (snd (sync cyc arr d)) = d_nodes d.
Proof. intros d. destruct (sync cyc arr d) as [r d'] eqn:S. apply sync_set_stack in S. destruct S as (st & l & ->). reflexivity. Qed.
Lemma sresume_nodes : forall fuel d g, d_nodes (fst (fst (sresume cyc arr fuel d g))) = d_nodes d.
Proof.
  intros fuel d g. unfold sresume. pose proof (sync_nodes d) as E. destruct (sync cyc arr d) as [[u|ex] d1] eqn:S; simpl in E.
  - destruct (resume fuel (core_of d1) g) as [[m g'] o]. exact E.
  - unfold sresume_failed. destruct (g_pc g); simpl; auto.
    + destruct (incr_clock CSE (core_of d) (g_eid g)); simpl; auto.
    + destruct (incr_clock CSE (core_of d) (g_eid g)) as [m1|]; [|reflexivity]. destruct (incr_clock PASS m1 (g_eid g)) as [m2|]; [|reflexivity].
      destruct (terminated m2 (g_eid g) (g_tc g)) as [[[|]|] m3]; [|exact E|reflexivity]. destruct (finish m3 g) as [[m4 g'] o]. reflexivity.
Qed.
Lemma perform_nodes : forall k d d', perform cyc arr k d = Some d' -> d_nodes d' = d_nodes d.
Proof.
  intros k d d' H. destruct k as [[w a|s|a|w]| |t|f g|e]; simpl in H; unfold ok_sched in H.
  - destruct (add_condition cyc arr w a d) as [[u|] d1] eqn:A; [|discriminate]. injection H as <-. unfold add_condition in A.
    destruct (cs_add w a (d_cs d) (d_owners d)) as [[cs ow]|]; [|discriminate]. pose proof (sync_nodes (set_cs d cs ow)) as E. rewrite A in E. exact E.
  - destruct (add_condition_set cyc arr s d) as [[u|] d1] eqn:A; [|discriminate]. injection H as <-. unfold add_condition_set in A.
    destruct (cs_add_set s (d_cs d) (d_owners d)) as [[[u'|] cs] ow]; [|discriminate]. pose proof (sync_nodes (set_cs d cs ow)) as E. rewrite A in E. exact E.
  - unfold remove_condition in H. destruct (cs_remove_cond a (d_cs d) (d_owners d)) as [[[u|] cs] ow]; [|discriminate]. injection H as <-. reflexivity.
  - unfold remove_condition_owner in H. destruct (cs_remove_owner w (d_cs d) (d_owners d)) as [[[u|] cs] ow]; [|discriminate]. injection H as <-. reflexivity.
  - unfold get_graph in H. pose proof (sync_nodes d) as E. destruct (sync cyc arr d) as [[u|] d1]; [|discriminate]. injection H as <-. exact E.
  - injection H as <-. unfold set_termination_conds. destruct t; reflexivity.
  - pose proof (sresume_nodes f d g) as E. destruct (sresume cyc arr f d g) as [[d1 g1] o]. simpl in E. destruct o; try discriminate; injection H as <-; exact E.
  - unfold send_environment_sequence in H. destruct (end_environment_sequence (core_of d) e); [|discriminate]. injection H as <-. reflexivity.
Qed.
Lemma performs_nodes : forall ks d d', performs cyc arr ks d = Some d' -> d_nodes d' = d_nodes d.
Proof.
  induction ks as [|k ks IH]; intros d d' H; simpl in H; [injection H as <-; auto|].
  destruct (perform cyc arr k d) as [d1|] eqn:P; [|discriminate]. rewrite (IH _ _ H). eapply perform_nodes; eauto.
Qed.
Theorem only_nodes : forall input base conds tc deid exact du ow nx w r d0 ks d fuel g d' g' s, arg_graph input = Ok base ->
  new_sched cyc arr input conds tc deid exact du ow nx w = (Ok r, d0) -> performs cyc arr ks d0 = Some d ->
  sresume cyc arr fuel d g = (d', g', OYield s) -> incl s (gkeys base).
Proof.
  intros input base conds tc deid exact du ow nx w r d0 ks d fuel g d' g' s A N P R.
  assert (E0 : d_nodes d0 = gkeys base).
  { unfold new_sched in N. rewrite A in N. destruct conds as [|p conds]; [injection N as _ <-; reflexivity|].
    set (pc := p :: conds) in N. unfold add_condition_set in N. cbn [d_cs d_owners] in N. destruct (cs_add_set pc cs_empty ow) as [[[r'|] cs] ow']; [|discriminate].
    match type of N with sync _ _ ?x = _ => pose proof (sync_nodes x) as E end. rewrite N in E. exact E. }
  rewrite <- E0, <- (performs_nodes _ _ _ P). unfold sresume in R. pose proof (sync_nodes d) as E. destruct (sync cyc arr d) as [[u|ex] d1]; simpl in E.
  - destruct (resume fuel (core_of d1) g) as [[m g1] o] eqn:Re. injection R as _ _ ->. apply resume_known in Re. simpl in Re. rewrite E in Re. exact Re.
  - exfalso. unfold sresume_failed in R. destruct (g_pc g); try discriminate.
    + destruct (incr_clock CSE (core_of d) (g_eid g)); discriminate.
    + destruct (incr_clock CSE (core_of d) (g_eid g)) as [m1|]; [|discriminate]. destruct (incr_clock PASS m1 (g_eid g)) as [m2|]; [|discriminate].
      destruct (terminated m2 (g_eid g) (g_tc g)) as [[[|]|] m3]; try discriminate. unfold finish in R. destruct (if g_skip g then Ok m3 else _); [|discriminate].
      destruct (check_tc _ _ _ _) as [[|] ?]; [|discriminate]. destruct (x_list _); discriminate.
Qed.
End Nodes.
