(** Runs of two schedulers that differ in the order of their dict of conditions, in the owners
    of objects that are not in use, and in the representation of termination conditions. *)
From Verif Require Import SpecCond SpecRegistered BaseFacts ResumeFrame RunIds DefaultFacts YieldFacts.

Section Agree.
Variable P : oid -> Prop.       (* the objects in use *)
Record agree (m m' : core) : Prop := {
  ag_nodes : m_nodes m' = m_nodes m;
  ag_graph : m_graph m' = m_graph m;
  ag_levels : m_levels m' = m_levels m;
  ag_exact : m_exact m' = m_exact m;
  ag_unit : m_default_unit m' = m_default_unit m;
  ag_tconds : forall s, m_tconds m' s = m_tconds m s;
  ag_basic : forall n, aget n (m_basic m') = aget n (m_basic m);
  ag_owners : forall o, P o -> m_owners m' o = m_owners m o;
  ag_next : m_next m' = m_next m;
  ag_cst : m_cst m' = m_cst m;
  ag_ctxs : forall e, m_ctxs m' e = m_ctxs m e;
  ag_in : forall n c o, aget n (m_basic m) = Some c -> In o (oids c) -> P o;
  ag_fresh : fresh_ids m;
  ag_fresh' : fresh_ids m';
  ag_high : forall o, m_next m <= o -> P o;
  ag_abs : forall p, In p (m_basic m) -> is_absolute (snd p) = false;
  ag_abs' : forall p, In p (m_basic m') -> is_absolute (snd p) = false
}.
Lemma agree_ctx : forall m m' e x, agree m m' -> agree (set_ctx m e x) (set_ctx m' e x).
Proof. intros m m' e x []. constructor; simpl; auto. intros e'. unfold upd. destruct (Nat.eqb e' e); auto. Qed.
Lemma agree_cst : forall m m' st, agree m m' -> agree (set_cst m st) (set_cst m' st).
Proof. intros m m' st []. constructor; simpl; auto. Qed.
Lemma agree_queue : forall m m', agree m m' -> queue m' = queue m.
Proof. intros m m' []. unfold queue. rewrite ag_exact0, ag_graph0, ag_levels0. auto. Qed.
Definition uses (c : cond) : Prop := forall o, In o (oids c) -> P o.
Lemma agree_satisfied : forall m m' e c r m1, agree m m' -> uses c -> satisfied m e c = (r, m1) ->
  exists m1', satisfied m' e c = (r, m1') /\ agree m1 m1'.
Proof.
  intros m m' e c r m1 R IC E. unfold satisfied in *.
  assert (V : view_of m' e = view_of m e) by (unfold view_of; rewrite (agree_queue _ _ R); destruct R; rewrite ag_nodes0, ag_exact0, ag_ctxs0; auto).
  rewrite V, (ag_cst _ _ R). rewrite (eval_owners _ _ c (m_owners m') (m_owners m)) by (intros o O; apply (ag_owners _ _ R); auto).
  destruct (eval (view_of m e) e (m_owners m) c (m_cst m)) as [r0 st]. inversion E; subst. eexists. split; [reflexivity|]. apply agree_cst; auto.
Qed.
Lemma agree_accept : forall m m' e n, agree m m' -> agree (accept m e n) (accept m' e n).
Proof. intros m m' e n R. unfold accept. rewrite (ag_ctxs _ _ R). apply agree_ctx; auto. Qed.
Lemma agree_round : forall level m m' e exec ch r m1, agree m m' -> round m e level exec ch = (r, m1) ->
  exists m1', round m' e level exec ch = (r, m1') /\ agree m1 m1'.
Proof.
  induction level as [|n l IH]; intros m m' e exec ch r m1 R E; simpl in *; [inversion E; subst; eauto|].
  destruct (mem n exec); [eauto|]. rewrite (ag_basic _ _ R).
  destruct (aget n (m_basic m)) as [c|] eqn:EB; [|inversion E; subst; eauto].
  destruct (satisfied m e c) as [rr m2] eqn:SA. destruct (agree_satisfied _ _ _ _ _ _ R (fun o => ag_in _ _ R _ _ o EB) SA) as (m2' & SA' & R2). rewrite SA'.
  destruct rr as [[|]|]; [|eauto|inversion E; subst; eauto]. rewrite (ag_nodes _ _ R2).
  destruct (mem n (m_nodes m2)); [|inversion E; subst; eauto]. apply (IH (accept m2 e n)); auto. apply agree_accept; auto.
Qed.
Lemma agree_level : forall fuel m m' e level exec, agree m m' ->
  match do_level fuel m e level exec with
  | None => do_level fuel m' e level exec = None
  | Some (r, m1) => exists m1', do_level fuel m' e level exec = Some (r, m1') /\ agree m1 m1'
  end.
Proof.
  induction fuel as [|f IH]; intros m m' e level exec R; simpl; auto.
  destruct (round m e level exec false) as [r m1] eqn:E. destruct (agree_round _ _ _ _ _ _ _ _ R E) as (m1' & E' & R1). rewrite E'.
  destruct r as [[ex [|]]|]; [apply IH; auto|eauto|eauto].
Qed.
Definition tc_uses (tc : tconds) : Prop := forall s c, tc s = Some c -> uses c.
Definition tc_same (tc tc' : tconds) : Prop := forall s : timescale, tc' s = tc s.
Lemma agree_tc : forall m m' e tc tc' s r m1, agree m m' -> tc_uses tc -> tc_same tc tc' -> check_tc m e tc s = (r, m1) ->
  exists m1', check_tc m' e tc' s = (r, m1') /\ agree m1 m1'.
Proof.
  intros m m' e tc tc' s r m1 R T TS E. unfold check_tc in *. rewrite (TS s). destruct (tc s) as [c|] eqn:C; [|inversion E; subst; eauto]. eapply agree_satisfied; eauto.
Qed.
Lemma agree_terminated : forall m m' e tc tc' r m1, agree m m' -> tc_uses tc -> tc_same tc tc' -> terminated m e tc = (r, m1) ->
  exists m1', terminated m' e tc' = (r, m1') /\ agree m1 m1'.
Proof.
  intros m m' e tc tc' r m1 R T TS E. unfold terminated in *. destruct (check_tc m e tc ESU) as [rr m2] eqn:C.
  destruct (agree_tc _ _ _ _ _ _ _ _ R T TS C) as (m2' & C' & R2). rewrite C'. destruct rr as [[|]|]; [inversion E; subst; eauto| |inversion E; subst; eauto].
  eapply agree_tc; eauto.
Qed.
Lemma agree_append : forall m m' e abs s, agree m m' ->
  match append_exec m e abs s with
  | (Ok _, m1) => exists u m1', append_exec m' e abs s = (Ok u, m1') /\ agree m1 m1'
  | (Err ex, m1) => exists m1', append_exec m' e abs s = (Err ex, m1') /\ agree m1 m1'
  end.
Proof.
  intros m m' e abs s R. unfold append_exec. rewrite (ag_ctxs _ _ R).
  destruct (x_list (m_ctxs m e)) as [l|]; [|eauto]. destruct abs; [destruct (x_stamps (m_ctxs m e))|].
  - eexists. eexists. split; [reflexivity|]. apply agree_ctx; auto.
  - eexists. split; [reflexivity|]. apply agree_ctx; auto.
  - eexists. eexists. split; [reflexivity|]. apply agree_ctx; auto.
Qed.
Lemma agree_set_clock : forall m m' e k, agree m m' -> agree (set_clock m e k) (set_clock m' e k).
Proof. intros m m' e k R. unfold set_clock. rewrite (ag_ctxs _ _ R). apply agree_ctx; auto. Qed.
Lemma agree_incr : forall s m m' e, agree m m' ->
  match incr_clock s m e with Ok m1 => exists m1', incr_clock s m' e = Ok m1' /\ agree m1 m1' | Err ex => incr_clock s m' e = Err ex end.
Proof.
  intros s m m' e R. unfold incr_clock. rewrite (ag_ctxs _ _ R). destruct (clock_incr s (the_clock (m_ctxs m e))); auto.
  eexists. split; [reflexivity|]. apply agree_set_clock; auto.
Qed.
(* generators *)
Record gens (g g' : gen) : Prop := {
  gs_eid : g_eid g' = g_eid g;
  gs_base : g_base g' = g_base g;
  gs_tcarg : g_tcarg g' = g_tcarg g;
  gs_skip : g_skip g' = g_skip g;
  gs_tc : tc_same (g_tc g) (g_tc g');
  gs_abs : g_abs g' = g_abs g;
  gs_pc : g_pc g' = g_pc g;
  gs_uses : tc_uses (g_tc g);
  gs_arg : forall tc, g_tcarg g = Some tc -> tc_uses tc
}.
Lemma gens_at : forall g g' p, gens g g' -> gens (at_pc g p) (at_pc g' p).
Proof. intros g g' p []. constructor; auto. Qed.
Hint Resolve gens_at : core.
Definition agree_inner_result (a b : inner_result) : Prop :=
  match a, b with
  | IYield m s i ch, IYield m' s' i' ch' => s' = s /\ i' = i /\ ch' = ch /\ agree m m'
  | IEnd m ch, IEnd m' ch' => ch' = ch /\ agree m m'
  | IErr m ex, IErr m' ex' => ex' = ex /\ agree m m'
  | IFuel m, IFuel m' => agree m m'
  | _, _ => False
  end.
Lemma agree_inner : forall rest m m' g g' i ch, agree m m' -> gens g g' -> agree_inner_result (inner m g rest i ch) (inner m' g' rest i ch).
Proof.
  induction rest as [|level rest IH]; intros m m' g g' i ch R T; [simpl; auto|]. cbn [inner]. rewrite (gs_eid _ _ T), (gs_abs _ _ T).
  destruct (terminated m (g_eid g) (g_tc g)) as [r m1] eqn:E. destruct (agree_terminated _ _ _ _ _ _ _ R (gs_uses _ _ T) (gs_tc _ _ T) E) as (m1' & E' & R1). rewrite E'.
  destruct r as [[|]|ex]; [simpl; auto| |simpl; auto].
  pose proof (agree_level (S (length level)) _ _ (g_eid g) level [] R1) as L. destruct (do_level (S (length level)) m1 (g_eid g) level []) as [[rr m2]|].
  - destruct L as (m2' & L & R2). rewrite L. destruct rr as [exec|ex]; simpl; auto.
    destruct (nonempty exec || g_abs g); [|apply IH; auto].
    pose proof (agree_append _ _ (g_eid g) (g_abs g) exec R2) as A. destruct (append_exec m2 (g_eid g) (g_abs g) exec) as [[u|ex] m3].
    + destruct A as (u' & m3' & A & R3). rewrite A. simpl. auto.
    + destruct A as (m3' & A & R3). rewrite A. simpl. auto.
  - rewrite L. simpl. auto.
Qed.
Definition agree_tail_result (a b : tail_result) : Prop :=
  match a, b with
  | TYield m, TYield m' => agree m m'
  | TNext m, TNext m' => agree m m'
  | TErr m ex, TErr m' ex' => ex' = ex /\ agree m m'
  | _, _ => False
  end.
Lemma agree_tail : forall m m' g g' ch, agree m m' -> gens g g' -> agree_tail_result (pass_tail m g ch) (pass_tail m' g' ch).
Proof.
  intros m m' g g' ch R T. unfold pass_tail. rewrite (gs_eid _ _ T), (gs_abs _ _ T). destruct (negb ch && negb (g_abs g)).
  - pose proof (agree_append _ _ (g_eid g) false [] R) as A. destruct (append_exec m (g_eid g) false []) as [[u|ex] m3].
    + destruct A as (u' & m3' & A & R3). rewrite A. simpl. auto.
    + destruct A as (m3' & A & R3). rewrite A. simpl. auto.
  - pose proof (agree_incr PASS _ _ (g_eid g) R) as A. destruct (incr_clock PASS m (g_eid g)) as [m1|ex].
    + destruct A as (m1' & A & R1). rewrite A. simpl. auto.
    + rewrite A. simpl. auto.
Qed.
Definition agree_out (a b : core * gen * outcome) : Prop :=
  match a, b with (m, g, o), (m', g', o') => agree m m' /\ gens g g' /\ o' = o end.
Lemma agree_finish : forall m m' g g', agree m m' -> gens g g' -> agree_out (finish m g) (finish m' g').
Proof.
  intros m m' g g' R T. unfold finish. rewrite (gs_eid _ _ T), (gs_skip _ _ T).
  assert (A : match (if g_skip g then Ok m else incr_clock ESU m (g_eid g)) with
    | Ok m1 => exists m1', (if g_skip g then Ok m' else incr_clock ESU m' (g_eid g)) = Ok m1' /\ agree m1 m1'
    | Err ex => (if g_skip g then Ok m' else incr_clock ESU m' (g_eid g)) = Err ex end).
  { destruct (g_skip g); [eauto|]. apply agree_incr; auto. }
  destruct (if g_skip g then Ok m else incr_clock ESU m (g_eid g)) as [m1|ex].
  - destruct A as (m1' & A & R1). rewrite A. destruct (check_tc m1 (g_eid g) (g_tc g) ES) as [r m2] eqn:C.
    destruct (agree_tc _ _ _ _ _ _ _ _ R1 (gs_uses _ _ T) (gs_tc _ _ T) C) as (m2' & C' & R2). rewrite C'. destruct r as [b|ex]; [|simpl; auto].
    rewrite (ag_ctxs _ _ R2). destruct (x_list (m_ctxs m2 (g_eid g))); simpl; auto.
  - rewrite A. simpl. auto.
Qed.
Lemma agree_reset_total : forall s m m' e, agree m m' -> agree (reset_counts_total s m e) (reset_counts_total s m' e).
Proof. intros s m m' e R. unfold reset_counts_total. rewrite (ag_ctxs _ _ R). apply agree_ctx; auto. Qed.
Lemma agree_reset_useable : forall m m' e, agree m m' -> agree (reset_counts_useable m e) (reset_counts_useable m' e).
Proof. intros m m' e R. unfold reset_counts_useable. rewrite (ag_ctxs _ _ R). apply agree_ctx; auto. Qed.
Lemma agree_continue : forall (k k' : core -> core * gen * outcome) m m' g g' rest i ch, agree m m' -> gens g g' ->
  (forall a b, agree a b -> agree_out (k a) (k' b)) ->
  agree_out (match inner m g rest i ch with
           | IYield m3 s i ch => (m3, at_pc g (PLevel i ch), OYield s)
           | IErr m3 ex => (m3, at_pc g PDone, ORaise ex)
           | IFuel m3 => (m3, g, OFuel)
           | IEnd m3 ch => match pass_tail m3 g ch with
                           | TYield m4 => (m4, at_pc g PIdle, OYield [])
                           | TErr m4 ex => (m4, at_pc g PDone, ORaise ex)
                           | TNext m4 => k m4
                           end
           end)
          (match inner m' g' rest i ch with
           | IYield m3 s i ch => (m3, at_pc g' (PLevel i ch), OYield s)
           | IErr m3 ex => (m3, at_pc g' PDone, ORaise ex)
           | IFuel m3 => (m3, g', OFuel)
           | IEnd m3 ch => match pass_tail m3 g' ch with
                           | TYield m4 => (m4, at_pc g' PIdle, OYield [])
                           | TErr m4 ex => (m4, at_pc g' PDone, ORaise ex)
                           | TNext m4 => k' m4
                           end
           end).
Proof.
  intros k k' m m' g g' rest i ch R T K. pose proof (agree_inner rest _ _ _ _ i ch R T) as A.
  destruct (inner m g rest i ch) as [m3 s3 i3 c3|m3 c3|m3 x3|m3], (inner m' g' rest i ch) as [m4 s4 i4 c4|m4 c4|m4 x4|m4]; simpl in A; try tauto.
  - destruct A as (-> & -> & -> & A). simpl. auto.
  - destruct A as (-> & A). pose proof (agree_tail _ _ _ _ c3 A T) as B.
    destruct (pass_tail m3 g c3) as [m5|m5|m5 x5], (pass_tail m4 g' c3) as [m6|m6|m6 x6]; simpl in B; try tauto.
    + simpl. auto.
    + apply K; auto.
    + destruct B as (-> & B). simpl. auto.
  - destruct A as (-> & A). simpl. auto.
  - simpl. auto.
Qed.
Lemma agree_outer : forall fuel m m' g g', agree m m' -> gens g g' -> agree_out (outer fuel m g) (outer fuel m' g').
Proof.
  induction fuel as [|f IH]; intros m m' g g' R T; [simpl; auto|]. cbn [outer]. rewrite (gs_eid _ _ T).
  destruct (terminated m (g_eid g) (g_tc g)) as [r m1] eqn:E. destruct (agree_terminated _ _ _ _ _ _ _ R (gs_uses _ _ T) (gs_tc _ _ T) E) as (m1' & E' & R1). rewrite E'.
  destruct r as [[|]|ex]; [apply agree_finish; auto| |simpl; auto].
  pose proof (agree_reset_total PASS _ _ (g_eid g) R1) as R2. cbv zeta. rewrite (agree_queue _ _ R2).
  apply (agree_continue (fun m => outer f m g) (fun m => outer f m g')); auto.
Qed.

(** ** the start of a run *)
Lemma In_aset : forall A (k : nat) (v : A) m p, In p (aset k v m) -> p = (k, v) \/ In p m.
Proof.
  intros A k v. induction m as [|[k' v'] m IH]; simpl; intros p H; [destruct H as [H|[]]; auto|].
  match type of H with context [if ?b then _ else _] => destruct b end; destruct H as [H|H]; auto. destruct (IH _ H); auto.
Qed.
Lemma agree_defaults : forall ns m m', agree m m' ->
  match add_defaults ns m with Ok m1 => exists m1', add_defaults ns m' = Ok m1' /\ agree m1 m1' | Err ex => add_defaults ns m' = Err ex end.
Proof.
  induction ns as [|n ns IH]; intros m m' R; simpl; [eauto|]. unfold ahas in *.
  rewrite (ag_basic _ _ R), (ag_graph _ _ R), (ag_next _ _ R).
  destruct (aget n (m_basic m)) eqn:EB; simpl; [apply IH; auto|]. destruct (aget n (m_graph m)) as [deps|]; auto.
  pose proof (default_not_absolute (m_next m) deps) as D. pose proof (default_cond_oids (m_next m) deps) as DO.
  pose proof (set_owner_default n deps (m_next m) (m_owners m) (ag_fresh _ _ R)) as (L & A & B).
  pose proof (set_owner_default n deps (m_next m) (m_owners m')) as X.
  assert (FR : forall o, m_next m <= o -> m_owners m' o = None) by (intros o H; apply (ag_fresh' _ _ R); rewrite (ag_next _ _ R); auto).
  destruct (X FR) as (_ & A' & B'). clear X.
  destruct (default_cond (m_next m) deps) as [c nx]. cbn [fst snd] in *.
  apply IH. destruct R. constructor; simpl; auto.
  - intros n'. rewrite !aget_aset. destruct (Nat.eqb n' n); auto.
  - intros o PO. destruct (Nat.le_gt_cases (m_next m) o) as [H1|H1]; [destruct (Nat.lt_ge_cases o nx) as [H2|H2]|].
    + rewrite A, A' by auto. auto.
    + rewrite B, B' by auto. auto.
    + rewrite B, B' by auto. auto.
  - intros n' c' o. rewrite aget_aset. destruct (Nat.eqb n' n); [|apply ag_in0]. intros X O. inversion X; subst. apply ag_high0. apply DO in O. lia.
  - intros o H. simpl in *. rewrite B by auto. apply ag_fresh0. lia.
  - intros o H. simpl in *. rewrite B' by auto. apply ag_fresh'0. rewrite ag_next0. lia.
  - intros o H. apply ag_high0. lia.
  - intros p H. apply In_aset in H. destruct H as [->|H]; auto.
  - intros p H. apply In_aset in H. destruct H as [->|H]; auto.
Qed.
Lemma no_absolute : forall m tc, (forall p, In p (m_basic m) -> is_absolute (snd p) = false) -> absolute_conditions m tc = filter is_absolute (tc_list tc).
Proof.
  intros m tc H. unfold absolute_conditions. rewrite filter_app. replace (filter is_absolute (map snd (m_basic m))) with (@nil cond); auto.
  induction (m_basic m) as [|p l IH]; simpl in *; auto. rewrite H by auto. apply IH; auto.
Qed.
Lemma tc_list_same : forall tc tc', tc_same tc tc' -> tc_list tc' = tc_list tc.
Proof. intros tc tc' H. unfold tc_list. rewrite (flat_map_ext _ (fun s => opt_list (tc s))); auto. intros s. rewrite H. auto. Qed.
Lemma agree_absolute : forall m m' tc tc', agree m m' -> tc_same tc tc' ->
  absolute_conditions m' tc' = absolute_conditions m tc /\ unit_of m' tc' = unit_of m tc.
Proof.
  intros m m' tc tc' R TS. pose proof (agree_queue _ _ R) as Q. destruct R.
  assert (A : absolute_conditions m' tc' = absolute_conditions m tc) by (rewrite !no_absolute by auto; rewrite (tc_list_same _ _ TS); auto).
  split; auto. unfold unit_of. rewrite A, Q, ag_exact0, ag_unit0. auto.
Qed.
Lemma agree_setup : forall m m' e tc tc', agree m m' -> tc_same tc tc' ->
  match setup_absolute m e tc with Ok m1 => exists m1', setup_absolute m' e tc' = Ok m1' /\ agree m1 m1' | Err ex => setup_absolute m' e tc' = Err ex end.
Proof.
  intros m m' e tc tc' R TS. destruct (agree_absolute _ _ _ _ R TS) as [A U]. unfold setup_absolute. rewrite A, U, (ag_ctxs _ _ R).
  destruct (absolute_conditions m tc); [eexists; split; [reflexivity|apply agree_set_clock; auto]|].
  destruct (unit_of m tc); auto. eexists; split; [reflexivity|apply agree_set_clock; auto].
Qed.
Lemma agree_init : forall m m' e b, agree m m' ->
  match init_counts_base m e b with (r, m1) => exists m1', init_counts_base m' e b = (r, m1') /\ agree m1 m1' end.
Proof.
  intros m m' e b R. unfold init_counts_base. rewrite !(ag_ctxs _ _ R).
  destruct (copy_entry (x_total (m_ctxs m e)) (x_total (m_ctxs m b))) as [t|ex]; [|eauto].
  destruct (copy_entry (x_use (m_ctxs m e)) (x_use (m_ctxs m b))) as [u|ex]; [|eexists; split; [reflexivity|apply agree_ctx; auto]].
  destruct (copy_entry (x_list (m_ctxs m e)) (x_list (m_ctxs m b))) as [l|ex]; [|eexists; split; [reflexivity|apply agree_ctx; auto]].
  destruct (copy_entry (x_clock (m_ctxs m e)) (x_clock (m_ctxs m b))) as [k|ex]; eexists; (split; [reflexivity|apply agree_ctx; auto]).
Qed.
Lemma agree_start : forall m m' g g', agree m m' -> gens g g' -> tc_uses (m_tconds m) ->
  match start m g, start m' g' with
  | (Ok g1, m1), (Ok g1', m1') => agree m1 m1' /\ gens g1 g1'
  | (Err ex, m1), (Err ex', m1') => agree m1 m1' /\ ex' = ex
  | _, _ => False
  end.
Proof.
  intros m m' g g' R T MT. unfold start, validate_run_state. rewrite (ag_graph _ _ R), (ag_nodes _ _ R).
  destruct (toposort (m_graph m)); auto.
  pose proof (agree_defaults (m_nodes m) _ _ R) as D. destruct (add_defaults (m_nodes m) m) as [m1|ex] eqn:ED; [|rewrite D; auto].
  destruct D as (m1' & D & R1). rewrite D.
  destruct (add_defaults_rest _ _ _ ED) as (_ & _ & MT1 & _). cbv zeta. rewrite (gs_eid _ _ T), (gs_base _ _ T), (gs_tcarg _ _ T), (gs_skip _ _ T), (ag_ctxs _ _ R1).
  set (tc := match g_tcarg g with None => m_tconds m1 | Some a => combine_tconds (m_tconds m1) a end).
  set (tc' := match g_tcarg g with None => m_tconds m1' | Some a => combine_tconds (m_tconds m1') a end).
  assert (TS : tc_same tc tc').
  { unfold tc, tc'. destruct (g_tcarg g) as [a|]; [|exact (ag_tconds _ _ R1)]. intros s. unfold combine_tconds. rewrite (ag_tconds _ _ R1). auto. }
  assert (IT : tc_uses tc).
  { unfold tc. rewrite MT1. destruct (g_tcarg g) as [a|] eqn:GA; auto. intros s c. unfold combine_tconds. destruct (a s) eqn:AS; [|apply MT].
    intros X; inversion X; subst. eapply (gs_arg _ _ T a); eauto. }
  pose proof (agree_set_clock _ _ (g_eid g) (the_clock (m_ctxs m1 (g_eid g))) R1) as R2.
  pose proof (agree_setup _ _ (g_eid g) _ _ R2 TS) as SU.
  rewrite (proj1 (agree_absolute _ _ _ _ R2 TS)).
  destruct (setup_absolute (set_clock m1 (g_eid g) (the_clock (m_ctxs m1 (g_eid g)))) (g_eid g) tc) as [m3|ex]; [|rewrite SU; auto].
  destruct SU as (m3' & SU & R3). rewrite SU. pose proof (agree_init _ _ (g_eid g) (g_base g) R3) as IN.
  destruct (init_counts_base m3 (g_eid g) (g_base g)) as [r m4]. destruct IN as (m4' & IN & R4). rewrite IN.
  destruct r as [u|ex]; auto. split; [apply agree_reset_total, agree_reset_useable; auto|].
  constructor; simpl; auto. apply (gs_arg _ _ T).
Qed.
Theorem agree_resume : forall fuel m m' g g', agree m m' -> gens g g' -> tc_uses (m_tconds m) ->
  agree_out (resume fuel m g) (resume fuel m' g').
Proof.
  intros fuel m m' g g' R T MT. unfold resume. rewrite (gs_pc _ _ T), (gs_eid _ _ T). destruct (g_pc g) as [|i ch| |].
  - pose proof (agree_start _ _ _ _ R T MT) as S. destruct (start m g) as [[g1|ex] m1], (start m' g') as [[g1'|ex'] m1']; try tauto.
    + apply agree_outer; tauto.
    + destruct S as [S ->]. simpl. auto.
  - pose proof (agree_incr CSE _ _ (g_eid g) R) as A. destruct (incr_clock CSE m (g_eid g)) as [m1|ex]; [|rewrite A; simpl; auto].
    destruct A as (m1' & A & R1). rewrite A. rewrite (agree_queue _ _ R1). apply (agree_continue (fun m => outer fuel m g) (fun m => outer fuel m g')); auto.
    intros a b X. apply agree_outer; auto.
  - pose proof (agree_incr CSE _ _ (g_eid g) R) as A. destruct (incr_clock CSE m (g_eid g)) as [m1|ex]; [|rewrite A; simpl; auto].
    destruct A as (m1' & A & R1). rewrite A. pose proof (agree_incr PASS _ _ (g_eid g) R1) as B. destruct (incr_clock PASS m1 (g_eid g)) as [m2|ex]; [|rewrite B; simpl; auto].
    destruct B as (m2' & B & R2). rewrite B. apply agree_outer; auto.
  - simpl. auto.
Qed.
Theorem agree_drive : forall steps fuel m m' g g' acc, agree m m' -> gens g g' -> tc_uses (m_tconds m) ->
  match drive steps fuel m g acc, drive steps fuel m' g' acc with
  | (m1, g1, ys1, o1), (m2, g2, ys2, o2) => agree m1 m2 /\ gens g1 g2 /\ ys2 = ys1 /\ o2 = o1
  end.
Proof.
  induction steps as [|k IH]; intros fuel m m' g g' acc R T MT; simpl; auto.
  pose proof (agree_resume fuel _ _ _ _ R T MT) as X. destruct (resume fuel m g) as [[m1 g1] o1] eqn:E.
  destruct (resume fuel m' g') as [[m2 g2] o2]. destruct X as (R1 & T1 & ->).
  assert (MT1 : tc_uses (m_tconds m1)). { rewrite (gw_tconds _ _ _ (grown_resume _ _ _ _ _ _ E)). auto. }
  destruct o1; auto. apply IH; auto.
Qed.
End Agree.
