(** Property theorems C79: what a part of a graph does in a pass does not depend on the rest.

    A part is given by a function p : node -> bool.  [tells p ow F c] (SpecPart.v) says that c is
    one of the library's conditions that look only at passes (and coarser units of time) and at
    the calls of nodes of the part, and that it is true iff F says so.  [running_beside (part_fit p
    F g0) m0 g0 ts m g] says: the generator g0, created in state m0, has yielded the sets ts (with
    the pass numbers shown by the clock), and whenever user code had control, it left to each node
    n of the part a condition that tells F n, or no condition (the default one is then used).
    Nothing is asked of the other nodes: their conditions may be any, user code included. *)
From Verif Require Import PartFacts RunExamples PropertiesRate.

(** Two schedulers, two runs: if the part has the same consideration sets, the conditions of its
    nodes tell the same, and the counts and clocks agree at the start, then in each pass that is
    over in both runs the nodes of the part have been executed in the same sets; *)
Theorem C79_part : forall p F m0 g0 ts m g n0 h0 us n h t t' H H',
  running_beside (part_fit p F g0) m0 g0 ts m g -> running_beside (part_fit p F h0) n0 h0 us n h -> g_pc g0 = PStart -> g_pc h0 = PStart ->
  part_sets p (queue m0) = part_sets p (queue n0) ->
  x_total (m_ctxs m0 (g_eid g0)) = Some t -> x_total (m_ctxs n0 (g_eid h0)) = Some t' -> (forall s x, p x = true -> ts_lt ESU s -> t s x = t' s x) ->
  clock_after ESU H (the_clock (m_ctxs m0 (g_eid g0))) -> clock_after ESU H' (the_clock (m_ctxs n0 (g_eid h0))) -> coarse H = coarse H' ->
  pass_number m0 (g_eid g0) = pass_number n0 (g_eid h0) /\
  forall k, k < pass_number m (g_eid g0) -> k < pass_number n (g_eid h0) -> part_sets p (in_pass k ts) = part_sets p (in_pass k us).
Proof. exact parts_fit. Qed.
Print Assumptions C79_part.
(** the same for any conditions of the part, user functions included, of which it is known that
    they come out as F says whenever they come out at all; *)
Theorem C79_ruled : forall p F m0 g0 ts m g n0 h0 us n h t t' H H', (forall x, p x = true -> about p (F x)) ->
  running_while_in_passes (part_ruled p F g0) m0 g0 ts m g -> running_while_in_passes (part_ruled p F h0) n0 h0 us n h -> g_pc g0 = PStart -> g_pc h0 = PStart ->
  part_sets p (queue m0) = part_sets p (queue n0) ->
  x_total (m_ctxs m0 (g_eid g0)) = Some t -> x_total (m_ctxs n0 (g_eid h0)) = Some t' -> (forall s x, p x = true -> ts_lt ESU s -> t s x = t' s x) ->
  clock_after ESU H (the_clock (m_ctxs m0 (g_eid g0))) -> clock_after ESU H' (the_clock (m_ctxs n0 (g_eid h0))) -> coarse H = coarse H' ->
  pass_number m0 (g_eid g0) = pass_number n0 (g_eid h0) /\
  forall k, k < pass_number m (g_eid g0) -> k < pass_number n (g_eid h0) -> part_sets p (in_pass k ts) = part_sets p (in_pass k us).
Proof. exact parts_agree. Qed.
Print Assumptions C79_ruled.
(** that is so of the conditions that [tells] lists; *)
Theorem C79_conditions : forall p ow f c, tells p ow f c -> about p f /\ told_by ow f c.
Proof. intros p ow f c H. split; [eapply tells_about; eauto|eapply tells_told; eauto]. Qed.
Print Assumptions C79_conditions.
(** and a part that contains the senders of its nodes has the same consideration sets in every
    graph in which its nodes have these senders, up to the order within each set. *)
Theorem C79_sets : forall p m m', queue_built m -> queue_built m' -> part_closed p (m_graph m) (m_graph m') ->
  Forall2 (@Permutation node) (part_sets p (m_levels m)) (part_sets p (m_levels m')).
Proof. exact part_levels. Qed.
Print Assumptions C79_sets.

(** an example of such runs: a -> b alone, and with c after b and the unrelated d -> e beside it *)
Lemma run_n_beside : forall (P : core -> Prop) m0 g0 fuel n m g acc, g_pc g0 = PStart -> running_beside P m0 g0 acc m g -> running_in_passes m0 g0 acc m g -> g_eid g = g_eid g0 ->
  running_beside P m0 g0 (fst (fst (run_n n fuel m g acc))) (snd (fst (run_n n fuel m g acc))) (snd (run_n n fuel m g acc)).
Proof.
  induction n as [|n IH]; intros m g acc Hp R Rp Ee; simpl; auto.
  destruct (resume fuel m g) as [[m1 g1] [s| | | |]] eqn:E; auto.
  rewrite Ee. apply IH; auto.
  - eapply rb_yields; eauto.
  - eapply rp_yields; eauto.
  - apply (yield_theorem _ _ _ _ _ _ _ _ _ Rp Hp E).
Qed.
Lemma ex_running_beside : forall (P : core -> Prop) n m0 g0 ts, g_pc g0 = PStart -> fst (fst (run_n n 5 m0 g0 [])) = ts ->
  P m0 -> running_beside P m0 g0 ts (ex_state n m0 g0) (ex_at n m0 g0).
Proof. intros P n m0 g0 ts Hp <- H. apply run_n_beside; auto; constructor; auto. Qed.
Definition ex_part (n : node) : bool := Nat.eqb n tA || Nat.eqb n tB.
Definition ex_part_rule (n : node) : ruling :=
  if Nat.eqb n tA then fun _ _ h => Nat.leb 1 (units_now PASS ESU h) else fun _ u _ => Nat.leb 2 (u tA tB).
Definition ex_part_core : core := core_of (t_sched gAB [(tA, AfterNPasses 10 1 ESU); (tB, EveryNCalls 11 tA 2)]).
Definition gABCDE : graph := [(tD, []); (tA, []); (tB, [tA]); (tE, [tD]); (tC, [tB])].
Definition ex_whole_core : core := core_of (t_sched gABCDE [(tA, AfterNPasses 20 1 ESU); (tB, EveryNCalls 21 tA 2);
  (tD, Always 22); (tE, AtConsiderationSetExecution 23 1 ESU); (tC, Never 24)]).
Definition ex_part_gen : gen := new_gen 0 0 (Some (t_tc None (Some (AfterNPasses 91 6 ESU)))) false.
Definition ex_part_yields : list (nat * list node) := [(0, []); (1, [tA]); (2, [tA]); (2, [tB]); (3, [tA]); (4, [tA]); (4, [tB])].
Definition ex_whole_yields : list (nat * list node) := [(0, [tD]); (0, [tE]); (1, [tA; tD]); (2, [tA; tD]); (2, [tB]); (3, [tA; tD]); (4, [tA; tD]); (4, [tB])].
Example ex_C79 : running_beside (part_fit ex_part ex_part_rule ex_part_gen) ex_part_core ex_part_gen ex_part_yields (ex_state 7 ex_part_core ex_part_gen) (ex_at 7 ex_part_core ex_part_gen) /\
  running_beside (part_fit ex_part ex_part_rule ex_part_gen) ex_whole_core ex_part_gen ex_whole_yields (ex_state 8 ex_whole_core ex_part_gen) (ex_at 8 ex_whole_core ex_part_gen) /\
  part_sets ex_part (queue ex_part_core) = part_sets ex_part (queue ex_whole_core) /\
  clock_after ESU [] (the_clock (m_ctxs ex_part_core 0)) /\ clock_after ESU [] (the_clock (m_ctxs ex_whole_core 0)) /\
  pass_number (ex_state 7 ex_part_core ex_part_gen) 0 = 4 /\ pass_number (ex_state 8 ex_whole_core ex_part_gen) 0 = 4 /\
  part_sets ex_part (in_pass 2 ex_whole_yields) = [[tA]; [tB]] /\ part_closed ex_part gAB gABCDE.
Proof.
  assert (T : forall m, m_tconds m = m_tconds ex_part_core -> forall s t, run_tc m ex_part_gen s = Some t -> carries_over t).
  { intros m Em s t E. unfold run_tc, ex_part_gen, new_gen, g_tcarg in E. rewrite Em in E. destruct s; vm_compute in E; try discriminate; injection E as <-; apply over_carries;
      first [apply over_counts; exact I|apply over_time; auto; unfold ts_lt, ts_le; simpl; lia]. }
  assert (R : forall m o o', fresh_ids m -> aget tA (m_basic m) = Some (AfterNPasses o 1 ESU) -> aget tB (m_basic m) = Some (EveryNCalls o' tA 2) ->
    m_owners m o' = Some tB -> o < m_next m -> o' < m_next m -> part_ready ex_part ex_part_rule m).
  { intros m o o' Fr EA EB Ow Lo Lo'. split; [exact Fr|]. intros x Px. unfold ex_part in Px. apply orb_true_iff in Px. rewrite !Nat.eqb_eq in Px. destruct Px as [Px|Px]; subst x.
    - rewrite EA. split; [|intros x [<-|[]]; auto]. eapply te_same; [apply (te_time ex_part (m_owners m) o Ge PASS 1 ESU); unfold ts_le, ts_lt; simpl; lia|]. reflexivity.
    - rewrite EB. split; [|intros x [<-|[]]; auto].
      eapply te_same; [apply (te_every ex_part (m_owners m) o' tA 2 tB); auto|]. reflexivity. }
  assert (O : forall ow : oid -> option node, (forall o, ow (25 + o) = None) -> forall o, 100 <= o -> ow o = None).
  { intros ow H o L. replace o with (25 + (o - 25)) by lia. apply H. }
  splits.
  - apply ex_running_beside; [reflexivity|vm_compute; reflexivity|]. split; [|apply T; reflexivity].
    apply (R _ 10 11); [exact (O _ (fun o => eq_refl))|reflexivity|reflexivity|reflexivity|vm_compute; lia|vm_compute; lia].
  - apply ex_running_beside; [reflexivity|vm_compute; reflexivity|]. split; [|apply T; reflexivity].
    apply (R _ 20 21); [exact (O _ (fun o => eq_refl))|reflexivity|reflexivity|reflexivity|vm_compute; lia|vm_compute; lia].
  - apply ca_new. reflexivity.
  - apply ca_new. reflexivity.
  - intros x Px. unfold ex_part in Px. apply orb_true_iff in Px. rewrite !Nat.eqb_eq in Px. destruct Px as [Px|Px]; subst x; do 2 eexists; (split; [reflexivity|]); (split; [reflexivity|]);
      intros d; simpl; (split; [tauto|]); intros X; [destruct X|destruct X as [<-|[]]; reflexivity].
Qed.

(** finding: conditions that look at the last executed set (JustRan) or count executions of
    consideration sets see the rest of the graph: here the part is a -> b -> c, where b never runs,
    and the unrelated d -> e puts a set between those of a and c *)
Definition ex_beside (n : node) : bool := Nat.leb n tC.
Definition ex_three (c : cond) : core := core_of (t_sched gABC [(tB, Never 10); (tC, c)]).
Definition ex_five (c : cond) : core := core_of (t_sched [(tA, []); (tB, [tA]); (tC, [tB]); (tD, []); (tE, [tD])] [(tB, Never 10); (tC, c)]).
Definition differ_beside (c : cond) : Prop :=
  let m0 := ex_three c in let n0 := ex_five c in exists ts m g us n h,
  running_while_in_passes (fun m => forall s t, run_tc m ex_part_gen s = Some t -> carries_over t) m0 ex_part_gen ts m g /\
  running_while_in_passes (fun m => forall s t, run_tc m ex_part_gen s = Some t -> carries_over t) n0 ex_part_gen us n h /\
  (forall x, ex_beside x = true -> aget x (m_basic m0) = aget x (m_basic n0)) /\ part_sets ex_beside (queue m0) = part_sets ex_beside (queue n0) /\
  m_ctxs m0 0 = m_ctxs n0 0 /\ pass_number m 0 = 1 /\ pass_number n 0 = 1 /\
  part_sets ex_beside (in_pass 0 ts) = [[tA]; [tC]] /\ part_sets ex_beside (in_pass 0 us) = [[tA]].
Theorem C79_beside_refuted : differ_beside (JustRan 11 tA) /\ differ_beside (AtConsiderationSetExecution 11 1 ESU).
Proof.
  assert (T : forall m, m_tconds m = m_tconds ex_part_core -> forall s t, run_tc m ex_part_gen s = Some t -> carries_over t).
  { intros m Em s t E. unfold run_tc, ex_part_gen, new_gen, g_tcarg in E. rewrite Em in E. destruct s; vm_compute in E; try discriminate; injection E as <-; apply over_carries;
      first [apply over_counts; exact I|apply over_time; auto; unfold ts_lt, ts_le; simpl; lia]. }
  assert (X : forall c, c = JustRan 11 tA \/ c = AtConsiderationSetExecution 11 1 ESU -> differ_beside c).
  { intros c Hc. unfold differ_beside. exists [(0, [tA]); (0, [tC]); (1, [tA])], (ex_state 3 (ex_three c) ex_part_gen), (ex_at 3 (ex_three c) ex_part_gen),
      [(0, [tA; tD]); (0, [tE]); (1, [tA; tD])], (ex_state 3 (ex_five c) ex_part_gen), (ex_at 3 (ex_five c) ex_part_gen).
    assert (Y : forall k, k <= 3 -> m_tconds (ex_state k (ex_three c) ex_part_gen) = m_tconds ex_part_core /\ m_tconds (ex_state k (ex_five c) ex_part_gen) = m_tconds ex_part_core).
    { intros k L. assert (K : k = 0 \/ k = 1 \/ k = 2 \/ k = 3) by lia. destruct Hc as [->| ->]; repeat (destruct K as [->|K]; [split; vm_compute; reflexivity|]); subst k; split; vm_compute; reflexivity. }
    repeat match goal with |- _ /\ _ => split end.
    - apply ex_running_while; [reflexivity|destruct Hc as [->| ->]; vm_compute; reflexivity|]. intros k L. apply T. apply Y; auto.
    - apply ex_running_while; [reflexivity|destruct Hc as [->| ->]; vm_compute; reflexivity|]. intros k L. apply T. apply Y; auto.
    - intros x Px. apply Nat.leb_le in Px. unfold tC in Px. assert (K : x = 0 \/ x = 1 \/ x = 2) by lia. destruct Hc as [->| ->]; destruct K as [->|[->| ->]]; vm_compute; reflexivity.
    - destruct Hc as [->| ->]; vm_compute; reflexivity.
    - destruct Hc as [->| ->]; reflexivity.
    - destruct Hc as [->| ->]; vm_compute; reflexivity.
    - destruct Hc as [->| ->]; vm_compute; reflexivity.
    - reflexivity.
    - reflexivity. }
  split; apply X; auto.
Qed.
Print Assumptions C79_beside_refuted.
