(** Concrete runs, to show that the hypotheses of the theorems about runs are met. *)
From Verif Require Export StopFacts Sched Tests.

(** n resumptions of a generator, recording the pass number and the set of each yield *)
Fixpoint run_n (n fuel : nat) (m : core) (g : gen) (acc : list (nat * list node)) : list (nat * list node) * core * gen :=
  match n with
  | O => (acc, m, g)
  | S k => match resume fuel m g with
           | (m', g', OYield s) => run_n k fuel m' g' (acc ++ [(pass_number m' (g_eid g), s)])
           | _ => (acc, m, g)
           end
  end.
Lemma run_n_passes : forall m0 g0 fuel n m g acc, g_pc g0 = PStart -> running_in_passes m0 g0 acc m g -> g_eid g = g_eid g0 ->
  running_in_passes m0 g0 (fst (fst (run_n n fuel m g acc))) (snd (fst (run_n n fuel m g acc))) (snd (run_n n fuel m g acc)).
Proof.
  induction n as [|n IH]; intros m g acc Hp R Ee; simpl; auto.
  destruct (resume fuel m g) as [[m1 g1] [s| | | |]] eqn:E; auto.
  rewrite Ee. apply IH; auto.
  - eapply rp_yields; eauto.
  - apply (yield_theorem _ _ _ _ _ _ _ _ _ R Hp E).
Qed.
(** after n resumptions *)
Definition ex_state (n : nat) (m0 : core) (g0 : gen) : core := snd (fst (run_n n 5 m0 g0 [])).
Definition ex_at (n : nat) (m0 : core) (g0 : gen) : gen := snd (run_n n 5 m0 g0 []).
Lemma ex_running : forall n m0 g0 ts, g_pc g0 = PStart -> fst (fst (run_n n 5 m0 g0 [])) = ts ->
  running_in_passes m0 g0 ts (ex_state n m0 g0) (ex_at n m0 g0).
Proof. intros n m0 g0 ts Hp <-. apply run_n_passes; auto. apply rp_created. Qed.

(** A -> B -> C, A in every pass, B every 2 calls of A, C every 2 calls of B, until C has run *)
Definition ex_core : core :=
  core_of (t_sched gABC [(tA, EveryNPasses 10 1 ESU); (tB, EveryNCalls 11 tA 2); (tC, EveryNCalls 12 tB 2)]).
Definition ex_gen : gen := new_gen 0 0 (Some (t_tc None (Some (AfterNCalls 91 tC 1 ESU)))) false.
Definition ex_yields : list (nat * list node) := [(0, [tA]); (1, [tA]); (1, [tB]); (2, [tA]); (3, [tA]); (3, [tB]); (3, [tC])].
Example ex_prefix : running_in_passes ex_core ex_gen ex_yields (ex_state 7 ex_core ex_gen) (ex_at 7 ex_core ex_gen).
Proof. apply ex_running; vm_compute; reflexivity. Qed.
Example ex_built : queue_built ex_core /\ m_exact ex_core = false.
Proof.
  split; [|reflexivity]. split.
  - vm_compute. repeat constructor; simpl; intuition; try discriminate.
  - eexists. split; [vm_compute; reflexivity|]. vm_compute. repeat constructor.
Qed.
Example ex_ctx : m_ctxs ex_core 0 = fresh_ctx.
Proof. reflexivity. Qed.
Example ex_returns : exists m g l, resume 5 (ex_state 7 ex_core ex_gen) (ex_at 7 ex_core ex_gen) = (m, g, OReturn l) /\ l = map snd ex_yields.
Proof.
  destruct (resume 5 (ex_state 7 ex_core ex_gen) (ex_at 7 ex_core ex_gen)) as [[m g] o] eqn:E.
  assert (X : snd (resume 5 (ex_state 7 ex_core ex_gen) (ex_at 7 ex_core ex_gen)) = OReturn (map snd ex_yields)) by (vm_compute; reflexivity).
  rewrite E in X. simpl in X; subst. eauto.
Qed.

(** an idle first pass: A only from pass 1 on *)
Definition ex_idle_core : core := core_of (t_sched gAB [(tA, AfterNPasses 10 1 ESU); (tB, AfterNCalls 11 tA 2 ESU)]).
Definition ex_idle_gen : gen := new_gen 0 0 (Some (t_tc None (Some (AfterNCalls 91 tA 2 ESU)))) false.
Example ex_idle : running_in_passes ex_idle_core ex_idle_gen [(0, []); (1, [tA]); (2, [tA])]
    (ex_state 3 ex_idle_core ex_idle_gen) (ex_at 3 ex_idle_core ex_idle_gen) /\
  g_abs (ex_at 3 ex_idle_core ex_idle_gen) = false.
Proof. split; [apply ex_running|]; vm_compute; reflexivity. Qed.

(** absolute time: A every 2 ms, B every 3 ms, until 6 ms *)
Definition ex_abs_core : core :=
  core_of (t_sched gA_B [(tA, CAtom 10 (ATimeInterval (Some (ms 2)) None None true true));
                         (tB, CAtom 11 (ATimeInterval (Some (ms 3)) None None true true))]).
Definition ex_abs_gen : gen := new_gen 0 0 (Some (t_tc None (Some (TimeTermination 91 (ms 6) true)))) false.
Example ex_abs : running_in_passes ex_abs_core ex_abs_gen [(0, [tA; tB]); (1, []); (2, [tA]); (3, [tB]); (4, [tA]); (5, [])]
    (ex_state 6 ex_abs_core ex_abs_gen) (ex_at 6 ex_abs_core ex_abs_gen) /\
  g_abs (ex_at 6 ex_abs_core ex_abs_gen) = true.
Proof. split; [apply ex_running|]; vm_compute; reflexivity. Qed.

(** ** Counterexamples *)
(** an empty graph in absolute time mode: no resumption ever ends *)
Definition ex_empty_core : core := core_of (t_sched [] []).
Definition ex_empty_gen : gen := new_gen 0 0 (Some (t_tc None (Some (TimeTermination 91 (ms 5) false)))) false.
Lemma outer_empty : forall f m g h, queue m = [] -> g_abs g = true -> g_tc g ES = Some (Never 0) ->
  g_tc g ESU = Some (TimeTermination 91 (ms 5) false) ->
  clock_after ESU h (the_clock (m_ctxs m (g_eid g))) -> (t_abs (k_time (the_clock (m_ctxs m (g_eid g)))) == 0)%Q ->
  snd (outer f m g) = OFuel.
Proof.
  induction f as [|f IH]; intros m g h Q A T1 T2 K Z; auto. cbn [outer].
  assert (V : t_abs (k_time (v_clock (view_of m (g_eid g)))) = t_abs (k_time (the_clock (m_ctxs m (g_eid g))))) by reflexivity.
  assert (L : Qltb (q_val (ms 5)) (t_abs (k_time (the_clock (m_ctxs m (g_eid g))))) = false).
  { unfold Qltb. assert (E : Qle_bool (t_abs (k_time (the_clock (m_ctxs m (g_eid g))))) (q_val (ms 5)) = true).
    { apply Qle_bool_iff. rewrite Z. vm_compute. discriminate. }
    rewrite E. auto. }
  unfold terminated, check_tc. rewrite T1, T2. unfold satisfied, TimeTermination. cbn [eval eval_atom]. rewrite V, L.
  cbn [fst snd s_world s_sats]. unfold Never. cbn [eval eval_atom].
  set (m1 := set_cst (set_cst m _) _). set (m2 := reset_counts_total PASS m1 (g_eid g)).
  assert (Q2 : queue m2 = queue m) by reflexivity. rewrite Q2, Q. cbn [inner]. unfold pass_tail. rewrite A. cbn [negb andb].
  assert (C2 : the_clock (m_ctxs m2 (g_eid g)) = the_clock (m_ctxs m (g_eid g))).
  { unfold m2, reset_counts_total. rewrite set_ctx_at. reflexivity. }
  unfold incr_clock. rewrite C2.
  destruct (clock_incr_succeeds _ _ _ PASS K) as (k & Ek); [unfold ts_lt; simpl; lia|]. rewrite Ek.
  apply (IH _ _ (h ++ [PASS])); auto.
  - unfold set_clock. rewrite set_ctx_at. unfold the_clock at 1; simpl. eapply ca_incr; eauto.
  - unfold set_clock. rewrite set_ctx_at. unfold the_clock at 1; simpl.
    unfold clock_incr in Ek. destruct (tree_incr _ _ _) in Ek; inversion Ek; subst. simpl. unfold time_incr; simpl.
    destruct (t_abs_enabled (k_time (the_clock (m_ctxs m (g_eid g))))); auto.
Qed.
Lemma empty_diverges : forall fuel, snd (resume fuel ex_empty_core ex_empty_gen) = OFuel.
Proof.
  intros fuel. unfold resume. change (g_pc ex_empty_gen) with PStart. cbv iota.
  destruct (start ex_empty_core ex_empty_gen) as [[g1|ex] m1] eqn:S; [|vm_compute in S; discriminate].
  pose proof (start_spec _ _ _ _ S) as (St & _ & Sc & Ee & _ & _ & Tc).
  apply (outer_empty _ _ _ []).
  - rewrite (static_queue _ _ St). reflexivity.
  - rewrite (start_abs _ _ _ _ S). reflexivity.
  - rewrite Tc. reflexivity.
  - rewrite Tc. reflexivity.
  - rewrite Ee. apply (started_clock ex_empty_core ex_empty_gen g1 m1).
    + exists ex_empty_core. split; auto. apply undisturbed_refl.
    + apply ca_new. reflexivity.
  - rewrite Ee. assert (X : m1 = snd (start ex_empty_core ex_empty_gen)) by (rewrite S; auto). rewrite X. vm_compute. reflexivity.
Qed.

(** a termination condition that is true in the middle of pass 0 only *)
Definition ex_sticky_core : core := core_of (t_sched gAB [(tA, Always 10); (tB, Always 11)]).
Definition ex_sticky_cond : cond := All 91 [AtPass 92 0 ESU; AfterNCalls 93 tA 1 ESU].
Definition ex_sticky_gen : gen := new_gen 0 0 (Some (t_tc None (Some ex_sticky_cond))) false.
