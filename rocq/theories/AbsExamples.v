(** Concrete runs in absolute time, to show that the hypotheses of the theorems are met. *)
From Verif Require Import SpecAbs AbsFacts AbsRun YieldFacts RunHist PureFacts ResumeFrame RunExamples.
From Coq Require Import Lia.
Open Scope nat_scope.


(** ** Concrete runs meeting the hypotheses *)
(** [fresh_interval] also says that the condition's identifier is an old one, which makes it
    survive anything the scheduler does *)
Definition fresh_interval (b : node) (r s e : option quantity) (si ei : bool) (m : core) : Prop :=
  exists o, aget b (m_basic m) = Some (CAtom o (ATimeInterval r s e si ei)) /\ m_owners m o = Some b /\ o < m_next m.
Lemma fresh_kept : forall b r s e si ei fuel m g m' g' o, resume fuel m g = (m', g', o) ->
  fresh_interval b r s e si ei m -> fresh_interval b r s e si ei m'.
Proof.
  intros b r s e si ei fuel m g m' g' o R (i & A & B & L). pose proof (grown_resume _ _ _ _ _ _ R) as G. exists i.
  split; [apply (gw_kept _ _ _ G); auto|]. split; [rewrite (gw_owners _ _ _ G); auto|]. pose proof (gw_next _ _ _ G). lia.
Qed.
Lemma run_n_begun : forall P : core -> Prop, (forall fuel m g m' g' o, resume fuel m g = (m', g', o) -> P m -> P m') ->
  forall fuel n m0 g0 m g acc, begun P m0 g0 (map snd acc) m g -> P m ->
  begun P m0 g0 (map snd (fst (fst (run_n n fuel m g acc)))) (snd (fst (run_n n fuel m g acc))) (snd (run_n n fuel m g acc)).
Proof.
  intros P K fuel. induction n as [|n IH]; intros m0 g0 m g acc B Pm; cbn [run_n fst snd]; auto.
  destruct (resume fuel m g) as [[m1 g1] o] eqn:E. destruct o; auto.
  apply IH; [|eapply K; eauto]. rewrite map_app. eapply begun_next; eauto.
Qed.
Lemma ex_begun : forall (P Q : core -> Prop) n m0 g0 ys, (forall fuel m g m' g' o, resume fuel m g = (m', g', o) -> P m -> P m') ->
  (forall m, P m -> Q m) -> g_pc g0 = PStart -> P m0 -> map snd (fst (fst (run_n n 5 m0 g0 []))) = ys -> ys <> [] ->
  begun Q m0 g0 ys (ex_state n m0 g0) (ex_at n m0 g0).
Proof.
  intros P Q n m0 g0 ys K W Hp P0 <- N. unfold ex_state, ex_at. destruct n as [|n]; [contradiction|]. cbn [run_n] in *.
  destruct (resume 5 m0 g0) as [[m1 g1] o] eqn:E. destruct o as [s|l|ex| |]; try contradiction. cbn [app] in *.
  assert (B : begun P m0 g0 (map snd [(pass_number m1 (g_eid g0), s)]) m1 g1).
  { split; auto. split; auto. exists 5, m1, g1, s, []. split; auto. split; auto. constructor. eapply K; eauto. }
  pose proof (run_n_begun P K 5 n m0 g0 m1 g1 _ B (K _ _ _ _ _ _ E P0)) as X. clear -X W.
  destruct X as (A & C & fuel & m' & g' & s' & ys' & D & F & G). split; auto. split; auto. exists fuel, m', g', s', ys'.
  split; auto. split; auto. clear -G W. induction G; [constructor; auto|eapply rw_env; eauto|eapply rw_yields; eauto].
Qed.
(** the lengths that have to be respected, as a list *)
Definition all_lengths (m : core) (g : gen) : list quantity :=
  flat_map (fun c => absolute_intervals c ++ (if m_exact m then absolute_fixed_points c else [])) (map snd (m_basic m) ++ tc_list (run_tc m g)).
Lemma all_lengths_in : forall m g q, In q (all_lengths m g) <-> exists c, registered m (run_tc m g) c /\ respected (m_exact m) c q.
Proof.
  intros m g q. unfold all_lengths. rewrite in_flat_map. split.
  - intros (c & A & B). exists c. rewrite in_app_iff, tc_list_in in A. apply respected_in in B. split; auto.
  - intros (c & A & B). exists c. rewrite in_app_iff, tc_list_in. apply respected_in in B. split; auto.
Qed.
Lemma ms_decimal : forall z, decimal 1 (ms z).
Proof. intros z. exists z, 0. split; [reflexivity|]. simpl. reflexivity. Qed.
Lemma ex_decimal : forall m g zs, all_lengths m g = map ms zs -> decimal_lengths 1 m g.
Proof.
  intros m g zs E. split; [reflexivity|]. intros c q R Rq.
  assert (X : In q (all_lengths m g)) by (apply all_lengths_in; eauto). rewrite E in X. apply in_map_iff in X.
  destruct X as (z & <- & _). apply ms_decimal.
Qed.

(** exact time mode: A every 2 ms, B every 3 ms from 1 ms to 7 ms; until 8 ms *)
Definition exact_time (g : graph) (cs : list (node * cond)) : core :=
  core_of (snd (new_sched ref_simple_cycles (fun q => q) (t_graph g) (map (fun p => (fst p, One (Basic (snd p)))) cs) None 0 true (ms 1) (fun _ => None) 100 t_world)).
Definition TimeInterval (o : oid) (r s e : option quantity) (si ei : bool) : cond := CAtom o (ATimeInterval r s e si ei).
Definition until (c : cond) : gen := new_gen 0 0 (Some (t_tc None (Some c))) false.
Definition exact_ex : core :=
  exact_time gA_B [(tA, TimeInterval 10 (Some (ms 2)) None None true true);
                   (tB, TimeInterval 11 (Some (ms 3)) (Some (ms 1)) (Some (ms 7)) true true)].
Definition exact_gen : gen := until (TimeTermination 91 (ms 9) true).
Definition exact_yields : list (list node) := [[tA]; [tB]; [tA]; []; [tA; tB]; []; [tA]; [tB]; [tA]].
Lemma exact_begun_B : begun (interval_condition tB (Some (ms 3)) (Some (ms 1)) (Some (ms 7)) true true)
  exact_ex exact_gen exact_yields (ex_state 9 exact_ex exact_gen) (ex_at 9 exact_ex exact_gen).
Proof.
  apply (ex_begun (fresh_interval tB (Some (ms 3)) (Some (ms 1)) (Some (ms 7)) true true)).
  - intros. eapply fresh_kept; eauto.
  - intros m (o & A & B & _). exists o. auto.
  - reflexivity.
  - exists 11. splits; vm_compute; try reflexivity. lia.
  - vm_compute. reflexivity.
  - discriminate.
Qed.
Lemma exact_clock : clock_after ESU [] (the_clock (m_ctxs exact_ex (g_eid exact_gen))).
Proof. apply ca_new. reflexivity. Qed.
Lemma exact_decimal : decimal_lengths 1 exact_ex exact_gen.
Proof. apply (ex_decimal _ _ [2; 3; 1; 7; 9]%Z). vm_compute. reflexivity. Qed.
