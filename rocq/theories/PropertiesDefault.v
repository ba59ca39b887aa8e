(** Property theorems about schedulers without conditions (C13). *)
From Verif Require Import SpecDefault TopoProofs DefaultRun Tests.

(** ** C13: every default run yields the topological levels in order and returns the list of
    executions so far followed by them, whatever runs there were before *)
Theorem C13_default_run : forall cyc arr input base deid exact du ow nx w r d0 d b skip steps fuel,
  (forall q, Forall2 (@Permutation node) q (arr q)) ->
  arg_graph input = Ok base -> wf_graph base -> closed_graph base -> loop_free base ->
  (forall o, nx <= o -> ow o = None) ->
  new_sched cyc arr input [] None deid exact du ow nx w = (Ok r, d0) -> only_runs cyc arr d0 d ->
  length base < steps -> 0 < fuel ->
  exists l0 ys d' g', x_list (d_ctxs d deid) = Some l0 /\
    sdrive cyc arr steps fuel d (new_gen deid b None skip) [] = (d', g', ys, OReturn (l0 ++ ys)) /\
    one_round exact base ys.
Proof. exact default_run. Qed.
Print Assumptions C13_default_run.

(** a diamond, after a completed run, an abandoned run and the end of an environment sequence;
    the iteration order of the levels is reversed *)
Definition ex_diamond : graph := [(1, []); (2, [1]); (3, [1]); (4, [2; 3])].
Definition ex_rev (q : list (list node)) : list (list node) := map (@rev node) q.
Definition ex_diamond_new : sched := snd (new_sched ref_simple_cycles ex_rev (t_graph ex_diamond) [] None 0 false (ms 1) (fun _ => None) 100 t_world).
Definition ex_next (x : sched * gen) : sched * gen := let '(d', g', _) := sresume ref_simple_cycles ex_rev 5 (fst x) (snd x) in (d', g').
Definition ex_first : sched := fst (ex_next (ex_next (ex_next (ex_next (ex_diamond_new, new_gen 0 0 None false))))).
Definition ex_second : sched := fst (ex_next (ex_next (ex_first, new_gen 0 0 (Some (t_tc None (Some (AfterNPasses 91 3 ESU)))) true))).
Definition ex_third : sched := match send_environment_sequence 0 ex_second with Ok d => d | Err _ => ex_second end.
Lemma ex_next_runs : forall d x, only_runs ref_simple_cycles ex_rev d (fst x) -> only_runs ref_simple_cycles ex_rev d (fst (ex_next x)).
Proof. intros d [d1 g] H. unfold ex_next. simpl in *. destruct (sresume _ _ 5 d1 g) as [[d' g'] o] eqn:E. eapply or_next; eauto. Qed.
Example ex_C13 : (forall q, Forall2 (@Permutation node) q (ex_rev q)) /\
  arg_graph (t_graph ex_diamond) = Ok ex_diamond /\ wf_graph ex_diamond /\ closed_graph ex_diamond /\ loop_free ex_diamond /\
  only_runs ref_simple_cycles ex_rev ex_diamond_new ex_third /\
  x_list (d_ctxs ex_third 0) = Some [[1]; [3; 2]; [4]; [1]; [3; 2]] /\
  snd (fst (sdrive ref_simple_cycles ex_rev 5 1 ex_third (new_gen 0 0 None false) [])) = [[1]; [3; 2]; [4]] /\
  snd (sdrive ref_simple_cycles ex_rev 5 1 ex_third (new_gen 0 0 None false) []) = OReturn [[1]; [3; 2]; [4]; [1]; [3; 2]; [1]; [3; 2]; [4]].
Proof.
  assert (W : wf_graph ex_diamond) by (repeat constructor; simpl; intuition discriminate).
  split; [intros q; induction q; simpl; constructor; auto using Permutation_rev|]. split; [reflexivity|]. split; [auto|].
  split; [intros a b (l & E & I); apply aget_In in E; simpl in E; repeat (destruct E as [E|E]; [inversion E; subst; simpl in I; simpl; intuition|]); destruct E|].
  split; [split|].
  - intros X. apply toposort_cycle_iff in X; auto. vm_compute in X. discriminate.
  - intros n (l & E & I). apply aget_In in E; simpl in E; repeat (destruct E as [E|E]; [inversion E; subst; simpl in I; intuition discriminate|]); destruct E.
  - split; [|split; [vm_compute; reflexivity|split; vm_compute; reflexivity]].
    unfold ex_third. destruct (send_environment_sequence 0 ex_second) as [d|] eqn:E.
    + eapply or_end; [|exact E]. unfold ex_second. do 2 apply ex_next_runs. cbn [fst]. unfold ex_first. do 4 apply ex_next_runs. constructor.
    + exfalso. assert (X : match send_environment_sequence 0 ex_second with Ok _ => true | Err _ => false end = true) by (vm_compute; reflexivity). rewrite E in X. discriminate.
Qed.
