(** Property theorems about the order inside consideration sets (C05). *)
From Verif Require Import SpecOrder SpecDefault SpecGSC BaseFacts TopoProofs PureFacts RunProofs OrderFacts OrderRun OrderSched Tests.

(** ** C05: the set chosen for one consideration set *)
(** Conditions that do not become false when more calls are counted: whatever the order in which
    the nodes of the consideration set are considered, the same set is chosen. *)
Theorem C05_consideration_set : forall m e l l' f f' s s' m1 m1',
  (forall n c, aget n (m_basic m) = Some c -> monotone (fun d w => w = n) e (m_owners m) c) -> Permutation l l' ->
  do_level f m e l [] = Some (Ok s, m1) -> do_level f' m e l' [] = Some (Ok s', m1') -> Permutation s s'.
Proof. exact one_level. Qed.
Print Assumptions C05_consideration_set.
(** ** ... and whole runs *)
(** Each resumption of a run gives the same set, return value or stop, and leaves an equal state,
    up to the order inside sets; unless an exception is raised. *)
Theorem C05_resume : forall f m m' g, alike m m' -> prepared m g ->
  let '(m1, g1, o) := resume f m g in let '(m1', g1', o') := resume f m' g in
  raises o \/ raises o' \/
  (alike m1 m1' /\ g1' = g1 /\ alike_outcome o o' /\ forall s, o = OYield s -> prepared m1 g1).
Proof. exact one_resume. Qed.
Print Assumptions C05_resume.
Theorem C05_run : forall n f m m' g, alike m m' -> prepared m g ->
  let '(m1, g1, l, o) := drive n f m g [] in let '(m1', g1', l', o') := drive n f m' g [] in
  raises o \/ raises o' \/ (alike m1 m1' /\ g1' = g1 /\ alike_sets l l' /\ alike_outcome o o').
Proof. exact one_run. Qed.
Print Assumptions C05_run.
(** The first run of a scheduler in standard mode: [arr] and [arr'] are two iteration orders. *)
Theorem C05_scheduler : forall cyc arr arr' is_s nx input base conds tc deid du ow w r d gr d1 g n f,
  (forall q, alike_sets q (arr q)) -> (forall q, alike_sets q (arr' q)) -> arg_graph input = Ok base -> wf_graph base -> closed_graph base ->
  new_sched cyc arr input conds tc deid false du ow nx w = (Ok r, d) ->
  well_kinded is_s nx [SAddSet conds] -> added_once [SAddSet conds] -> proper_objects nx ow [SAddSet conds] ->
  (forall p, In p (registered_struct [SAddSet conds]) -> keeps_nodes (sc_gsc (snd p))) ->
  get_graph cyc arr d = (Ok gr, d1) -> loop_free gr ->
  (forall b c, In (b, Basic c) (adds (SAddSet conds)) -> lower_bounds (fun a _ => apart (top_queue d1) a b) (fun _ => Some b) c) ->
  g_pc g = PStart ->
  (forall s c, terms_of (core_of d) g s = Some c -> no_user_functions (fun _ _ => True) (fun _ => None) c /\
     forall o, In o (oids c) -> o < nx /\ ow o = None /\ ~ In o (objects (adds (SAddSet conds)))) ->
  exists d', new_sched cyc arr' input conds tc deid false du ow nx w = (Ok r, d') /\
    let '(_, _, ys, o) := sdrive cyc arr n f d g [] in let '(_, _, ys', o') := sdrive cyc arr' n f d' g [] in
    raises o \/ raises o' \/ (alike_sets ys ys' /\ alike_outcome o o').
Proof. exact scheduler_alike. Qed.
Print Assumptions C05_scheduler.
(** the conditions concerned, recognised by their form *)
Theorem C05_lower_bounds : forall R e ow c, lower_bounds R ow c -> monotone R e ow c.
Proof. exact lower_monotone. Qed.
Print Assumptions C05_lower_bounds.
Theorem C05_termination_conditions : forall R e ow c, no_user_functions R ow c -> blind R e ow c.
Proof. exact no_user_blind. Qed.
Print Assumptions C05_termination_conditions.

(** *** examples *)
Definition ex_order_conds : amap centry :=
  [(tA, One (Basic (Any 10 [AtPass 11 0 ESU; AfterNCalls 12 tB 2 ESU])));
   (tB, One (Basic (Any 13 [AfterNCalls 14 tA 1 PASS; AfterNPasses 15 3 ESU])));
   (tD, One (Basic (EveryNCalls 16 tC 2)))].
Definition ex_order_graph : graph := [(tA, []); (tB, []); (tC, [tA; tB]); (tD, [tC])].
Definition ex_order_gen : gen := new_gen 0 0 (Some (t_tc None (Some (AfterNCalls 90 tD 2 ESU)))) false.
Definition ex_reversed (q : list (list node)) : list (list node) := map (@rev node) q.
Definition ex_order (arr : list (list node) -> list (list node)) : res unit * sched :=
  new_sched ref_simple_cycles arr (t_graph ex_order_graph) ex_order_conds None 0 false (ms 1) (fun _ => None) 100 t_world.
Definition ex_order_out arr := snd (fst (sdrive ref_simple_cycles arr 20 5 (snd (ex_order arr)) ex_order_gen [])).
Definition ex_kind (o : oid) : bool := false.
Definition ex_order_sched arr : sched := snd (ex_order arr).
Definition ex_order_top : sched := snd (get_graph ref_simple_cycles (fun q => q) (ex_order_sched (fun q => q))).
Lemma ex_reversed_alike : forall q, alike_sets q (ex_reversed q).
Proof. intros q; induction q; simpl; constructor; auto using Permutation_rev. Qed.
(** the hypotheses of C05_scheduler *)
Example ex_C05_scheduler :
  arg_graph (t_graph ex_order_graph) = Ok ex_order_graph /\ wf_graph ex_order_graph /\ closed_graph ex_order_graph /\
  fst (ex_order (fun q => q)) = Ok tt /\
  well_kinded ex_kind 100 [SAddSet ex_order_conds] /\ added_once [SAddSet ex_order_conds] /\ proper_objects 100 (fun _ => None) [SAddSet ex_order_conds] /\
  (forall p, In p (registered_struct [SAddSet ex_order_conds]) -> keeps_nodes (sc_gsc (snd p))) /\
  fst (get_graph ref_simple_cycles (fun q => q) (ex_order_sched (fun q => q))) = Ok ex_order_graph /\ loop_free ex_order_graph /\
  (forall b c, In (b, Basic c) (adds (SAddSet ex_order_conds)) -> lower_bounds (fun a _ => apart (top_queue ex_order_top) a b) (fun _ => Some b) c) /\
  (forall s c, terms_of (core_of (ex_order_sched (fun q => q))) ex_order_gen s = Some c -> no_user_functions (fun _ _ => True) (fun _ => None) c /\
     forall o, In o (oids c) -> o < 100 /\ (fun _ : oid => @None node) o = None /\ ~ In o (objects (adds (SAddSet ex_order_conds)))).
Proof.
  assert (W : wf_graph ex_order_graph) by (repeat constructor; simpl; intuition discriminate).
  split; [reflexivity|]. split; [auto|].
  split; [intros a b (l & E & I); apply aget_In in E; simpl in E; repeat (destruct E as [E|E]; [inversion E; subst; simpl in I; simpl; intuition|]); destruct E|].
  split; [vm_compute; reflexivity|].
  split. { split; [reflexivity|]. intros k a [<-|[]] I. simpl in I. intuition (subst; simpl; auto). }
  split. { repeat constructor. }
  split. { split; [|split; [|split; [auto|intros a [E|[]]; discriminate]]].
    - simpl. repeat constructor; simpl; intuition discriminate.
    - intros o I. simpl in I. split; auto. intuition lia. }
  split; [intros p []|]. split; [vm_compute; reflexivity|].
  split. { split.
    - intros X. apply toposort_cycle_iff in X; auto. vm_compute in X. discriminate.
    - intros n (l & E & I). apply aget_In in E; simpl in E; repeat (destruct E as [E|E]; [inversion E; subst; simpl in I; intuition discriminate|]); destruct E. }
  assert (Q : top_queue ex_order_top = [[tA; tB]; [tC]; [tD]]) by (vm_compute; reflexivity).
  split. { intros b c I. simpl in I. rewrite Q. destruct I as [I|[I|[I|[]]]]; inversion I; subst; simpl; auto.
    intros (s & Is & A & B). simpl in Is. destruct Is as [<-|[<-|[<-|[]]]]; simpl in A, B; intuition discriminate. }
  intros s c E. unfold terms_of, ex_order_gen in E. cbn [new_gen g_pc g_tcarg] in E.
  assert (T : m_tconds (core_of (ex_order_sched (fun q => q))) = default_tc 0 1) by (vm_compute; reflexivity). rewrite T in E.
  destruct s; simpl in E; inversion E; subst; simpl; (split; [auto|]); intros o [<-|[]]; (split; [lia|]); split; auto; intuition discriminate.
Qed.
Example ex_C05_runs : ex_order_out (fun q => q) = [[tA; tB]; [tC]; []; []; [tB; tA]; [tC]; [tD]; [tA; tB]; [tC]; [tA; tB]; [tC]; [tD]] /\
  ex_order_out ex_reversed = [[tA; tB]; [tC]; []; []; [tB; tA]; [tC]; [tD]; [tB; tA]; [tC]; [tB; tA]; [tC]; [tD]].
Proof. split; vm_compute; reflexivity. Qed.

(** the hypotheses of C05_consideration_set *)
Example ex_C05_level : let m := core_of (ex_order_sched (fun q => q)) in
  (forall n c, aget n (m_basic m) = Some c -> monotone (fun d w => w = n) 0 (m_owners m) c) /\
  exists m1 m1', do_level 3 m 0 [tA; tB] [] = Some (Ok [tA; tB], m1) /\ do_level 3 m 0 [tB; tA] [] = Some (Ok [tA; tB], m1').
Proof.
  intros m. split.
  - intros n c E. assert (B : m_basic m = [(tA, Any 10 [AtPass 11 0 ESU; AfterNCalls 12 tB 2 ESU]); (tB, Any 13 [AfterNCalls 14 tA 1 PASS; AfterNPasses 15 3 ESU]); (tD, EveryNCalls 16 tC 2)])
      by (vm_compute; reflexivity).
    assert (O : m_owners m 16 = Some tD) by (vm_compute; reflexivity).
    rewrite B in E. apply lower_monotone. apply aget_In in E. destruct E as [E|[E|[E|[]]]]; inversion E; subst; simpl; try rewrite O; auto.
  - assert (X : forall l s, match do_level 3 m 0 l [] with Some (Ok s', _) => if list_eq_dec Nat.eq_dec s' s then true else false | _ => false end = true ->
      exists m1, do_level 3 m 0 l [] = Some (Ok s, m1)).
    { intros l s H. destruct (do_level 3 m 0 l []) as [[[s'|] m1]|]; try discriminate. destruct (list_eq_dec _ _ _); [subst; eauto|discriminate]. }
    destruct (X [tA; tB] [tA; tB]) as (m1 & E1); [vm_compute; reflexivity|]. destruct (X [tB; tA] [tA; tB]) as (m1' & E2); [vm_compute; reflexivity|]. eauto.
Qed.

(** *** the documented claim without restriction is false *)
Definition two_out (arr : list (list node) -> list (list node)) (ca cb : cond) (n : nat) : list (list node) * outcome :=
  let d := snd (new_sched ref_simple_cycles arr (t_graph [(tA, []); (tB, [])]) [(tA, One (Basic ca)); (tB, One (Basic cb))] None 0 false (ms 1) (fun _ => None) 100 t_world) in
  let '(_, _, ys, o) := sdrive ref_simple_cycles arr n 5 d (new_gen 0 0 (Some (t_tc None (Some (AfterNPasses 91 3 ESU)))) false) [] in (ys, match o with OReturn _ => OReturn [] | _ => o end).
(** an upper bound on calls of a node in the same consideration set *)
Theorem C05_upper_bound_refuted :
  fst (two_out (fun q => q) (Always 10) (BeforeNCalls 11 tA 1 ESU) 9) = [[tA]; [tA]; [tA]] /\
  fst (two_out ex_reversed (Always 10) (BeforeNCalls 11 tA 1 ESU) 9) = [[tB; tA]; [tA]; [tA]].
Proof. split; vm_compute; reflexivity. Qed.
Print Assumptions C05_upper_bound_refuted.
(** EveryNCalls on a node of the same consideration set: each set is chosen the same way, but the
    calls that were counted differ afterwards *)
Theorem C05_same_set_refuted :
  let b := Any 11 [AtPass 12 0 ESU; EveryNCalls 13 tA 2] in
  fst (two_out (fun q => q) (Always 10) b 9) = [[tA; tB]; [tA]; [tA; tB]] /\
  fst (two_out ex_reversed (Always 10) b 9) = [[tB; tA]; [tA; tB]; [tA]].
Proof. split; vm_compute; reflexivity. Qed.
Print Assumptions C05_same_set_refuted.
(** NWhen counts evaluations, of which there are more in some orders *)
Theorem C05_nwhen_refuted :
  let b := All 11 [NWhen 12 (Always 13) 2; AfterNCalls 14 tA 1 ESU] in let a := AfterNPasses 10 1 ESU in
  fst (two_out (fun q => q) a b 9) = [[]; [tA; tB]; [tA]] /\ fst (two_out ex_reversed a b 9) = [[]; [tA]; [tA]].
Proof. split; vm_compute; reflexivity. Qed.
Print Assumptions C05_nwhen_refuted.
(** whether an exception is raised depends on the order *)
Theorem C05_exception_refuted :
  let a := Any 10 [AfterNCalls 11 tB 1 ESU; While 12 (fun _ _ _ w => (Err EValue, w))] in
  two_out (fun q => q) a (Always 13) 9 = ([], ORaise EValue) /\
  two_out ex_reversed a (Always 13) 9 = ([[tB; tA]; [tB; tA]; [tB; tA]], OReturn []).
Proof. split; vm_compute; reflexivity. Qed.
Print Assumptions C05_exception_refuted.
(** in exact time mode all nodes form one consideration set: even a default condition then has
    senders in its own consideration set *)
Definition exact_core (g : graph) : core :=
  let m := core_of (snd (new_sched ref_simple_cycles (fun q => q) (t_graph [(tA, []); (tB, []); (tC, [tA; tB])])
    [(tA, One (Basic (Any 10 [AtPass 11 0 ESU; AtPass 12 1 ESU]))); (tB, One (Basic (Any 13 [AtPass 14 1 ESU; AtPass 15 2 ESU])))] None 0 true (ms 1) (fun _ => None) 100 t_world)) in
  mkCore (m_nodes m) g (m_levels m) (m_exact m) (m_default_unit m) (m_tconds m) (m_basic m) (m_owners m) (m_next m) (m_cst m) (m_ctxs m).
Definition exact_out (g : graph) : list (list node) :=
  snd (fst (drive 9 5 (exact_core g) (new_gen 0 0 (Some (t_tc None (Some (AfterNPasses 91 3 ESU)))) false) [])).
Theorem C05_exact_mode_refuted : queue (exact_core [(tA, []); (tB, []); (tC, [tA; tB])]) = [[tA; tB; tC]] /\
  alike (exact_core [(tA, []); (tB, []); (tC, [tA; tB])]) (exact_core [(tB, []); (tC, [tA; tB]); (tA, [])]) /\
  exact_out [(tA, []); (tB, []); (tC, [tA; tB])] = [[tA]; [tA; tB; tC]; [tB]] /\
  exact_out [(tB, []); (tC, [tA; tB]); (tA, [])] = [[tA]; [tB; tC; tA]; [tB; tC]].
Proof.
  split; [vm_compute; reflexivity|]. split; [|split; vm_compute; reflexivity]. constructor; try reflexivity.
  - simpl. apply (Permutation_cons_append [(tB, []); (tC, [tA; tB])] (tA, [])).
  - repeat constructor.
  - intros e. constructor; simpl; try reflexivity; unfold upd; destruct (Nat.eqb e 0); simpl; auto. constructor.
Qed.
Print Assumptions C05_exact_mode_refuted.
