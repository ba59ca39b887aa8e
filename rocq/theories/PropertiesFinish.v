(** Property theorems C58: While, WhileNot, WhenFinished, WhenFinishedAny, WhenFinishedAll and
    the conditions on starts of environment state updates and sequences. *)
From Verif Require Import FinishFacts CondFacts CondProofs RunExamples.

(** f tells of each node whether its is_finished(execution_id) is true at this moment *)
Theorem C58_when_finished : forall v e ow st o d f, w_finished (s_world st) d e = Some (f d) ->
  decides (is_satisfied v e ow st (WhenFinished o d)) (f d = true).
Proof. intros v e ow st o d f H. exists (f d). unfold is_satisfied; simpl. rewrite H. split; [auto|tauto]. Qed.
Print Assumptions C58_when_finished.
(** without arguments the nodes are all nodes of the scheduler *)
Theorem C58_when_finished_any : forall v e ow st o ds f,
  let the_nodes := match ds with [] => v_nodes v | _ => ds end in
  (forall d, In d the_nodes -> w_finished (s_world st) d e = Some (f d)) ->
  decides (is_satisfied v e ow st (WhenFinishedAny o ds)) (exists d, In d the_nodes /\ f d = true).
Proof. intros v e ow st o ds f N H. exact (finished_any_spec _ _ _ _ H). Qed.
Print Assumptions C58_when_finished_any.
Theorem C58_when_finished_all : forall v e ow st o ds f,
  let the_nodes := match ds with [] => v_nodes v | _ => ds end in
  (forall d, In d the_nodes -> w_finished (s_world st) d e = Some (f d)) ->
  decides (is_satisfied v e ow st (WhenFinishedAll o ds)) (forall d, In d the_nodes -> f d = true).
Proof. intros v e ow st o ds f N H. exact (finished_all_spec _ _ _ _ H). Qed.
Print Assumptions C58_when_finished_all.
(** evaluating them changes nothing, and only the outside world and the set of nodes matter:
    counts, clock, queue and owner do not *)
Theorem C58_only_world : forall v v' e ow ow' st st' o c d ds,
  In c [WhenFinished o d; WhenFinishedAny o ds; WhenFinishedAll o ds] ->
  state_after v e ow st c = st /\
  (s_world st' = s_world st -> v_nodes v' = v_nodes v -> is_satisfied v' e ow' st' c = is_satisfied v e ow st c).
Proof.
  intros v v' e ow ow' st st' o c d ds H. split.
  - destruct st; repeat (destruct H as [<-|H]; [reflexivity|]); destruct H.
  - intros W N. repeat (destruct H as [<-|H]; [unfold is_satisfied; simpl; unfold deps_or_nodes; rewrite ?W, ?N; reflexivity|]); destruct H.
Qed.
Print Assumptions C58_only_world.
(** a node without is_finished makes them raise, unless the answer is known before it is asked *)
Theorem C58_no_is_finished : forall v e ow st o before d after, w_finished (s_world st) d e = None ->
  is_satisfied v e ow st (WhenFinished o d) = Err ECondition /\
  ((forall x, In x before -> w_finished (s_world st) x e = Some false) ->
   is_satisfied v e ow st (WhenFinishedAny o (before ++ d :: after)) = Err ECondition) /\
  ((forall x, In x before -> w_finished (s_world st) x e = Some true) ->
   is_satisfied v e ow st (WhenFinishedAll o (before ++ d :: after)) = Err ECondition).
Proof.
  intros v e ow st o b d a H. unfold is_satisfied; simpl. rewrite H. split; auto.
  assert (K : deps_or_nodes v (b ++ d :: a) = b ++ d :: a) by (destruct b; auto).
  rewrite K. split; intros F.
  - rewrite finished_any_first; auto. simpl. rewrite H; auto.
  - rewrite finished_all_first; auto. simpl. rewrite H; auto.
Qed.
Print Assumptions C58_no_is_finished.

(** While(f) is satisfied iff f returns true, WhileNot(f) iff f returns false; both call f
    exactly once, so that its side effects are the same, and both pass its exceptions on *)
Theorem C58_while : forall v e ow st o f r w, f v e (ow o) (s_world st) = (r, w) ->
  is_satisfied v e ow st (While o f) = r /\
  is_satisfied v e ow st (WhileNot o f) = match r with Ok b => Ok (negb b) | Err x => Err x end /\
  (forall c, c = While o f \/ c = WhileNot o f -> s_world (state_after v e ow st c) = w /\ s_sats (state_after v e ow st c) = s_sats st).
Proof.
  intros v e ow st o f r w H. unfold is_satisfied, state_after. simpl. rewrite H. simpl.
  split; auto. split; [destruct r; auto|].
  intros c [-> | ->]; simpl; rewrite H; simpl; auto. destruct r; auto.
Qed.
Print Assumptions C58_while.

(** h is the history of the clock; the numbers of passes and of environment state updates are
    counted since the last unit of the scale given *)
Theorem C58_starts : forall v e ow st o o1 o2 n s h passes updates updates_s, clock_after ESU h (v_clock v) -> ts_le ES s ->
  units_within PASS ESU h passes -> units_within ESU ES h updates -> units_within ESU s h updates_s ->
  decides (is_satisfied v e ow st (AtEnvironmentStateUpdateStart o)) (passes = 0) /\
  decides (is_satisfied v e ow st (AtEnvironmentSequenceStart o)) (updates = 0) /\
  decides (is_satisfied v e ow st (AtEnvironmentStateUpdateNStart o o1 o2 n s)) (passes = 0 /\ updates_s = n) /\
  decides (is_satisfied v e ow st (AtEnvironmentSequenceNStart o o1 o2 n)) (updates = 0 /\ count ES h = n).
Proof.
  intros v e ow st o o1 o2 n s h p u us H L P U US.
  assert (LE : ts_le ESU ESU) by (unfold ts_le; auto). assert (LS : ts_le ES ES) by (unfold ts_le; auto).
  assert (OB : forall x a, (exists c q k b, a = ATime c q k b) -> observer e ow (CAtom x a)).
  { intros x a (c & q & k & b & ->). split; [intros v0 [s0 w0]; reflexivity|].
    intros v1 v2 s0 V. unfold is_satisfied; simpl. rewrite (sv_clock _ _ V). reflexivity. }
  splits.
  - destruct (pass_conditions v e ow st o 0 ESU h p H LE P) as (_ & X & _). exact X.
  - destruct (esu_conditions v e ow st o 0 ES h u H LS U) as (_ & X & _). exact X.
  - destruct (pass_conditions v e ow st o1 0 ESU h p H LE P) as (_ & X & _).
    destruct (esu_conditions v e ow st o2 n s h us H L US) as (_ & Y & _).
    apply decides_and; auto. apply OB. repeat eexists.
  - destruct (esu_conditions v e ow st o1 0 ES h u H LS U) as (_ & X & _).
    destruct (sequence_conditions v e ow st o2 n h H) as (Y & _).
    apply decides_and; auto. apply OB. repeat eexists.
Qed.
Print Assumptions C58_starts.
(** While the first pass of an update is under way AtEnvironmentSequenceStart stays satisfied in
    later passes too: it is about the update, not about the pass. *)
Example ex_C58_starts : exists k, clock_after ESU [CSE; PASS; CSE; PASS; CSE] k /\ units_within PASS ESU [CSE; PASS; CSE; PASS; CSE] 2 /\
  units_within ESU ES [CSE; PASS; CSE; PASS; CSE] 0.
Proof.
  destruct (clock_after_exists ESU [CSE; PASS; CSE; PASS; CSE]) as (k & K); [unfold ts_lt; simpl; lia|repeat constructor|].
  exists k. split; [exact K|]. split; exists [CSE; PASS; CSE; PASS; CSE]; (split; [split; [repeat constructor|left; reflexivity]|reflexivity]).
Qed.
(** two nodes, of which one is finished, and a third one without is_finished *)
Definition ex_finished : world := mkWorld (fun n _ => nth n [Some true; Some false; None] None) (fun _ _ => None) (fun _ => 0).
Example ex_C58_finished : let st := mkCstate (fun _ _ => 0) ex_finished in let v := view_of ex_core 0 in
  is_satisfied v 0 (fun _ => None) st (WhenFinishedAny 1 [1; 0]) = Ok true /\
  is_satisfied v 0 (fun _ => None) st (WhenFinishedAll 1 [1; 0]) = Ok false /\
  is_satisfied v 0 (fun _ => None) st (WhenFinishedAny 1 [1; 0; 2]) = Ok true /\
  is_satisfied v 0 (fun _ => None) st (WhenFinishedAny 1 [1; 2; 0]) = Err ECondition.
Proof. vm_compute. auto. Qed.
