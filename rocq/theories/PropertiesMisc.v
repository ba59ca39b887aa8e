(** Property theorems about aliases, pruned calls and cached functions (C41, C50, C51). *)
From Verif Require Import SpecStrings StringFacts SpecAlias AliasFacts SpecPrune PruneFacts SpecCache CacheFacts BaseFacts.
Open Scope nat_scope.
Open Scope list_scope.

Ltac conj_compute := lazymatch goal with |- _ /\ _ => split; conj_compute | _ => vm_compute; reflexivity end.
(** ** C41: aliases of time scales *)
Theorem C41_roundtrip : forall st name t seg ta, fresh_alias st name t seg -> wf_modules st -> resolve_target st ta = Some t ->
  exists st1, set_alias name ta st = (Ok tt, st1) /\ remove_alias name st1 = (Ok tt, st).
Proof. exact alias_roundtrip. Qed.
Print Assumptions C41_roundtrip.
(** what the operations on names in these statements mean: lower case, substrings, replacement
    from left to right, and the form of a name in class names (ENVIRONMENT_SEQUENCE is
    EnvironmentSequence) *)
Theorem C41_strings :
  (forall s, pointwise lowered s (lower s)) /\
  (forall sub s, contains sub s = true <-> occurs sub s) /\
  (forall old new s, old <> EmptyString -> replaced old new s (replace old new s)) /\
  (forall name seg, class_str name = Some seg <-> class_form name seg) /\
  (forall t, class_form (ts_name t) (ts_class_str t)).
Proof.
  split; [exact lower_ok|]. split; [exact contains_ok|]. split; [exact replace_ok|]. split; [exact class_ok|].
  intros t. apply class_ok. destruct t; reflexivity.
Qed.
Print Assumptions C41_strings.
Example ex_C41_strings : lower "TRIAL_2" = "trial_2"%string /\ replace "ab" "c" "aabab" = "acc"%string /\
  class_form "CONSIDERATION_SET_EXECUTION" "ConsiderationSetExecution" /\ (forall seg, ~ class_form "A__B" seg).
Proof.
  split; [reflexivity|]. split; [reflexivity|]. split; [apply class_ok; reflexivity|].
  intros seg H. apply class_ok in H. discriminate H.
Qed.
(** two aliases can be removed in either order *)
Theorem C41_two : forall st a ta t1 seg1 b tb t2 seg2 s1 s2, wf_modules st ->
  fresh_alias st a t1 seg1 -> resolve_target st ta = Some t1 -> set_alias a ta st = (Ok tt, s1) ->
  fresh_alias s1 b t2 seg2 -> resolve_target s1 tb = Some t2 -> set_alias b tb s1 = (Ok tt, s2) ->
  (exists s3, remove_alias a s2 = (Ok tt, s3) /\ remove_alias b s3 = (Ok tt, st)) /\
  (exists s3, remove_alias b s2 = (Ok tt, s3) /\ remove_alias a s3 = (Ok tt, st)).
Proof. exact alias_two. Qed.
Print Assumptions C41_two.
(** the name stands for the time scale; every class with the time scale in its name gets a second
    name, in both modules and their export lists; no other names appear and old ones keep their
    meaning *)
Theorem C41_names : forall st name t seg ta st1, fresh_alias st name t seg -> wf_modules st -> resolve_target st ta = Some t ->
  set_alias name ta st = (Ok tt, st1) ->
  resolve_target st1 (TName name) = Some t /\
  (forall n v, sget n (a_gs st) = Some v -> contains (ts_class_str t) n = true ->
     sget (replace (ts_class_str t) seg n) (a_gs st1) = Some v /\ sget (replace (ts_class_str t) seg n) (a_cond st1) = Some v /\
     In (replace (ts_class_str t) seg n) (a_gs_all st1) /\ In (replace (ts_class_str t) seg n) (a_cond_all st1)) /\
  (forall n, known_name st1 n -> known_name st n \/
     exists n0, In n0 (map fst (a_gs st)) /\ contains (ts_class_str t) n0 = true /\ n = replace (ts_class_str t) seg n0) /\
  (forall n, known_name st n -> sget n (a_gs st1) = sget n (a_gs st) /\ sget n (a_cond st1) = sget n (a_cond st)).
Proof. exact alias_effect. Qed.
Print Assumptions C41_names.
(** the attribute with the alias's name in lower case reads and writes the value of the time
    scale, of Time objects, and reads it of SimpleTime objects if the time scale is one they show *)
Theorem C41_attributes : forall st name t seg ta st1, fresh_alias st name t seg -> wf_modules st -> resolve_target st ta = Some t ->
  set_alias name ta st = (Ok tt, st1) ->
  (forall tm, time_attr st1 tm (lower name) = Ok (t_val tm t)) /\
  (forall tm v, exists tm', set_time_attr st1 tm (lower name) v = Ok tm' /\ t_val tm' t = v /\ (forall s, s <> t -> t_val tm' s = t_val tm s) /\
     t_abs tm' = t_abs tm /\ t_interval tm' = t_interval tm /\ t_abs_enabled tm' = t_abs_enabled tm) /\
  (forall tm, t = ES \/ t = ESU \/ t = CSE -> shas (ts_attr t) (a_simple st) = true -> simple_attr st1 tm (lower name) = Ok (t_val tm t)) /\
  (forall tm n, n <> lower name -> time_attr st1 tm n = time_attr st tm n) /\
  (forall kw a i b, t_val (new_time st1 kw a i b) t = match sget (lower name) kw, sget (ts_attr t) kw with Some v, _ => v | None, Some v => v | None, None => 0 end) /\
  (forall kw a i b s, s <> t -> t_val (new_time st1 kw a i b) s = t_val (new_time st kw a i b) s).
Proof.
  intros st name t seg ta st1 F W R H. destruct (alias_attributes _ _ _ _ _ _ F W R H) as (A & B & C & D & E & G).
  split; [exact A|]. split; [exact B|]. split; [|split; [exact D|split; [exact E|exact G]]].
  intros tm O. apply C. destruct O as [O|[O|O]]; rewrite O; reflexivity.
Qed.
Print Assumptions C41_attributes.
(** Without aliases Time(...) takes the values of its keyword arguments, *)
Theorem C41_time_constructor : forall st kw a i b s, a_reg st = [] ->
  t_val (new_time st kw a i b) s = match sget (ts_attr s) kw with Some v => v | None => 0 end.
Proof. intros st kw a i b s E. unfold new_time, init_value. cbn [t_val]. rewrite E. reflexivity. Qed.
Print Assumptions C41_time_constructor.
(** The names: members of TimeScale, attributes of Time and of SimpleTime as the package is
    imported. *)
Definition scale_names : list (timescale * string * string) :=
  [(CSE, "CONSIDERATION_SET_EXECUTION", "consideration_set_execution"); (PASS, "PASS", "pass_");
   (ESU, "ENVIRONMENT_STATE_UPDATE", "environment_state_update"); (ES, "ENVIRONMENT_SEQUENCE", "environment_sequence"); (LIFE, "LIFE", "life")]%string.
Theorem C41_scales : 
  (forall n s, ts_member n = Some s <-> exists a, In (s, n, a) scale_names) /\
  (forall tm n v, time_attr imported tm n = Ok v <-> exists s m, In (s, m, n) scale_names /\ v = t_val tm s) /\
  (forall tm n v, simple_attr imported tm n = Ok v <-> exists s m, In (s, m, n) scale_names /\ s <> PASS /\ s <> LIFE /\ v = t_val tm s) /\
  (forall tm n v tm', set_time_attr imported tm n v = Ok tm' ->
     exists s m, In (s, m, n) scale_names /\ t_val tm' s = v /\ (forall s', s' <> s -> t_val tm' s' = t_val tm s')).
Proof. exact scale_tables. Qed.
Print Assumptions C41_scales.
(** A new Time object stands at absolute time 0, counts in steps of one unit and is not in absolute
    mode. *)
Theorem C41_new_absolute : forall st kw a i b, t_abs (new_time st kw a i b) = 0%Q /\ t_interval (new_time st kw a i b) = 1%Q /\ t_abs_enabled (new_time st kw a i b) = false.
Proof. exact new_time_absolute. Qed.
Print Assumptions C41_new_absolute.
(** but its arguments for absolute time are ignored (finding) *)
Theorem C41_absolute_arguments_refuted : exists st a i b, let tm := new_time st [] a i b in
  t_abs tm <> a /\ t_interval tm <> i /\ t_abs_enabled tm <> b.
Proof. exists imported, 5%Q, 2%Q, true. simpl. repeat split; discriminate. Qed.
Print Assumptions C41_absolute_arguments_refuted.
(** refused calls change nothing *)
Theorem C41_taken : forall st name ta s, In (s, name) (a_reg st) -> set_alias name ta st = (Err EValue, st).
Proof. exact alias_taken. Qed.
Print Assumptions C41_taken.
Theorem C41_no_such_scale : forall st name n, (forall s, n <> ts_name s) -> ~ In n (map fst (a_scale st)) -> set_alias name (TName n) st = (Err EValue, st).
Proof. exact alias_bad_target. Qed.
Print Assumptions C41_no_such_scale.
Theorem C41_no_such_alias : forall st name, (forall s, ~ In (s, name) (a_reg st)) -> remove_alias name st = (Ok tt, st).
Proof. exact alias_absent. Qed.
Print Assumptions C41_no_such_alias.

Lemma not_contained : forall sub l, forallb (fun n => negb (contains sub n)) l = true -> forall n, In n l -> contains sub n = false.
Proof. intros sub l H n I. rewrite forallb_forall in H. specialize (H n I). destruct (contains sub n); auto. Qed.
Definition no_dup (l : list string) : bool := (fix go l := match l with [] => true | x :: r => negb (smem x r) && go r end)%bool l.
Lemma no_dup_iff : forall l, no_dup l = true -> NoDup l.
Proof.
  induction l as [|x l IH]; intros H; [constructor|]. simpl in H. apply andb_true_iff in H. destruct H as [A B]. constructor; auto.
  intros I. assert (X : smem x l = true) by (apply existsb_exists; exists x; split; auto; apply String.eqb_refl). rewrite X in A. discriminate.
Qed.
Lemma distinct_images : forall (f : string -> string) (P : string -> bool) l, NoDup l -> no_dup (map f (filter P l)) = true ->
  forall a b, In a l -> In b l -> P a = true -> P b = true -> f a = f b -> a = b.
Proof.
  intros f P l N H a b A B Pa Pb E. apply no_dup_iff in H.
  assert (Ia : In a (filter P l)) by (apply filter_In; auto). assert (Ib : In b (filter P l)) by (apply filter_In; auto).
  clear -H Ia Ib E. induction (filter P l) as [|x r IH]; [destruct Ia|]. simpl in H. inversion H; subst.
  destruct Ia as [->|Ia], Ib as [->|Ib]; auto.
  - exfalso. apply H2. rewrite E. apply in_map; auto.
  - exfalso. apply H2. rewrite <- E. apply in_map; auto.
Qed.
(** what has to be checked for a concrete state, as a computation *)
Definition fresh_check (st : astate) (name : string) (t : timescale) (seg : string) : bool :=
  (match class_str name with Some s => String.eqb s seg | None => false end &&
   forallb (fun p => negb (String.eqb (snd p) name) && negb (ts_eqb (fst p) t)) (a_reg st) &&
   forallb (fun s => negb (String.eqb name (ts_name s))) all_timescales &&
   negb (smem name (map fst (a_scale st))) && negb (smem (lower name) (map fst (a_time st))) && negb (smem (lower name) (map fst (a_simple st))) &&
   forallb (fun n => negb (contains seg n)) (map fst (a_gs st) ++ map fst (a_cond st) ++ a_gs_all st ++ a_cond_all st) &&
   no_dup (map fst (a_gs st)) &&
   no_dup (map (replace (ts_class_str t) seg) (filter (contains (ts_class_str t)) (map fst (a_gs st)))))%bool.
Lemma smem_not : forall x l, smem x l = false -> ~ In x l.
Proof. intros x l H I. assert (X : smem x l = true) by (apply existsb_exists; exists x; split; auto; apply String.eqb_refl). congruence. Qed.
Lemma fresh_check_ok : forall st name t seg, fresh_check st name t seg = true -> fresh_alias st name t seg /\ wf_modules st.
Proof.
  intros st name t seg H. unfold fresh_check in H. rewrite !andb_true_iff, !negb_true_iff, !forallb_forall in H.
  destruct H as ((((((((A & B) & C) & D) & E) & F) & G) & I) & J). split; [|apply no_dup_iff; auto]. constructor.
  - destruct (class_str name); [|discriminate]. apply String.eqb_eq in A. congruence.
  - intros s X. specialize (B _ X). simpl in B. rewrite String.eqb_refl in B. discriminate.
  - intros n X. specialize (B _ X). simpl in B. rewrite andb_true_iff, ts_eqb_refl in B. destruct B; discriminate.
  - intros s X. specialize (C s). rewrite X, String.eqb_refl in C. assert (Y : In s all_timescales) by (destruct s; simpl; auto 10). apply C in Y. discriminate.
  - apply smem_not; auto.
  - apply smem_not; auto.
  - apply smem_not; auto.
  - intros n K. apply (not_contained seg (map fst (a_gs st) ++ map fst (a_cond st) ++ a_gs_all st ++ a_cond_all st)); [apply forallb_forall; auto|].
    rewrite !in_app_iff. exact K.
  - apply (distinct_images (replace (ts_class_str t) seg) (contains (ts_class_str t))); auto. apply no_dup_iff; auto.
Qed.
(** the aliases PsyNeuLink uses for two of the time scales, on the package as imported *)
Definition ex_trial : astate := snd (set_alias "TRIAL" (TName "ENVIRONMENT_STATE_UPDATE") imported).
Example ex_C41 : (fresh_alias imported "TRIAL" ESU "Trial" /\ wf_modules imported) /\
  resolve_target imported (TName "ENVIRONMENT_STATE_UPDATE") = Some ESU /\ fst (set_alias "TRIAL" (TName "ENVIRONMENT_STATE_UPDATE") imported) = Ok tt /\
  (fresh_alias ex_trial "TIME_STEP" CSE "TimeStep" /\ wf_modules ex_trial) /\ resolve_target ex_trial (TScale CSE) = Some CSE /\
  (exists v, sget "AtEnvironmentStateUpdateNStart" (a_gs imported) = Some v /\ sget "AtTrialNStart" (a_gs ex_trial) = Some v).
Proof.
  split; [apply fresh_check_ok; vm_compute; reflexivity|]. split; [reflexivity|]. split; [vm_compute; reflexivity|].
  split; [apply fresh_check_ok; vm_compute; reflexivity|]. split; [reflexivity|]. eexists. split; vm_compute; reflexivity.
Qed.
(** finding: "Run" is part of the class name AllHaveRun: setting and removing the alias RUN (the
    one PsyNeuLink uses for ENVIRONMENT_SEQUENCE) removes AllHaveRun from the package *)
Theorem C41_substring_refuted : exists st1 st2, set_alias "RUN" (TScale ES) imported = (Ok tt, st1) /\ remove_alias "RUN" st1 = (Ok tt, st2) /\
  shas "AllHaveRun" (a_gs imported) = true /\ shas "AllHaveRun" (a_gs st2) = false /\ shas "AllHaveRun" (a_cond st2) = false.
Proof.
  exists (snd (set_alias "RUN" (TScale ES) imported)), (snd (remove_alias "RUN" (snd (set_alias "RUN" (TScale ES) imported)))).
  conj_compute.
Qed.
Print Assumptions C41_substring_refuted.
(** finding: a second alias of the same time scale makes the first one unremovable *)
Theorem C41_second_refuted : exists st1 st2, set_alias "TRIAL" (TScale ESU) imported = (Ok tt, st1) /\ set_alias "STEP" (TScale ESU) st1 = (Ok tt, st2) /\
  remove_alias "TRIAL" st2 = (Ok tt, st2) /\ resolve_target st2 (TName "TRIAL") = Some ESU /\ shas "AtTrial" (a_gs st2) = true.
Proof.
  exists (snd (set_alias "TRIAL" (TScale ESU) imported)), (snd (set_alias "STEP" (TScale ESU) (snd (set_alias "TRIAL" (TScale ESU) imported)))).
  conj_compute.
Qed.
Print Assumptions C41_second_refuted.
(** finding: rejected names leave a registered alias behind.  Removing it raises the same
    exception, but the alias is gone then. *)
Theorem C41_not_atomic_refuted :
  (exists st1, set_alias "PASS" (TScale ESU) imported = (Err EAttribute, st1) /\ a_reg st1 = [(ESU, "PASS"%string)] /\ a_reg imported = []) /\
  (exists st1, set_alias "TRIAL_" (TScale ESU) imported = (Err EIndex, st1) /\ a_reg st1 = [(ESU, "TRIAL_"%string)] /\ shas "TRIAL_" (a_scale st1) = true /\
     remove_alias "TRIAL_" st1 = (Err EIndex, imported)) /\
  (exists st1 st2, set_alias "PASS" (TScale ESU) imported = (Err EAttribute, st1) /\ remove_alias "PASS" st1 = (Err EAttribute, st2) /\ st2 = imported).
Proof. split; [eexists; conj_compute|]. split; [eexists; conj_compute|]. eexists; eexists. conj_compute. Qed.
Print Assumptions C41_not_atomic_refuted.
(** finding: an alias called like a property of SimpleTime replaces it for good *)
Theorem C41_property_refuted : exists st1 st2,
  set_alias "ABSOLUTE" (TScale ESU) imported = (Ok tt, st1) /\ remove_alias "ABSOLUTE" st1 = (Ok tt, st2) /\
  shas "absolute" (a_simple imported) = true /\ shas "absolute" (a_simple st2) = false.
Proof.
  exists (snd (set_alias "ABSOLUTE" (TScale ESU) imported)), (snd (remove_alias "ABSOLUTE" (snd (set_alias "ABSOLUTE" (TScale ESU) imported)))).
  conj_compute.
Qed.
Print Assumptions C41_property_refuted.
(** finding: an alias of PASS or LIFE cannot be read from a SimpleTime *)
Theorem C41_simple_time_refuted : forall tm, exists st1, set_alias "SWEEP" (TScale PASS) imported = (Ok tt, st1) /\
  time_attr st1 tm "sweep" = Ok (t_val tm PASS) /\ simple_attr st1 tm "sweep" = Err EAttribute.
Proof. intros tm. eexists. split; [vm_compute; reflexivity|]. split; reflexivity. Qed.
Print Assumptions C41_simple_time_refuted.

(** ** C50: pruned calls *)
(** the keywords passed are exactly the given ones that the function accepts *)
Theorem C50_keywords : forall V sig (args : args_in V) kw k v,
  In (k, v) (snd (prune_unused_args sig args (Some kw))) <-> In (k, v) kw /\ accepts_keyword sig k.
Proof. exact @keywords_kept. Qed.
Print Assumptions C50_keywords.
(** all positional arguments with a parameter *args, otherwise at most as many as there are
    parameters without default *)
Theorem C50_positional : forall V sig (args : args_in V) kw, let l := match args with NoArgs => [] | Args l => l | OneArg v => [v] end in
  ((exists p, In p sig /\ p_kind p = VarPos) -> fst (prune_unused_args sig args kw) = l) /\
  (~ (exists p, In p sig /\ p_kind p = VarPos) ->
     fst (prune_unused_args sig args kw) = firstn (length (filter (fun p => named p && negb (p_default p)) sig)) l).
Proof. exact @positional_kept. Qed.
Print Assumptions C50_positional.
(** For ordinary functions the call fails only if a required parameter is given by neither
    position nor keyword, or one by both; positional arguments go to the parameters they
    reach, all others are given by keyword or keep their defaults. *)
Theorem C50_received : forall V sig req opt va kwo vk (args : list V) kw, ordinary sig req opt va kwo vk ->
  (call_with_pruned_args sig args kw = None <->
     (exists i p, nth_error req i = Some p /\ length args <= i /\ ahas (p_name p) kw = false) \/
     (exists i p, nth_error (reached req opt va) i = Some p /\ i < length args /\ ahas (p_name p) kw = true)) /\
  (forall b, call_with_pruned_args sig args kw = Some b ->
     (forall i p v, nth_error (reached req opt va) i = Some p -> nth_error args i = Some v -> aget (p_name p) (b_values b) = Some (Some v)) /\
     (forall p, In p (req ++ opt ++ kwo) -> (forall i, nth_error (reached req opt va) i = Some p -> length args <= i) ->
        aget (p_name p) (b_values b) = Some (aget (p_name p) kw)) /\
     b_args b = (match va with [] => [] | _ => skipn (length (req ++ opt)) args end) /\
     (forall k v, In (k, v) (b_kwargs b) <-> vk <> [] /\ In (k, v) kw /\ ~ In k (map p_name (req ++ opt ++ kwo)))).
Proof. exact @call_received. Qed.
Print Assumptions C50_received.
(** what the function of a Condition receives: keywords given when it is evaluated come before
    those given when it was created, execution_id before both *)
Theorem C50_condition : forall V xid sig req opt va kwo vk (args0 : list V) kwargs0 args e kwargs b,
  ordinary sig req opt va kwo vk -> NoDup (akeys kwargs) ->
  condition_call xid sig args0 kwargs0 args e kwargs = Some b ->
  (forall i p v, nth_error (reached req opt va) i = Some p -> nth_error (args0 ++ args) i = Some v -> aget (p_name p) (b_values b) = Some (Some v)) /\
  (forall p, In p (req ++ opt ++ kwo) -> (forall i, nth_error (reached req opt va) i = Some p -> length (args0 ++ args) <= i) ->
     aget (p_name p) (b_values b) =
     Some (if Nat.eqb (p_name p) xid then Some e else match aget (p_name p) kwargs with Some v => Some v | None => aget (p_name p) kwargs0 end)).
Proof. exact @condition_received. Qed.
Print Assumptions C50_condition.
(** def f(a, b, c=0, **kw), called for Condition(f, 10, b=20) with execution_id=7, scheduler=8 *)
Definition sig_ex : signature := [mkParam 1 PosOrKw false; mkParam 2 PosOrKw false; mkParam 3 PosOrKw true; mkParam 9 VarKw false].
Example ex_C50 : ordinary sig_ex [mkParam 1 PosOrKw false; mkParam 2 PosOrKw false] [mkParam 3 PosOrKw true] [] [] [mkParam 9 VarKw false] /\
  NoDup (akeys [(6, 8)]) /\
  condition_call 5 sig_ex [10] [(2, 20)] [] 7 [(6, 8)] = Some (mkBound [(1, Some 10); (2, Some 20); (3, None)] [] [(5, 7); (6, 8)]).
Proof.
  split; [|split; [repeat constructor; simpl; intuition|vm_compute; reflexivity]].
  constructor; auto; try (repeat constructor; fail); [right; eexists; split; reflexivity|].
  simpl. repeat constructor; simpl; intuition discriminate.
Qed.
(** finding: a positional argument for a parameter with a default is dropped *)
Theorem C50_default_refuted : exists sig (args : list nat) b, py_call sig args [] <> None /\ call_with_pruned_args sig args [] = Some b /\
  py_call sig args [] <> Some b.
Proof. exists [mkParam 1 PosOrKw false; mkParam 2 PosOrKw true], [10; 20]. eexists. split; [discriminate|]. split; [reflexivity|discriminate]. Qed.
Print Assumptions C50_default_refuted.
(** finding: calls with positional-only parameters, or with surplus arguments and a required
    keyword-only parameter, fail, although there are enough arguments *)
Theorem C50_kinds_refuted :
  (exists sig (args : list nat) b, py_call sig args [] = Some b /\ call_with_pruned_args sig args [] = None) /\
  (exists sig (args : list nat) kw, py_call sig [hd 0 args] kw <> None /\ call_with_pruned_args sig args kw = None).
Proof.
  split.
  - exists [mkParam 1 PosOnly false], [10]. eexists. split; reflexivity.
  - exists [mkParam 1 PosOrKw false; mkParam 2 KwOnly false], [10; 11], [(2, 20)]. split; [discriminate|reflexivity].
Qed.
Print Assumptions C50_kinds_refuted.
(** finding: a Condition with a keyword argument execution_id can never be evaluated *)
Theorem C50_execution_id_refuted : forall V xid sig (args0 : list V) kwargs0 args e kwargs, ahas xid kwargs0 = true ->
  condition_call xid sig args0 kwargs0 args e kwargs = None.
Proof.
  intros V xid sig args0 kwargs0 args e kwargs H. unfold condition_call. cbv zeta.
  assert (X : forall (kw d : kwdict V), ahas xid d = true -> ahas xid (aupdate d kw) = true).
  { induction kw as [|[k v] r IH]; intros d Hd; simpl; auto. apply IH. unfold ahas in *. rewrite BaseFacts.aget_aset. destruct (Nat.eqb xid k); auto. }
  rewrite X; auto.
Qed.
Print Assumptions C50_execution_id_refuted.

(** ** C51: cached graph functions *)
(** As long as nobody changes an object that a cached function returned, a call returns the value
    (or raises the exception) of the function on a graph equal to the argument; if set objects
    inside graphs are changed after a call, hashes of different graphs must not collide. *)
Theorem C51_value : forall R hash (F : nat -> contents -> res R) size sets st f g r st',
  (sets = true -> forall a b, hash a = hash b -> same_graph a b) ->
  cache_history hash F size sets false st -> NoDup (map fst g) -> cached_call hash F size f g st = (r, st') ->
  exists c, same_graph c (contents_of st g) /\
    match r with Ok i => F f c = Ok (c_vals st' i) | Err ex => F f c = Err ex end.
Proof. exact @cached_value. Qed.
Print Assumptions C51_value.
(** a call changes no graph and no object returned earlier *)
Theorem C51_frame : forall R hash (F : nat -> contents -> res R) size f g st r st', cached_call hash F size f g st = (r, st') ->
  (forall x, c_sets st' x = c_sets st x) /\ (forall i, i < c_next st -> c_vals st' i = c_vals st i).
Proof. exact @cached_frame. Qed.
Print Assumptions C51_frame.
(** the cache never holds more entries than its size, and never one object in two entries *)
Theorem C51_bounded : forall R hash (F : nat -> contents -> res R) size sets results st,
  cache_history hash F size sets results st -> length (c_entries st) <= size /\ NoDup (map e_result (c_entries st)) /\ forall e, In e (c_entries st) -> e_result e < c_next st.
Proof. exact @cached_bound. Qed.
Print Assumptions C51_bounded.
(** a function whose value is the number of edges, two graphs with equal contents *)
Definition ex_F (f : nat) (c : contents) : res nat := Ok (fold_right Nat.add 0 (map (fun p => length (snd p)) c)).
Definition ex_hash (c : contents) : nat := fold_right (fun p n => fst p + length (snd p) + n) 0 c.
Definition ex_sets (r : nat) : list node := match r with 10 => [1] | 20 => [1] | _ => [] end.
Definition ex_st0 : cstate nat := mkCache ex_sets (fun _ => 0) 0 [].
Definition ex_g1 : graph_obj := [(1, 11); (2, 10); (3, 12)].
Definition ex_g2 : graph_obj := [(2, 20); (1, 21); (3, 22)].
Example ex_C51 : cache_history ex_hash ex_F 128 false false (snd (cached_call ex_hash ex_F 128 0 ex_g1 ex_st0)) /\
  NoDup (map fst ex_g2) /\
  fst (cached_call ex_hash ex_F 128 0 ex_g2 (snd (cached_call ex_hash ex_F 128 0 ex_g1 ex_st0))) = Ok 0 /\
  same_graph (contents_of ex_st0 ex_g1) (contents_of ex_st0 ex_g2).
Proof.
  split; [eapply ch_call; [apply ch_start|apply surjective_pairing]|]. split; [repeat constructor; simpl; intuition discriminate|].
  split; [vm_compute; reflexivity|]. apply dict_eqb_iff. vm_compute. reflexivity.
Qed.
(** finding: callers with equal graphs share the returned object; changing it changes what the
    other one has, and what every later call returns *)
Theorem C51_shared_refuted : exists st1 st2 st3 i,
  cached_call ex_hash ex_F 128 0 ex_g1 ex_st0 = (Ok i, st1) /\ st2 = change_result i 99 st1 /\
  cached_call ex_hash ex_F 128 0 ex_g2 st2 = (Ok i, st3) /\ c_vals st3 i = 99 /\ ex_F 0 (contents_of st3 ex_g2) = Ok 1.
Proof.
  exists (snd (cached_call ex_hash ex_F 128 0 ex_g1 ex_st0)), (change_result 0 99 (snd (cached_call ex_hash ex_F 128 0 ex_g1 ex_st0))).
  eexists. exists 0. split; [vm_compute; reflexivity|]. split; [reflexivity|]. split; [vm_compute; reflexivity|]. split; vm_compute; reflexivity.
Qed.
Print Assumptions C51_shared_refuted.
(** finding: the key shares the sets of the argument.  If the set of node 2 is changed in place so
    that the hash stays the same (in CPython hash(-1) = hash(-2), so the nodes -1 and -2 will do),
    the old value is returned for the new graph. *)
Definition col_F (f : nat) (c : contents) : res (list (list node)) := Ok (map snd c).
Definition col_st0 : cstate (list (list node)) := mkCache ex_sets (fun _ => []) 0 [].
Theorem C51_collision_refuted : exists st1 st2 st3 i,
  cached_call ex_hash col_F 128 0 ex_g1 col_st0 = (Ok i, st1) /\ st2 = change_set 10 [3] st1 /\
  cached_call ex_hash col_F 128 0 ex_g1 st2 = (Ok i, st3) /\ c_vals st3 i = [[]; [1]; []] /\ col_F 0 (contents_of st3 ex_g1) = Ok [[]; [3]; []].
Proof.
  exists (snd (cached_call ex_hash col_F 128 0 ex_g1 col_st0)), (change_set 10 [3] (snd (cached_call ex_hash col_F 128 0 ex_g1 col_st0))).
  eexists. exists 0. split; [vm_compute; reflexivity|]. split; [reflexivity|]. split; [vm_compute; reflexivity|]. split; vm_compute; reflexivity.
Qed.
Print Assumptions C51_collision_refuted.
