(** C70: keyword arguments of run; C71: arguments given when conditions are created. *)
From Verif Require Import SpecKwargs KwargsFacts.
Open Scope nat_scope.

(** ** C70 *)
(** Keyword arguments of run whose names are not names of parameters of built-in conditions:
    built-in conditions are evaluated as without them, and every custom function receives them,
    together with scheduler, execution_id and its own arguments, in the same way however deeply
    it is nested in All, Any, Not and NWhen. *)
Theorem C70_received : forall v owners kwargs c e st, run_keywords kwargs ->
  (forall k, ahas k kwargs = true -> ~ mentions c k) ->
  run_eval v owners kwargs c e st = eval v e owners (plain kwargs c) st.
Proof. intros v owners kwargs c e st R. exact (received e kwargs R v owners c st). Qed.
Print Assumptions C70_received.
(** def f(x, level=0): return level > x, with names 40 and 41 *)
Definition f_ex (b : bound pyval) : userfun := fun v e own w =>
  (match value 40 b, value 41 b with YInt x, YInt l => Ok (Z.ltb x l) | YInt x, YNone => Ok (Z.ltb x 0) | _, _ => Err EType end, w).
(** All(Not(Condition(f, 3)), NWhen(WhileNot(f, 7), 2), AfterPass(1)), in run(level=5) *)
Definition c_ex : kcond :=
  KAll 1 [KNot 2 (KFun 3 false [req 40; opt 41] [YInt 3] [] f_ex);
          KNWhen 4 (KFun 5 true [req 40; opt 41] [YInt 7] [] f_ex) 2; KAtom 6 (ATime Gt PASS 1 ESU)].
Definition clock_ex : clock :=
  match bind (clock_incr PASS new_clock) (clock_incr PASS) with Ok k => k | Err _ => new_clock end.   (* pass 2 *)
Definition view_ex : view := mkView [10] [[10]] false None None None clock_ex.
Definition st_ex : cstate := mkCstate (fun _ _ => 0) (mkWorld (fun _ _ => None) (fun _ _ => None) (fun _ => 0)).
Example ex_C70 : run_keywords [(41, YInt 5)] /\ (forall k, ahas k [(41, YInt 5)] = true -> ~ mentions c_ex k) /\
  fst (run_eval view_ex (fun _ => None) [(41, YInt 5)] c_ex 0 st_ex) = Ok false /\
  fst (run_eval view_ex (fun _ => None) [(41, YInt 2)] c_ex 0 st_ex) = Ok true.
Proof.
  split; [split; [repeat constructor; simpl; intuition|split; reflexivity]|]. split.
  - intros k Hk M. rewrite ahas_cons in Hk. apply Bool.orb_true_iff in Hk. destruct Hk as [Hk|Hk]; [|discriminate]. apply Nat.eqb_eq in Hk. subst k.
    assert (X : forall c k, mentions c k -> k = 41 -> c <> c_ex /\ c <> KNot 2 (KFun 3 false [req 40; opt 41] [YInt 3] [] f_ex) /\
      c <> KNWhen 4 (KFun 5 true [req 40; opt 41] [YInt 7] [] f_ex) 2 /\ (forall o a, c = KAtom o a -> a <> ATime Gt PASS 1 ESU) /\ (forall o n s a k f, c <> KFun o n s a k f)).
    { induction 1 as [o a k I|o a k I|o cs c k I M' IH|o cs c k I M' IH|o c|o c k M' IH|o c n|o c n|o c n k M' IH]; intros E;
        try (specialize (IH E); destruct IH as (I1 & I2 & I3 & I4 & I5)); try discriminate.
      - repeat split; try discriminate. intros o' a' Ea Eb. injection Ea as -> <-. subst a. simpl in I. destruct I as [<-|[<-|[]]]; discriminate.
      - repeat split; try discriminate. intros o' a' Ea Eb. injection Ea as -> <-. subst a. destruct I.
      - repeat split; try discriminate. intros Ec. injection Ec as -> ->. simpl in I. destruct I as [<-|[<-|[<-|[]]]]; [apply I2; auto|apply I3; auto|].
        eapply I4; reflexivity.
      - repeat split; try discriminate.
      - repeat split; try discriminate. intros Ec. injection Ec as -> ->. eapply I5; reflexivity.
      - repeat split; try discriminate. intros Ec. injection Ec as -> -> ->. eapply I5; reflexivity. }
    destruct (X c_ex 41 M eq_refl) as (Y & _). apply Y. reflexivity.
  - split; vm_compute; reflexivity.
Qed.
(** finding: a keyword argument of run that has the name of a parameter which a built-in condition
    passes by position (n, time_scale, dependency; condition for Not and NWhen) makes every
    evaluation of that condition raise TypeError *)
Theorem C70_clash_refuted :
  (forall v owners kwargs o a e st k, In k (by_position a) -> ahas k kwargs = true -> run_eval v owners kwargs (KAtom o a) e st = (Err EType, st)) /\
  (forall v owners kwargs o c e st, ahas kw_condition kwargs = true -> run_eval v owners kwargs (KNot o c) e st = (Err EType, st)) /\
  (forall v owners kwargs o c n e st, ahas kw_condition kwargs = true \/ ahas kw_n kwargs = true -> run_eval v owners kwargs (KNWhen o c n) e st = (Err EType, st)).
Proof. split; [exact atom_clash|]. split; [exact not_clash|exact nwhen_clash]. Qed.
Print Assumptions C70_clash_refuted.
(** run(n=3) with BeforePass(2), which is satisfied in the first pass *)
Example ex_C70_clash : run_keywords [(kw_n, YInt 3)] /\ In kw_n (by_position (ATime Gt PASS 1 ESU)) /\
  run_eval view_ex (fun _ => None) [(kw_n, YInt 3)] (KAtom 1 (ATime Gt PASS 1 ESU)) 0 st_ex = (Err EType, st_ex) /\
  fst (run_eval view_ex (fun _ => None) [] (KAtom 1 (ATime Gt PASS 1 ESU)) 0 st_ex) = Ok true.
Proof. split; [split; [repeat constructor; simpl; intuition|split; reflexivity]|]. split; [simpl; auto|]. split; vm_compute; reflexivity. Qed.
(** finding: parameters passed by keyword are silently replaced: run(n=k) makes every
    AfterNCallsCombined wait for k calls, run(threshold=t) makes every Threshold compare with t *)
Theorem C70_override_refuted :
  (forall v owners kwargs o ds n s z e st, run_keywords kwargs -> aget kw_n kwargs = Some (YInt z) ->
     run_eval v owners kwargs (KAtom o (ACallsCombined ds n s)) e st = eval v e owners (AfterNCallsCombined o ds (Some (Z.to_nat z)) s) st) /\
  (forall v owners kwargs o d p t t' c c' ix ix' atol atol' rtol rtol' e st, run_keywords kwargs ->
     effective kwargs kw_threshold (YRat t) (YRat t') -> effective kwargs kw_comparator (YCmp c) (YCmp c') ->
     effective kwargs kw_indices (y_indices ix) (y_indices ix') ->
     effective kwargs kw_atol (YRat atol) (YRat atol') -> effective kwargs kw_rtol (YRat rtol) (YRat rtol') ->
     run_eval v owners kwargs (KAtom o (AThreshold d p t c ix atol rtol)) e st = eval v e owners (Threshold o d p t' c' ix' atol' rtol') st).
Proof. split; [exact combined_override|exact threshold_override]. Qed.
Print Assumptions C70_override_refuted.
(** node 10 was called twice: AfterNCallsCombined(10, n=5) holds in run(n=2) *)
Definition view2_ex : view := mkView [10] [[10]] false (Some (fun _ _ => 2)) None None new_clock.
Example ex_C70_override : run_keywords [(kw_n, YInt 2)] /\
  fst (run_eval view2_ex (fun _ => None) [(kw_n, YInt 2)] (KAtom 1 (ACallsCombined [10] (Some 5) ESU)) 0 st_ex) = Ok true /\
  fst (run_eval view2_ex (fun _ => None) [] (KAtom 1 (ACallsCombined [10] (Some 5) ESU)) 0 st_ex) = Ok false.
Proof. split; [split; [repeat constructor; simpl; intuition|split; reflexivity]|]. split; vm_compute; reflexivity. Qed.

(** ** C71 *)
(** Condition(func, *args, **kwargs): if no keyword is the name of an attribute of conditions, the
    condition has no owner, and its function is called with args and kwargs *)
Theorem C71_created : forall sig args kwargs e kw,
  (forall k, ahas k kwargs = true -> ~ In k [kw_self; kw_func; kw__owner; kw_args; kw_kwargs; kw_owner; kw_is_satisfied;
                                             kw_is_absolute; kw_absolute_intervals; kw_absolute_fixed_points]) ->
  exists c, new_condition args kwargs = Ok c /\ co_owner c = YNone /\
    object_call sig c e kw = match condition_call kw_execution_id sig args kwargs [] (YEid e) kw with Some b => Ok b | None => Err EType end.
Proof. exact created. Qed.
Print Assumptions C71_created.
(** Condition(f, 3, level=5) *)
Example ex_C71 : (forall k, ahas k [(41, YInt 5)] = true -> ~ In k [kw_self; kw_func; kw__owner; kw_args; kw_kwargs; kw_owner; kw_is_satisfied;
    kw_is_absolute; kw_absolute_intervals; kw_absolute_fixed_points]) /\
  bind (new_condition [YInt 3] [(41, YInt 5)]) (fun c => object_call [req 40; opt 41] c 0 [(kw_scheduler, YSched)]) =
  Ok (mkBound [(40, Some (YInt 3)); (41, Some (YInt 5))] [] []).
Proof.
  split; [|vm_compute; reflexivity]. intros k Hk. rewrite ahas_cons in Hk. apply Bool.orb_true_iff in Hk. destruct Hk as [Hk|Hk]; [|discriminate].
  apply Nat.eqb_eq in Hk. subst k. simpl. intuition discriminate.
Qed.
(** finding: keyword arguments are also set as attributes.  Condition(f, 1, args=[2]) calls f(2);
    with kwargs=... or is_satisfied=... every evaluation fails, with owner=... the condition gets
    an owner, with is_absolute=... (or another property) it cannot be created, _owner=... is not given to f;
    self and func are refused. *)
Theorem C71_attributes_refuted :
  bind (new_condition [YInt 1] [(kw_args, YList [YInt 2])]) (fun c => object_call [req 40] c 0 []) = Ok (mkBound [(40, Some (YInt 2))] [] []) /\
  (forall sig args x e kw, bind (new_condition args [(kw_kwargs, YInt x)]) (fun c => object_call sig c e kw) = Err EAttribute) /\
  (forall sig args x e kw, bind (new_condition args [(kw_is_satisfied, x)]) (fun c => object_call sig c e kw) = Err EType) /\
  (forall args d, bind (new_condition args [(kw_owner, YNode d)]) (fun c => Ok (co_owner c)) = Ok (YNode d)) /\
  (forall args k x, In k [kw_is_absolute; kw_absolute_intervals; kw_absolute_fixed_points] -> new_condition args [(k, x)] = Err EAttribute) /\
  (forall args kwargs, ahas kw_self kwargs = true \/ ahas kw_func kwargs = true -> new_condition args kwargs = Err EType) /\
  (forall sig args x e kw, bind (new_condition args [(kw_args, YInt x)]) (fun c => object_call sig c e kw) = Err EType) /\
  bind (new_condition [YInt 1] [(kw_args, YDict [(40, YInt 2); (41, YInt 3)])]) (fun c => object_call [req 42; req 43] c 0 []) =
    Ok (mkBound [(42, Some (YName 40)); (43, Some (YName 41))] [] []) /\
  bind (new_condition [] [(kw__owner, YInt 4)]) (fun c => object_call [req kw__owner] c 0 []) = Err EType.
Proof.
  split; [reflexivity|]. split; [reflexivity|]. split; [reflexivity|]. split; [reflexivity|].
  split; [intros args k x [<-|[<-|[<-|[]]]]; reflexivity|].
  split; [intros args kwargs [H|H]; unfold new_condition; rewrite H, ?Bool.orb_true_r; reflexivity|].
  split; [reflexivity|]. split; reflexivity.
Qed.
Print Assumptions C71_attributes_refuted.
(** All and Any with components given by position *)
Theorem C71_composite : forall o args, new_all o args [] = Ok (KAll o args) /\ new_any o args [] = Ok (KAny o args) /\
  forall k l, new_all o args [(k, DMany l)] = Ok (KAll o (args ++ l)) /\ new_any o args [(k, DMany l)] = Ok (KAny o (args ++ l)).
Proof. intros o args. repeat split. Qed.
Print Assumptions C71_composite.
Example ex_C71_composite : new_all 1 [KAtom 2 AAlways] [(40, DMany [KAtom 3 ANever])] = Ok (KAll 1 [KAtom 2 AAlways; KAtom 3 ANever]).
Proof. reflexivity. Qed.
(** finding: a condition given by keyword, or two keyword arguments of any kind, raise TypeError *)
Theorem C71_composite_refuted : forall o args deps, (exists k c, deps = [(k, DOne c)]) \/ 2 <= length deps ->
  new_all o args deps = Err EType /\ new_any o args deps = Err EType.
Proof.
  intros o args deps [(k & c & ->)|L]; [split; reflexivity|]. unfold new_all, new_any, composite_args.
  destruct deps as [|[k x] [|[k' y] r]]; simpl in L; try lia. cbn [map snd]. destruct x; split; reflexivity.
Qed.
Print Assumptions C71_composite_refuted.
