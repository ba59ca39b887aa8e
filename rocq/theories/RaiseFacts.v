(** Lemmas for C86. *)
From Verif Require Import BaseFacts TimeProofs CondProofs ThreshFacts SpecRaise.
Open Scope nat_scope.
Open Scope list_scope.

Lemma satisfied_atom : forall v e ow st o a, is_satisfied v e ow st (CAtom o a) = fst (eval_atom v e (ow o) a (s_world st)).
Proof. intros. unfold is_satisfied. cbn [eval]. destruct (eval_atom v e (ow o) a (s_world st)). reflexivity. Qed.

Lemma count_total_cases : forall v s d, (counted v d /\ count_total v s d = Ok (calls_of v s d)) \/ (~ counted v d /\ count_total v s d = Err EKey).
Proof.
  intros v s d. unfold counted, calls_of, count_total. destruct (v_total v) as [t|]; [|right; split; auto; intros [N _]; congruence].
  destruct (mem d (v_nodes v)) eqn:M; [apply mem_In in M; left; split; auto; split; auto; discriminate|].
  right. split; auto. intros [_ I]. apply mem_In in I. congruence.
Qed.
Lemma sum_calls_raises : forall v s ds acc ex, sum_calls v s ds acc = Err ex <-> ex = EKey /\ exists d, In d ds /\ ~ counted v d.
Proof.
  intros v s. induction ds as [|d r IH]; intros acc ex; cbn [sum_calls].
  - split; [discriminate|]. intros (_ & d & [] & _).
  - destruct (count_total_cases v s d) as [[C E]|[C E]]; rewrite E; cbn [bind].
    + rewrite IH. split; intros (-> & x & I & N); split; auto; [exists x; simpl; auto|].
      destruct I as [<-|I]; [contradiction|eauto].
    + split; [intros H; injection H as <-; split; auto; exists d; simpl; auto|]. intros (-> & _). reflexivity.
Qed.
Lemma first_cons : forall P x l d, first_without P (x :: l) d <-> (x = d /\ ~ P d) \/ (P x /\ first_without P l d).
Proof.
  intros P x l d. split.
  - intros (a & b & E & F & N). destruct a as [|y a]; injection E as <- E; [left; auto|]. right. split; [apply F; simpl; auto|].
    exists a, b. split; auto. split; auto. intros z I. apply F. simpl. auto.
  - intros [[<- N]|[Px (a & b & -> & F & N)]].
    + exists [], l. split; auto. split; [intros z []|auto].
    + exists (x :: a), b. split; auto. split; auto. intros z [<-|I]; auto.
Qed.
Lemma first_nil : forall P d, ~ first_without P [] d.
Proof. intros P d (a & b & E & _). destruct a; discriminate. Qed.
Lemma have_run_raises : forall v s ds ex, all_have_run v s ds = Err ex <->
  ex = ECondition /\ exists d, first_without (fun x => counted v x /\ 1 <= calls_of v s x) ds d /\ ~ counted v d.
Proof.
  intros v s. induction ds as [|d r IH]; intros ex; cbn [all_have_run].
  - split; [discriminate|]. intros (_ & d & F & _). destruct (first_nil _ _ F).
  - destruct (count_total_cases v s d) as [[C E]|[C E]]; rewrite E.
    + destruct (Nat.ltb_spec (calls_of v s d) 1) as [L|L].
      * split; [discriminate|]. intros (_ & x & F & N). apply first_cons in F. destruct F as [[<- _]|[[_ X] _]]; [contradiction|lia].
      * rewrite IH. split; intros (-> & x & F & N); split; auto; exists x; split; auto; [apply first_cons; right; auto|].
        apply first_cons in F. destruct F as [[<- _]|[_ F]]; [contradiction|exact F].
    + split; [intros H; injection H as <-; split; auto; exists d; split; auto; apply first_cons; left; tauto|]. intros (-> & _). reflexivity.
Qed.
Lemma finished_any_raises : forall w e ds ex, finished_any w e ds = Err ex <->
  ex = ECondition /\ exists d, first_without (fun x => w_finished w x e = Some false) ds d /\ w_finished w d e = None.
Proof.
  intros w e. induction ds as [|d r IH]; intros ex; cbn [finished_any].
  - split; [discriminate|]. intros (_ & d & F & _). destruct (first_nil _ _ F).
  - destruct (w_finished w d e) as [[|]|] eqn:E.
    + split; [discriminate|]. intros (_ & x & F & N). apply first_cons in F. destruct F as [[<- _]|[X _]]; congruence.
    + rewrite IH. split; intros (-> & x & F & N); split; auto; exists x; split; auto; [apply first_cons; right; auto|].
      apply first_cons in F. destruct F as [[<- _]|[_ F]]; [congruence|exact F].
    + split; [intros H; injection H as <-; split; auto; exists d; split; auto; apply first_cons; left; split; auto; congruence|]. intros (-> & _). reflexivity.
Qed.
Lemma finished_all_raises : forall w e ds ex, finished_all w e ds = Err ex <->
  ex = ECondition /\ exists d, first_without (fun x => w_finished w x e = Some true) ds d /\ w_finished w d e = None.
Proof.
  intros w e. induction ds as [|d r IH]; intros ex; cbn [finished_all].
  - split; [discriminate|]. intros (_ & d & F & _). destruct (first_nil _ _ F).
  - destruct (w_finished w d e) as [[|]|] eqn:E.
    + rewrite IH. split; intros (-> & x & F & N); split; auto; exists x; split; auto; [apply first_cons; right; auto|].
      apply first_cons in F. destruct F as [[<- _]|[_ F]]; [congruence|exact F].
    + split; [discriminate|]. intros (_ & x & F & N). apply first_cons in F. destruct F as [[<- _]|[X _]]; congruence.
    + split; [intros H; injection H as <-; split; auto; exists d; split; auto; apply first_cons; left; split; auto; congruence|]. intros (-> & _). reflexivity.
Qed.
Lemma relative_raises : forall h k q b ex, clock_after ESU h k -> q <> LIFE -> clock_total_relative q b k = Err ex <-> ex = ETimeScale /\ q = CSE /\ b = PASS.
Proof.
  intros h k q b ex C Q. assert (L : ts_lt q LIFE) by (destruct q; unfold ts_lt; cbn [ts_val]; try lia; congruence).
  destruct (Nat.lt_ge_cases (ts_val q) (ts_val b)) as [X|X].
  - destruct (Nat.lt_ge_cases (ts_val b) (ts_val ESU)) as [Y|Y].
    + rewrite (total_relative_too_fine _ _ _ _ _ C X Y). destruct q, b; cbn [ts_val] in X, Y; try lia.
      split; [intros H; injection H as <-; auto|intros (-> & _); auto].
    + destruct (since_at_least_exists b h) as [h2 S2]. rewrite (total_relative _ _ _ _ _ _ C X Y S2). split; [discriminate|]. intros (_ & -> & ->). cbn [ts_val] in Y. lia.
  - rewrite (total_relative_coarse_query _ _ _ _ _ C X L). split; [discriminate|]. intros (_ & -> & ->). cbn [ts_val] in X. lia.
Qed.
Lemma owner_level_cases : forall q i own acc, 
  (exists j, owner_level i q own acc = Some j /\ (acc <> None \/ exists o level, own = Some o /\ In level q /\ In o level)) \/
  (owner_level i q own acc = None /\ acc = None /\ forall o level, own = Some o -> In level q -> ~ In o level).
Proof.
  induction q as [|cs r IH]; intros i own acc; cbn [owner_level].
  - destruct acc as [j|]; [left; exists j; split; auto; left; discriminate|right; repeat split; auto; intros ? ? ? []].
  - destruct own as [o|].
    + destruct (mem o cs) eqn:M.
      * apply mem_In in M. destruct (IH (S i) (Some o) (Some i)) as [(j & E & _)|(E & X & _)]; [|discriminate].
        left. exists j. split; auto. right. exists o, cs. simpl. auto.
      * destruct (IH (S i) (Some o) acc) as [(j & E & H)|(E & X & H)].
        -- left. exists j. split; auto. destruct H as [H|(o' & l & A & B & D)]; [auto|]. right. exists o', l. simpl. auto.
        -- right. repeat split; auto. intros o' l A [<-|B] D; [|eapply H; eauto]. injection A as <-. apply mem_In in D. congruence.
    + destruct (IH (S i) None acc) as [(j & E & H)|(E & X & H)].
      * left. exists j. split; auto. destruct H as [H|(o' & l & A & _)]; [auto|discriminate].
      * right. repeat split; auto. intros o' l A. discriminate.
Qed.
Lemma exact_view : forall v, in_exact_time_mode v = true <-> exact_time_view v.
Proof. intros v. unfold in_exact_time_mode, exact_time_view. rewrite orb_true_iff, Nat.eqb_eq. tauto. Qed.
Lemma index_value_at : forall ix p y, index_value p ix = Ok y -> at_index p ix y.
Proof.
  induction ix as [|i r IH]; intros p y H; cbn [index_value] in H; [injection H as <-; constructor|]. destruct p as [x|l]; [discriminate|].
  destruct (item l i) as [z|] eqn:Y; [|discriminate]. apply item_element in Y. econstructor; eauto.
Qed.
Lemma index_raises : forall ix p ex, index_value p ix = Err ex ->
  exists a i b, ix = a ++ i :: b /\ ((ex = EType /\ exists x, at_index p a (PNum x)) \/ (ex = EIndex /\ exists l, at_index p a (PSeq l) /\ forall x, ~ element l i x)).
Proof.
  induction ix as [|i r IH]; intros p ex H; cbn [index_value] in H; [discriminate|]. destruct p as [x|l].
  - injection H as <-. exists [], i, r. split; auto. left. split; auto. exists x. constructor.
  - destruct (item l i) as [y|] eqn:Y.
    + destruct (IH _ _ H) as (a & j & b & -> & C). exists (i :: a), j, b. split; auto. apply item_element in Y.
      destruct C as [(-> & x & A)|(-> & l' & A & N)]; [left|right]; split; auto.
      * exists x. econstructor; eauto.
      * exists l'. split; auto. econstructor; eauto.
    + injection H as <-. exists [], i, r. split; auto. right. split; auto. exists l. split; [constructor|]. intros x E. apply item_element in E. congruence.
Qed.
Lemma time_interval_raises : forall v own rep st en si ei ex, time_interval v own rep st en si ei = Err ex <->
  exists r, rep = Some r /\
    ((ex = EUnboundLocal /\ ~ (exact_time_view v /\ st <> None) /\ forall o level, own = Some o -> In level (v_queue v) -> ~ In o level) \/
     (ex = EZeroDiv /\ ((exact_time_view v /\ st <> None) \/ (exists o level, own = Some o /\ In level (v_queue v) /\ In o level)) /\ (q_val r == 0)%Q)).
Proof.
  intros v own rep st en si ei ex. unfold time_interval. destruct rep as [r|]; [|cbn [bind]; split; [discriminate|intros (r & X & _); discriminate]].
  set (off := match in_exact_time_mode v, st with true, Some s => Some (q_val s) | _, _ => _ end).
  assert (O : (exists x, off = Some x /\ ((exact_time_view v /\ st <> None) \/ (exists o level, own = Some o /\ In level (v_queue v) /\ In o level))) \/
              (off = None /\ ~ (exact_time_view v /\ st <> None) /\ forall o level, own = Some o -> In level (v_queue v) -> ~ In o level)).
  { assert (D : (exact_time_view v /\ st <> None) \/ ~ (exact_time_view v /\ st <> None)).
    { destruct (in_exact_time_mode v) eqn:M; [apply exact_view in M; destruct st; [left; split; auto; discriminate|right; tauto]|].
      right. intros [X _]. apply exact_view in X. congruence. }
    destruct D as [[D1 D2]|D].
    - left. destruct st as [s|]; [|tauto]. pose proof (proj2 (exact_view v) D1) as M. exists (q_val s). unfold off. rewrite M. split; auto.
    - assert (E : off = match owner_level 0 (v_queue v) own None with Some i => Some (inject_Z (Z.of_nat i) * t_interval (k_time (v_clock v)))%Q | None => None end).
      { unfold off. destruct (in_exact_time_mode v) eqn:M; auto. destruct st; auto. exfalso. apply D. split; [apply exact_view; auto|discriminate]. }
      rewrite E. destruct (owner_level_cases (v_queue v) 0 own None) as [(j & -> & [X|X])|(-> & _ & X)]; [congruence| |].
      + left. eexists. split; [reflexivity|]. auto.
      + right. auto. }
  clearbody off. cbv zeta. destruct O as [(x & -> & P)|(-> & N & Z)].
  - destruct (Qeq_bool (q_val r) 0) eqn:Q0; cbn [bind].
    + apply Qeq_bool_iff in Q0. split.
      * intros H. injection H as <-. exists r. split; auto.
      * intros (r' & X & [(-> & N & Z)|(-> & _)]); [|reflexivity]. exfalso. destruct P as [P|(o & l & A & B & D)]; [tauto|eapply Z; eauto].
    + apply Qeq_bool_neq in Q0. split; [discriminate|]. intros (r' & X & H). injection X as <-.
      destruct H as [(-> & N & Z)|(-> & _ & Y)]; [|contradiction]. exfalso. destruct P as [P|(o & l & A & B & D)]; [tauto|eapply Z; eauto].
  - cbn [bind]. split; [intros H; injection H as <-; exists r; split; auto|].
    intros (r' & X & [(-> & _)|(-> & [P|(o & l & A & B & D)] & _)]); auto; [tauto|exfalso; eapply Z; eauto].
Qed.

Theorem atom_raises : forall v h e ow st o a ex, clock_after ESU h (v_clock v) -> library a ->
  (is_satisfied v e ow st (CAtom o a) = Err ex <-> raises v e (ow o) (s_world st) a ex).
Proof.
  intros v h e ow st o a ex C L. rewrite satisfied_atom. generalize (ow o). intros own. set (w := s_world st). clearbody w.
  destruct a; cbn [eval_atom fst].
  - split; [discriminate|inversion 1].
  - split; [discriminate|inversion 1].
  - destruct (clock_total_relative q base (v_clock v)) eqn:E; cbn [bind].
    + split; [discriminate|]. inversion 1; subst. assert (X : clock_total_relative CSE PASS (v_clock v) = Err ETimeScale) by (apply (relative_raises h); auto; discriminate). congruence.
    + assert (Q : q <> LIFE) by (intros ->; exact L). apply (relative_raises h) in E; auto. destruct E as (-> & -> & ->).
      split; [intros H; injection H as <-; constructor|inversion 1; reflexivity].
  - destruct (clock_total_relative PASS base (v_clock v)) eqn:E; cbn [bind].
    + destruct n; (split; [try discriminate|inversion 1; reflexivity]). intros H; injection H as <-; constructor.
    + apply (relative_raises h) in E; auto; [|discriminate]. destruct E as (_ & E & _). discriminate.
  - split; [discriminate|inversion 1].
  - destruct (count_total_cases v s d) as [[D E]|[D E]]; rewrite E; cbn [bind].
    + split; [discriminate|]. inversion 1; subst. contradiction.
    + split; [intros H; injection H as <-; constructor; auto|inversion 1; reflexivity].
  - destruct n as [n|].
    + destruct (sum_calls v s ds 0) eqn:E; cbn [bind].
      * split; [discriminate|]. inversion 1; subst. assert (X : sum_calls v s ds 0 = Err EKey) by (apply sum_calls_raises; split; eauto). congruence.
      * apply sum_calls_raises in E. destruct E as (-> & d & I & N). split; [intros H; injection H as <-; econstructor; eauto|inversion 1; reflexivity].
    + split; [intros H; injection H as <-; constructor|inversion 1; reflexivity].
  - unfold count_useable. destruct (v_use v) as [u|] eqn:U; cbn [bind].
    + destruct (mem d (v_nodes v)) eqn:M; cbn [bind].
      * apply mem_In in M. destruct own as [o'|]; cbn [bind].
        -- destruct (mem o' (v_nodes v)) eqn:M'; cbn [bind].
           ++ apply mem_In in M'. split; [discriminate|]. inversion 1; subst; try congruence; try contradiction. match goal with N : forall o, _ -> ~ _ |- _ => destruct (N _ eq_refl M') end.
           ++ split; [intros H; injection H as <-; apply ra_every_owner; intros o2 X I; injection X as <-; apply mem_In in I; congruence|inversion 1; reflexivity].
        -- split; [intros H; injection H as <-; apply ra_every_owner; intros o2 X; discriminate|inversion 1; reflexivity].
      * split; [intros H; injection H as <-; apply ra_every_dep; intros I; apply mem_In in I; congruence|inversion 1; reflexivity].
    + split; [intros H; injection H as <-; apply ra_every_id; auto|inversion 1; reflexivity].
  - destruct (v_list v) as [l|] eqn:V.
    + destruct (rev l) as [|x r] eqn:R.
      * assert (l = []) by (rewrite <- (rev_involutive l), R; reflexivity). subst l. split; [intros H; injection H as <-; apply ra_just_nothing; auto|inversion 1; congruence].
      * split; [discriminate|]. inversion 1; subst; [congruence|]. assert (l = []) by congruence. subst l. discriminate.
    + split; [intros H; injection H as <-; apply ra_just_id; auto|inversion 1; congruence].
  - rewrite have_run_raises. split.
    + intros (-> & d & F & N). econstructor; eauto.
    + inversion 1; subst. split; eauto.
  - destruct (w_finished w d e) eqn:F; [split; [discriminate|inversion 1; congruence]|].
    split; [intros H; injection H as <-; constructor; auto|inversion 1; reflexivity].
  - rewrite finished_any_raises. split; [intros (-> & d & F & N); econstructor; eauto|inversion 1; subst; split; eauto].
  - rewrite finished_all_raises. split; [intros (-> & d & F & N); econstructor; eauto|inversion 1; subst; split; eauto].
  - rename indices into ix. destruct (w_param w d par) as [x|] eqn:P.
    + unfold threshold_of. assert (E : (match ix with Some ix => index_value x ix | None => Ok x end) = index_value x (match ix with Some k => k | None => [] end)) by (destruct ix; reflexivity).
      replace (match ix with None => Ok x | Some ix0 => index_value x ix0 end) with (index_value x (match ix with Some k => k | None => [] end)) by (destruct ix; reflexivity).
      clear E. destruct (index_value x (match ix with Some k => k | None => [] end)) as [y|ex'] eqn:V; cbn [bind].
      * assert (V' := V). apply index_value_at in V'. destruct y as [q|l].
        -- split; [discriminate|]. inversion 1; subst.
           ++ congruence.
           ++ match goal with P2 : w_param w d par = Some ?p9 |- _ => assert (p9 = x) by congruence; subst p9 end. match goal with A : at_index _ _ (PSeq _) |- _ => apply index_value_spec in A; congruence end.
           ++ match goal with P2 : w_param w d par = Some ?p9 |- _ => assert (p9 = x) by congruence; subst p9 end. match goal with A : at_index _ _ (PNum _) |- _ => rewrite (index_value_app _ _ _ _ A) in V end. discriminate.
           ++ match goal with P2 : w_param w d par = Some ?p9 |- _ => assert (p9 = x) by congruence; subst p9 end. match goal with A : at_index _ _ (PSeq _) |- _ => rewrite (index_value_app _ _ _ _ A) in V end. simpl in V.
              destruct (item l i) as [z|] eqn:Y; [|discriminate]. apply item_element in Y. match goal with N : forall x, ~ element _ _ _ |- _ => destruct (N _ Y) end.
        -- split; [intros H; injection H as <-; econstructor; eauto|]. inversion 1; subst; try reflexivity.
           ++ congruence.
           ++ match goal with P2 : w_param w d par = Some ?p9 |- _ => assert (p9 = x) by congruence; subst p9 end. match goal with A : at_index _ _ (PSeq l0) |- _ => rewrite (index_value_app _ _ _ _ A) in V end. simpl in V.
              destruct (item l0 i) as [z|] eqn:Y; [|discriminate]. apply item_element in Y. match goal with N : forall x, ~ element _ _ _ |- _ => destruct (N _ Y) end.
      * assert (V' := V). apply index_raises in V'. destruct V' as (a & i & b & Ei & K). destruct ix as [ix|]; [|destruct a; discriminate]. subst ix. split.
        -- intros H. injection H as <-. destruct K as [(-> & z & A)|(-> & l & A & N)]; [eapply ra_number; eauto|eapply ra_index; eauto].
        -- inversion 1; subst.
           ++ congruence.
           ++ match goal with P2 : w_param w d par = Some ?p9 |- _ => assert (p9 = x) by congruence; subst p9 end. match goal with A : at_index x (_ ++ _) _ |- _ => apply index_value_spec in A; congruence end.
           ++ match goal with P2 : w_param w d par = Some ?p9 |- _ => assert (p9 = x) by congruence; subst p9 end. match goal with X : _ ++ _ :: _ = _ ++ _ :: _ |- _ => rewrite X in * | _ => idtac end.
              match goal with A : at_index x ?a0 (PNum ?n), Q : ?a0 ++ ?i0 :: ?b0 = _ |- _ => rewrite <- Q, (index_value_app _ _ _ _ A) in V end. simpl in V. congruence.
           ++ match goal with P2 : w_param w d par = Some ?p9 |- _ => assert (p9 = x) by congruence; subst p9 end.
              match goal with A : at_index x ?a0 (PSeq ?n), Q : ?a0 ++ ?i0 :: ?b0 = _ |- _ => rewrite <- Q, (index_value_app _ _ _ _ A) in V end. simpl in V.
              destruct (item l i0) as [z|] eqn:Y; [|congruence]. apply item_element in Y. match goal with N : forall x, ~ element l i0 _ |- _ => destruct (N _ Y) end.
    + split; [intros H; injection H as <-; constructor; auto|inversion 1; subst; congruence].
  - rewrite time_interval_raises. split.
    + intros (r & -> & [(-> & N & Z)|(-> & P & Z)]); constructor; auto.
    + inversion 1; subst; eexists; (split; [reflexivity|]); [left|right]; auto.
  - split; [discriminate|inversion 1].
  - destruct L.
Qed.

(** ** composites *)
Theorem all_raises : forall v e ow o cs st st2 ex, eval v e ow (CAll o cs) st = (Err ex, st2) <->
  exists a x b st1, cs = a ++ x :: b /\ eval v e ow (CAll o a) st = (Ok true, st1) /\ eval v e ow x st1 = (Err ex, st2).
Proof.
  intros v e ow o. induction cs as [|c r IH]; intros st st2 ex.
  - cbn [eval]. split; [discriminate|]. intros (a & x & b & st1 & E & _). destruct a; discriminate.
  - cbn [eval]. destruct (eval v e ow c st) as [[[|]|ex'] st'] eqn:E.
    + specialize (IH st' st2 ex). cbn [eval] in IH. rewrite IH. split.
      * intros (a & x & b & st1 & -> & A & X). exists (c :: a), x, b, st1. split; auto. split; auto. rewrite E. exact A.
      * intros (a & x & b & st1 & F & A & X). destruct a as [|y a].
        -- injection F as <- <-. injection A as <-. congruence.
        -- injection F as <- ->. rewrite E in A. exists a, x, b, st1. auto.
    + split; [discriminate|]. intros (a & x & b & st1 & F & A & X). destruct a as [|y a].
      * injection F as <- <-. injection A as <-. congruence.
      * injection F as <- ->. rewrite E in A. discriminate.
    + split.
      * intros H. injection H as -> ->. exists [], c, r, st. auto.
      * intros (a & x & b & st1 & F & A & X). destruct a as [|y a].
        -- injection F as <- <-. injection A as <-. congruence.
        -- injection F as <- ->. rewrite E in A. discriminate.
Qed.
Theorem any_raises : forall v e ow o cs st st2 ex, eval v e ow (CAny o cs) st = (Err ex, st2) <->
  exists a x b st1, cs = a ++ x :: b /\ eval v e ow (CAny o a) st = (Ok false, st1) /\ eval v e ow x st1 = (Err ex, st2).
Proof.
  intros v e ow o. induction cs as [|c r IH]; intros st st2 ex.
  - cbn [eval]. split; [discriminate|]. intros (a & x & b & st1 & E & _). destruct a; discriminate.
  - cbn [eval]. destruct (eval v e ow c st) as [[[|]|ex'] st'] eqn:E.
    + split; [discriminate|]. intros (a & x & b & st1 & F & A & X). destruct a as [|y a].
      * injection F as <- <-. injection A as <-. congruence.
      * injection F as <- ->. rewrite E in A. discriminate.
    + specialize (IH st' st2 ex). cbn [eval] in IH. rewrite IH. split.
      * intros (a & x & b & st1 & -> & A & X). exists (c :: a), x, b, st1. split; auto. split; auto. rewrite E. exact A.
      * intros (a & x & b & st1 & F & A & X). destruct a as [|y a].
        -- injection F as <- <-. injection A as <-. congruence.
        -- injection F as <- ->. rewrite E in A. exists a, x, b, st1. auto.
    + split.
      * intros H. injection H as -> ->. exists [], c, r, st. auto.
      * intros (a & x & b & st1 & F & A & X). destruct a as [|y a].
        -- injection F as <- <-. injection A as <-. congruence.
        -- injection F as <- ->. rewrite E in A. discriminate.
Qed.
Theorem not_raises : forall v e ow o c st ex, is_satisfied v e ow st (Not o c) = Err ex <-> is_satisfied v e ow st c = Err ex.
Proof. intros. unfold is_satisfied, Not. cbn [eval]. destruct (eval v e ow c st) as [[b|ex'] st']; simpl; split; congruence. Qed.
Theorem nwhen_raises : forall v e ow o c n st ex, is_satisfied v e ow st (CNWhen o c n) = Err ex <-> s_sats st o e < n /\ is_satisfied v e ow st c = Err ex.
Proof.
  intros. unfold is_satisfied. cbn [eval]. destruct (Nat.ltb_spec (s_sats st o e) n) as [L|L].
  - destruct (eval v e ow c st) as [[[|]|ex'] st']; simpl; split; try discriminate; intros H; try (destruct H; congruence); auto.
  - simpl. split; [discriminate|]. intros [X _]. lia.
Qed.
