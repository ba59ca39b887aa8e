(** Queues of schedulers; what constructing a condition set and assigning to it do. *)
From Verif Require Import BaseFacts SpecGraph TopoProofs SpecSched SpecGSC SpecChange CondSetFacts ResumeFrame SchedFacts SchedThms ChangeFacts.

Lemma F2_perm_in : forall (q r : list (list node)) n i, Forall2 (@Permutation node) q r ->
  ((exists l, nth_error q i = Some l /\ In n l) <-> (exists l, nth_error r i = Some l /\ In n l)).
Proof.
  intros q r n i F. revert i. induction F as [|a b q r P F IH]; intros [|i]; simpl; try (split; intros (l & E & I); discriminate).
  - split; intros (l & E & I); injection E as <-; eexists; (split; [reflexivity|]).
    + eapply Permutation_in; eauto.
    + eapply Permutation_in; [apply Permutation_sym|]; eauto.
  - apply IH.
Qed.
Lemma F2_perm_concat : forall (q r : list (list node)), Forall2 (@Permutation node) q r -> NoDup (concat q) -> NoDup (concat r).
Proof.
  intros q r F N. eapply Permutation_NoDup; [|exact N]. induction F; simpl; auto. simpl in N. apply NoDup_app_inv in N. destruct N as (_ & N & _).
  apply Permutation_app; auto.
Qed.
Theorem sched_queue : forall cyc arr is_s nx input base conds tc deid exact du ow w r d0 ks d g d',
  (forall q, Forall2 (@Permutation node) q (arr q)) -> arg_graph input = Ok base -> wf_graph base -> closed_graph base ->
  new_sched cyc arr input conds tc deid exact du ow nx w = (Ok r, d0) -> performs cyc arr ks d0 = Some d ->
  well_kinded is_s nx (SAddSet conds :: set_calls ks) -> added_once (SAddSet conds :: set_calls ks) ->
  (forall p, In p (registered_struct (SAddSet conds :: set_calls ks)) -> keeps_nodes (sc_gsc (snd p))) ->
  get_graph cyc arr d = (Ok g, d') ->
  (d_exact d = true -> fst (get_queue cyc arr d) = Ok [gkeys g]) /\
  (cyclic g -> fst (get_indices cyc arr d) = Ok [] /\ (d_exact d = false -> fst (get_queue cyc arr d) = Ok [[]])) /\
  (~ cyclic g -> exists q is, fst (get_indices cyc arr d) = Ok is /\ (d_exact d = false -> fst (get_queue cyc arr d) = Ok q) /\
     (forall n i, (exists l, nth_error q i = Some l /\ In n l) <-> in_graph g n /\ (exists a, walk g a i n) /\ (forall a k, walk g a k n -> k <= i)) /\
     (forall n i, aget n is = Some i <-> in_graph g n /\ (exists a, walk g a i n) /\ (forall a k, walk g a k n -> k <= i))).
Proof.
  intros cyc arr is_s nx input base conds tc deid exact du ow w r d0 ks d g d' AR AG W C N P WK AO BI G.
  pose proof (sinv_history _ _ _ _ _ _ _ _ _ _ _ _ _ _ _ _ _ AG N P WK AO) as I. set (L := registered_struct _) in *.
  unfold get_graph in G. destruct (sync cyc arr d) as [[r'|] d1] eqn:S; [|discriminate]. injection G as <- <-.
  destruct (sync_inv _ _ _ _ _ _ _ _ _ _ I S) as (I1 & (SL & ST) & Q). destruct (stack_top _ _ _ _ _ ST) as (g1 & st & E & A).
  assert (TG : top_graph d1 = g1) by (unfold top_graph; rewrite E; auto). assert (TQ : top_queue d1 = queue_of arr g1) by (unfold top_queue; rewrite E; auto).
  destruct (applies_wf _ _ _ _ A W C) as (W1 & C1 & K1).
  { intros n s X. split; [apply (BI (n, s)); auto|]. eapply si_kindH; [exact I|]. eapply si_sub; [exact I|]. exact X. }
  assert (EX : d_exact d1 = d_exact d) by (destruct (sync_set_stack _ _ _ _ _ S) as (s0 & l0 & ->); auto).
  unfold get_queue, get_indices. rewrite S. cbn [fst]. rewrite TG, TQ, EX. split; [intros ->; auto|]. split.
  - intros Cy. apply (toposort_cycle_iff g1 W1) in Cy. unfold queue_of. rewrite Cy. split; [reflexivity|]. intros ->. auto.
  - intros NC. destruct (proj2 (toposort_ok_iff g1 W1) NC) as (q & T). unfold queue_of. rewrite T.
    assert (D : NoDup (concat q)) by (apply (toposort_partition_ex g1 q W1 T)).
    assert (D2 : NoDup (concat (arr q))) by (eapply F2_perm_concat; eauto).
    assert (X : forall n i, (exists l, nth_error (arr q) i = Some l /\ In n l) <-> in_graph g1 n /\ (exists a, walk g1 a i n) /\ (forall a k, walk g1 a k n -> k <= i)).
    { intros n i. rewrite <- (F2_perm_in _ _ n i (AR q)), <- (queue_indices_spec q n i D). apply queue_index_longest; auto. }
    exists (arr q), (queue_indices (arr q)). split; auto. split; [intros ->; auto|]. split; auto.
    intros n i. rewrite <- X. apply queue_indices_spec; auto.
Qed.
Theorem cyclic_idle : forall cyc arr is_s nx input base conds tc deid exact du ow w r d0 ks d gr d',
  (forall q, Forall2 (@Permutation node) q (arr q)) -> arg_graph input = Ok base -> wf_graph base -> closed_graph base ->
  new_sched cyc arr input conds tc deid exact du ow nx w = (Ok r, d0) -> performs cyc arr ks d0 = Some d ->
  well_kinded is_s nx (SAddSet conds :: set_calls ks) -> added_once (SAddSet conds :: set_calls ks) ->
  (forall p, In p (registered_struct (SAddSet conds :: set_calls ks)) -> keeps_nodes (sc_gsc (snd p))) ->
  get_graph cyc arr d = (Ok gr, d') -> cyclic gr -> d_exact d = false ->
  forall d1 g1 ts g fuel d2 g2 s, srunning cyc arr d1 g1 ts d g -> g_pc g1 = PStart -> sresume cyc arr fuel d g = (d2, g2, OYield s) -> s = [].
Proof.
  intros cyc arr is_s nx input base conds tc deid exact du ow w r d0 ks d gr d' AR AG W C N P WK AO BI G Cy EX d1 g1 ts g fuel d2 g2 s R Hp Y.
  destruct (sched_queue _ _ _ _ _ _ _ _ _ _ _ _ _ _ _ _ _ _ _ AR AG W C N P WK AO BI G) as (_ & H & _). destruct (H Cy) as [_ Q]. specialize (Q EX).
  destruct (schange_one_level cyc arr R Hp _ _ _ _ Y) as (_ & q & Q' & [|(i & lv & E & I)]); auto.
  rewrite Q in Q'. injection Q' as <-. destruct i as [|[|i]]; simpl in E; try discriminate. injection E as <-.
  destruct s as [|x s]; auto. destruct (I x); simpl; auto.
Qed.
Lemma cs_new_fold : forall ds x, (forall e cs ow, x <> (Err e, cs, ow)) ->
  let r := fold_left (fun acc d => match acc with (Ok _, cs, ow) => cs_add_set d cs ow | y => y end) ds x in
  match x with
  | (Ok _, cs, ow) => match r with
     | (Ok _, cs', ow') => set_performs (map SAddSet ds) (cs, ow) = Some (cs', ow')
     | (Err e, cs', ow') => exists ds1 s ds2 cs1 ow1, ds = ds1 ++ s :: ds2 /\ set_performs (map SAddSet ds1) (cs, ow) = Some (cs1, ow1) /\
                            cs_add_set s cs1 ow1 = (Err e, cs', ow')
     end
  | _ => True
  end.
Proof.
  induction ds as [|s ds IH]; intros x N; cbv zeta in *.
  - simpl. destruct x as [[[u|e] cs] ow]; auto.
  - destruct x as [[[u|e] cs] ow]; [|auto]. cbn [fold_left]. destruct (cs_add_set s cs ow) as [[[u1|e1] cs1] ow1] eqn:A.
    + specialize (IH (Ok u1, cs1, ow1) ltac:(discriminate)). cbv beta iota in IH.
      set (F := fold_left _ ds _) in *. destruct F as [[[u2|e2] cs2] ow2].
      * cbn [map set_performs set_perform]. rewrite A. auto.
      * destruct IH as (ds1 & s1 & ds2 & c1 & o1 & -> & X & Y). exists (s :: ds1), s1, ds2, c1, o1. split; auto. split; auto.
        cbn [map set_performs set_perform]. rewrite A. auto.
    + assert (Z : forall l, fold_left (fun acc d => match acc with (Ok _, cs, ow) => cs_add_set d cs ow | y => y end) l (Err e1, cs1, ow1) = (Err e1, cs1, ow1))
        by (clear; induction l; simpl; auto).
      rewrite Z. exists [], s, ds, cs, ow. split; auto.
Qed.
Theorem cs_new_performs : forall ds ow cs' ow',
  cs_new ds ow = (Ok tt, cs', ow') <-> set_performs (map SAddSet ds) (cs_empty, ow) = Some (cs', ow').
Proof.
  intros ds ow cs' ow'. pose proof (cs_new_fold ds (Ok tt, cs_empty, ow) ltac:(discriminate)) as H. cbv beta iota zeta in H.
  unfold cs_new. destruct (fold_left _ ds _) as [[[[]|e] cs1] ow1].
  - split; intros E; [injection E as <- <-; auto|]. rewrite H in E. injection E as <- <-. auto.
  - split; [discriminate|]. intros E. exfalso. destruct H as (ds1 & s & ds2 & c1 & o1 & -> & X & Y).
    revert E X. generalize (cs_empty, ow). induction ds1 as [|s1 ds1 IH]; intros x E X; cbn [app map set_performs] in *.
    + injection X as ->. cbn [set_perform] in E. rewrite Y in E. discriminate.
    + destruct (set_perform (SAddSet s1) x); [eauto|discriminate].
Qed.
