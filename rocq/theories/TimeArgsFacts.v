(** Facts about the arguments of time conditions (C68). *)
From Verif Require Import SpecTimeArgs AbsFacts AbsRun.
From Coq Require Import Lia.
Open Scope nat_scope.

Lemma get_unit_is : forall p u l, get_unit p u = Ok l <-> unit_is p u l.
Proof.
  intros p u l. unfold unit_is. destruct u as [x|s]; simpl.
  - split; [intros [= ->]; auto|]. intros [[= ->]|(s & E & _)]; [auto|discriminate].
  - destruct (p_named p s) eqn:E; split.
    + intros [= ->]. right. exists s. auto.
    + intros [H|(s' & [= <-] & H)]; [discriminate|]. congruence.
    + discriminate.
    + intros [H|(s' & [= <-] & H)]; [discriminate|]. congruence.
Qed.
Lemma quantity_means : forall p n u q, get_quantity p n u = Ok q -> means p u n (q_val q).
Proof.
  intros p n u q H. destruct n as [x|s|q']; simpl in H.
  - destruct (get_unit p u) as [l|] eqn:E; [|discriminate]. injection H as <-. apply get_unit_is in E. exact (m_num p u x l E).
  - destruct (p_read p s) as [f|[x|]|] eqn:R; [|destruct (get_unit p u) as [l|] eqn:E; [|discriminate]|discriminate|destruct (get_unit p u); discriminate].
    + injection H as ->. apply m_full; auto.
    + injection H as <-. apply get_unit_is in E. exact (m_plain p u s x l R E).
  - injection H as ->. constructor.
Qed.
Lemma means_quantity : forall p n u x, means p u n x -> exists q, get_quantity p n u = Ok q /\ x = q_val q.
Proof.
  intros p n u x H. destruct H as [q|x l U|s q R|s x l R U]; simpl.
  - eauto.
  - apply get_unit_is in U. rewrite U. eexists; split; [reflexivity|reflexivity].
  - rewrite R. eauto.
  - rewrite R. apply get_unit_is in U. rewrite U. eexists; split; reflexivity.
Qed.
Lemma means_unique : forall p n u x y, means p u n x -> means p u n y -> x = y.
Proof.
  intros p n u x y A B. apply means_quantity in A. apply means_quantity in B. destruct A as (q & A & ->), B as (q' & B & ->). congruence.
Qed.
Lemma parse_value : forall p n u r, (forall l, In l (p_units p) -> (0 < l)%Q) -> parse_absolute_unit p n u = Ok r -> holds_value p u n r.
Proof.
  intros p n u r P H. destruct n as [n|]; simpl in H; [|injection H as <-; exact Logic.I].
  destruct (get_quantity p n u) as [q|] eqn:E; [|discriminate]. injection H as <-. simpl. exists (q_val q). split; [apply quantity_means; auto|apply reduce_value; auto].
Qed.
Lemma parse_meaningful : forall p n u, meaningful p u n -> exists r, parse_absolute_unit p n u = Ok r.
Proof.
  intros p n u H. destruct n as [n|]; simpl; [|eauto]. destruct (H n eq_refl) as (x & M). apply means_quantity in M. destruct M as (q & -> & _). simpl. eauto.
Qed.
Lemma holds_value_given : forall p u n q, holds_value p u n q ->
  (n = None -> q = None) /\ (forall k x, n = Some k -> means p u k x -> exists y, q = Some y /\ (q_val y == x)%Q).
Proof.
  intros p u n q H. destruct n as [n|], q as [q|]; simpl in H; try contradiction; split; intros; try discriminate; auto.
  injection H0 as <-. destruct H as (x' & M & E). rewrite (means_unique _ _ _ _ _ H1 M). eauto.
Qed.

Lemma interval_inv : forall p o rep st en u si ei c, new_TimeInterval p o rep st en u si ei = Ok c ->
  exists r s e, c = CAtom o (ATimeInterval r s e si ei) /\ parse_absolute_unit p rep u = Ok r /\ parse_absolute_unit p st u = Ok s /\ parse_absolute_unit p en u = Ok e.
Proof.
  intros p o rep st en u si ei c H. unfold new_TimeInterval in H.
  assert (H' : bind (match st, en with Some s, Some e => raw_gt s e | _, _ => Ok false end) (fun later =>
        if later then Err ECondition
        else bind (parse_absolute_unit p rep u) (fun r =>
             bind (parse_absolute_unit p st u) (fun s =>
             bind (parse_absolute_unit p en u) (fun e =>
               Ok (CAtom o (ATimeInterval r s e si ei)))))) = Ok c) by (destruct rep, st, en; try discriminate; exact H).
  clear H. destruct (match st, en with Some s, Some e => raw_gt s e | _, _ => Ok false end) as [[]|]; simpl in H'; try discriminate.
  destruct (parse_absolute_unit p rep u) as [r|] eqn:A; [|discriminate].
  destruct (parse_absolute_unit p st u) as [s|] eqn:B; [|discriminate].
  destruct (parse_absolute_unit p en u) as [e|] eqn:D; [|discriminate]. simpl in H'. injection H' as <-. exists r, s, e. auto.
Qed.
Lemma alike_compare : forall p u st en, positive_units p u -> alike st en -> meaningful p u st -> meaningful p u en ->
  exists b, match st, en with Some s, Some e => raw_gt s e | _, _ => Ok false end = Ok b /\ (b = true <-> later p u st en).
Proof.
  intros p u st en (P & Pu) Al Ms Me. destruct st as [s|]; [destruct en as [e|]|].
  - destruct (Al s e eq_refl eq_refl) as [(x & y & -> & ->)|(x & y & -> & ->)]; simpl.
    + exists (Qltb y x). split; [reflexivity|]. rewrite Qltb_iff. split.
      * intros L. destruct (Ms _ eq_refl) as (t & T). inversion T as [|x' l U| |]; subst.
        exists (RNum x), (RNum y), (x * l)%Q, (y * l)%Q. do 2 (split; [reflexivity|]). do 2 (split; [constructor; auto|]).
        apply Qmult_lt_compat_r; auto.
      * intros (s' & e' & a & b & [= <-] & [= <-] & A & B & L). inversion A as [|x' l U| |]; subst. inversion B as [|x' l' U'| |]; subst.
        assert (l' = l) by (apply get_unit_is in U; apply get_unit_is in U'; congruence). subst l'.
        apply Qmult_lt_r in L; auto.
    + exists (Qltb (q_val y) (q_val x)). split; [reflexivity|]. rewrite Qltb_iff. split.
      * intros L. exists (RQty x), (RQty y), (q_val x), (q_val y). repeat (split; [reflexivity || constructor|]). auto.
      * intros (s' & e' & a & b & [= <-] & [= <-] & A & B & L). inversion A; subst. inversion B; subst. auto.
  - exists false. split; [reflexivity|]. split; [discriminate|]. intros (s' & e' & a & b & _ & X & _). discriminate.
  - exists false. split; [reflexivity|]. split; [discriminate|]. intros (s' & e' & a & b & X & _). discriminate.
Qed.
Lemma interval_args : forall p o rep st en u si ei, positive_units p u -> meaningful p u rep -> meaningful p u st -> meaningful p u en -> alike st en ->
  (new_TimeInterval p o rep st en u si ei = Err ECondition /\ ((rep = None /\ st = None /\ en = None) \/ later p u st en)) \/
  (~ (rep = None /\ st = None /\ en = None) /\ ~ later p u st en /\
   exists r s e, new_TimeInterval p o rep st en u si ei = Ok (CAtom o (ATimeInterval r s e si ei)) /\
     holds_value p u rep r /\ holds_value p u st s /\ holds_value p u en e).
Proof.
  intros p o rep st en u si ei P Mr Ms Me Al. destruct (alike_compare p u st en P Al Ms Me) as (b & Eb & Hb).
  destruct (parse_meaningful p rep u Mr) as (r & Er), (parse_meaningful p st u Ms) as (s & Es), (parse_meaningful p en u Me) as (e & Ee).
  assert (N : rep = None /\ st = None /\ en = None \/ ~ (rep = None /\ st = None /\ en = None)).
  { destruct rep, st, en; (left; auto; fail) || (right; intros (? & ? & ?); discriminate). }
  destruct N as [(-> & -> & ->)|N]; [left; split; [reflexivity|left; auto]|].
  assert (U : new_TimeInterval p o rep st en u si ei = if b then Err ECondition else Ok (CAtom o (ATimeInterval r s e si ei))).
  { unfold new_TimeInterval. rewrite Er, Es, Ee, Eb. destruct rep, st, en; try reflexivity. exfalso; auto. }
  destruct P as (P & _).
  destruct b.
  - left. split; [exact U|]. right. apply Hb; auto.
  - right. split; [auto|]. split; [intros L; apply Hb in L; discriminate|]. exists r, s, e. split; [exact U|].
    split; [eapply parse_value; eauto|]. split; eapply parse_value; eauto.
Qed.
Lemma interval_given : forall p o rep st en u si ei c, positive_units p u -> new_TimeInterval p o rep st en u si ei = Ok c ->
  meaningful p u rep /\ meaningful p u st /\ meaningful p u en /\
  exists r s e, c = CAtom o (ATimeInterval r s e si ei) /\ forall t, in_window r s e si ei t <-> in_given_window p u rep st en si ei t.
Proof.
  intros p o rep st en u si ei c (P & _) H. apply interval_inv in H. destruct H as (r & s & e & -> & A & B & D).
  apply parse_value in A, B, D; auto.
  assert (G : forall n q, holds_value p u n q -> meaningful p u n).
  { intros n q X k ->. destruct q as [q|]; simpl in X; [|contradiction]. destruct X as (x & M & _). eauto. }
  split; [eapply G; eauto|]. split; [eapply G; eauto|]. split; [eapply G; eauto|]. exists r, s, e. split; [reflexivity|].
  intros t. unfold in_window, in_given_window. split; intros (X & Y & Z).
  - split; [|split].
    + intros n x -> M. destruct (proj2 (holds_value_given _ _ _ _ B) n x eq_refl M) as (y & -> & E). specialize (X y eq_refl). destruct si; rewrite <- E; auto.
    + intros n x -> M. destruct (proj2 (holds_value_given _ _ _ _ D) n x eq_refl M) as (y & -> & E). specialize (Y y eq_refl). destruct ei; rewrite <- E; auto.
    + intros n x -> M. destruct (proj2 (holds_value_given _ _ _ _ A) n x eq_refl M) as (y & -> & E). destruct (Z y eq_refl) as (z & Hz). split.
      * intros ->. rewrite (proj1 (holds_value_given _ _ _ _ B) eq_refl) in Hz. exists z. rewrite <- E, <- Hz. ring.
      * intros k w -> Mk. destruct (proj2 (holds_value_given _ _ _ _ B) k w eq_refl Mk) as (v & -> & Ev). exists z. rewrite <- E, <- Ev, <- Hz. reflexivity.
  - split; [|split].
    + intros q ->. destruct st as [n|]; simpl in B; [|contradiction]. destruct B as (x & M & E). specialize (X n x eq_refl M). destruct si; rewrite E; auto.
    + intros q ->. destruct en as [n|]; simpl in D; [|contradiction]. destruct D as (x & M & E). specialize (Y n x eq_refl M). destruct ei; rewrite E; auto.
    + intros q ->. destruct rep as [n|]; simpl in A; [|contradiction]. destruct A as (x & M & E). destruct (Z n x eq_refl M) as (Z1 & Z2).
      destruct st as [k|], s as [w|]; simpl in B; try contradiction.
      * destruct B as (y & Mk & Ey). destruct (Z2 k y eq_refl Mk) as (z & Hz). exists z. rewrite E, Ey, <- Hz. reflexivity.
      * destruct (Z1 eq_refl) as (z & Hz). exists z. rewrite E, <- Hz. ring.
Qed.
Lemma backwards_never : forall p o rep st en u si ei c, positive_units p u -> new_TimeInterval p o rep st en u si ei = Ok c -> later p u st en ->
  forall v e ow cs, fst (eval v e ow c cs) <> Ok true.
Proof.
  intros p o rep st en u si ei c (P & _) H (ns & ne & x & y & -> & -> & Ms & Me & L) v ev ow cs. apply interval_inv in H. destruct H as (r & s & e & -> & _ & B & D).
  apply parse_value in B, D; auto. simpl in B, D. destruct s as [s|], e as [e|]; try contradiction.
  destruct B as (x' & M & E). rewrite (means_unique _ _ _ _ _ M Ms) in E. clear x' M. destruct D as (y' & M & F). rewrite (means_unique _ _ _ _ _ M Me) in F. clear y' M.
  simpl. intros T. unfold time_interval in T. destruct (match r with None => _ | Some _ => _ end) as [b|]; simpl in T; [|discriminate]. injection T as T.
  rewrite !andb_true_iff in T. destruct T as ((_ & T1) & T2). set (t := t_abs (k_time (v_clock v))) in *.
  assert (X : (x <= t)%Q) by (rewrite <- E; destruct si; [apply Qle_bool_iff|apply Qltb_iff in T1; apply Qlt_le_weak]; auto).
  assert (Y : (t <= y)%Q) by (rewrite <- F; destruct ei; [apply Qle_bool_iff|apply Qltb_iff in T2; apply Qlt_le_weak]; auto).
  apply (Qlt_not_le _ _ L). eapply Qle_trans; eauto.
Qed.
Lemma termination_given : forall p o t incl u, positive_units p u ->
  (forall x, means p u t x -> exists q, new_TimeTermination p o t incl u = Ok (CAtom o (ATimeTermination q incl)) /\ (q_val q == x)%Q) /\
  ((forall x, ~ means p u t x) -> exists e, new_TimeTermination p o t incl u = Err e /\ (e = EValue \/ e = EAttribute)).
Proof.
  intros p o t incl u (P & _). unfold new_TimeTermination. split.
  - intros x M. apply means_quantity in M. destruct M as (q & -> & ->). simpl. eexists. split; [reflexivity|]. apply reduce_value; auto.
  - intros N. destruct (get_quantity p t u) as [q|e] eqn:E; [exfalso; apply (N (q_val q)), quantity_means; auto|].
    exists e. split; [reflexivity|]. destruct t as [x|s|q]; simpl in E; [| |discriminate].
    + unfold get_unit in E. destruct u as [|n]; simpl in E; [discriminate|]. destruct (p_named p n); simpl in E; [discriminate|]. injection E as <-. auto.
    + destruct (p_read p s) as [f|[x|]|]; [discriminate| |injection E as <-; auto|].
      * unfold get_unit in E. destruct u as [|n]; simpl in E; [discriminate|]. destruct (p_named p n); simpl in E; [discriminate|]. injection E as <-. auto.
      * unfold get_unit in E. destruct u as [|n]; simpl in E; [injection E as <-; auto|]. destruct (p_named p n); simpl in E; injection E as <-; auto.
Qed.
Lemma strings_compared : forall p o u si ei, p_read p "9ms" = Full (mkQuantity 9 (1 # 1000)) -> p_read p "10ms" = Full (mkQuantity 10 (1 # 1000)) ->
  ~ later p u (Some (RStr "9ms")) (Some (RStr "10ms")) /\ later p u (Some (RStr "10ms")) (Some (RStr "9ms")) /\
  new_TimeInterval p o None (Some (RStr "9ms")) (Some (RStr "10ms")) u si ei = Err ECondition /\
  exists c, new_TimeInterval p o None (Some (RStr "10ms")) (Some (RStr "9ms")) u si ei = Ok c.
Proof.
  intros p o u si ei A B. split; [|split; [|split]].
  - intros (s & e & x & y & [= <-] & [= <-] & M & N & L). pose proof (means_unique _ _ _ _ _ M (m_full p u _ _ A)) as ->. pose proof (means_unique _ _ _ _ _ N (m_full p u _ _ B)) as ->.
    discriminate.
  - exists (RStr "10ms"), (RStr "9ms"), (q_val (mkQuantity 10 (1 # 1000))), (q_val (mkQuantity 9 (1 # 1000))).
    do 2 (split; [reflexivity|]). split; [apply m_full; auto|]. split; [apply m_full; auto|]. reflexivity.
  - reflexivity.
  - unfold new_TimeInterval. cbn [bind]. simpl. rewrite A, B. simpl. eauto.
Qed.
Lemma mixed_args : forall p o rep u si ei x s q,
  new_TimeInterval p o rep (Some (RNum x)) (Some (RStr s)) u si ei = Err EType /\
  new_TimeInterval p o rep (Some (RStr s)) (Some (RNum x)) u si ei = Err EType /\
  new_TimeInterval p o rep (Some (RQty q)) (Some (RStr s)) u si ei = Err EType /\
  new_TimeInterval p o rep (Some (RStr s)) (Some (RQty q)) u si ei = Err EType /\
  (~ (x == 0)%Q -> new_TimeInterval p o rep (Some (RNum x)) (Some (RQty q)) u si ei = Err EValue /\
                   new_TimeInterval p o rep (Some (RQty q)) (Some (RNum x)) u si ei = Err EValue).
Proof.
  intros. do 4 (split; [destruct rep; reflexivity|]). intros N. assert (E : Qeq_bool x 0 = false) by (destruct (Qeq_bool x 0) eqn:E; auto; apply Qeq_bool_iff in E; contradiction).
  unfold new_TimeInterval, raw_gt. rewrite E. split; destruct rep; reflexivity.
Qed.
