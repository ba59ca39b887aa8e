(** Chains of EveryNCalls: the factors multiply. *)
From Verif Require Import SpecChain RateFacts PassFacts BaseFacts.
From Coq Require Import Lia.

Lemma carries_keeps : forall c, carries_over c -> keeps_true c.
Proof.
  intros c H v e ow st st' h k C I E. apply (H v (with_clock v k) e ow ow st st' h); auto.
  unfold next_pass, with_clock. simpl. repeat split. left. auto.
Qed.
Lemma occurrences_split : forall b k ts, occurrences b (before_pass (S k) ts) = occurrences b (before_pass k ts) + occurrences b (in_pass k ts).
Proof.
  intros b k ts. unfold before_pass, in_pass, occurrences. induction ts as [|[p s] ts IH]; [reflexivity|]. cbn [filter fst].
  destruct (Nat.ltb_spec p (S k)); destruct (Nat.ltb_spec p k); destruct (Nat.eqb_spec p k); try lia; cbn [map snd filter] in *;
    destruct (mem b s); cbn [length] in *; lia.
Qed.
Theorem chain_rate : forall l m0 g0 ts m g d h0, running_while_in_passes (fun x => chained d l x /\ tcs_keep_true g0 x) m0 g0 ts m g -> g_pc g0 = PStart ->
  queue_built m0 -> in_turn (queue m0) d l -> clock_after ESU h0 (the_clock (m_ctxs m0 (g_eid g0))) ->
  forall k, k <= pass_number m (g_eid g0) -> occurrences (end_of d l) (before_pass k ts) = occurrences d (before_pass k ts) / factor l.
Proof.
  induction l as [|[b n] l IH]; intros m0 g0 ts m g d h0 R Hp Q T C k Lk; cbn [end_of factor chained in_turn] in *.
  - rewrite Nat.div_1_r. auto.
  - destruct T as (L & N & Hn & T).
    assert (R1 : running_while_in_passes (paced g0 b d n) m0 g0 ts m g) by (eapply rwp_weaken; [|exact R]; intros x ((A & _) & B); split; auto).
    assert (R2 : running_while_in_passes (fun x => chained b l x /\ tcs_keep_true g0 x) m0 g0 ts m g) by (eapply rwp_weaken; [|exact R]; intros x ((_ & A) & B); auto).
    rewrite (IH _ _ _ _ _ b h0 R2 Hp Q T C k Lk). destruct (rate_bounds _ _ _ _ _ _ _ _ _ R1 Hp Q L N Hn C) as (X & _). rewrite (X k Lk).
    assert (F : factor l <> 0). { clear -T. revert b T. induction l as [|[x y] l IH]; intros b T; cbn [factor in_turn] in *; [lia|]. destruct T as (_ & _ & Hy & T). specialize (IH _ T). nia. }
    rewrite Nat.div_div by lia. auto.
Qed.
Lemma passes_with_snoc : forall f n k, passes_with f k (S n) = passes_with f k n + (if f (k + n) then 1 else 0).
Proof.
  intros f. induction n as [|n IH]; intros k; cbn [passes_with]; [replace (k + 0) with k by lia; destruct (f k); reflexivity|].
  specialize (IH (S k)). cbn [passes_with] in IH. rewrite IH. replace (S k + n) with (k + S n) by lia. lia.
Qed.
Theorem by_pass_count : forall m0 g0 ts m g b c f lb h0, running_while_in_passes (ruled g0 b c) m0 g0 ts m g -> g_pc g0 = PStart ->
  queue_built m0 -> In lb (queue m0) -> In b lb -> clock_after ESU h0 (the_clock (m_ctxs m0 (g_eid g0))) -> by_pass f c ->
  forall i, pass_number m0 (g_eid g0) + i <= pass_number m (g_eid g0) ->
    occurrences b (before_pass (pass_number m0 (g_eid g0) + i) ts) = passes_with f (pass_number m0 (g_eid g0)) i.
Proof.
  intros m0 g0 ts m g b c f lb h0 R Hp Q Il Ib C Bf. apply In_nth_error in Il. destruct Il as (j & Hj).
  destruct (passes_ruled _ _ _ _ _ _ _ _ _ _ R Hp Q Hj Ib C) as (_ & _ & K). induction i as [|i IH]; intros L.
  - rewrite Nat.add_0_r. simpl. destruct (rwp_passes _ _ _ _ _ _ R) as (Rp & _).
    assert (E : before_pass (pass_number m0 (g_eid g0)) ts = []).
    { unfold before_pass. replace (filter _ ts) with (@nil (nat * list node)); auto. symmetry.
      assert (Nu : forall a, In a ts -> pass_number m0 (g_eid g0) <= fst a).
      { intros [a sa] Ia. apply In_nth_error in Ia. destruct Ia as (x & Ex). pose proof (passes_numbered _ _ _ _ _ _ _ _ Rp Hp Ex). simpl. lia. }
      clear -Nu. induction ts as [|a ts IH]; auto. simpl. destruct (Nat.ltb_spec (fst a) (pass_number m0 (g_eid g0))).
      - specialize (Nu a (or_introl eq_refl)). lia.
      - apply IH. intros x I. apply Nu. right; auto. }
    rewrite E. reflexivity.
  - rewrite Nat.add_succ_r, occurrences_split, IH by lia. rewrite passes_with_snoc. f_equal.
    destruct (K (pass_number m0 (g_eid g0) + i)) as (r & A & E); [lia|]. rewrite E, (Bf _ _ _ _ A). destruct (f _); auto.
Qed.
Theorem chain_passes : forall l m0 g0 ts m g d c f lb h0, running_while_in_passes (fun x => ruled g0 d c x /\ chained d l x) m0 g0 ts m g -> g_pc g0 = PStart ->
  queue_built m0 -> In lb (queue m0) -> In d lb -> in_turn (queue m0) d l -> clock_after ESU h0 (the_clock (m_ctxs m0 (g_eid g0))) -> by_pass f c ->
  forall i, pass_number m0 (g_eid g0) + i <= pass_number m (g_eid g0) ->
    occurrences (end_of d l) (before_pass (pass_number m0 (g_eid g0) + i) ts) = passes_with f (pass_number m0 (g_eid g0)) i / factor l.
Proof.
  intros l m0 g0 ts m g d c f lb h0 R Hp Q Il Id T C Bf i L.
  assert (R1 : running_while_in_passes (ruled g0 d c) m0 g0 ts m g) by (eapply rwp_weaken; [|exact R]; intros x (A & _); auto).
  assert (R2 : running_while_in_passes (fun x => chained d l x /\ tcs_keep_true g0 x) m0 g0 ts m g).
  { eapply rwp_weaken; [|exact R]. intros x ((_ & A) & B). split; auto. intros s t E. apply carries_keeps. eapply A; eauto. }
  rewrite (chain_rate _ _ _ _ _ _ _ _ R2 Hp Q T C _ L). rewrite (by_pass_count _ _ _ _ _ _ _ _ _ _ R1 Hp Q Il Id C Bf i L). auto.
Qed.
Lemma div_step : forall n k, n <> 0 -> S k / n = k / n + if Nat.eqb (S k mod n) 0 then 1 else 0.
Proof.
  intros n k N. pose proof (Nat.div_mod k n N) as A. pose proof (Nat.mod_upper_bound k n N) as B.
  destruct (Nat.eq_dec (S (k mod n)) n) as [E|E].
  - assert (X : S k = n * (k / n + 1)) by nia. assert (Y : S k / n = k / n + 1) by (rewrite X, Nat.mul_comm, Nat.div_mul; auto).
    assert (Z : S k mod n = 0) by (rewrite X, Nat.mul_comm; apply Nat.mod_mul; auto). rewrite Y, Z. auto.
  - assert (X : S k / n = k / n) by (symmetry; apply (Nat.div_unique (S k) n (k / n) (S (k mod n))); lia).
    assert (Y : S k mod n = S (k mod n)) by (symmetry; apply (Nat.mod_unique (S k) n (k / n) (S (k mod n))); lia). rewrite X, Y. simpl. lia.
Qed.
Lemma passes_with_true : forall n k, passes_with (fun _ => true) k n = n.
Proof. induction n as [|n IH]; intros k; simpl; auto. Qed.
Theorem chain_schedule : forall l m0 g0 ts m g d o lb h0, running_while_in_passes (fun x => ruled g0 d (Always o) x /\ chained d l x) m0 g0 ts m g -> g_pc g0 = PStart ->
  queue_built m0 -> In lb (queue m0) -> In d lb -> in_turn (queue m0) d l -> clock_after ESU h0 (the_clock (m_ctxs m0 (g_eid g0))) ->
  forall i, pass_number m0 (g_eid g0) + i < pass_number m (g_eid g0) ->
    occurrences (end_of d l) (in_pass (pass_number m0 (g_eid g0) + i) ts) = if Nat.eqb (S i mod factor l) 0 then 1 else 0.
Proof.
  intros l m0 g0 ts m g d o lb h0 R Hp Q Il Id T C i L.
  assert (Bf : by_pass (fun _ => true) (Always o)) by (apply (by_pass_atoms o 0)).
  assert (X := chain_passes _ _ _ _ _ _ _ _ _ _ _ R Hp Q Il Id T C Bf).
  assert (X1 := X (S i) ltac:(lia)). assert (X0 := X i ltac:(lia)). rewrite passes_with_true in X0, X1.
  rewrite Nat.add_succ_r, occurrences_split, X0 in X1.
  assert (F : factor l <> 0). { clear -T. revert d T. induction l as [|[x y] l IH]; intros b T; cbn [factor in_turn] in *; [lia|]. destruct T as (_ & _ & Hy & T). specialize (IH _ T). nia. }
  rewrite div_step in X1 by auto. lia.
Qed.
