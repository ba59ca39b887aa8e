(** What a node's condition sees at its turn: consequences (C64). *)
From Verif Require Export PassFacts.

Theorem turns : forall m0 g0 ts m g b c (Own : (oid -> option node) -> Prop) lb h0, running_while_in_passes (fun m => ruled g0 b c m /\ Own (m_owners m)) m0 g0 ts m g ->
  g_pc g0 = PStart -> queue_built m0 -> In lb (queue m0) -> In b lb -> clock_after ESU h0 (the_clock (m_ctxs m0 (g_eid g0))) ->
  forall k, pass_number m0 (g_eid g0) <= k < pass_number m (g_eid g0) ->
    occurrences b (in_pass k ts) = 1 \/
    (occurrences b (in_pass k ts) = 0 /\ exists v ow st st', at_turn m0 (g_eid g0) b k ts v /\ Own ow /\ eval v (g_eid g0) ow c st = (Ok false, st')).
Proof.
  intros m0 g0 ts m g b c Own lb h0 R Hp Q Il Ib C k Hk. apply In_nth_error in Il. destruct Il as (j & Hj).
  destruct (passes_told _ _ _ _ _ _ _ _ _ _ _ R Hp Q Hj Ib C) as (_ & _ & T). destruct (T k Hk) as ([|] & _ & B & D); [left; exact B|right; auto].
Qed.
Theorem turn_enough : forall m0 g0 ts m g b c (Own : (oid -> option node) -> Prop) N M K lb h0, running_while_in_passes (fun m => ruled g0 b c m /\ Own (m_owners m)) m0 g0 ts m g ->
  g_pc g0 = PStart -> queue_built m0 -> In lb (queue m0) -> In b lb -> clock_after ESU h0 (the_clock (m_ctxs m0 (g_eid g0))) -> enough Own b N M K c ->
  forall k, pass_number m0 (g_eid g0) <= k < pass_number m (g_eid g0) -> K <= k ->
    (forall d j, In d (m_nodes m0) -> up_to (queue m0) d b k j -> N d <= occurrences d (before_pass j ts)) ->
    (forall d j n, In d (m_nodes m0) -> d <> b -> up_to (queue m0) d b k j -> runs_since d b (concat (before_pass j ts)) n -> M d <= n) ->
    occurrences b (in_pass k ts) = 1.
Proof.
  intros m0 g0 ts m g b c Own N M K lb h0 R Hp Q Il Ib C E k Hk LK HN HM. pose proof Il as Il'. apply In_nth_error in Il'. destruct Il' as (jb & Hj).
  destruct (turns _ _ _ _ _ _ _ _ _ _ R Hp Q Il Ib C k Hk) as [X|(_ & v & ow & st & st' & [(h & V1) V2 V3 (t & V4 & V5) (u & V6 & V7)] & Ow & F)]; auto.
  exfalso. assert (Up : forall d, exists j, up_to (queue m0) d b k j).
  { intros d. destruct (past_or_ahead (queue m0) (S jb) d) as [P|A]; [exists (S k); left; split; auto; eapply not_later_past; eauto|].
    exists k. right. split; auto. intros X. apply (not_later_past _ _ _ _ Q Hj Ib) in X. destruct X as (i & lv & Ei & Ii & Li). specialize (A i lv Ei Ii). lia. }
  eapply (E v (g_eid g0) ow st st' h t u); eauto.
  - lia.
  - intros d Id. rewrite V3 in Id. destruct (Up d) as (j & U). destruct (V5 d j U) as (-> & _). eauto.
  - intros d Id Nd. rewrite V3 in Id. destruct (Up d) as (j & U). eauto.
Qed.
(** ** Conditions that become true with enough executions *)
Lemma enough_more : forall Own b N M K N' M' K' c, (forall d, N d <= N' d) -> (forall d, M d <= M' d) -> K <= K' -> enough Own b N M K c -> enough Own b N' M' K' c.
Proof.
  intros Own b N M K N' M' K' c HN HM HK E v e ow st st' h t u A B C D F G H.
  eapply E; eauto; intros; [lia|eapply Nat.le_trans; eauto|eapply Nat.le_trans; eauto].
Qed.
Definition none (x : node) : nat := 0.
Lemma enough_calls : forall Own b o d n, enough Own b (only d n) none 0 (AfterNCalls o d n ESU).
Proof.
  intros Own b o d n v e ow st st' h t u _ _ T _ _ HN _ E. simpl in E. unfold count_total in E. rewrite T in E.
  destruct (mem d (v_nodes v)) eqn:Md; simpl in E; [|discriminate]. apply mem_In in Md. specialize (HN d Md). unfold only in HN. rewrite Nat.eqb_refl in HN.
  apply Nat.leb_le in HN. rewrite HN in E. discriminate.
Qed.
Lemma enough_every : forall (Own : (oid -> option node) -> Prop) b o d n, (forall ow, Own ow -> ow o = Some b) -> d <> b -> enough Own b none (only d n) 0 (EveryNCalls o d n).
Proof.
  intros Own b o d n Ho Nd v e ow st st' h t u _ _ _ U Ow _ HM E. simpl in E. rewrite (Ho ow Ow) in E. unfold count_useable in E. rewrite U in E.
  destruct (mem d (v_nodes v)) eqn:Md; simpl in E; [|discriminate]. apply mem_In in Md. destruct (mem b (v_nodes v)); simpl in E; [|discriminate].
  specialize (HM d Md Nd). unfold only in HM. rewrite Nat.eqb_refl in HM.
  apply Nat.leb_le in HM. rewrite HM in E. discriminate.
Qed.
Lemma enough_have_run : forall Own b o ds, enough Own b (match ds with [] => fun _ => 1 | _ => fun x => if mem x ds then 1 else 0 end) none 0 (AllHaveRun o ds ESU).
Proof.
  intros Own b o ds v e ow st st' h t u _ _ T _ _ HN _ E. simpl in E.
  assert (X : forall l, (forall x, In x l -> In x (v_nodes v) -> 1 <= t ESU x) -> all_have_run v ESU l <> Ok false).
  { induction l as [|x l IH]; intros H; simpl; [discriminate|]. unfold count_total. rewrite T. destruct (mem x (v_nodes v)) eqn:Mx; [|discriminate].
    apply mem_In in Mx. rewrite (proj2 (Nat.ltb_ge _ _)) by (apply H; [left|]; auto). apply IH. intros y Iy. apply H. right; auto. }
  injection E as E _. revert E. apply X. intros x Ix Iv. specialize (HN x Iv). destruct ds as [|y l]; [exact HN|]. simpl deps_or_nodes in Ix. rewrite (proj2 (mem_In x (y :: l)) Ix) in HN. exact HN.
Qed.
Lemma enough_pass : forall Own b f K c, by_pass f c -> (forall k, K <= k -> f k = true) -> enough Own b none none K c.
Proof.
  intros Own b f K c B HK v e ow st st' h t u Ck Lk _ _ _ _ _ E. assert (A : asked h c e (t_val (k_time (v_clock v)) PASS) false) by (exists v, ow, st, st', h; split; [apply during_self|]; auto).
  apply B in A. rewrite HK in A; [discriminate|auto].
Qed.
Lemma enough_all : forall Own b N M K o cs, Forall (enough Own b N M K) cs -> enough Own b N M K (All o cs).
Proof.
  intros Own b N M K o cs H v e ow st st' h t u A B C D F G I E. simpl in E. revert st st' E.
  induction H as [|c cs Hc _ IH]; intros st st' E; [discriminate|].
  destruct (eval v e ow c st) as [[[|]|] s1] eqn:X; simpl in E; [eapply IH; eauto| |discriminate]. eapply Hc; eauto.
Qed.
Lemma enough_any : forall Own b N M K o cs c, In c cs -> enough Own b N M K c -> enough Own b N M K (Any o cs).
Proof.
  intros Own b N M K o cs c Ic Hc v e ow st st' h t u A B C D F G I E. simpl in E. revert st st' E.
  induction cs as [|x cs IH]; intros st st' E; [destruct Ic|].
  destruct (eval v e ow x st) as [[[|]|] s1] eqn:X; simpl in E; [discriminate| |discriminate].
  destruct Ic as [->|Ic]; [eapply Hc; eauto|eapply IH; eauto].
Qed.
