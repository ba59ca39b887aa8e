(** Proofs about pruning, and about repositioning conditions keeping graphs acyclic. *)
From Coq Require Import Lia.
From Verif Require Import SpecAcyclic GraphFacts TopoProofs HeapFacts GSCFacts GSCModify GSCProps GSCThms.

(** ** cyclic lists *)
Lemma follows_In : forall c a b, follows c a b -> In a c /\ In b c.
Proof. intros c a b (i & A & B). split; eapply nth_error_In; eauto. Qed.
Lemma follows_out : forall c a, In a c -> exists b, follows c a b.
Proof.
  intros c a H. apply In_nth_error in H. destruct H as (i & H).
  assert (L : length c <> 0) by (intros E; destruct c; [destruct i; discriminate|discriminate]).
  destruct (nth_error c (S i mod length c)) as [b|] eqn:E.
  - exists b, i. auto.
  - apply nth_error_None in E. pose proof (Nat.mod_upper_bound (S i) _ L). lia.
Qed.
Lemma follows_in : forall c b, In b c -> exists a, follows c a b.
Proof.
  intros c b H. apply In_nth_error in H. destruct H as (i & H).
  assert (L : i < length c) by (apply nth_error_Some; congruence).
  destruct i as [|i].
  - destruct (nth_error c (length c - 1)) as [a|] eqn:E; [|apply nth_error_None in E; lia].
    exists a, (length c - 1). split; auto. replace (S (length c - 1)) with (length c) by lia. rewrite Nat.mod_same by lia. auto.
  - destruct (nth_error c i) as [a|] eqn:E; [|apply nth_error_None in E; lia].
    exists a, i. split; auto. rewrite Nat.mod_small by lia. auto.
Qed.
Lemma follows_neq : forall c a b, NoDup c -> 2 <= length c -> follows c a b -> a <> b.
Proof.
  intros c a b N L (i & A & B) ->.
  assert (Li : i < length c) by (apply nth_error_Some; congruence).
  assert (E : i = S i mod length c). { eapply NoDup_nth_error; eauto. congruence. }
  destruct (Nat.eq_dec (S i) (length c)) as [D|D].
  - rewrite D, Nat.mod_same in E by lia. lia.
  - rewrite Nat.mod_small in E by lia. lia.
Qed.
(* around the cycle, from anywhere to anywhere *)
Lemma around : forall (R : node -> node -> Prop) (Q : node -> Prop) c, (forall a b, follows c a b -> Q a -> Q b) ->
  forall a b, In a c -> In b c -> Q a -> Q b.
Proof.
  intros R Q c F a b A B H. apply In_nth_error in A. destruct A as (i & A). apply In_nth_error in B. destruct B as (j & B).
  assert (Li : i < length c) by (apply nth_error_Some; congruence).
  assert (Lj : j < length c) by (apply nth_error_Some; congruence).
  assert (G : forall k x, nth_error c ((i + k) mod length c) = Some x -> Q x).
  { induction k as [|k IH]; intros x X.
    - rewrite Nat.add_0_r, Nat.mod_small in X by auto. congruence.
    - destruct (nth_error c ((i + k) mod length c)) as [y|] eqn:Y.
      + apply (F y x); [|apply IH; auto]. exists ((i + k) mod length c). split; auto.
        replace (S ((i + k) mod length c) mod length c) with ((i + S k) mod length c); auto.
        rewrite <- (Nat.add_1_r ((i + k) mod length c)), Nat.add_mod_idemp_l by lia. f_equal. lia.
      + apply nth_error_None in Y. pose proof (Nat.mod_upper_bound (i + k) (length c)). lia. }
  apply (G (j + length c - i)). replace (i + (j + length c - i)) with (j + 1 * length c) by lia.
  rewrite Nat.mod_add by lia. rewrite Nat.mod_small by auto. auto.
Qed.
Lemma cycle_walk : forall g c, 2 <= length c -> NoDup c -> (forall a b, follows c a b -> edge g a b) ->
  forall a b, In a c -> In b c -> exists k, walk g a k b.
Proof.
  intros g c L N F a b A B. apply (around (edge g) (fun x => exists k, walk g a k x) c) with (a := a); auto.
  - intros x y H (k & K). exists (S k). eapply walk_step; eauto. eapply follows_neq; eauto.
  - exists 0. constructor.
Qed.
Lemma cycle_cyclic : forall g c, 2 <= length c -> NoDup c -> (forall a b, follows c a b -> edge g a b) -> cyclic g.
Proof.
  intros g c L N F. destruct c as [|a r] eqn:EC; [simpl in L; lia|]. rewrite <- EC in *. 
  assert (A : In a c) by (rewrite EC; simpl; auto). destruct (follows_out c a A) as (b & B).
  destruct (cycle_walk g c L N F b a) as (k & K); [apply (follows_In _ _ _ B)|auto|].
  exists a, k. eapply walk_cons; eauto. eapply follows_neq; eauto.
Qed.

(** ** rotations *)
Lemma nth_error_rot : forall (l1 l2 : list node) i, i < length (l1 ++ l2) ->
  nth_error (l2 ++ l1) i = nth_error (l1 ++ l2) ((i + length l1) mod length (l1 ++ l2)).
Proof.
  intros l1 l2 i L. rewrite app_length in *. destruct (Nat.lt_ge_cases i (length l2)) as [A|A].
  - rewrite nth_error_app1 by auto. rewrite Nat.mod_small by lia. rewrite nth_error_app2 by lia. f_equal. lia.
  - rewrite nth_error_app2 by auto. replace (i + length l1) with ((i - length l2) + 1 * (length l1 + length l2)) by lia.
    rewrite Nat.mod_add by lia. rewrite Nat.mod_small by lia. rewrite nth_error_app1 by lia. auto.
Qed.
Lemma rotation_sym : forall c d, rotation c d -> rotation d c.
Proof. intros c d (l1 & l2 & A & B). exists l2, l1. auto. Qed.
Lemma rotation_length : forall c d, rotation c d -> length d = length c.
Proof. intros c d (l1 & l2 & -> & ->). rewrite !app_length. lia. Qed.
Lemma rotation_In : forall c d x, rotation c d -> (In x d <-> In x c).
Proof. intros c d x (l1 & l2 & -> & ->). rewrite !in_app_iff. tauto. Qed.
Lemma rotation_follows1 : forall c d a b, rotation c d -> follows d a b -> follows c a b.
Proof.
  intros c d a b (l1 & l2 & -> & ->) (i & A & B).
  assert (Li : i < length (l2 ++ l1)) by (apply nth_error_Some; congruence).
  assert (E : length (l2 ++ l1) = length (l1 ++ l2)) by (rewrite !app_length; lia).
  rewrite E in *. rewrite nth_error_rot in A by auto. rewrite nth_error_rot in B by (apply Nat.mod_upper_bound; lia).
  exists ((i + length l1) mod length (l1 ++ l2)). split; auto. rewrite <- B. f_equal.
  rewrite Nat.add_mod_idemp_l by lia. rewrite <- (Nat.add_1_r ((i + length l1) mod _)), Nat.add_mod_idemp_l by lia. f_equal. lia.
Qed.
Lemma rotation_follows : forall c d a b, rotation c d -> (follows d a b <-> follows c a b).
Proof. intros c d a b R. split; apply rotation_follows1; auto. apply rotation_sym; auto. Qed.

(** ** a cyclic graph has a simple cycle *)
(* a path, written as the list of its nodes *)
Inductive path (g : graph) : list node -> node -> Prop :=
| path_1 : forall a, path g [a] a
| path_2 : forall a b l z, edge g a b -> a <> b -> path g (b :: l) z -> path g (a :: b :: l) z.
Lemma path_walk_inv : forall g k a z, walk g a k z -> exists l, path g (a :: l) z.
Proof.
  induction k as [|k IH]; intros a z W.
  - inversion W; subst. exists []. constructor.
  - apply walk_inv_front in W. destruct W as (b & E & D & W). destruct (IH _ _ W) as (l & P). exists (b :: l). constructor; auto.
Qed.
Lemma path_suffix : forall g l1 a l2 z, path g (l1 ++ a :: l2) z -> path g (a :: l2) z.
Proof.
  induction l1 as [|x l1 IH]; intros a l2 z P; auto. simpl in P. destruct l1 as [|y l1]; simpl in P; inversion P; subst; auto.
Qed.
Lemma path_simple : forall g l a z, path g (a :: l) z -> exists l', path g (a :: l') z /\ NoDup (a :: l').
Proof.
  intros g l a z. remember (length l) as n eqn:E. revert l a z E. induction n as [n IH] using lt_wf_ind. intros l a z E P.
  destruct l as [|b l].
  - exists []. split; auto. constructor; [simpl; auto|constructor].
  - inversion P as [|? ? ? ? E1 D1 P1]; subst. destruct (IH (length l)) with (l := l) (a := b) (z := z) as (l' & P' & N'); auto.
    destruct (In_dec_nat a (b :: l')) as [H|H].
    + apply in_split in H. destruct H as (u & v & H). rewrite H in P'. apply path_suffix in P'.
      exists v. split; auto. rewrite H in N'. apply NoDup_app_elim in N'. apply N'.
    + exists (b :: l'). split; [constructor; auto|constructor; auto].
Qed.

Lemma path_In : forall g l a z, path g (a :: l) z -> In z (a :: l).
Proof.
  intros g l a z P. remember (a :: l) as m eqn:E. revert a l E. induction P; intros a0 l0 E0; [left; auto|].
  right. eapply IHP; eauto.
Qed.
Lemma path_nth : forall g m z, path g m z -> nth_error m (length m - 1) = Some z /\
  forall i a b, nth_error m i = Some a -> nth_error m (S i) = Some b -> edge g a b /\ a <> b.
Proof.
  intros g m z P. induction P as [a|a b l z E D P [IH1 IH2]].
  - split; auto. intros i x y X Y. destruct i; simpl in Y; [discriminate|destruct i; discriminate].
  - split.
    + simpl in *. rewrite Nat.sub_0_r in IH1. auto.
    + intros [|i] x y X Y; [simpl in *; inversion X; inversion Y; subst; auto|]. apply (IH2 i); auto.
Qed.
Theorem cyclic_simple : forall g, cyclic g -> exists c, simple_cycle g c /\ 2 <= length c.
Proof.
  intros g (n & k & W). inversion W as [|? b ? W' E D]; subst. apply path_walk_inv in W'. destruct W' as (l & P).
  destruct (path_simple _ _ _ _ P) as (l' & P' & N). exists (n :: l'). destruct (path_nth _ _ _ P') as [P1 P2].
  split.
  - split; [discriminate|]. split; auto. intros x y (i & X & Y).
    assert (Li : i < length (n :: l')) by (apply nth_error_Some; congruence).
    destruct (Nat.eq_dec (S i) (length (n :: l'))) as [H|H].
    + rewrite H, Nat.mod_same in Y by (simpl; lia). simpl in Y. inversion Y; subst y.
      replace i with (length (n :: l') - 1) in X by lia. congruence.
    + rewrite Nat.mod_small in Y by lia. eapply P2; eauto.
  - destruct l' as [|x l']; [|simpl; lia]. inversion P'; subst. congruence.
Qed.

(** ** the brute-force enumeration is one *)
Lemma words_In : forall keys k c, In c (words k keys) <-> length c = k /\ incl c keys.
Proof.
  intros keys. induction k as [|k IH]; intros c; simpl.
  - split; [intros [<-|[]]; split; auto; intros x []|]. intros [A _]. destruct c; [auto|discriminate].
  - rewrite in_flat_map. split.
    + intros (n & A & B). apply in_map_iff in B. destruct B as (d & <- & B). apply IH in B. destruct B as [<- B]. split; auto.
      intros x [<-|X]; auto.
    + intros [A B]. destruct c as [|n d]; [discriminate|]. exists n. split; [apply B; simpl; auto|]. apply in_map. apply IH.
      split; [simpl in A; lia|]. intros x X. apply B; simpl; auto.
Qed.
Lemma nodupb_iff : forall c, nodupb c = true <-> NoDup c.
Proof.
  induction c as [|n c IH]; simpl; [split; [constructor|auto]|]. rewrite andb_true_iff, negb_true_iff, mem_In_false, IH.
  split; [intros [A B]; constructor; auto|]. intros H; inversion H; auto.
Qed.
Lemma follows_nth : forall c a b, follows c a b <-> exists i, i < length c /\ nth i c 0 = a /\ nth (S i mod length c) c 0 = b.
Proof.
  intros c a b. split.
  - intros (i & A & B). exists i. split; [apply nth_error_Some; congruence|]. split; apply nth_error_nth; auto.
  - intros (i & L & <- & <-). exists i. split; apply nth_error_nth'; auto. apply Nat.mod_upper_bound. lia.
Qed.
Lemma simple_cycleb_iff : forall g c, c <> [] -> (simple_cycleb g c = true <-> simple_cycle g c).
Proof.
  intros g c NE. unfold simple_cycleb, simple_cycle. rewrite andb_true_iff, nodupb_iff, forallb_forall. split.
  - intros [A B]. split; auto. split; auto. intros x y F. apply follows_nth in F. destruct F as (i & L & <- & <-).
    apply edge_aget. apply mem_In. apply B. apply in_seq. lia.
  - intros (_ & A & B). split; auto. intros i I. apply in_seq in I. apply mem_In, edge_aget. apply B. apply follows_nth. exists i.
    split; [lia|auto].
Qed.
Theorem brute_lists : lists_cycles brute_cycles.
Proof.
  intros g. unfold brute_cycles. split.
  - intros c H. apply filter_In in H. destruct H as [A B]. apply in_flat_map in A. destruct A as (k & _ & A). apply words_In in A.
    apply simple_cycleb_iff; auto. destruct A as [A _]. intros ->. discriminate.
  - intros c H. exists c. split; [exists [], c; split; auto; rewrite app_nil_r; auto|]. pose proof H as (NE & N & F). apply filter_In. split; [|apply simple_cycleb_iff; auto].
    assert (IK : incl c (gkeys g)).
    { intros x X. destruct (follows_in c x X) as (a & A). apply F in A. destruct A as (l & A & _). apply (aget_Some_key _ x g). eauto. }
    pose proof (NoDup_incl_length N IK) as L. destruct c as [|n c]; [congruence|]. apply in_flat_map. exists (length c).
    split; [apply in_seq; simpl in *; lia|]. apply words_In. split; auto.
Qed.

(** ** what pruning leaves *)
Lemma hmut_remove_gone : forall h s r, In s (hget h r) -> ~ In s (hget (hmut h r (s_remove s)) r).
Proof.
  intros h s r H. assert (RK : In r (akeys (h_refs h))).
  { destruct (In_dec_nat r (akeys (h_refs h))) as [X|X]; auto. rewrite (hget_out _ _ X) in H. destruct H. }
  pose proof (hloc_key _ _ RK) as HB. unfold hget at 1. unfold hloc at 1; simpl. rewrite HB.
  destruct (Nat.lt_ge_cases (hloc h r) (length (h_store h))) as [X|X].
  - rewrite s_get_put_same by auto. rewrite s_remove_In. tauto.
  - unfold hget in H. rewrite s_get_out in H by auto. destruct H.
Qed.
Lemma drop_edge_id : forall h s r, In s (hget (drop_edge h s r) r) -> drop_edge h s r = h.
Proof.
  intros h s r. unfold drop_edge. destruct (mem s (hget h r)) eqn:M; auto. intros H. apply mem_In in M. apply hmut_remove_gone in M. tauto.
Qed.
Section Left.
Variables (p : opcond) (w : node) (base : graph).
(* the edge of c that pruning looks at when it comes to position i *)
Definition looked_at (c : list node) (i : nat) : node * node :=
  let ri := (i + 1) mod length c in
  if Nat.eqb (nth ri c 0) w
  then (let in_cycle := filter (fun n => mem n c) (p_nodes p) in
        let to_check := match in_cycle with [] => p_nodes p | _ => in_cycle end in
        if forallb (fun n => mem w (ancestors_of base n)) to_check || negb (forallb (fun n => mem w (descendants_of base n)) to_check)
        then (w, cyc_nth c (ri + 1)) else (cyc_nth c (ri + length c - 1), w))
  else (nth i c 0, nth ri c 0).
Lemma looked_at_follows : forall c i, i < length c -> follows c (fst (looked_at c i)) (snd (looked_at c i)).
Proof.
  intros c i L. unfold looked_at. cbv zeta. set (ri := (i + 1) mod length c).
  assert (R : ri < length c) by (apply Nat.mod_upper_bound; lia).
  assert (RI : S i mod length c = ri) by (unfold ri; f_equal; lia).
  destruct (Nat.eqb_spec (nth ri c 0) w) as [E|E].
  - destruct (forallb _ _ || _); simpl.
    + apply follows_nth. exists ri. split; auto. split; auto. unfold cyc_nth. do 2 f_equal. lia.
    + apply follows_nth. exists i. split; auto. rewrite RI. split; auto. unfold cyc_nth. f_equal. unfold ri.
      destruct (Nat.eq_dec (S i) (length c)) as [D|D].
      * replace (i + 1) with (length c) by lia. rewrite Nat.mod_same by lia. rewrite Nat.mod_small by lia. lia.
      * rewrite (Nat.mod_small (i + 1)) by lia. replace (i + 1 + length c - 1) with (i + 1 * length c) by lia.
        rewrite Nat.mod_add by lia. rewrite Nat.mod_small by lia. auto.
  - simpl. apply follows_nth. exists i. rewrite RI. auto.
Qed.
Lemma prune_edge_id : forall c h i, i < length c -> (forall a b, follows c a b -> In a (hget (prune_edge p w base c h i) b)) ->
  prune_edge p w base c h i = h.
Proof.
  intros c h i L F. pose proof (F _ _ (looked_at_follows c i L)) as X. clear F. revert X. unfold looked_at, prune_edge, prune_owner_edge. cbv zeta.
  destruct (Nat.eqb (nth ((i + 1) mod length c) c 0) w).
  - match goal with |- context [required_edge p w (fst ?e) (snd ?e)] => destruct (required_edge p w (fst e) (snd e)); auto end. apply drop_edge_id.
  - match goal with |- context [if ?b then _ else _] => destruct b; auto end. apply drop_edge_id.
Qed.
Lemma prune_cycle_id : forall c h, (forall a b, follows c a b -> In a (hget (prune_cycle p w base c h) b)) ->
  prune_cycle p w base c h = h /\ forall i, i < length c -> prune_edge p w base c h i = h.
Proof.
  intros c h F. unfold prune_cycle in *.
  assert (G : forall l x, (forall i, In i l -> i < length c) -> (forall a b, follows c a b -> In a (hget (fold_left (prune_edge p w base c) l x) b)) ->
    fold_left (prune_edge p w base c) l x = x /\ forall i, In i l -> prune_edge p w base c x i = x).
  { clear h F. induction l as [|i l IH]; intros x L F; simpl in *; [split; auto; tauto|].
    destruct (IH (prune_edge p w base c x i)) as [A B]; auto.
    assert (E : prune_edge p w base c x i = x). { apply prune_edge_id; auto. rewrite A in F. auto. }
    rewrite E in A, B. split; [rewrite E; auto|]. intros j [->|J]; auto. }
  destruct (G (seq 0 (length c)) h) as [A B]; auto. { intros i I. apply in_seq in I. lia. }
  split; auto. intros i I. apply B. apply in_seq. lia.
Qed.
Variable cyc : graph -> list (list node).
Lemma prune_pass_id : forall todo h h' cs, prune_pass cyc p w base todo (cyc (unload h)) h = (h', cs) -> incl todo (cyc (unload h)) ->
  (forall c a b, In c todo -> follows c a b -> In a (hget h' b)) -> h' = h /\ forall c, In c todo -> forall i, i < length c -> prune_edge p w base c h i = h.
Proof.
  induction todo as [|c r IH]; intros h h' cs E I F; simpl in E; [inversion E; subst; split; auto; intros c []|].
  assert (CI : cycle_in c (cyc (unload h)) = true).
  { unfold cycle_in. apply existsb_exists. exists c. split; [apply I; simpl; auto|]. destruct (list_eq_dec Nat.eq_dec c c); congruence. }
  rewrite CI in E. destruct (prune_cycle_id c h) as [A B].
  { intros a b X. destruct (prune_pass_drops p w cyc base r (prune_cycle p w base c h)) as (k & h2 & E2 & D).
    rewrite E in E2. inversion E2; subst h2. eapply (drops_sub p w); eauto. apply (F c); simpl; auto. }
  rewrite A in E. destruct (IH _ _ _ E) as [H1 H2]; [intros x X; apply I; simpl; auto|intros; eapply F; simpl; eauto|].
  split; auto. intros d [->|X]; auto.
Qed.
End Left.
Lemma sort_by_len_In : forall l c, In c (sort_by_len l) <-> In c l.
Proof.
  assert (G : forall x l c, In c (insert_by_len x l) <-> c = x \/ In c l).
  { intros x l c. induction l as [|d l IH]; simpl; [intuition|]. destruct (Nat.leb (length d) (length x)); simpl; rewrite ?IH; intuition. }
  intros l c. unfold sort_by_len. induction l as [|x l IH]; simpl; [tauto|]. rewrite G, IH. intuition.
Qed.
Lemma prune_loop_left : forall p w base cyc, lists_cycles cyc -> forall fuel h h', prune_loop cyc fuel p w base (cyc (unload h)) h = Some h' ->
  forall c, In c (cyc (unload h')) -> forall i, i < length c -> prune_edge p w base c h' i = h'.
Proof.
  intros p w base cyc LC. induction fuel as [|f IH]; intros h h' E c H i L; simpl in E.
  - destruct (cyc (unload h)) eqn:EC; [|discriminate]. inversion E; subst. rewrite EC in H. destruct H.
  - destruct (cyc (unload h)) as [|c0 r0] eqn:EC; [inversion E; subst; rewrite EC in H; destruct H|]. rewrite <- EC in E.
    destruct (prune_pass cyc p w base (sort_by_len (cyc (unload h))) (cyc (unload h)) h) as [h2 cs] eqn:EP.
    destruct (prune_pass_drops p w cyc base (sort_by_len (cyc (unload h))) h) as (k & h3 & E3 & D). rewrite EP in E3. inversion E3; subst h3 cs.
    destruct (cycles_eqb (cyc (unload h)) (cyc (unload h2))) eqn:EQ; [|eapply IH; eauto].
    inversion E; subst h2. unfold cycles_eqb in EQ. destruct (list_eq_dec _ _ _) as [EE|]; [|discriminate].
    destruct (prune_pass_id p w base cyc _ _ _ _ EP) as [X Y].
    + intros d Dd. apply sort_by_len_In; auto.
    + intros d a b Dd F. apply (proj1 (sort_by_len_In _ _)) in Dd. rewrite EE in Dd. apply edge_unload. apply (LC (unload h')) in Dd. apply Dd; auto.
    + subst h'. apply Y; auto. apply sort_by_len_In; auto.
Qed.
Lemma follows_fun : forall c a b b', NoDup c -> follows c a b -> follows c a b' -> b = b'.
Proof.
  intros c a b b' N (i & A & B) (j & A' & B').
  assert (E : i = j) by (eapply NoDup_nth_error; eauto; [apply nth_error_Some; congruence|congruence]). subst j. congruence.
Qed.
Lemma follows_fun' : forall c a a' b, NoDup c -> follows c a b -> follows c a' b -> a = a'.
Proof.
  intros c a a' b N (i & A & B) (j & A' & B').
  assert (Li : i < length c) by (apply nth_error_Some; congruence).
  assert (Lj : j < length c) by (apply nth_error_Some; congruence).
  assert (E : S i mod length c = S j mod length c) by (eapply NoDup_nth_error; eauto; [apply nth_error_Some; congruence|congruence]).
  assert (X : i = j).
  { destruct (Nat.eq_dec (S i) (length c)) as [D|D]; destruct (Nat.eq_dec (S j) (length c)) as [D'|D']; try lia.
    - rewrite D, Nat.mod_same, Nat.mod_small in E by lia. lia.
    - rewrite D', Nat.mod_same, Nat.mod_small in E by lia. lia.
    - rewrite !Nat.mod_small in E by lia. lia. }
  subst j. congruence.
Qed.
Lemma to_check_deciding : forall p c n,
  In n (match filter (fun n => mem n c) (p_nodes p) with [] => p_nodes p | _ => filter (fun n => mem n c) (p_nodes p) end) <-> deciding p c n.
Proof.
  intros p c n. unfold deciding. assert (FI : forall m, In m (filter (fun n => mem n c) (p_nodes p)) <-> In m (p_nodes p) /\ In m c) by (intros m; rewrite filter_In, mem_In; tauto).
  destruct (filter (fun n => mem n c) (p_nodes p)) as [|x r] eqn:E.
  - split; [|tauto]. intros H. split; auto. right. intros m M C. apply (FI m). auto.
  - rewrite FI. split; [tauto|]. intros [A [B|B]]; [auto|]. exfalso. specialize (FI x). simpl in FI. destruct FI as [FI _]. destruct FI as [X Y]; auto. apply (B x); auto.
Qed.
Lemma forallb_deciding : forall p c (f : node -> bool) (Q : node -> Prop), (forall n, f n = true <-> Q n) ->
  (forallb f (match filter (fun n => mem n c) (p_nodes p) with [] => p_nodes p | _ => filter (fun n => mem n c) (p_nodes p) end) = true <-> forall n, deciding p c n -> Q n).
Proof.
  intros p c f Q E. rewrite forallb_forall. split; intros H n N; apply E, H, to_check_deciding; auto.
Qed.
Lemma cuts_outgoing_dec : forall p w base c, wf_graph base ->
  let tc := match filter (fun n => mem n c) (p_nodes p) with [] => p_nodes p | _ => filter (fun n => mem n c) (p_nodes p) end in
  forallb (fun n => mem w (ancestors_of base n)) tc || negb (forallb (fun n => mem w (descendants_of base n)) tc) = true <-> cuts_outgoing p w base c.
Proof.
  intros p w base c W tc. unfold cuts_outgoing. rewrite orb_true_iff, negb_true_iff.
  unfold tc. rewrite <- not_true_iff_false. rewrite (forallb_deciding p c _ (fun n => ancestor base w n)), (forallb_deciding p c _ (fun n => ancestor base n w)); [tauto| |].
  - intros n. rewrite mem_In, descendants_of_spec by auto. unfold ancestor. intuition.
  - intros n. rewrite mem_In, ancestors_of_spec by auto. unfold ancestor. intuition.
Qed.
Lemma rotation_removable : forall p w g c d a b, rotation c d -> removable p w g c a b -> removable p w g d a b.
Proof.
  intros p w g c d a b R. assert (DD : forall n, deciding p d n <-> deciding p c n).
  { intros n. unfold deciding. rewrite (rotation_In c d n R). split; intros [A [B|B]]; split; auto; right; intros m M; rewrite ?(rotation_In c d m R); auto. rewrite <- (rotation_In c d m R); auto. }
  assert (CC : cuts_outgoing p w g d <-> cuts_outgoing p w g c).
  { unfold cuts_outgoing. split; (intros [H|H]; [left; intros n N; apply H, DD; auto|right; intros X; apply H; intros n N; apply X, DD; auto]). }
  unfold removable. tauto.
Qed.
Theorem prune_left : forall cyc p w base h h', lists_cycles cyc -> wf_graph base -> p_prune p = true -> prune_cycles cyc p w base h = Some h' ->
  forall c a b, simple_cycle (unload h') c -> follows c a b -> ~ removable p w base c a b.
Proof.
  intros cyc p w base h h' LC W PP E c a b SC F RM. unfold prune_cycles in E. rewrite PP in E.
  destruct (LC (unload h')) as [L1 L2]. destruct (L2 c SC) as (d & R & Dd). pose proof (L1 _ Dd) as (NE & N & FE).
  pose proof (prune_loop_left p w base cyc LC _ _ _ E d Dd) as ID. clear E L1 L2 LC Dd SC.
  apply (rotation_follows c d a b R) in F. apply (rotation_removable p w base c d a b R) in RM. clear c R.
  assert (IN : forall x y, follows d x y -> In x (hget h' y)) by (intros x y X; apply edge_unload; auto).
  assert (OWN : forall x, follows d x w -> exists u v, follows d u v /\ required_edge p w u v = true /\ ((u = w /\ cuts_outgoing p w base d) \/ (v = w /\ ~ cuts_outgoing p w base d))).
  { intros x X. apply follows_nth in X. destruct X as (i & L & X1 & X2). replace (S i) with (i + 1) in X2 by lia. specialize (ID i L). pose proof (looked_at_follows p w base d i L) as LF.
    exists (fst (looked_at p w base d i)), (snd (looked_at p w base d i)). split; auto. apply IN in LF. revert LF ID. unfold looked_at, prune_edge, prune_owner_edge. cbv zeta.
    rewrite X2, Nat.eqb_refl.
    pose proof (cuts_outgoing_dec p w base d W) as CO. cbv zeta in CO. destruct (_ || _).
    - simpl. intros A B. split; [|left; split; auto; apply CO; auto]. destruct (required_edge p w w _); auto. exfalso. unfold drop_edge in B.
      pose proof A as M. apply mem_In in M. rewrite M in B. apply hmut_remove_gone in A. rewrite B in A. apply A. apply mem_In; auto.
    - simpl. intros A B. split; [|right; split; auto; intros Y; apply CO in Y; discriminate]. destruct (required_edge p w _ w); auto. exfalso. unfold drop_edge in B.
      pose proof A as M. apply mem_In in M. rewrite M in B. apply hmut_remove_gone in A. rewrite B in A. apply A. apply mem_In; auto. }
  destruct RM as [NN [(A & B & C)|[(-> & C)|(-> & C)]]].
  - apply follows_nth in F. destruct F as (i & L & X1 & X2). specialize (ID i L). revert ID. unfold prune_edge. cbv zeta. replace (i + 1) with (S i) by lia. rewrite X1, X2.
    apply Nat.eqb_neq in B. rewrite B. assert (M : mem b (senders base a) = true) by (apply mem_In, edge_aget; auto).
    apply Nat.eqb_neq in A. rewrite M, A. rewrite needed_required in NN. destruct (required_edge p w a b); [congruence|]. simpl.
    assert (H : In a (hget h' b)) by (apply IN; apply follows_nth; eauto). unfold drop_edge. pose proof H as M2. apply mem_In in M2. rewrite M2.
    apply hmut_remove_gone in H. intros EQ. rewrite EQ in H. apply H. apply mem_In; auto.
  - destruct (follows_in d w (proj1 (follows_In _ _ _ F))) as (x & X). destruct (OWN x X) as (u & v & UV & RQ & [[-> _]|[_ D]]); [|tauto].
    rewrite (follows_fun d w b v N F UV) in NN. apply NN. apply needed_required; auto.
  - destruct (OWN a F) as (u & v & UV & RQ & [[_ D]|[-> _]]); [tauto|].
    rewrite (follows_fun' d a u w N F UV) in NN. apply NN. apply needed_required; auto.
Qed.

(** ** reaching and walking *)
Lemma reach_trans : forall g a b c, reach g a b -> reach g b c -> reach g a c.
Proof. intros g a b c R1 R2. induction R2 as [c E|c d R2 IH E]; [exact (reach_step _ _ _ _ R1 E)|exact (reach_step _ _ _ _ IH E)]. Qed.
Lemma reach_walk : forall g a b, reach g a b -> exists k, walk g a k b.
Proof.
  intros g a b R. induction R as [b E|b c R (k & K) E].
  - destruct (Nat.eq_dec a b) as [->|D]; [exists 0; constructor|exists 1; eapply walk_step; eauto; constructor].
  - destruct (Nat.eq_dec b c) as [->|D]; [eauto|exists (S k); eapply walk_step; eauto].
Qed.
Lemma walk_reach : forall g a k b, walk g a k b -> a = b \/ reach g a b.
Proof.
  intros g a k b W. induction W as [|k b c W [->|IH] E D]; auto; right; [apply reach_edge; auto|eapply reach_step; eauto].
Qed.
Lemma reach_cyclic : forall g a b, reach g a b -> reach g b a -> a <> b -> cyclic g.
Proof.
  intros g a b R1 R2 D. apply reach_walk in R1. apply reach_walk in R2. destruct R1 as (k & W1). destruct R2 as (m & W2).
  destruct k as [|k]; [inversion W1; subst; congruence|]. exists a, (k + m). exact (walk_app _ _ _ _ _ _ W1 W2).
Qed.
Lemma walk_sub : forall g h, (forall a b, edge h a b -> a <> b -> edge g a b) -> forall u k v, walk h u k v -> walk g u k v.
Proof. intros g h H u k v W. induction W; [constructor|eapply walk_step; eauto]. Qed.
(* a walk using additional edges (x,y), those with [N x y]: either it uses none or it gets to
   an x before and comes from a y at the end *)
Lemma walk_split : forall g g' (N : node -> node -> Prop), (forall a b, edge g' a b -> a <> b -> edge g a b \/ N a b) ->
  forall u k v, walk g' u k v -> walk g u k v \/ exists x y x' y' i j, N x y /\ N x' y' /\ walk g u i x /\ walk g y' j v.
Proof.
  intros g g' N H u k v W. induction W as [|k b c W IH E D]; [left; constructor|].
  destruct (H _ _ E D) as [E'|E'].
  - destruct IH as [IH|(x & y & x' & y' & i & j & A & B & C & F)]; [left; eapply walk_step; eauto|].
    right. exists x, y, x', y', i, (S j). split; auto. split; auto. split; auto. eapply walk_step; eauto.
  - right. destruct IH as [IH|(x & y & x' & y' & i & j & A & B & C & F)].
    + exists b, c, b, c, k, 0. split; auto. split; auto. split; auto. constructor.
    + exists x, y, b, c, i, 0. split; auto. split; auto. split; auto. constructor.
Qed.

(** ** reconnecting adds no cycle *)
Lemma reconnect_acyclic : forall p w base st K h, inside st K h -> unaliased h -> NoDup K -> closed_graph base -> incl (gkeys base) K ->
  ~ cyclic (unload h) -> ~ cyclic (unload (reconnect p w base h)).
Proof.
  intros p w base st K h I U NK C IK NC.
  assert (G : inside st K (reconnect p w base h) /\ unaliased (reconnect p w base h) /\ ~ cyclic (unload (reconnect p w base h))); [|tauto].
  apply reconnect_inv with (P := fun x => inside st K x /\ unaliased x /\ ~ cyclic (unload x)); [auto|].
  intros x s r (I1 & U1 & N1) A B D F.
  assert (SK : In s K). { apply IK, (C s w). apply edge_aget; auto. }
  assert (RK : In r K). { apply IK. assert (X : edge base w r) by (apply edge_aget; auto). destruct X as (l & X & _). apply (aget_Some_key _ r base); eauto. }
  split; [apply inside_hmut; auto; apply okset_add; auto; eapply hget_ok; eauto|]. split; auto.
  intros (n & k & W). apply N1.
  assert (HE : forall a b, edge (unload (hmut x r (s_add s))) a b -> a <> b -> edge (unload x) a b \/ (a = s /\ b = r)).
  { intros a b E _. apply edge_unload in E. rewrite (hget_hmut_In _ _ _ _ _ _ I1 U1 RK) in E. destruct (Nat.eqb_spec b r) as [D1|D1].
    + subst b. rewrite s_add_In in E. destruct E as [->|E]; auto. left. apply edge_unload; auto.
    + left. apply edge_unload; auto. }
  destruct (walk_split _ _ (fun a b => a = s /\ b = r) HE _ _ _ W) as [V|(y1 & y2 & y3 & y4 & i & j & (-> & ->) & (-> & ->) & V1 & V2)].
  - exists n, k; auto.
  - assert (DD : s <> r -> False).
    { intros DD. apply F. apply descendants_of_spec; [unfold wf_graph; rewrite (inside_unload _ _ _ I1); auto|]. split; auto.
      pose proof (walk_app _ _ _ _ _ _ V2 V1) as V. apply walk_reach in V. destruct V as [V|V]; [congruence|auto]. }
    destruct (Nat.eq_dec s r) as [->|]; [|tauto].
    (* the added edge is a self-loop *)
    assert (Z : forall u m v, walk (unload (hmut x r (s_add r))) u m v -> walk (unload x) u m v); [|exists n, k; auto].
    intros u m v Z. induction Z as [|m b c Z IH E D1]; [constructor|]. eapply walk_step; eauto.
    apply edge_unload in E. rewrite (hget_hmut_In _ _ _ _ _ _ I1 U1 RK) in E. apply edge_unload. destruct (Nat.eqb_spec c r) as [->|D2]; auto.
    rewrite s_add_In in E. destruct E as [->|E]; [congruence|auto].
Qed.

(** ** the stages of modify_graph *)
Theorem modify_stages : forall cyc p w g g', wf_graph g -> closed_graph g -> In w (gkeys g) -> incl (p_nodes p) (gkeys g) -> ~ In w (p_nodes p) -> no_alias p ->
  lists_cycles cyc -> p_prune p = true -> ~ cyclic g -> modify_graph cyc (Some w) (GOps p) g = Ok g' ->
  ~ cyclic g' \/
  exists gp gm, prepared p w g gp /\ (p_ignore_conflicts p = false -> ~ conflicting p w gp) /\
    (forall a b, edge gm a b -> E_self p w g gp a b) /\
    (forall c a b, simple_cycle gm c -> follows c a b -> ~ removable p w g c a b) /\
    (~ cyclic gm -> ~ cyclic g').
Proof.
  intros cyc p w g g' W C Hw HS WS NA LC PR NCG.
  assert (GK : gsc_graph_ok (GOps p) w g = true) by (apply graph_ok_keys; [intros f X; discriminate|split; auto]).
  assert (EM : modify_graph cyc (Some w) (GOps p) g = bind (modify_ops cyc p w (load g)) (fun h => Ok (unload h))).
  { unfold modify_graph. cbn [modify_graph_in]. rewrite unload_load, GK. auto. }
  rewrite EM. clear EM GK. pose proof (load_wf _ W C) as WH. pose proof (load_keys g) as LK.
  assert (NK : NoDup (gkeys g)) by exact W.
  assert (CE : forall h, (forall a b, edge h a b -> edge g a b) -> ~ cyclic h).
  { intros h H (n & k & V). apply NCG. exists n, k. eapply walk_sub; [|exact V]; auto. }
  pattern (modify_ops cyc p w (load g)). eapply modify_ops_cases with (K := gkeys g); auto.
  - intros D AV X. inversion X; subst g'. left. apply CE. intros a b. rewrite edge_unload, hget_hclone_In, hget_load. tauto.
  - intros h0 W0 K0 V0 T0 NV I1 U1 V1. set (hp := preprocess p w (hclone h0)) in *.
    assert (PP : prepared p w g (unload hp)) by (intros a b; rewrite edge_unload, V1, hget_load; tauto).
    assert (E0 : forall a b, edge (unload h0) a b <-> edge g a b) by (intros a b; rewrite edge_unload, V0, hget_load; tauto).
    assert (G0 : forall n a, In a (senders (unload h0) n) <-> edge g a n) by (intros n a; rewrite senders_unload, V0, hget_load; tauto).
    destruct (process_spec p w _ _ _ I1 U1 NK Hw HS WS NA) as [(EP & CF)|(r & r0 & EP & OG & NC & IR & UR & PRO & CL)]; rewrite EP.
    + split; discriminate.
    + split; [discriminate|]. intros r' k h1 X IR' D DP I2 EPR Y. inversion X; subst r'; clear X IR'. simpl in Y. inversion Y; subst g'; clear Y. right.
      exists (unload hp), (unload h1). split; auto. split; auto.
      set (r1 := remove_new_self p (unload h0) r) in *.
      assert (I3 : inside (h_store h0) (gkeys g) r1) by (apply remove_self_inside; auto).
      assert (U3 : unaliased r1) by (unfold unaliased, r1; rewrite remove_self_refs; auto).
      assert (V3 : forall a b, In a (hget r1 b) <-> E_self p w g (unload hp) a b).
      { intros a b. unfold r1. rewrite (remove_self_value p (gkeys g) _ _ _ IR UR), G0. unfold E_self.
        assert (CC : In a (hget r b) <-> E_class p w (unload hp) a b); [|tauto].
        rewrite (CL a b). unfold E_class. assert (PE : forall b, In a (hget r0 b) <-> E_ops p w (unload hp) a b) by (intros; apply processed_E; auto).
        pose proof (PE b). pose proof (PE w). destruct (p_kind p); try tauto.
        destruct (p_nodes p) as [|n0 rest]; try tauto. pose proof (PE n0). destruct (Nat.eqb b w || Nat.eqb b n0); tauto. }
      assert (U2 : unaliased h1) by (unfold unaliased; rewrite (drops_refs _ _ _ _ _ D); auto).
      assert (WB : wf_graph (unload h0)) by (unfold wf_graph; rewrite unload_keys, K0; auto).
      split; [intros a b H; apply V3; apply edge_unload in H; eapply drops_sub; eauto|]. split.
      * intros c a b SC F RM. eapply (prune_left cyc p w (unload h0)); eauto.
        assert (RE : forall a b, reach (unload h0) a b <-> reach g a b).
        { intros x y. split; intros R; (induction R as [y E|y z R IH E]; [apply reach_edge, E0, E|apply (reach_step _ _ _ _ IH), E0, E]). }
        unfold removable, cuts_outgoing, ancestor in *. destruct RM as [RM1 RM]. split; auto.
        assert (Q1 : (forall n, deciding p c n -> w <> n /\ reach (unload h0) w n) <-> (forall n, deciding p c n -> w <> n /\ reach g w n)) by (split; intros Q n N; [rewrite <- RE|rewrite RE]; auto).
        assert (Q2 : (forall n, deciding p c n -> n <> w /\ reach (unload h0) n w) <-> (forall n, deciding p c n -> n <> w /\ reach g n w)) by (split; intros Q n N; [rewrite <- RE|rewrite RE]; auto).
        rewrite Q1, Q2, (E0 b a). exact RM.
      * apply (reconnect_acyclic p w (unload h0) (h_store h0) (gkeys g)); auto.
        -- intros a b H. apply E0 in H. rewrite unload_keys, K0. eapply C; eauto.
        -- rewrite unload_keys, K0. apply incl_refl.
Qed.

(** ** BeforeNodes, AfterNodes and WithNode with the default arguments *)
Lemma deciding_ex : forall p c, p_nodes p <> [] -> exists n, deciding p c n.
Proof.
  intros p c NE. destruct (filter (fun n => mem n c) (p_nodes p)) as [|x r] eqn:E.
  - destruct (p_nodes p) as [|y r'] eqn:EP; [congruence|]. exists y. apply to_check_deciding. rewrite EP in *. rewrite E. simpl; auto.
  - exists x. apply to_check_deciding. rewrite E. simpl; auto.
Qed.
Lemma cyclic_dec : forall p w base c, wf_graph base -> cuts_outgoing p w base c \/ ~ cuts_outgoing p w base c.
Proof.
  intros p w base c W. pose proof (cuts_outgoing_dec p w base c W) as D. cbv zeta in D. rewrite <- D. destruct (_ || _); auto.
Qed.
Theorem before_acyclic : forall cyc S s w g g', lists_cycles cyc -> before_nodes S = Ok s -> wf_graph g -> closed_graph g -> ~ cyclic g ->
  (forall n m, In n S -> In m S -> n <> m -> ~ reach g n m) ->
  modify_graph cyc (Some w) s g = Ok g' -> ~ In w S -> In w (gkeys g) -> incl S (gkeys g) -> ~ cyclic g'.
Proof.
  intros cyc S s w g g' LC EB W C NC UR EM OK Hw HS. destruct (before_inv _ _ EB) as [NE ->].
  set (p := mkOp KBefore S MERGE KEEP (SOne KEEP) (SOne KEEP) true true true false) in *.
  assert (WS : ~ In w (p_nodes p)) by exact OK.
  destruct (modify_stages cyc p w g g' W C Hw HS WS (before_no_alias S)) as [|(gp & gm & PP & CF & EE & ST & DONE)]; auto.
  apply DONE. intros CG. apply cyclic_simple in CG. destruct CG as (c & SC & L). pose proof SC as (_ & ND & FE).
  assert (ED : forall a b, edge gm a b -> edge g a b \/ (b = w /\ ~ In a S /\ exists n, In n S /\ edge g a n) \/ (a = w /\ In b S)).
  { intros a b H. apply EE in H. destruct H as [H _]. unfold E_class in H. simpl in H. destruct H as [H|H]; [|auto].
    destruct H as [(A & H)|[(A & B & H)|(A & B & H)]].
    - left. destruct H as [[-> H]|(_ & o & X & H)]; simpl in *; [|inversion X; subst o; simpl in H]; apply PP in H; tauto.
    - unfold acts in A; simpl in A. destruct H as [[-> H]|(_ & o & X & H)]; simpl in *.
      + destruct H as [H|(n & N & H)]; [left; apply PP in H; tauto|]. right; left. split; auto. split; [tauto|]. exists n. split; auto. apply PP in H; tauto.
      + inversion X; subst o; simpl in H. left. apply PP in H; tauto.
    - left. apply PP in H; tauto. }
  assert (NW : forall a b, follows c a b -> a <> b) by (intros a b F; eapply follows_neq; eauto).
  destruct (In_dec_nat w c) as [Wc|Wc].
  2: { apply NC. apply (cycle_cyclic g c L ND). intros a b F. destruct (follows_In _ _ _ F) as [A B]. apply FE, ED in F.
       destruct F as [F|[(-> & _)|(-> & _)]]; auto; contradiction. }
  destruct (follows_out c w Wc) as (z & Z). destruct (follows_in c w Wc) as (x & X). pose proof (NW _ _ Z) as Dz. pose proof (NW _ _ X) as Dx.
  assert (ALL : forall y, In y c -> y = w \/ y = z \/ reach g z y).
  { intros y Y. apply (around (edge g) (fun y => y = w \/ y = z \/ reach g z y) c) with (a := w); auto. intros a b F Q.
    destruct (Nat.eq_dec b w) as [|Db]; auto. destruct (Nat.eq_dec a w) as [->|Da]; [right; left; apply (follows_fun c w b z ND F Z)|].
    apply FE, ED in F. destruct F as [F|[(-> & _)|(-> & _)]]; try congruence. right; right. destruct Q as [Q|[->|Q]]; [congruence|apply reach_edge; auto|eapply reach_step; eauto]. }
  assert (NX : ~ needed p w x w) by (unfold needed; simpl; intros [Q _]; congruence).
  destruct (cyclic_dec p w g c W) as [CO|CO].
  2: { apply (ST c x w SC X). split; auto. }
  assert (NZ : In z S).
  { destruct (In_dec_nat z S) as [|Q]; auto. exfalso. apply (ST c w z SC Z). split; [unfold needed; simpl; tauto|auto]. }
  assert (ZW : reach g z w).
  { destruct (ALL x) as [Q|Q]; [apply (follows_In _ _ _ X)|congruence|]. pose proof X as X'. apply FE, ED in X. destruct X as [X|[(_ & X1 & n & N & X)|(Q' & _)]]; [| |congruence].
    - destruct Q as [->|Q]; [apply reach_edge; auto|eapply reach_step; eauto].
    - exfalso. destruct Q as [->|Q]; [contradiction|]. destruct (Nat.eq_dec z n) as [->|D].
      + apply NC. apply (reach_cyclic g n x); auto; [apply reach_edge; auto|]. intros ->. contradiction.
      + apply (UR z n NZ N D). eapply reach_step; eauto. }
  assert (DZ : forall n, deciding p c n -> n = z).
  { intros n (N & [N'|N']); [|exfalso; apply (N' z); [auto|apply (follows_In _ _ _ Z)]]. destruct (ALL n N') as [->|[->|Q]]; auto; [contradiction|].
    destruct (Nat.eq_dec n z); auto. exfalso. apply (UR z n NZ N); auto. }
  destruct CO as [CO|CO].
  - assert (DzC : deciding p c z) by (split; [auto|left; apply (follows_In _ _ _ Z)]). apply CO in DzC. apply NC. apply (reach_cyclic g w z); auto; apply DzC.
  - apply CO. intros n N. rewrite (DZ n N). split; auto.
Qed.
Theorem after_acyclic : forall cyc S s w g g', lists_cycles cyc -> after_nodes S = Ok s -> wf_graph g -> closed_graph g -> ~ cyclic g ->
  (forall n, In n S -> ~ reach g n w) ->
  modify_graph cyc (Some w) s g = Ok g' -> ~ In w S -> In w (gkeys g) -> incl S (gkeys g) -> ~ cyclic g'.
Proof.
  intros cyc S s w g g' LC EB W C NC UR EM OK Hw HS. destruct (after_inv _ _ EB) as [NE ->].
  set (p := mkOp KAfter S KEEP MERGE (SOne MERGE) (SOne KEEP) true true true false) in *.
  assert (WS : ~ In w (p_nodes p)) by exact OK.
  destruct (modify_stages cyc p w g g' W C Hw HS WS (after_no_alias S)) as [|(gp & gm & PP & CF & EE & ST & DONE)]; auto.
  apply DONE. intros CG. apply cyclic_simple in CG. destruct CG as (c & SC & L). pose proof SC as (_ & ND & FE).
  destruct (In_dec_nat w c) as [Wc|Wc].
  { destruct (follows_out c w Wc) as (z & Z). apply (ST c w z SC Z). split; [unfold needed; simpl; tauto|]. right; left. split; auto.
    right. intros H. destruct (deciding_ex p c NE) as (n & N). destruct (H n N) as [_ R]. apply (UR n); auto. apply N. }
  assert (ED : forall a b, edge gm a b -> a <> w -> b <> w -> edge g a b \/ (In b S /\ edge g a w)).
  { intros a b H Da Db. apply EE in H. destruct H as [H _]. unfold E_class in H. simpl in H. destruct H as [H|[H _]]; [|congruence].
    destruct H as [(A & H)|[(A & B & H)|(A & B & H)]].
    - left. destruct H as [[-> H]|(_ & o & X & H)]; simpl in *; [congruence|inversion X; subst o; simpl in H]; apply PP in H; tauto.
    - destruct H as [[-> H]|(B' & o & X & H)]; simpl in *; [congruence|]. inversion X; subst o; simpl in H. destruct H as [H|H]; [left|right; split; auto]; apply PP in H; tauto.
    - left. apply PP in H; tauto. }
  set (N := fun a b : node => In b S /\ edge g a w).
  assert (CY : exists n k, walk g n (Datatypes.S k) n \/ exists x y x' y' i j, N x y /\ N x' y' /\ walk g n i x /\ walk g y' j n).
  { destruct c as [|a r] eqn:EC; [simpl in L; lia|]. rewrite <- EC in *. assert (A : In a c) by (rewrite EC; simpl; auto).
    (* walk around the cycle, keeping what walk_split says *)
    destruct (follows_out c a A) as (b & B). 
    assert (STEP : forall u v k, follows c u v -> (walk g a k u \/ exists x y x' y' i j, N x y /\ N x' y' /\ walk g a i x /\ walk g y' j u) ->
                                 (walk g a (Datatypes.S k) v \/ exists x y x' y' i j, N x y /\ N x' y' /\ walk g a i x /\ walk g y' j v)).
    { intros u v k F Q. pose proof (follows_neq _ _ _ ND L F) as D. destruct (follows_In _ _ _ F) as [U V]. apply FE in F. apply ED in F; try (intros ->; contradiction).
      destruct F as [F|F].
      - destruct Q as [Q|(x & y & x' & y' & i & j & Q1 & Q2 & Q3 & Q4)]; [left; eapply walk_step; eauto|].
        right. exists x, y, x', y', i, (Datatypes.S j). split; auto. split; auto. split; auto. eapply walk_step; eauto.
      - right. destruct Q as [Q|(x & y & x' & y' & i & j & Q1 & Q2 & Q3 & Q4)].
        + exists u, v, u, v, k, 0. split; auto. split; auto. split; auto. constructor.
        + exists x, y, u, v, i, 0. split; auto. split; auto. split; auto. constructor. }
    exists a. assert (Q : exists k, walk g a (Datatypes.S k) a \/ exists x y x' y' i j, N x y /\ N x' y' /\ walk g a i x /\ walk g y' j a); auto.
    apply (around (edge g) (fun v => exists k, walk g a (Datatypes.S k) v \/ exists x y x' y' i j, N x y /\ N x' y' /\ walk g a i x /\ walk g y' j v) c) with (a := b); auto.
    - intros u v F (k & Q). exists (Datatypes.S k). apply (STEP u v (Datatypes.S k) F Q).
    - apply (follows_In _ _ _ B).
    - exists 0. apply (STEP a b 0 B). left. constructor. }
  destruct CY as (n & k & [Q|(x & y & x' & y' & i & j & (Q1 & Q2) & (Q3 & Q4) & Q5 & Q6)]); [apply NC; exists n, k; auto|].
  pose proof (walk_app _ _ _ _ _ _ Q6 Q5) as Q. apply walk_reach in Q. apply (UR y' Q3). destruct Q as [<-|Q]; [apply reach_edge; auto|eapply reach_step; eauto].
Qed.
Theorem with_acyclic : forall cyc s w n g g', lists_cycles cyc -> with_node n = Ok s -> wf_graph g -> closed_graph g -> ~ cyclic g ->
  ~ reach g n w -> ~ reach g w n ->
  modify_graph cyc (Some w) s g = Ok g' -> w <> n -> In w (gkeys g) -> In n (gkeys g) -> ~ cyclic g'.
Proof.
  intros cyc s w n g g' LC EB W C NC U1 U2 EM WN Hw Hn. rewrite (with_inv _ _ EB) in *. clear EB s.
  set (p := mkOp KWith [n] MERGE KEEP (SOne MERGE) (SOne KEEP) true true true false) in *.
  assert (WS : ~ In w (p_nodes p)) by (simpl; intuition).
  assert (HS : incl (p_nodes p) (gkeys g)) by (intros x [<-|[]]; auto).
  destruct (modify_stages cyc p w g g' W C Hw HS WS (with_no_alias n)) as [|(gp & gm & PP & CF & EE & ST & DONE)]; auto.
  apply DONE. intros (m & k & V). specialize (CF eq_refl). assert (CF' : ~ (edge g w w \/ edge g n n)) by (intros H; apply CF; apply (with_conflicting w n g WN gp PP); auto).
  set (N := fun a b : node => (b = w \/ b = n) /\ (edge g a w \/ edge g a n)).
  assert (OPS : forall a b, E_ops p w gp a b -> edge g a b \/ N a b).
  { intros a b [(A & H)|[(A & B & H)|(A & B & H)]].
    - left. destruct H as [[-> H]|(_ & o & X & H)]; simpl in *; [|inversion X; subst o; simpl in H]; apply PP in H; tauto.
    - right. destruct H as [[-> H]|(B' & o & X & H)]; simpl in *.
      + split; auto. destruct H as [H|(x & [<-|[]] & H)]; apply PP in H; tauto.
      + inversion X; subst o; simpl in H. destruct B' as [<-|[]]. split; auto. destruct H as [H|H]; apply PP in H; tauto.
    - left. apply PP in H; tauto. }
  assert (HE : forall a b, edge gm a b -> a <> b -> edge g a b \/ N a b).
  { intros a b H D0. clear D0. apply EE in H. destruct H as [H _]. unfold E_class in H. simpl in H.
    destruct (Nat.eqb_spec b w) as [D1|D1]; [subst b|destruct (Nat.eqb_spec b n) as [D2|D2]; [subst b|]]; simpl in H; auto.
    - right. split; auto. destruct H as [H|H]; apply OPS in H; destruct H as [H|[_ H]]; auto.
    - right. split; auto. destruct H as [H|H]; apply OPS in H; destruct H as [H|[_ H]]; auto. }
  destruct (walk_split _ _ N HE _ _ _ V) as [Q|(x & y & x' & y' & i & j & (_ & Q2) & (Q3 & _) & Q5 & Q6)]; [apply NC; exists m, k; auto|].
  pose proof (walk_app _ _ _ _ _ _ Q6 Q5) as Q. apply walk_reach in Q.
  assert (SELF : forall t, edge g x t -> y' = t -> t = w \/ t = n -> False).
  { intros t E <- T. destruct Q as [<-|Q]; [destruct T as [->| ->]; tauto|].
    destruct (Nat.eq_dec y' x) as [<-|D]; [destruct T as [->| ->]; tauto|]. apply NC. apply (reach_cyclic g y' x); auto. apply reach_edge; auto. }
  destruct Q3 as [->| ->]; destruct Q2 as [E|E].
  - apply (SELF w); auto.
  - apply U2. destruct Q as [<-|Q]; [apply reach_edge; auto|eapply reach_step; eauto].
  - apply U1. destruct Q as [<-|Q]; [apply reach_edge; auto|eapply reach_step; eauto].
  - apply (SELF n); auto.
Qed.
