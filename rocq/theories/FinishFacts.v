(** Facts for the property theorems C58: While, WhileNot, conditions on is_finished, and the
    conditions at the start of environment state updates and sequences. *)
From Verif Require Import SpecCond CondProofs CondFacts.

Lemma finished_any_spec : forall w e f ds, (forall d, In d ds -> w_finished w d e = Some (f d)) ->
  decides (finished_any w e ds) (exists d, In d ds /\ f d = true).
Proof.
  intros w e f ds; induction ds as [|d r IH]; intros H; simpl.
  - exists false; split; auto. split; [discriminate|intros (d & [] & _)].
  - rewrite (H d (or_introl eq_refl)). destruct (f d) eqn:F.
    + exists true; split; auto. split; auto. intros _; exists d; split; [left; auto|auto].
    + destruct IH as (b & E & B); [intros x X; apply H; right; auto|].
      exists b; split; auto. rewrite B. split.
      * intros (x & X & Y); exists x; split; [right; auto|auto].
      * intros (x & [->|X] & Y); [congruence|exists x; auto].
Qed.
Lemma finished_all_spec : forall w e f ds, (forall d, In d ds -> w_finished w d e = Some (f d)) ->
  decides (finished_all w e ds) (forall d, In d ds -> f d = true).
Proof.
  intros w e f ds; induction ds as [|d r IH]; intros H; simpl.
  - exists true; split; auto. split; [intros _ d []|auto].
  - rewrite (H d (or_introl eq_refl)). destruct (f d) eqn:F.
    + destruct IH as (b & E & B); [intros x X; apply H; right; auto|].
      exists b; split; auto. rewrite B. split.
      * intros A x [<-|X]; auto.
      * intros A x X; apply A; right; auto.
    + exists false; split; auto. split; [discriminate|intros A; rewrite <- F; apply A; left; auto].
Qed.
Lemma finished_any_first : forall w e ds r, (forall d, In d ds -> w_finished w d e = Some false) ->
  finished_any w e (ds ++ r) = finished_any w e r.
Proof. induction ds as [|d ds IH]; intros r H; simpl; auto. rewrite (H d (or_introl eq_refl)). apply IH; intros; apply H; right; auto. Qed.
Lemma finished_all_first : forall w e ds r, (forall d, In d ds -> w_finished w d e = Some true) ->
  finished_all w e (ds ++ r) = finished_all w e r.
Proof. induction ds as [|d ds IH]; intros r H; simpl; auto. rewrite (H d (or_introl eq_refl)). apply IH; intros; apply H; right; auto. Qed.
Lemma decides_and : forall v e ow st o c1 c2 P1 P2, observer e ow c1 ->
  decides (is_satisfied v e ow st c1) P1 -> decides (is_satisfied v e ow st c2) P2 ->
  decides (is_satisfied v e ow st (CAll o [c1; c2])) (P1 /\ P2).
Proof.
  intros v e ow st o c1 c2 P1 P2 O (b1 & E1 & B1) (b2 & E2 & B2).
  pose proof (ob_state e ow c1 O v st) as K. unfold is_satisfied, state_after in *. simpl.
  destruct (eval v e ow c1 st) as (r1, s1) eqn:X; simpl in *. subst r1 s1. destruct b1.
  - destruct (eval v e ow c2 st) as (r2, s2) eqn:Y; simpl in *. subst r2. exists b2. destruct b2; simpl; split; auto; tauto.
  - exists false; simpl; split; auto. split; [discriminate|]. intros (A & _). apply B1; auto.
Qed.
