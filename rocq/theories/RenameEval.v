(** Proofs for C82, part 2: conditions do not look at the names *)
From Verif Require Import SpecRename RenameGraph CondFacts.
Open Scope nat_scope.

Section Names.
Variable R : renaming.
Notation f := (r_node R).
Hypothesis inj : injective f.
Notation rs := (rn_set R). Notation rss := (rn_sets R). Notation rg := (rn_graph R). Notation rc := (rn_cond R).

Lemma users_all : forall cs, (fix go l := match l with [] => True | x :: r => users_follow R x /\ go r end) cs <-> (forall x, In x cs -> users_follow R x).
Proof.
  induction cs as [|x cs IH]; simpl; split; auto; [intros _ ? []| |].
  - intros [H H2] y [->|I]; auto. apply IH; auto.
  - intros H. split; [auto|]. apply IH. auto.
Qed.
Lemma rc_oid : forall c, cond_oid (rc c) = cond_oid c.
Proof. destruct c; auto. Qed.

Section Eval.
Variables (v v' : view) (e : eid) (ow ow' : oid -> option node).
Hypothesis V : view_follows R v v'.
Hypothesis O : forall o, ow' o = option_map f (ow o).
Lemma count_total_f : forall s d, count_total v' s (f d) = count_total v s d.
Proof.
  intros s d. unfold count_total. rewrite (vf_nodes _ _ _ V), (mem_f R inj). assert (T := vf_total _ _ _ V). destruct (v_total v), (v_total v'); simpl in T; try tauto. rewrite T. auto.
Qed.
Lemma count_useable_f : forall d o, count_useable v' (f d) (option_map f o) = count_useable v d o.
Proof.
  intros d o. unfold count_useable. rewrite (vf_nodes _ _ _ V), (mem_f R inj). assert (T := vf_use _ _ _ V). destruct (v_use v), (v_use v'); simpl in T; try tauto.
  destruct (mem d (v_nodes v)); auto. destruct o as [w|]; simpl; auto. rewrite (mem_f R inj), T. auto.
Qed.
Lemma sum_calls_f : forall s ds k, sum_calls v' s (rs ds) k = sum_calls v s ds k.
Proof. intros s. induction ds as [|d ds IH]; intros k; simpl; auto. rewrite count_total_f. destruct (count_total v s d); simpl; auto. Qed.
Lemma all_have_run_f : forall s ds, all_have_run v' s (rs ds) = all_have_run v s ds.
Proof. intros s. induction ds as [|d ds IH]; simpl; auto. rewrite count_total_f, IH. auto. Qed.
Lemma deps_f : forall ds, deps_or_nodes v' (rs ds) = rs (deps_or_nodes v ds).
Proof. intros [|d ds]; simpl; auto. apply (vf_nodes _ _ _ V). Qed.
Lemma finished_any_f : forall w w' ds, world_follows R w w' -> finished_any w' e (rs ds) = finished_any w e ds.
Proof. intros w w' ds W. induction ds as [|d ds IH]; simpl; auto. rewrite (wf_finished _ _ _ W), IH. auto. Qed.
Lemma finished_all_f : forall w w' ds, world_follows R w w' -> finished_all w' e (rs ds) = finished_all w e ds.
Proof. intros w w' ds W. induction ds as [|d ds IH]; simpl; auto. rewrite (wf_finished _ _ _ W), IH. auto. Qed.
Lemma owner_level_f : forall q i o acc, owner_level i (rss q) (option_map f o) acc = owner_level i q o acc.
Proof. induction q as [|c q IH]; intros i o acc; simpl; auto. rewrite IH. destruct o as [n|]; simpl; auto. rewrite (mem_f R inj). auto. Qed.
Lemma time_interval_f : forall o r s en si ei, time_interval v' (option_map f o) r s en si ei = time_interval v o r s en si ei.
Proof.
  intros o r s en si ei. unfold time_interval, in_exact_time_mode. rewrite (vf_clock _ _ _ V), (vf_exact _ _ _ V), (vf_queue _ _ _ V), owner_level_f. unfold rn_sets. rewrite map_length. auto.
Qed.
Lemma eval_atom_f : forall o a w w', users_follow R (CAtom o a) -> world_follows R w w' -> forall own,
  fst (eval_atom v' e (option_map f own) (rn_atom R a) w') = fst (eval_atom v e own a w) /\
  world_follows R (snd (eval_atom v e own a w)) (snd (eval_atom v' e (option_map f own) (rn_atom R a) w')).
Proof.
  intros o a w w' U W own. destruct a; cbn [rn_atom eval_atom fst snd]; try (split; [|assumption]).
  17: { exact (U v v' e own w w' V W). }
  all: rewrite ?(vf_clock _ _ _ V), ?count_total_f, ?count_useable_f, ?sum_calls_f, ?deps_f, ?all_have_run_f, ?(finished_any_f w w'), ?(finished_all_f w w'), ?time_interval_f, ?(wf_finished _ _ _ W), ?(wf_param _ _ _ W) by exact W; auto.
  rewrite (vf_list _ _ _ V). destruct (v_list v) as [l|]; simpl; auto. unfold rn_sets. rewrite <- map_rev. destruct (rev l); simpl; auto. rewrite (mem_f R inj). auto.
Qed.
Lemma eval_f : forall c, users_follow R c -> forall st st', cst_follows R st st' ->
  fst (eval v' e ow' (rc c) st') = fst (eval v e ow c st) /\ cst_follows R (snd (eval v e ow c st)) (snd (eval v' e ow' (rc c) st')).
Proof.
  induction c as [o a|o cs IH|o cs IH|o c IH|o c n IH] using cond_ind'; intros U st st' S; destruct S as [S W].
  - cbn [rn_cond eval]. rewrite O. destruct (eval_atom_f o a (s_world st) (s_world st') U W (ow o)) as [H1 H2].
    destruct (eval_atom v e (ow o) a (s_world st)) as [r w]. destruct (eval_atom v' e (option_map f (ow o)) (rn_atom R a) (s_world st')) as [r' w']. simpl in *. split; auto. split; auto.
  - cbn [rn_cond eval]. assert (U' := proj1 (users_all cs) U). clear U; rename U' into U. assert (SW : cst_follows R st st') by (split; auto). clear S W. revert st st' SW.
    induction IH as [|x l Hx _ IHl]; intros st st' SW; [split; auto|]. cbn [map]. destruct (Hx (U x (or_introl eq_refl)) st st' SW) as [H1 H2].
    destruct (eval v e ow x st) as [r s1], (eval v' e ow' (rc x) st') as [r' s1']. cbn [fst snd] in H1, H2. subst r'. destruct r as [[|]|]; [apply IHl; auto; intros y Iy; apply U; right; auto|split; auto..].
  - cbn [rn_cond eval]. assert (U' := proj1 (users_all cs) U). clear U; rename U' into U. assert (SW : cst_follows R st st') by (split; auto). clear S W. revert st st' SW.
    induction IH as [|x l Hx _ IHl]; intros st st' SW; [split; auto|]. cbn [map]. destruct (Hx (U x (or_introl eq_refl)) st st' SW) as [H1 H2].
    destruct (eval v e ow x st) as [r s1], (eval v' e ow' (rc x) st') as [r' s1']. cbn [fst snd] in H1, H2. subst r'. destruct r as [[|]|]; [split; auto|apply IHl; auto; intros y Iy; apply U; right; auto|split; auto].
  - cbn [rn_cond eval]. destruct (IH U st st' (conj S W)) as [H1 H2]. destruct (eval v e ow c st) as [r s1], (eval v' e ow' (rc c) st') as [r' s1']. cbn [fst snd] in H1, H2. subst r'. destruct r; split; auto.
  - cbn [rn_cond eval]. rewrite S. destruct (Nat.ltb _ _); [|split; auto; split; auto]. destruct (IH U st st' (conj S W)) as [H1 H2].
    destruct (eval v e ow c st) as [r s1], (eval v' e ow' (rc c) st') as [r' s1']. cbn [fst snd] in H1, H2. subst r'. destruct r as [[|]|]; split; auto. destruct H2 as [H2 H3]. split; auto. simpl.
    intros o0 e0. unfold upd. rewrite !H2. destruct (Nat.eqb o0 o); auto. destruct (Nat.eqb e0 e); auto.
Qed.
End Eval.

Lemma set_owner_f : forall c w ow ow', (forall o, ow' o = option_map f (ow o)) -> forall o, set_owner (option_map f w) (rc c) ow' o = option_map f (set_owner w c ow o).
Proof.
  assert (U : forall (ow ow' : oid -> option node) k w, (forall o, ow' o = option_map f (ow o)) -> forall o, upd ow' k (option_map f w) o = option_map f (upd ow k w o)) by (intros; unfold upd; destruct (Nat.eqb _ _); auto).
  assert (L : forall w cs, Forall (fun c => forall w (ow ow' : oid -> option node), (forall o, ow' o = option_map f (ow o)) -> forall o, set_owner (option_map f w) (rc c) ow' o = option_map f (set_owner w c ow o)) cs ->
    forall ow ow', (forall o, ow' o = option_map f (ow o)) -> forall o,
    (fix go (l : list cond) (own : oid -> option node) := match l with [] => own | x :: r => go r (if isSome (own (cond_oid x)) then own else set_owner (option_map f w) x own) end) (map rc cs) ow' o =
    option_map f ((fix go (l : list cond) (own : oid -> option node) := match l with [] => own | x :: r => go r (if isSome (own (cond_oid x)) then own else set_owner w x own) end) cs ow o)).
  { intros w cs F. induction F as [|x l Hx _ IHl]; intros ow ow' E o; cbn [map]; auto. apply IHl. rewrite rc_oid, E. intros o0. destruct (ow (cond_oid x)); simpl; auto. }
  induction c as [o a|o cs IH|o cs IH|o c IH|o c n IH] using cond_ind'; intros w ow ow' E; cbn [rn_cond set_owner cond_oid]; auto.
Qed.
Lemma is_absolute_f : forall c, is_absolute (rc c) = is_absolute c.
Proof.
  induction c as [o a|o cs IH|o cs IH|o c IH|o c n IH] using cond_ind'; cbn [rn_cond is_absolute]; auto; [destruct a; auto|..];
    induction IH as [|x l Hx _ IHl]; simpl; auto; rewrite Hx, IHl; auto.
Qed.
Lemma absolute_intervals_f : forall c, absolute_intervals (rc c) = absolute_intervals c.
Proof.
  induction c as [o a|o cs IH|o cs IH|o c IH|o c n IH] using cond_ind'; cbn [rn_cond absolute_intervals]; auto; [destruct a; auto|..];
    induction IH as [|x l Hx _ IHl]; simpl; auto; rewrite is_absolute_f, Hx, IHl; auto.
Qed.
Lemma fixed_points_f : forall c, absolute_fixed_points (rc c) = absolute_fixed_points c.
Proof.
  induction c as [o a|o cs IH|o cs IH|o c IH|o c n IH] using cond_ind'; cbn [rn_cond absolute_fixed_points]; auto; [destruct a; auto|..];
    induction IH as [|x l Hx _ IHl]; simpl; auto; rewrite is_absolute_f, Hx, IHl; auto.
Qed.
End Names.
