(** Consecutive runs of one execution id: proofs (C66). *)
From Verif Require Export SpecSession PassFacts.
From Verif Require Import RunProps.

Definition fine (H : list timescale) : Prop := Forall (fun s => ts_le s PASS) H.
(** what an event does to the clock *)
Definition tells (ev : event) (H : list timescale) : Prop :=
  match ev with
  | Returned b ys => exists H', H = H' ++ (if b then [ESU] else []) /\ fine H' /\ count CSE H' = length ys
  | Left ys => fine H /\ count CSE H = length ys - 1
  | Ended => H = [ES]
  end.
Lemma unstarted : forall m g m' g', running m g [] m' g' -> m_ctxs m' (g_eid g) = m_ctxs m (g_eid g).
Proof.
  intros m g m' g' R. remember [] as ys eqn:E. induction R as [|ys m1 g1 m2 R IH U|ys m1 g1 fuel m2 g2 s R IH E1]; auto.
  - rewrite (ud_ctx _ _ _ U). auto.
  - destruct ys; discriminate.
Qed.
Lemma left_clock : forall m g ys m' g' H0, running m g ys m' g' -> g_pc g = PStart -> clock_after ESU H0 (the_clock (m_ctxs m (g_eid g))) ->
  exists H, tells (Left ys) H /\ clock_after ESU (H0 ++ H) (the_clock (m_ctxs m' (g_eid g))).
Proof.
  intros m g ys m' g' H0 R Hp C. destruct ys as [|y ys].
  - exists []. rewrite app_nil_r, (unstarted _ _ _ _ R). split; [split; [constructor|reflexivity]|auto].
  - destruct (running_passes _ _ _ _ _ R) as (ts & Et & Rp). destruct ts as [|a ts]; [discriminate|].
    destruct (run_clock _ _ _ _ _ H0 Rp Hp) as (ev & K & N & F & _); [discriminate|auto|]. exists ev. split; [|auto].
    split; [auto|]. apply (f_equal (@length (list node))) in Et. rewrite map_length in Et. simpl in *. lia.
Qed.
Theorem session_clock : forall e m0 h m H0, session e m0 h m -> clock_after ESU H0 (the_clock (m_ctxs m0 e)) ->
  exists Hs, Forall2 tells h Hs /\ clock_after ESU (H0 ++ concat Hs) (the_clock (m_ctxs m e)).
Proof.
  intros e m0 h m H0 S C. induction S as [|h m m' S IH E|h m g ys m' l S IH Ge Hp R|h m g ys m' g' S IH Ge Hp R|h m m' S IH E].
  - exists []. simpl. rewrite app_nil_r. split; auto.
  - destruct IH as (Hs & F & K). exists Hs. rewrite E. auto.
  - destruct IH as (Hs & F & K). subst e. destruct (returned_clock _ _ _ _ _ _ R Hp K) as (ev & K' & N & Fi).
    exists (Hs ++ [ev ++ (if g_skip g then [] else [ESU])]). split.
    + apply Forall2_app; [auto|]. constructor; [|constructor]. exists ev. split; [destruct (g_skip g); auto|auto].
    + rewrite concat_app. simpl. rewrite app_nil_r, app_assoc. exact K'.
  - destruct IH as (Hs & F & K). subst e. destruct (left_clock _ _ _ _ _ _ R Hp K) as (ev & T & K').
    exists (Hs ++ [ev]). split; [apply Forall2_app; auto|]. rewrite concat_app. simpl. rewrite app_nil_r, app_assoc. exact K'.
  - destruct IH as (Hs & F & K). exists (Hs ++ [[ES]]). split; [apply Forall2_app; auto; constructor; [reflexivity|constructor]|].
    rewrite concat_app. simpl. rewrite app_assoc. unfold end_environment_sequence, incr_clock in E.
    destruct (clock_incr ES (the_clock (m_ctxs m e))) as [k|] eqn:Ck; [|discriminate]. injection E as <-.
    unfold set_clock. rewrite set_ctx_at. eapply ca_incr; eauto.
Qed.
(** ** The numbers *)
Lemma fine_count : forall H s, fine H -> ts_lt PASS s -> count s H = 0.
Proof.
  intros H s F L. unfold count. induction F as [|x H Lx F IH]; simpl; auto. destruct (ts_eqb s x) eqn:E; auto.
  unfold ts_eqb in E. apply Nat.eqb_eq in E. unfold ts_le, ts_lt in *. simpl in *. lia.
Qed.
Ltac ts := unfold ts_le, ts_lt in *; simpl in *; lia.
Lemma tells_counts : forall ev H, tells ev H -> count ES H = (if is_ended ev then 1 else 0) /\ count ESU H = (if is_numbered ev then 1 else 0) /\ count CSE H = executions ev.
Proof.
  intros [b ys|ys|] H T; simpl in *.
  - destruct T as (H' & -> & F & N). rewrite !count_app, !(fine_count H') by (auto; ts). destruct b; simpl; rewrite N; split; auto; split; auto; change (count CSE [ESU]) with 0; lia.
  - destruct T as (F & N). rewrite !(fine_count H) by (auto; ts). auto.
  - subst H. auto.
Qed.
Lemma tells_all : forall h Hs, Forall2 tells h Hs -> count ES (concat Hs) = sequences_ended h /\ count ESU (concat Hs) = runs_returned h /\ count CSE (concat Hs) = executions_of h.
Proof.
  intros h Hs F. unfold sequences_ended, runs_returned. induction F as [|ev H h Hs T F IH]; auto. simpl. rewrite !count_app. destruct (tells_counts _ _ T) as (A & B & C).
  rewrite A, B, C. destruct IH as (-> & -> & ->). destruct (is_ended ev), (is_numbered ev); simpl; auto.
Qed.
Lemma tells_below : forall ev H, tells ev H -> ev <> Ended -> Forall (fun x => ts_lt x ES) H.
Proof.
  intros [b ys|ys|] H T N; simpl in *; [| |congruence].
  - destruct T as (H' & -> & F & _). apply Forall_app. split; [|destruct b; repeat constructor]. eapply Forall_impl; [|exact F]. intros; ts.
  - destruct T as (F & _). eapply Forall_impl; [|exact F]. intros; ts.
Qed.
Lemma tells_this : forall h Hs h2, Forall2 tells h Hs -> this_sequence h h2 ->
  exists Hs2, Forall2 tells h2 Hs2 /\ since_at_least ES (concat Hs) (concat Hs2).
Proof.
  intros h Hs h2 F [N D].
  assert (B : forall Hs2, Forall2 tells h2 Hs2 -> Forall (fun x => ts_lt x ES) (concat Hs2)).
  { clear F D. intros Hs2 F. induction F as [|ev H h2 Hs2 T F IH]; simpl; [constructor|]. apply Forall_app. split.
    - eapply tells_below; eauto. intros ->. apply N. left; auto.
    - apply IH. intros I. apply N. right; auto. }
  destruct D as [->|(h1 & ->)].
  - exists Hs. split; [auto|]. split; auto.
  - apply Forall2_app_inv_l in F. destruct F as (H1 & H2 & F1 & F2 & ->). inversion F2 as [|? H ? Hs2 T F3]; subst. simpl in T. subst H.
    exists Hs2. split; [auto|]. split; [auto|]. right. exists (concat H1), ES. split; [rewrite concat_app; reflexivity|ts].
Qed.
Lemma since_coarser_esu : forall h h2, since_at_least ES h h2 -> since_coarser ESU h h2.
Proof.
  intros h h2 [F D]. split; [eapply Forall_impl; [|exact F]; intros; ts|]. destruct D as [->|(h1 & x & -> & L)]; [auto|]. right. exists h1, x. split; auto; ts.
Qed.
Lemma since_all : forall h k, clock_after ESU h k -> since_coarser ES h h /\ since_at_least LIFE h h.
Proof.
  intros h k H. apply clock_after_ok in H. destruct H as [_ _ _ F]. apply Forall_rev in F. rewrite rev_involutive in F.
  split; split; auto; eapply Forall_impl; try exact F; intros; ts.
Qed.
Theorem session_numbers : forall e m0 h m h2, session e m0 h m -> the_clock (m_ctxs m0 e) = new_clock -> this_sequence h h2 ->
  let k := the_clock (m_ctxs m e) in
  t_val (k_time k) ES = sequences_ended h /\ t_val (k_time k) ESU = runs_returned h2 /\
  clock_total_relative ESU ES k = Ok (runs_returned h2) /\ clock_total_relative CSE ES k = Ok (executions_of h2) /\
  clock_total_relative ES LIFE k = Ok (sequences_ended h) /\ clock_total_relative ESU LIFE k = Ok (runs_returned h) /\
  clock_total_relative CSE LIFE k = Ok (executions_of h).
Proof.
  intros e m0 h m h2 S C T k. assert (C0 : clock_after ESU [] (the_clock (m_ctxs m0 e))) by (rewrite C; apply ca_new; apply new_clock_md).
  destruct (session_clock _ _ _ _ _ S C0) as (Hs & F & K). simpl in K. fold k in K.
  destruct (tells_this _ _ _ F T) as (Hs2 & F2 & S2). destruct (since_all _ _ K) as [Sa Sl].
  destruct (tells_all _ _ F) as (A1 & A2 & A3). destruct (tells_all _ _ F2) as (_ & B2 & B3).
  rewrite (time_component _ _ _ _ _ K Sa), (time_component _ _ _ _ _ K (since_coarser_esu _ _ S2)).
  rewrite (total_relative ESU _ _ ESU ES (concat Hs2) K) by (auto; ts).
  rewrite (total_relative ESU _ _ CSE ES (concat Hs2) K) by (auto; ts).
  rewrite (total_relative ESU _ _ ES LIFE (concat Hs) K) by (auto; ts).
  rewrite (total_relative ESU _ _ ESU LIFE (concat Hs) K) by (auto; ts).
  rewrite (total_relative ESU _ _ CSE LIFE (concat Hs) K) by (auto; ts).
  rewrite A1, A2, A3, B2, B3. do 6 (split; [auto|]). auto.
Qed.
(** ** Past sequences and updates *)
Lemma segments_app : forall c H r u us, Forall (fun x => x <> c) H -> segments c r = u :: us -> segments c (H ++ r) = (H ++ u) :: us.
Proof.
  intros c H r u us F E. induction F as [|x H N F IH]; simpl; auto. rewrite IH.
  destruct (ts_eqb x c) eqn:X; [|auto]. unfold ts_eqb in X. apply Nat.eqb_eq in X. destruct x, c; simpl in X; congruence.
Qed.
Lemma below_not : forall H s c, Forall (fun x => ts_lt x s) H -> ts_le s c -> Forall (fun x => x <> c) H.
Proof. intros H s c F L. eapply Forall_impl; [|exact F]. intros a A ->. ts. Qed.
Lemma Forall2_cons_iff : forall A B (P : A -> B -> Prop) a l b l', Forall2 P (a :: l) (b :: l') -> P a b /\ Forall2 P l l'.
Proof. intros A B P a l b l' H. inversion H; auto. Qed.
Lemma segments_some : forall c h, segments c h <> [].
Proof. intros c h E. destruct (segments_cons c h) as (u & us & E'). congruence. Qed.
Definition written (s : list event) (u : list timescale) : Prop := ~ In Ended s /\ exists Hs, Forall2 tells s Hs /\ u = concat Hs.
Lemma by_sequence_segments : forall h Hs, Forall2 tells h Hs -> Forall2 written (by_sequence h) (segments ES (concat Hs)).
Proof.
  intros h Hs F. induction F as [|ev H h Hs T F IH]; simpl.
  - constructor; [|constructor]. split; [auto|]. exists []. split; auto.
  - destruct (segments ES (concat Hs)) as [|u us] eqn:Eu; [edestruct segments_some; eauto|]. destruct (by_sequence h) as [|s ss]; [inversion IH|].
    apply Forall2_cons_iff in IH. destruct IH as ((Ns & Hs' & F' & ->) & IH'). destruct (is_ended ev) eqn:E.
    + destruct ev; try discriminate. simpl in T. subst H. simpl. rewrite Eu. constructor; [|constructor; [|auto]].
      * split; [auto|]. exists []. split; auto.
      * split; [auto|]. eauto.
    + assert (Ne : ev <> Ended) by (intros ->; discriminate).
      rewrite (segments_app ES H (concat Hs) (concat Hs') us); auto; [|eapply below_not; [eapply tells_below; eauto|ts]].
      constructor; auto. split; [intros [X|X]; congruence|]. exists (H :: Hs'). split; auto.
Qed.
Lemma by_update_segments : forall s Hs, ~ In Ended s -> Forall2 tells s Hs -> Forall2 (fun u v => executions_of u = count CSE v) (by_update s) (segments ESU (concat Hs)).
Proof.
  intros s Hs N F. induction F as [|ev H s Hs T F IH]; simpl.
  - constructor; [reflexivity|constructor].
  - assert (N' : ~ In Ended s) by (intros I; apply N; right; auto). specialize (IH N').
    destruct (tells_counts _ _ T) as (_ & _ & Ec).
    destruct (segments ESU (concat Hs)) as [|v vs] eqn:Ev; [edestruct segments_some; eauto|]. destruct (by_update s) as [|u us]; [inversion IH|].
    apply Forall2_cons_iff in IH. destruct IH as (Huv & IH'). destruct (is_numbered ev) eqn:E.
    + destruct ev as [b ys| |]; try discriminate. simpl in E. subst b. destruct T as (H' & -> & Fi & Nc).
      rewrite <- app_assoc. simpl app. rewrite (segments_app ESU H' (ESU :: concat Hs) [] (v :: vs)); auto.
      * constructor; [|constructor; auto]. rewrite app_nil_r. simpl. rewrite Nc. lia.
      * eapply (below_not _ ESU); [eapply Forall_impl; [|exact Fi]; intros; ts|ts].
      * simpl. rewrite Ev. auto.
    + assert (Fi : Forall (fun x => x <> ESU) H).
      { destruct ev as [b ys|ys|]; simpl in *.
        - subst b. destruct T as (H' & -> & Fi & _). rewrite app_nil_r. eapply (below_not _ ESU); [eapply Forall_impl; [|exact Fi]; intros; ts|ts].
        - destruct T as (Fi & _). eapply (below_not _ ESU); [eapply Forall_impl; [|exact Fi]; intros; ts|ts].
        - exfalso. apply N. left; auto. }
      rewrite (segments_app ESU H (concat Hs) v vs); auto. constructor; auto. simpl. rewrite count_app. lia.
Qed.
Lemma Forall2_nth_error : forall A B (P : A -> B -> Prop) l l' i, Forall2 P l l' ->
  match nth_error l i, nth_error l' i with Some a, Some b => P a b | None, None => True | _, _ => False end.
Proof. intros A B P l l' i F. revert i. induction F; intros [|i]; simpl; auto. apply IHF. Qed.
Theorem session_past : forall e m0 h m i j, session e m0 h m -> the_clock (m_ctxs m0 e) = new_clock ->
  let t := k_tree (the_clock (m_ctxs m e)) in
  tree_total_relative ESU (fun s => match s with ES => Some i | LIFE => Some 0 | _ => None end) t =
    (match nth_error (by_sequence h) i with Some s => Ok (runs_returned s) | None => Err ETimeScale end) /\
  tree_total_relative CSE (fun s => match s with ES => Some i | ESU => Some j | LIFE => Some 0 | _ => None end) t =
    (match nth_error (by_sequence h) i with
     | Some s => match nth_error (by_update s) j with Some u => Ok (executions_of u) | None => Err ETimeScale end
     | None => Err ETimeScale
     end).
Proof.
  intros e m0 h m i j S C t. assert (C0 : clock_after ESU [] (the_clock (m_ctxs m0 e))) by (rewrite C; apply ca_new; apply new_clock_md).
  destruct (session_clock _ _ _ _ _ S C0) as (Hs & F & K). simpl in K. pose proof (by_sequence_segments _ _ F) as B.
  pose proof (past_scope_es ESU _ _ ESU i K) as P1. pose proof (past_scope ESU _ _ CSE i j K) as P2.
  fold t in P1, P2. change (scope_es i) with (fun s => match s with ES => Some i | LIFE => Some 0 | _ => None end) in P1.
  change (scope i j) with (fun s => match s with ES => Some i | ESU => Some j | LIFE => Some 0 | _ => None end) in P2.
  rewrite P1, P2 by ts. pose proof (Forall2_nth_error _ _ _ _ _ i B) as Bi.
  destruct (nth_error (by_sequence h) i) as [s|], (nth_error (segments ES (concat Hs)) i) as [u|]; try contradiction; [|auto].
  destruct Bi as (Ns & Hs' & F' & ->). destruct (tells_all _ _ F') as (_ & -> & _). split; [auto|].
  pose proof (Forall2_nth_error _ _ _ _ _ j (by_update_segments _ _ Ns F')) as Bj.
  destruct (nth_error (by_update s) j), (nth_error (segments ESU (concat Hs')) j); try contradiction; congruence.
Qed.
(** ** Lists and counts *)
Theorem session_list : forall e m0 h m l0, session e m0 h m -> x_list (m_ctxs m0 e) = Some l0 -> x_list (m_ctxs m e) = Some (l0 ++ sets_of h).
Proof.
  intros e m0 h m l0 S L. induction S as [|h m m' S IH E|h m g ys m' l S IH Ge Hp R|h m g ys m' g' S IH Ge Hp R|h m m' S IH E].
  - simpl. rewrite app_nil_r. auto.
  - rewrite E. auto.
  - subst e. unfold sets_of. rewrite flat_map_app. simpl. rewrite app_nil_r, app_assoc. eapply returned_list; eauto.
  - subst e. unfold sets_of. rewrite flat_map_app. simpl. rewrite app_nil_r, app_assoc. eapply run_list; eauto.
  - unfold sets_of. rewrite flat_map_app. simpl. rewrite app_nil_r. unfold end_environment_sequence, incr_clock in E.
    destruct (clock_incr ES (the_clock (m_ctxs m e))) as [k|]; [|discriminate]. injection E as <-. unfold set_clock. rewrite set_ctx_at. simpl. auto.
Qed.
Lemma last_run_more : forall h ev ys, ~ is_run ev -> last_run (h ++ [ev]) ys -> last_run h ys.
Proof.
  intros h ev ys N (h1 & x & h2 & E & R & Y & No). destruct h2 as [|y h2 _] using rev_ind.
  - apply app_inj_tail in E. destruct E as [_ <-]. contradiction.
  - rewrite app_comm_cons, app_assoc in E. apply app_inj_tail in E. destruct E as [-> _]. exists h1, x, h2.
    split; [auto|]. split; [auto|]. split; [auto|]. intros z I. apply No, in_app_iff. auto.
Qed.
Lemma last_run_is : forall h ev ys, is_run ev -> last_run (h ++ [ev]) ys -> yields_of ev = ys.
Proof.
  intros h ev ys Ru (h1 & x & h2 & E & R & Y & No). destruct h2 as [|y h2 _] using rev_ind.
  - apply app_inj_tail in E. destruct E as [_ ->]. auto.
  - rewrite app_comm_cons, app_assoc in E. apply app_inj_tail in E. destruct E as [_ ->]. exfalso. apply (No y); auto. apply in_app_iff. right; left; auto.
Qed.
Theorem session_counts : forall e m0 h m t0, session e m0 h m -> x_total (m_ctxs m0 e) = Some t0 ->
  exists t, x_total (m_ctxs m e) = Some t /\ forall n,
    t LIFE n = t0 LIFE n + occurrences n (sets_of h) /\ t ES n = t0 ES n + occurrences n (sets_of h) /\
    forall ys, last_run h ys -> t ESU n = occurrences n ys.
Proof.
  intros e m0 h m t0 S L. induction S as [|h m m' S IH E|h m g ys m' l S IH Ge Hp R|h m g ys m' g' S IH Ge Hp R|h m m' S IH E].
  - exists t0. split; auto. intros n. simpl. unfold occurrences. simpl. do 2 (split; [lia|]). intros ys (h1 & x & h2 & E & _). destruct h1; discriminate.
  - rewrite E. auto.
  - subst e. destruct IH as (t & E & T). destruct (returned_counts _ _ _ _ _ _ R Hp E) as (t' & E' & T').
    exists t'. split; auto. intros n. specialize (T n). specialize (T' n). unfold sets_of. rewrite flat_map_app, occurrences_app. simpl. rewrite app_nil_r.
    fold (sets_of h). do 2 (split; [lia|]). intros y Y. apply last_run_is in Y; [|exact Logic.I]. simpl in Y. subst y. lia.
  - subst e. destruct IH as (t & E & T). unfold sets_of. rewrite flat_map_app. simpl. rewrite app_nil_r. fold (sets_of h). destruct ys as [|y0 ys0].
    + rewrite (unstarted _ _ _ _ R). exists t. split; auto. intros n. rewrite app_nil_r. destruct (T n) as (T1 & T2 & T3). split; [auto|]. split; [auto|].
      intros y Y. apply T3. apply last_run_more in Y; auto.
    + remember (y0 :: ys0) as ys eqn:Ey. destruct (running_passes _ _ _ _ _ R) as (ts & Et & Rp).
      assert (Nt : ts <> []) by (intros ->; subst; discriminate). destruct (run_counts _ _ _ _ _ _ Rp Hp Nt E) as (t' & E' & T').
      exists t'. split; auto. intros n. specialize (T n). specialize (T' n). rewrite Et in T'. rewrite occurrences_app.
      do 2 (split; [lia|]). intros y Y. apply last_run_is in Y; [|simpl; subst; discriminate]. simpl in Y. subst y. lia.
  - destruct IH as (t & E1 & T). unfold sets_of. rewrite flat_map_app. simpl. rewrite app_nil_r. unfold end_environment_sequence, incr_clock in E.
    destruct (clock_incr ES (the_clock (m_ctxs m e))) as [k|]; [|discriminate]. injection E as <-. unfold set_clock. rewrite set_ctx_at. simpl.
    exists t. split; auto. intros n. destruct (T n) as (T1 & T2 & T3). split; [auto|]. split; [auto|]. intros y Y. apply T3. apply last_run_more in Y; auto.
Qed.
(** ** Conditions on the number of the update and of the sequence *)
Lemma during_since : forall h0 h k, during h0 h -> clock_after ESU h0 k -> units_within ESU ES h (t_val (k_time k) ESU) /\ count ES h = t_val (k_time k) ES.
Proof.
  intros h0 h k (ev & -> & F) C. destruct (since_at_least_exists ES h0) as (h2 & S). destruct (since_all _ _ C) as [Sa _].
  rewrite (time_component _ _ _ _ _ C Sa), (time_component _ _ _ _ _ C (since_coarser_esu _ _ S)). rewrite count_app, (fine_count ev) by (auto; ts). split; [|lia].
  exists (h2 ++ ev). split; [|rewrite count_app, (fine_count ev) by (auto; ts); lia]. destruct S as [F2 D]. split.
  - apply Forall_app. split; [auto|]. eapply Forall_impl; [|exact F]. intros; ts.
  - destruct D as [->|(h1 & x & -> & L)]; [auto|]. right. exists h1, x. split; auto. rewrite <- app_assoc. reflexivity.
Qed.
Lemma update_decides : forall c u w (b : bool), (forall v e ow st h, clock_after ESU h (v_clock v) -> units_within ESU ES h u -> count ES h = w ->
  decides (is_satisfied v e ow st c) (b = true)) -> in_update u w (fun _ => b) c.
Proof.
  intros c u w b H h0 k C Eu Ew e p r (v & ow & st & st' & h & D & Hh & _ & E). destruct (during_since _ _ _ D C) as [U W]. rewrite Eu in U. rewrite Ew in W.
  destruct (H v e ow st h Hh U W) as (x & X & Y). unfold is_satisfied in X. rewrite E in X. simpl in X. injection X as <-.
  destruct Y as [Y1 Y2], r, b; auto. symmetry; auto.
Qed.
Lemma in_update_pass : forall u w f c, by_pass f c -> in_update u w f c.
Proof. intros u w f c H h0 k _ _ _. apply H. Qed.
Lemma in_update_ext : forall u w f g c, (forall j, f j = g j) -> in_update u w f c -> in_update u w g c.
Proof. intros u w f g c E H h0 k C Eu Ew e p r A. rewrite <- E. exact (H h0 k C Eu Ew e p r A). Qed.
Lemma in_update_not : forall u w o f c, in_update u w f c -> in_update u w (fun k => negb (f k)) (Not o c).
Proof. intros u w o f c H h0 k C Eu Ew. apply in_pass_not. eauto. Qed.
Lemma in_update_each : forall u w h0 k fs cs, clock_after ESU h0 k -> t_val (k_time k) ESU = u -> t_val (k_time k) ES = w ->
  Forall2 (in_update u w) fs cs -> Forall2 (by_pass_in h0) fs cs.
Proof. intros u w h0 k fs cs C Eu Ew H. induction H as [|f c fs cs Hc H IH]; constructor; auto. exact (Hc h0 k C Eu Ew). Qed.
Lemma in_update_all : forall u w o fs cs, Forall2 (in_update u w) fs cs -> in_update u w (fun k => forallb (fun f => f k) fs) (All o cs).
Proof. intros u w o fs cs H h0 k C Eu Ew. apply in_pass_all. eapply in_update_each; eauto. Qed.
Lemma in_update_any : forall u w o fs cs, Forall2 (in_update u w) fs cs -> in_update u w (fun k => existsb (fun f => f k) fs) (Any o cs).
Proof. intros u w o fs cs H h0 k C Eu Ew. apply in_pass_any. eapply in_update_each; eauto. Qed.
Lemma in_update_atoms : forall u w o n,
  in_update u w (fun _ => Nat.ltb u n) (BeforeEnvironmentStateUpdate o n ES) /\ in_update u w (fun _ => Nat.eqb u n) (AtEnvironmentStateUpdate o n ES) /\
  in_update u w (fun _ => Nat.ltb n u) (AfterEnvironmentStateUpdate o n ES) /\ in_update u w (fun _ => Nat.leb n u) (AfterNEnvironmentStateUpdates o n ES) /\
  in_update u w (fun _ => Nat.eqb w n) (AtEnvironmentSequence o n) /\ in_update u w (fun _ => Nat.ltb n w) (AfterEnvironmentSequence o n) /\
  in_update u w (fun _ => Nat.leb n w) (AfterNEnvironmentSequences o n).
Proof.
  intros u w o n. assert (P := fun v e ow st h H U => esu_conditions v e ow st o n ES h u H (le_n _) U).
  assert (Q := fun v e ow st h H => sequence_conditions v e ow st o n h H).
  split; [|split; [|split; [|split; [|split; [|split]]]]]; apply update_decides; intros v e ow st h H U W.
  - eapply decides_iff; [apply (P v e ow st h H U)|]. symmetry; apply Nat.ltb_lt.
  - eapply decides_iff; [apply (P v e ow st h H U)|]. symmetry; apply Nat.eqb_eq.
  - eapply decides_iff; [apply (P v e ow st h H U)|]. symmetry; apply Nat.ltb_lt.
  - eapply decides_iff; [apply (P v e ow st h H U)|]. symmetry; apply Nat.leb_le.
  - eapply decides_iff; [apply (Q v e ow st h H)|]. rewrite W. symmetry; apply Nat.eqb_eq.
  - eapply decides_iff; [apply (Q v e ow st h H)|]. rewrite W. symmetry; apply Nat.ltb_lt.
  - eapply decides_iff; [apply (Q v e ow st h H)|]. rewrite W. symmetry; apply Nat.leb_le.
Qed.
Theorem session_node : forall e m0 h m h2 g ts m' g' b c f lb, session e m0 h m -> the_clock (m_ctxs m0 e) = new_clock -> this_sequence h h2 ->
  g_eid g = e -> g_pc g = PStart -> running_while_in_passes (ruled g b c) m g ts m' g' -> queue_built m -> In lb (queue m) -> In b lb ->
  in_update (runs_returned h2) (sequences_ended h) f c ->
  (forall k, pass_number m e <= k < pass_number m' e -> occurrences b (in_pass k ts) = if f k then 1 else 0) /\
  (forall k, f k = false -> occurrences b (in_pass k ts) = 0).
Proof.
  intros e m0 h m h2 g ts m' g' b c f lb S C T Ge Hp R Qb Il Ib U.
  assert (C0 : clock_after ESU [] (the_clock (m_ctxs m0 e))) by (rewrite C; apply ca_new; apply new_clock_md).
  destruct (session_clock _ _ _ _ _ S C0) as (Hs & F & K). simpl in K. destruct (session_numbers _ _ _ _ _ S C T) as (N1 & N2 & _).
  specialize (U _ _ K N2 N1). apply In_nth_error in Il. destruct Il as (j & Hj). subst e. split.
  - intros k Hk. destruct (passes_ruled _ _ _ _ _ _ _ _ _ _ R Hp Qb Hj Ib K) as (_ & _ & P). destruct (P k Hk) as (r & A & E). rewrite <- (U _ _ _ A). exact E.
  - intros k Hk. destruct (runs_ruled _ _ _ _ _ _ _ _ _ _ R Hp Qb Hj Ib K k) as [E|(_ & A)]; auto. pose proof (U _ _ _ A). congruence.
Qed.
