(** Proofs about the cache of graph functions. *)
From Verif Require Import SpecCache BaseFacts.
Open Scope nat_scope.

Lemma s_eqb_iff : forall a b, s_eqb a b = true <-> forall x, In x a <-> In x b.
Proof.
  assert (M : forall x l, mem x l = true <-> In x l).
  { intros x l. unfold mem. rewrite existsb_exists. split; [intros (y & I & E); apply Nat.eqb_eq in E; subst; auto|intros I; exists x; split; auto; apply Nat.eqb_refl]. }
  intros a b. unfold s_eqb, s_subset. rewrite andb_true_iff, !forallb_forall. split.
  - intros [A B] x. split; intros H; apply M; auto.
  - intros H. split; intros x I; apply M, H; auto.
Qed.
Lemma dict_eqb_iff : forall a b, dict_eqb a b = true <-> same_graph a b.
Proof.
  intros a b. unfold dict_eqb, same_graph. rewrite andb_true_iff, Nat.eqb_eq, forallb_forall. split; intros [L H]; split; auto.
  - intros n l I. specialize (H (n, l) I). simpl in H. destruct (aget n b) as [l'|]; [|discriminate]. exists l'. split; auto. apply s_eqb_iff; auto.
  - intros [n l] I. destruct (H n l I) as (l' & E & S). simpl. rewrite E. apply s_eqb_iff; auto.
Qed.

(** every entry holds the function's value on the contents its key had when it was made *)
Definition good {R} (hash : contents -> nat) (F : nat -> contents -> res R) (sets : bool) (st : cstate R) : Prop :=
  forall e, In e (c_entries st) -> e_result e < c_next st /\ exists c, e_hash e = hash c /\ F (e_func e) c = Ok (c_vals st (e_result e)) /\
    (sets = false -> c = contents_of st (e_key e)).
Lemma firstn_sub : forall {A} n (l : list A) x, In x (firstn n l) -> In x l.
Proof. induction n as [|n IH]; intros l x H; simpl in H; [destruct H|]. destruct l; [destruct H|]. destruct H as [->|H]; simpl; auto. Qed.
Lemma good_history : forall {R} hash (F : nat -> contents -> res R) size sets st,
  cache_history hash F size sets false st -> good hash F sets st.
Proof.
  intros R hash F size sets st H. induction H as [s v n|st f g r st' H IH E|st r l H IH S|st r v H IH S].
  - intros e [].
  - unfold cached_call in E. destruct (find _ _) as [e|] eqn:Fd.
    + inversion E; subst. apply find_some in Fd. destruct Fd as [I _]. intros x X. simpl in X. destruct X as [<-|X]; [apply IH; auto|].
      apply filter_In in X. apply IH. tauto.
    + destruct (F f (contents_of st g)) as [w|] eqn:Fv; inversion E; subst; auto. intros x X. cbn [c_entries] in X. apply firstn_sub in X.
      cbn [c_next c_vals c_sets]. destruct X as [<-|X].
      * cbn [e_result e_hash e_func e_key]. split; [lia|]. exists (contents_of st g). unfold upd. rewrite Nat.eqb_refl. auto.
      * destruct (IH x X) as (L & c & A & B & C). split; [lia|]. exists c. split; auto. split; [|exact C].
        unfold upd. destruct (Nat.eqb_spec (e_result x) (c_next st)); [lia|auto].
  - intros x X. destruct (IH x X) as (L & c & A & B & C). split; auto. exists c. split; auto. split; auto. intros Z. congruence.
  - discriminate.
Qed.
Lemma same_graph_refl : forall {R} (st : cstate R) g, NoDup (map fst g) -> same_graph (contents_of st g) (contents_of st g).
Proof.
  intros R st g N. split; auto. intros n l I. exists l. split; [|tauto]. unfold contents_of in *. induction g as [|[k r] g IH]; [destruct I|].
  simpl in *. inversion N; subst. destruct I as [I|I].
  - inversion I; subst. rewrite Nat.eqb_refl. auto.
  - destruct (Nat.eqb_spec n k) as [->|]; auto. exfalso. apply H1. apply in_map_iff in I. destruct I as ([k' r'] & E & I). inversion E; subst.
    apply (in_map fst) in I. auto.
Qed.
Theorem cached_value : forall {R} hash (F : nat -> contents -> res R) size sets st f g r st',
  (sets = true -> forall a b, hash a = hash b -> same_graph a b) ->
  cache_history hash F size sets false st -> NoDup (map fst g) -> cached_call hash F size f g st = (r, st') ->
  exists c, same_graph c (contents_of st g) /\
    match r with Ok i => F f c = Ok (c_vals st' i) | Err ex => F f c = Err ex end.
Proof.
  intros R hash F size sets st f g r st' Hs H N E. pose proof (good_history _ _ _ _ _ H) as G. unfold cached_call in E.
  destruct (find _ _) as [e|] eqn:Fd.
  - inversion E; subst. apply find_some in Fd. destruct Fd as [I P]. unfold find_entry in P. rewrite !andb_true_iff, !Nat.eqb_eq in P.
    destruct P as [[P1 P2] P3]. apply dict_eqb_iff in P3. destruct (G e I) as (L & c & A & B & C). exists c. rewrite P2 in B. split; auto.
    destruct sets; [|rewrite C; auto]. apply Hs; auto. congruence.
  - exists (contents_of st g). split; [apply same_graph_refl; auto|]. destruct (F f (contents_of st g)); inversion E; subst; auto.
    cbn [c_vals]. unfold upd. rewrite Nat.eqb_refl. auto.
Qed.
(** the cache changes neither graphs nor earlier results *)
Theorem cached_frame : forall {R} hash (F : nat -> contents -> res R) size f g st r st', cached_call hash F size f g st = (r, st') ->
  (forall x, c_sets st' x = c_sets st x) /\ (forall i, i < c_next st -> c_vals st' i = c_vals st i).
Proof.
  intros R hash F size f g st r st' E. unfold cached_call in E. destruct (find _ _); [inversion E; subst; auto|].
  destruct (F f (contents_of st g)); inversion E; subst; auto. split; auto. intros i L. cbn [c_vals]. unfold upd. destruct (Nat.eqb_spec i (c_next st)); [lia|auto].
Qed.
Theorem cached_bound : forall {R} hash (F : nat -> contents -> res R) size sets results st,
  cache_history hash F size sets results st -> length (c_entries st) <= size /\ NoDup (map e_result (c_entries st)) /\ forall e, In e (c_entries st) -> e_result e < c_next st.
Proof.
  intros R hash F size sets results st H. induction H as [s v n|st f g r st' H IH E|st r l H IH S|st r v H IH S]; auto.
  - simpl. split; [lia|]. split; [constructor|]. intros e [].
  - destruct IH as (L & D & B). unfold cached_call in E. destruct (find _ _) as [e|] eqn:Fd.
    + inversion E; subst. cbn [c_entries c_next]. apply find_some in Fd. destruct Fd as [I _].
      assert (Len : S (length (filter (fun x => negb (e_result x =? e_result e)) (c_entries st))) <= length (c_entries st)).
      { clear -I. induction (c_entries st) as [|a l IH]; [destruct I|]. simpl. destruct I as [->|I].
        - rewrite Nat.eqb_refl. simpl. clear. induction l as [|b l IH]; simpl; [lia|]. destruct (negb _); simpl; lia.
        - specialize (IH I). destruct (negb _); simpl; lia. }
      split; [simpl; lia|]. split.
      * simpl. constructor.
        -- intros X. apply in_map_iff in X. destruct X as (x & Ex & X). apply filter_In in X. destruct X as [_ X]. rewrite Ex, Nat.eqb_refl in X. discriminate.
        -- clear -D. induction (c_entries st) as [|a l IH]; simpl; [constructor|]. inversion D; subst. destruct (negb _); auto. simpl. constructor; auto.
           intros X. apply H1. apply in_map_iff in X. destruct X as (x & Ex & X). apply filter_In in X. rewrite <- Ex. apply in_map. tauto.
      * intros x [<-|X]; auto. apply filter_In in X. apply B. tauto.
    + destruct (F f (contents_of st g)) as [w|] eqn:Fv; inversion E; subst; auto. cbn [c_entries c_next]. split; [apply firstn_le_length|]. split.
      * assert (X : NoDup (map e_result (mkEntry (hash (contents_of st g)) f g (c_next st) :: c_entries st))).
        { simpl. constructor; auto. intros Y. apply in_map_iff in Y. destruct Y as (x & Ex & Y). apply B in Y. lia. }
        clear -X. revert X. generalize (mkEntry (hash (contents_of st g)) f g (c_next st) :: c_entries st). intros l. revert size. induction l as [|a l IH]; intros n X.
        -- destruct n; constructor.
        -- destruct n; simpl; [constructor|]. inversion X; subst. constructor; auto. intros Y. apply H1. apply in_map_iff in Y. destruct Y as (y & Ey & Y).
           rewrite <- Ey. apply in_map. eapply firstn_sub; eauto.
      * intros x X. apply firstn_sub in X. destruct X as [<-|X]; [simpl; lia|]. apply B in X. lia.
Qed.
