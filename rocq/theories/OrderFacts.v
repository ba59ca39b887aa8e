(** The order inside consideration sets (C05). *)
From Verif Require Import BaseFacts SpecOrder PureFacts DefaultFacts RunFacts RunProofs.

(** ** conditions *)
Section Views.
Variables (L : nat -> nat -> Prop) (R : node -> node -> Prop) (v v' : view).
Hypothesis V : alike_view L R v v'.
Lemma mem_perm : forall n (a b : list node), Permutation a b -> mem n b = mem n a.
Proof.
  intros n a b P. destruct (mem n a) eqn:A.
  - apply mem_In. apply mem_In in A. eapply Permutation_in; eauto.
  - apply Bool.not_true_iff_false. rewrite mem_In. apply Bool.not_true_iff_false in A. rewrite mem_In in A.
    intros B. apply A. eapply Permutation_in; [apply Permutation_sym|]; eauto.
Qed.
Lemma owner_level_alike : forall q q' i w acc, alike_sets q q' -> owner_level i q' w acc = owner_level i q w acc.
Proof.
  intros q q' i w acc F. revert i acc. induction F as [|a b q q' P F IH]; intros i acc; simpl; auto.
  rewrite IH. destruct w as [n|]; auto. rewrite (mem_perm n a b P). auto.
Qed.
Lemma alike_length : forall q q', alike_sets q q' -> length q' = length q.
Proof. induction 1; simpl; auto. Qed.
Lemma time_interval_alike : forall own r s en si ei, time_interval v' own r s en si ei = time_interval v own r s en si ei.
Proof.
  intros. unfold time_interval, in_exact_time_mode.
  rewrite (owner_level_alike _ _ 0 own None (av_queue _ _ _ _ V)), (alike_length _ _ (av_queue _ _ _ _ V)), (av_mode _ _ _ _ V), (av_clock _ _ _ _ V). auto.
Qed.
Lemma just_ran_alike : forall d,
  match v_list v' with None => Err EKey | Some l => match rev l with [] => Err EIndex | last :: _ => Ok (mem d last) end end =
  match v_list v with None => Err EKey | Some l => match rev l with [] => Err EIndex | last :: _ => Ok (mem d last) end end.
Proof.
  intros d. pose proof (av_list _ _ _ _ V) as H. destruct (v_list v) as [l|], (v_list v') as [l'|]; simpl in H; try tauto.
  assert (F : alike_sets (rev l) (rev l')).
  { clear - H. induction H; simpl; [constructor|]. apply Forall2_app; auto. }
  inversion F as [|x y r r' P F']; auto. rewrite (mem_perm d x y); auto.
Qed.
Lemma countless_atom : forall e own a w, countless (CAtom 0 a) = true -> eval_atom v' e own a w = eval_atom v e own a w.
Proof.
  intros e own a w C. destruct a; simpl in *; try discriminate; auto; unfold deps_or_nodes;
  rewrite ?(av_nodes _ _ _ _ V), ?(av_clock _ _ _ _ V), ?time_interval_alike; auto.
  rewrite just_ran_alike; auto.
Qed.
Lemma countless_eval : forall c e ow st, countless c = true -> eval v' e ow c st = eval v e ow c st.
Proof.
  intros c e ow. induction c using cond_ind'; intros st C.
  - simpl. rewrite countless_atom; auto.
  - simpl in *. revert st. induction H as [|x l Hx Hl IH]; intros st; auto.
    simpl in C. apply andb_true_iff in C. destruct C as [Cx Cl]. rewrite (Hx st Cx). destruct (eval v e ow x st) as [[[|]|] st1]; auto.
  - simpl in *. revert st. induction H as [|x l Hx Hl IH]; intros st; auto.
    simpl in C. apply andb_true_iff in C. destruct C as [Cx Cl]. rewrite (Hx st Cx). destruct (eval v e ow x st) as [[[|]|] st1]; auto.
  - simpl in *. rewrite (IHc st C). auto.
  - discriminate.
Qed.
Lemma count_total_alike : forall s d, match count_total v s d, count_total v' s d with
  | Ok k, Ok k' => L k k' | Err x, Err y => x = y | _, _ => False end.
Proof.
  intros s d. unfold count_total. rewrite (av_nodes _ _ _ _ V). pose proof (av_total _ _ _ _ V) as T.
  destruct (v_total v), (v_total v'); simpl in T; try tauto. destruct (mem d (v_nodes v)); auto.
Qed.
Lemma count_useable_alike : forall d own, match own with Some w => R d w | None => True end ->
  match count_useable v d own, count_useable v' d own with
  | Ok k, Ok k' => L k k' | Err x, Err y => x = y | _, _ => False end.
Proof.
  intros d own HR. unfold count_useable. rewrite (av_nodes _ _ _ _ V). pose proof (av_use _ _ _ _ V) as T.
  destruct (v_use v), (v_use v'); simpl in T; try tauto. destruct (mem d (v_nodes v)), own; auto. destruct (mem n1 (v_nodes v)); auto.
Qed.
End Views.

Lemma all_have_run_le : forall R v v' s ds, alike_view le R v v' -> all_have_run v s ds = Ok true -> all_have_run v' s ds = Ok true.
Proof.
  intros R v v' s ds V. induction ds as [|d r IH]; simpl; auto. pose proof (count_total_alike _ _ _ _ V s d) as H.
  destruct (count_total v s d), (count_total v' s d); try tauto; try discriminate.
  destruct (Nat.ltb_spec a 1); [discriminate|]. destruct (Nat.ltb_spec a0 1); [lia|auto].
Qed.
Lemma sum_calls_le : forall R v v' s ds, alike_view le R v v' -> forall a a', a <= a' ->
  match sum_calls v s ds a, sum_calls v' s ds a' with Ok k, Ok k' => k <= k' | Err x, Err y => x = y | _, _ => False end.
Proof.
  intros R v v' s ds V. induction ds as [|d r IH]; intros a a' La; simpl; auto. pose proof (count_total_alike _ _ _ _ V s d) as H.
  destruct (count_total v s d), (count_total v' s d); simpl; try tauto. apply IH. lia.
Qed.
Lemma lower_atom : forall R v v' e ow o a w, alike_view le R v v' -> lower_bounds R ow (CAtom o a) ->
  snd (eval_atom v e (ow o) a w) = w /\ (fst (eval_atom v e (ow o) a w) = Ok true -> fst (eval_atom v' e (ow o) a w) = Ok true).
Proof.
  intros R v v' e ow o a w V H. split; [destruct a; simpl in *; auto; tauto|].
  destruct (countless (CAtom 0 a)) eqn:C.
  - rewrite (countless_atom _ _ _ _ V); auto.
  - destruct a; try discriminate; simpl in *; try tauto.
    + pose proof (count_total_alike _ _ _ _ V s d) as X. destruct (count_total v s d), (count_total v' s d); simpl; try tauto; try discriminate.
      intros E. injection E as E'. f_equal. destruct c; try tauto; simpl in *;
      [apply Nat.ltb_lt in E'; apply Nat.ltb_lt; lia|apply Nat.leb_le in E'; apply Nat.leb_le; lia].
    + destruct n as [n|]; [|discriminate]. pose proof (sum_calls_le _ _ _ s ds V 0 0 (le_n _)) as X.
      destruct (sum_calls v s ds 0), (sum_calls v' s ds 0); simpl; try tauto; try discriminate.
      intros E. injection E as E'. f_equal. apply Nat.leb_le in E'. apply Nat.leb_le. lia.
    + pose proof (count_useable_alike _ _ _ _ V d (ow o) H) as X.
      destruct (count_useable v d (ow o)), (count_useable v' d (ow o)); simpl; try tauto; try discriminate.
      intros E. injection E as E'. f_equal. apply Nat.leb_le in E'. apply Nat.leb_le. lia.
    + unfold deps_or_nodes. rewrite (av_nodes _ _ _ _ V). eapply all_have_run_le; eauto.
Qed.
Lemma countless_state : forall v e ow c st, countless c = true -> snd (eval v e ow c st) = st.
Proof.
  intros v e ow c. induction c using cond_ind'; intros st C.
  - simpl. destruct (eval_atom v e (ow o) a (s_world st)) as [r w] eqn:E. simpl.
    assert (w = s_world st) by (destruct a; simpl in *; try discriminate; inversion E; auto). subst. destruct st; auto.
  - simpl in *. revert st. induction H as [|x l Hx Hl IH]; intros st; auto.
    simpl in C. apply andb_true_iff in C. destruct C as [Cx Cl]. pose proof (Hx st Cx) as S. destruct (eval v e ow x st) as [[[|]|] st1]; simpl in *; subst; auto.
  - simpl in *. revert st. induction H as [|x l Hx Hl IH]; intros st; auto.
    simpl in C. apply andb_true_iff in C. destruct C as [Cx Cl]. pose proof (Hx st Cx) as S. destruct (eval v e ow x st) as [[[|]|] st1]; simpl in *; subst; auto.
  - simpl in *. pose proof (IHc st C) as S. destruct (eval v e ow c st) as [[|] st1]; auto.
  - discriminate.
Qed.
Lemma alike_view_self : forall R v, alike_view le R v v.
Proof.
  intros R v. assert (F : forall l, alike_sets l l) by (induction l; constructor; auto).
  constructor; auto; unfold both; [destruct (v_list v)|destruct (v_total v)|destruct (v_use v)]; auto.
Qed.
Lemma lower_eval : forall R v v' e ow c st, alike_view le R v v' -> lower_bounds R ow c ->
  snd (eval v e ow c st) = st /\ (fst (eval v e ow c st) = Ok true -> fst (eval v' e ow c st) <> Ok false).
Proof.
  intros R v v' e ow c st V. pose proof (alike_view_self R v') as V'. revert v v' V V' st. induction c using cond_ind'; intros v v' V V' st LB.
  - destruct (lower_atom R v v' e ow o a (s_world st) V LB) as [A B]. simpl.
    destruct (eval_atom v e (ow o) a (s_world st)) as [r w]. simpl in *. subst w. split; [destruct st; auto|].
    intros E. specialize (B E). destruct (eval_atom v' e (ow o) a (s_world st)); simpl in *. subst. discriminate.
  - simpl in *. revert st. induction H as [|x l Hx Hl IH]; intros st; simpl; [split; [auto|discriminate]|].
    simpl in LB. destruct LB as [Lx Ll]. destruct (Hx v v' V V' st Lx) as [A B]. destruct (Hx v' v' V' V' st Lx) as [A' _].
    destruct (eval v e ow x st) as [[[|]|] st1]; simpl in *; subst; try (split; [auto|discriminate]).
    specialize (B eq_refl). destruct (IH Ll st) as [IA IB]. split; auto. intros E. specialize (IB E).
    destruct (eval v' e ow x st) as [[[|]|] st2]; simpl in *; subst; auto; discriminate.
  - simpl in *. revert st. induction H as [|x l Hx Hl IH]; intros st; simpl; [split; [auto|discriminate]|].
    simpl in LB. destruct LB as [Lx Ll]. destruct (Hx v v' V V' st Lx) as [A B]. destruct (Hx v' v' V' V' st Lx) as [A' _].
    destruct (IH Ll st) as [IA IB].
    destruct (eval v e ow x st) as [[[|]|ex] st1]; simpl in *; subst; try (split; [auto|discriminate]).
    + split; auto. intros _. specialize (B eq_refl). destruct (eval v' e ow x st) as [[[|]|] st2]; simpl in *; subst; auto; discriminate.
    + split; auto. intros E. specialize (IB E). destruct (eval v' e ow x st) as [[[|]|ex] st2]; simpl in *; subst; auto; discriminate.
  - simpl in *. pose proof (countless_state v e ow c st LB) as S. rewrite (countless_eval _ _ _ _ V) by auto.
    destruct (eval v e ow c st) as [[b|] st1]; simpl in *; subst; split; auto; [|discriminate]. intros E; rewrite E; discriminate.
  - destruct LB.
Qed.
Theorem lower_monotone : forall R e ow c, lower_bounds R ow c -> monotone R e ow c.
Proof.
  intros R e ow c LB. constructor.
  - intros v st. apply (lower_eval R v v e ow c st (alike_view_self R v) LB).
  - intros v v' st V. apply (lower_eval R v v' e ow c st V LB).
Qed.
Lemma all_have_run_eq : forall R v v' s ds, alike_view eq R v v' -> all_have_run v' s ds = all_have_run v s ds.
Proof.
  intros R v v' s ds V. induction ds as [|d r IH]; simpl; auto. pose proof (count_total_alike _ _ _ _ V s d) as H.
  destruct (count_total v s d), (count_total v' s d); try tauto. subst. rewrite IH. auto.
Qed.
Lemma sum_calls_eq : forall R v v' s ds a, alike_view eq R v v' -> sum_calls v' s ds a = sum_calls v s ds a.
Proof.
  intros R v v' s ds a V. revert a. induction ds as [|d r IH]; intros a; simpl; auto. pose proof (count_total_alike _ _ _ _ V s d) as H.
  destruct (count_total v s d), (count_total v' s d); simpl; try tauto; subst; auto.
Qed.
Lemma blind_atom : forall R v v' e ow o a w, alike_view eq R v v' -> no_user_functions R ow (CAtom o a) ->
  eval_atom v' e (ow o) a w = eval_atom v e (ow o) a w.
Proof.
  intros R v v' e ow o a w V H. destruct (countless (CAtom 0 a)) eqn:C; [apply (countless_atom _ _ _ _ V); auto|].
  destruct a; try discriminate; simpl in *; try tauto.
  - pose proof (count_total_alike _ _ _ _ V s d) as X. destruct (count_total v s d), (count_total v' s d); simpl; try tauto; subst; auto.
  - rewrite (sum_calls_eq _ _ _ _ _ _ V). auto.
  - pose proof (count_useable_alike _ _ _ _ V d (ow o) H) as X. destruct (count_useable v d (ow o)), (count_useable v' d (ow o)); simpl; try tauto; subst; auto.
  - unfold deps_or_nodes. rewrite (av_nodes _ _ _ _ V), (all_have_run_eq _ _ _ _ _ V). auto.
Qed.
Theorem no_user_blind : forall R e ow c, no_user_functions R ow c -> blind R e ow c.
Proof.
  intros R e ow c N v v' st V. revert N st. induction c using cond_ind'; intros N st.
  - simpl. rewrite (blind_atom R v v'); auto.
  - simpl in *. revert st. induction H as [|x l Hx Hl IH]; intros st; auto.
    simpl in N. destruct N as [Nx Nl]. rewrite (Hx Nx st). destruct (eval v e ow x st) as [[[|]|] st1]; auto.
  - simpl in *. revert st. induction H as [|x l Hx Hl IH]; intros st; auto.
    simpl in N. destruct N as [Nx Nl]. rewrite (Hx Nx st). destruct (eval v e ow x st) as [[[|]|] st1]; auto.
  - simpl in *. rewrite (IHc N st). auto.
  - simpl in *. rewrite (IHc N st). auto.
Qed.

(** ** one consideration set *)
Definition incr_if (b : bool) (k : nat) : nat := if b then S k else k.
Lemma accepts_total : forall s x, NoDup s -> both (fun t t' => forall sc n, t' sc n = incr_if (mem n s) (t sc n)) (x_total x) (x_total (ctx_accepts s x)).
Proof.
  induction s as [|a s IH]; intros x N; [simpl; destruct (x_total x); simpl; auto|].
  inversion N as [|a' s' Na Ns]; subst. change (ctx_accepts (a :: s) x) with (ctx_accepts s (ctx_accept a x)). specialize (IH (ctx_accept a x) Ns).
  unfold ctx_accept in IH at 1. simpl in IH. destruct (x_total x) as [t|], (x_total (ctx_accepts s (ctx_accept a x))) as [t'|]; simpl in *; auto.
  intros sc n. rewrite IH. unfold bump_total. destruct (Nat.eqb_spec n a) as [->|Ne]; simpl; auto.
  destruct (mem a s) eqn:M; auto. apply mem_In in M; contradiction.
Qed.
Lemma accepts_use : forall s x w, NoDup s -> ~ In w s ->
  both (fun u u' => forall d, u' d w = incr_if (mem d s) (u d w)) (x_use x) (x_use (ctx_accepts s x)).
Proof.
  induction s as [|a s IH]; intros x w N Nw; [simpl; destruct (x_use x); simpl; auto|].
  inversion N as [|a' s' Na Ns]; subst. change (ctx_accepts (a :: s) x) with (ctx_accepts s (ctx_accept a x)).
  specialize (IH (ctx_accept a x) w Ns). unfold ctx_accept in IH at 1. simpl in IH.
  assert (Nw' : ~ In w s) by (intros X; apply Nw; right; auto). specialize (IH Nw').
  destruct (x_use x) as [t|], (x_use (ctx_accepts s (ctx_accept a x))) as [t'|]; simpl in *; auto.
  intros d. rewrite IH. unfold spend_use. destruct (Nat.eqb_spec w a) as [->|_]; [exfalso; apply Nw; auto|].
  destruct (Nat.eqb_spec d a) as [->|Ne]; simpl; auto. destruct (mem a s) eqn:M; auto. apply mem_In in M; contradiction.
Qed.
Lemma accepts_spent : forall s x w d, In w s -> ~ In d s -> both (fun u u' => u' d w = 0) (x_use x) (x_use (ctx_accepts s x)).
Proof.
  intros s x w d. revert x. induction s as [|a s IH]; intros x Iw Nd; [destruct Iw|].
  change (ctx_accepts (a :: s) x) with (ctx_accepts s (ctx_accept a x)).
  assert (Nd' : ~ In d s) by (intros X; apply Nd; right; auto). assert (Na : a <> d) by (intros X; apply Nd; left; auto).
  destruct (in_dec Nat.eq_dec w s) as [Is|Is].
  - specialize (IH (ctx_accept a x) Is Nd'). unfold ctx_accept in IH at 1. simpl in IH. destruct (x_use x), (x_use (ctx_accepts s (ctx_accept a x))); simpl in *; auto.
  - destruct Iw as [->|]; [|contradiction]. clear IH.
    assert (P : forall s x, ~ In d s -> both (fun u u' => u d w = 0 -> u' d w = 0) (x_use x) (x_use (ctx_accepts s x))).
    { clear. induction s as [|b s IH]; intros x Nd; [simpl; destruct (x_use x); simpl; auto|].
      change (ctx_accepts (b :: s) x) with (ctx_accepts s (ctx_accept b x)). specialize (IH (ctx_accept b x)).
      unfold ctx_accept in IH at 1. simpl in IH. destruct (x_use x), (x_use (ctx_accepts s (ctx_accept b x))); simpl in *; auto; try (apply IH; auto; fail).
      intros Z. apply IH; auto. unfold spend_use. destruct (Nat.eqb_spec d b) as [->|]; [exfalso; apply Nd; auto|]. destruct (Nat.eqb w b); auto. }
    specialize (P s (ctx_accept w x) Nd'). unfold ctx_accept in P at 1. simpl in P.
    destruct (x_use x), (x_use (ctx_accepts s (ctx_accept w x))); simpl in *; auto. apply P. unfold spend_use.
    destruct (Nat.eqb_spec d w); [congruence|]. rewrite Nat.eqb_refl. auto.
Qed.

Record close (R : node -> node -> Prop) (e : eid) (m m' : core) : Prop := {
  cl_nodes : m_nodes m' = m_nodes m;
  cl_queue : alike_sets (queue m) (queue m');
  cl_exact : m_exact m' = m_exact m;
  cl_basic : m_basic m' = m_basic m;
  cl_owners : m_owners m' = m_owners m;
  cl_cst : m_cst m' = m_cst m;
  cl_ctx : alike_ctx R (m_ctxs m e) (m_ctxs m' e)
}.
Definition mono_all (R : node -> node -> Prop) (e : eid) (m : core) : Prop :=
  forall n c, aget n (m_basic m) = Some c -> monotone (fun d w => w = n /\ R d n) e (m_owners m) c.
Notation none := (fun _ : timescale => @None cond).
Lemma evolves_pure : forall (cs : cond -> Prop) e ow st st', (forall c, cs c -> forall v st, state_after v e ow st c = st) -> evolves cs e ow st st' -> st' = st.
Proof. intros cs e ow st st' P E. induction E; auto. unfold state_after in P. rewrite (P c H). auto. Qed.
Lemma sat_pure : forall R m e x n b, mono_all R e m -> sat_at (tc := none) m e x n b ->
  exists c, aget n (m_basic m) = Some c /\ is_satisfied (view_of (set_ctx m e x) e) e (m_owners m) (m_cst m) c = Ok b.
Proof.
  intros R m e x n b M (c & st & st' & A & E & H). exists c. split; auto. apply evolves_pure in E.
  - subst. unfold is_satisfied. rewrite H. auto.
  - intros c' [(k & Ak)|(k & Ak)]; [|discriminate]. apply (mo_state _ _ _ _ (M _ _ Ak)).
Qed.
Lemma alike_ctx_flip : forall R x x', alike_ctx R x x' -> alike_ctx R x' x.
Proof.
  assert (F : forall l l', alike_sets l l' -> alike_sets l' l) by (induction 1; constructor; auto using Permutation_sym).
  intros R x x' [T U Li S C]. constructor; auto; [destruct (x_total x), (x_total x')|destruct (x_use x), (x_use x')|destruct (x_list x), (x_list x')]; simpl in *; auto.
  intros d w H. symmetry; auto.
Qed.
Lemma alike_flip : forall l l', alike_sets l l' -> alike_sets l' l.
Proof. induction 1; constructor; auto using Permutation_sym. Qed.
Lemma close_flip : forall R e m m', close R e m m' -> close R e m' m.
Proof. intros R e m m' []. constructor; auto using alike_ctx_flip, alike_flip. Qed.
Lemma view_parts : forall m e x, view_of (set_ctx m e x) e = mkView (m_nodes m) (queue m) (m_exact m) (x_total x) (x_use x) (x_list x) (the_clock x).
Proof. intros. unfold view_of. simpl. rewrite upd_same. reflexivity. Qed.
Lemma level_view : forall R e m m' p s n, close R e m m' -> NoDup p -> NoDup s -> incl p s -> ~ In n s ->
  alike_view le (fun d w => w = n /\ R d n) (view_of (set_ctx m e (ctx_accepts p (m_ctxs m e))) e) (view_of (set_ctx m' e (ctx_accepts s (m_ctxs m' e))) e).
Proof.
  intros R e m m' p s n C Np Ns I NI. rewrite !view_parts. destruct (cl_ctx _ _ _ _ C) as [T U Li S K].
  destruct (ctx_accepts_other p (m_ctxs m e)) as (A1 & _ & A3). destruct (ctx_accepts_other s (m_ctxs m' e)) as (B1 & _ & B3).
  assert (MI : forall k, mem k p = true -> mem k s = true) by (intros k; rewrite !mem_In; auto).
  constructor; simpl.
  - apply (cl_nodes _ _ _ _ C).
  - apply (cl_queue _ _ _ _ C).
  - apply (cl_exact _ _ _ _ C).
  - unfold the_clock. rewrite A3, B3, K. auto.
  - rewrite A1, B1. auto.
  - pose proof (accepts_total p (m_ctxs m e) Np) as P1. pose proof (accepts_total s (m_ctxs m' e) Ns) as P2.
    destruct (x_total (m_ctxs m e)), (x_total (m_ctxs m' e)), (x_total (ctx_accepts p (m_ctxs m e))), (x_total (ctx_accepts s (m_ctxs m' e))); simpl in *; try tauto.
    intros sc k. rewrite P1, P2, T. specialize (MI k). destruct (mem k p); [rewrite MI; auto|]. destruct (mem k s); simpl; lia.
  - assert (NP : ~ In n p) by auto. pose proof (accepts_use p (m_ctxs m e) n Np NP) as P1. pose proof (accepts_use s (m_ctxs m' e) n Ns NI) as P2.
    destruct (x_use (m_ctxs m e)), (x_use (m_ctxs m' e)), (x_use (ctx_accepts p (m_ctxs m e))), (x_use (ctx_accepts s (m_ctxs m' e))); simpl in *; try tauto.
    intros d w [-> H]. rewrite P1, P2, (U d n H). specialize (MI d). destruct (mem d p); [rewrite MI; auto|]. destruct (mem d s); simpl; lia.
Qed.
Lemma level_sub : forall R m m' e l l' s s' m1 m1', close R e m m' -> mono_all R e m ->
  level_ok (tc := none) m e l s m1 -> level_ok (tc := none) m' e l' s' m1' -> incl l l' -> incl s s'.
Proof.
  intros R m m' e l l' s s' m1 m1' C M A B I.
  assert (M' : mono_all R e m') by (intros n c E; rewrite (cl_basic _ _ _ _ C) in E; rewrite (cl_owners _ _ _ _ C); eauto).
  assert (P : forall p r, s = p ++ r -> incl p s').
  { induction p as [|n p IH] using rev_ind; intros r E; [intros x []|].
    rewrite <- app_assoc in E. simpl in E. specialize (IH _ E). intros x Hx. apply in_app_iff in Hx. destruct Hx as [Hx|[<-|[]]]; auto.
    destruct (in_dec Nat.eq_dec n s') as [|NI]; auto. exfalso.
    destruct A as [Aa Am]. destruct B as [Ba Bm].
    assert (Hn : In n l) by (apply (ad_incl _ _ _ _ _ _ Aa); rewrite E; apply in_app_iff; right; left; auto).
    pose proof (ad_sound _ _ _ _ _ _ Aa p n r E) as S1. pose proof (Bm n (I n Hn) NI) as S2.
    destruct (sat_pure R _ _ _ _ _ M S1) as (c & E1 & Q1). destruct (sat_pure R _ _ _ _ _ M' S2) as (c' & E2 & Q2).
    rewrite (cl_basic _ _ _ _ C), E1 in E2. inversion E2; subst c'.
    rewrite (cl_owners _ _ _ _ C), (cl_cst _ _ _ _ C) in Q2. revert Q2. eapply (mo_true _ _ _ _ (M _ _ E1)); [|exact Q1].
    apply level_view; auto.
    - pose proof (ad_nodup _ _ _ _ _ _ Aa (NoDup_nil _)) as N. simpl in N. rewrite E in N. clear - N.
      induction p as [|a p IH]; [constructor|]. inversion N; subst. constructor; auto. intros X. apply H1. apply in_app_iff; auto.
    - apply (ad_nodup _ _ _ _ _ _ Ba (NoDup_nil _)). }
  apply (P s []). rewrite app_nil_r. auto.
Qed.
(** the nodes picked, and what is recorded about them, are the same *)
Theorem level_alike : forall R m m' e l l' s s' f f' m1 m1', close R e m m' -> mono_all R e m -> Permutation l l' ->
  do_level f m e l [] = Some (Ok s, m1) -> do_level f' m' e l' [] = Some (Ok s', m1') ->
  Permutation s s' /\ m_cst m1 = m_cst m /\ m_cst m1' = m_cst m' /\
  alike_ctx (fun d w => R d w /\ ~ (In d l /\ In w l)) (m_ctxs m1 e) (m_ctxs m1' e).
Proof.
  intros R m m' e l l' s s' f f' m1 m1' C M P D D'.
  apply (do_level_ok (tc := none)) in D. apply (do_level_ok (tc := none)) in D'.
  assert (M' : mono_all R e m') by (intros n c E; rewrite (cl_basic _ _ _ _ C) in E; rewrite (cl_owners _ _ _ _ C); eauto).
  assert (S1 : incl s s') by (eapply (level_sub R m m'); eauto; intros x; apply Permutation_in; auto).
  assert (S2 : incl s' s) by (eapply (level_sub R m' m); eauto using close_flip; intros x; apply Permutation_in, Permutation_sym; auto).
  pose proof (level_nodup _ _ _ _ _ D) as N. pose proof (level_nodup _ _ _ _ _ D') as N'.
  assert (PS : Permutation s s') by (apply NoDup_Permutation; auto; intros x; split; auto).
  destruct D as [A _]. destruct D' as [A' _].
  assert (PU : forall m, mono_all R e m -> forall c, used m none c -> forall v st, state_after v e (m_owners m) st c = st).
  { intros k Mk c [(j & Ak)|(j & Ak)]; [|discriminate]. apply (mo_state _ _ _ _ (Mk _ _ Ak)). }
  split; auto. split; [|split].
  - eapply evolves_pure; [|apply (fr_cst _ _ _ (ad_frame _ _ _ _ _ _ A))]. auto.
  - eapply evolves_pure; [|apply (fr_cst _ _ _ (ad_frame _ _ _ _ _ _ A'))]. auto.
  - rewrite (ad_ctx _ _ _ _ _ _ A), (ad_ctx _ _ _ _ _ _ A').
    destruct (cl_ctx _ _ _ _ C) as [T U Li S K].
    destruct (ctx_accepts_other s (m_ctxs m e)) as (A1 & A2 & A3). destruct (ctx_accepts_other s' (m_ctxs m' e)) as (B1 & B2 & B3).
    assert (MM : forall k, mem k s' = mem k s) by (intros k; apply mem_perm; auto).
    constructor; rewrite ?A1, ?A2, ?A3, ?B1, ?B2, ?B3; auto.
    + pose proof (accepts_total s (m_ctxs m e) N) as P1. pose proof (accepts_total s' (m_ctxs m' e) N') as P2.
      destruct (x_total (m_ctxs m e)), (x_total (m_ctxs m' e)), (x_total (ctx_accepts s (m_ctxs m e))), (x_total (ctx_accepts s' (m_ctxs m' e))); simpl in *; try tauto.
      intros sc k. rewrite P1, P2, T, MM. auto.
    + assert (UU : forall d w, R d w -> ~ (In d l /\ In w l) -> both (fun u u' => u d w = u' d w) (x_use (ctx_accepts s (m_ctxs m e))) (x_use (ctx_accepts s' (m_ctxs m' e)))).
      { intros d w Hr Ha. pose proof (ad_incl _ _ _ _ _ _ A) as Is. destruct (in_dec Nat.eq_dec w s) as [Iw|Nw].
        - assert (Nd : ~ In d s) by (intros X; apply Ha; auto).
          pose proof (accepts_spent s (m_ctxs m e) w d Iw Nd) as P1.
          assert (P2 : both (fun u u' => u' d w = 0) (x_use (m_ctxs m' e)) (x_use (ctx_accepts s' (m_ctxs m' e)))) by (apply accepts_spent; auto).
          destruct (x_use (m_ctxs m e)), (x_use (m_ctxs m' e)), (x_use (ctx_accepts s (m_ctxs m e))), (x_use (ctx_accepts s' (m_ctxs m' e))); simpl in *; try tauto. congruence.
        - assert (Nw' : ~ In w s') by auto.
          pose proof (accepts_use s (m_ctxs m e) w N Nw) as P1. pose proof (accepts_use s' (m_ctxs m' e) w N' Nw') as P2.
          destruct (x_use (m_ctxs m e)), (x_use (m_ctxs m' e)), (x_use (ctx_accepts s (m_ctxs m e))), (x_use (ctx_accepts s' (m_ctxs m' e))); simpl in *; try tauto.
          rewrite P1, P2, (U d w Hr), MM. auto. }
      clear - U UU. destruct (x_use (ctx_accepts s (m_ctxs m e))) as [u|] eqn:E1, (x_use (ctx_accepts s' (m_ctxs m' e))) as [u'|] eqn:E2; simpl in *; auto.
      * intros d w [Hr Ha]. apply UU; auto.
      * assert (Z : x_use (m_ctxs m' e) = None /\ x_use (m_ctxs m e) <> None).
        { split; [|intros X].
          - clear - E2. revert E2. generalize (m_ctxs m' e). induction s' as [|a r IH]; intros x E2; auto. change (ctx_accepts (a :: r) x) with (ctx_accepts r (ctx_accept a x)) in E2.
            apply IH in E2. unfold ctx_accept in E2. simpl in E2. destruct (x_use x); [discriminate|auto].
          - assert (Y : x_use (ctx_accepts s (m_ctxs m e)) = None); [|congruence]. clear - X. revert X. generalize (m_ctxs m e). induction s as [|a r IH]; intros x X; auto.
            change (ctx_accepts (a :: r) x) with (ctx_accepts r (ctx_accept a x)). apply IH. unfold ctx_accept. simpl. rewrite X. auto. }
        destruct Z as [Z1 Z2]. rewrite Z1 in U. destruct (x_use (m_ctxs m e)); [destruct U|congruence].
      * assert (Z : x_use (m_ctxs m e) = None /\ x_use (m_ctxs m' e) <> None).
        { split; [|intros X].
          - clear - E1. revert E1. generalize (m_ctxs m e). induction s as [|a r IH]; intros x E2; auto. change (ctx_accepts (a :: r) x) with (ctx_accepts r (ctx_accept a x)) in E2.
            apply IH in E2. unfold ctx_accept in E2. simpl in E2. destruct (x_use x); [discriminate|auto].
          - assert (Y : x_use (ctx_accepts s' (m_ctxs m' e)) = None); [|congruence]. clear - X. revert X. generalize (m_ctxs m' e). induction s' as [|a r IH]; intros x X; auto.
            change (ctx_accepts (a :: r) x) with (ctx_accepts r (ctx_accept a x)). apply IH. unfold ctx_accept. simpl. rewrite X. auto. }
        destruct Z as [Z1 Z2]. rewrite Z1 in U. destruct (x_use (m_ctxs m' e)); [destruct U|congruence].
Qed.
