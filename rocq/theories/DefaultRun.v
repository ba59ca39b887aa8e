(** Runs of schedulers without conditions (C13). *)
From Verif Require Import BaseFacts SpecDefault SpecIds CondSetFacts SchedFacts SchedThms DefaultFacts YieldFacts ResumeFrame TopoProofs RunFacts StopFacts.
From Verif Require Import IdFacts.

(** ** a consideration set in which everything can run *)
Lemma waits_fixed : forall e b ds m m', fixed e m m' -> waits_for b ds m -> waits_for b ds m'.
Proof.
  intros e b ds m m' F (c & A & O & H). exists c. rewrite (fx_basic _ _ _ F), (fx_next _ _ _ F), (fx_owners _ _ _ F). auto.
Qed.
(** bookkeeping: D is what has been executed *)
Definition counted (D : list node) (x : ctx) : Prop :=
  exists t u, x_total x = Some t /\ x_use x = Some u /\ (forall n, t ESU n >= 1 <-> In n D) /\
    forall d b, In d D -> ~ In b D -> u d b >= 1.
Lemma counted_accept : forall D n x, counted D x -> counted (D ++ [n]) (ctx_accept n x).
Proof.
  intros D n x (t & u & T & U & A & B). exists (bump_total n t), (spend_use n u). simpl. rewrite T, U. simpl. split; auto. split; auto. split.
  - intros m. rewrite in_app_iff. unfold bump_total. destruct (Nat.eqb_spec m n) as [->|N].
    + split; [right; left; auto|lia].
    + rewrite A. simpl. intuition congruence.
  - intros d b Hd Hb. rewrite in_app_iff in Hd, Hb. unfold spend_use.
    destruct (Nat.eqb_spec b n) as [->|N]; [exfalso; apply Hb; right; left; auto|].
    destruct (Nat.eqb_spec d n) as [->|N2]; [lia|]. destruct Hd as [Hd|[Hd|[]]]; [|congruence]. apply B; auto.
Qed.
Lemma counted_accepts : forall s D x, counted D x -> counted (D ++ s) (ctx_accepts s x).
Proof.
  induction s as [|n s IH]; intros D x C; [rewrite app_nil_r; auto|].
  change (ctx_accepts (n :: s) x) with (ctx_accepts s (ctx_accept n x)). replace (D ++ n :: s) with ((D ++ [n]) ++ s) by (rewrite <- app_assoc; auto).
  apply IH. apply counted_accept; auto.
Qed.
Section Level.
Variables (e : eid) (deps : node -> list node).
Definition can_wait (level : list node) (m : core) : Prop :=
  x_use (m_ctxs m e) <> None /\ incl level (m_nodes m) /\
  forall n, In n level -> waits_for n (deps n) m /\ incl (deps n) (m_nodes m).
Lemma can_wait_fixed : forall level m m', fixed e m m' -> x_use (m_ctxs m' e) <> None -> can_wait level m -> can_wait level m'.
Proof.
  intros level m m' F U (_ & I & W). split; auto. rewrite (fx_nodes _ _ _ F). split; auto. intros n Hn. destruct (W n Hn) as [W1 I1].
  split; auto. eapply waits_fixed; eauto.
Qed.
Lemma wait_decides : forall m n ds c u, waits_for n ds m -> aget n (m_basic m) = Some c -> x_use (m_ctxs m e) = Some u ->
  In n (m_nodes m) -> incl ds (m_nodes m) -> forall st, exists b, is_satisfied (view_of m e) e (m_owners m) st c = Ok b /\ (b = true <-> forall d, In d ds -> u d n >= 1).
Proof. intros m n ds c u (c' & A & _ & H) A' U I1 I2 st. rewrite A in A'. inversion A'; subst c'. apply H; auto. Qed.
Lemma satisfied_ok : forall m n c level, can_wait level m -> In n level -> aget n (m_basic m) = Some c ->
  exists b m', satisfied m e c = (Ok b, m') /\ fixed e m m' /\ m_ctxs m' e = m_ctxs m e.
Proof.
  intros m n c level (U & I & W) Hn A. destruct (W n Hn) as [W1 I1]. destruct (x_use (m_ctxs m e)) as [u|] eqn:Eu; [|congruence].
  destruct (wait_decides m n (deps n) c u W1 A Eu (I n Hn) I1 (m_cst m)) as (b & S & _).
  unfold satisfied. unfold is_satisfied in S. destruct (eval (view_of m e) e (m_owners m) c (m_cst m)) as [r st]. simpl in S. subst r.
  exists b, (set_cst m st). split; auto. split; [apply fixed_cst|reflexivity].
Qed.
Lemma round_no_err : forall lv level m exec ch, can_wait level m -> incl lv level ->
  exists ex ch' m', round m e lv exec ch = (Ok (ex, ch'), m') /\ can_wait level m'.
Proof.
  induction lv as [|n r IH]; intros level m exec ch C I; simpl; [eauto|].
  assert (In n level) as Hn by (apply I; left; auto). assert (incl r level) as Ir by (intros x Hx; apply I; right; auto).
  destruct (mem n exec); [apply IH; auto|].
  destruct (aget n (m_basic m)) as [c|] eqn:A.
  2: { destruct C as (_ & _ & W). destruct (W n Hn) as [(c & A' & _) _]. congruence. }
  destruct (satisfied_ok m n c level C Hn A) as (b & m' & S & F & X). rewrite S.
  assert (C' : can_wait level m') by (eapply can_wait_fixed; eauto; rewrite X; apply C).
  destruct b; [|apply IH; auto].
  replace (mem n (m_nodes m')) with true by (symmetry; apply mem_In; apply C'; auto).
  apply IH; auto. eapply can_wait_fixed; [apply fixed_ctx| |exact C'].
  unfold accept. simpl. rewrite upd_same. simpl. destruct C' as (U & _). destruct (x_use (m_ctxs m' e)); [discriminate|congruence].
Qed.
Lemma do_level_no_err : forall fuel level m exec r m', can_wait level m -> do_level fuel m e level exec = Some (r, m') ->
  exists s, r = Ok s.
Proof.
  induction fuel as [|f IH]; intros level m exec r m' C H; simpl in H; [discriminate|].
  destruct (round_no_err level level m exec false C (incl_refl _)) as (ex & ch & m1 & R & C1). rewrite R in H.
  destruct ch; [eauto|]. inversion H; subst; eauto.
Qed.
Variable rank : node -> nat.
Lemma least : forall l : list node, l <> [] -> exists n, In n l /\ forall x, In x l -> rank n <= rank x.
Proof.
  induction l as [|a [|b r] IH]; intros N; [congruence|exists a; split; [left; auto|intros x [<-|[]]; auto]|].
  destruct IH as (n & I & L); [discriminate|]. destruct (le_lt_dec (rank a) (rank n)).
  - exists a. split; [left; auto|]. intros x [<-|X]; auto. specialize (L x X). lia.
  - exists n. split; [right; auto|]. intros x [<-|X]; auto. lia.
Qed.
Theorem level_all : forall (tc : tconds) m level D, can_wait level m -> counted D (m_ctxs m e) -> NoDup level ->
  (forall n, In n level -> ~ In n D) ->
  (forall n d, In n level -> In d (deps n) -> In d D \/ In d level /\ rank d < rank n) ->
  exists s m', do_level (S (length level)) m e level [] = Some (Ok s, m') /\ Permutation s level /\ fixed e m m' /\
    m_ctxs m' e = ctx_accepts s (m_ctxs m e).
Proof.
  intros tc m level D C K N X P. destruct (do_level (S (length level)) m e level []) as [[r m']|] eqn:E.
  2: { exfalso. eapply (do_level_total (tc := tc)); eauto. }
  destruct (do_level_no_err _ _ _ _ _ _ C E) as (s & ->). exists s, m'. split; auto.
  pose proof (do_level_ok (tc := tc) _ _ _ _ _ _ E) as L. pose proof (level_nodup _ _ _ _ _ L) as Ns.
  destruct L as [A M]. pose proof (ad_incl _ _ _ _ _ _ A) as I.
  split; [|split; [eapply fixed_level; eauto|apply (ad_ctx _ _ _ _ _ _ A)]].
  apply NoDup_Permutation; auto. intros x. split; [apply I|]. intros Hx.
  destruct (in_dec Nat.eq_dec x s) as [|NI]; auto. exfalso.
  set (missing := filter (fun n => negb (mem n s)) level).
  assert (Mi : forall n, In n missing <-> In n level /\ ~ In n s).
  { intros n. unfold missing. rewrite filter_In, Bool.negb_true_iff. rewrite <- Bool.not_true_iff_false, mem_In. tauto. }
  destruct (least missing) as (n & In_n & Le).
  { intros Z. assert (In x missing) by (apply Mi; auto). rewrite Z in H. destruct H. }
  apply Mi in In_n. destruct In_n as [Hn Nn].
  destruct (M n Hn Nn) as (c & st & st' & Ac & _ & Ev).
  destruct C as (U & Iv & W). destruct (W n Hn) as [W1 I1].
  pose proof (counted_accepts s D _ K) as (t & u & T & Us & _ & B).
  set (m2 := set_ctx m e (ctx_accepts s (m_ctxs m e))) in *.
  assert (F2 : fixed e m m2) by apply fixed_ctx.
  assert (X2 : m_ctxs m2 e = ctx_accepts s (m_ctxs m e)) by apply upd_same.
  destruct (wait_decides m2 n (deps n) c u (waits_fixed _ _ _ _ _ F2 W1) Ac) with (st := st) as (b & S & Bb); auto.
  { rewrite X2; auto. }
  unfold is_satisfied in S. change (m_owners m2) with (m_owners m) in S. rewrite Ev in S. simpl in S. inversion S; subst b.
  assert (true = false); [|discriminate]. symmetry. apply Bb. intros d Hd. apply B; [apply in_or_app|rewrite in_app_iff; intros [Q|Q]; [apply (X n)|]; auto].
  destruct (P n d Hn Hd) as [Q|[Q R]]; auto. right. destruct (in_dec Nat.eq_dec d s) as [|Nd]; auto.
  exfalso. assert (In d missing) as Md by (apply Mi; auto). apply Le in Md. lia.
Qed.
End Level.

(** ** the run *)
Definition clocked (x : ctx) : Prop := exists h, clock_after ESU h (the_clock x).
Section Run.
Variables (e : eid) (deps : node -> list node) (rank : node -> nat) (ns : list node) (queue0 : list (list node)) (oN oA : oid).
Hypothesis dist : NoDup (concat queue0).
Hypothesis cover : forall n, In n (concat queue0) <-> In n ns.
Hypothesis before : forall n d, In n ns -> In d (deps n) -> In d ns /\ rank d < rank n /\
  forall a lv b, queue0 = a ++ lv :: b -> In n lv -> In d (concat a) \/ In d lv.

(* before a level, D having been executed *)
Record at_level (D : list node) (l : list (list node)) (m : core) : Prop := {
  al_nodes : forall n, In n (m_nodes m) <-> In n ns;
  al_queue : queue m = queue0;
  al_waits : forall n, In n ns -> waits_for n (deps n) m;
  al_counted : counted D (m_ctxs m e);
  al_list : x_list (m_ctxs m e) = Some l;
  al_clock : clocked (m_ctxs m e)
}.
Lemma fixed_queue : forall e' m m', fixed e' m m' -> queue m' = queue m.
Proof. intros e' m m' F. unfold queue. rewrite (fx_exact _ _ _ F), (fx_graph _ _ _ F), (fx_levels _ _ _ F). auto. Qed.
Lemma at_level_fixed : forall D l m D' l' m', fixed e m m' -> counted D' (m_ctxs m' e) -> x_list (m_ctxs m' e) = Some l' ->
  clocked (m_ctxs m' e) -> at_level D l m -> at_level D' l' m'.
Proof.
  intros D l m D' l' m' F C L K []. constructor; auto.
  - intros n. rewrite (fx_nodes _ _ _ F). auto.
  - rewrite (fixed_queue _ _ _ F). auto.
  - intros n Hn. eapply waits_fixed; eauto.
Qed.
Definition dtc : tconds := default_tc oN oA.
Lemma all_run_value : forall v t l, v_total v = Some t -> incl l (v_nodes v) ->
  all_have_run v ESU l = Ok (forallb (fun n => Nat.leb 1 (t ESU n)) l).
Proof.
  intros v t. induction l as [|n l IH]; intros T I; auto. cbn [all_have_run forallb]. unfold count_total at 1. rewrite T.
  assert (In n (v_nodes v)) as Hn by (apply I; left; auto). apply mem_In in Hn. rewrite Hn.
  assert (Q : Nat.ltb (t ESU n) 1 = negb (Nat.leb 1 (t ESU n))) by (destruct (Nat.ltb_spec (t ESU n) 1), (Nat.leb_spec 1 (t ESU n)); auto; lia).
  rewrite Q. destruct (Nat.leb 1 (t ESU n)); cbn [negb andb]; auto. apply IH; auto. intros x Hx. apply I; right; auto.
Qed.
Lemma never_false : forall v ow st, eval v e ow (Never oN) st = (Ok false, st).
Proof. intros. destruct st. reflexivity. Qed.
Lemma all_value : forall v ow st, eval v e ow (AllHaveRun oA [] ESU) st = (all_have_run v ESU (v_nodes v), st).
Proof. intros. destruct st. reflexivity. Qed.
Lemma set_cst_id : forall m, set_cst m (m_cst m) = m.
Proof. intros []; reflexivity. Qed.
Lemma terminated_value : forall D l m, at_level D l m ->
  exists b, terminated m e dtc = (Ok b, m) /\ (b = true <-> forall n, In n ns -> In n D).
Proof.
  intros D l m A. destruct (al_counted _ _ _ A) as (t & u & T & _ & C & _).
  exists (forallb (fun n => Nat.leb 1 (t ESU n)) (m_nodes m)). split.
  - unfold terminated, check_tc, dtc, default_tc, satisfied. rewrite all_value, never_false, set_cst_id.
    rewrite (all_run_value _ t); [|exact T|apply incl_refl]. change (v_nodes (view_of m e)) with (m_nodes m).
    destruct (forallb _ _); auto. rewrite set_cst_id; auto.
  - rewrite forallb_forall. split; intros H n Hn.
    + apply C. apply Nat.leb_le. apply H. apply (al_nodes _ _ _ A); auto.
    + apply Nat.leb_le. apply C. apply H. apply (al_nodes _ _ _ A); auto.
Qed.
Lemma in_split_level : forall (a : list (list node)) lv b n, queue0 = a ++ lv :: b -> In n lv -> In n ns /\ ~ In n (concat a).
Proof.
  intros a lv b n E I. split.
  - apply cover. rewrite E, concat_app. apply in_or_app. right. simpl. apply in_or_app. auto.
  - intros J. pose proof dist as N. rewrite E, concat_app in N. simpl in N. apply NoDup_app_inv in N. destruct N as (_ & _ & N).
    apply (N n); auto. apply in_or_app; auto.
Qed.
Lemma level_NoDup : forall (a : list (list node)) lv b, queue0 = a ++ lv :: b -> NoDup lv.
Proof.
  intros a lv b E. pose proof dist as N. rewrite E, concat_app in N. apply NoDup_app_inv in N. destruct N as (_ & N & _).
  simpl in N. apply NoDup_app_inv in N. tauto.
Qed.
Theorem inner_default : forall g a lv b D l m i ch, queue0 = a ++ lv :: b -> lv <> [] -> at_level D l m -> Permutation D (concat a) ->
  g_eid g = e -> g_tc g = dtc -> g_abs g = false ->
  exists s m', inner m g (lv :: b) i ch = IYield m' s i true /\ Permutation s lv /\ at_level (D ++ s) (l ++ [s]) m' /\ fixed e m m'.
Proof.
  intros g a lv b D l m i ch E Ne A P G1 G2 G3.
  assert (PD : forall n, In n D <-> In n (concat a)) by (intros n; split; apply Permutation_in; [|apply Permutation_sym]; auto).
  destruct (terminated_value _ _ _ A) as (bt & T & B). cbn [inner]. rewrite G1, G2, T.
  assert (bt = false) as ->.
  { destruct bt; auto. exfalso. destruct lv as [|n lv]; [congruence|]. destruct (in_split_level a (n :: lv) b n E (or_introl eq_refl)) as [I N].
    apply N. apply PD. apply B; auto. }
  destruct (level_all e deps rank dtc m lv D) as (s & m' & DL & PS & F & X).
  - split; [destruct (al_counted _ _ _ A) as (t & u & _ & U & _); rewrite U; discriminate|]. split.
    + intros n Hn. apply (al_nodes _ _ _ A). eapply in_split_level; eauto.
    + intros n Hn. destruct (in_split_level a lv b n E Hn) as [I N]. split; [apply (al_waits _ _ _ A); auto|].
      intros d Hd. apply (al_nodes _ _ _ A). apply (before n d I Hd).
  - apply A.
  - eapply level_NoDup; eauto.
  - intros n Hn. rewrite PD. eapply in_split_level; eauto.
  - intros n d Hn Hd. destruct (in_split_level a lv b n E Hn) as [I N]. destruct (before n d I Hd) as (_ & R & Q).
    destruct (Q a lv b E Hn) as [Q1|Q1]; [left; apply PD; auto|right; auto].
  - rewrite DL. assert (nonempty s = true) as Ns.
    { destruct s; auto. apply Permutation_nil in PS. congruence. }
    rewrite Ns, G3. simpl. unfold append_exec. pose proof (ctx_accepts_other s (m_ctxs m e)) as (XL & XS & XK).
    rewrite X, XL, (al_list _ _ _ A). eexists; eexists. split; [rewrite Bool.orb_true_r; reflexivity|]. split; auto.
    assert (FF : fixed e m (set_ctx m' e (mkCtx (x_total (ctx_accepts s (m_ctxs m e))) (x_use (ctx_accepts s (m_ctxs m e))) (Some (l ++ [s])) (x_stamps (ctx_accepts s (m_ctxs m e))) (x_clock (ctx_accepts s (m_ctxs m e))))))
      by (eapply fixed_trans; [exact F|apply fixed_ctx]).
    split; [|exact FF]. eapply at_level_fixed; [exact FF| | | |exact A].
    + simpl. rewrite upd_same. pose proof (counted_accepts s D _ (al_counted _ _ _ A)) as (t & u & T1 & U & C1 & C2). exists t, u. simpl. auto.
    + simpl. rewrite upd_same. reflexivity.
    + simpl. rewrite upd_same. unfold clocked, the_clock in *. simpl. rewrite XK. apply (al_clock _ _ _ A).
Qed.
Lemma incr_default : forall s D l m, ts_lt s LIFE -> at_level D l m -> exists m', incr_clock s m e = Ok m' /\ at_level D l m' /\ fixed e m m'.
Proof.
  intros s D l m L A. destruct (al_clock _ _ _ A) as (h & K). destruct (clock_incr_succeeds _ _ _ s K L) as (k & E).
  unfold incr_clock. rewrite E. eexists; split; [reflexivity|]. split; [|apply fixed_ctx].
  eapply at_level_fixed; [apply fixed_ctx| | | |exact A]; unfold set_clock; simpl; rewrite upd_same; simpl; try apply A.
  exists (h ++ [s]). unfold the_clock at 1. simpl. eapply ca_incr; eauto.
Qed.
Lemma finish_default : forall g D l m, at_level D l m -> g_eid g = e -> g_tc g = dtc ->
  exists m', finish m g = (m', at_pc g PDone, OReturn l) /\ fixed e m m'.
Proof.
  intros g D l m A G1 G2. unfold finish. rewrite G1, G2.
  assert (X : exists m1, (if g_skip g then Ok m else incr_clock ESU m e) = Ok m1 /\ at_level D l m1 /\ fixed e m m1).
  { destruct (g_skip g); [exists m; split; [|split]; auto using fixed_refl|]. apply incr_default; auto. unfold ts_lt; simpl; lia. }
  destruct X as (m1 & E & A1 & F). rewrite E. unfold check_tc, dtc, default_tc, satisfied. rewrite never_false, set_cst_id.
  rewrite (al_list _ _ _ A1). eauto.
Qed.
Lemma outer_ends : forall g D l m f, at_level D l m -> (forall n, In n ns -> In n D) -> g_eid g = e -> g_tc g = dtc ->
  exists m', outer (S f) m g = (m', at_pc g PDone, OReturn l) /\ fixed e m m'.
Proof.
  intros g D l m f A H G1 G2. cbn [outer]. rewrite G1, G2. destruct (terminated_value _ _ _ A) as (b & T & B). rewrite T.
  assert (b = true) as -> by (apply B; auto). eapply finish_default; eauto.
Qed.
Lemma at_pc_twice : forall g p p', at_pc (at_pc g p) p' = at_pc g p'. Proof. auto. Qed.
Hypothesis full : forall lv, In lv queue0 -> lv <> [].
(** from the yield of level [length a] on *)
Theorem drive_rest : forall f g b a lv D l m steps acc, queue0 = a ++ lv :: b -> at_level D l m -> Permutation D (concat (a ++ [lv])) ->
  g_eid g = e -> g_tc g = dtc -> g_abs g = false -> g_pc g = PLevel (length a) true -> length b < steps ->
  exists ss m', drive steps (S f) m g acc = (m', at_pc g PDone, acc ++ ss, OReturn (l ++ ss)) /\ Forall2 (@Permutation node) ss b /\ fixed e m m'.
Proof.
  intros f g b. revert g. induction b as [|lv' b IH]; intros g a lv D l m steps acc E A P G1 G2 G3 G4 Ls.
  - destruct steps as [|k]; [lia|]. cbn [drive]. unfold resume. rewrite G4, G1.
    destruct (incr_default CSE D l m) as (m1 & I & A1 & F1); auto; [unfold ts_lt; simpl; lia|]. rewrite I.
    rewrite (al_queue _ _ _ A1), E. replace (skipn (S (length a)) (a ++ [lv])) with (@nil (list node)).
    2: { symmetry. apply skipn_all2. rewrite app_length. simpl. lia. }
    cbn [inner]. unfold pass_tail. rewrite G1. simpl.
    destruct (incr_default PASS D l m1) as (m2 & I2 & A2 & F2); auto; [unfold ts_lt; simpl; lia|]. rewrite I2.
    destruct (outer_ends g D l m2 f) as (m3 & O & F3); auto.
    { intros n Hn. eapply Permutation_in; [apply Permutation_sym; exact P|]. rewrite <- E. apply cover; auto. }
    cbn [outer] in O. rewrite O. exists [], m3. rewrite !app_nil_r. split; auto. split; [constructor|]. eauto using fixed_trans.
  - destruct steps as [|k]; [simpl in Ls; lia|]. simpl in Ls. cbn [drive]. unfold resume. rewrite G4, G1.
    destruct (incr_default CSE D l m) as (m1 & I & A1 & F1); auto; [unfold ts_lt; simpl; lia|]. rewrite I.
    assert (E' : queue0 = (a ++ [lv]) ++ lv' :: b) by (rewrite E, <- app_assoc; auto).
    rewrite (al_queue _ _ _ A1). replace (skipn (S (length a)) queue0) with (lv' :: b).
    2: { rewrite E'. replace (S (length a)) with (length (a ++ [lv])) by (rewrite app_length; simpl; lia). rewrite skipn_app, skipn_all, Nat.sub_diag. auto. }
    destruct (inner_default g (a ++ [lv]) lv' b D l m1 (S (length a)) true) as (s & m2 & IN & PS & A2 & F2); auto.
    { apply full. rewrite E'. apply in_or_app; right; left; auto. }
    rewrite IN.
    destruct (IH (at_pc g (PLevel (S (length a)) true)) (a ++ [lv]) lv' (D ++ s) (l ++ [s]) m2 k (acc ++ [s])) as (ss & m3 & DR & FP & F3); auto.
    + rewrite concat_app. apply Permutation_app; auto. simpl. rewrite app_nil_r. auto.
    + simpl. f_equal. rewrite app_length. simpl. lia.
    + lia.
    + rewrite DR. exists (s :: ss), m3. rewrite <- !app_assoc. simpl. split; auto. split; [constructor; auto|]. eauto using fixed_trans.
Qed.
(** ... from the head of the outer loop, at the start of the run *)
Theorem drive_start : forall f g l m m0 g0 steps, at_level [] l m -> ns <> [] ->
  g_eid g = e -> g_tc g = dtc -> g_abs g = false -> g_pc g0 = PStart -> start m0 g0 = (Ok g, m) -> length queue0 < steps ->
  exists ss m', drive steps (S f) m0 g0 [] = (m', at_pc g PDone, ss, OReturn (l ++ ss)) /\ Forall2 (@Permutation node) ss queue0 /\ fixed e m m'.
Proof.
  intros f g l m m0 g0 steps A N G1 G2 G3 G4 S Ls. destruct steps as [|k]; [lia|]. cbn [drive]. unfold resume. rewrite G4, S.
  cbn [outer]. rewrite G1, G2. destruct (terminated_value _ _ _ A) as (b & T & B). rewrite T.
  assert (b = false) as -> by (destruct b; auto; exfalso; destruct ns as [|n r]; [congruence|]; apply (proj1 B eq_refl n); left; auto).
  set (m2 := reset_counts_total PASS m e).
  assert (F2 : fixed e m m2) by apply fixed_ctx.
  assert (A2 : at_level [] l m2).
  { eapply at_level_fixed; [exact F2| | | |exact A]; unfold m2, reset_counts_total; simpl; rewrite upd_same; try apply A.
    destruct (al_counted _ _ _ A) as (t & u & T1 & U & C1 & C2). exists (reset_total PASS t), u. simpl. rewrite T1. simpl. auto. }
  assert (exists lv q, queue0 = lv :: q) as (lv & q & Q).
  { clear - N cover. destruct queue0 as [|lv q]; [|eauto]. exfalso. destruct ns as [|n r]; [congruence|]. apply (cover n). left; auto. }
  assert (Lv : lv <> []) by (apply full; rewrite Q; left; auto).
  rewrite (al_queue _ _ _ A2), Q.
  destruct (inner_default g [] lv q [] l m2 0 false) as (s & m3 & I & PS & A3 & F3); auto.
  rewrite I. cbn [app] in A3.
  destruct (drive_rest f (at_pc g (PLevel 0 true)) q [] lv s (l ++ [s]) m3 k ([] ++ [s])) as (ss & m4 & DR & FP & F4); auto.
  - simpl. rewrite app_nil_r. auto.
  - rewrite Q in Ls. simpl in Ls. lia.
  - rewrite DR. exists (s :: ss), m4. simpl. rewrite <- app_assoc. simpl. split; auto. split; [constructor; auto|]. eauto using fixed_trans.
Qed.
(** an empty graph *)
Theorem drive_empty : forall f g l m m0 g0 steps, at_level [] l m -> ns = [] ->
  g_eid g = e -> g_tc g = dtc -> g_pc g0 = PStart -> start m0 g0 = (Ok g, m) -> 0 < steps ->
  exists m', drive steps (S f) m0 g0 [] = (m', at_pc g PDone, [], OReturn l) /\ fixed e m m'.
Proof.
  intros f g l m m0 g0 steps A N G1 G2 G4 S Ls. destruct steps as [|k]; [lia|]. cbn [drive]. unfold resume. rewrite G4, S.
  destruct (outer_ends g [] l m f) as (m' & O & F); auto.
  { rewrite N. intros n []. }
  rewrite O. eauto.
Qed.
End Run.

(** ** what every resumption preserves *)
Definition good (x : ctx) : Prop := initialised x /\ clocked x.
Definition gk (e : eid) (m m' : core) : Prop := good (m_ctxs m e) -> good (m_ctxs m' e).
Lemma gk_refl : forall e m, gk e m m. Proof. intros e m H; auto. Qed.
Lemma gk_trans : forall e a b c, gk e a b -> gk e b c -> gk e a c. Proof. unfold gk; auto. Qed.
Lemma gk_satisfied : forall e m e' c r m', satisfied m e' c = (r, m') -> gk e m m'.
Proof. intros e m e' c r m' H. unfold satisfied in H. destruct (eval _ _ _ _ _). inversion H; subst. intros G; exact G. Qed.
Lemma map_some : forall A B (f : A -> B) o, o <> None -> option_map f o <> None.
Proof. intros A B f [a|] H; [discriminate|auto]. Qed.
Lemma gk_accept : forall e m n, gk e m (accept m e n).
Proof.
  intros e m n ((A & B & C) & K). unfold accept. simpl. rewrite upd_same. split; [split; [apply map_some; auto|split; [apply map_some; auto|auto]]|].
  exact K.
Qed.
Lemma gk_total : forall e m s, gk e m (reset_counts_total s m e).
Proof. intros e m s ((A & B & C) & K). unfold reset_counts_total. simpl. rewrite upd_same. split; [split; [apply map_some; auto|split; auto]|exact K]. Qed.
Lemma gk_use : forall e m, gk e m (reset_counts_useable m e).
Proof. intros e m ((A & B & C) & K). unfold reset_counts_useable. simpl. rewrite upd_same. split; [split; [auto|split; [discriminate|auto]]|exact K]. Qed.
Lemma gk_round : forall level m e exec ch r m', round m e level exec ch = (r, m') -> gk e m m'.
Proof.
  induction level as [|n l IH]; intros m e exec ch r m' H; simpl in H.
  - inversion H; subst; apply gk_refl.
  - destruct (mem n exec); [eauto|]. destruct (aget n (m_basic m)); [|inversion H; subst; apply gk_refl].
    destruct (satisfied m e c) as [[[|]|] m1] eqn:S; pose proof (gk_satisfied e _ _ _ _ _ S) as F.
    + destruct (mem n (m_nodes m1)); [|inversion H; subst; auto].
      eapply gk_trans; [exact F|]. eapply gk_trans; [|eapply IH; eauto]. apply gk_accept.
    + eapply gk_trans; [exact F|]. eauto.
    + inversion H; subst; auto.
Qed.
Lemma gk_level : forall fuel m e level exec r m', do_level fuel m e level exec = Some (r, m') -> gk e m m'.
Proof.
  induction fuel as [|f IH]; intros m e level exec r m' H; simpl in H; [discriminate|].
  destruct (round m e level exec false) as [[[ex [|]]|] m1] eqn:R; pose proof (gk_round _ _ _ _ _ _ _ R) as F.
  - eapply gk_trans; eauto.
  - inversion H; subst; auto.
  - inversion H; subst; auto.
Qed.
Lemma gk_tc : forall m e tc s r m', check_tc m e tc s = (r, m') -> gk e m m'.
Proof. intros m e tc s r m' H. unfold check_tc in H. destruct (tc s); [eapply gk_satisfied; eauto|inversion H; subst; apply gk_refl]. Qed.
Lemma gk_terminated : forall m e tc r m', terminated m e tc = (r, m') -> gk e m m'.
Proof.
  intros m e tc r m' H. unfold terminated in H. destruct (check_tc m e tc ESU) as [[[|]|] m1] eqn:C; pose proof (gk_tc _ _ _ _ _ _ C) as F.
  - inversion H; subst; auto.
  - eapply gk_trans; [exact F|]. eapply gk_tc; eauto.
  - inversion H; subst; auto.
Qed.
Lemma gk_append : forall m e abs s r m', append_exec m e abs s = (r, m') -> gk e m m'.
Proof.
  intros m e abs s r m' H ((A & B & C) & K). unfold append_exec in H. destruct (x_list (m_ctxs m e)); [|congruence].
  destruct abs; [destruct (x_stamps _)|]; inversion H; subst; simpl; rewrite upd_same; (split; [split; [auto|split; [auto|discriminate]]|exact K]).
Qed.
Lemma gk_incr : forall s m e m', incr_clock s m e = Ok m' -> gk e m m'.
Proof.
  intros s m e m' H ((A & B & C) & (h & K)). unfold incr_clock in H. destruct (clock_incr s _) as [k|] eqn:E; inversion H; subst.
  unfold set_clock. simpl. rewrite upd_same. split; [split; auto|]. exists (h ++ [s]). eapply ca_incr; eauto.
Qed.
Lemma gk_inner : forall rest m g i ch, gk (g_eid g) m (inner_core (inner m g rest i ch)).
Proof.
  induction rest as [|level rest IH]; intros m g i ch; cbn [inner]; [apply gk_refl|].
  destruct (terminated m (g_eid g) (g_tc g)) as [[[|]|] m1] eqn:T; pose proof (gk_terminated _ _ _ _ _ T) as F; auto.
  destruct (do_level (S (length level)) m1 (g_eid g) level []) as [[[exec|] m2]|] eqn:D; auto.
  - pose proof (gk_level _ _ _ _ _ _ _ D) as F2. destruct (nonempty exec || g_abs g).
    + destruct (append_exec m2 (g_eid g) (g_abs g) exec) as [[|] m3] eqn:A; simpl; eauto using gk_trans, gk_append.
    + eapply gk_trans; [|apply IH]. eapply gk_trans; eauto.
  - simpl. eauto using gk_trans, gk_level.
Qed.
Lemma gk_tail : forall m g ch, gk (g_eid g) m (tail_core (pass_tail m g ch)).
Proof.
  intros m g ch. unfold pass_tail. destruct (negb ch && negb (g_abs g)).
  - destruct (append_exec m (g_eid g) false []) as [[|] m1] eqn:A; simpl; eapply gk_append; eauto.
  - destruct (incr_clock PASS m (g_eid g)) eqn:I; simpl; [eapply gk_incr; eauto|apply gk_refl].
Qed.
Lemma gk_finish : forall m g, gk (g_eid g) m (fst (fst (finish m g))).
Proof.
  intros m g. unfold finish. destruct (if g_skip g then Ok m else incr_clock ESU m (g_eid g)) as [m1|] eqn:I; [|apply gk_refl].
  assert (F : gk (g_eid g) m m1) by (destruct (g_skip g); [inversion I; subst; apply gk_refl|eapply gk_incr; eauto]).
  destruct (check_tc m1 (g_eid g) (g_tc g) ES) as [[|] m2] eqn:C; pose proof (gk_tc _ _ _ _ _ _ C) as F2; [destruct (x_list _)|]; simpl; eauto using gk_trans.
Qed.
Lemma gk_outer : forall fuel m g, gk (g_eid g) m (fst (fst (outer fuel m g))).
Proof.
  induction fuel as [|f IH]; intros m g; cbn [outer]; [apply gk_refl|].
  destruct (terminated m (g_eid g) (g_tc g)) as [[[|]|] m1] eqn:T; pose proof (gk_terminated _ _ _ _ _ T) as F; auto.
  - eapply gk_trans; [exact F|]. apply gk_finish.
  - pose proof (gk_inner (queue (reset_counts_total PASS m1 (g_eid g))) (reset_counts_total PASS m1 (g_eid g)) g 0 false) as FI.
    assert (F2 : gk (g_eid g) m (inner_core (inner (reset_counts_total PASS m1 (g_eid g)) g (queue (reset_counts_total PASS m1 (g_eid g))) 0 false))).
    { eapply gk_trans; [exact F|]. eapply gk_trans; [|exact FI]. apply gk_total. }
    destruct (inner _ _ _ _ _) as [m3 s i c|m3 c|m3 ex|m3]; simpl in F2; auto.
    pose proof (gk_tail m3 g c) as FT. destruct (pass_tail m3 g c) as [m4|m4|m4 ex]; simpl in FT; simpl; eauto using gk_trans.
Qed.
Lemma gk_init_counts : forall m e b r m', init_counts_base m e b = (r, m') -> x_clock (m_ctxs m e) <> None -> gk e m m'.
Proof.
  intros m e b r m' H N ((A & B & C) & K). unfold init_counts_base in H.
  destruct (x_total (m_ctxs m e)) as [t|] eqn:E1; [|congruence]. destruct (x_use (m_ctxs m e)) as [u|] eqn:E2; [|congruence].
  destruct (x_list (m_ctxs m e)) as [l|] eqn:E3; [|congruence]. cbn [copy_entry] in H.
  destruct (x_clock (m_ctxs m e)) as [k|] eqn:E4; [|congruence]. cbn [copy_entry] in H.
  inversion H; subst. simpl. rewrite upd_same. split; [split; [|split]; discriminate|]. unfold clocked, the_clock in *. rewrite E4 in K. exact K.
Qed.
Lemma gk_set_clock : forall m e k h, clock_after ESU h k -> gk e m (set_clock m e k).
Proof. intros m e k h K ((A & B & C) & _). unfold set_clock. simpl. rewrite upd_same. split; [split; auto|exists h; auto]. Qed.
Lemma gk_start_rest : forall m g, gk (g_eid g) m (snd (start_rest m g)).
Proof.
  intros m g G. unfold start_rest. cbv zeta. set (e := g_eid g) in *.
  set (tc := match g_tcarg g with None => m_tconds m | Some a => combine_tconds (m_tconds m) a end).
  set (m2 := set_clock m e (the_clock (m_ctxs m e))).
  assert (G2 : good (m_ctxs m2 e)) by (destruct G as [I (h & K)]; eapply gk_set_clock; [exact K|]; split; [auto|exists h; auto]).
  destruct (setup_absolute m2 e tc) as [m3|] eqn:S; [|exact G2].
  assert (G3 : good (m_ctxs m3 e) /\ x_clock (m_ctxs m3 e) <> None).
  { unfold setup_absolute in S. destruct G2 as [I (h & K)].
    destruct (absolute_conditions m2 tc); [|destruct (unit_of m2 tc); [|discriminate]]; inversion S; subst m3;
      (split; [eapply gk_set_clock; [apply ca_abs; exact K|split; [auto|exists h; auto]]|unfold set_clock; rewrite set_ctx_at; discriminate]). }
  destruct G3 as [G3 N3]. destruct (init_counts_base m3 e (g_base g)) as [[x|] m4] eqn:IC; pose proof (gk_init_counts _ _ _ _ _ IC N3 G3) as G4; simpl snd; auto.
  apply gk_total. apply gk_use. auto.
Qed.
Lemma start_rest_eid : forall m g g1 m1, start_rest m g = (Ok g1, m1) -> g_eid g1 = g_eid g.
Proof.
  intros m g g1 m1 H. unfold start_rest in H. cbv zeta in H.
  match type of H with context [setup_absolute ?a ?b ?c] => destruct (setup_absolute a b c) end; [|discriminate].
  destruct (init_counts_base _ _ _) as [[|] ?]; inversion H; auto.
Qed.
(** default conditions are added, if at all; then only entries and condition state change *)
Theorem resume_split : forall fuel m g m' g' o, resume fuel m g = (m', g', o) ->
  exists mb, (mb = m \/ add_defaults (m_nodes m) m = Ok mb) /\ fixed (g_eid g) mb m' /\ gk (g_eid g) m m'.
Proof.
  intros fuel m g m' g' o H. unfold resume in H. cbv zeta in H.
  assert (C : forall r, match r with
    | IYield m3 s i ch => (m3, at_pc g (PLevel i ch), OYield s)
    | IErr m3 ex => (m3, at_pc g PDone, ORaise ex)
    | IFuel m3 => (m3, g, OFuel)
    | IEnd m3 ch => match pass_tail m3 g ch with
        | TYield m4 => (m4, at_pc g PIdle, OYield [])
        | TErr m4 ex => (m4, at_pc g PDone, ORaise ex)
        | TNext m4 => outer fuel m4 g
        end
    end = (m', g', o) -> fixed (g_eid g) m (inner_core r) -> gk (g_eid g) m (inner_core r) -> fixed (g_eid g) m m' /\ gk (g_eid g) m m').
  { intros [m3 s i ch|m3 ch|m3 ex|m3] E F K; simpl in F, K; try (inversion E; subst; auto; fail).
    pose proof (fixed_tail m3 g ch) as FT. pose proof (gk_tail m3 g ch) as KT. destruct (pass_tail m3 g ch) as [m4|m4|m4 ex]; simpl in FT, KT.
    - inversion E; subst. split; eauto using fixed_trans, gk_trans.
    - pose proof (fixed_outer fuel m4 g) as FO. pose proof (gk_outer fuel m4 g) as KO. rewrite E in FO, KO. simpl in FO, KO. split; eauto using fixed_trans, gk_trans.
    - inversion E; subst. split; eauto using fixed_trans, gk_trans. }
  destruct (g_pc g) as [|i ch| |].
  - rewrite start_eq in H. destruct (toposort (m_graph m)); try (inversion H; subst; exists m'; auto using fixed_refl, gk_refl; fail).
    destruct (add_defaults (m_nodes m) m) as [mb|] eqn:A; [|inversion H; subst; exists m'; auto using fixed_refl, gk_refl].
    exists mb. split; auto. pose proof (proj1 (start_rest_frame mb g)) as FS. pose proof (gk_start_rest mb g) as KS.
    assert (KB : gk (g_eid g) m mb). { destruct (add_defaults_rest _ _ _ A) as (_ & _ & _ & X & _). unfold gk. rewrite X. auto. }
    destruct (start_rest mb g) as [[g1|] m1] eqn:S; simpl in FS, KS.
    + pose proof (fixed_outer fuel m1 g1) as FO. pose proof (gk_outer fuel m1 g1) as KO. rewrite H in FO, KO. simpl in FO, KO. rewrite (start_rest_eid _ _ _ _ S) in FO, KO.
      split; eauto using fixed_trans, gk_trans.
    + inversion H; subst. split; eauto using gk_trans.
  - exists m. split; auto. destruct (incr_clock CSE m (g_eid g)) as [m1|] eqn:I; [|inversion H; subst; auto using fixed_refl, gk_refl].
    apply C in H; auto; [eapply fixed_trans; [eapply fixed_incr; eauto|]; apply fixed_inner|eapply gk_trans; [eapply gk_incr; eauto|]; apply gk_inner].
  - exists m. split; auto. destruct (incr_clock CSE m (g_eid g)) as [m1|] eqn:I; [|inversion H; subst; auto using fixed_refl, gk_refl].
    pose proof (fixed_incr _ _ _ _ I) as F1. pose proof (gk_incr _ _ _ _ I) as K1. destruct (incr_clock PASS m1 (g_eid g)) as [m2|] eqn:I2.
    + pose proof (fixed_outer fuel m2 g) as FO. pose proof (gk_outer fuel m2 g) as KO. rewrite H in FO, KO. simpl in FO, KO.
      split; [eapply fixed_trans; [exact F1|]; eapply fixed_trans; [eapply fixed_incr; eauto|auto]|eapply gk_trans; [exact K1|]; eapply gk_trans; [eapply gk_incr; eauto|auto]].
    + inversion H; subst; auto.
  - inversion H; subst. exists m'. auto using fixed_refl, gk_refl.
Qed.

(** ** schedulers without conditions *)
Record plain (e : eid) (base : graph) (lvs : list (list node)) (exact : bool) (m : core) : Prop := {
  pl_nodes : m_nodes m = gkeys base;
  pl_graph : m_graph m = base;
  pl_levels : m_levels m = lvs;
  pl_exact : m_exact m = exact;
  pl_tc : m_tconds m = default_tc 0 1;
  pl_fresh : fresh_ids m;
  pl_wait : forall n ds, aget n base = Some ds -> aget n (m_basic m) = None \/ waits_for n ds m;
  pl_abs : forall c, In c (map snd (m_basic m)) -> is_absolute c = false;
  pl_good : good (m_ctxs m e)
}.
Lemma waits_done : forall b ds m m', defaults_done m m' -> waits_for b ds m -> waits_for b ds m'.
Proof.
  intros b ds m m' D (c & A & O & H). exists c. split; [apply (dd_kept _ _ D); auto|]. split; [intros o I; apply O in I; pose proof (dd_next _ _ D); lia|].
  intros v u e st U I1 I2. destruct (H v u e st U I1 I2) as (r & E & R). exists r. split; auto. rewrite <- E. unfold is_satisfied. f_equal.
  apply eval_owners. intros o I. apply (dd_owners _ _ D). apply O; auto.
Qed.
Lemma plain_fixed : forall e base lvs ex e' m m', fixed e' m m' -> good (m_ctxs m' e) -> plain e base lvs ex m -> plain e base lvs ex m'.
Proof.
  intros e base lvs ex e' m m' F G []. constructor; auto.
  - rewrite (fx_nodes _ _ _ F); auto.
  - rewrite (fx_graph _ _ _ F); auto.
  - rewrite (fx_levels _ _ _ F); auto.
  - rewrite (fx_exact _ _ _ F); auto.
  - rewrite (fx_tconds _ _ _ F); auto.
  - intros o L. rewrite (fx_owners _ _ _ F). apply pl_fresh0. rewrite <- (fx_next _ _ _ F); auto.
  - intros n ds A. rewrite (fx_basic _ _ _ F). destruct (pl_wait0 n ds A); auto. right. eapply waits_fixed; eauto.
  - rewrite (fx_basic _ _ _ F). auto.
Qed.
Lemma plain_defaults : forall e base lvs ex m mb, plain e base lvs ex m -> add_defaults (m_nodes m) m = Ok mb -> plain e base lvs ex mb.
Proof.
  intros e base lvs ex m mb P A. destruct (DefaultFacts.add_defaults_spec _ _ _ (pl_fresh _ _ _ _ _ P) A) as [D N].
  destruct (RunHist.add_defaults_spec _ _ _ A) as (X & S & T & _).
  constructor.
  - rewrite (sc_nodes _ _ S). apply P.
  - rewrite (sc_graph _ _ S). apply P.
  - rewrite (sc_levels _ _ S). apply P.
  - rewrite (sc_exact _ _ S). apply P.
  - rewrite T. apply P.
  - apply (dd_fresh _ _ D).
  - intros n ds E. destruct (pl_wait _ _ _ _ _ P n ds E) as [Z|W]; [|right; eapply waits_done; eauto].
    right. destruct (N n) as (ds' & E' & DA); auto.
    + rewrite (pl_nodes _ _ _ _ _ P). apply aget_In in E. apply in_map_iff. exists (n, ds); auto.
    + rewrite (pl_graph _ _ _ _ _ P) in E'. rewrite E in E'. inversion E'; subst. apply default_waits; auto.
  - intros c I. destruct (is_absolute c) eqn:Ab; auto. rewrite <- Ab. apply (pl_abs _ _ _ _ _ P). eapply add_defaults_absolute; eauto.
  - rewrite X. apply P.
Qed.
Lemma plain_resume : forall e base lvs ex m fuel g m' g' o, plain e base lvs ex m -> resume fuel m g = (m', g', o) -> plain e base lvs ex m'.
Proof.
  intros e base lvs ex m fuel g m' g' o P R. destruct (resume_split _ _ _ _ _ _ R) as (mb & B & F & K).
  assert (PB : plain e base lvs ex mb) by (destruct B as [->|B]; [auto|eapply plain_defaults; eauto]).
  assert (XB : m_ctxs mb = m_ctxs m) by (destruct B as [->|B]; [auto|destruct (add_defaults_rest _ _ _ B) as (_ & _ & _ & X & _); auto]).
  eapply plain_fixed; eauto. destruct (Nat.eq_dec e (g_eid g)) as [->|N].
  - apply K. apply P.
  - rewrite (fx_other _ _ _ F _ N), XB. apply P.
Qed.
Lemma Forall2_nth : forall A B (R : A -> B -> Prop) l l' i b, Forall2 R l l' -> nth_error l' i = Some b -> exists a, nth_error l i = Some a /\ R a b.
Proof.
  intros A B R l l' i b F. revert i. induction F; intros [|i] E; simpl in *; try discriminate; [inversion E; subst; eauto|eauto].
Qed.
Lemma Forall2_nth' : forall A B (R : A -> B -> Prop) l l' i a, Forall2 R l l' -> nth_error l i = Some a -> exists b, nth_error l' i = Some b /\ R a b.
Proof.
  intros A B R l l' i a F. revert i. induction F; intros [|i] E; simpl in *; try discriminate; [inversion E; subst; eauto|eauto].
Qed.
Lemma Forall2_concat : forall (q q' : list (list node)), Forall2 (@Permutation node) q q' -> Permutation (concat q) (concat q').
Proof. induction 1; simpl; auto. apply Permutation_app; auto. Qed.
(** the sets of a default run: the topological levels, or in exact time mode all nodes at once *)
Definition default_sets (exact : bool) (g : graph) (q : list (list node)) : list (list node) :=
  if exact then match gkeys g with [] => [] | l => [l] end else q.
Theorem default_run_core : forall e base q lvs exact m b skip steps f, plain e base lvs exact m ->
  wf_graph base -> closed_graph base -> loop_free base -> toposort base = TopoOk q -> Forall2 (@Permutation node) q lvs ->
  length (default_sets exact base q) < steps ->
  exists l0 ss m' g', x_list (m_ctxs m e) = Some l0 /\
    drive steps (S f) m (new_gen e b None skip) [] = (m', g', ss, OReturn (l0 ++ ss)) /\
    Forall2 (@Permutation node) ss (default_sets exact base q).
Proof.
  intros e base q lvs exact m b skip steps f P W C [NC NL] TS FP Ls.
  destruct (toposort_partition_ex base q W TS) as (Full & Dist & Cov).
  assert (KG : forall n, in_graph base n <-> In n (gkeys base)).
  { intros n. split; [intros [K|(b' & K)]; [auto|eapply C; eauto]|left; auto]. }
  set (rank := fun n => match aget n (queue_indices q) with Some i => i | None => 0 end).
  assert (Rk : forall a n, edge base a n -> rank a < rank n).
  { intros a n Ed. destruct (index_of_node base q a W TS) as (i & Ei); [right; eauto|].
    destruct (index_of_node base q n W TS) as (j & Ej); [left; eapply edge_key; eauto|].
    unfold rank. rewrite Ei, Ej. eapply senders_earlier; eauto. intros ->. eapply NL; eauto. }
  set (deps := fun n => match aget n base with Some ds => ds | None => [] end).
  assert (Dp : forall n d, In d (deps n) -> edge base d n).
  { intros n d I. unfold deps in I. destruct (aget n base) as [ds|] eqn:A; [exists ds; auto|destruct I]. }
  destruct (pl_good _ _ _ _ _ P) as [(I1 & I2 & I3) (h & K)].
  destruct (x_list (m_ctxs m e)) as [l0|] eqn:XL; [|congruence].
  set (g0 := new_gen e b None skip).
  destruct (acyclic_starts m g0) as (g1 & m1 & St).
  { rewrite (pl_graph _ _ _ _ _ P); auto. }
  { rewrite (pl_graph _ _ _ _ _ P); auto. }
  { rewrite (pl_graph _ _ _ _ _ P), (pl_nodes _ _ _ _ _ P); auto. }
  { split; [auto|split; [auto|]]. unfold g0; simpl. rewrite XL. discriminate. }
  { unfold run_tc; simpl. rewrite (pl_tc _ _ _ _ _ P). apply Bool.not_true_iff_false. rewrite existsb_exists. intros (c & I & A).
    apply in_app_iff in I. destruct I as [I|I]; [rewrite (pl_abs _ _ _ _ _ P c I) in A; discriminate|].
    simpl in I. destruct I as [<-|[<-|[]]]; discriminate. }
  destruct (start_spec _ _ _ _ St) as (S1 & S2 & S3 & S4 & S5 & S6 & S7).
  assert (G : gk e m m1) by (intros GG; rewrite start_eq in St; destruct (toposort (m_graph m)); try discriminate;
      destruct (add_defaults (m_nodes m) m) as [mb|] eqn:A; [|discriminate]; pose proof (gk_start_rest mb g0) as KS; rewrite St in KS; apply KS;
      destruct (add_defaults_rest _ _ _ A) as (_ & _ & _ & X & _); rewrite X; exact GG).
  assert (Ab : g_abs g1 = false).
  { rewrite (start_abs _ _ _ _ St). unfold run_tc; simpl. rewrite (pl_tc _ _ _ _ _ P). apply Bool.not_true_iff_false. rewrite existsb_exists. intros (c & I & A).
    apply in_app_iff in I. destruct I as [I|I]; [rewrite (pl_abs _ _ _ _ _ P c I) in A; discriminate|].
    simpl in I. destruct I as [<-|[<-|[]]]; discriminate. }
  set (queue0 := if exact then [gkeys base] else lvs).
  assert (AL : at_level e deps (gkeys base) queue0 [] l0 m1).
  { constructor.
    - intros n. rewrite (sc_nodes _ _ S1), (pl_nodes _ _ _ _ _ P). tauto.
    - unfold queue, queue0. rewrite (sc_exact _ _ S1), (sc_graph _ _ S1), (sc_levels _ _ S1), (pl_exact _ _ _ _ _ P), (pl_graph _ _ _ _ _ P), (pl_levels _ _ _ _ _ P). auto.
    - intros n Hn. unfold deps. destruct (aget n base) as [ds|] eqn:A; [|apply aget_None in A; exfalso; auto].
      eapply start_waits; [exact St| | |].
      + rewrite (pl_nodes _ _ _ _ _ P). auto.
      + rewrite (pl_graph _ _ _ _ _ P). auto.
      + split; [apply P|apply (pl_wait _ _ _ _ _ P); auto].
    - destruct (st_total _ _ _ S3) as (t & _ & T). pose proof (st_use _ _ _ S3) as U. simpl in T, U. exists (reset_total ESU t), zero_use.
      split; auto. split; auto. split; [intros n; unfold reset_total; cbn; split; [lia|intros []]|intros d bb []].
    - destruct (st_list _ _ _ S3) as (l & L & L'). simpl in L, L'. rewrite L'. destruct L as [L|[L _]]; [congruence|]. exfalso. apply I3. congruence.
    - apply G. apply P. }
  destruct (list_eq_dec Nat.eq_dec (gkeys base) []) as [Z|Z].
  - (* empty graph *)
    assert (Q0 : q = []).
    { destruct q as [|lv q']; auto. exfalso. destruct lv as [|n lv]; [apply Forall_inv in Full; congruence|].
      assert (In n (gkeys base)) as X by (apply KG; apply Cov; exists (n :: lv); split; left; auto). rewrite Z in X. destruct X. }
    destruct (drive_empty e deps (gkeys base) queue0 0 1 f g1 l0 m1 m g0 steps AL Z) as (m' & D & _); auto; [rewrite S7; simpl; apply P|lia|].
    exists l0, [], m', (at_pc g1 PDone). rewrite app_nil_r. split; auto. split; auto. unfold default_sets. rewrite Z, Q0. destruct exact; constructor.
  - assert (DS : default_sets exact base q = if exact then [gkeys base] else q) by (clear - Z; unfold default_sets; destruct (gkeys base); [exfalso; apply Z; auto|auto]).
    assert (PQ : Permutation (concat q) (concat lvs)) by (apply Forall2_concat; auto).
    destruct (drive_start e deps rank (gkeys base) queue0 0 1) with (f := f) (g := g1) (l := l0) (m := m1) (m0 := m) (g0 := g0) (steps := steps) as (ss & m' & D & F2 & _); auto.
    + unfold queue0. destruct exact; [simpl; rewrite app_nil_r; auto|]. eapply Permutation_NoDup; eauto.
    + intros n. unfold queue0. destruct exact; [simpl; rewrite app_nil_r; tauto|]. rewrite <- KG, <- Cov. split.
      * intros I. eapply Permutation_in in I; [|apply Permutation_sym; exact PQ]. apply in_concat in I. auto.
      * intros I. eapply Permutation_in; [exact PQ|]. apply in_concat. auto.
    + intros n d Hn Hd. apply Dp in Hd. split; [eapply C; eauto|]. split; [auto|]. intros a lv bb E I. unfold queue0 in E.
      assert (In d (gkeys base)) as Kd by (eapply C; eauto).
      destruct exact.
      * destruct a as [|x a]; [|destruct a; discriminate]. inversion E; subst. right; auto.
      * left. assert (Nl : nth_error lvs (length a) = Some lv) by (rewrite E, nth_error_app2, Nat.sub_diag; auto).
        destruct (Forall2_nth _ _ _ _ _ _ _ FP Nl) as (lq & Nq & Pq).
        assert (Ej : aget n (queue_indices q) = Some (length a)).
        { apply queue_indices_spec; auto. exists lq. split; auto. eapply Permutation_in; [apply Permutation_sym; exact Pq|auto]. }
        destruct (index_of_node base q d W TS) as (i & Ei); [left; auto|].
        pose proof (Rk d n Hd) as R. unfold rank in R. rewrite Ei, Ej in R.
        apply queue_indices_spec in Ei; auto. destruct Ei as (ld & Nd & Id). destruct (Forall2_nth' _ _ _ _ _ _ _ FP Nd) as (ld' & Nd' & Pd).
        apply in_concat. exists ld'. split; [|eapply Permutation_in; eauto]. rewrite E, nth_error_app1 in Nd' by auto. eapply nth_error_In; eauto.
    + intros lv I. unfold queue0 in I. destruct exact; [destruct I as [<-|[]]; auto|]. apply In_nth_error in I. destruct I as (i & Ni).
      destruct (Forall2_nth _ _ _ _ _ _ _ FP Ni) as (lq & Nq & Pq). intros ->. apply Permutation_sym, Permutation_nil in Pq. subst lq.
      rewrite Forall_forall in Full. apply (Full []); auto. eapply nth_error_In; eauto.
    + rewrite S7. simpl. apply P.
    + rewrite DS in Ls. unfold queue0. destruct exact; [auto|]. replace (length lvs) with (length q) by (clear - FP; induction FP; simpl; auto). auto.
    + exists l0, ss, m', (at_pc g1 PDone). split; auto. split; auto. rewrite DS. unfold queue0 in F2. destruct exact; auto.
      clear - F2 FP. revert ss F2. induction FP; intros ss F2; inversion F2; subst; constructor; auto. eapply Permutation_trans; [eassumption|apply Permutation_sym; auto].
Qed.

(** ** schedulers *)
Record dplain (arr : list (list node) -> list (list node)) (base : graph) (exact : bool) (d : sched) : Prop := {
  dp_stack : d_stack d = [(base, queue_of arr base)];
  dp_order : cs_order (d_cs d) = [];
  dp_last : d_last d = None \/ d_last d = Some [];
  dp_plain : plain (d_default_eid d) base (queue_of arr base) exact (core_of d)
}.
Lemma dplain_sync : forall cyc arr base exact d, dplain arr base exact d ->
  exists d1, sync cyc arr d = (Ok tt, d1) /\ dplain arr base exact d1 /\ core_of d1 = core_of d /\ d_last d1 = Some (cs_order (d_cs d1)) /\ d_default_eid d1 = d_default_eid d.
Proof.
  intros cyc arr base exact d []. unfold sync. rewrite dp_order0. destruct dp_last0 as [L|L]; rewrite L; simpl.
  - rewrite dp_stack0. simpl. eexists. split; [reflexivity|]. unfold set_stack. simpl.
    assert (C : core_of (set_stack d [(base, queue_of arr base)] (Some [])) = core_of d).
    { unfold core_of, set_stack, top_graph, top_queue. simpl. rewrite dp_stack0. auto. }
    split; [constructor; simpl; auto|split; [exact C|split; [simpl; congruence|auto]]]. unfold set_stack in C. rewrite C. auto.
  - exists d. split; auto. split; [constructor; auto|]. split; [auto|split; [congruence|auto]].
Qed.
Lemma dplain_resume : forall cyc arr base exact d fuel g d' g' o, dplain arr base exact d -> sresume cyc arr fuel d g = (d', g', o) ->
  dplain arr base exact d' /\ d_default_eid d' = d_default_eid d.
Proof.
  intros cyc arr base exact d fuel g d' g' o P R. destruct (dplain_sync cyc arr base exact d P) as (d1 & S & P1 & C & L & Ed). unfold sresume in R. rewrite S in R.
  destruct (resume fuel (core_of d1) g) as [[m' g1] o1] eqn:Rs. inversion R; subst; clear R.
  pose proof (core_of_put _ _ _ (grown_resume _ _ _ _ _ _ Rs)) as CP. split; [|exact Ed]. constructor; simpl; try apply P1. rewrite CP. eapply plain_resume; [|exact Rs].
  exact (dp_plain _ _ _ _ P1).
Qed.

Lemma dplain_runs : forall cyc arr base exact d0 d, only_runs cyc arr d0 d -> dplain arr base exact d0 ->
  dplain arr base exact d /\ d_default_eid d = d_default_eid d0.
Proof.
  intros cyc arr base exact d0 d O P. induction O as [|d1 fuel g d2 g' o O IH R|d1 e d2 O IH R]; auto.
  - destruct IH as [P1 E1]. destruct (dplain_resume _ _ _ _ _ _ _ _ _ _ P1 R) as [P2 E2]. split; [auto|congruence].
  - destruct IH as [P1 E1]. unfold send_environment_sequence, bind in R. destruct (end_environment_sequence (core_of d1) e) as [m|] eqn:I; inversion R; subst; clear R.
    split; [|exact E1]. pose proof (fixed_incr _ _ _ _ I) as F. pose proof (core_of_put _ _ _ (grown_fixed _ _ _ F)) as CP.
    constructor; simpl; try apply P1. rewrite CP. eapply plain_fixed; [exact F| |exact (dp_plain _ _ _ _ P1)].
    pose proof (pl_good _ _ _ _ _ (dp_plain _ _ _ _ P1)) as GG. destruct (Nat.eq_dec (d_default_eid d1) e) as [EE|N]; [rewrite EE in *; exact (gk_incr _ _ _ _ I GG)|]. rewrite (fx_other _ _ _ F _ N). auto.
Qed.
Lemma new_plain : forall cyc arr input base deid exact du ow nx w r d0, arg_graph input = Ok base -> (forall o, nx <= o -> ow o = None) ->
  new_sched cyc arr input [] None deid exact du ow nx w = (Ok r, d0) ->
  dplain arr base exact d0 /\ d_default_eid d0 = deid /\ x_list (d_ctxs d0 deid) = Some [].
Proof.
  intros cyc arr input base deid exact du ow nx w r d0 AG FR N. unfold new_sched in N. rewrite AG in N. inversion N; subst; clear N. simpl. split; [|split; [auto|rewrite upd_same; auto]].
  constructor; auto. constructor; simpl; auto.
  - intros c [].
  - rewrite upd_same. split; [split; [discriminate|split; discriminate]|]. exists []. constructor. reflexivity.
Qed.
Lemma default_run_q : forall cyc arr input base deid exact du ow nx w r d0 d q b skip steps fuel,
  (forall q, Forall2 (@Permutation node) q (arr q)) -> arg_graph input = Ok base -> wf_graph base -> closed_graph base -> loop_free base ->
  toposort base = TopoOk q -> (forall o, nx <= o -> ow o = None) ->
  new_sched cyc arr input [] None deid exact du ow nx w = (Ok r, d0) -> only_runs cyc arr d0 d ->
  length (default_sets exact base q) < steps -> 0 < fuel ->
  exists l0 ss d' g', x_list (d_ctxs d deid) = Some l0 /\
    sdrive cyc arr steps fuel d (new_gen deid b None skip) [] = (d', g', ss, OReturn (l0 ++ ss)) /\
    Forall2 (@Permutation node) ss (default_sets exact base q).
Proof.
  intros cyc arr input base deid exact du ow nx w r d0 d q b skip steps fuel AR AG W C LF TS FR N O Ls Lf.
  destruct (new_plain _ _ _ _ _ _ _ _ _ _ _ _ AG FR N) as (P0 & E0 & _). destruct (dplain_runs _ _ _ _ _ _ O P0) as (P & E).
  destruct fuel as [|f]; [lia|]. destruct (dplain_sync cyc arr base exact d P) as (d1 & S1 & P1 & CC & L1 & Ed).
  assert (QQ : Forall2 (@Permutation node) q (queue_of arr base)) by (unfold queue_of; rewrite TS; auto).
  pose proof (dp_plain _ _ _ _ P1) as PL. rewrite Ed, E, E0 in PL.
  destruct (default_run_core deid base q (queue_of arr base) exact (core_of d1) b skip steps f PL W C LF TS QQ Ls) as (l0 & ss & m' & g' & XL & D & F2).
  pose proof (sdrive_bridge cyc arr (S f) steps d1 (new_gen deid b None skip) [] L1) as B. rewrite D in B. destruct B as (d' & B & _).
  exists l0, ss, d', g'. split; [|split; auto].
  - rewrite CC in XL. exact XL.
  - rewrite <- B. destruct steps as [|k]; [lia|]. cbn [sdrive]. unfold sresume. rewrite S1, (sync_synced _ _ _ L1). auto.
Qed.

Lemma length_concat : forall (q : list (list node)), Forall (fun l => l <> []) q -> length q <= length (concat q).
Proof. induction 1 as [|l q H F IH]; simpl; [lia|]. rewrite app_length. destruct l; [congruence|simpl; lia]. Qed.
Lemma default_sets_round : forall exact g q ss, wf_graph g -> closed_graph g -> toposort g = TopoOk q ->
  Forall2 (@Permutation node) ss (default_sets exact g q) -> one_round exact g ss /\ length (default_sets exact g q) <= length g.
Proof.
  intros exact g q ss W C TS F. unfold one_round, default_sets in *. destruct (toposort_partition_ex g q W TS) as (Full & Dist & Cov).
  assert (KG : forall n, in_graph g n <-> In n (gkeys g)) by (intros n; split; [intros [K|(b' & K)]; [auto|eapply C; eauto]|left; auto]).
  destruct exact.
  - unfold are_all_nodes. destruct (gkeys g) as [|k ks] eqn:GK.
    + inversion F; subst. split; [auto|simpl; lia].
    + inversion F as [|s s' x y P F2]; subst. inversion F2; subst. split.
      * exists s. split; auto. split; [eapply Permutation_NoDup; [apply Permutation_sym; eauto|rewrite <- GK; auto]|].
        intros n. rewrite KG. split; intros X; [eapply Permutation_in; eauto|eapply Permutation_in; [apply Permutation_sym; eauto|auto]].
      * simpl. destruct g; [discriminate|simpl; lia].
  - split.
    + split.
      * intros i s N. destruct (Forall2_nth' _ _ _ _ _ _ _ F N) as (lv & Nq & P). rewrite Forall_forall in Full. pose proof (Full _ (nth_error_In _ _ Nq)) as NE.
        split; [intros ->; apply Permutation_nil in P; auto|]. split.
        { eapply Permutation_NoDup; [apply Permutation_sym; eauto|]. apply nth_error_split in Nq. destruct Nq as (q1 & q2 & -> & _).
          rewrite concat_app in Dist. simpl in Dist. apply NoDup_app_inv in Dist. destruct Dist as (_ & D & _). apply NoDup_app_inv in D. tauto. }
        intros n. unfold level_of. rewrite <- (queue_index_longest g q n i W TS). rewrite (queue_indices_spec q n i Dist). split.
        { intros I. exists lv. split; auto. eapply Permutation_in; eauto. }
        { intros (lv' & N' & I). rewrite Nq in N'. inversion N'; subst. eapply Permutation_in; [apply Permutation_sym; eauto|auto]. }
      * intros n i L. apply (queue_index_longest g q n i W TS) in L. apply (queue_indices_spec q n i Dist) in L. destruct L as (lv & N & _).
        replace (length ss) with (length q) by (clear - F; induction F; simpl; auto). apply nth_error_Some. congruence.
    + eapply Nat.le_trans; [apply length_concat; auto|]. replace (length g) with (length (gkeys g)) by apply map_length. apply NoDup_incl_length; auto.
      intros n I. apply KG, Cov. apply in_concat in I. auto.
Qed.
Theorem default_run : forall cyc arr input base deid exact du ow nx w r d0 d b skip steps fuel,
  (forall q, Forall2 (@Permutation node) q (arr q)) -> arg_graph input = Ok base -> wf_graph base -> closed_graph base -> loop_free base ->
  (forall o, nx <= o -> ow o = None) ->
  new_sched cyc arr input [] None deid exact du ow nx w = (Ok r, d0) -> only_runs cyc arr d0 d ->
  length base < steps -> 0 < fuel ->
  exists l0 ys d' g', x_list (d_ctxs d deid) = Some l0 /\
    sdrive cyc arr steps fuel d (new_gen deid b None skip) [] = (d', g', ys, OReturn (l0 ++ ys)) /\
    one_round exact base ys.
Proof.
  intros cyc arr input base deid exact du ow nx w r d0 d b skip steps fuel AR AG W C LF FR N O Ls Lf.
  destruct (proj2 (toposort_ok_iff base W) (proj1 LF)) as (q & TS).
  assert (FR' : Forall2 (@Permutation node) (default_sets exact base q) (default_sets exact base q)) by (clear; induction (default_sets exact base q); auto).
  pose proof (proj2 (default_sets_round exact base q _ W C TS FR')) as LL.
  destruct (default_run_q cyc arr input base deid exact du ow nx w r d0 d q b skip steps fuel AR AG W C LF TS FR N O) as (l0 & ss & d' & g' & X & D & F); auto; [lia|].
  exists l0, ss, d', g'. split; auto. split; auto. eapply default_sets_round; eauto.
Qed.
