(** Proofs about the arguments of condition functions. *)
From Verif Require Import SpecKwargs SpecPrune PruneFacts BaseFacts.
From Coq Require Import Qround.
Open Scope nat_scope.

Lemma kcond_ind' : forall P : kcond -> Prop,
  (forall o a, P (KAtom o a)) -> (forall o neg sig args kw f, P (KFun o neg sig args kw f)) ->
  (forall o cs, Forall P cs -> P (KAll o cs)) -> (forall o cs, Forall P cs -> P (KAny o cs)) ->
  (forall o c, P c -> P (KNot o c)) -> (forall o c n, P c -> P (KNWhen o c n)) -> forall c, P c.
Proof.
  intros P HA HF HAl HAn HN HW. fix IH 1. intros [o a|o neg sig args kw f|o cs|o cs|o c|o c n].
  - apply HA.
  - apply HF.
  - apply HAl. induction cs as [|x r R]; constructor; [apply IH|exact R].
  - apply HAn. induction cs as [|x r R]; constructor; [apply IH|exact R].
  - apply HN, IH.
  - apply HW, IH.
Qed.

(** ** dictionaries *)
Lemma ahas_cons : forall {V} k k' (v : V) d, ahas k ((k', v) :: d) = (Nat.eqb k k' || ahas k d)%bool.
Proof. intros V k k' v d. unfold ahas. simpl. destruct (Nat.eqb k k'); auto. Qed.
Lemma ahas_in : forall {V} k (d : amap V), ahas k d = true <-> In k (akeys d).
Proof.
  intros V k d. induction d as [|[k' v] r IH]; [simpl; split; [discriminate|tauto]|]. rewrite ahas_cons, Bool.orb_true_iff, IH, Nat.eqb_eq.
  simpl. split; intros [H|H]; auto.
Qed.
Lemma ahas_no : forall {V} k (d : amap V), ahas k d = false <-> ~ In k (akeys d).
Proof. intros V k d. rewrite <- ahas_in. destruct (ahas k d); split; intros; congruence. Qed.
Lemma aset_new : forall {V} k (v : V) d, ahas k d = false -> aset k v d = d ++ [(k, v)].
Proof. induction d as [|[k' v'] r IH]; intros H; auto. rewrite ahas_cons in H. apply Bool.orb_false_iff in H. destruct H as [A B]. simpl. rewrite A, IH; auto. Qed.
Lemma aupdate_new : forall {V} (e d : kwdict V), NoDup (akeys e) -> (forall k, ahas k e = true -> ahas k d = false) -> aupdate d e = d ++ e.
Proof.
  induction e as [|[k v] e IH]; intros d N H; simpl; [rewrite app_nil_r; auto|]. inversion N as [|? ? N1 N2]; subst.
  assert (Hk : ahas k d = false) by (apply H; rewrite ahas_cons, Nat.eqb_refl; auto). rewrite aset_new by auto. rewrite IH; auto.
  - rewrite <- app_assoc. auto.
  - intros k' G. apply ahas_no. unfold akeys. rewrite map_app, in_app_iff. intros [X|[X|[]]].
    + assert (ahas k' d = false) by (apply H; rewrite ahas_cons, G, Bool.orb_true_r; auto). apply ahas_no in H0. auto.
    + simpl in X. subst. apply ahas_in in G. auto.
Qed.
Lemma aupdate_nil : forall {V} (e : kwdict V), NoDup (akeys e) -> aupdate [] e = e.
Proof. intros V e N. rewrite aupdate_new; auto. Qed.
Lemma adel_no : forall {V} k (d : amap V), ahas k d = false -> adel k d = d.
Proof. induction d as [|[k' v] r IH]; intros H; auto. rewrite ahas_cons in H. apply Bool.orb_false_iff in H. destruct H as [A B]. simpl. rewrite A, IH; auto. Qed.
Lemma filter_out : forall {V} (names : list nat) (d : kwdict V), (forall k, ahas k d = true -> mem k names = false) ->
  filter (fun p => mem (fst p) names) d = [].
Proof.
  induction d as [|[k v] r IH]; intros H; auto. simpl. rewrite (H k) by (rewrite ahas_cons, Nat.eqb_refl; auto). apply IH.
  intros k' G. apply H. rewrite ahas_cons, G, Bool.orb_true_r; auto.
Qed.
Lemma filter_aset : forall {V} (names : list nat) (d : kwdict V) k v, mem k names = false ->
  filter (fun p => mem (fst p) names) (aset k v d) = filter (fun p => mem (fst p) names) d.
Proof.
  induction d as [|[k' v'] r IH]; intros k v H; simpl; [rewrite H; auto|]. destruct (Nat.eqb_spec k k') as [E|E]; simpl.
  - subst. rewrite H. auto.
  - rewrite IH by auto. auto.
Qed.
Lemma filter_aupdate : forall {V} (names : list nat) (e d : kwdict V), (forall k, ahas k e = true -> mem k names = false) ->
  filter (fun p => mem (fst p) names) (aupdate d e) = filter (fun p => mem (fst p) names) d.
Proof.
  induction e as [|[k v] e IH]; intros d H; simpl; auto. rewrite IH.
  - apply filter_aset. apply H. rewrite ahas_cons, Nat.eqb_refl. auto.
  - intros k' G. apply H. rewrite ahas_cons, G, Bool.orb_true_r. auto.
Qed.
Lemma ahas_aset : forall {V} k k' (v : V) d, ahas k (aset k' v d) = (Nat.eqb k k' || ahas k d)%bool.
Proof. intros V k k' v d. unfold ahas. rewrite aget_aset. destruct (Nat.eqb k k'); auto. Qed.
Lemma ahas_aupdate : forall {V} k (e d : kwdict V), ahas k (aupdate d e) = (ahas k d || ahas k e)%bool.
Proof.
  induction e as [|[k' v] e IH]; intros d; simpl; [rewrite Bool.orb_false_r; auto|]. rewrite IH, ahas_aset, ahas_cons.
  destruct (Nat.eqb k k'), (ahas k d), (ahas k e); auto.
Qed.

(** ** built-in conditions *)
(** keywords that the function does not name make no difference *)
Lemma call_unnamed : forall sig args kw0 ee kw extras, has_var_kw sig = false ->
  (forall k, ahas k extras = true -> mem k (kwargs_names sig) = false) -> ahas kw_execution_id extras = false ->
  condition_call kw_execution_id sig args kw0 [] ee (kw ++ extras) = condition_call (V := pyval) kw_execution_id sig args kw0 [] ee kw.
Proof.
  intros sig args kw0 ee kw extras V H X. unfold condition_call. cbv zeta.
  assert (A : forall (a b d : kwdict pyval), aupdate d (a ++ b) = aupdate (aupdate d a) b) by (induction a as [|[k v] a IH]; intros; simpl; auto).
  rewrite A, ahas_aupdate, X, Bool.orb_false_r. destruct (ahas kw_execution_id (aupdate kw0 kw)); auto.
  unfold call_with_pruned_args, prune_unused_args. rewrite V. cbn [fst snd filter].
  assert (F : filter (fun p => mem (fst p) (kwargs_names sig)) (aupdate (aupdate kw0 kw) extras) = filter (fun p => mem (fst p) (kwargs_names sig)) (aupdate kw0 kw))
    by (apply filter_aupdate; auto). rewrite F. auto.
Qed.
Lemma as_nodes_map : forall ds, as_nodes (map YNode ds) = Some ds.
Proof. induction ds as [|d r IH]; simpl; auto. rewrite IH. auto. Qed.
Lemma as_bound_nat : forall n, as_bound (y_nat n) = Some n.
Proof. intros n. unfold as_bound, as_num, y_nat. rewrite Qceiling_Z, Nat2Z.id. auto. Qed.
Lemma index_values_map : forall l x, index_values x (map YInt l) = index_value x l.
Proof.
  induction l as [|i r IH]; intros x; simpl; auto. destruct x as [q|s]; auto. destruct (item s i); simpl; auto.
Qed.
Arguments as_bound : simpl never. Arguments y_nat : simpl never.
Lemma takes_ge : forall c q, has_var_kw (func_sig (ATime c q 0 LIFE)) = false.
Proof. intros c q. simpl. destruct (takes_scale c q); auto. Qed.
Lemma atom_no_var_kw : forall a, has_var_kw (func_sig a) = false.
Proof. destruct a; simpl; auto. destruct (takes_scale c q); auto. Qed.
(* *dependencies, then keyword-only parameters *)
Lemma star_call : forall kwos l kw, Forall (fun p => p_kind p = KwOnly /\ p_default p = true) kwos ->
  existsb (fun p => negb (mem (fst p) (map p_name kwos))) kw = false ->
  py_call (V := pyval) (star kw_dependencies :: kwos) l kw = Some (mkBound (map (fun p => (p_name p, aget (p_name p) kw)) kwos) l []).
Proof.
  intros kwos l kw F E. unfold py_call.
  assert (N : n_positional (star kw_dependencies :: kwos) = 0).
  { unfold n_positional. simpl. clear -F. induction F as [|p r [K _] F IH]; auto. simpl. unfold positional. rewrite K. auto. }
  assert (Kn : kwargs_names (star kw_dependencies :: kwos) = map p_name kwos).
  { unfold kwargs_names. simpl. clear -F. induction F as [|p r [K _] F IH]; auto. simpl. unfold named at 1. rewrite K. simpl. f_equal; auto. }
  rewrite N, Kn. replace (has_var_pos (star kw_dependencies :: kwos)) with true by auto. rewrite Bool.andb_false_r, E, Bool.andb_false_r.
  cbn [bind_params]. replace (p_kind (star kw_dependencies)) with VarPos by auto. cbn [skipn].
  pose proof (bind_kwo kwos [] [] kw F (or_introl eq_refl)) as B. rewrite app_nil_r in B. rewrite B. f_equal. f_equal.
  clear -E. induction kw as [|p r IH]; auto. simpl in *. apply Bool.orb_false_iff in E. destruct E as [A B]. rewrite A. auto.
Qed.
Lemma atom_call : forall a e, exists b,
  condition_call kw_execution_id (func_sig a) (func_args a) (func_kwargs a) [] (YEid e) [(kw_scheduler, YSched)] = Some b /\
  forall v own w, func_body a b v e own w = eval_atom v e own a w.
Proof.
  intros a e.
  assert (St : forall ds, exists b, condition_call kw_execution_id ([star kw_dependencies] ++ se_kwo) (map YNode ds) [] [] (YEid e) [(kw_scheduler, YSched)] = Some b /\ b_args b = map YNode ds).
  { intros ds. unfold condition_call. cbn [aupdate aset ahas aget Nat.eqb]. rewrite app_nil_r. cbv zeta. change (ahas kw_execution_id [(kw_scheduler, YSched)]) with false. cbv iota.
    unfold call_with_pruned_args, prune_unused_args. cbn [fst snd app]. change (has_var_pos (star kw_dependencies :: se_kwo)) with true. cbv iota.
    rewrite star_call; [eexists; split; [reflexivity|reflexivity]| |reflexivity]. repeat constructor. }
  destruct a; try (eexists; split; [reflexivity|]; intros; reflexivity);
    try (eexists; split; [reflexivity|]; intros; cbn [func_body value b_values aget Nat.eqb]; unfold value; simpl; rewrite ?as_bound_nat, ?Qceiling_Z, ?Nat2Z.id; reflexivity).
  - (* ATime *)
    unfold func_body. simpl func_sig. simpl func_args. destruct (takes_scale c q) eqn:T.
    all: eexists; split; [reflexivity|]; intros; unfold value; simpl.
    all: rewrite Qceiling_Z, Nat2Z.id; reflexivity.
  - (* ACallsCombined *)
    eexists. split.
    + unfold condition_call. cbn [func_kwargs func_args func_sig aupdate aset Nat.eqb]. rewrite app_nil_r. cbv zeta. change (ahas kw_execution_id _) with false. cbv iota.
      unfold call_with_pruned_args, prune_unused_args. cbn [fst snd app]. change (has_var_pos (star kw_dependencies :: kwo kw_n :: se_kwo)) with true. cbv iota.
      rewrite star_call; [reflexivity| |reflexivity]. repeat constructor.
    + intros. cbn [func_body b_args]. rewrite as_nodes_map. unfold value. simpl. destruct n as [n|]; auto. simpl. unfold as_bound. simpl. rewrite Qceiling_Z, Nat2Z.id. auto.
  - (* AAllHaveRun *) destruct (St ds) as (b & Hb & Hd). exists b. split; [exact Hb|]. intros. cbn [func_body]. rewrite Hd, as_nodes_map. auto.
  - destruct (St ds) as (b & Hb & Hd). exists b. split; [exact Hb|]. intros. cbn [func_body]. rewrite Hd, as_nodes_map. auto.
  - destruct (St ds) as (b & Hb & Hd). exists b. split; [exact Hb|]. intros. cbn [func_body]. rewrite Hd, as_nodes_map. auto.
  - (* AThreshold *)
    eexists. split; [reflexivity|]. intros. cbn [func_body eval_atom]. destruct (w_param w d par) as [x|]; auto. f_equal.
    unfold threshold_func, threshold_of, value. cbn [b_values aget Nat.eqb].
    simpl. destruct indices as [l|]; simpl; [rewrite index_values_map; destruct (index_value x l) as [y|]; simpl; auto|destruct x as [y|y]; auto; destruct c; auto].
    destruct y as [y|y]; auto. destruct c; auto.
Qed.

Lemma names_table : forall a k, In k (kwargs_names (func_sig a)) ->
  In k (by_position a) \/ In k (by_keyword a) \/ k = kw_execution_id \/ k = kw_scheduler.
Proof.
  intros a k H. destruct a; simpl in H; try (simpl; intuition; fail).
  destruct c, q; simpl in *; intuition.
Qed.
(** ** composite conditions *)
Section Passing.
Variables (e : eid) (kwargs : kwdict pyval).
Hypothesis RK : run_keywords kwargs.
Let kw : kwdict pyval := (kw_scheduler, YSched) :: kwargs.
Lemma passed_nodup : NoDup (akeys kw).
Proof. destruct RK as (N & _ & S). constructor; auto. apply ahas_no. auto. Qed.
Lemma passed_xid : ahas kw_execution_id kw = false.
Proof. destruct RK as (_ & X & _). unfold kw. rewrite ahas_cons, X. auto. Qed.
Lemma passed_update : aupdate [(kw_scheduler, YSched)] kwargs = kw.
Proof.
  destruct RK as (N & _ & S). rewrite aupdate_new; auto. intros k H. rewrite ahas_cons. destruct (Nat.eqb_spec k kw_scheduler) as [E|E]; auto. subst. congruence.
Qed.
Lemma passed_eid : as_eid (aget kw_execution_id ((kw_execution_id, YEid e) :: kw)) = e.
Proof. reflexivity. Qed.
Lemma passed_rest : adel kw_execution_id ((kw_execution_id, YEid e) :: kw) = kw.
Proof. reflexivity. Qed.
Lemma open_kwargs : forall (names : list nat) (d : kwdict pyval), (forall k, ahas k d = true -> mem k names = false) ->
  filter (fun p => negb (mem (fst p) names)) d = d.
Proof.
  induction d as [|[k v] r IH]; intros H; auto. simpl. rewrite (H k) by (rewrite ahas_cons, Nat.eqb_refl; auto). simpl. f_equal. apply IH.
  intros k' G. apply H. rewrite ahas_cons, G, Bool.orb_true_r. auto.
Qed.
Lemma satis_call : forall a b args, condition_call kw_execution_id [star a; star2 b] args [] [] (YEid e) kw = Some (mkBound [] args ((kw_execution_id, YEid e) :: kw)).
Proof.
  intros a b args. unfold condition_call. rewrite aupdate_nil, passed_xid by apply passed_nodup. cbv zeta iota. rewrite app_nil_r.
  unfold call_with_pruned_args, prune_unused_args, py_call. cbn [fst snd]. change (has_var_pos [star a; star2 b]) with true. change (has_var_kw [star a; star2 b]) with true.
  cbv iota. rewrite Bool.andb_false_r. cbn [negb andb]. change (bind_params [star a; star2 b] args ((kw_execution_id, YEid e) :: kw)) with (Some (@nil (nat * option pyval))).
  cbv iota. change (n_positional [star a; star2 b]) with 0. cbn [skipn]. rewrite open_kwargs; auto.
Qed.
Lemma not_call : ahas kw_condition kwargs = false ->
  condition_call kw_execution_id not_sig [YCond] [] [] (YEid e) kw = Some (mkBound [(kw_condition, Some YCond)] [] ((kw_execution_id, YEid e) :: kw)).
Proof.
  intros H. unfold condition_call. rewrite aupdate_nil, passed_xid by apply passed_nodup. cbv zeta iota.
  unfold call_with_pruned_args, prune_unused_args, py_call. cbn [fst snd app]. change (has_var_pos not_sig) with true. change (has_var_kw not_sig) with true.
  cbv iota. rewrite Bool.andb_false_r. cbn [negb andb]. unfold not_sig at 1. cbn [bind_params p_kind req star star2 positional named p_name].
  assert (Hc : ahas kw_condition ((kw_execution_id, YEid e) :: kw) = false) by (unfold kw; rewrite !ahas_cons, H; auto).
  cbn [andb]. rewrite Hc. cbn [bind_params]. change (n_positional not_sig) with 1. cbn [skipn]. rewrite open_kwargs; auto.
  intros k Hk. change (kwargs_names not_sig) with [kw_condition]. simpl. destruct (Nat.eqb_spec k kw_condition) as [E|E]; auto. subst. rewrite Hk in Hc. discriminate.
Qed.
Lemma nwhen_call : forall n, ahas kw_condition kwargs = false -> ahas kw_n kwargs = false ->
  condition_call kw_execution_id nwhen_sig [YCond; n] [] [] (YEid e) kw =
    Some (mkBound [(kw_condition, Some YCond); (kw_n, Some n); (kw_scheduler, Some YSched); (kw_execution_id, Some (YEid e))] [] kwargs) /\
  call_with_pruned_args is_satisfied_sig [] ((kw_scheduler, YSched) :: (kw_execution_id, YEid e) :: kwargs) =
    Some (mkBound [(kw_execution_id, Some (YEid e))] [] kw).
Proof.
  intros n Hc Hn. destruct RK as (N & X & S). split.
  - unfold condition_call. rewrite aupdate_nil, passed_xid by apply passed_nodup. cbv zeta iota.
    unfold call_with_pruned_args, prune_unused_args, py_call. cbn [fst snd app]. change (has_var_pos nwhen_sig) with true. change (has_var_kw nwhen_sig) with true.
    cbv iota. rewrite Bool.andb_false_r. cbn [negb andb]. unfold nwhen_sig at 1. cbn [bind_params p_kind req kwo star star2 positional named p_name].
    assert (Hc' : ahas kw_condition ((kw_execution_id, YEid e) :: kw) = false) by (unfold kw; rewrite !ahas_cons, Hc; auto).
    assert (Hn' : ahas kw_n ((kw_execution_id, YEid e) :: kw) = false) by (unfold kw; rewrite !ahas_cons, Hn; auto).
    cbn [andb]. rewrite Hc', Hn'. cbn [bind_params]. unfold kw. cbn [aget Nat.eqb kw_scheduler kw_execution_id]. change (n_positional nwhen_sig) with 2. cbn [skipn].
    cbn [filter fst]. change (mem kw_execution_id (kwargs_names nwhen_sig)) with true. change (mem kw_scheduler (kwargs_names nwhen_sig)) with true. cbn [negb].
    rewrite open_kwargs; auto. intros k Hk. change (kwargs_names nwhen_sig) with [kw_condition; kw_n; kw_scheduler; kw_execution_id]. simpl.
    assert (D : forall k', ahas k' kwargs = false -> Nat.eqb k k' = false) by (intros k' H; destruct (Nat.eqb_spec k k') as [E|E]; auto; subst; congruence).
    rewrite !D; auto.
  - unfold call_with_pruned_args, prune_unused_args, py_call. cbn [fst snd app]. change (has_var_pos is_satisfied_sig) with true. change (has_var_kw is_satisfied_sig) with true.
    cbv iota. rewrite Bool.andb_false_r. cbn [negb andb]. change (bind_params is_satisfied_sig [] ((kw_scheduler, YSched) :: (kw_execution_id, YEid e) :: kwargs)) with (Some [(kw_execution_id, Some (YEid e))]).
    cbv iota. change (n_positional is_satisfied_sig) with 0. cbn [skipn filter fst]. change (mem kw_scheduler (kwargs_names is_satisfied_sig)) with false.
    change (mem kw_execution_id (kwargs_names is_satisfied_sig)) with true. cbn [negb]. rewrite open_kwargs; auto.
    intros k Hk. change (kwargs_names is_satisfied_sig) with [kw_execution_id]. simpl. destruct (Nat.eqb_spec k kw_execution_id) as [E|E]; auto. subst. congruence.
Qed.
Lemma while_not_call : forall sig args kw0,
  match condition_call kw_execution_id while_not_sig args kw0 [] (YEid e) kw with
  | None => None
  | Some b => call_with_pruned_args sig (b_args b) (b_kwargs b)
  end = condition_call kw_execution_id sig args kw0 [] (YEid e) kw.
Proof.
  intros sig args kw0. unfold condition_call. cbv zeta. rewrite app_nil_r. destruct (ahas kw_execution_id (aupdate kw0 kw)); auto.
  set (d := (kw_execution_id, YEid e) :: aupdate kw0 kw).
  assert (C : call_with_pruned_args while_not_sig args d = Some (mkBound [] args d)).
  { unfold call_with_pruned_args, prune_unused_args, py_call. cbn [fst snd]. change (has_var_pos while_not_sig) with true. change (has_var_kw while_not_sig) with true.
    cbv iota. rewrite Bool.andb_false_r. cbn [negb andb]. change (bind_params while_not_sig args d) with (Some (@nil (nat * option pyval))). cbv iota.
    change (n_positional while_not_sig) with 0. cbn [skipn]. rewrite open_kwargs; auto. }
  rewrite C. auto.
Qed.
Theorem received : forall v owners c st, (forall k, ahas k kwargs = true -> ~ mentions c k) ->
  run_eval v owners kwargs c e st = eval v e owners (plain kwargs c) st.
Proof.
  intros v owners c. unfold run_eval. rewrite passed_update. induction c as [o a|o neg sig args kw0 f|o cs IH|o cs IH|o c IH|o c n IH] using kcond_ind'; intros st M.
  - cbn [keval plain eval]. destruct (atom_call a e) as (b & Hb & Hf).
    assert (C : condition_call kw_execution_id (func_sig a) (func_args a) (func_kwargs a) [] (YEid e) kw = Some b).
    { change kw with ([(kw_scheduler, YSched)] ++ kwargs). rewrite call_unnamed; auto; [apply atom_no_var_kw| |apply (proj1 (proj2 RK))].
      intros k Hk. destruct (mem k (kwargs_names (func_sig a))) eqn:E; auto. exfalso. apply mem_iff in E. apply names_table in E.
      destruct E as [E|[E|[E|E]]]; [apply (M k Hk); apply M_position; auto|apply (M k Hk); apply M_keyword; auto| |];
      subst k; destruct RK as (_ & X1 & X2); congruence. }
    rewrite C, Hf. auto.
  - cbn [keval plain eval eval_atom]. cbv zeta.
    assert (B : (if neg then match condition_call kw_execution_id while_not_sig args kw0 [] (YEid e) kw with Some b => call_with_pruned_args sig (b_args b) (b_kwargs b) | None => None end
       else condition_call kw_execution_id sig args kw0 [] (YEid e) kw) = condition_call kw_execution_id sig args kw0 [] (YEid e) kw).
    { destruct neg; auto. apply while_not_call. }
    rewrite B. unfold kw. destruct (condition_call kw_execution_id sig args kw0 [] (YEid e) ((kw_scheduler, YSched) :: kwargs)) as [b|].
    + unfold negate. destruct (f b v e (owners o) (s_world st)) as [[x|ex] w']; auto.
    + destruct st; auto.
  - cbn [keval plain eval]. unfold satis_sig. rewrite satis_call. cbn [b_kwargs]. cbv zeta. rewrite passed_eid, passed_rest.
    assert (M' : forall c, In c cs -> forall k, ahas k kwargs = true -> ~ mentions c k) by (intros c I k Hk X; apply (M k Hk); econstructor; eauto).
    clear M. revert st. induction IH as [|c r Hc Hr IHr]; intros st; auto. cbn [map]. rewrite Hc by (apply M'; simpl; auto).
    destruct (eval v e owners (plain kwargs c) st) as [[[]|ex] st']; auto. apply IHr. intros c' I. apply M'. simpl; auto.
  - cbn [keval plain eval]. unfold satis_sig. rewrite satis_call. cbn [b_kwargs]. cbv zeta. rewrite passed_eid, passed_rest.
    assert (M' : forall c, In c cs -> forall k, ahas k kwargs = true -> ~ mentions c k) by (intros c I k Hk X; apply (M k Hk); econstructor; eauto).
    clear M. revert st. induction IH as [|c r Hc Hr IHr]; intros st; auto. cbn [map]. rewrite Hc by (apply M'; simpl; auto).
    destruct (eval v e owners (plain kwargs c) st) as [[[]|ex] st']; auto. apply IHr. intros c' I. apply M'. simpl; auto.
  - cbn [keval plain eval]. rewrite not_call.
    2: { destruct (ahas kw_condition kwargs) eqn:E; auto. exfalso. apply (M _ E). constructor. }
    cbn [b_kwargs]. rewrite passed_eid, passed_rest.
    rewrite IH; auto. intros k Hk X. apply (M k Hk). constructor; auto.
  - cbn [keval plain eval]. destruct (nwhen_call (y_nat n)) as [C1 C2].
    { destruct (ahas kw_condition kwargs) eqn:E; auto. exfalso. apply (M _ E). constructor. }
    { destruct (ahas kw_n kwargs) eqn:E; auto. exfalso. apply (M _ E). constructor. }
    rewrite C1. unfold value. cbn [b_values b_args b_kwargs aget Nat.eqb kw_condition kw_n kw_scheduler kw_execution_id as_eid]. cbv zeta. rewrite as_bound_nat.
    change (2 =? 6) with false. cbn [Nat.eqb]. 
    destruct (s_sats st o e <? n); auto. fold kw_scheduler kw_execution_id. rewrite C2. cbn [b_values b_kwargs aget Nat.eqb kw_execution_id as_eid]. rewrite IH; auto.
    intros k Hk X. apply (M k Hk). constructor; auto.
Qed.
End Passing.

(** ** names of parameters among the keywords *)
Lemma call_none : forall sig req opt va kwo vk args kw0 ee kw i p, ordinary sig req opt va kwo vk ->
  nth_error (reached req opt va) i = Some p -> i < length args -> ahas (p_name p) kw = true ->
  condition_call (V := pyval) kw_execution_id sig args kw0 [] ee kw = None.
Proof.
  intros sig rq op va ko vk args kw0 ee kw i p Od Hp Hi Hk. unfold condition_call. cbv zeta. rewrite app_nil_r.
  destruct (ahas kw_execution_id (aupdate kw0 kw)); auto. apply (call_received sig rq op va ko vk args _ Od). right. exists i, p.
  split; [auto|]. split; [auto|]. rewrite ahas_cons, ahas_aupdate, Hk, !Bool.orb_true_r. auto.
Qed.
Ltac ordinary_sig := constructor; [reflexivity|repeat constructor|repeat constructor|try (left; reflexivity); try (right; eexists; split; reflexivity)|repeat constructor|try (left; reflexivity); try (right; eexists; split; reflexivity)|simpl; repeat constructor; simpl; intuition discriminate].
Lemma atom_clash : forall v owners kwargs o a e st k, In k (by_position a) -> ahas k kwargs = true ->
  run_eval v owners kwargs (KAtom o a) e st = (Err EType, st).
Proof.
  intros v owners kwargs o a e st k Hp Ha. unfold run_eval. cbn [keval].
  assert (C : condition_call kw_execution_id (func_sig a) (func_args a) (func_kwargs a) [] (YEid e) (aupdate [(kw_scheduler, YSched)] kwargs) = None).
  { assert (Ha' : ahas k (aupdate [(kw_scheduler, YSched)] kwargs) = true) by (rewrite ahas_aupdate, Ha, Bool.orb_true_r; auto).
    assert (One : forall k0 sig op args kw0, ordinary sig [req k0] op [] [] [] -> length args = 1 -> k0 = k ->
       condition_call kw_execution_id sig args kw0 [] (YEid e) (aupdate [(kw_scheduler, YSched)] kwargs) = None).
    { intros k0 sig op args kw0 Od L E. apply (call_none sig [req k0] op [] [] [] _ _ _ _ 0 (req k0)); auto; [lia|]. simpl. subst; auto. }
    assert (Two : forall k0 k1 sig op args kw0, ordinary sig [req k0; req k1] op [] [] [] -> length args = 2 -> k0 = k \/ k1 = k ->
       condition_call kw_execution_id sig args kw0 [] (YEid e) (aupdate [(kw_scheduler, YSched)] kwargs) = None).
    { intros k0 k1 sig op args kw0 Od L [E|E].
      - apply (call_none sig [req k0; req k1] op [] [] [] _ _ _ _ 0 (req k0)); auto; [lia|]. simpl. subst; auto.
      - apply (call_none sig [req k0; req k1] op [] [] [] _ _ _ _ 1 (req k1)); auto; [lia|]. simpl. subst; auto. }
    destruct a; cbn [by_position] in Hp; try (destruct Hp; fail).
    - assert (T : (takes_scale c q = false /\ k = kw_n) \/ (takes_scale c q = true /\ (k = kw_n \/ k = kw_time_scale))).
      { destruct c, q; simpl in *; intuition. }
      cbn [func_sig func_args]. destruct T as [[T E]|[T E]]; rewrite T.
      + apply (One kw_n _ se); auto. ordinary_sig.
      + apply (Two kw_n kw_time_scale _ se); auto; [ordinary_sig|]. intuition.
    - apply (Two kw_n kw_time_scale _ se); auto; [ordinary_sig|]. simpl in Hp. tauto.
    - apply (One kw_n _ se); auto; [ordinary_sig|]. simpl in Hp. tauto.
    - apply (Two kw_dependency kw_n _ se); auto; [ordinary_sig|]. simpl in Hp. tauto.
    - apply (Two kw_dependency kw_n _ se); auto; [ordinary_sig|]. simpl in Hp. tauto.
    - apply (One kw_dependency _ se); auto; [ordinary_sig|]. simpl in Hp. tauto.
    - apply (One kw_dependency _ [opt kw_execution_id]); auto; [ordinary_sig|]. simpl in Hp. tauto. }
  rewrite C. auto.
Qed.
Lemma not_clash : forall v owners kwargs o c e st, ahas kw_condition kwargs = true ->
  run_eval v owners kwargs (KNot o c) e st = (Err EType, st).
Proof.
  intros v owners kwargs o c e st Ha. unfold run_eval. cbn [keval].
  rewrite (call_none not_sig [req kw_condition] [] [star kw_args] [] [star2 kw_kwargs] _ _ _ _ 0 (req kw_condition)); auto; [ordinary_sig|].
  rewrite ahas_aupdate. cbn [p_name req]. rewrite Ha, Bool.orb_true_r. auto.
Qed.
Lemma nwhen_clash : forall v owners kwargs o c n e st, ahas kw_condition kwargs = true \/ ahas kw_n kwargs = true ->
  run_eval v owners kwargs (KNWhen o c n) e st = (Err EType, st).
Proof.
  intros v owners kwargs o c n e st Ha. unfold run_eval. cbn [keval].
  assert (Od : ordinary nwhen_sig [req kw_condition; req kw_n] [] [star kw_args] [kwo kw_scheduler; kwo kw_execution_id] [star2 kw_kwargs]) by ordinary_sig.
  destruct Ha as [Ha|Ha].
  - rewrite (call_none _ _ _ _ _ _ _ _ _ _ 0 (req kw_condition) Od); auto; [simpl; lia|]. rewrite ahas_aupdate. cbn [p_name req]. rewrite Ha, Bool.orb_true_r. auto.
  - rewrite (call_none _ _ _ _ _ _ _ _ _ _ 1 (req kw_n) Od); auto. rewrite ahas_aupdate. cbn [p_name req]. rewrite Ha, Bool.orb_true_r. auto.
Qed.

(** ** parameters that keywords replace *)
Lemma call_some : forall sig req opt va kwo vk args kw0 ee kw, ordinary sig req opt va kwo vk -> NoDup (akeys kw) ->
  ahas kw_execution_id kw0 = false -> ahas kw_execution_id kw = false ->
  (forall i p, nth_error req i = Some p -> length args <= i -> p_name p = kw_execution_id \/ ahas (p_name p) kw0 = true \/ ahas (p_name p) kw = true) ->
  (forall i p, nth_error (reached req opt va) i = Some p -> i < length args -> False) ->
  exists b, condition_call (V := pyval) kw_execution_id sig args kw0 [] ee kw = Some b /\
    (forall p, In p (req ++ opt ++ kwo) -> (forall i, nth_error (reached req opt va) i = Some p -> length args <= i) ->
       value (p_name p) b = if Nat.eqb (p_name p) kw_execution_id then ee else match aget (p_name p) kw with Some v => v | None => match aget (p_name p) kw0 with Some v => v | None => YNone end end) /\
    b_args b = (match va with [] => [] | _ => skipn (length (req ++ opt)) args end).
Proof.
  intros sig rq op va ko vk args kw0 ee kw Od N H0 H1 Hm Hd.
  destruct (condition_call kw_execution_id sig args kw0 [] ee kw) as [b|] eqn:E.
  - exists b. split; auto. split.
    + intros p I R. destruct (condition_received _ _ _ _ _ _ _ _ _ _ _ _ _ Od N E) as [_ B]. rewrite app_nil_r in B. specialize (B p I R). unfold value. rewrite B.
      destruct (Nat.eqb (p_name p) kw_execution_id); auto. destruct (aget (p_name p) kw); auto.
    + unfold condition_call in E. cbv zeta in E. rewrite app_nil_r in E. destruct (ahas kw_execution_id (aupdate kw0 kw)); [discriminate|].
      destruct (call_received sig rq op va ko vk args ((kw_execution_id, ee) :: aupdate kw0 kw) Od) as [_ R]. apply (R b E).
  - exfalso. unfold condition_call in E. cbv zeta in E. rewrite app_nil_r, ahas_aupdate, H0, H1 in E. cbn [orb] in E. apply (call_received sig rq op va ko vk args _ Od) in E.
    destruct E as [(i & p & A & B & C)|(i & p & A & B & C)]; [|apply (Hd i p A B)]. rewrite ahas_cons, ahas_aupdate in C.
    apply Bool.orb_false_iff in C. destruct C as [C1 C]. apply Bool.orb_false_iff in C. destruct C as [C2 C3].
    destruct (Hm i p A B) as [X|[X|X]]; [apply Nat.eqb_neq in C1; auto|congruence|congruence].
Qed.
Lemma as_bound_int : forall z, as_bound (YInt z) = Some (Z.to_nat z).
Proof. intros z. unfold as_bound, as_num. rewrite Qceiling_Z. auto. Qed.
Lemma run_none : run_keywords [].
Proof. split; [constructor|]. auto. Qed.
Theorem combined_override : forall v owners kwargs o ds n s z e st, run_keywords kwargs -> aget kw_n kwargs = Some (YInt z) ->
  run_eval v owners kwargs (KAtom o (ACallsCombined ds n s)) e st = eval v e owners (AfterNCallsCombined o ds (Some (Z.to_nat z)) s) st.
Proof.
  intros v owners kwargs o ds n s z e st RK Hz. unfold run_eval. rewrite passed_update by auto. cbn [keval].
  destruct (call_some (func_sig (ACallsCombined ds n s)) [] [] [star kw_dependencies] ([kwo kw_n] ++ se_kwo) [] (map YNode ds) (func_kwargs (ACallsCombined ds n s)) (YEid e) ((kw_scheduler, YSched) :: kwargs))
    as (b & Hb & Hv & Ha).
  - ordinary_sig.
  - apply passed_nodup; auto.
  - auto.
  - apply passed_xid; auto.
  - intros i p X. destruct i; discriminate.
  - intros i p X. destruct i; discriminate.
  - cbn [func_args]. rewrite Hb. unfold AfterNCallsCombined. cbn [eval func_body]. rewrite Ha. cbn [skipn app length]. rewrite as_nodes_map.
    assert (Vn : value kw_n b = YInt z).
    { specialize (Hv (kwo kw_n)). cbn [p_name kwo] in Hv. rewrite Hv; [|simpl; auto|intros i X; destruct i; discriminate].
      simpl. rewrite Hz. auto. }
    rewrite Vn, as_bound_int. auto.
Qed.
Theorem threshold_override : forall v owners kwargs o d p t t' c c' ix ix' atol atol' rtol rtol' e st, run_keywords kwargs ->
  effective kwargs kw_threshold (YRat t) (YRat t') -> effective kwargs kw_comparator (YCmp c) (YCmp c') ->
  effective kwargs kw_indices (y_indices ix) (y_indices ix') ->
  effective kwargs kw_atol (YRat atol) (YRat atol') -> effective kwargs kw_rtol (YRat rtol) (YRat rtol') ->
  run_eval v owners kwargs (KAtom o (AThreshold d p t c ix atol rtol)) e st = eval v e owners (Threshold o d p t' c' ix' atol' rtol') st.
Proof.
  intros v owners kwargs o d p t t' c c' ix ix' atol atol' rtol rtol' e st RK E1 E2 E3 E4 E5. unfold run_eval. rewrite passed_update by auto. cbn [keval].
  set (a := AThreshold d p t c ix atol rtol).
  destruct (call_some (func_sig a) (func_sig a) [] [] [] [] [] (func_kwargs a) (YEid e) ((kw_scheduler, YSched) :: kwargs))
    as (b & Hb & Hv & Ha).
  - ordinary_sig.
  - apply passed_nodup; auto.
  - auto.
  - apply passed_xid; auto.
  - intros i q X _. simpl in X. destruct i as [|[|[|[|[|[|i]]]]]]; simpl in X; try (injection X as <-; cbn [p_name req]; auto); destruct i; discriminate.
  - simpl. intros i q _ L. lia.
  - cbn [func_args a]. fold a. rewrite Hb. unfold Threshold. cbn [eval eval_atom func_body a]. destruct (w_param (s_world st) d p) as [x|]; auto. f_equal.
    assert (Vv : forall k dv x, In (req k) (func_sig a) -> k <> kw_execution_id -> k <> kw_scheduler -> aget k (func_kwargs a) = Some dv ->
                effective kwargs k dv x -> value k b = x).
    { intros k dv y I X1 X2 G Ef. specialize (Hv (req k)). cbn [p_name req] in Hv. rewrite Hv; [|rewrite app_nil_r; auto|simpl; intros; lia].
      cbn [aget]. apply Nat.eqb_neq in X1, X2. rewrite X1, X2, G. destruct Ef as [Ef|[Ef ->]]; rewrite Ef; auto. }
    unfold threshold_func.
    rewrite (Vv kw_threshold (YRat t) (YRat t')) by (simpl; auto; discriminate).
    rewrite (Vv kw_comparator (YCmp c) (YCmp c')) by (simpl; auto; discriminate).
    rewrite (Vv kw_indices (y_indices ix) (y_indices ix')) by (simpl; auto; discriminate).
    rewrite (Vv kw_atol (YRat atol) (YRat atol')) by (simpl; auto 10; discriminate).
    rewrite (Vv kw_rtol (YRat rtol) (YRat rtol')) by (simpl; auto 10; discriminate).
    unfold threshold_of. cbn [as_num].
    destruct ix' as [l|]; simpl; [rewrite index_values_map; destruct (index_value x l) as [y|]; simpl; auto|destruct x as [y|y]; auto; destruct c'; auto].
    destruct y as [y|y]; auto. destruct c'; auto.
Qed.

(** ** constructors *)
Definition attribute_names : list nat := [kw_args; kw_kwargs; kw_owner; kw_is_satisfied; kw_is_absolute; kw_absolute_intervals; kw_absolute_fixed_points].
Lemma set_attributes_free : forall kw c, (forall k, ahas k kw = true -> ~ In k attribute_names) -> set_attributes kw c = Ok c.
Proof.
  induction kw as [|[k v] r IH]; intros c H; auto. cbn [set_attributes].
  assert (X : ~ In k attribute_names) by (apply H; rewrite ahas_cons, Nat.eqb_refl; auto).
  assert (D : forall j, In j attribute_names -> Nat.eqb k j = false) by (intros j I; apply Nat.eqb_neq; intros ->; auto).
  unfold set_attribute. rewrite (D kw_args), (D kw_kwargs), (D kw_owner), (D kw_is_satisfied), (D kw_is_absolute), (D kw_absolute_intervals), (D kw_absolute_fixed_points) by (simpl; auto 10).
  cbn [orb bind]. apply IH. intros k' G. apply H. rewrite ahas_cons, G, Bool.orb_true_r. auto.
Qed.
Theorem created : forall sig args kwargs e kw,
  (forall k, ahas k kwargs = true -> ~ In k (kw_self :: kw_func :: kw__owner :: attribute_names)) ->
  exists c, new_condition args kwargs = Ok c /\ co_owner c = YNone /\
    object_call sig c e kw = match condition_call kw_execution_id sig args kwargs [] (YEid e) kw with Some b => Ok b | None => Err EType end.
Proof.
  intros sig args kwargs e kw H.
  assert (N : forall k, In k (kw_self :: kw_func :: kw__owner :: attribute_names) -> ahas k kwargs = false).
  { intros k I. destruct (ahas k kwargs) eqn:E; auto. exfalso. apply (H k E I). }
  unfold new_condition. rewrite (N kw_self), (N kw_func) by (simpl; auto). cbn [orb]. cbv zeta. rewrite (adel_no kw__owner) by (apply N; simpl; auto).
  assert (G : aget kw__owner kwargs = None). { assert (X : ahas kw__owner kwargs = false) by (apply N; simpl; auto). unfold ahas in X. destruct (aget kw__owner kwargs); congruence. }
  rewrite G. rewrite set_attributes_free.
  - eexists. split; [reflexivity|]. split; [reflexivity|]. reflexivity.
  - intros k Hk I. apply (H k Hk). right. right. right. auto.
Qed.
