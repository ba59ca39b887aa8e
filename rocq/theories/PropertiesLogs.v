(** Property theorems about debug logging (C73). *)
From Verif Require Import SpecLogs.
From Coq Require Import Lia.
Open Scope nat_scope.

Lemma calls_state : forall ks s h, l_handlers (lg_package s) = [h] -> l_propagate (lg_package s) = false ->
  lg_package (log_calls ks s) = lg_package s /\ lg_module (log_calls ks s) = lg_module s /\
  l_handlers (lg_root (log_calls ks s)) = l_handlers (lg_root s) /\ l_level (lg_root (log_calls ks s)) = last_level ks (l_level (lg_root s)).
Proof.
  induction ks as [|k ks IH]; intros s h H P; [repeat split|]. unfold log_calls. cbn [fold_left]. fold (log_calls ks (log_call s k)).
  destruct k as [|n]; cbn [log_call last_level].
  - unfold enable_debug_logging. rewrite H. set (s' := mkLogs _ _ _ _).
    destruct (IH s' h) as (A & B & C & D); auto. rewrite A, B, C, D. unfold s'. cbn [lg_package lg_module lg_root set_level l_handlers l_level].
    destruct (lg_package s) as [x y z]; cbn [l_level l_handlers l_propagate] in *. subst. repeat split.
  - set (s' := disable_debug_logging n s). destruct (IH s' h) as (A & B & C & D); auto.
Qed.
Lemma disables_state : forall ks s, (forall k, In k ks -> k <> LEnable) -> lg_package (log_calls ks s) = lg_package s /\ lg_module (log_calls ks s) = lg_module s /\
  l_handlers (lg_root (log_calls ks s)) = l_handlers (lg_root s) /\ l_level (lg_root (log_calls ks s)) = last_level ks (l_level (lg_root s)) /\ lg_fresh (log_calls ks s) = lg_fresh s.
Proof.
  induction ks as [|k ks IH]; intros s H; [repeat split|]. unfold log_calls. cbn [fold_left]. fold (log_calls ks (log_call s k)).
  destruct k as [|n]; [exfalso; apply (H LEnable); simpl; auto|]. cbn [log_call last_level].
  destruct (IH (disable_debug_logging n s)) as (A & B & C & D & E); [intros k I; apply H; right; auto|]. rewrite A, B, C, D, E. repeat split.
Qed.
Lemma split_enable : forall ks, In LEnable ks -> exists a b, ks = a ++ LEnable :: b /\ forall k, In k a -> k <> LEnable.
Proof.
  induction ks as [|k ks IH]; intros I; [destruct I|]. destruct k as [|n].
  - exists [], ks. split; auto.
  - destruct I as [I|I]; [discriminate|]. destruct (IH I) as (a & b & -> & N). exists (LDisable n :: a), b. split; auto.
    intros k [<-|Ik]; [discriminate|auto].
Qed.
Lemma last_level_app : forall a b n, last_level (a ++ b) n = last_level b (last_level a n).
Proof. induction a as [|[|k] a IH]; intros b n; simpl; auto. Qed.

(** ** C73: debug logging *)
(** After any calls of the two functions, the first debug-enabling one included, a message of the
    package is displayed exactly once, by one new handler, if its level is at least the one the
    last call gave to the root logger (DEBUG for enable_debug_logging) and not below DEBUG, and not
    at all otherwise; in particular never by the handlers of the root logger. *)
Theorem C73_displayed : forall s ks level, unconfigured s -> In LEnable ks ->
  message (log_calls ks s) level = if (Nat.leb (last_level ks 0) level && Nat.leb DEBUG level)%bool then [Some (lg_fresh s)] else [].
Proof.
  intros s ks level (P & M) I. destruct (split_enable _ I) as (a & b & -> & N).
  unfold log_calls. rewrite fold_left_app. cbn [fold_left]. fold (log_calls a s).
  destruct (disables_state a s N) as (A1 & A2 & A3 & A4 & A5). set (sa := log_calls a s) in *. clearbody sa.
  set (se := log_call sa LEnable). fold (log_calls b se).
  assert (E : se = mkLogs (set_level DEBUG (lg_root sa)) (mkLogger 0 [mkHandler (lg_fresh s) DEBUG] false) (lg_module sa) (S (lg_fresh s))).
  { unfold se, log_call, enable_debug_logging. rewrite A1, P. cbn [l_handlers l_level]. rewrite A5. reflexivity. }
  destruct (calls_state b se (mkHandler (lg_fresh s) DEBUG)) as (B1 & B2 & B3 & B4); try (rewrite E; reflexivity).
  unfold message, effective_level, reached. rewrite B1, B2, B4, E. cbn [lg_module lg_package lg_root]. rewrite A2, M.
  cbn [l_level l_handlers l_propagate set_level Nat.eqb negb app]. rewrite last_level_app. cbn [last_level].
  destruct (Nat.leb (last_level b DEBUG) level); cbn [andb filter h_level]; auto. destruct (Nat.leb DEBUG level); reflexivity.
Qed.
Print Assumptions C73_displayed.
(** The handlers of the root logger stay, and its level is the one given by the last call. *)
Theorem C73_root : forall s ks, unconfigured s -> l_handlers (lg_root (log_calls ks s)) = l_handlers (lg_root s) /\
  l_level (lg_root (log_calls ks s)) = last_level ks (l_level (lg_root s)) /\
  length (l_handlers (lg_package (log_calls ks s))) <= 1.
Proof.
  intros s ks (P & M). assert (D : In LEnable ks \/ forall k, In k ks -> k <> LEnable).
  { induction ks as [|k ks IH]; [right; intros k []|]. destruct k; [left; left; auto|]. destruct IH as [I|N]; [left; right; auto|].
    right. intros k [<-|I]; [discriminate|auto]. }
  destruct D as [I|N].
  - destruct (split_enable _ I) as (a & b & -> & N). unfold log_calls. rewrite fold_left_app. cbn [fold_left]. fold (log_calls a s).
    destruct (disables_state a s N) as (A1 & A2 & A3 & A4 & A5). set (sa := log_calls a s) in *. clearbody sa.
    set (se := log_call sa LEnable). fold (log_calls b se).
    assert (E : se = mkLogs (set_level DEBUG (lg_root sa)) (mkLogger 0 [mkHandler (lg_fresh s) DEBUG] false) (lg_module sa) (S (lg_fresh s))).
    { unfold se, log_call, enable_debug_logging. rewrite A1, P. cbn [l_handlers l_level]. rewrite A5. reflexivity. }
    destruct (calls_state b se (mkHandler (lg_fresh s) DEBUG)) as (B1 & B2 & B3 & B4); try (rewrite E; reflexivity).
    rewrite B1, B3, B4, E, last_level_app. cbn [lg_root lg_package set_level l_handlers l_level last_level length]. auto.
  - destruct (disables_state ks s N) as (A1 & A2 & A3 & A4 & A5). rewrite A1, A3, A4, P. auto.
Qed.
Print Assumptions C73_root.
(** a root logger with a file handler (number 1, from INFO on) *)
Definition log_ex : logs := mkLogs (mkLogger WARNING [mkHandler 1 INFO] true) (mkLogger 0 [] true) (mkLogger 0 [] true) 7.
Example ex_C73 : unconfigured log_ex /\ In LEnable [LEnable; LDisable WARNING; LEnable; LEnable] /\
  message log_ex WARNING = [Some 1] /\ message log_ex DEBUG = [] /\
  message (log_calls [LEnable; LDisable WARNING; LEnable; LEnable] log_ex) DEBUG = [Some 7] /\
  message (log_calls [LEnable; LDisable WARNING] log_ex) INFO = [].
Proof. repeat split; simpl; auto. Qed.

(** finding: disable_debug_logging does not undo enable_debug_logging: a warning of the package,
    displayed by a handler of the root logger before the two calls, no longer is after them *)
Theorem C73_undone_refuted : exists s, unconfigured s /\ l_level (lg_root s) = WARNING /\
  In (Some 1) (message s WARNING) /\ ~ In (Some 1) (message (disable_debug_logging WARNING (enable_debug_logging s)) WARNING).
Proof. exists log_ex. repeat split; vm_compute; auto. intros [E|[]]. discriminate. Qed.
Print Assumptions C73_undone_refuted.
(** finding: enable_debug_logging displays no debug messages if the package's logger has a handler
    or a level of its own *)
Theorem C73_configured_refuted :
  (exists s, lg_module s = mkLogger 0 [] true /\ l_level (lg_package s) = 0 /\ length (l_handlers (lg_package s)) = 1 /\ message (enable_debug_logging s) DEBUG = []) /\
  (exists s, lg_module s = mkLogger 0 [] true /\ lg_package s = mkLogger WARNING [] true /\ message (enable_debug_logging s) DEBUG = []).
Proof.
  split.
  - exists (mkLogs (mkLogger WARNING [] true) (mkLogger 0 [mkHandler 1 WARNING] true) (mkLogger 0 [] true) 7). repeat split.
  - exists (mkLogs (mkLogger WARNING [] true) (mkLogger WARNING [] true) (mkLogger 0 [] true) 7). repeat split.
Qed.
Print Assumptions C73_configured_refuted.
