(** Specification vocabulary for debug logging (C73). *)
From Verif Require Export Logs.

(** calls of the two functions *)
Inductive logcall := LEnable | LDisable (level : nat).
Definition log_call (s : logs) (k : logcall) : logs :=
  match k with LEnable => enable_debug_logging s | LDisable n => disable_debug_logging n s end.
Definition log_calls (ks : list logcall) (s : logs) : logs := fold_left log_call ks s.
(** the user has not configured the loggers of the package (those of the root logger may be) *)
Definition unconfigured (s : logs) : Prop :=
  lg_package s = mkLogger 0 [] true /\ lg_module s = mkLogger 0 [] true.
(** the root logger's level after the calls *)
Fixpoint last_level (ks : list logcall) (n : nat) : nat :=
  match ks with [] => n | LEnable :: r => last_level r DEBUG | LDisable k :: r => last_level r k end.
