(** Debug logging (utilities.py 121-164; module loggers: scheduler.py 340, condition.py 431,
    utilities.py 18) and the part of Python's logging module it uses. *)
From Verif Require Export Base.
Open Scope nat_scope.

(** levels of the logging module; 0 is NOTSET *)
Definition DEBUG : nat := 10.
Definition INFO : nat := 20.
Definition WARNING : nat := 30.
(** A handler: the object and its level. *)
Record handler := mkHandler { h_id : nat; h_level : nat }.
(** A logger: its level, its handlers, whether messages go on to its parent. *)
Record logger := mkLogger { l_level : nat; l_handlers : list handler; l_propagate : bool }.
(** The loggers involved: the root logger, the one of the package, and the one of the module
    that issues a message (scheduler.py 340: logging.getLogger(__name__), a child of the
    package's logger).  [fresh] is the identity of the next handler object.  logging.disable()
    and filters are not modelled. *)
Record logs := mkLogs { lg_root : logger; lg_package : logger; lg_module : logger; lg_fresh : nat }.
(** Logger.getEffectiveLevel *)
Definition effective_level (s : logs) : nat :=
  if negb (Nat.eqb (l_level (lg_module s)) 0) then l_level (lg_module s)
  else if negb (Nat.eqb (l_level (lg_package s)) 0) then l_level (lg_package s)
  else l_level (lg_root s).
(** Logger.callHandlers: the handlers of the logger and, while messages are passed on, of its
    parents *)
Definition reached (s : logs) : list handler :=
  l_handlers (lg_module s) ++
  if l_propagate (lg_module s) then
    l_handlers (lg_package s) ++ if l_propagate (lg_package s) then l_handlers (lg_root s) else []
  else [].
(** A message of the given level issued by the module: the handlers that display it;
    [None] stands for logging.lastResort, which is used if there is no handler at all and
    displays messages from WARNING on. *)
Definition message (s : logs) (level : nat) : list (option nat) :=
  if Nat.leb (effective_level s) level then
    match reached s with
    | [] => if Nat.leb WARNING level then [None] else []
    | hs => map (fun h => Some (h_id h)) (filter (fun h => Nat.leb (h_level h) level) hs)
    end
  else [].
Definition set_level (n : nat) (l : logger) : logger := mkLogger n (l_handlers l) (l_propagate l).
(** enable_debug_logging() (utilities.py 121-146); its own two messages are left out *)
Definition enable_debug_logging (s : logs) : logs :=
  let p := lg_package s in
  match l_handlers p with
  | [] => mkLogs (set_level DEBUG (lg_root s)) (mkLogger (l_level p) [mkHandler (lg_fresh s) DEBUG] false) (lg_module s) (S (lg_fresh s))
  | hs => mkLogs (set_level DEBUG (lg_root s)) (mkLogger (l_level p) hs false) (lg_module s) (lg_fresh s)
  end.
(** disable_debug_logging(level) (utilities.py 149-164); its own two messages are left out *)
Definition disable_debug_logging (level : nat) (s : logs) : logs :=
  mkLogs (set_level level (lg_root s)) (lg_package s) (lg_module s) (lg_fresh s).
