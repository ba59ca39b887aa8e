(** Specification vocabulary for runs in absolute time in standard mode (C67). *)
From Verif Require Export SpecAbs SpecPass.
Open Scope nat_scope.

(** v' is what conditions see at the beginning of the next pass when they see v in the middle of
    a pass that is given up: nothing but the clock has changed, which has gone on to the next pass *)
Definition new_pass (v v' : view) : Prop :=
  v_nodes v' = v_nodes v /\ v_queue v' = v_queue v /\ v_exact_mode v' = v_exact_mode v /\ v_total v' = v_total v /\ v_use v' = v_use v /\
  v_list v' = v_list v /\ clock_incr PASS (v_clock v) = Ok (v_clock v').
(** c, once true in the middle of a pass, is still true at the beginning of the next one *)
Definition lasts (c : cond) : Prop := forall v v' e ow ow' st st' h,
  clock_after ESU h (v_clock v) -> new_pass v v' -> is_satisfied v e ow st c = Ok true -> is_satisfied v' e ow' st' c = Ok true.
(** the same with exceptions in view *)
Definition holds_on (c : cond) : Prop := forall v v' e ow ow' st st' h b,
  clock_after ESU h (v_clock v) -> new_pass v v' -> is_satisfied v e ow st c = Ok b ->
  exists b', is_satisfied v' e ow' st' c = Ok b' /\ (b = true -> b' = true).
(** the termination conditions of the run are of this kind *)
Definition ends_for_good (ms : core) (g0 : gen) : Prop := forall s t, run_tc ms g0 s = Some t -> lasts t.

(** t is between start and end (each strictly if not inclusive), and, if repeat = r is given, the
    time t0 is a whole number of r *)
Definition in_pass_window (r s e : option quantity) (si ei : bool) (t0 t : Q) : Prop :=
  (forall q, s = Some q -> (if si then q_val q <= t else q_val q < t)%Q) /\
  (forall q, e = Some q -> (if ei then t <= q_val q else t < q_val q)%Q) /\
  (forall q, r = Some q -> multiple t0 (q_val q)).
(** the length of a whole pass *)
Definition pass_length (ms m : core) (e : eid) : Q := (inject_Z (Z.of_nat (length (queue ms))) * step_length m e)%Q.
