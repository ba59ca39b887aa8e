(** Specification vocabulary: the order of times, and absolute times of a session. *)
From Verif Require Export SpecLedger SpecTime.
From Verif Require SpecAbs.

(** the time of an execution id *)
Definition time_of (d : sched) (e : eid) : Time := k_time (the_clock (d_ctxs d e)).
(** earlier: at the coarsest scale at which the two times differ, the count is smaller *)
Definition earlier (a b : Time) : Prop :=
  exists s, t_val a s < t_val b s /\ forall s', ts_lt s s' -> t_val a s' = t_val b s'.
Definition same_time (a b : Time) : Prop := forall s, t_val a s = t_val b s.
Definition not_later (a b : Time) : Prop := same_time a b \/ earlier a b.
(** times in order *)
Definition in_order (le : Time -> Time -> Prop) (ts : list Time) : Prop :=
  forall i j a b, nth_error ts i = Some a -> nth_error ts j = Some b -> i < j -> le a b.
(** the absolute time is not smaller *)
Definition abs_not_later (a b : Time) : Prop := (t_abs a <= t_abs b)%Q.

(** the units of the times in a condition are positive: of those that a TimeInterval or a
    TimeTermination below All and Any has *)
Definition positive_times (c : cond) : Prop :=
  forall q, SpecAbs.respected true c q -> (0 < q_unit q)%Q.
(** ... in all conditions a run started now would use, and the scheduler's unit for runs without intervals *)
Definition sound_units (d : sched) (g : gen) : Prop :=
  (0 <= q_val (d_unit d))%Q /\
  (forall n c, In (n, c) (cs_basic (d_cs d)) -> positive_times c) /\
  (forall s c, d_tc d s = Some c -> positive_times c) /\
  (forall tc s c, g_tcarg g = Some tc -> tc s = Some c -> positive_times c).
(** ... whenever a run of e is started in a session *)
Fixpoint units_sound (cyc : graph -> list (list node)) (arr : list (list node) -> list (list node)) (e : eid) (ks : list call) (d : sched) : Prop :=
  match ks with
  | [] => True
  | k :: r => match k with CNext _ g => g_eid g = e -> g_pc g = PStart -> sound_units d g | _ => True end
              /\ units_sound cyc arr e r (after cyc arr k d)
  end.
