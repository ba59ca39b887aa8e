(** Specification vocabulary for the passes in which a node runs (C60). *)
From Verif Require Export SpecRate.

(** the history h of a clock goes on from h0 without leaving the environment state update *)
Definition during (h0 h : list timescale) : Prop := exists ev, h = h0 ++ ev /\ Forall (fun s => ts_le s PASS) ev.
(** condition c, evaluated for execution id e at some moment of pass k (by any clock that has
    gone on from the history h0 in the same environment state update), came out as r *)
Definition asked (h0 : list timescale) (c : cond) (e : eid) (k : nat) (r : bool) : Prop := exists v ow st st' h,
  during h0 h /\ clock_after ESU h (v_clock v) /\ t_val (k_time (v_clock v)) PASS = k /\ eval v e ow c st = (Ok r, st').
(** in the environment state update that goes on from the history h0, c depends on the pass
    only: in pass k it can come out as f k only; the same in every environment state update *)
Definition by_pass_in (h0 : list timescale) (f : nat -> bool) (c : cond) : Prop := forall e k r, asked h0 c e k r -> r = f k.
Definition by_pass (f : nat -> bool) (c : cond) : Prop := forall h0, by_pass_in h0 f c.

(** v' is what conditions see at the beginning of the next pass when they see v in the middle of
    a pass that is then given up: the clock has gone on to the next pass, and an empty set may
    have been yielded before *)
Definition next_pass (v v' : view) : Prop :=
  v_nodes v' = v_nodes v /\ v_queue v' = v_queue v /\ v_exact_mode v' = v_exact_mode v /\ v_total v' = v_total v /\ v_use v' = v_use v /\
  ((v_list v' = v_list v /\ clock_incr PASS (v_clock v) = Ok (v_clock v')) \/
   (exists l k, v_list v = Some l /\ v_list v' = Some (l ++ [[]]) /\
      clock_incr CSE (v_clock v) = Ok k /\ clock_incr PASS k = Ok (v_clock v'))).
(** c, once true in the middle of a pass, is still true at the beginning of the next one *)
Definition carries_over (c : cond) : Prop := forall v v' e ow ow' st st' h,
  clock_after ESU h (v_clock v) -> next_pass v v' -> is_satisfied v e ow st c = Ok true -> is_satisfied v' e ow' st' c = Ok true.
(** the same with exceptions in view *)
Definition settles_over (c : cond) : Prop := forall v v' e ow ow' st st' h b,
  clock_after ESU h (v_clock v) -> next_pass v v' -> is_satisfied v e ow st c = Ok b ->
  exists b', is_satisfied v' e ow' st' c = Ok b' /\ (b = true -> b' = true).
(** the condition of node b is c, and the termination conditions that a run of g would use are
    of this kind *)
Definition ruled (g : gen) (b : node) (c : cond) (m : core) : Prop :=
  aget b (m_basic m) = Some c /\ forall s t, run_tc m g s = Some t -> carries_over t.
