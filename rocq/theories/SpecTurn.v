(** Specification vocabulary for what a node's condition sees at its turn (C64). *)
From Verif Require Export SpecPass.

(** What is executed of d by the time b has had its turn in pass k is what is executed of d in the
    passes before pass j: d has had its turn in pass k as well, or it is yet to come. *)
Definition up_to (q : list (list node)) (d b : node) (k j : nat) : Prop := (not_later q d b /\ j = S k) \/ (~ not_later q d b /\ j = k).
(** v is what conditions see at the end of the turn of b in pass k of a run of execution id e that
    was created in state m0 and has yielded the sets ts: the pass; for every node d the number of
    its executions so far in the run, in this pass, and in the longer units of time; and how often
    it was executed since b last was *)
Record at_turn (m0 : core) (e : eid) (b : node) (k : nat) (ts : list (nat * list node)) (v : view) : Prop := {
  tv_clock : exists h, clock_after ESU h (v_clock v);
  tv_pass : t_val (k_time (v_clock v)) PASS = k;
  tv_nodes : v_nodes v = m_nodes m0;
  tv_total : exists t, v_total v = Some t /\ forall d j, up_to (queue m0) d b k j ->
    t ESU d = occurrences d (before_pass j ts) /\ t PASS d + occurrences d (before_pass k ts) = t ESU d /\
    forall t0, x_total (m_ctxs m0 e) = Some t0 -> t ES d = t0 ES d + t ESU d /\ t LIFE d = t0 LIFE d + t ESU d;
  tv_use : exists u, v_use v = Some u /\ forall d j, d <> b -> up_to (queue m0) d b k j -> runs_since d b (concat (before_pass j ts)) (u d b)
}.
(** The condition c of b cannot come out false any more once, from pass K on, every node d has been
    executed N d times in the environment state update, and M d times since b last was; [Own]: what
    is assumed about the owners of condition objects. *)
Definition enough (Own : (oid -> option node) -> Prop) (b : node) (N M : node -> nat) (K : nat) (c : cond) : Prop :=
  forall v e ow st st' h t u, clock_after ESU h (v_clock v) -> K <= t_val (k_time (v_clock v)) PASS -> v_total v = Some t -> v_use v = Some u -> Own ow ->
    (forall d, In d (v_nodes v) -> N d <= t ESU d) -> (forall d, In d (v_nodes v) -> d <> b -> M d <= u d b) -> eval v e ow c st <> (Ok false, st').
(** n for d, nothing for other nodes *)
Definition only (d : node) (n : nat) (x : node) : nat := if Nat.eqb x d then n else 0.
