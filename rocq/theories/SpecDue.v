(** Specification vocabulary for runs that end because the nodes run (C65). *)
From Verif Require Export SpecTurn SpecLive.

(** the owners of the condition objects in c are those of m0 *)
Definition owned_as (m0 : core) (c : cond) (ow : oid -> option node) : Prop := forall o, In o (oids c) -> ow o = m_owners m0 o.
(** [due m0 p0 p b r]: by the conditions in m0, in a run that begins in pass p0 node b is executed
    at least r times before pass p: *)
Inductive due (m0 : core) (p0 : nat) : nat -> node -> nat -> Prop :=
(** its condition depends on the pass only and holds in r of these passes; *)
| due_passes : forall p b c f, In b (m_nodes m0) -> aget b (m_basic m0) = Some c -> by_pass f c ->
    due m0 p0 p b (length (filter f (seq p0 (p - p0))))
(** it is EveryNCalls(d, n), d is not in a later consideration set and is executed n * r times; *)
| due_every : forall p b o d n r, In b (m_nodes m0) -> aget b (m_basic m0) = Some (EveryNCalls o d n) -> m_owners m0 o = Some b -> 1 <= n -> d <> b ->
    not_later (queue m0) d b -> due m0 p0 p d (n * r) -> due m0 p0 p b r
(** it cannot be false any more in pass p (for the first time), because the nodes it waits for have
    been executed often enough by the turn of b in pass p; *)
| due_once : forall p b c N M K (P : node -> nat), In b (m_nodes m0) -> aget b (m_basic m0) = Some c -> enough (owned_as m0 c) b N M K c -> K <= p -> p0 <= p ->
    (forall d, In d (m_nodes m0) -> 0 < N d \/ 0 < M d /\ d <> b -> up_to (queue m0) d b p (P d)) ->
    (forall d, In d (m_nodes m0) -> 0 < N d \/ 0 < M d /\ d <> b -> due m0 p0 (P d) d (Nat.max (N d) (M d))) -> due m0 p0 (S p) b 1
(** the same in r passes from pass p on, if it does not matter when b last ran; *)
| due_from : forall p b c N K (P : node -> nat) r, In b (m_nodes m0) -> aget b (m_basic m0) = Some c -> enough (owned_as m0 c) b N (fun _ => 0) K c -> K <= p -> p0 <= p ->
    (forall d, In d (m_nodes m0) -> 0 < N d -> up_to (queue m0) d b p (P d)) -> (forall d, In d (m_nodes m0) -> 0 < N d -> due m0 p0 (P d) d (N d)) -> due m0 p0 (p + r) b r
(** or it follows from this for fewer executions or a later pass. *)
| due_weaker : forall p b r p' r', due m0 p0 p b r -> p <= p' -> r' <= r -> due m0 p0 p' b r'.
(** the conditions of the nodes, their owners and the termination conditions of g are those of m0 *)
Record unchanged (g : gen) (m0 m : core) : Prop := {
  uc_basic : forall n, In n (m_nodes m0) -> aget n (m_basic m) = aget n (m_basic m0);
  uc_owners : forall o, m_owners m o = m_owners m0 o;
  uc_tc : forall s, run_tc m g s = run_tc m0 g s
}.
(** all termination conditions with which g would run stay true until the next pass *)
Definition lasting (m : core) (g : gen) : Prop := forall s t, run_tc m g s = Some t -> carries_over t.
(** a termination condition with which g would run is not false once every node d has been executed N d times *)
Definition ends_after (N : node -> nat) (m : core) (g : gen) : Prop :=
  exists s t, (s = ESU \/ s = ES) /\ run_tc m g s = Some t /\ enough (fun _ => True) 0 N (fun _ => 0) 0 t.
