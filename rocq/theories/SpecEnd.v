(** Vocabulary for runs with the default termination conditions (C76). *)
From Verif Require Export SpecRun.
Open Scope nat_scope.

(** the generator, when resumed, ends with AllHaveRun (ds): Never for the sequence *)
Definition until_all_have_run (ds : list node) (m : core) (g : gen) : Prop :=
  (exists o, the_tc m g ESU = Some (AllHaveRun o ds ESU)) /\ (exists o, the_tc m g ES = Some (Never o)).
(** the nodes it waits for: those listed, or all nodes of the scheduler if none is *)
Definition awaited (ds : list node) (m : core) : list node := match ds with [] => m_nodes m | _ => ds end.
(** c is never satisfied *)
Definition unsatisfiable (c : cond) : Prop := forall v e ow st st', eval v e ow c st <> (Ok true, st').
(** b cannot be executed: it is in no consideration set, or its condition is never satisfied *)
Definition shut_out (b : node) (m : core) : Prop :=
  ~ In b (concat (queue m)) \/ exists c, aget b (m_basic m) = Some c /\ unsatisfiable c.
