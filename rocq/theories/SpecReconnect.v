(** Specification vocabulary for C84: what reconnect_non_subject_receivers does. *)
From Verif Require Export SpecGSC.

(** the condition with reconnect_non_subject_receivers=False *)
Definition cut_only (p : opcond) : opcond :=
  mkOp (p_kind p) (p_nodes p) (p_owner_senders p) (p_owner_receivers p) (p_subject_senders p) (p_subject_receivers p) false (p_remove_self p) (p_prune p) (p_ignore_conflicts p).
(** where r was to wait for s through the owner w: it still does, or it waits for s itself, or it
    now comes before s *)
Definition in_between (g : graph) (w s r : node) : Prop :=
  (edge g s w /\ edge g w r) \/ edge g s r \/ (s <> r /\ reach g r s).
