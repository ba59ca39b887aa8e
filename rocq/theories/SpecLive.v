(** Specification vocabulary for runs that come to an end (C63). *)
From Verif Require Export SpecSafe SpecPass.

(** c never comes out false in pass n of the environment state update *)
Definition over_at (n : nat) (c : cond) : Prop := forall h0 e, ~ asked h0 c e n false.
(** one of the termination conditions with which g runs is over in pass n *)
Definition ends_at_pass (n : nat) (m : core) (g : gen) : Prop := exists s c, (s = ESU \/ s = ES) /\ the_tc m g s = Some c /\ over_at n c.
(** the number of consideration sets considered in a pass, at least one (an idle pass yields the
    empty set) *)
Definition sets_per_pass (m : core) : nat := Nat.max 1 (length (queue m)).
