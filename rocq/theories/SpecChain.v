(** Specification vocabulary for chains of EveryNCalls (C72). *)
From Verif Require Export SpecPass.

(** l = [(b1, n1); (b2, n2); ...]: b1 has the condition EveryNCalls(d, n1), b2 has the condition
    EveryNCalls(b1, n2), and so on *)
Fixpoint chained (d : node) (l : list (node * nat)) (m : core) : Prop :=
  match l with
  | [] => True
  | (b, n) :: r => every_n_calls b d n m /\ chained b r m
  end.
(** every node of the chain is different from the one before and has its turn no earlier *)
Fixpoint in_turn (q : list (list node)) (d : node) (l : list (node * nat)) : Prop :=
  match l with
  | [] => True
  | (b, n) :: r => not_later q d b /\ d <> b /\ 1 <= n /\ in_turn q b r
  end.
(** the last node of the chain, and the product of the numbers *)
Fixpoint end_of (d : node) (l : list (node * nat)) : node := match l with [] => d | (b, _) :: r => end_of b r end.
Fixpoint factor (l : list (node * nat)) : nat := match l with [] => 1 | (_, n) :: r => n * factor r end.
(** how many of the n passes from pass k on satisfy f *)
Fixpoint passes_with (f : nat -> bool) (k n : nat) : nat :=
  match n with O => 0 | S n => (if f k then 1 else 0) + passes_with f (S k) n end.
