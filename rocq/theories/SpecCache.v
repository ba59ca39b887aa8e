(** Specification vocabulary for the cache of graph functions. *)
From Verif Require Export Cache.
Open Scope nat_scope.

(** a and b are equal as dicts of sets *)
Definition same_graph (a b : contents) : Prop :=
  length a = length b /\ forall n l, In (n, l) a -> exists l', aget n b = Some l' /\ forall x, In x l <-> In x l'.
(** what can happen: calls; changes of set objects if [sets]; changes of results if [results] *)
Inductive cache_history {R} (hash : contents -> nat) (F : nat -> contents -> res R) (size : nat) (sets results : bool) : cstate R -> Prop :=
| ch_start : forall s v n, cache_history hash F size sets results (mkCache s v n [])
| ch_call : forall st f g r st', cache_history hash F size sets results st -> cached_call hash F size f g st = (r, st') ->
    cache_history hash F size sets results st'
| ch_set : forall st r l, cache_history hash F size sets results st -> sets = true -> cache_history hash F size sets results (change_set r l st)
| ch_result : forall st r v, cache_history hash F size sets results st -> results = true -> cache_history hash F size sets results (change_result r v st).
