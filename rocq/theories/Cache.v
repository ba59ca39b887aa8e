(** The cache of graph functions (utilities.py 25-27, 265-279). *)
From Verif Require Export Base.
Open Scope nat_scope.

(** Sets (the values of a graph dict) and results are objects that can be mutated; both are
    identified by numbers.  A graph is a dict from nodes to set objects, its contents a dict
    from nodes to sets. *)
Definition graph_obj := list (node * nat).
Definition contents := list (node * list node).
Record centry := mkEntry { e_hash : nat; e_func : nat; e_key : graph_obj; e_result : nat }.
Record cstate (R : Type) := mkCache {
  c_sets : nat -> list node;      (* the set objects *)
  c_vals : nat -> R;              (* the objects returned so far *)
  c_next : nat;                   (* the next result object *)
  c_entries : list centry         (* the cache, most recently used first *)
}.
Arguments mkCache {R}. Arguments c_sets {R}. Arguments c_vals {R}. Arguments c_next {R}. Arguments c_entries {R}.

(* what a graph object stands for at the moment *)
Definition contents_of {R} (st : cstate R) (g : graph_obj) : contents := map (fun p => (fst p, c_sets st (snd p))) g.
(** equality of dicts of sets *)
Definition dict_eqb (a b : contents) : bool :=
  (Nat.eqb (length a) (length b) &&
   forallb (fun p => match aget (fst p) b with Some l => s_eqb (snd p) l | None => false end) a)%bool.
Definition find_entry {R} (st : cstate R) (h f : nat) (c : contents) (e : centry) : bool :=
  (Nat.eqb (e_hash e) h && Nat.eqb (e_func e) f && dict_eqb (contents_of st (e_key e)) c)%bool.

(** cached_hashable_graph_function (utilities.py 265-267) called from graph_function_wrapper
    (274-276): HashableDict(graph) copies the dict but not the sets in it.  functools.lru_cache
    (CPython) keeps the hash of the key from the time of insertion, compares it first and then
    the keys themselves as they are now; a hit becomes the most recently used entry, a miss calls
    the function and drops the least recently used entry beyond the size of the cache; an
    exception is not stored.  [hash] is HashableDict.__hash__ (25-27), [F f] the function f. *)
Definition cached_call {R} (hash : contents -> nat) (F : nat -> contents -> res R) (size : nat) (f : nat) (g : graph_obj) (st : cstate R)
  : res nat * cstate R :=
  let c := contents_of st g in
  let h := hash c in
  match find (find_entry st h f c) (c_entries st) with
  | Some e =>
      (Ok (e_result e), mkCache (c_sets st) (c_vals st) (c_next st) (e :: filter (fun x => negb (Nat.eqb (e_result x) (e_result e))) (c_entries st)))
  | None =>
      match F f c with
      | Err ex => (Err ex, st)
      | Ok v => (Ok (c_next st),
                 mkCache (c_sets st) (upd (c_vals st) (c_next st) v) (S (c_next st))
                         (firstn size (mkEntry h f g (c_next st) :: c_entries st)))
      end
  end.
(** user code changing a set object in place (or creating one) *)
Definition change_set {R} (r : nat) (l : list node) (st : cstate R) : cstate R :=
  mkCache (upd (c_sets st) r l) (c_vals st) (c_next st) (c_entries st).
(** user code changing an object it got from a cached function *)
Definition change_result {R} (r : nat) (v : R) (st : cstate R) : cstate R :=
  mkCache (c_sets st) (upd (c_vals st) r v) (c_next st) (c_entries st).
