(** Specification vocabulary: what a history of calls leaves behind. *)
From Verif Require Export SpecSched.

(** calls that do not run the scheduler: add and remove conditions, read the graph, assign
    termination conditions *)
Definition set_up (k : call) : Prop := match k with CNext _ _ | CEndSequence _ => False | _ => True end.
(** the termination conditions that were given: those of the constructor over the library's
    defaults, then every assigned dict over those before; None restores the first ones *)
Definition over (t cur : tconds) : tconds := fun s => match t s with Some c => Some c | None => cur s end.
Definition given_first (tc : option tconds) : tconds := match tc with None => default_tc 0 1 | Some t => over t (default_tc 0 1) end.
Definition given1 (first cur : tconds) (k : call) : tconds :=
  match k with CTerm None => first | CTerm (Some t) => over t cur | _ => cur end.
Definition given_terms (tc : option tconds) (ks : list call) : tconds := fold_left (given1 (given_first tc)) ks (given_first tc).
(** condition objects that no call has added to the scheduler *)
Definition own_objects (nx : oid) (ks : list setcall) (c : cond) : Prop :=
  forall o, In o (oids c) -> o < nx /\ ~ In o (objects (flat_map adds ks)).
(** two results of list(run()): the same sets, the same ending, the same counts, histories and times *)
Definition same_run (a b : sched * gen * list (list node) * outcome) : Prop :=
  match a, b with (d, g, ys, o), (d', g', ys', o') =>
    ys' = ys /\ o' = o /\ g_pc g' = g_pc g /\ (forall e, d_ctxs d' e = d_ctxs d e) /\ d_cst d' = d_cst d /\
    forall n, aget n (cs_basic (d_cs d')) = aget n (cs_basic (d_cs d)) end.
(** conditions for some nodes as a dict, or added one by one *)
Definition as_dict (l : list (node * cond)) : amap centry := map (fun p => (fst p, One (Basic (snd p)))) l.
Definition added_singly (l : list (node * cond)) : list call := map (fun p => CSet (SAdd (fst p) (Basic (snd p)))) l.
