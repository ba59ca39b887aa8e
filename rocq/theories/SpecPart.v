(** Specification vocabulary for parts of a scheduler: some of its nodes (C79). *)
From Verif Require Export SpecPass.

(** the history of a clock without the executions of consideration sets: the passes and the
    coarser units that have been completed *)
Definition coarse (h : list timescale) : list timescale := filter (ts_leb PASS) h.
(** a truth value determined by the numbers of calls (counts_total, counts_useable) and the history
    of passes and coarser units *)
Definition ruling := (timescale -> node -> nat) -> (node -> node -> nat) -> list timescale -> bool.
(** ... of which only the calls of the nodes selected by p matter *)
Definition about (p : node -> bool) (F : ruling) : Prop := forall t t' u u' h,
  (forall s n, p n = true -> t' s n = t s n) -> (forall a b, p a = true -> p b = true -> u' a b = u a b) -> F t' u' h = F t u h.
(** whenever the condition c comes out true or false, F says which *)
Definition told_by (ow : oid -> option node) (F : ruling) (c : cond) : Prop := forall v e st st' r h t u,
  clock_after ESU h (v_clock v) -> v_total v = Some t -> v_use v = Some u -> eval v e ow c st = (Ok r, st') -> r = F t u (coarse h).
(** the condition of each node n of the part is told by F n, and the termination conditions that a
    run of g would use are ones that stay true over the end of a pass *)
Definition part_ruled (p : node -> bool) (F : node -> ruling) (g : gen) (m : core) : Prop :=
  (forall n c, p n = true -> aget n (m_basic m) = Some c -> told_by (m_owners m) (F n) c) /\
  (forall s t, run_tc m g s = Some t -> carries_over t).
(** what of a list of sets lies in the part; sets without nodes of the part are left out *)
Definition part_sets (p : node -> bool) (l : list (list node)) : list (list node) := filter nonempty (map (filter p) l).

(** ** the library's conditions
    number of units of scale q in a history, counted from the last unit of scale s or coarser *)
Definition units_now (q s : timescale) (h : list timescale) : nat :=
  fold_left (fun k x => if ts_leb s x then 0 else if ts_eqb q x then S k else k) h 0.
(** the conditions that nodes selected by p may have, and what they tell *)
Inductive tells (p : node -> bool) (ow : oid -> option node) : ruling -> cond -> Prop :=
| te_always : forall o, tells p ow (fun _ _ _ => true) (Always o)
| te_never : forall o, tells p ow (fun _ _ _ => false) (Never o)
| te_time : forall o c q n s, ts_le PASS q -> ts_lt q s -> ts_le ESU s ->
    tells p ow (fun _ _ h => cmp_nat c (units_now q s h) n) (CAtom o (ATime c q n s))
| te_passes : forall o n s, ts_le ESU s -> tells p ow (fun _ _ h => Nat.eqb (units_now PASS s h mod n) 0) (EveryNPasses o n s)
| te_sequence : forall o c n, tells p ow (fun _ _ h => cmp_nat c (count ES h) n) (CAtom o (ASeq c n))
| te_calls : forall o c d n s, p d = true -> tells p ow (fun t _ _ => cmp_nat c (t s d) n) (CAtom o (ACalls c d n s))
| te_combined : forall o ds n s, (forall d, In d ds -> p d = true) ->
    tells p ow (fun t _ _ => Nat.leb n (sum_over (t s) ds)) (CAtom o (ACallsCombined ds (Some n) s))
| te_all_have_run : forall o ds s, ds <> [] -> (forall d, In d ds -> p d = true) ->
    tells p ow (fun t _ _ => forallb (fun d => Nat.leb 1 (t s d)) ds) (CAtom o (AAllHaveRun ds s))
| te_every : forall o d n b, ow o = Some b -> p b = true -> p d = true ->
    tells p ow (fun _ u _ => Nat.leb n (u d b)) (EveryNCalls o d n)
| te_not : forall o f c, tells p ow f c -> tells p ow (fun t u h => negb (f t u h)) (CNot o c)
| te_all_nil : forall o, tells p ow (fun _ _ _ => true) (CAll o [])
| te_all : forall o f g c cs, tells p ow f c -> tells p ow g (CAll o cs) -> tells p ow (fun t u h => f t u h && g t u h) (CAll o (c :: cs))
| te_any_nil : forall o, tells p ow (fun _ _ _ => false) (CAny o [])
| te_any : forall o f g c cs, tells p ow f c -> tells p ow g (CAny o cs) -> tells p ow (fun t u h => f t u h || g t u h) (CAny o (c :: cs))
| te_same : forall f g c, tells p ow f c -> (forall t u h, g t u h = f t u h) -> tells p ow g c.
(** each node n of the part has a condition that tells F n, or none yet: then its senders are in
    the part and F n is what the default condition tells *)
Definition part_ready (p : node -> bool) (F : node -> ruling) (m : core) : Prop := fresh_ids m /\
  forall n, p n = true -> match aget n (m_basic m) with
  | Some c => tells p (m_owners m) (F n) c /\ forall o, In o (oids c) -> o < m_next m
  | None => exists ds, aget n (m_graph m) = Some ds /\ (forall d, In d ds -> p d = true) /\
      forall t u h, F n t u h = forallb (fun d => Nat.leb 1 (u d n)) ds
  end.
(** as [running_while_in_passes], but P is asked for only after user code has had control *)
Inductive running_beside (P : core -> Prop) (m0 : core) (g0 : gen) : list (nat * list node) -> core -> gen -> Prop :=
| rb_created : P m0 -> running_beside P m0 g0 [] m0 g0
| rb_env : forall ts m g m', running_beside P m0 g0 ts m g -> undisturbed (g_eid g0) m m' -> P m' -> running_beside P m0 g0 ts m' g
| rb_yields : forall ts m g fuel m' g' s, running_beside P m0 g0 ts m g -> resume fuel m g = (m', g', OYield s) ->
    running_beside P m0 g0 (ts ++ [(pass_number m' (g_eid g0), s)]) m' g'.
(** ... where P is: the nodes of the part are as above, and the termination conditions stay true
    over the end of a pass *)
Definition part_fit (p : node -> bool) (F : node -> ruling) (g : gen) (m : core) : Prop :=
  part_ready p F m /\ forall s t, run_tc m g s = Some t -> carries_over t.
(** the nodes of the part are in both graphs, with the same senders, and these belong to the part *)
Definition part_closed (p : node -> bool) (G G' : graph) : Prop := forall n, p n = true -> exists ds ds',
  aget n G = Some ds /\ aget n G' = Some ds' /\ forall d, (In d ds <-> In d ds') /\ (In d ds -> p d = true).
