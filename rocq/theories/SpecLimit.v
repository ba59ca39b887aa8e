(** Specification vocabulary: conditions that limit how often a node is executed. *)
From Verif Require Export SpecLedger SpecCond.

(** c can only be satisfied while the node n was called less than N times at scale s:
    BeforeNCalls(n, k, s) with k <= N, AtNCalls(n, k, s) with k < N, Never; Not(AfterNCalls(n, k, s)) with k <= N, Not(AfterCall(n, k, s)) with k < N; All of conditions one
    of which is such; Any of such conditions *)
Fixpoint limits (s : timescale) (n : node) (N : nat) (c : cond) : bool :=
  match c with
  | CAtom _ a =>
      match a with
      | ANever => true
      | ACalls Lt d k s' => Nat.eqb d n && Nat.eqb (ts_val s') (ts_val s) && Nat.leb k N
      | ACalls Eq d k s' | ACalls Le d k s' => Nat.eqb d n && Nat.eqb (ts_val s') (ts_val s) && Nat.ltb k N
      | _ => false
      end
  | CAll _ cs => existsb (limits s n N) cs
  | CAny _ cs => forallb (limits s n N) cs
  | CNot _ (CAtom _ (ACalls Ge d k s')) => Nat.eqb d n && Nat.eqb (ts_val s') (ts_val s) && Nat.leb k N
  | CNot _ (CAtom _ (ACalls Gt d k s')) => Nat.eqb d n && Nat.eqb (ts_val s') (ts_val s) && Nat.ltb k N
  | _ => false
  end.
(** the condition that node n has now limits it *)
Definition limited (s : timescale) (n : node) (N : nat) (d : sched) : Prop :=
  exists c, aget n (cs_basic (d_cs d)) = Some c /\ limits s n N c = true.
(** ... whenever next() is called on a generator during a session *)
Fixpoint stays_limited (cyc : graph -> list (list node)) (arr : list (list node) -> list (list node))
    (s : timescale) (n : node) (N : nat) (ks : list call) (d : sched) : Prop :=
  match ks with
  | [] => True
  | k :: r => match k with CNext _ _ => limited s n N d | _ => True end /\ stays_limited cyc arr s n N r (after cyc arr k d)
  end.
(** no execution id counts more than N calls of n at scale s *)
Definition within (s : timescale) (n : node) (N : nat) (d : sched) : Prop :=
  forall e t, x_total (d_ctxs d e) = Some t -> t s n <= N.
