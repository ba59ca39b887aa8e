(** Specification vocabulary for conditions. *)
From Verif Require Export SpecTime Cond.

(** [decides r P]: the computation gives a truth value, and it is true iff P *)
Definition decides (r : res bool) (P : Prop) : Prop := exists b, r = Ok b /\ (b = true <-> P).
(** result of c.is_satisfied(...) in a view, and the state after it *)
Definition is_satisfied (v : view) (e : eid) (ow : oid -> option node) (st : cstate) (c : cond) : res bool :=
  fst (eval v e ow c st).
Definition state_after (v : view) (e : eid) (ow : oid -> option node) (st : cstate) (c : cond) : cstate :=
  snd (eval v e ow c st).
(** number of units of scale q since the last unit of scale s (or coarser) was completed, in
    the increment history h; s = LIFE: in all of h *)
Definition units_within (q s : timescale) (h : list timescale) (k : nat) : Prop :=
  exists h2, since_at_least s h h2 /\ k = count q h2.

(** two views show the same: counts compared value by value *)
Record same_view (v v' : view) : Prop := {
  sv_nodes : v_nodes v' = v_nodes v;
  sv_queue : v_queue v' = v_queue v;
  sv_mode : v_exact_mode v' = v_exact_mode v;
  sv_total : match v_total v, v_total v' with
             | Some t, Some t' => forall s n, t' s n = t s n
             | None, None => True
             | _, _ => False
             end;
  sv_use : match v_use v, v_use v' with
           | Some u, Some u' => forall a b, u' a b = u a b
           | None, None => True
           | _, _ => False
           end;
  sv_list : v_list v' = v_list v;
  sv_clock : v_clock v' = v_clock v
}.
(** a condition without side effects: evaluating it changes neither NWhen counters nor the
    outside world, and its value is a function of these and of what the view shows *)
Record observer (e : eid) (ow : oid -> option node) (c : cond) : Prop := {
  ob_state : forall v st, state_after v e ow st c = st;
  ob_view : forall v v' st, same_view v v' -> is_satisfied v' e ow st c = is_satisfied v e ow st c
}.
(** conditions built from the library's classes other than NWhen, without user functions *)
Fixpoint plain (c : cond) : bool :=
  match c with
  | CAtom _ (ACustom _) => false
  | CAtom _ _ => true
  | CAll _ cs | CAny _ cs => forallb plain cs
  | CNot _ c' => plain c'
  | CNWhen _ _ _ => false
  end.

(** total number of calls of the nodes ds *)
Definition sum_over (f : node -> nat) (ds : list node) : nat := fold_right (fun d k => f d + k) 0 ds.

(** A history of evaluations of the object o = NWhen(c, n) for execution id e, oldest first:
    each entry is the truth value of c at that moment and the reported result.  Between the
    evaluations anything may happen to the outside world, to other objects and to other
    execution ids. *)
Inductive nwhen_history (o : oid) (c : cond) (n : nat) (e : eid) : list (bool * bool) -> cstate -> Prop :=
| nh_new : forall st, s_sats st o e = 0 -> nwhen_history o c n e [] st
| nh_other : forall h st st', nwhen_history o c n e h st -> s_sats st' o e = s_sats st o e -> nwhen_history o c n e h st'
| nh_eval : forall h st v ow b r st', nwhen_history o c n e h st -> is_satisfied v e ow st c = Ok b ->
    eval v e ow (CNWhen o c n) st = (Ok r, st') -> nwhen_history o c n e (h ++ [(b, r)]) st'.
(** the condition objects a condition consists of *)
Fixpoint oids (c : cond) : list oid :=
  match c with
  | CAtom o _ => [o]
  | CAll o cs | CAny o cs => o :: flat_map oids cs
  | CNot o c' => o :: oids c'
  | CNWhen o c' _ => o :: oids c'
  end.
(** comparison operators of Threshold on numbers *)
Definition compares (c : cmp) (x t atol rtol : Q) : Prop :=
  match c with
  | Eq => (Qabs.Qabs (x - t) <= atol + rtol * Qabs.Qabs t)%Q
  | Ne => ~ (Qabs.Qabs (x - t) <= atol + rtol * Qabs.Qabs t)%Q
  | Lt => (x < t)%Q | Le => (x <= t)%Q | Gt => (t < x)%Q | Ge => (t <= x)%Q
  end.
(** x is the element at index i of l, counted from 0, or from the end if i is negative *)
Definition element {A} (l : list A) (i : Z) (x : A) : Prop :=
  exists k, nth_error l k = Some x /\ (i = Z.of_nat k \/ i = (Z.of_nat k - Z.of_nat (List.length l))%Z).
(** the element of a nested sequence at the given indices *)
Inductive at_index : pval -> list Z -> pval -> Prop :=
| ai_here : forall p, at_index p [] p
| ai_sub : forall l i ix x y, element l i x -> at_index x ix y -> at_index (PSeq l) (i :: ix) y.
