(** Specification vocabulary for the arguments of time conditions (C68). *)
From Verif Require Export SpecAbs TimeArgs.
Open Scope nat_scope.

(** the length of the unit argument *)
Definition unit_is (p : registry) (u : raw_unit) (l : Q) : Prop :=
  u = UUnit l \/ exists s, u = UName s /\ p_named p s = Some l.
(** the time that the argument n stands for: a quantity for itself, a number for so many units, a
    string for the quantity or number that it spells *)
Inductive means (p : registry) (u : raw_unit) : raw -> Q -> Prop :=
| m_qty : forall q, means p u (RQty q) (q_val q)
| m_num : forall x l, unit_is p u l -> means p u (RNum x) (x * l)
| m_full : forall s q, p_read p s = Full q -> means p u (RStr s) (q_val q)
| m_plain : forall s x l, p_read p s = Plain (Some x) -> unit_is p u l -> means p u (RStr s) (x * l).
Definition meaningful (p : registry) (u : raw_unit) (n : option raw) : Prop := forall x, n = Some x -> exists t, means p u x t.
(** start is given as later than end *)
Definition later (p : registry) (u : raw_unit) (st en : option raw) : Prop :=
  exists s e x y, st = Some s /\ en = Some e /\ means p u s x /\ means p u e y /\ (y < x)%Q.
(** start and end are both numbers or both quantities, if both are given *)
Definition alike (st en : option raw) : Prop := forall s e, st = Some s -> en = Some e ->
  (exists x y, s = RNum x /\ e = RNum y) \/ (exists x y, s = RQty x /\ e = RQty y).
(** all units are longer than nothing *)
Definition positive_units (p : registry) (u : raw_unit) : Prop :=
  (forall l, In l (p_units p) -> (0 < l)%Q) /\ (forall l, unit_is p u l -> (0 < l)%Q).
(** the time t is one of those described by the arguments: not before start, not after end, a
    whole number of repeat away from start (from 0 if there is no start) *)
Definition in_given_window (p : registry) (u : raw_unit) (r s e : option raw) (si ei : bool) (t : Q) : Prop :=
  (forall n x, s = Some n -> means p u n x -> (if si then x <= t else x < t)%Q) /\
  (forall n x, e = Some n -> means p u n x -> (if ei then t <= x else t < x)%Q) /\
  (forall n x, r = Some n -> means p u n x ->
     (s = None -> multiple t x) /\ (forall k y, s = Some k -> means p u k y -> multiple (t - y) x)).
(** the parsed argument has the value of the argument *)
Definition holds_value (p : registry) (u : raw_unit) (n : option raw) (q : option quantity) : Prop :=
  match n, q with
  | None, None => True
  | Some n, Some q => exists x, means p u n x /\ (q_val q == x)%Q
  | _, _ => False
  end.
