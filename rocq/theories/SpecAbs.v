(** Specification vocabulary for absolute time. *)
From Verif Require Export SpecRun.
From Verif Require Import YieldFacts.
Open Scope nat_scope.

(** x is an integer multiple of the duration u *)
Definition multiple (x u : Q) : Prop := exists z, (x == inject_Z z * u)%Q.

(** x occurs in the condition c below All and Any only *)
Inductive part_of (x : cond) : cond -> Prop :=
| po_self : part_of x x
| po_all : forall o cs c, In c cs -> part_of x c -> part_of x (CAll o cs)
| po_any : forall o cs c, In c cs -> part_of x c -> part_of x (CAny o cs).

(** the length q is one a schedule has to respect because of x: x repeats every q, or (in
    exact time mode) x starts or ends to hold at q, inclusively *)
Inductive repeats (x : cond) (q : quantity) : Prop :=
| rep_interval : forall o s e si ei, x = CAtom o (ATimeInterval (Some q) s e si ei) -> repeats x q.
Inductive fixed_at (x : cond) (q : quantity) : Prop :=
| fx_start : forall o r e ei, x = CAtom o (ATimeInterval r (Some q) e true ei) -> fixed_at x q
| fx_end : forall o r s si, x = CAtom o (ATimeInterval r s (Some q) si true) -> fixed_at x q
| fx_term : forall o, x = CAtom o (ATimeTermination q true) -> fixed_at x q.
Definition respected (exact : bool) (c : cond) (q : quantity) : Prop :=
  exists x, part_of x c /\ (repeats x q \/ exact = true /\ fixed_at x q).
(** c is the condition of a node or a termination condition *)
Definition registered (m : core) (tc : tconds) (c : cond) : Prop :=
  In c (map snd (m_basic m)) \/ exists s, tc s = Some c.

(** q is a whole number of a unit which is a power of ten times the unit mu *)
Definition decimal (mu : Q) (q : quantity) : Prop :=
  exists z k, (q_mag q == inject_Z z)%Q /\ (q_unit q == inject_Z (10 ^ Z.of_nat k) * mu)%Q.

(** number of consideration set executions that one pass's length is divided into *)
Definition executions_per_pass (m : core) : nat := if m_exact m then 1 else length (m_levels m).

(** what the clock of execution id e shows *)
Definition shown_time (m : core) (e : eid) : Q := t_abs (k_time (the_clock (m_ctxs m e))).
Definition step_length (m : core) (e : eid) : Q := t_interval (k_time (the_clock (m_ctxs m e))).

(** t is between start and end (each strictly if not inclusive), and, if repeat = r is given,
    a whole number of r away from start (from 0 if there is no start) *)
Definition in_window (r s e : option quantity) (si ei : bool) (t : Q) : Prop :=
  (forall q, s = Some q -> (if si then q_val q <= t else q_val q < t)%Q) /\
  (forall q, e = Some q -> (if ei then t <= q_val q else t < q_val q)%Q) /\
  (forall q, r = Some q -> multiple (t - match s with Some p => q_val p | None => 0 end) (q_val q)).

(** the condition of b is TimeInterval(repeat=r, start=s, end=e, start_inclusive=si, end_inclusive=ei) *)
Definition interval_condition (b : node) (r s e : option quantity) (si ei : bool) (m : core) : Prop :=
  exists o, aget b (m_basic m) = Some (CAtom o (ATimeInterval r s e si ei)) /\ m_owners m o = Some b.

(** the generator g0 was resumed for the first time in the scheduler state ms; since then it
    has yielded ys, and P held of the state then and each time user code had control *)
Definition begun (P : core -> Prop) (ms : core) (g0 : gen) (ys : list (list node)) (m : core) (g : gen) : Prop :=
  P ms /\ g_pc g0 = PStart /\ exists fuel m1 g1 s ys', ys = s :: ys' /\
    resume fuel ms g0 = (m1, g1, OYield s) /\ running_while P m1 g1 ys' m g.
(** the lengths used by the conditions are fit for unit conversion by powers of ten *)
Definition decimal_lengths (mu : Q) (ms : core) (g0 : gen) : Prop :=
  (0 < mu)%Q /\ forall c q, registered ms (run_tc ms g0) c -> respected (m_exact ms) c q -> decimal mu q.

(** c is TimeTermination(t, inclusive), possibly below Any *)
Inductive ends_at (t : quantity) (incl : bool) : cond -> Prop :=
| ea_self : forall o, ends_at t incl (CAtom o (ATimeTermination t incl))
| ea_any : forall o cs c, In c cs -> ends_at t incl c -> ends_at t incl (CAny o cs).
Definition before (t : quantity) (incl : bool) (x : Q) : Prop := (if incl then x < q_val t else x <= q_val t)%Q.
(** the same run has ended (P is only asked for while user code had control); l is the value
    it returned *)
Definition ended (P : core -> Prop) (ms : core) (g0 : gen) (ys : list (list node)) (m : core) (l : list (list node)) : Prop :=
  exists fuel g2, (ys = [] /\ P ms /\ g_pc g0 = PStart /\ resume fuel ms g0 = (m, g2, OReturn l)) \/
    (exists m1 g1, begun P ms g0 ys m1 g1 /\ resume fuel m1 g1 = (m, g2, OReturn l)).
(** c has no inclusive start, end or termination time *)
Definition no_fixed_time (c : cond) : Prop := forall x q, part_of x c -> ~ fixed_at x q.
(** the consideration set executions take time: some length to be respected is not 0, or there is
    none and the default unit is positive *)
Definition positive_step (ms : core) (g0 : gen) : Prop :=
  (exists c q, registered ms (run_tc ms g0) c /\ respected (m_exact ms) c q /\ ~ (q_val q == 0)%Q) \/
  ((forall c q, registered ms (run_tc ms g0) c -> ~ respected (m_exact ms) c q) /\ (0 < q_val (m_default_unit ms))%Q).
(** c is TimeTermination(t, inclusive) or Never *)
Definition only_ends (t : quantity) (incl : bool) (c : cond) : Prop :=
  (exists o, c = CAtom o (ATimeTermination t incl)) \/ (exists o, c = CAtom o ANever).
