(** Specification vocabulary: which runs keep absolute time. *)
From Verif Require Export SpecAbs.

(** x is a TimeInterval or a TimeTermination *)
Definition timed (x : cond) : Prop :=
  exists o, (exists r s e si ei, x = CAtom o (ATimeInterval r s e si ei)) \/ (exists t incl, x = CAtom o (ATimeTermination t incl)).
(** no condition of a node and no termination condition is, or has below All and Any only, a
    TimeInterval or a TimeTermination *)
Definition timeless (ms : core) (g0 : gen) : Prop :=
  forall c x, registered ms (run_tc ms g0) c -> part_of x c -> ~ timed x.
(** the condition of b is Not(TimeInterval(repeat=r, start=s, end=e, ...)) *)
Definition not_interval (b : node) (s e : option quantity) (si ei : bool) (m : core) : Prop :=
  exists o o', aget b (m_basic m) = Some (CNot o (CAtom o' (ATimeInterval None s e si ei))).
(** the termination condition of the run is TimeInterval(repeat=r, end=e), which belongs to no node *)
Definition stops_every (r : quantity) (e : option quantity) (ms : core) (g0 : gen) : Prop :=
  exists o si ei, run_tc ms g0 ESU = Some (CAtom o (ATimeInterval (Some r) None e si ei)) /\ m_owners ms o = None /\ o < m_next ms.
