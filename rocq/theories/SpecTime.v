(** Specification vocabulary for time: histories of clock increments (oldest first). *)
From Verif Require Export TimeModel.

Definition ts_le (a b : timescale) : Prop := ts_val a <= ts_val b.
Definition ts_lt (a b : timescale) : Prop := ts_val a < ts_val b.

(** number of increments of scale q in a history *)
Definition count (q : timescale) (h : list timescale) : nat := length (filter (ts_eqb q) h).

(** [h2] is the part of the history [h] since the last increment of scale b or coarser *)
Definition since_at_least (b : timescale) (h h2 : list timescale) : Prop :=
  Forall (fun s => ts_lt s b) h2 /\ (h = h2 \/ exists h1 x, h = h1 ++ x :: h2 /\ ts_le b x).
(** [h2] is the part of [h] since the last increment of a scale coarser than s *)
Definition since_coarser (s : timescale) (h h2 : list timescale) : Prop :=
  Forall (fun x => ts_le x s) h2 /\ (h = h2 \/ exists h1 x, h = h1 ++ x :: h2 /\ ts_lt s x).

(** the successive units of scale c in a history: cut at every increment of scale c *)
Fixpoint segments (c : timescale) (h : list timescale) : list (list timescale) :=
  match h with
  | [] => [[]]
  | s :: r =>
      if ts_eqb s c then [] :: segments c r
      else match segments c r with
           | u :: us => (s :: u) :: us
           | [] => [[s]]
           end
  end.

(** the part of a history that indices choose, from coarser to finer scales: the unit with the given
    index (counted from 0) of each scale, the latest one if no index is given *)
Definition chosen (idx : timescale -> option nat) (c : timescale) (h : list timescale) : option (list timescale) :=
  nth_error (segments c h) (match idx c with Some i => i | None => length (segments c h) - 1 end).
Fixpoint part (idx : timescale -> option nat) (cs : list timescale) (h : list timescale) : option (list timescale) :=
  match cs with
  | [] => Some h
  | c :: r => match chosen idx c h with Some u => part idx r u | None => None end
  end.
(** the scales finer than LIFE and not finer than b, the coarsest first *)
Definition down_to (b : timescale) : list timescale :=
  match b with LIFE => [] | ES => [ES] | ESU => [ES; ESU] | PASS => [ES; ESU; PASS] | CSE => [ES; ESU; PASS; CSE] end.
(** b is the finest scale coarser than q for which there is an index; LIFE always counts *)
Definition finest_given (q : timescale) (idx : timescale -> option nat) (b : timescale) : Prop :=
  ts_lt q b /\ (b = LIFE \/ idx b <> None) /\ forall s, ts_lt q s -> idx s <> None -> ts_le b s.

(** LIFE is never incremented *)
Definition no_life (h : list timescale) : Prop := Forall (fun s => ts_lt s LIFE) h.

(** [clock_after md h k]: k is a clock (tree of depth md) whose increments so far were h.
    Its absolute-time attributes may be set at any moment (Scheduler.run does so). *)
Inductive clock_after (md : timescale) : list timescale -> clock -> Prop :=
| ca_new : forall k, clock_md md = Some k -> clock_after md [] k
| ca_incr : forall h k s k', clock_after md h k -> clock_incr s k = Ok k' -> clock_after md (h ++ [s]) k'
| ca_abs : forall h k a i b, clock_after md h k ->
    clock_after md h (mkClock (k_tree k) (k_md k) (mkTime (t_val (k_time k)) a i b) (k_prev k)).
