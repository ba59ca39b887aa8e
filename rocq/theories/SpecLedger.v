(** Specification vocabulary for the records of an execution id over a whole session: any
    sequence of public calls on one scheduler, with any number of generators of the same and
    of other execution ids, resumed in any order, abandoned or ended by an exception. *)
From Verif Require Export SpecChange.

Section Session.
Variable cyc : graph -> list (list node).
Variable arr : list (list node) -> list (list node).

(** the state in which the calls leave the scheduler; a call that raises does not end the
    session, the caller may catch the exception and go on *)
Definition after_all (ks : list call) (d : sched) : sched := fold_left (fun d k => after cyc arr k d) ks d.

(** what the caller is told by the call: how resuming a generator ended *)
Definition told (k : call) (d : sched) : option outcome :=
  match k with CNext f g => Some (snd (sresume cyc arr f d g)) | _ => None end.
(** the execution id whose generator the call resumes *)
Definition concerns (e : eid) (k : call) : bool :=
  match k with CNext _ g => Nat.eqb (g_eid g) e | _ => false end.

(** the sets yielded by the generators of e, in the order in which the caller receives them *)
Fixpoint received (e : eid) (ks : list call) (d : sched) : list (list node) :=
  match ks with
  | [] => []
  | k :: r =>
      (if concerns e k then match told k d with Some (OYield s) => [s] | _ => [] end else [])
      ++ received e r (after cyc arr k d)
  end.
(** the number of exceptions raised by generators of e *)
Fixpoint failures (e : eid) (ks : list call) (d : sched) : nat :=
  match ks with
  | [] => 0
  | k :: r =>
      (if concerns e k then match told k d with Some (ORaise _) => 1 | _ => 0 end else 0)
      + failures e r (after cyc arr k d)
  end.
(** no generator of e uses absolute time: none that was resumed is then in absolute time mode *)
Fixpoint timeless (e : eid) (ks : list call) (d : sched) : Prop :=
  match ks with
  | [] => True
  | k :: r =>
      match k with CNext f g => g_eid g = e -> g_abs (snd (fst (sresume cyc arr f d g))) = false | _ => True end
      /\ timeless e r (after cyc arr k d)
  end.
End Session.

(** list of executions and counts of an execution id (the scheduler's own execution id has them from
    the beginning, any other from the start of its first run on) *)
Definition recorded (x : ctx) (l : list (list node)) (t : timescale -> node -> nat) : Prop :=
  x_list x = Some l /\ x_total x = Some t.
(** there is a list of times of executions (only for the scheduler's own execution id) *)
Definition stamped (x : ctx) : Prop := x_stamps x <> None.
