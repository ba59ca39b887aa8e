(** Specification vocabulary for C81: termination conditions only say when a run ends. *)
From Verif Require Export SpecRun SpecTime SpecTamper Sched.

(** v' is a later view of the same run as v (or the same): the counts of the environment state
    update and of coarser scales have not become smaller, and the clock has seen passes and
    consideration set executions only.  Counts of the pass may differ, as they are reset. *)
Record later_in_run (v v' : view) : Prop := {
  lr_nodes : v_nodes v' = v_nodes v;
  lr_total : exists f f', v_total v = Some f /\ v_total v' = Some f' /\ forall s n, ts_le ESU s -> f s n <= f' s n;
  lr_clock : exists h h2, clock_after ESU h (v_clock v) /\ clock_after ESU (h ++ h2) (v_clock v') /\ Forall (fun s => ts_lt s ESU) h2 }.
(** a view of a run with nodes ns in which conditions are evaluated *)
Definition view_in_run (ns : list node) (v : view) : Prop :=
  v_nodes v = ns /\ v_total v <> None /\ exists h, clock_after ESU h (v_clock v).
(** a condition that can always be evaluated, changes nothing, and once true stays true until
    the end of the run *)
Record stays_true (ns : list node) (c : cond) : Prop := {
  st_answers : forall v e ow st, view_in_run ns v -> exists b, eval v e ow c st = (Ok b, st);
  st_stays : forall v v' e ow st st', view_in_run ns v -> later_in_run v v' -> eval v e ow c st = (Ok true, st) -> eval v' e ow c st' = (Ok true, st');
  st_relative : is_absolute c = false }.
(** those recognised by their form *)
Definition from_on (c : cmp) : bool := match c with Ge | Gt => true | _ => false end.
Fixpoint only_grows (ns : list node) (c : cond) : bool :=
  match c with
  | CAtom _ a =>
      match a with
      | AAlways | ANever => true
      | ATime k q _ b => from_on k && ts_ltb q b && ts_leb ESU b
      | ACalls k d _ s => from_on k && mem d ns && ts_leb ESU s
      | ACallsCombined ds (Some _) s => forallb (fun d => mem d ns) ds && ts_leb ESU s
      | AAllHaveRun ds s => forallb (fun d => mem d ns) ds && ts_leb ESU s
      | _ => false
      end
  | CAll _ cs | CAny _ cs => forallb (only_grows ns) cs
  | _ => false
  end.

(** The termination conditions with which a run goes: those of the scheduler, replaced by the
    argument of run where it has some *)
Definition in_force (m : core) (tcarg : option tconds) : tconds :=
  match tcarg with None => m_tconds m | Some a => fun s => match a s with Some c => Some c | None => m_tconds m s end end.
(** there is one for the environment state update and one for the sequence, and all stay true *)
Definition stay_true (ns : list node) (tc : tconds) : Prop :=
  tc ESU <> None /\ tc ES <> None /\ forall s c, tc s = Some c -> stays_true ns c.
(** one of the two holds *)
Definition holds (v : view) (e : eid) (ow : oid -> option node) (tc : tconds) : Prop :=
  exists s c, (s = ESU \/ s = ES) /\ tc s = Some c /\ forall st, eval v e ow c st = (Ok true, st).

(** A scheduler that can run under execution id e: its clock is a clock that was incremented
    somehow; no condition of a node switches on absolute time. *)
Record can_run (m : core) (e : eid) : Prop := {
  cr_clock : exists h, clock_after ESU h (the_clock (m_ctxs m e));
  cr_relative : forall n c, In (n, c) (m_basic m) -> is_absolute c = false }.

(** The first of two runs yielded what the other yielded and ended in the same way; or it
    returned, having yielded a beginning of what the other yielded. *)
Definition no_more_than (ys : list (list node)) (o : outcome) (ys' : list (list node)) (o' : outcome) : Prop :=
  (ys' = ys /\ o' = o) \/ exists r l, ys' = ys ++ r /\ o = OReturn l.
(** what one sees of a run: the sets that it yielded, and how it ended *)
Definition result := (list (list node) * outcome)%type.
Definition result_of {X : Type} (x : X * gen * list (list node) * outcome) : result := let '(_, _, ys, o) := x in (ys, o).
(** the same sets and the same ending (the list that is returned may have other entries for
    earlier runs) *)
Definition same_result (r r' : result) : Prop := fst r' = fst r /\ same_outcome (snd r) (snd r').
Definition shorter (r r' : result) : Prop := no_more_than (fst r) (snd r) (fst r') (snd r').
(** run(termination_conds={ESU: c}), run(termination_conds={ESU: c, ES: c'}) *)
Definition at_update (c : cond) : option tconds := Some (fun s => match s with ESU => Some c | _ => None end).
Definition at_both (c c' : cond) : option tconds := Some (fun s => match s with ESU => Some c | ES => Some c' | _ => None end).
(** Every condition that tells a run of scheduler d when to end stays true once it is true. *)
Definition ends_for_good (d : sched) (a : option tconds) : Prop := stay_true (d_nodes d) (in_force (core_of d) a).
