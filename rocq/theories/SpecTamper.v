(** Specification vocabulary for what users do to execution_list and to the sets in it.  run
    yields the very set object it has put into execution_list (scheduler.py 966-971, 979-980),
    so changing a yielded set changes execution_list. *)
From Verif Require Export SpecRun.

(** The same scheduler, except that what execution_list holds for the execution ids it has may
    be different. *)
Record same_ctx (x y : ctx) : Prop := {
  sc_total : x_total y = x_total x;
  sc_use : x_use y = x_use x;
  sc_list : x_list x = None <-> x_list y = None;
  sc_stamps : x_stamps y = x_stamps x;
  sc_clock : x_clock y = x_clock x }.
Record same_but_lists (m m' : core) : Prop := {
  sb_nodes : m_nodes m' = m_nodes m;
  sb_graph : m_graph m' = m_graph m;
  sb_levels : m_levels m' = m_levels m;
  sb_exact : m_exact m' = m_exact m;
  sb_unit : m_default_unit m' = m_default_unit m;
  sb_tconds : m_tconds m' = m_tconds m;
  sb_basic : m_basic m' = m_basic m;
  sb_owners : m_owners m' = m_owners m;
  sb_next : m_next m' = m_next m;
  sb_cst : m_cst m' = m_cst m;
  sb_ctxs : forall e, same_ctx (m_ctxs m e) (m_ctxs m' e) }.

(** A condition that does not look at what execution_list holds. *)
Definition with_list (v : view) (l : list (list node)) : view :=
  mkView (v_nodes v) (v_queue v) (v_exact_mode v) (v_total v) (v_use v) (Some l) (v_clock v).
Definition ignores_lists (c : cond) : Prop :=
  forall v e ow st l, v_list v <> None -> eval (with_list v l) e ow c st = eval v e ow c st.
Definition all_ignore (tc : tconds) : Prop := forall s c, tc s = Some c -> ignores_lists c.
(** conditions built without JustRan and without user functions *)
Fixpoint without_just_ran (c : cond) : bool :=
  match c with
  | CAtom _ (ACustom _) | CAtom _ (AJustRan _) => false
  | CAtom _ _ => true
  | CAll _ cs | CAny _ cs => forallb without_just_ran cs
  | CNot _ c' => without_just_ran c'
  | CNWhen _ c' _ => without_just_ran c'
  end.

(** list(scheduler.run(...)) by a user who does something to the scheduler before asking for
    the next set: t k is what they do after having received k sets *)
Fixpoint drive_tampering (t : nat -> core -> core) (steps fuel : nat) (m : core) (g : gen) (acc : list (list node))
  : core * gen * list (list node) * outcome :=
  match steps with
  | O => (m, g, acc, OFuel)
  | S k =>
      match resume fuel (t (length acc) m) g with
      | (m', g', OYield s) => drive_tampering t k fuel m' g' (acc ++ [s])
      | (m', g', o) => (m', g', acc, o)
      end
  end.
(** the same outcome, except for the list that is returned *)
Definition same_outcome (o o' : outcome) : Prop :=
  match o, o' with OReturn _, OReturn _ => True | _, _ => o' = o end.
(** changing the set yielded last in place *)
Definition change_last (f : list node -> list node) (e : eid) (m : core) : core :=
  let x := m_ctxs m e in
  match x_list x with
  | Some l => match rev l with
              | last :: r => set_ctx m e (mkCtx (x_total x) (x_use x) (Some (rev r ++ [f last])) (x_stamps x) (x_clock x))
              | [] => m
              end
  | None => m
  end.
