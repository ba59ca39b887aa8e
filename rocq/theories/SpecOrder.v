(** Specification vocabulary for C05: the order in which the nodes of a consideration set (a
    Python set) are considered. *)
From Verif Require Export SpecSched.

(** two lists of sets that are the same up to the order inside the sets *)
Definition alike_sets : list (list node) -> list (list node) -> Prop := Forall2 (@Permutation node).
Definition both {A} (R : A -> A -> Prop) (a b : option A) : Prop :=
  match a, b with Some x, Some y => R x y | None, None => True | _, _ => False end.

(** v' shows the same as v up to order inside the sets, and call counts related by [L]; of the
    "useable" counts (calls of d since the last call of w) only the pairs in [R] matter *)
Record alike_view (L : nat -> nat -> Prop) (R : node -> node -> Prop) (v v' : view) : Prop := {
  av_nodes : v_nodes v' = v_nodes v;
  av_queue : alike_sets (v_queue v) (v_queue v');
  av_mode : v_exact_mode v' = v_exact_mode v;
  av_clock : v_clock v' = v_clock v;
  av_list : both alike_sets (v_list v) (v_list v');
  av_total : both (fun t t' => forall s n, L (t s n) (t' s n)) (v_total v) (v_total v');
  av_use : both (fun u u' => forall d w, R d w -> L (u d w) (u' d w)) (v_use v) (v_use v')
}.
(** a condition without side effects that does not become false when more calls are counted *)
Record monotone (R : node -> node -> Prop) (e : eid) (ow : oid -> option node) (c : cond) : Prop := {
  mo_state : forall v st, state_after v e ow st c = st;
  mo_true : forall v v' st, alike_view le R v v' -> is_satisfied v e ow st c = Ok true -> is_satisfied v' e ow st c <> Ok false
}.
(** a condition, with or without side effects, that does not look at the order inside sets *)
Definition blind (R : node -> node -> Prop) (e : eid) (ow : oid -> option node) (c : cond) : Prop :=
  forall v v' st, alike_view eq R v v' -> eval v' e ow c st = eval v e ow c st.

(** *** classes of conditions that are recognised by their form *)
(** the condition does not look at counts *)
Fixpoint countless (c : cond) : bool :=
  match c with
  | CAtom _ (ACalls _ _ _ _) | CAtom _ (ACallsCombined _ _ _) | CAtom _ (AEveryNCalls _ _)
  | CAtom _ (AAllHaveRun _ _) | CAtom _ (ACustom _) => false
  | CAtom _ _ => true
  | CAll _ cs | CAny _ cs => forallb countless cs
  | CNot _ c' => countless c'
  | CNWhen _ _ _ => false
  end.
(** counts only occur as lower bounds: AfterCall, AfterNCalls, AfterNCallsCombined, AllHaveRun
    and EveryNCalls, combined with All and Any; conditions on other things are unrestricted
    except for NWhen and user functions.  EveryNCalls is on a node d of the pairs [R]. *)
Fixpoint lower_bounds (R : node -> node -> Prop) (ow : oid -> option node) (c : cond) : Prop :=
  match c with
  | CAtom _ (ACalls Gt _ _ _) | CAtom _ (ACalls Ge _ _ _) | CAtom _ (ACallsCombined _ _ _) | CAtom _ (AAllHaveRun _ _) => True
  | CAtom o (AEveryNCalls d _) => match ow o with Some w => R d w | None => True end
  | CAtom _ (ACalls _ _ _ _) | CAtom _ (ACustom _) | CNWhen _ _ _ => False
  | CAtom _ _ => True
  | CAll _ cs | CAny _ cs => fold_right (fun c' P => lower_bounds R ow c' /\ P) True cs
  | CNot _ c' => countless c' = true
  end.
(** every condition without user functions; EveryNCalls on a node d of the pairs [R] *)
Fixpoint no_user_functions (R : node -> node -> Prop) (ow : oid -> option node) (c : cond) : Prop :=
  match c with
  | CAtom _ (ACustom _) => False
  | CAtom o (AEveryNCalls d _) => match ow o with Some w => R d w | None => True end
  | CAtom _ _ => True
  | CAll _ cs | CAny _ cs => fold_right (fun c' P => no_user_functions R ow c' /\ P) True cs
  | CNot _ c' | CNWhen _ c' _ => no_user_functions R ow c'
  end.

(** *** whole runs *)
(** d and n are not in the same consideration set *)
Definition apart (q : list (list node)) (d n : node) : Prop := ~ exists s, In s q /\ In d s /\ In n s.
(** two schedulers in the same state, up to the order inside the sets and the calls counted
    between nodes of one consideration set *)
Record alike_ctx (R : node -> node -> Prop) (x x' : ctx) : Prop := {
  ac_total : both (fun t t' => forall s n, t s n = t' s n) (x_total x) (x_total x');
  ac_use : both (fun u u' => forall d w, R d w -> u d w = u' d w) (x_use x) (x_use x');
  ac_list : both alike_sets (x_list x) (x_list x');
  ac_stamps : x_stamps x' = x_stamps x;
  ac_clock : x_clock x' = x_clock x
}.
Record alike (m m' : core) : Prop := {
  al_nodes : m_nodes m' = m_nodes m;
  al_graph : Permutation (m_graph m) (m_graph m');
  al_levels : alike_sets (m_levels m) (m_levels m');
  al_exact : m_exact m' = m_exact m;
  al_unit : m_default_unit m' = m_default_unit m;
  al_tconds : m_tconds m' = m_tconds m;
  al_basic : m_basic m' = m_basic m;
  al_owners : m_owners m' = m_owners m;
  al_next : m_next m' = m_next m;
  al_cst : m_cst m' = m_cst m;
  al_ctxs : forall e, alike_ctx (apart (queue m)) (m_ctxs m e) (m_ctxs m' e)
}.
(** condition objects in use exist already *)
Definition exists_in (m : core) (c : cond) : Prop := forall o, In o (oids c) -> o < m_next m.
(** the conditions of the nodes are monotone, where calls since the own last call are only
    looked at for nodes of other consideration sets; nodes that will get a default condition
    have no senders in their own consideration set *)
Record steady (e : eid) (m : core) : Prop := {
  sy_graph : wf_graph (m_graph m);
  sy_fresh : fresh_ids m;
  sy_cond : forall n c, aget n (m_basic m) = Some c ->
            exists_in m c /\ monotone (fun d w => w = n /\ apart (queue m) d n) e (m_owners m) c;
  sy_default : forall n d, In n (m_nodes m) -> aget n (m_basic m) = None -> edge (m_graph m) d n -> apart (queue m) d n
}.
(** the termination conditions of a run do not look at the order inside sets *)
Definition blind_terms (m : core) (e : eid) (tc : tconds) : Prop :=
  forall s c, tc s = Some c -> exists_in m c /\ blind (apart (queue m)) e (m_owners m) c.
Definition terms_of (m : core) (g : gen) : tconds :=
  match g_pc g with
  | PStart => match g_tcarg g with None => m_tconds m | Some a => fun s => match a s with Some c => Some c | None => m_tconds m s end end
  | _ => g_tc g
  end.
Definition alike_outcome (o o' : outcome) : Prop :=
  match o, o' with
  | OYield s, OYield s' => Permutation s s'
  | OReturn l, OReturn l' => alike_sets l l'
  | OStop, OStop | OFuel, OFuel => True
  | _, _ => False
  end.
Definition raises (o : outcome) : Prop := exists ex, o = ORaise ex.
(** a run whose node conditions are steady and whose termination conditions are blind *)
Definition prepared (m : core) (g : gen) : Prop := steady (g_eid g) m /\ blind_terms m (g_eid g) (terms_of m g).
