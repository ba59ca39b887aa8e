(** Specification vocabulary for C83: how often conditions are evaluated.  A function that the
    user passed as a condition may have side effects; here it counts its calls in a place k of
    the memory of user functions. *)
From Verif Require Export SpecHalt.

(** what has been counted in place k *)
Definition tally (k : nat) (st : cstate) : nat := w_user (s_world st) k.
Definition calls (k : nat) (m : core) : nat := tally k (m_cst m).
(** every evaluation of c counts one, and an evaluation of c counts nothing *)
Definition tallies (k : nat) (c : cond) : Prop := forall v e ow st, tally k (snd (eval v e ow c st)) = S (tally k st).
Definition keeps (k : nat) (c : cond) : Prop := forall v e ow st, tally k (snd (eval v e ow c st)) = tally k st.
(** no function that the user wrote is called by the condition *)
Fixpoint no_function (c : cond) : bool :=
  match c with
  | CAtom _ (ACustom _) => false
  | CAtom _ _ => true
  | CAll _ cs | CAny _ cs => forallb no_function cs
  | CNot _ c => no_function c
  | CNWhen _ c _ => no_function c
  end.

(** k counts the evaluations of the condition of node b: no other condition of a node and no
    termination condition of the run counts there *)
Record node_counted (k : nat) (b : node) (m : core) (g : gen) : Prop := {
  nc_own : exists c, aget b (m_basic m) = Some c /\ tallies k c;
  nc_others : forall n c, aget n (m_basic m) = Some c -> n <> b -> keeps k c;
  nc_ends : forall s c, the_tc m g s = Some c -> keeps k c }.
(** k counts the evaluations of the termination condition for scale s: no other one counts
    there, and no condition of a node *)
Record end_counted (k : nat) (s : timescale) (m : core) (g : gen) : Prop := {
  ec_scale : s = ESU \/ s = ES;
  ec_own : exists c, the_tc m g s = Some c /\ tallies k c;
  ec_others : forall s' c, the_tc m g s' = Some c -> s' <> s -> keeps k c;
  ec_nodes : forall n c, aget n (m_basic m) = Some c -> keeps k c }.

(** the generator stands at the yield of a set of the queue, if it stands at one *)
Definition in_queue (m : core) (g : gen) : Prop := match g_pc g with PLevel i _ => i < length (queue m) | _ => True end.
(** [counting k P m0 g0 m g]: the generator g0, resumed some times from the state m0 on, is now
    g, and the state is m.  In between, other code may do what it likes, except change the graph
    or what belongs to this execution id (SpecRun.undisturbed), break P or count in k. *)
Inductive counting (k : nat) (P : core -> gen -> Prop) (m0 : core) (g0 : gen) : core -> gen -> Prop :=
| ct_begin : P m0 g0 -> in_queue m0 g0 -> counting k P m0 g0 m0 g0
| ct_env : forall m g m', counting k P m0 g0 m g -> undisturbed (g_eid g0) m m' -> P m' g -> calls k m' = calls k m -> counting k P m0 g0 m' g
| ct_yields : forall m g fuel m' g' s, counting k P m0 g0 m g -> resume fuel m g = (m', g', OYield s) -> counting k P m0 g0 m' g'.

(** how many turns the consideration set at position j has had, counted from pass 0 of the
    environment state update: one in each pass that is over, and one in the current pass if the
    generator is at the yield of this set or a later one, or at the one that ends a pass in which
    nothing ran *)
Definition turns (j : nat) (m : core) (g : gen) : nat :=
  pass_number m (g_eid g) +
  match g_pc g with PLevel i _ => if Nat.leb j i then 1 else 0 | PIdle => 1 | _ => 0 end.
(** how many times the termination conditions have been looked at: in each pass once at its
    beginning and once before each consideration set *)
Definition looks (m : core) (g : gen) : nat :=
  pass_number m (g_eid g) * S (length (queue m)) +
  match g_pc g with PLevel i _ => S (S i) | PIdle => S (length (queue m)) | _ => 0 end.
(** a condition that never comes out true *)
Definition never_true (c : cond) : Prop := forall v e ow st, fst (eval v e ow c st) <> Ok true.
