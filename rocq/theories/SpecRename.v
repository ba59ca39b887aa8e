(** Specification vocabulary for C82: the nodes of a scheduler under other names. *)
From Verif Require Export Sched SpecRun.

(** New names of the nodes; and, as user functions refer to nodes by their names, a rewritten
    function for every user function of a condition or graph structure condition. *)
Record renaming := mkRenaming {
  r_node : node -> node;
  r_user : userfun -> userfun;
  r_struct : custom -> custom }.
Definition injective (f : node -> node) : Prop := forall a b, f a = f b -> a = b.

Section Names.
Variable R : renaming.
Notation f := (r_node R).
Definition rn_set (l : list node) : list node := map f l.
Definition rn_sets (l : list (list node)) : list (list node) := map rn_set l.
Definition rn_map {A B} (h : A -> B) (m : amap A) : amap B := map (fun p => (f (fst p), h (snd p))) m.
Definition rn_graph (g : graph) : graph := rn_map rn_set g.

(** ** Conditions *)
Definition rn_atom (a : atom) : atom :=
  match a with
  | ACalls c d n s => ACalls c (f d) n s
  | ACallsCombined ds n s => ACallsCombined (rn_set ds) n s
  | AEveryNCalls d n => AEveryNCalls (f d) n
  | AJustRan d => AJustRan (f d)
  | AAllHaveRun ds s => AAllHaveRun (rn_set ds) s
  | AWhenFinished d => AWhenFinished (f d)
  | AWhenFinishedAny ds => AWhenFinishedAny (rn_set ds)
  | AWhenFinishedAll ds => AWhenFinishedAll (rn_set ds)
  | AThreshold d par t c ix atol rtol => AThreshold (f d) par t c ix atol rtol
  | ACustom u => ACustom (r_user R u)
  | a => a
  end.
Fixpoint rn_cond (c : cond) : cond :=
  match c with
  | CAtom o a => CAtom o (rn_atom a)
  | CAll o cs => CAll o (map rn_cond cs)
  | CAny o cs => CAny o (map rn_cond cs)
  | CNot o c => CNot o (rn_cond c)
  | CNWhen o c n => CNWhen o (rn_cond c) n
  end.
Definition rn_subject (s : subject_op) : subject_op :=
  match s with SOne o => SOne o | SDict d => SDict (rn_map (fun o => o) d) end.
Definition rn_opcond (p : opcond) : opcond :=
  mkOp (p_kind p) (rn_set (p_nodes p)) (p_owner_senders p) (p_owner_receivers p)
       (rn_subject (p_subject_senders p)) (rn_subject (p_subject_receivers p))
       (p_reconnect p) (p_remove_self p) (p_prune p) (p_ignore_conflicts p).
Definition rn_gsc (s : gsc) : gsc :=
  match s with
  | GCustom u => GCustom (r_struct R u)
  | GOps p => GOps (rn_opcond p)
  | GAddEdgeTo n => GAddEdgeTo (f n)
  | GRemoveEdgeFrom n => GRemoveEdgeFrom (f n)
  end.
Definition rn_scond (s : scond) : scond := mkS (sc_oid s) (rn_gsc (sc_gsc s)).
Definition rn_any (a : anycond) : anycond := match a with Basic c => Basic (rn_cond c) | Struct s => Struct (rn_scond s) end.
Definition rn_entry (c : centry) : centry := match c with One a => One (rn_any a) | Many l => Many (map rn_any l) end.
(** ** Arguments and results *)
Definition rn_inval (v : inval) : inval :=
  match v with VIter l => VIter (rn_set l) | VStr w cs => VStr (f w) (rn_set cs) | VAtom n => VAtom (f n) end.
Definition rn_arg (a : graph_arg) : graph_arg :=
  match a with
  | ArgDict g => ArgDict (rn_map rn_inval g)
  | ArgDiGraph d => ArgDiGraph (mkdigraph (rn_set (dg_nodes d)) (map (fun e => (f (fst e), f (snd e))) (dg_edges d)))
  | ArgOther => ArgOther
  end.
Definition rn_outcome (o : outcome) : outcome :=
  match o with OYield s => OYield (rn_set s) | OReturn l => OReturn (rn_sets l) | o => o end.
Definition rn_res {A B} (h : A -> B) (r : res A) : res B := match r with Ok a => Ok (h a) | Err ex => Err ex end.

(** ** What a user function sees *)
Definition counts_follow (t t' : timescale -> node -> nat) : Prop := forall s n, t' s (f n) = t s n.
Definition uses_follow (u u' : node -> node -> nat) : Prop := forall a b, u' (f a) (f b) = u a b.
Definition opt_follow {A B} (P : A -> B -> Prop) (x : option A) (y : option B) : Prop :=
  match x, y with Some a, Some b => P a b | None, None => True | _, _ => False end.
Record view_follows (v v' : view) : Prop := {
  vf_nodes : v_nodes v' = rn_set (v_nodes v);
  vf_queue : v_queue v' = rn_sets (v_queue v);
  vf_exact : v_exact_mode v' = v_exact_mode v;
  vf_total : opt_follow counts_follow (v_total v) (v_total v');
  vf_use : opt_follow uses_follow (v_use v) (v_use v');
  vf_list : v_list v' = option_map rn_sets (v_list v);
  vf_clock : v_clock v' = v_clock v }.
Record world_follows (w w' : world) : Prop := {
  wf_finished : forall n e, w_finished w' (f n) e = w_finished w n e;
  wf_param : forall n p, w_param w' (f n) p = w_param w n p;
  wf_user : forall k, w_user w' k = w_user w k }.
(** the rewritten function does with the new names what the function does with the old ones *)
Definition user_follows (u u' : userfun) : Prop := forall v v' e own w w', view_follows v v' -> world_follows w w' ->
  fst (u' v' e (option_map f own) w') = fst (u v e own w) /\ world_follows (snd (u v e own w)) (snd (u' v' e (option_map f own) w')).
Fixpoint users_follow (c : cond) : Prop :=
  match c with
  | CAtom _ (ACustom u) => user_follows u (r_user R u)
  | CAtom _ _ => True
  | CAll _ cs | CAny _ cs => (fix go l := match l with [] => True | x :: r => users_follow x /\ go r end) cs
  | CNot _ c => users_follow c
  | CNWhen _ c _ => users_follow c
  end.
Definition rn_hgraph (h : hgraph) : hgraph := mkH (rn_map (fun l => l) (h_refs h)) (rn_sets (h_store h)).
Definition custom_follows (u u' : custom) : Prop :=
  u_self u' = u_self u /\ forall w h, u_call u' (option_map f w) (rn_hgraph h) = rn_res rn_hgraph (u_call u w h).
Definition gsc_follows (s : gsc) : Prop := match s with GCustom u => custom_follows u (r_struct R u) | _ => True end.
Definition any_follows (a : anycond) : Prop := match a with Basic c => users_follow c | Struct s => gsc_follows (sc_gsc s) end.

(** ** Schedulers *)
Definition tc_follows (t t' : tconds) : Prop := forall s, t' s = option_map rn_cond (t s) /\ forall c, t s = Some c -> users_follow c.
Definition cst_follows (c c' : cstate) : Prop := (forall o e, s_sats c' o e = s_sats c o e) /\ world_follows (s_world c) (s_world c').
Record ctx_follows (x x' : ctx) : Prop := {
  cf_total : opt_follow counts_follow (x_total x) (x_total x');
  cf_use : opt_follow uses_follow (x_use x) (x_use x');
  cf_list : x_list x' = option_map rn_sets (x_list x);
  cf_stamps : x_stamps x' = x_stamps x;
  cf_clock : x_clock x' = x_clock x }.
Definition rn_condset (cs : condset) : condset :=
  mkCS (rn_map rn_cond (cs_basic cs)) (rn_map (map rn_scond) (cs_struct cs)) (map rn_scond (cs_order cs)) (rn_map rn_entry (cs_cache cs)) (cs_rebuild cs).
Definition condset_ok (cs : condset) : Prop :=
  (forall n c, In (n, c) (cs_basic cs) -> users_follow c) /\ (forall s, In s (cs_order cs) -> gsc_follows (sc_gsc s)).
(** d' is d with the new names *)
Record renamed (d d' : sched) : Prop := {
  nm_nodes : d_nodes d' = rn_set (d_nodes d);
  nm_exact : d_exact d' = d_exact d;
  nm_unit : d_unit d' = d_unit d;
  nm_default_eid : d_default_eid d' = d_default_eid d;
  nm_default_tc : tc_follows (d_default_tc d) (d_default_tc d');
  nm_tc : tc_follows (d_tc d) (d_tc d');
  nm_cs : d_cs d' = rn_condset (d_cs d);
  nm_ok : condset_ok (d_cs d);
  nm_owners : forall o, d_owners d' o = option_map f (d_owners d o);
  nm_next : d_next d' = d_next d;
  nm_stack : d_stack d' = map (fun p => (rn_graph (fst p), rn_sets (snd p))) (d_stack d);
  nm_last : d_last d' = option_map (map rn_scond) (d_last d);
  nm_cst : cst_follows (d_cst d) (d_cst d');
  nm_ctxs : forall e, ctx_follows (d_ctxs d e) (d_ctxs d' e) }.
(** a generator of d and one of d' *)
Record same_call (g g' : gen) : Prop := {
  sg_eid : g_eid g' = g_eid g; sg_base : g_base g' = g_base g; sg_skip : g_skip g' = g_skip g;
  sg_abs : g_abs g' = g_abs g; sg_pc : g_pc g' = g_pc g;
  sg_tcarg : opt_follow tc_follows (g_tcarg g) (g_tcarg g');
  sg_tc : tc_follows (g_tc g) (g_tc g') }.
(** networkx and the iteration over sets do not look at the names either *)
Definition cycles_follow (cyc cyc' : graph -> list (list node)) : Prop := forall g, cyc' (rn_graph g) = rn_sets (cyc g).
Definition order_follows (arr arr' : list (list node) -> list (list node)) : Prop := forall q, arr' (rn_sets q) = rn_sets (arr q).
End Names.
