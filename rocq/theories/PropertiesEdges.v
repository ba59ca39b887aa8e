(** Property C57: add_graph_edge, remove_graph_edge and structural conditions added to a
    scheduler in any state: what the graph is afterwards, in terms of the graph before.  As in
    C33 the scheduler d was made by the constructor and any calls ks; the identity o is that of
    the new condition object. *)
From Verif Require Import SpecSched SpecGSC GSCProps SchedFacts EdgeFacts Tests.

(** any structural condition: the new graph is the old one, modified; nothing else changes *)
Theorem C57_add_structural : forall cyc arr is_s nx input base conds tc deid exact du ow w0 r d0 ks d w s g g',
  arg_graph input = Ok base -> new_sched cyc arr input conds tc deid exact du ow nx w0 = (Ok r, d0) ->
  performs cyc arr ks d0 = Some d ->
  well_kinded is_s nx (SAddSet conds :: set_calls ks ++ [SAdd w (Struct s)]) -> added_once (SAddSet conds :: set_calls ks ++ [SAdd w (Struct s)]) ->
  gsc_owner_ok (sc_gsc s) w = true -> fst (get_graph cyc arr d) = Ok g -> modify_graph cyc (Some w) (sc_gsc s) g = Ok g' ->
  exists d', add_condition cyc arr w (Struct s) d = (Ok tt, d') /\ fst (get_graph cyc arr d') = Ok g' /\
    (forall n, aget n (cs_basic (d_cs d')) = aget n (cs_basic (d_cs d))) /\ d_tc d' = d_tc d /\ d_ctxs d' = d_ctxs d /\
    d_cst d' = d_cst d /\ d_nodes d' = d_nodes d.
Proof. intros cyc arr is_s nx input base conds tc deid exact du ow w0 r d0 ks d w s g g' AG N P WK AO. exact (add_structural AG N P WK AO g g'). Qed.
Print Assumptions C57_add_structural.
Theorem C57_add_structural_raises : forall cyc arr is_s nx input base conds tc deid exact du ow w0 r d0 ks d w s g ex,
  arg_graph input = Ok base -> new_sched cyc arr input conds tc deid exact du ow nx w0 = (Ok r, d0) ->
  performs cyc arr ks d0 = Some d ->
  well_kinded is_s nx (SAddSet conds :: set_calls ks ++ [SAdd w (Struct s)]) -> added_once (SAddSet conds :: set_calls ks ++ [SAdd w (Struct s)]) ->
  gsc_owner_ok (sc_gsc s) w = true -> fst (get_graph cyc arr d) = Ok g -> modify_graph cyc (Some w) (sc_gsc s) g = Err ex ->
  exists d', add_condition cyc arr w (Struct s) d = (Err ex, d').
Proof. intros cyc arr is_s nx input base conds tc deid exact du ow w0 r d0 ks d w s g ex AG N P WK AO. exact (add_structural_raises AG N P WK AO g ex). Qed.
Print Assumptions C57_add_structural_raises.

Theorem C57_add_graph_edge : forall cyc arr is_s nx input base conds tc deid exact du ow w0 r d0 ks d o sender receiver g,
  arg_graph input = Ok base -> wf_graph base -> closed_graph base ->
  new_sched cyc arr input conds tc deid exact du ow nx w0 = (Ok r, d0) -> performs cyc arr ks d0 = Some d ->
  (forall p, In p (registered_struct (SAddSet conds :: set_calls ks)) -> keeps_nodes (sc_gsc (snd p))) ->
  well_kinded is_s nx (SAddSet conds :: set_calls ks ++ [SAdd sender (Struct (mkS o (GAddEdgeTo receiver)))]) ->
  added_once (SAddSet conds :: set_calls ks ++ [SAdd sender (Struct (mkS o (GAddEdgeTo receiver)))]) ->
  fst (get_graph cyc arr d) = Ok g -> In sender (gkeys base) -> In receiver (gkeys base) -> sender <> receiver ->
  exists d' g', add_graph_edge cyc arr o sender receiver d = (Ok tt, d') /\ fst (get_graph cyc arr d') = Ok g' /\
    gkeys g' = gkeys g /\ (forall a b, edge g' a b <-> edge g a b \/ (a = sender /\ b = receiver)) /\
    (forall n, aget n (cs_basic (d_cs d')) = aget n (cs_basic (d_cs d))) /\ d_tc d' = d_tc d /\ d_ctxs d' = d_ctxs d.
Proof.
  intros cyc arr is_s nx input base conds tc deid exact du ow w0 r d0 ks d o sender receiver g AG WB CB N P BI WK AO G Is Ir Ne.
  destruct (graph_wf AG N P WK AO g WB CB BI G) as (K & W & C).
  rewrite <- K in Is, Ir. destruct (add_edge cyc sender receiver g W C) as (g' & M & K' & E); auto.
  destruct (add_structural AG N P WK AO g g') as (d' & A & B & D1 & D2 & D3 & _); auto.
  - unfold gsc_owner_ok; simpl. destruct (Nat.eqb_spec sender receiver); [congruence|auto].
  - exists d', g'. split; [exact A|]. split; [exact B|]. split; [exact K'|]. split; [exact E|]. auto.
Qed.
Print Assumptions C57_add_graph_edge.
Theorem C57_remove_graph_edge : forall cyc arr is_s nx input base conds tc deid exact du ow w0 r d0 ks d o sender receiver g,
  arg_graph input = Ok base -> wf_graph base -> closed_graph base ->
  new_sched cyc arr input conds tc deid exact du ow nx w0 = (Ok r, d0) -> performs cyc arr ks d0 = Some d ->
  (forall p, In p (registered_struct (SAddSet conds :: set_calls ks)) -> keeps_nodes (sc_gsc (snd p))) ->
  well_kinded is_s nx (SAddSet conds :: set_calls ks ++ [SAdd receiver (Struct (mkS o (GRemoveEdgeFrom sender)))]) ->
  added_once (SAddSet conds :: set_calls ks ++ [SAdd receiver (Struct (mkS o (GRemoveEdgeFrom sender)))]) ->
  fst (get_graph cyc arr d) = Ok g -> In sender (gkeys base) -> In receiver (gkeys base) -> sender <> receiver ->
  exists d' g', remove_graph_edge cyc arr o sender receiver d = (Ok tt, d') /\ fst (get_graph cyc arr d') = Ok g' /\
    gkeys g' = gkeys g /\ (forall a b, edge g' a b <-> edge g a b /\ ~ (a = sender /\ b = receiver)) /\
    (forall n, aget n (cs_basic (d_cs d')) = aget n (cs_basic (d_cs d))) /\ d_tc d' = d_tc d /\ d_ctxs d' = d_ctxs d.
Proof.
  intros cyc arr is_s nx input base conds tc deid exact du ow w0 r d0 ks d o sender receiver g AG WB CB N P BI WK AO G Is Ir Ne.
  destruct (graph_wf AG N P WK AO g WB CB BI G) as (K & W & C).
  rewrite <- K in Is, Ir. destruct (remove_edge cyc receiver sender g W C) as (g' & M & K' & E); auto.
  destruct (add_structural AG N P WK AO g g') as (d' & A & B & D1 & D2 & D3 & _); auto.
  - unfold gsc_owner_ok; simpl. destruct (Nat.eqb_spec receiver sender); [congruence|auto].
  - exists d', g'. split; [exact A|]. split; [exact B|]. split; [exact K'|]. split; [exact E|]. auto.
Qed.
Print Assumptions C57_remove_graph_edge.
(** a node that is not in the graph: ConditionError *)
Theorem C57_missing_nodes : forall cyc arr is_s nx input base conds tc deid exact du ow w0 r d0 ks d w n s g,
  arg_graph input = Ok base -> wf_graph base -> closed_graph base ->
  new_sched cyc arr input conds tc deid exact du ow nx w0 = (Ok r, d0) -> performs cyc arr ks d0 = Some d ->
  (forall p, In p (registered_struct (SAddSet conds :: set_calls ks)) -> keeps_nodes (sc_gsc (snd p))) ->
  sc_gsc s = GAddEdgeTo n \/ sc_gsc s = GRemoveEdgeFrom n ->
  well_kinded is_s nx (SAddSet conds :: set_calls ks ++ [SAdd w (Struct s)]) -> added_once (SAddSet conds :: set_calls ks ++ [SAdd w (Struct s)]) ->
  fst (get_graph cyc arr d) = Ok g -> ~ (In w (gkeys base) /\ In n (gkeys base)) -> w <> n ->
  exists d', add_condition cyc arr w (Struct s) d = (Err ECondition, d').
Proof.
  intros cyc arr is_s nx input base conds tc deid exact du ow w0 r d0 ks d w n s g AG WB CB N P BI Es WK AO G NI Ne.
  destruct (graph_wf AG N P WK AO g WB CB BI G) as (K & W & C).
  apply (add_structural_raises AG N P WK AO g).
  - destruct Es as [-> | ->]; unfold gsc_owner_ok; simpl; destruct (Nat.eqb_spec w n); auto; congruence.
  - exact G.
  - eapply edge_conds_errors; eauto. rewrite K; auto.
Qed.
Print Assumptions C57_missing_nodes.
(** an edge from a node to itself: ConditionError, and nothing at all has changed *)
Theorem C57_self_edge : forall cyc arr o n d,
  add_graph_edge cyc arr o n n d = (Err ECondition, d) /\ remove_graph_edge cyc arr o n n d = (Err ECondition, d).
Proof. intros. unfold add_graph_edge, remove_graph_edge, add_condition, cs_add, gsc_owner_ok. simpl. rewrite Nat.eqb_refl. auto. Qed.
Print Assumptions C57_self_edge.

(** A -> B, C alone; C gets an edge from A by a condition, B -> C is added, A -> B removed *)
Definition ex_ks : list call := [CSet (SAdd tA (Struct (mkS 20 (GAddEdgeTo tC)))); CNext 5 (new_gen 0 0 None false)].
Definition ex_dsched : sched := t_sched [(tA, []); (tB, [tA]); (tC, [])] [].
Definition ex_three (o : oid) : bool := Nat.eqb o 20 || Nat.eqb o 21.
Example ex_C57 : exists d d', performs ref_simple_cycles (fun q => q) ex_ks ex_dsched = Some d /\
  well_kinded ex_three 100 (SAddSet [] :: set_calls ex_ks ++ [SAdd tB (Struct (mkS 21 (GAddEdgeTo tC)))]) /\
  added_once (SAddSet [] :: set_calls ex_ks ++ [SAdd tB (Struct (mkS 21 (GAddEdgeTo tC)))]) /\
  add_graph_edge ref_simple_cycles (fun q => q) 21 tB tC d = (Ok tt, d') /\
  fst (get_graph ref_simple_cycles (fun q => q) d) = Ok [(tA, []); (tB, [tA]); (tC, [tA])] /\
  fst (get_graph ref_simple_cycles (fun q => q) d') = Ok [(tA, []); (tB, [tA]); (tC, [tA; tB])].
Proof.
  destruct (performs ref_simple_cycles (fun q => q) ex_ks ex_dsched) as [d|] eqn:P;
    [|exfalso; assert (X : performs ref_simple_cycles (fun q => q) ex_ks ex_dsched <> None) by (vm_compute; discriminate); congruence].
  destruct (add_graph_edge ref_simple_cycles (fun q => q) 21 tB tC d) as [r d'] eqn:A.
  assert (X : match performs ref_simple_cycles (fun q => q) ex_ks ex_dsched with
              | Some d => (match add_graph_edge ref_simple_cycles (fun q => q) 21 tB tC d with
                          | (Ok _, d') => fst (get_graph ref_simple_cycles (fun q => q) d') = Ok [(tA, []); (tB, [tA]); (tC, [tA; tB])]
                          | _ => False end) /\ fst (get_graph ref_simple_cycles (fun q => q) d) = Ok [(tA, []); (tB, [tA]); (tC, [tA])]
              | None => False end) by (vm_compute; auto).
  rewrite P, A in X. destruct r as [[]|]; [|destruct X; contradiction]. exists d, d'. split; [auto|]. split; [|split; [|tauto]].
  - split; [intros o L; unfold ex_three; destruct (Nat.eqb_spec o 20), (Nat.eqb_spec o 21); auto; lia|].
    intros k a K M. simpl in K. destruct K as [<-|[<-|[<-|[]]]]; simpl in M; try contradiction; destruct M as [<-|[]]; reflexivity.
  - unfold added_once. simpl. repeat constructor; simpl; intuition discriminate.
Qed.
