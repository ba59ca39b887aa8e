(** Proofs for C82, part 1: functions on graphs commute with renaming *)
From Verif Require Import SpecRename.
Open Scope nat_scope.

Section Names.
Variable R : renaming.
Notation f := (r_node R).
Hypothesis inj : injective f.
Notation rs := (rn_set R). Notation rss := (rn_sets R). Notation rg := (rn_graph R). Notation rh := (rn_hgraph R).

Lemma eqb_f : forall a b, Nat.eqb (f a) (f b) = Nat.eqb a b.
Proof. intros a b. destruct (Nat.eqb_spec a b) as [->|N]; [apply Nat.eqb_refl|]. apply Nat.eqb_neq. intros H. apply N. auto. Qed.
Lemma mem_f : forall x l, mem (f x) (rs l) = mem x l.
Proof. intros x l. unfold mem. induction l as [|y l IH]; simpl; auto. rewrite eqb_f, IH. auto. Qed.
Lemma filter_f : forall (P P' : node -> bool) l, (forall x, P' (f x) = P x) -> filter P' (rs l) = rs (filter P l).
Proof. intros P P' l H. induction l as [|x l IH]; simpl; auto. rewrite H. destruct (P x); simpl; rewrite IH; auto. Qed.
Lemma forallb_f : forall (P P' : node -> bool) l, (forall x, P' (f x) = P x) -> forallb P' (rs l) = forallb P l.
Proof. intros P P' l H. induction l as [|x l IH]; simpl; auto. rewrite H, IH. auto. Qed.
Lemma existsb_f : forall (P P' : node -> bool) l, (forall x, P' (f x) = P x) -> existsb P' (rs l) = existsb P l.
Proof. intros P P' l H. induction l as [|x l IH]; simpl; auto. rewrite H, IH. auto. Qed.
Lemma app_f : forall a b, rs (a ++ b) = rs a ++ rs b.
Proof. intros. apply map_app. Qed.
Lemma length_f : forall l, length (rs l) = length l.
Proof. intros. apply map_length. Qed.
Lemma add_f : forall x l, s_add (f x) (rs l) = rs (s_add x l).
Proof. intros x l. unfold s_add. rewrite mem_f. destruct (mem x l); auto. rewrite app_f. auto. Qed.
Lemma remove_f : forall x l, s_remove (f x) (rs l) = rs (s_remove x l).
Proof. intros x l. unfold s_remove. apply filter_f. intros y. rewrite eqb_f. auto. Qed.
Lemma diff_f : forall a b, s_diff (rs a) (rs b) = rs (s_diff a b).
Proof. intros a b. apply filter_f. intros y. rewrite mem_f. auto. Qed.
Lemma inter_f : forall a b, s_inter (rs a) (rs b) = rs (s_inter a b).
Proof. intros a b. apply filter_f. intros y. rewrite mem_f. auto. Qed.
Lemma union_f : forall a b, s_union (rs a) (rs b) = rs (s_union a b).
Proof. intros a b. unfold s_union. rewrite app_f. f_equal. apply filter_f. intros y. rewrite mem_f. auto. Qed.
Lemma symdiff_f : forall a b, s_symdiff (rs a) (rs b) = rs (s_symdiff a b).
Proof. intros a b. unfold s_symdiff. rewrite app_f, !diff_f. auto. Qed.
Lemma subset_f : forall a b, s_subset (rs a) (rs b) = s_subset a b.
Proof. intros a b. apply forallb_f. intros. apply mem_f. Qed.
Lemma seqb_f : forall a b, s_eqb (rs a) (rs b) = s_eqb a b.
Proof. intros. unfold s_eqb. rewrite !subset_f. auto. Qed.
Lemma sof_f : forall l, s_of (rs l) = rs (s_of l).
Proof. induction l as [|x l IH]; simpl; auto. rewrite IH. f_equal. apply remove_f. Qed.

(** dicts *)
Lemma aget_f : forall A B (h : A -> B) k m, aget (f k) (rn_map R h m) = option_map h (aget k m).
Proof. intros A B h k m. induction m as [|[k' v] m IH]; simpl; auto. rewrite eqb_f. destruct (Nat.eqb k k'); auto. Qed.
Lemma ahas_f : forall A B (h : A -> B) k m, ahas (f k) (rn_map R h m) = ahas k m.
Proof. intros. unfold ahas. rewrite aget_f. destruct (aget k m); auto. Qed.
Lemma aset_f : forall A B (h : A -> B) k v m, aset (f k) (h v) (rn_map R h m) = rn_map R h (aset k v m).
Proof. intros A B h k v m. induction m as [|[k' v'] m IH]; simpl; auto. rewrite eqb_f. destruct (Nat.eqb k k'); simpl; auto. rewrite IH. auto. Qed.
Lemma adel_f : forall A B (h : A -> B) k m, adel (f k) (rn_map R h m) = rn_map R h (adel k m).
Proof. intros A B h k m. induction m as [|[k' v'] m IH]; simpl; auto. rewrite eqb_f. destruct (Nat.eqb k k'); simpl; auto. rewrite IH. auto. Qed.
Lemma akeys_f : forall A B (h : A -> B) m, akeys (rn_map R h m) = rs (akeys m).
Proof. intros. unfold akeys, rn_map, rn_set. rewrite !map_map. auto. Qed.
Lemma gkeys_f : forall g, gkeys (rg g) = rs (gkeys g).
Proof. intros. apply akeys_f. Qed.
Lemma senders_f : forall g n, senders (rg g) (f n) = rs (senders g n).
Proof. intros g n. unfold senders, rn_graph. rewrite aget_f. destruct (aget n g); auto. Qed.
Lemma clone_f : forall g, clone_graph (rg g) = rg (clone_graph g).
Proof. intros g. unfold clone_graph, rn_graph, rn_map. rewrite !map_map. apply map_ext. intros [k l]; simpl. rewrite sof_f. auto. Qed.
Lemma fold_f : forall A (s s' : A -> node -> A) (h : A -> A), (forall a x, s' (h a) (f x) = h (s a x)) -> forall l a, fold_left s' (rs l) (h a) = h (fold_left s l a).
Proof. intros A s s' h H. induction l as [|x l IH]; intros a; simpl; auto. rewrite H. apply IH. Qed.
Lemma receivers_f : forall g, get_receivers (rg g) = rg (get_receivers g).
Proof.
  intros g. unfold get_receivers.
  assert (S : forall n r x, receivers_step (f n) (rg r) (f x) = rg (receivers_step n r x)).
  { intros n r x. unfold receivers_step. rewrite senders_f, add_f. apply (aset_f _ _ rs). }
  assert (X : forall l r, fold_left (fun r p => fold_left (receivers_step (fst p)) (snd p) r) (rg l) (rg r) = rg (fold_left (fun r p => fold_left (receivers_step (fst p)) (snd p) r) l r)).
  { induction l as [|[k v] l IH]; intros r; simpl; auto. rewrite (fold_f _ (receivers_step k) _ rg (S k)). apply IH. }
  rewrite <- X. f_equal. unfold rn_graph, rn_map. rewrite !map_map. auto.
Qed.
Lemma flat_snd_f : forall g, flat_map snd (rg g) = rs (flat_map snd g).
Proof. induction g as [|[k v] g IH]; simpl; auto. rewrite IH, app_f. auto. Qed.
Lemma universe_f : forall g, g_universe (rg g) = rs (g_universe g).
Proof. intros g. unfold g_universe. rewrite gkeys_f, flat_snd_f, <- app_f. apply sof_f. Qed.
Lemma saturate_f : forall st st', (forall x, st' (f x) = rs (st x)) -> forall k acc, saturate k st' (rs acc) = rs (saturate k st acc).
Proof.
  intros st st' H. assert (E : forall acc, expand st' (rs acc) = rs (expand st acc)).
  { intros acc. unfold expand. assert (X : forall l a, fold_left s_union (map st' (rs l)) (rs a) = rs (fold_left s_union (map st l) a)).
    { induction l as [|x l IH]; intros a; simpl; auto. rewrite H, union_f. apply IH. } apply X. }
  induction k as [|k IH]; intros acc; simpl; auto. rewrite E. apply IH.
Qed.
Lemma receivers_of_f : forall g n, receivers_of (rg g) (f n) = rs (receivers_of g n).
Proof. intros g n. unfold receivers_of. induction g as [|[k v] g IH]; simpl; auto. rewrite mem_f. destruct (mem n v); simpl; rewrite IH; auto. Qed.
Lemma ancestors_f : forall g n, ancestors_of (rg g) (f n) = rs (ancestors_of g n).
Proof. intros g n. unfold ancestors_of. rewrite universe_f, length_f, senders_f, (saturate_f (senders g)); [apply remove_f|]. apply senders_f. Qed.
Lemma descendants_f : forall g n, descendants_of (rg g) (f n) = rs (descendants_of g n).
Proof. intros g n. unfold descendants_of. rewrite universe_f, length_f, receivers_of_f, (saturate_f (receivers_of g)); [apply remove_f|]. apply receivers_of_f. Qed.

(** toposort *)
Definition rn_topo (t : topo_result) : topo_result := match t with TopoOk l => TopoOk (rss l) | t => t end.
Lemma topo_ordered_f : forall d, topo_ordered (rg d) = rs (topo_ordered d).
Proof. unfold topo_ordered. induction d as [|[k [|x v]] d IH]; simpl; auto. rewrite IH; auto. Qed.
Lemma topo_rest_f : forall d o, topo_rest (rg d) (rs o) = rg (topo_rest d o).
Proof. intros d o. unfold topo_rest. induction d as [|[k v] d IH]; simpl; auto. rewrite mem_f. destruct (mem k o); simpl; auto. rewrite IH, diff_f. auto. Qed.
Lemma topo_loop_f : forall k d, topo_loop k (rg d) = rn_topo (topo_loop k d).
Proof.
  induction k as [|k IH]; intros d; simpl; rewrite topo_ordered_f; destruct (topo_ordered d) as [|x o] eqn:E; simpl; auto; try (destruct d; auto; fail).
  change (f x :: rs o) with (rs (x :: o)). rewrite topo_rest_f, IH. destruct (topo_loop k (topo_rest d (x :: o))); simpl; auto.
Qed.
Lemma rg_length : forall g, length (rg g) = length g.
Proof. intros. apply map_length. Qed.
Lemma topo_init_f : forall g, topo_init (rg g) = rg (topo_init g).
Proof.
  intros g. unfold topo_init. set (d := map (fun p => (fst p, s_remove (fst p) (s_of (snd p)))) g).
  assert (E : map (fun p => (fst p, s_remove (fst p) (s_of (snd p)))) (rg g) = rg d).
  { unfold d, rn_graph, rn_map. rewrite !map_map. apply map_ext. intros [k v]; simpl. rewrite sof_f, remove_f. auto. }
  rewrite E, flat_snd_f, sof_f, gkeys_f, diff_f. unfold rn_graph at 2, rn_map. rewrite map_app. f_equal. unfold rn_set. rewrite !map_map. auto.
Qed.
Lemma toposort_f : forall g, toposort (rg g) = rn_topo (toposort g).
Proof.
  assert (T : forall g, g <> [] -> toposort g = topo_loop (length (topo_init g)) (topo_init g)) by (intros [|]; [congruence|reflexivity]).
  intros g. destruct g as [|p g]; auto. rewrite !T by discriminate. rewrite topo_init_f, rg_length. apply topo_loop_f.
Qed.
Lemma queue_of_f : forall arr arr' g, order_follows R arr arr' -> queue_of arr' (rg g) = rss (queue_of arr g).
Proof. intros arr arr' g H. unfold queue_of. rewrite toposort_f. destruct (toposort g); simpl; auto. Qed.

(** arguments of the constructor *)
Lemma union_values_f : forall g, union_values (rn_map R (rn_inval R) g) = rn_res rs (union_values g).
Proof.
  induction g as [|[k v] g IH]; simpl; auto. rewrite IH. destruct (union_values g) as [u|]; simpl; auto. destruct v; simpl; auto; rewrite sof_f, union_f; auto.
Qed.
Lemma dict_merge_f : forall a b, dict_merge (rg a) (rg b) = rg (dict_merge a b).
Proof. intros a b. unfold dict_merge. revert a. induction b as [|[k v] b IH]; intros a; simpl; auto. rewrite <- IH. f_equal. apply (aset_f _ _ rs). Qed.
Lemma clone_input_f : forall g, clone_input (rn_map R (rn_inval R) g) = rg (clone_input g).
Proof. intros g. unfold clone_input, rn_graph, rn_map. rewrite !map_map. apply map_ext. intros [k []]; simpl; auto. rewrite sof_f. auto. Qed.
Lemma base_graph_f : forall g, base_graph (rn_map R (rn_inval R) g) = rn_res rg (base_graph g).
Proof.
  intros g. unfold base_graph. rewrite union_values_f. destruct (union_values g) as [u|]; simpl; auto. f_equal. rewrite clone_input_f, <- dict_merge_f. f_equal.
  unfold rn_graph, rn_map, rn_set. rewrite !map_map. auto.
Qed.
Lemma arg_graph_f : forall a, arg_graph (rn_arg R a) = rn_res rg (arg_graph a).
Proof.
  intros [g|d|]; simpl; auto; [apply base_graph_f|]. f_equal. unfold networkx_digraph_to_dependency_dict. cbn [dg_nodes].
  set (d' := mkdigraph (rs (dg_nodes d)) (map (fun e => (f (fst e), f (snd e))) (dg_edges d))).
  assert (A : forall n, dg_adj d' (f n) = rs (dg_adj d n)).
  { intros n. unfold dg_adj, d'. cbn [dg_edges]. induction (dg_edges d) as [|[a b] l IH]; simpl; auto. rewrite eqb_f. destruct (Nat.eqb a n); simpl; rewrite IH; auto. }
  clearbody d'. change (@nil (nat * list node)) with (rg []) at 1. apply fold_f. intros r x. unfold nx_to_dict_sender. rewrite A. cbn [andb]. unfold rn_graph at 1. rewrite ahas_f. fold (rg r).
  assert (B : (if negb (ahas x r) then aset (f x) [] (rg r) else rg r) = rg (if negb (ahas x r) then aset x [] r else r)).
  { destruct (ahas x r); simpl; auto. apply (aset_f _ _ rs x [] r). }
  rewrite B. apply fold_f. intros r2 y. cbv zeta. assert (HY : ahas (f y) (rg r2) = ahas y r2) by apply ahas_f. rewrite HY.
  assert (Z : forall q, aset (f y) (s_add (f x) (senders (rg q) (f y))) (rg q) = rg (aset y (s_add x (senders q y)) q)).
  { intros q. rewrite senders_f, add_f. apply (aset_f _ _ rs). }
  destruct (ahas y r2); [apply Z|]. rewrite <- Z. f_equal; [do 2 f_equal|]; apply (aset_f _ _ rs y [] r2).
Qed.

(** ** Heaps *)
Lemma sget_f : forall h l, s_get (rss h) l = rs (s_get h l).
Proof. intros h l. unfold s_get, rn_sets. change [] with (rs []). apply map_nth. Qed.
Lemma sput_f : forall h l v, s_put (rss h) l (rs v) = rss (s_put h l v).
Proof. induction h as [|x h IH]; intros [|l] v; simpl; auto. rewrite IH. auto. Qed.
Lemma store_length : forall h, length (rss h) = length h.
Proof. intros. apply map_length. Qed.
Lemma hloc_f : forall h n, hloc (rh h) (f n) = hloc h n.
Proof. intros h n. unfold hloc, rn_hgraph; simpl. rewrite aget_f, store_length. destruct (aget n (h_refs h)); auto. Qed.
Lemma hget_f : forall h n, hget (rh h) (f n) = rs (hget h n).
Proof. intros h n. unfold hget. rewrite hloc_f. apply sget_f. Qed.
Lemma hmut_f : forall h n u u', (forall l, u' (rs l) = rs (u l)) -> hmut (rh h) (f n) u' = rh (hmut h n u).
Proof. intros h n u u' H. unfold hmut. rewrite hloc_f, hget_f, H. unfold rn_hgraph; simpl. rewrite sput_f. auto. Qed.
Lemma hnew_f : forall h n v, hnew (rh h) (f n) (rs v) = rh (hnew h n v).
Proof. intros h n v. unfold hnew, rn_hgraph; simpl. rewrite store_length. rewrite (aset_f _ _ (fun l : nat => l)). unfold rn_sets. rewrite map_app. auto. Qed.
Lemma href_f : forall h n l, href (rh h) (f n) l = rh (href h n l).
Proof. intros h n l. unfold href, rn_hgraph; simpl. rewrite (aset_f _ _ (fun l : nat => l)). auto. Qed.
Lemma load_from_f : forall g i, load_from (rg g) i = rn_map R (fun l => l) (load_from g i).
Proof. induction g as [|[k v] g IH]; intros i; simpl; auto. rewrite IH. auto. Qed.
Lemma values_f : forall g, map snd (rg g) = rss (map snd g).
Proof. intros g. unfold rn_graph, rn_map, rn_sets. rewrite !map_map. auto. Qed.
Lemma load_f : forall g, load (rg g) = rh (load g).
Proof. intros g. unfold load, rn_hgraph; simpl. rewrite load_from_f, values_f. auto. Qed.
Lemma unload_f : forall h, unload (rh h) = rg (unload h).
Proof. intros h. unfold unload, rn_hgraph, rn_graph, rn_map; simpl. rewrite !map_map. apply map_ext. intros [k l]; simpl. rewrite sget_f. auto. Qed.
Lemma hclone_f : forall h, hclone (rh h) = rh (hclone h).
Proof. intros h. unfold hclone, hload. rewrite unload_f, clone_f. unfold rn_hgraph; simpl. rewrite store_length, load_from_f, values_f. unfold rn_sets. rewrite map_app. auto. Qed.
Lemma fold_h : forall (s s' : hgraph -> node -> hgraph), (forall h x, s' (rh h) (f x) = rh (s h x)) -> forall l h, fold_left s' (rs l) (rh h) = rh (fold_left s l h).
Proof. intros s s' H. apply fold_f. auto. Qed.

(** ** Graph structure conditions *)
Lemma op_set_f : forall o s c, op_set o (rs s) (rs c) = rs (op_set o s c).
Proof. intros [] s c; simpl; auto using inter_f, union_f, diff_f, symdiff_f. Qed.
Lemma subject_operation_f : forall s n, subject_operation (rn_subject R s) (f n) = subject_operation s n.
Proof. intros [o|d] n; simpl; auto. rewrite aget_f. destruct (aget n d); auto. Qed.
Notation rp := (rn_opcond R).
Lemma already_valid_f : forall p w g, already_valid (rp p) (f w) (rg g) = rs (already_valid p w g).
Proof. intros p w g. unfold already_valid. cbn [rn_opcond p_nodes p_kind]. apply filter_f. intros x. rewrite !senders_f, !mem_f, seqb_f. auto. Qed.
Lemma required_edge_f : forall p w s r, required_edge (rp p) (f w) (f s) (f r) = required_edge p w s r.
Proof. intros p w s r. unfold required_edge. cbn [rn_opcond p_nodes p_kind]. rewrite !mem_f, !eqb_f. auto. Qed.
Lemma preprocess_f : forall p w h, preprocess (rp p) (f w) (rh h) = rh (preprocess p w h).
Proof.
  intros p w h. unfold preprocess. cbn [rn_opcond p_nodes p_kind]. destruct (p_kind p); auto; apply fold_h; intros h0 x;
    rewrite (hmut_f _ _ (s_remove w)) by (intros; apply remove_f); apply hmut_f; intros; apply remove_f.
Qed.
Lemma union_all_f : forall (a : node -> list node) a' l, (forall x, a' (f x) = rs (a x)) -> union_all (map a' (rs l)) = rs (union_all (map a l)).
Proof.
  intros a a' l H. unfold union_all. assert (X : forall l acc, fold_left s_union (map a' (rs l)) (rs acc) = rs (fold_left s_union (map a l) acc)).
  { induction l0 as [|x r IH]; intros acc; simpl; auto. rewrite H, union_f. apply IH. }
  apply (X l []).
Qed.
Lemma op_object_f : forall o h sl cl c, op_object o (rh h) sl cl (rs c) = (let (h', l) := op_object o h sl cl c in (rh h', l)).
Proof.
  assert (X : forall o h sl c, (let (st, l) := s_alloc (h_store (rh h)) (op_set o (s_get (h_store (rh h)) sl) (rs c)) in (mkH (h_refs (rh h)) st, l)) =
              (let (h', l) := (let (st, l) := s_alloc (h_store h) (op_set o (s_get (h_store h) sl) c) in (mkH (h_refs h) st, l)) in (rh h', l))).
  { intros o h sl c. cbn [rn_hgraph h_store h_refs]. rewrite sget_f, op_set_f. unfold s_alloc. rewrite store_length. unfold rn_hgraph, rn_sets; simpl. rewrite map_app. auto. }
  intros o h sl cl c. destruct o, cl; try apply X; auto; (rewrite <- (X _ h sl c) || apply X || idtac); unfold op_object; auto; unfold s_alloc, rn_hgraph, rn_sets; simpl; rewrite ?map_app, ?map_length; auto.
Qed.
Lemma subject_results_f : forall p w g recv gl gl' ns, (forall n, gl' (f n) = gl n) -> forall h a b,
  subject_results (rp p) (f w) (rg g) (rg recv) gl' (rs ns) (rh h) (rn_map R (fun l => l) a) (rg b) =
  rn_res (fun x => let '(h, a, b) := x in (rh h, rn_map R (fun l => l) a, rg b)) (subject_results p w g recv gl ns h a b).
Proof.
  intros p w g recv gl gl' ns G. induction ns as [|n ns IH]; intros h a b; simpl; auto. rewrite !subject_operation_f.
  destruct (subject_operation (p_subject_senders p) n) as [so|]; simpl; auto. destruct (subject_operation (p_subject_receivers p) n) as [ro|]; simpl; auto.
  rewrite !G, !senders_f, op_object_f. destruct (op_object so h (gl n) (Some (gl w)) (senders g w)) as [h' l]. rewrite op_set_f, <- IH.
  rewrite (aset_f _ _ (fun l : nat => l)). do 2 f_equal. apply (aset_f _ _ rs).
Qed.
Lemma edge_conflict_f : forall st a b s r, edge_conflict (rss st) (rn_map R (fun l => l) a) (rg b) (f s) (f r) = edge_conflict st a b s r.
Proof.
  intros st a b s r. unfold edge_conflict. rewrite aget_f. destruct (aget r a) as [l|]; simpl; auto. unfold rn_graph. rewrite aget_f. destruct (aget s b) as [x|]; simpl; auto.
  rewrite sget_f, !mem_f. auto.
Qed.
Lemma assign_senders_f : forall todo al b h c, assign_senders (rn_map R (fun l => l) todo) (rn_map R (fun l => l) al) (rg b) (rh h) c =
  (let (h', c') := assign_senders todo al b h c in (rh h', c')).
Proof.
  induction todo as [|[r l] todo IH]; intros al b h c; simpl; auto. rewrite href_f.
  rewrite sget_f, (existsb_f (fun s => edge_conflict (h_store h) al b s r)) by (intros; apply edge_conflict_f). apply IH.
Qed.
Lemma assign_receivers1_f : forall s l keys a b h c, assign_receivers1 (f s) (rs l) (rs keys) (rn_map R (fun l => l) a) (rg b) (rh h) c =
  (let (h', c') := assign_receivers1 s l keys a b h c in (rh h', c')).
Proof.
  intros s l. induction keys as [|n keys IH]; intros a b h c; simpl; auto. rewrite mem_f. destruct (mem n l).
  - rewrite (hmut_f _ _ (s_add s)) by (intros; apply add_f). rewrite edge_conflict_f. apply IH.
  - rewrite (hmut_f _ _ (s_remove s)) by (intros; apply remove_f). apply IH.
Qed.
Lemma assign_receivers_f : forall todo keys a b h c, assign_receivers (rg todo) (rs keys) (rn_map R (fun l => l) a) (rg b) (rh h) c =
  (let (h', c') := assign_receivers todo keys a b h c in (rh h', c')).
Proof.
  induction todo as [|[s l] todo IH]; intros keys a b h c; simpl; auto. rewrite assign_receivers1_f. destruct (assign_receivers1 s l keys a b h c) as [h' c']. apply IH.
Qed.
Lemma process_ops_f : forall p w h, process_ops (rp p) (f w) (rh h) = rn_res rh (process_ops p w h).
Proof.
  intros p w h. unfold process_ops. cbv zeta. cbn [rn_opcond p_nodes p_kind p_owner_senders p_owner_receivers p_ignore_conflicts]. rewrite unload_f, receivers_f, hclone_f, hloc_f, !senders_f.
  rewrite (union_all_f (senders (unload h))) by apply senders_f. rewrite (union_all_f (senders (get_receivers (unload h)))) by apply senders_f.
  rewrite op_object_f. destruct (op_object (p_owner_senders p) (hclone h) (hloc h w) None _) as [h1 lo]. rewrite op_set_f.
  set (ro := op_set (p_owner_receivers p) _ _). change [(f w, lo)] with (rn_map R (fun l : nat => l) [(w, lo)]). change [(f w, rs ro)] with (rg [(w, ro)]).
  fold (rp p). rewrite (subject_results_f p w _ _ (hloc h) (hloc (rh h))) by (intros; apply hloc_f).
  destruct (subject_results p w (unload h) (get_receivers (unload h)) (hloc h) (p_nodes p) h1 [(w, lo)] [(w, ro)]) as [[[h2 a] b]|]; simpl; auto.
  rewrite assign_senders_f. destruct (assign_senders a a b h2 false) as [h3 c1]. rewrite gkeys_f, assign_receivers_f. destruct (assign_receivers b (gkeys (unload h)) a b h3 c1) as [h4 c2].
  destruct (negb (p_ignore_conflicts p) && c2); auto.
Qed.
Lemma process_f : forall p w h, process (rp p) (f w) (rh h) = rn_res rh (process p w h).
Proof.
  intros p w h. unfold process. rewrite process_ops_f. destruct (process_ops p w h) as [h1|]; simpl; auto. f_equal. destruct (p_kind p); auto.
  - apply fold_h. intros h0 x. apply hmut_f. intros; apply add_f.
  - destruct (p_nodes p) as [|n r]; simpl; auto. rewrite !hget_f, union_f, !hnew_f. auto.
  - rewrite hget_f, sof_f, union_f, hnew_f. auto.
Qed.
Lemma remove_new_self_f : forall p base h, remove_new_self (rp p) (rg base) (rh h) = rh (remove_new_self p base h).
Proof.
  intros p base h. unfold remove_new_self. cbn [rn_opcond p_remove_self]. destruct (p_remove_self p); auto. unfold rn_hgraph at 1. cbn [h_refs]. rewrite akeys_f. fold (rh h). apply fold_h.
  intros h0 x. rewrite senders_f, hget_f, !mem_f. destruct (_ && _); auto. apply hmut_f. intros; apply remove_f.
Qed.
Lemma nth_f : forall c i, i < length c -> nth i (rs c) 0 = f (nth i c 0).
Proof. intros c i L. rewrite (nth_indep (rs c) 0 (f 0)) by (rewrite length_f; auto). apply map_nth. Qed.
Lemma cyc_nth_f : forall c i, c <> [] -> cyc_nth (rs c) i = f (cyc_nth c i).
Proof. intros c i N. unfold cyc_nth. rewrite length_f. apply nth_f. apply Nat.mod_upper_bound. destruct c; simpl; congruence. Qed.
Lemma drop_edge_f : forall h s r, drop_edge (rh h) (f s) (f r) = rh (drop_edge h s r).
Proof. intros h s r. unfold drop_edge. rewrite hget_f, mem_f. destruct (mem s (hget h r)); auto. apply hmut_f. intros; apply remove_f. Qed.
Lemma prune_owner_edge_f : forall p w base i c h, c <> [] -> prune_owner_edge (rp p) (f w) (rg base) i (rs c) (rh h) = rh (prune_owner_edge p w base i c h).
Proof.
  intros p w base i c h N.
  set (tail := fun (p : opcond) (w : node) (base : graph) (c : list node) (h : hgraph) (tc : list node) =>
    let e := if forallb (fun n => mem w (ancestors_of base n)) tc || negb (forallb (fun n => mem w (descendants_of base n)) tc)
             then (w, cyc_nth c (i + 1)) else (cyc_nth c (i + length c - 1), w) in
    if required_edge p w (fst e) (snd e) then h else drop_edge h (fst e) (snd e)).
  assert (G : forall tc, tail (rp p) (f w) (rg base) (rs c) (rh h) (rs tc) = rh (tail p w base c h tc)).
  { intros tc. unfold tail. cbv zeta. rewrite (forallb_f (fun n => mem w (ancestors_of base n))) by (intros; rewrite ancestors_f; apply mem_f).
    rewrite (forallb_f (fun n => mem w (descendants_of base n))) by (intros; rewrite descendants_f; apply mem_f).
    rewrite length_f, !cyc_nth_f by auto. destruct (_ || _); cbn [fst snd]; rewrite required_edge_f, drop_edge_f; destruct (required_edge _ _ _ _); auto. }
  change (tail (rp p) (f w) (rg base) (rs c) (rh h) (match filter (fun n => mem n (rs c)) (rs (p_nodes p)) with [] => rs (p_nodes p) | x :: r => filter (fun n => mem n (rs c)) (rs (p_nodes p)) end) =
    rh (tail p w base c h (match filter (fun n => mem n c) (p_nodes p) with [] => p_nodes p | x :: r => filter (fun n => mem n c) (p_nodes p) end))).
  rewrite (filter_f (fun n => mem n c)) by (intros; apply mem_f). rewrite <- G. f_equal.
  assert (Z : forall ic d : list node, match rs ic with [] => rs d | _ :: _ => rs ic end = rs (match ic with [] => d | _ :: _ => ic end)) by (intros [|] d; auto).
  exact (Z (filter (fun n => mem n c) (p_nodes p)) (p_nodes p)).
Qed.
Lemma prune_edge_f : forall p w base c h i, i < length c -> prune_edge (rp p) (f w) (rg base) (rs c) (rh h) i = rh (prune_edge p w base c h i).
Proof.
  intros p w base c h i L. unfold prune_edge. cbv zeta. rewrite length_f. assert (L2 : (i + 1) mod length c < length c) by (apply Nat.mod_upper_bound; lia).
  rewrite !nth_f by auto. rewrite !eqb_f, senders_f, mem_f, required_edge_f, drop_edge_f. rewrite prune_owner_edge_f by (destruct c; simpl in L; [lia|discriminate]).
  destruct (Nat.eqb _ w); auto. destruct (_ && _); auto.
Qed.
Lemma prune_cycle_f : forall p w base c h, prune_cycle (rp p) (f w) (rg base) (rs c) (rh h) = rh (prune_cycle p w base c h).
Proof.
  intros p w base c h. unfold prune_cycle. rewrite length_f.
  assert (X : forall l, (forall i, In i l -> i < length c) -> forall h, fold_left (prune_edge (rp p) (f w) (rg base) (rs c)) l (rh h) = rh (fold_left (prune_edge p w base c) l h)).
  { induction l as [|i l IH]; intros H h0; simpl; auto. rewrite prune_edge_f by (apply H; left; auto). apply IH. intros; apply H; right; auto. }
  apply X. intros i I. apply in_seq in I. lia.
Qed.
Lemma rs_inj : forall a b, rs a = rs b -> a = b.
Proof. induction a as [|x a IH]; intros [|y b] H; simpl in H; try discriminate; auto. injection H as H1 H2. f_equal; auto. Qed.
Lemma rss_inj : forall a b, rss a = rss b -> a = b.
Proof. induction a as [|x a IH]; intros [|y b] H; simpl in H; try discriminate; auto. injection H as H1 H2. f_equal; auto using rs_inj. Qed.
Lemma cycles_eqb_f : forall a b, cycles_eqb (rss a) (rss b) = cycles_eqb a b.
Proof. intros a b. unfold cycles_eqb. destruct (list_eq_dec (list_eq_dec Nat.eq_dec) (rss a) (rss b)) as [E|E], (list_eq_dec (list_eq_dec Nat.eq_dec) a b) as [E'|E']; auto; [destruct E'; apply rss_inj; auto|congruence]. Qed.
Lemma cycle_in_f : forall c l, cycle_in (rs c) (rss l) = cycle_in c l.
Proof.
  intros c l. unfold cycle_in. induction l as [|d l IH]; simpl; auto. rewrite IH. f_equal. destruct (list_eq_dec Nat.eq_dec (rs c) (rs d)) as [E|E], (list_eq_dec Nat.eq_dec c d) as [E'|E']; auto; [destruct E'; apply rs_inj; auto|congruence].
Qed.
Lemma sort_by_len_f : forall l, sort_by_len (rss l) = rss (sort_by_len l).
Proof.
  assert (X : forall c l, insert_by_len (rs c) (rss l) = rss (insert_by_len c l)) by (intros c; induction l as [|d l IH]; simpl; auto; rewrite !length_f; destruct (Nat.leb _ _); simpl; rewrite ?IH; auto).
  induction l as [|c l IH]; simpl; auto. rewrite IH. apply X.
Qed.
Section Cyc.
Variables cyc cyc' : graph -> list (list node).
Hypothesis CF : cycles_follow R cyc cyc'.
Lemma prune_pass_f : forall p w base todo cs h, prune_pass cyc' (rp p) (f w) (rg base) (rss todo) (rss cs) (rh h) =
  (let (h', l) := prune_pass cyc p w base todo cs h in (rh h', rss l)).
Proof.
  intros p w base. induction todo as [|c todo IH]; intros cs h; simpl; auto. rewrite cycle_in_f. destruct (cycle_in c cs); [|apply IH].
  rewrite prune_cycle_f, unload_f, CF. apply IH.
Qed.
Lemma prune_loop_f : forall k p w base prev h, prune_loop cyc' k (rp p) (f w) (rg base) (rss prev) (rh h) = option_map rh (prune_loop cyc k p w base prev h).
Proof.
  induction k as [|k IH]; intros p w base prev h; destruct prev as [|c prev]; simpl; auto. change (rs c :: rss prev) with (rss (c :: prev)).
  rewrite unload_f, CF. change (insert_by_len (rs c) (sort_by_len (rss prev))) with (sort_by_len (rss (c :: prev))). rewrite sort_by_len_f, prune_pass_f.
  change (insert_by_len c (sort_by_len prev)) with (sort_by_len (c :: prev)). destruct (prune_pass cyc p w base (sort_by_len (c :: prev)) (cyc (unload h)) h) as [h' l].
  rewrite cycles_eqb_f. destruct (cycles_eqb (c :: prev) l); auto.
Qed.
Lemma edge_count_f : forall g, edge_count (rg g) = edge_count g.
Proof. induction g as [|[k v] g IH]; simpl; auto. rewrite length_f. f_equal. exact IH. Qed.
Lemma reconnect_f : forall p w base h, reconnect (rp p) (f w) (rg base) (rh h) = rh (reconnect p w base h).
Proof.
  intros p w base h. unfold reconnect. cbn [rn_opcond p_reconnect]. destruct (p_reconnect p); auto. rewrite receivers_f, !senders_f.
  assert (P : forall a b, list_prod (rs a) (rs b) = map (fun e => (f (fst e), f (snd e))) (list_prod a b)).
  { induction a as [|x a IH]; intros b; simpl; auto. rewrite map_app, IH. f_equal. unfold rn_set. rewrite !map_map. auto. }
  rewrite P. assert (S : forall h e, reconnect1 (rp p) (f w) (rg base) (rh h) (f (fst e), f (snd e)) = rh (reconnect1 p w base h e)).
  { intros h0 [s r]. unfold reconnect1. cbn [fst snd rn_opcond p_nodes]. rewrite !senders_f, !hget_f, unload_f, descendants_f, !mem_f. destruct (_ && _); auto. apply hmut_f. intros; apply add_f. }
  generalize (list_prod (senders base w) (senders (get_receivers base) w)) as l. intros l. revert h. induction l as [|e l IH]; intros h; cbn [fold_left map]; auto. rewrite S. apply IH.
Qed.
Lemma postprocess_f : forall p w base h, postprocess cyc' (rp p) (f w) (rg base) (rh h) = rn_res rh (postprocess cyc p w base h).
Proof.
  intros p w base h. unfold postprocess. rewrite remove_new_self_f. unfold prune_cycles. cbn [rn_opcond p_prune]. destruct (p_prune p).
  - fold (rp p). rewrite unload_f, edge_count_f, CF, prune_loop_f. destruct (prune_loop cyc _ p w base _ _); simpl; auto. rewrite reconnect_f. auto.
  - simpl. fold (rp p). rewrite reconnect_f. auto.
Qed.
Lemma modify_ops_f : forall p w h, modify_ops cyc' (rp p) (f w) (rh h) = rn_res rh (modify_ops cyc p w h).
Proof.
  intros p w h. unfold modify_ops. cbv zeta. cbn [rn_opcond p_kind p_nodes]. fold (rp p).
  assert (E : (match p_kind p with KPlain => rh h | _ => hclone (rh h) end) = rh (match p_kind p with KPlain => h | _ => hclone h end)) by (destruct (p_kind p); auto using hclone_f).
  rewrite E. set (h0 := match p_kind p with KPlain => h | _ => hclone h end). rewrite unload_f, already_valid_f, !length_f.
  assert (E2 : forall b : bool, b = b) by auto. set (b := match p_kind p with KPlain => false | _ => _ end). destruct b; auto.
  rewrite hclone_f, preprocess_f, process_f. destruct (process p w (preprocess p w (hclone h0))) as [r|]; simpl; auto.
  rewrite <- postprocess_f. f_equal. rewrite <- unload_f. auto.
Qed.
Lemma modify_graph_f : forall o s g, gsc_follows R s -> modify_graph cyc' (option_map f o) (rn_gsc R s) (rg g) = rn_res rg (modify_graph cyc o s g).
Proof.
  intros o s g F. unfold modify_graph, modify_graph_in. destruct o as [w|]; simpl; auto. rewrite load_f, unload_f.
  assert (K : gsc_graph_ok (rn_gsc R s) (f w) (rg (unload (load g))) = gsc_graph_ok s w (unload (load g))).
  { unfold gsc_graph_ok. destruct s; simpl; auto; rewrite gkeys_f, ?mem_f, ?subset_f; auto. }
  rewrite K. destruct (gsc_graph_ok s w (unload (load g))); auto. destruct s as [u|p|n|n]; cbn [rn_gsc].
  - destruct F as [F1 F2]. unfold custom_process. rewrite F1, hclone_f. destruct (u_self u) as [[|k]|]; auto.
    + change (Some (f w)) with (option_map f (Some w)). rewrite F2. destruct (u_call u (Some w) (hclone (load g))); simpl; auto. rewrite unload_f; auto.
    + change (@None node) with (option_map f None) at 1. rewrite F2. destruct (u_call u None (hclone (load g))); simpl; auto. rewrite unload_f; auto.
  - rewrite modify_ops_f. destruct (modify_ops cyc p w (load g)); simpl; auto. rewrite unload_f; auto.
  - rewrite hclone_f, (hmut_f _ _ (s_add w)) by (intros; apply add_f). simpl. rewrite unload_f; auto.
  - rewrite hclone_f, (hmut_f _ _ (s_remove n)) by (intros; apply remove_f). simpl. rewrite unload_f; auto.
Qed.
End Cyc.
End Names.
