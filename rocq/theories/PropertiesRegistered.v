(** C78: runs depend on what is registered, not on how it came there *)
From Verif Require Import SpecRegistered RegisteredFacts Tests.

(** Two schedulers for the same graph that were set up in different ways (conditions given to
    the constructor, added one by one or as sets, replaced, removed; graphs read and termination
    conditions assigned in between) but have the same conditions registered in the end, the
    structural ones in the same order, and the same termination conditions: every run gives the
    same sets and the same ending, and leaves the same counts, histories, clocks, conditions and
    outside world. *)
Theorem C78_registered : forall cyc arr is_s is_s' nx input base conds conds' tc tc' deid exact du ow w r r' d0 d0' ks ks' d d' gr,
  arg_graph input = Ok base ->
  new_sched cyc arr input conds tc deid exact du ow nx w = (Ok r, d0) -> performs cyc arr ks d0 = Some d -> Forall set_up ks ->
  new_sched cyc arr input conds' tc' deid exact du ow nx w = (Ok r', d0') -> performs cyc arr ks' d0' = Some d' -> Forall set_up ks' ->
  let cs := SAddSet conds :: set_calls ks in let cs' := SAddSet conds' :: set_calls ks' in
  well_kinded is_s nx cs -> added_once cs -> proper_objects nx ow cs -> well_kinded is_s' nx cs' -> added_once cs' -> proper_objects nx ow cs' ->
  (forall n, registered_basic cs' n = registered_basic cs n) -> registered_struct cs' = registered_struct cs ->
  (forall s, given_terms tc' ks' s = given_terms tc ks s) ->
  (forall n c, registered_basic cs n = Some c -> is_absolute c = false) ->
  fst (get_graph cyc arr d) = Ok gr ->
  forall e b tcarg skip, (forall s c, given_terms tc ks s = Some c \/ (exists t, tcarg = Some t /\ t s = Some c) -> own_objects nx cs c /\ own_objects nx cs' c) ->
  forall steps fuel, same_run (sdrive cyc arr steps fuel d (new_gen e b tcarg skip) []) (sdrive cyc arr steps fuel d' (new_gen e b tcarg skip) []).
Proof. exact registered_decides. Qed.
Print Assumptions C78_registered.
(** In particular conditions given to the constructor as a dict, and the same conditions added
    one by one in any order, make the same scheduler. *)
Theorem C78_order : forall cyc arr nx input base conds conds' tc deid exact du ow w r r' d d0' d',
  arg_graph input = Ok base -> NoDup (map fst conds) -> Permutation conds conds' ->
  NoDup (flat_map (fun p => oids (snd p)) conds) -> (forall o, In o (flat_map (fun p => oids (snd p)) conds) -> o < nx /\ ow o = None) -> (forall o, nx <= o -> ow o = None) ->
  (forall p, In p conds -> is_absolute (snd p) = false) ->
  new_sched cyc arr input (as_dict conds) tc deid exact du ow nx w = (Ok r, d) ->
  new_sched cyc arr input [] tc deid exact du ow nx w = (Ok r', d0') -> performs cyc arr (added_singly conds') d0' = Some d' ->
  forall e b tcarg skip, (forall s c, given_first tc s = Some c \/ (exists t, tcarg = Some t /\ t s = Some c) ->
    forall o, In o (oids c) -> o < nx /\ ~ In o (flat_map (fun p => oids (snd p)) conds)) ->
  forall steps fuel, same_run (sdrive cyc arr steps fuel d (new_gen e b tcarg skip) []) (sdrive cyc arr steps fuel d' (new_gen e b tcarg skip) []).
Proof. exact order_of_conditions. Qed.
Print Assumptions C78_order.

(** *** an example: A -> B, C free; EveryNCalls(A, 2) for B, C after B by a structural condition,
    three runs of A; set up in two ways *)
Definition ex_reg_graph : graph := [(tA, []); (tB, [tA]); (tC, [])].
Definition ex_edge : scond := mkS 40 (GAddEdgeTo tC).
Definition ex_term (o : oid) (n : nat) : tconds := t_tc None (Some (AfterNCalls o tA n ESU)).
Definition ex_reg_conds : amap centry := [(tB, Many [Struct ex_edge; Basic (EveryNCalls 30 tA 2)]); (tA, One (Basic (Always 31)))].
Definition ex_reg_calls : list call :=
  [CSet (SAdd tA (Basic (Always 31))); CLook; CTerm (Some (ex_term 51 9)); CSet (SAdd tB (Basic (AtPass 32 7 ESU))); CSet (SAdd tB (Struct (mkS 41 (GAddEdgeTo tA))));
   CSet (SRemove (Struct (mkS 41 (GAddEdgeTo tA)))); CSet (SAdd tC (Basic (Never 33))); CSet (SAdd tB (Struct ex_edge)); CTerm (Some (ex_term 50 3));
   CSet (SRemoveOwner tC); CSet (SAdd tB (Basic (EveryNCalls 30 tA 2)))].
Definition ex_reg_new conds tc := new_sched ref_simple_cycles (fun q => q) (t_graph ex_reg_graph) conds tc 0 false (ms 1) (fun _ => None) 100 t_world.
Definition ex_reg_1 : sched := snd (ex_reg_new ex_reg_conds (Some (ex_term 50 3))).
Definition ex_reg_2 : option sched := performs ref_simple_cycles (fun q => q) ex_reg_calls (snd (ex_reg_new [] None)).
Definition ex_reg_out (d : sched) := let '(_, _, ys, o) := sdrive ref_simple_cycles (fun q => q) 20 5 d (new_gen 0 0 None false) [] in (ys, o).
Ltac reg_cases n := intros n; unfold registered_basic; cbn; unfold upd;
  destruct (Nat.eqb_spec n tA); [subst; reflexivity|]; destruct (Nat.eqb_spec n tB); [subst; reflexivity|]; destruct (Nat.eqb_spec n tC); [subst; reflexivity|reflexivity].
Lemma option_map_value : forall A B (f : A -> B) o x y, option_map f o = Some y -> o = Some x -> f x = y.
Proof. intros A B f o x y H ->. injection H as H. exact H. Qed.
Example ex_C78 :
  match ex_reg_2 with
  | Some d2 =>
      let cs := SAddSet ex_reg_conds :: set_calls [] in let cs' := SAddSet [] :: set_calls ex_reg_calls in
      fst (ex_reg_new ex_reg_conds (Some (ex_term 50 3))) = Ok tt /\ fst (ex_reg_new [] None) = Ok tt /\ Forall set_up ex_reg_calls /\
      well_kinded (fun o => Nat.leb 40 o && Nat.leb o 41) 100 cs /\ added_once cs /\ proper_objects 100 (fun _ => None) cs /\
      well_kinded (fun o => Nat.leb 40 o && Nat.leb o 41) 100 cs' /\ added_once cs' /\ proper_objects 100 (fun _ => None) cs' /\
      (forall n, registered_basic cs' n = registered_basic cs n) /\ registered_struct cs' = registered_struct cs /\
      (forall s, given_terms None ex_reg_calls s = given_terms (Some (ex_term 50 3)) [] s) /\
      (forall n c, registered_basic cs n = Some c -> is_absolute c = false) /\
      (forall s c, given_terms (Some (ex_term 50 3)) [] s = Some c -> own_objects 100 cs c /\ own_objects 100 cs' c) /\
      fst (get_graph ref_simple_cycles (fun q => q) ex_reg_1) = Ok [(tA, []); (tB, [tA]); (tC, [tB])] /\
      ex_reg_out ex_reg_1 = ([[tA]; [tA]; [tB]; [tC]; [tA]], OReturn [[tA]; [tA]; [tB]; [tC]; [tA]]) /\ ex_reg_out d2 = ex_reg_out ex_reg_1
  | None => False
  end.
Proof.
  destruct ex_reg_2 as [d2|] eqn:E; [|vm_compute in E; discriminate].
  assert (O2 : option_map ex_reg_out ex_reg_2 = Some (ex_reg_out ex_reg_1)) by (vm_compute; reflexivity).
  apply (fun H => option_map_value _ _ _ _ d2 _ H E) in O2. rewrite O2. clear O2 E d2. cbv zeta.
  split; [vm_compute; reflexivity|]. split; [vm_compute; reflexivity|].
  split; [repeat constructor|].
  assert (WK : forall ks, (forall k a, In k ks -> In a (mentioned k) -> match a with Struct s => (Nat.leb 40 (sc_oid s) && Nat.leb (sc_oid s) 41) = true | Basic c => forall o, In o (oids c) -> (Nat.leb 40 o && Nat.leb o 41) = false end) ->
    well_kinded (fun o => Nat.leb 40 o && Nat.leb o 41) 100 ks).
  { intros ks H. split; auto. intros o L. destruct (Nat.leb_spec o 41); [lia|]. apply andb_false_r. }
  assert (LT : forall l, forallb (fun o => Nat.ltb o 100) l = true -> forall o, In o l -> o < 100 /\ (@None node) = None).
  { intros l H o I. split; auto. rewrite forallb_forall in H. apply Nat.ltb_lt. auto. }
  split. { apply WK. intros k a [<-|[]] I. cbn in I. repeat (destruct I as [<-|I]; [cbn; try reflexivity; intros o [<-|[]]; reflexivity|]). destruct I. }
  split. { vm_compute. repeat constructor; simpl; tauto. }
  split. { split; [vm_compute; repeat constructor; simpl; intuition discriminate|]. split; [apply LT; vm_compute; reflexivity|]. split; auto. intros a [I|[]]. discriminate. }
  split. { apply WK. intros k a I J. cbn in I. repeat (destruct I as [<-|I]; [cbn in J; repeat (destruct J as [<-|J]; [cbn; try reflexivity; intros o [<-|[]]; reflexivity|]); try destruct J|]). destruct I. }
  split. { vm_compute. repeat constructor; simpl; intuition discriminate. }
  split. { split; [vm_compute; repeat constructor; simpl; intuition discriminate|]. split; [apply LT; vm_compute; reflexivity|]. split; auto. intros a I. cbn in I.
    repeat (destruct I as [I|I]; [try discriminate I; injection I as <-; cbn; tauto|]). destruct I. }
  split. { reg_cases n. }
  split. { reflexivity. }
  split. { intros []; reflexivity. }
  split. { intros n c. unfold registered_basic. cbn. unfold upd. destruct (Nat.eqb n tA); [intros H; injection H as <-; reflexivity|]. destruct (Nat.eqb n tB); [intros H; injection H as <-; reflexivity|discriminate]. }
  split. { intros s c H. split; intros o O; (destruct s; cbn in H; try discriminate; injection H as <-; cbn in O; destruct O as [<-|[]]; (split; [apply Nat.ltb_lt; reflexivity|vm_compute; intuition discriminate])). }
  split; [vm_compute; reflexivity|]. split; vm_compute; reflexivity.
Qed.
