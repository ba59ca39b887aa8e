(** Specification vocabulary for the exceptions of evaluating a condition (C86). *)
From Verif Require Export SpecCond SpecThresh.
Open Scope nat_scope.
Open Scope list_scope.

(** the call counts of the node d are known: there are some for the execution id, and d is a node
    of the scheduler *)
Definition counted (v : view) (d : node) : Prop := v_total v <> None /\ In d (v_nodes v).
Definition calls_of (v : view) (s : timescale) (d : node) : nat := match v_total v with Some t => t s d | None => 0 end.
(** the dependencies given, or all nodes if none were given *)
Definition these_or_all (v : view) (ds : list node) : list node := match ds with [] => v_nodes v | _ => ds end.
(** d is the first element of l without property P *)
Definition first_without (P : node -> Prop) (l : list node) (d : node) : Prop :=
  exists a b, l = a ++ d :: b /\ (forall x, In x a -> P x) /\ ~ P d.
(** exact time mode was chosen, or all nodes are considered together anyway *)
Definition exact_time_view (v : view) : Prop := v_exact_mode v = true \/ List.length (v_queue v) = 1.

(** Evaluating the atomic condition a, owned by own, raises ex. *)
Inductive raises (v : view) (e : eid) (own : option node) (w : world) : atom -> exn -> Prop :=
(* a scheduler's clock does not keep the times of each pass *)
| ra_scale : forall c n, raises v e own w (ATime c CSE n PASS) ETimeScale
| ra_every_0 : forall s, raises v e own w (AEveryNPasses 0 s) EZeroDiv
| ra_calls : forall c d n s, ~ counted v d -> raises v e own w (ACalls c d n s) EKey
| ra_combined_no_n : forall ds s, raises v e own w (ACallsCombined ds None s) ECondition
| ra_combined : forall ds n s d, In d ds -> ~ counted v d -> raises v e own w (ACallsCombined ds (Some n) s) EKey
| ra_every_id : forall d n, v_use v = None -> raises v e own w (AEveryNCalls d n) EKey
| ra_every_dep : forall d n, ~ In d (v_nodes v) -> raises v e own w (AEveryNCalls d n) EKey
| ra_every_owner : forall d n, (forall o, own = Some o -> ~ In o (v_nodes v)) -> raises v e own w (AEveryNCalls d n) EKey
| ra_just_id : forall d, v_list v = None -> raises v e own w (AJustRan d) EKey
| ra_just_nothing : forall d, v_list v = Some [] -> raises v e own w (AJustRan d) EIndex
(* the nodes are looked at until one has not run *)
| ra_have_run : forall ds s d, first_without (fun x => counted v x /\ 1 <= calls_of v s x) (these_or_all v ds) d -> ~ counted v d ->
    raises v e own w (AAllHaveRun ds s) ECondition
| ra_finished : forall d, w_finished w d e = None -> raises v e own w (AWhenFinished d) ECondition
| ra_finished_any : forall ds d, first_without (fun x => w_finished w x e = Some false) (these_or_all v ds) d -> w_finished w d e = None ->
    raises v e own w (AWhenFinishedAny ds) ECondition
| ra_finished_all : forall ds d, first_without (fun x => w_finished w x e = Some true) (these_or_all v ds) d -> w_finished w d e = None ->
    raises v e own w (AWhenFinishedAll ds) ECondition
| ra_no_parameter : forall d par t c ix atol rtol, w_param w d par = None -> raises v e own w (AThreshold d par t c ix atol rtol) EAttribute
| ra_no_number : forall d par t c ix atol rtol p l, w_param w d par = Some p -> at_index p (match ix with Some k => k | None => [] end) (PSeq l) ->
    raises v e own w (AThreshold d par t c ix atol rtol) EType
| ra_number : forall d par t c a i b atol rtol p x, w_param w d par = Some p -> at_index p a (PNum x) ->
    raises v e own w (AThreshold d par t c (Some (a ++ i :: b)) atol rtol) EType
| ra_index : forall d par t c a i b atol rtol p l, w_param w d par = Some p -> at_index p a (PSeq l) -> (forall x, ~ element l i x) ->
    raises v e own w (AThreshold d par t c (Some (a ++ i :: b)) atol rtol) EIndex
(* where a node stands in the order is the offset of its times, unless there is a start *)
| ra_no_level : forall r st en si ei, ~ (exact_time_view v /\ st <> None) -> (forall o level, own = Some o -> In level (v_queue v) -> ~ In o level) ->
    raises v e own w (ATimeInterval (Some r) st en si ei) EUnboundLocal
| ra_repeat_0 : forall r st en si ei, (exact_time_view v /\ st <> None) \/ (exists o level, own = Some o /\ In level (v_queue v) /\ In o level) -> (q_val r == 0)%Q ->
    raises v e own w (ATimeInterval (Some r) st en si ei) EZeroDiv.
(** a condition of one of the library's classes, without user functions *)
Definition library (a : atom) : Prop := match a with ACustom _ => False | ATime _ LIFE _ _ => False | _ => True end.
