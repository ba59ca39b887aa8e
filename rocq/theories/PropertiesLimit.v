(** Property C91: a node whose condition limits its calls is not called more often. *)
From Verif Require Import BaseFacts LimitFacts RunExamples SpecLimit.
Open Scope nat_scope.
Open Scope list_scope.

(** C91: if, whenever next() is called in a session, the condition of a node n is one that limits
    it to N calls at a scale (BeforeNCalls(n, N), AtNCalls(n, N - 1), Never,
    Not(AfterNCalls(n, N)), All with one of these, Any of these), then no execution id ever counts more than N calls of n at this scale,
    whatever the scale and however generators are interleaved. *)
Theorem C91_within : forall s n N cyc arr ks d, within s n N d -> stays_limited cyc arr s n N ks d -> within s n N (after_all cyc arr ks d).
Proof. exact session_within. Qed.
Print Assumptions C91_within.
(** For the scales of sequences and of the life: what the generators of the scheduler's own
    execution id hand out over any session contains n at most N times. *)
Theorem C91_own : forall cyc arr s n N input conds tc e exact du ow nx w r d ks,
  new_sched cyc arr input conds tc e exact du ow nx w = (r, d) -> ts_leb ES s = true -> stays_limited cyc arr s n N ks d ->
  occurrences n (received cyc arr e ks d) <= N.
Proof. exact own_limit. Qed.
Print Assumptions C91_own.
(** For any execution id, with the calls that it has counted before. *)
Theorem C91_id : forall cyc arr s n N e ks d l t, within s n N d -> recorded (d_ctxs d e) l t -> stamped (d_ctxs d e) \/ timeless cyc arr e ks d ->
  ts_leb ES s = true -> stays_limited cyc arr s n N ks d -> t s n + occurrences n (received cyc arr e ks d) <= N.
Proof. exact id_limit. Qed.
Print Assumptions C91_id.

(** A may be executed twice, in the whole life of an execution id; the run lasts for four passes *)
Definition lim_d : sched := t_sched [(tA, []); (tB, [])] [(tA, CAll 10 [CAtom 11 AAlways; CAny 12 [CAtom 13 (ACalls Lt tA 2 LIFE); CNot 14 (AfterNCalls 15 tA 1 LIFE)]])].
Definition lim_g : gen := new_gen 0 0 (Some (t_tc None (Some (AfterNCalls 90 tB 4 ESU)))) false.
Definition lim_g1 : gen := snd (fst (sresume ref_simple_cycles (fun q => q) 5 lim_d lim_g)).
Definition lim_ks : list call := [CNext 5 lim_g; CNext 5 lim_g1; CNext 5 lim_g1; CNext 5 lim_g1; CNext 5 lim_g1; CEndSequence 0; CNext 5 lim_g].
Example ex_C91 : within LIFE tA 2 lim_d /\ stays_limited ref_simple_cycles (fun q => q) LIFE tA 2 lim_ks lim_d /\
  received ref_simple_cycles (fun q => q) 0 lim_ks lim_d = [[tA; tB]; [tA; tB]; [tB]; [tB]; [tB]].
Proof.
  split. { intros [|e] t T; [injection T as <-; vm_compute; lia|discriminate T]. }
  split; [|vm_compute; reflexivity]. repeat split; (eexists; split; vm_compute; reflexivity).
Qed.
(** A limit for each run does not limit the life: the node is executed again in the next run. *)
Theorem C91_finer_refuted : exists d ks, within ESU tA 1 d /\ stays_limited ref_simple_cycles (fun q => q) ESU tA 1 ks d /\
  occurrences tA (received ref_simple_cycles (fun q => q) 0 ks d) = 2.
Proof.
  exists (t_sched [(tA, []); (tB, [])] [(tA, CAtom 12 (ACalls Lt tA 1 ESU))]), [CNext 5 lim_g; CEndSequence 0; CNext 5 lim_g].
  split. { intros [|e] t T; [injection T as <-; vm_compute; lia|discriminate T]. }
  split; [|vm_compute; reflexivity]. repeat split; (eexists; split; vm_compute; reflexivity).
Qed.
Print Assumptions C91_finer_refuted.
(** Nor does a limit on the calls of another node: BeforeNCalls(B, 1) lets A be executed as long as B is not. *)
Theorem C91_other_node_refuted : exists d ks, (exists o k, k <= 1 /\ aget tA (cs_basic (d_cs d)) = Some (CAtom o (ACalls Lt tB k LIFE))) /\
  occurrences tA (received ref_simple_cycles (fun q => q) 0 ks d) = 2.
Proof.
  exists (t_sched [(tA, []); (tB, [])] [(tA, CAtom 12 (ACalls Lt tB 1 LIFE)); (tB, CAtom 13 ANever)]), [CNext 5 lim_g; CNext 5 lim_g1].
  split; [|vm_compute; reflexivity]. exists 12, 1. split; [lia|vm_compute; reflexivity].
Qed.
Print Assumptions C91_other_node_refuted.
