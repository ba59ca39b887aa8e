(** Validation of the model against the expected outputs of the repository's own tests
    (tests/scheduling/test_condition.py, tests/scheduling/test_scheduler.py).  These are
    computations on literals, not proofs of properties: they only show that the model
    computes what the code is documented (by its tests) to compute. *)
From Verif Require Import Sched.
Open Scope nat_scope.

Definition tA := 0. Definition tB := 1. Definition tC := 2. Definition tD := 3. Definition tE := 4.
Definition tF := 5. Definition tG := 6. Definition tH := 7. Definition tI := 8.

Definition t_world : world := mkWorld (fun _ _ => Some true) (fun _ _ => None) (fun _ => 0).
Definition ms (n : Z) : quantity := mkQuantity (inject_Z n) 1%Q.
Definition t_graph (g : graph) : graph_arg := ArgDict (map (fun p => (fst p, VIter (snd p))) g).
Definition t_tc (es esu : option cond) : tconds :=
  fun s => match s with ES => es | ESU => esu | _ => None end.
Definition t_sched (g : graph) (conds : list (node * cond)) : sched :=
  snd (new_sched ref_simple_cycles (fun q => q) (t_graph g)
        (map (fun p => (fst p, One (Basic (snd p)))) conds) None 0 false (ms 1) (fun _ => None) 100 t_world).
Definition t_run (tc : option tconds) (d : sched) :=
  sdrive ref_simple_cycles (fun q => q) 200 5 d (new_gen 0 0 tc false) [].
Definition t_out (tc : option tconds) (d : sched) : list (list node) :=
  let '(_, _, l, _) := t_run tc d in l.
Definition t_after (tc : option tconds) (d : sched) : sched := let '(d', _, _, _) := t_run tc d in d'.
Fixpoint same_sets (a b : list (list node)) : bool :=
  match a, b with
  | [], [] => true
  | x :: a', y :: b' => s_eqb x y && same_sets a' b'
  | _, _ => false
  end.
Definition one_esu : option cond := Some (AfterNEnvironmentStateUpdates 90 1 ES).
Definition check (g : graph) (conds : list (node * cond)) (es esu : option cond) (out : list (list node)) : bool :=
  same_sets (t_out (Some (t_tc es esu)) (t_sched g conds)) out.

(* test_condition.py: single node *)
Definition single (c : cond) (esu : cond) out := check [(tA, [])] [(tA, c)] one_esu (Some esu) out.
Definition a := [tA]. Definition b := [tB]. Definition c := [tC].
Definition pass5 := AtPass 91 5 ESU.
Example t_not : single (Not 10 (AtPass 11 2 ESU)) pass5 [a; a; []; a; a] = true. Proof. vm_compute; reflexivity. Qed.
Example t_bcse : single (BeforeConsiderationSetExecution 10 2 ESU) pass5 [a; a; []; []; []] = true. Proof. vm_compute; reflexivity. Qed.
Example t_acse : single (AtConsiderationSetExecution 10 0 ESU) pass5 [a; []; []; []; []] = true. Proof. vm_compute; reflexivity. Qed.
Example t_bp : single (BeforePass 10 2 ESU) pass5 [a; a; []; []; []] = true. Proof. vm_compute; reflexivity. Qed.
Example t_ap2 : single (AtPass 10 2 ESU) pass5 [[]; []; a; []; []] = true. Proof. vm_compute; reflexivity. Qed.
Example t_ap5 : single (AtPass 10 5 ESU) pass5 [[]; []; []; []; []] = true. Proof. vm_compute; reflexivity. Qed.
Example t_afp : single (AfterPass 10 0 ESU) pass5 [[]; a; a; a; a] = true. Proof. vm_compute; reflexivity. Qed.
Example t_afnp : single (AfterNPasses 10 1 ESU) (AfterNConsiderationSetExecutions 91 5 ESU) [[]; a; a; a; a] = true. Proof. vm_compute; reflexivity. Qed.
Example t_afcse : single (AfterNPasses 10 1 ESU) (AfterConsiderationSetExecution 91 4 ESU) [[]; a; a; a; a] = true. Proof. vm_compute; reflexivity. Qed.
Example t_bnc : single (BeforeNCalls 10 tA 3 ESU) pass5 [a; a; a; []; []] = true. Proof. vm_compute; reflexivity. Qed.
Example t_any : single (EveryNPasses 10 1 ESU) (Any 91 [AfterNCalls 92 tA 10 ESU; AtPass 93 5 ESU]) [a; a; a; a; a] = true. Proof. vm_compute; reflexivity. Qed.

(* A -> B *)
Definition gAB : graph := [(tA, []); (tB, [tA])].
Example t_ab1 : check gAB [(tA, BeforeConsiderationSetExecution 10 2 ESU); (tB, Always 11)] one_esu (Some pass5)
  [a; b; b; b; b; b] = true. Proof. vm_compute; reflexivity. Qed.
Definition nwhen n out := check gAB [(tA, Always 10); (tB, NWhen 11 (AfterNCalls 12 tA 3 ESU) n)] one_esu (Some (AfterNCalls 91 tA 6 ESU)) out.
Example t_nw0 : nwhen 0 [a;a;a;a;a;a] = true. Proof. vm_compute; reflexivity. Qed.
Example t_nw1 : nwhen 1 [a;a;a;b;a;a;a] = true. Proof. vm_compute; reflexivity. Qed.
Example t_nw2 : nwhen 2 [a;a;a;b;a;b;a;a] = true. Proof. vm_compute; reflexivity. Qed.
Example t_start : check gAB [(tA, Always 10); (tB, AtEnvironmentStateUpdateStart 11)] one_esu (Some (AtPass 91 3 ESU)) [a;b;a;a] = true.
Proof. vm_compute; reflexivity. Qed.
Definition gA_B : graph := [(tA, []); (tB, [])].
Definition ab := [tA; tB].
Example t_afcall : check gA_B [(tA, Always 10); (tB, AfterCall 11 tA 3 ESU)] one_esu (Some pass5) [a;a;a;ab;ab] = true. Proof. vm_compute; reflexivity. Qed.
Example t_afncalls : check gA_B [(tA, Always 10); (tB, AfterNCalls 11 tA 3 ESU)] one_esu (Some pass5) [a;a;ab;ab;ab] = true. Proof. vm_compute; reflexivity. Qed.

(* A -> B -> C *)
Definition gABC : graph := [(tA, []); (tB, [tA]); (tC, [tB])].
Example t_abc1 : check gABC [(tA, AtPass 10 0 ESU); (tB, Always 11); (tC, Always 12)] one_esu (Some (AfterNCalls 91 tC 2 ESU)) [a;b;c;b;c] = true.
Proof. vm_compute; reflexivity. Qed.
Definition abc2 esu out := check gABC [(tA, EveryNPasses 10 1 ESU); (tB, EveryNCalls 11 tA 2); (tC, EveryNCalls 12 tB 2)] one_esu (Some esu) out.
Example t_ahr : abc2 (AllHaveRun 91 [] ESU) [a;a;b;a;a;b;c] = true. Proof. vm_compute; reflexivity. Qed.
Example t_comb : abc2 (AfterNCallsCombined 91 [tB; tC] (Some 4) ESU) [a;a;b;a;a;b;c;a;a;b] = true. Proof. vm_compute; reflexivity. Qed.
Example t_composite : check gABC
  [(tA, EveryNPasses 10 1 ESU); (tB, EveryNCalls 11 tA 2);
   (tC, All 12 [Any 13 [AfterPass 14 6 ESU; AfterNCalls 15 tB 2 ESU]; Any 16 [AfterPass 17 2 ESU; AfterNCalls 18 tB 3 ESU]])]
  one_esu (Some (AfterNCalls 91 tC 3 ESU)) [a;a;b;a;a;b;c;a;c;a;b;c] = true. Proof. vm_compute; reflexivity. Qed.

(* test_scheduler.py *)
Example t_default1 : same_sets (t_out None (t_sched [(tA, []); (tC, [tA; tB]); (tB, [tA])] [(tA, AtPass 10 1 ESU); (tB, Always 11)])) [b; a; b; c] = true.
Proof. vm_compute; reflexivity. Qed.
Example t_default2 : same_sets (t_out None (t_sched [(tA, []); (tB, [tA]); (tC, [])] [(tC, AtPass 10 1 ESU)])) [a; b; [tA; tC]] = true.
Proof. vm_compute; reflexivity. Qed.
Example t_linear_none : same_sets (t_out None (t_sched gABC [(tA, EveryNPasses 10 1 ESU); (tB, EveryNCalls 11 tA 2); (tC, EveryNCalls 12 tB 3)]))
  [a;a;b;a;a;b;a;a;b;c] = true. Proof. vm_compute; reflexivity. Qed.
Example t_1b : check gABC [(tA, EveryNPasses 10 1 ESU); (tB, Any 11 [EveryNCalls 12 tA 2; AfterPass 13 1 ESU]); (tC, EveryNCalls 14 tB 3)]
  one_esu (Some (AfterNCalls 91 tC 4 ESU))
  [a;a;b;a;b;a;b;c; a;b;a;b;a;b;c; a;b;a;b;a;b;c; a;b;a;b;a;b;c] = true. Proof. vm_compute; reflexivity. Qed.
Example t_3 : check gABC [(tA, EveryNPasses 10 1 ESU); (tB, EveryNCalls 11 tA 2); (tC, All 12 [AfterNCalls 13 tB 2 ESU; EveryNCalls 14 tB 1])]
  one_esu (Some (AfterNCalls 91 tC 4 ESU)) [a;a;b;a;a;b;c;a;a;b;c;a;a;b;c;a;a;b;c] = true. Proof. vm_compute; reflexivity. Qed.
Example t_6 : check gABC [(tA, BeforePass 10 5 ESU); (tB, AfterNCalls 11 tA 5 ESU); (tC, AfterNCalls 12 tB 1 ESU)]
  one_esu (Some (AfterNCalls 91 tC 3 ESU)) [a;a;a;a;a;b;c;b;c;b;c] = true. Proof. vm_compute; reflexivity. Qed.
(* test_6_two_environment_state_updates *)
Fixpoint t_times (n : nat) (tc : option tconds) (d : sched) : sched :=
  match n with O => d | S k => t_times k tc (t_after tc d) end.
Example t_6_two :
  let d := t_times 5 (Some (t_tc (Some (AfterNEnvironmentStateUpdates 90 2 ES)) (Some (AfterNCalls 91 tC 3 ESU))))
            (t_sched gABC [(tA, BeforePass 10 5 ESU); (tB, AfterNCalls 11 tA 5 ESU); (tC, AfterNCalls 12 tB 1 ESU)]) in
  match x_list (d_ctxs d 0) with
  | Some l => same_sets l [a;a;a;a;a;b;c;b;c;b;c;a;a;a;a;a;b;c;b;c;b;c]
  | None => false
  end = true. Proof. vm_compute; reflexivity. Qed.
Example t_7 : check gAB [(tA, EveryNPasses 10 1 ESU); (tB, EveryNCalls 11 tA 2)] one_esu
  (Some (Any 91 [AfterNCalls 92 tA 1 ESU; AfterNCalls 93 tB 1 ESU])) [a] = true. Proof. vm_compute; reflexivity. Qed.
Example t_8 : check gAB [(tA, EveryNPasses 10 1 ESU); (tB, EveryNCalls 11 tA 2)] one_esu
  (Some (All 91 [AfterNCalls 92 tA 1 ESU; AfterNCalls 93 tB 1 ESU])) [a;a;b] = true. Proof. vm_compute; reflexivity. Qed.
Example t_10 : check gAB [(tA, EveryNPasses 10 1 ESU); (tB, Any 11 [WhenFinished 12 tA; AfterNCalls 13 tA 3 ESU])] one_esu
  (Some (AfterNCalls 91 tB 5 ESU)) [a;b;a;b;a;b;a;b;a;b] = true. Proof. vm_compute; reflexivity. Qed.
Example t_AAB : check gAB [(tA, EveryNPasses 10 1 ESU); (tB, EveryNCalls 11 tA 2)] (Some (AfterNCalls 90 tB 2 ES))
  (Some (AfterNCalls 91 tB 2 ESU)) [a;a;b;a;a;b] = true. Proof. vm_compute; reflexivity. Qed.
Example t_ABB : check gAB [(tA, Any 10 [AtPass 11 0 ESU; EveryNCalls 12 tB 2]); (tB, Any 13 [EveryNCalls 14 tA 1; EveryNCalls 15 tB 1])]
  one_esu (Some (AfterNCalls 91 tB 8 ESU)) [a;b;b;a;b;b;a;b;b;a;b;b] = true. Proof. vm_compute; reflexivity. Qed.
Example t_ABBCC : check gABC [(tA, Any 10 [AtPass 11 0 ESU; EveryNCalls 12 tC 2]); (tB, Any 13 [JustRan 14 tA; JustRan 15 tB]);
                             (tC, Any 16 [EveryNCalls 17 tB 2; JustRan 18 tC])]
  one_esu (Some (AfterNCalls 91 tC 4 ESU)) [a;b;b;c;c;a;b;b;c;c] = true. Proof. vm_compute; reflexivity. Qed.
Example t_ABCBC : check gABC [(tA, Any 10 [AtPass 11 0 ESU; EveryNCalls 12 tC 2]); (tB, Any 13 [EveryNCalls 14 tA 1; EveryNCalls 15 tC 1]);
                             (tC, EveryNCalls 16 tB 1)]
  one_esu (Some (AfterNCalls 91 tC 4 ESU)) [a;b;c;b;c;a;b;c;b;c] = true. Proof. vm_compute; reflexivity. Qed.
Definition gTri : graph := [(tA, []); (tB, [tA]); (tC, [tA])].
Definition bc := [tB; tC].
Example t_tri1 : check gTri [(tA, EveryNPasses 10 1 ESU); (tB, EveryNCalls 11 tA 1); (tC, EveryNCalls 12 tA 1)] one_esu
  (Some (AfterNCalls 91 tC 3 ESU)) [a;bc;a;bc;a;bc] = true. Proof. vm_compute; reflexivity. Qed.
Example t_tri3 : check gTri [(tA, EveryNPasses 10 1 ESU); (tB, EveryNCalls 11 tA 2); (tC, EveryNCalls 12 tA 3)] one_esu
  (Some (AfterNCalls 91 tC 2 ESU)) [a;a;b;a;c;a;b;a;a;bc] = true. Proof. vm_compute; reflexivity. Qed.
Definition gInv : graph := [(tA, []); (tB, []); (tC, [tA; tB])].
Example t_inv1 : check gInv [(tA, EveryNPasses 10 1 ESU); (tB, EveryNCalls 11 tA 2); (tC, Any 12 [AfterNCalls 13 tA 3 ESU; AfterNCalls 14 tB 3 ESU])]
  one_esu (Some (AfterNCalls 91 tC 4 ESU)) [a;ab;a;c;ab;c;a;c;ab;c] = true. Proof. vm_compute; reflexivity. Qed.
Example t_inv2 : check gInv [(tA, EveryNPasses 10 1 ESU); (tB, EveryNCalls 11 tA 2); (tC, All 12 [AfterNCalls 13 tA 3 ESU; AfterNCalls 14 tB 3 ESU])]
  one_esu (Some (AfterNCalls 91 tC 2 ESU)) [a;ab;a;ab;a;ab;c;a;c] = true. Proof. vm_compute; reflexivity. Qed.
Definition gCheck : graph := [(tA, []); (tB, [tA]); (tC, []); (tD, [tB; tC])].
Example t_check2 : check gCheck [(tA, EveryNPasses 10 1 ESU); (tB, EveryNCalls 11 tA 2); (tC, EveryNCalls 12 tA 2);
                                 (tD, All 13 [EveryNCalls 14 tB 2; EveryNCalls 15 tC 2])]
  one_esu (Some (AfterNCalls 91 tD 1 ESU)) [a; [tA; tC]; b; a; [tA; tC]; b; [tD]] = true. Proof. vm_compute; reflexivity. Qed.
(* multisource: A1=0 A2=1 B1=2 B2=3 B3=4 C1=5 C2=6 *)
Definition gMulti : graph := [(0, []); (1, []); (2, [0]); (3, [0; 1]); (4, [1]); (5, [2; 3]); (6, [3; 4])].
Example t_multi2 : check gMulti
  [(0, Always 10); (1, Always 11); (2, EveryNCalls 12 0 2); (4, EveryNCalls 13 1 2); (3, All 14 [EveryNCalls 15 0 4; EveryNCalls 16 1 4]);
   (5, Any 17 [AfterNCalls 18 2 2 ESU; AfterNCalls 19 3 2 ESU]); (6, Any 20 [AfterNCalls 21 3 2 ESU; AfterNCalls 22 4 2 ESU])]
  one_esu (Some (All 91 [AfterNCalls 92 5 1 ESU; AfterNCalls 93 6 1 ESU]))
  [[0;1];[0;1];[2;4];[0;1];[0;1];[2;3;4];[5;6]] = true. Proof. vm_compute; reflexivity. Qed.

(* repeated runs (test_condition.py) *)
Fixpoint t_outs (n : nat) (tc : option tconds) (d : sched) : list (list node) :=
  match n with O => [] | S k => t_out tc d ++ t_outs k tc (t_after tc d) end.
Definition runs n conds es esu out := same_sets (t_outs n (Some (t_tc (Some es) (Some esu))) (t_sched [(tA, [])] conds)) out.
Example t_before_esu : runs 6 [(tA, BeforeEnvironmentStateUpdate 10 4 ES)] (AfterNEnvironmentStateUpdates 90 5 ES) (AtPass 91 1 ESU) [a;a;a;a;[]] = true.
Proof. vm_compute; reflexivity. Qed.
Example t_at_esu : runs 5 [(tA, Always 10)] (AtEnvironmentStateUpdate 90 4 ES) (AtPass 91 1 ESU) [a;a;a;a] = true.
Proof. vm_compute; reflexivity. Qed.
Example t_after_esu : runs 6 [(tA, Always 10)] (AfterEnvironmentStateUpdate 90 4 ES) (AtPass 91 1 ESU) [a;a;a;a;a] = true.
Proof. vm_compute; reflexivity. Qed.
Definition t_end (d : sched) : sched := match send_environment_sequence 0 d with Ok d' => d' | Err _ => d end.
Fixpoint t_seqs (n k : nat) (tc : option tconds) (d : sched) : list (list node) :=
  match n with
  | O => []
  | S n' => t_outs k tc d ++ t_seqs n' k tc (t_end (t_times k tc d))
  end.
Definition seqs n k cd out := same_sets (t_seqs n k (Some (t_tc None (Some (AfterNPasses 91 1 ESU)))) (t_sched [(tA, [])] [(tA, cd)])) out.
Example t_esu_nstart : seqs 1 4 (AtEnvironmentStateUpdateNStart 10 11 12 2 ES) [[];[];a;[]] = true. Proof. vm_compute; reflexivity. Qed.
Example t_at_seq : seqs 6 1 (AtEnvironmentSequence 10 4) [[];[];[];[];a;[]] = true. Proof. vm_compute; reflexivity. Qed.
Example t_after_seq : seqs 6 1 (AfterEnvironmentSequence 10 3) [[];[];[];[];a;a] = true. Proof. vm_compute; reflexivity. Qed.
Example t_aftern_seq : seqs 6 1 (AfterNEnvironmentSequences 10 4) [[];[];[];[];a;a] = true. Proof. vm_compute; reflexivity. Qed.
Example t_seq_start : seqs 2 2 (AtEnvironmentSequenceStart 10) [a;[];a;[]] = true. Proof. vm_compute; reflexivity. Qed.
Example t_seq_nstart : seqs 3 2 (AtEnvironmentSequenceNStart 10 11 12 1) [[];[];a;[];[];[]] = true. Proof. vm_compute; reflexivity. Qed.

(* absolute time *)
Definition ti rep st en si ei o := CAtom o (ATimeInterval rep st en si ei).
Definition every n o := ti (Some (ms n)) None None true true o.
Definition stamps (d : sched) (n : node) : list Q :=
  match x_list (d_ctxs d 0), x_stamps (d_ctxs d 0) with
  | Some l, Some ts => map (fun p => Qred (t_abs (snd p))) (filter (fun p => mem n (fst p)) (combine l ts))
  | _, _ => []
  end.
Fixpoint spaced (q : Q) (l : list Q) : bool :=
  match l with
  | x :: (y :: _) as r => Qeq_bool (y - x) q && spaced q r
  | _ => true
  end.
Definition t_abs_d := t_after (Some (t_tc None (Some (AfterNCalls 91 tA 2 ESU)))) (t_sched gABC [(tA, every 8 10); (tB, every 4 11); (tC, every 2 12)]).
Example t_every : spaced 8 (stamps t_abs_d tA) && spaced 4 (stamps t_abs_d tB) && spaced 2 (stamps t_abs_d tC)
  && Nat.eqb (length (stamps t_abs_d tA)) 2 = true. Proof. vm_compute; reflexivity. Qed.
Definition t_term incl := t_after (Some (t_tc None (Some (TimeTermination 91 (ms 10) incl)))) (t_sched gABC []).
Example t_term_incl : Qeq_bool (t_abs (k_time (the_clock (d_ctxs (t_term true) 0)))) 10 = true. Proof. vm_compute; reflexivity. Qed.
Example t_term_excl : Qeq_bool (t_abs (k_time (the_clock (d_ctxs (t_term false) 0)))) 11 = true. Proof. vm_compute; reflexivity. Qed.
(* test_absolute_interval_linear *)
Definition t_unit conds (q : Q) := match unit_of (core_of (t_sched gABC conds)) (default_tc 0 1) with Ok u => Qeq_bool u q | Err _ => false end.
Example t_unit1 : t_unit [(tA, every 8 10); (tB, every 4 11)] (4#3) = true. Proof. vm_compute; reflexivity. Qed.
Example t_unit2 : t_unit [(tA, Any 10 [every 2 11; every 3 12])] (1#3) = true. Proof. vm_compute; reflexivity. Qed.
Definition us (n : Z) := mkQuantity (inject_Z n) (1#1000).
Example t_unit3 : t_unit [(tA, ti (Some (us 100)) None None true true 10); (tB, every 2 11)] (1#30) = true. Proof. vm_compute; reflexivity. Qed.
Example t_unit4 : t_unit [(tA, ti (Some (us 1000)) None None true true 10); (tB, every 2 11)] (1#3) = true. Proof. vm_compute; reflexivity. Qed.
(* test_TimeInterval_no_dependencies, third parametrization (shortened numbers as in the file) *)
Definition t_nodep := t_after (Some (t_tc None (Some (ti None (Some (ms 59)) None true true 91))))
   (t_sched [(tA, []); (tB, []); (tC, [])]
     [(tA, ti (Some (ms 2)) (Some (ms 10)) None true true 10); (tB, ti (Some (ms 7)) (Some (ms 31)) None true true 11);
      (tC, ti (Some (ms 11)) (Some (ms 43)) None true true 12)]).
Example t_nodep_ok : spaced 2 (stamps t_nodep tA) && spaced 7 (stamps t_nodep tB) && spaced 11 (stamps t_nodep tC)
  && existsb (Qeq_bool 10) (stamps t_nodep tA) && existsb (Qeq_bool 31) (stamps t_nodep tB) && existsb (Qeq_bool 43) (stamps t_nodep tC) = true.
Proof. vm_compute; reflexivity. Qed.

(** ** Structural conditions *)
Definition five : graph := [(tA, []); (tB, []); (tC, [tA; tB]); (tD, [tC]); (tE, [tC])].
Definition nine : graph := [(tA, []); (tB, []); (tC, [tA; tB]); (tD, [tA; tC]); (tE, [tC; tH]); (tF, [tD; tE]); (tG, []); (tH, [tG]); (tI, [tH])].
Definition g_eqb (a b : graph) : bool :=
  s_eqb (gkeys a) (gkeys b) && forallb (fun n => s_eqb (senders a n) (senders b n)) (gkeys a).
Definition gres (s : res gsc) (w : node) (g : graph) : res graph :=
  bind s (fun s => modify_graph ref_simple_cycles (Some w) s g).
Definition gives (s : res gsc) (w : node) (g out : graph) : bool :=
  match gres s w g with Ok g' => g_eqb g' out | Err _ => false end.
Definition fails (s : res gsc) (w : node) (g : graph) : bool :=
  match gres s w g with Err ECondition => true | _ => false end.
Definition ops ns os or_ ss sr := with_operations ns os or_ ss sr false false true false.
Example g_op1 : gives (ops [tD] DIFFERENCE REPLACE (SOne INTERSECTION) (SOne SYMMETRIC_DIFFERENCE)) tE nine
  [(tA, []); (tB, []); (tC, [tA; tB]); (tD, [tC]); (tE, [tH]); (tF, [tE]); (tG, []); (tH, [tG]); (tI, [tH])] = true. Proof. vm_compute; reflexivity. Qed.
Example g_op2 : gives (ops [tD] INTERSECTION DISCARD (SOne MERGE) (SOne INTERSECTION)) tE nine
  [(tA, []); (tB, []); (tC, [tA; tB]); (tD, [tA; tC; tH]); (tE, [tC]); (tF, [tD]); (tG, []); (tH, [tG]); (tI, [tH])] = true. Proof. vm_compute; reflexivity. Qed.
Example g_op3 : gives (ops [tH; tI] KEEP INTERSECTION (SDict [(tH, SYMMETRIC_DIFFERENCE); (tI, MERGE)]) (SOne MERGE)) tC nine
  [(tA, []); (tB, []); (tC, [tA; tB]); (tD, [tA; tH; tI]); (tE, [tC; tH; tI]); (tF, [tD; tE]); (tG, []); (tH, [tA; tB; tG]); (tI, [tA; tB; tH])] = true.
Proof. vm_compute; reflexivity. Qed.
Example g_op4 : gives (ops [tH; tI] INTERSECTION DISCARD (SDict [(tH, MERGE); (tI, REPLACE)]) (SDict [(tH, INTERSECTION); (tI, INVERSE_DIFFERENCE)])) tC nine
  [(tA, []); (tB, []); (tC, []); (tD, [tA; tI]); (tE, [tH; tI]); (tF, [tD; tE]); (tG, []); (tH, [tA; tB; tG]); (tI, [tA; tB])] = true.
Proof. vm_compute; reflexivity. Qed.
Example g_c1 : fails (ops [tB] KEEP REPLACE (SOne KEEP) (SOne KEEP)) tC five = true. Proof. vm_compute; reflexivity. Qed.
Example g_c3 : fails (ops [tB] KEEP KEEP (SOne KEEP) (SOne REPLACE)) tC five = true. Proof. vm_compute; reflexivity. Qed.
Example g_c4 : fails (ops [tE] KEEP REPLACE (SOne MERGE) (SOne KEEP)) tC five = true. Proof. vm_compute; reflexivity. Qed.
Example g_c5 : fails (ops [tE; tD] KEEP MERGE (SOne DISCARD) (SOne KEEP)) tC five = true. Proof. vm_compute; reflexivity. Qed.
Example g_c6 : fails (ops [tH; tI] INTERSECTION MERGE (SOne KEEP) (SDict [(tH, SYMMETRIC_DIFFERENCE); (tI, MERGE)])) tC nine = true. Proof. vm_compute; reflexivity. Qed.
Example g_c7 : fails (ops [tH; tI] MERGE REPLACE (SDict [(tH, SYMMETRIC_DIFFERENCE); (tI, MERGE)]) (SOne INTERSECTION)) tC nine = true. Proof. vm_compute; reflexivity. Qed.
Definition rec ns os or_ ss sr := with_operations ns os or_ ss sr true false false false.
Example g_r1 : gives (rec [tD] KEEP DISCARD (SOne DISCARD) (SOne KEEP)) tC five [(tA, []); (tB, []); (tC, [tA; tB]); (tD, []); (tE, [tA; tB])] = true. Proof. vm_compute; reflexivity. Qed.
Example g_r2 : gives (rec [tE] DISCARD KEEP (SOne KEEP) (SOne KEEP)) tC nine
  [(tA, []); (tB, []); (tC, []); (tD, [tA; tB; tC]); (tE, [tC; tH]); (tF, [tD; tE]); (tG, []); (tH, [tG]); (tI, [tH])] = true. Proof. vm_compute; reflexivity. Qed.
Example g_r3 : gives (rec [tD] DISCARD KEEP (SOne KEEP) (SOne KEEP)) tC nine
  [(tA, []); (tB, []); (tC, []); (tD, [tA; tC]); (tE, [tA; tB; tC; tH]); (tF, [tD; tE]); (tG, []); (tH, [tG]); (tI, [tH])] = true. Proof. vm_compute; reflexivity. Qed.
(* BeforeNodes *)
Example g_b1 : gives (before_nodes [tC]) tD five [(tA, []); (tB, []); (tC, [tA; tB; tD]); (tD, [tA; tB]); (tE, [tC])] = true. Proof. vm_compute; reflexivity. Qed.
Example g_b2 : gives (before_nodes [tA]) tD five [(tA, [tD]); (tB, []); (tC, [tA; tB]); (tD, []); (tE, [tC])] = true. Proof. vm_compute; reflexivity. Qed.
Example g_b3 : gives (before_nodes [tB]) tC five [(tA, []); (tB, [tC]); (tC, [tA]); (tD, [tB; tC]); (tE, [tB; tC])] = true. Proof. vm_compute; reflexivity. Qed.
Example g_b4 : gives (before_nodes [tD]) tC five five = true. Proof. vm_compute; reflexivity. Qed.
Example g_b5 : gives (before_nodes [tB; tD]) tC five [(tA, []); (tB, [tC]); (tC, [tA]); (tD, [tC]); (tE, [tB; tC])] = true. Proof. vm_compute; reflexivity. Qed.
Example g_b6 : gives (before_nodes [tC; tG]) tE nine
  [(tA, []); (tB, []); (tC, [tA; tB; tE]); (tD, [tA; tC]); (tE, [tA; tB]); (tF, [tC; tD; tE; tH]); (tG, [tE]); (tH, [tG]); (tI, [tH])] = true. Proof. vm_compute; reflexivity. Qed.
Example g_b7 : gives (before_nodes [tG]) tC nine
  [(tA, []); (tB, []); (tC, [tA; tB]); (tD, [tA; tC]); (tE, [tC; tH]); (tF, [tD; tE]); (tG, [tC]); (tH, [tG]); (tI, [tH])] = true. Proof. vm_compute; reflexivity. Qed.
(* WithNode *)
Example g_w1 : gives (with_node tC) tA five [(tA, [tB]); (tB, []); (tC, [tB]); (tD, [tC]); (tE, [tC])] = true. Proof. vm_compute; reflexivity. Qed.
Example g_w2 : gives (with_node tD) tA five [(tA, [tC]); (tB, []); (tC, [tB]); (tD, [tC]); (tE, [tC])] = true. Proof. vm_compute; reflexivity. Qed.
Example g_w3 : gives (with_node tE) tD five five = true. Proof. vm_compute; reflexivity. Qed.
Example g_w4 : gives (with_node tE) tC nine
  [(tA, []); (tB, []); (tC, [tA; tB; tH]); (tD, [tA; tC]); (tE, [tA; tB; tH]); (tF, [tD; tE]); (tG, []); (tH, [tG]); (tI, [tH])] = true. Proof. vm_compute; reflexivity. Qed.
Example g_w5 : gives (with_node tH) tE nine
  [(tA, []); (tB, []); (tC, [tA; tB]); (tD, [tA; tC]); (tE, [tC; tG]); (tF, [tD; tE; tH]); (tG, []); (tH, [tC; tG]); (tI, [tH])] = true. Proof. vm_compute; reflexivity. Qed.
(* AfterNodes *)
Example g_a1 : gives (after_nodes [tC]) tA five [(tA, [tC]); (tB, []); (tC, [tB]); (tD, [tA; tC]); (tE, [tA; tC])] = true. Proof. vm_compute; reflexivity. Qed.
Example g_a2 : gives (after_nodes [tD]) tA five [(tA, [tD]); (tB, []); (tC, [tB]); (tD, [tC]); (tE, [tC])] = true. Proof. vm_compute; reflexivity. Qed.
Example g_a3 : gives (after_nodes [tD]) tC five [(tA, []); (tB, []); (tC, [tA; tB; tD]); (tD, [tA; tB]); (tE, [tC])] = true. Proof. vm_compute; reflexivity. Qed.
Example g_a4 : gives (after_nodes [tA]) tD five [(tA, []); (tB, []); (tC, [tA; tB; tD]); (tD, [tA]); (tE, [tC])] = true. Proof. vm_compute; reflexivity. Qed.
Example g_a5 : gives (after_nodes [tB; tD]) tC five [(tA, []); (tB, [tA]); (tC, [tA; tB; tD]); (tD, [tA]); (tE, [tC])] = true. Proof. vm_compute; reflexivity. Qed.
Example g_a6 : gives (after_nodes [tA; tB]) tC five five = true. Proof. vm_compute; reflexivity. Qed.
Example g_a7 : gives (after_nodes [tE; tG]) tC nine
  [(tA, []); (tB, []); (tC, [tA; tB; tE; tG]); (tD, [tA; tC]); (tE, [tA; tB; tH]); (tF, [tC; tD; tE]); (tG, [tA; tB]); (tH, [tG]); (tI, [tH])] = true. Proof. vm_compute; reflexivity. Qed.
Example g_a8 : gives (after_nodes [tE]) tC nine
  [(tA, []); (tB, []); (tC, [tA; tB; tE]); (tD, [tA; tC]); (tE, [tA; tB; tH]); (tF, [tC; tD; tE]); (tG, []); (tH, [tG]); (tI, [tH])] = true. Proof. vm_compute; reflexivity. Qed.
Example g_a9 : gives (after_nodes [tF]) tC nine
  [(tA, []); (tB, []); (tC, [tA; tB; tF]); (tD, [tA; tB]); (tE, [tA; tB; tH]); (tF, [tA; tB; tD; tE]); (tG, []); (tH, [tG]); (tI, [tH])] = true. Proof. vm_compute; reflexivity. Qed.
