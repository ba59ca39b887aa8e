(** Specification vocabulary for the rate of EveryNCalls (C59). *)
From Verif Require Export SpecRun.

(** as [running_in_passes] (the clock's pass number is recorded with each yielded set), and P
    holds of the scheduler state at the creation of the generator and each time user code has
    control *)
Inductive running_while_in_passes (P : core -> Prop) (m0 : core) (g0 : gen) : list (nat * list node) -> core -> gen -> Prop :=
| rwp_created : P m0 -> running_while_in_passes P m0 g0 [] m0 g0
| rwp_env : forall ts m g m', running_while_in_passes P m0 g0 ts m g -> undisturbed (g_eid g0) m m' -> P m' ->
    running_while_in_passes P m0 g0 ts m' g
| rwp_yields : forall ts m g fuel m' g' s, running_while_in_passes P m0 g0 ts m g ->
    resume fuel m g = (m', g', OYield s) -> P m' ->
    running_while_in_passes P m0 g0 (ts ++ [(pass_number m' (g_eid g0), s)]) m' g'.

(** c, once true in the middle of a pass, is still true when the clock has gone on to the next
    pass and nothing has been executed in between *)
Definition keeps_true (c : cond) : Prop := forall v e ow st st' h k,
  clock_after ESU h (v_clock v) -> clock_incr PASS (v_clock v) = Ok k ->
  is_satisfied v e ow st c = Ok true -> is_satisfied (with_clock v k) e ow st' c = Ok true.
(** the termination conditions that a run of g would use *)
Definition tcs_keep_true (g : gen) (m : core) : Prop :=
  forall s c, run_tc m g s = Some c -> keeps_true c.
(** b has the condition EveryNCalls(d, n), and the termination conditions are as above *)
Definition paced (g : gen) (b d : node) (n : nat) (m : core) : Prop := every_n_calls b d n m /\ tcs_keep_true g m.

(** d is in the same consideration set as b or in an earlier one *)
Definition not_later (q : list (list node)) (d b : node) : Prop :=
  exists i j ld lb, nth_error q i = Some ld /\ In d ld /\ nth_error q j = Some lb /\ In b lb /\ i <= j.
(** the sets yielded in the passes before pass k *)
Definition before_pass (k : nat) (ts : list (nat * list node)) : list (list node) :=
  map snd (filter (fun a => Nat.ltb (fst a) k) ts).
(** the same with exceptions in view: at the beginning of the next pass c does not raise if it
    did not raise in the middle of the pass, and is true if it was true there *)
Definition settles (c : cond) : Prop := forall v e ow st st' h k b,
  clock_after ESU h (v_clock v) -> clock_incr PASS (v_clock v) = Ok k -> is_satisfied v e ow st c = Ok b ->
  exists b', is_satisfied (with_clock v k) e ow st' c = Ok b' /\ (b = true -> b' = true).
