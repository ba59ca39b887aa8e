(** Property theorems about the arguments of time conditions (C68). *)
From Verif Require Import SpecTimeArgs TimeArgsFacts AbsFacts.
Open Scope nat_scope.

(** ** C68: Constructing time conditions *)
(** TimeInterval(repeat, start, end, unit) with arguments that stand for times, start and end being
    both numbers or both quantities: ConditionError is raised iff all three are missing or start is
    strictly later than end.  Otherwise the new condition has the given times. *)
Theorem C68_interval : forall p o rep st en u si ei, positive_units p u -> meaningful p u rep -> meaningful p u st -> meaningful p u en -> alike st en ->
  (new_TimeInterval p o rep st en u si ei = Err ECondition /\ ((rep = None /\ st = None /\ en = None) \/ later p u st en)) \/
  (~ (rep = None /\ st = None /\ en = None) /\ ~ later p u st en /\
   exists r s e, new_TimeInterval p o rep st en u si ei = Ok (CAtom o (ATimeInterval r s e si ei)) /\
     holds_value p u rep r /\ holds_value p u st s /\ holds_value p u en e).
Proof. exact interval_args. Qed.
Print Assumptions C68_interval.
(** Whatever the kinds of the arguments: if a condition is made, all of them stand for times, and
    the times at which the condition holds (C43) are those that the arguments describe. *)
Theorem C68_window : forall p o rep st en u si ei c, positive_units p u -> new_TimeInterval p o rep st en u si ei = Ok c ->
  meaningful p u rep /\ meaningful p u st /\ meaningful p u en /\
  exists r s e, c = CAtom o (ATimeInterval r s e si ei) /\ forall t, in_window r s e si ei t <-> in_given_window p u rep st en si ei t.
Proof. exact interval_given. Qed.
Print Assumptions C68_window.
(** An interval that ends before it starts, if it is accepted at all, is never satisfied. *)
Theorem C68_backwards : forall p o rep st en u si ei c, positive_units p u -> new_TimeInterval p o rep st en u si ei = Ok c -> later p u st en ->
  forall v e ow cs, fst (eval v e ow c cs) <> Ok true.
Proof. exact backwards_never. Qed.
Print Assumptions C68_backwards.
(** C68_interval fails for strings: they are compared character by character.  The interval from
    '9ms' to '10ms' is rejected with ConditionError, and the one from '10ms' to '9ms' accepted. *)
Theorem C68_string_refuted : forall p o u si ei, p_read p "9ms" = Full (mkQuantity 9 (1 # 1000)) -> p_read p "10ms" = Full (mkQuantity 10 (1 # 1000)) ->
  ~ later p u (Some (RStr "9ms")) (Some (RStr "10ms")) /\ later p u (Some (RStr "10ms")) (Some (RStr "9ms")) /\
  new_TimeInterval p o None (Some (RStr "9ms")) (Some (RStr "10ms")) u si ei = Err ECondition /\
  exists c, new_TimeInterval p o None (Some (RStr "10ms")) (Some (RStr "9ms")) u si ei = Ok c.
Proof. exact strings_compared. Qed.
Print Assumptions C68_string_refuted.
(** If start and end are of different kinds, the comparison raises: TypeError if one is a string,
    ValueError for a quantity and a number other than 0. *)
Theorem C68_mixed : forall p o rep u si ei x s q,
  new_TimeInterval p o rep (Some (RNum x)) (Some (RStr s)) u si ei = Err EType /\
  new_TimeInterval p o rep (Some (RStr s)) (Some (RNum x)) u si ei = Err EType /\
  new_TimeInterval p o rep (Some (RQty q)) (Some (RStr s)) u si ei = Err EType /\
  new_TimeInterval p o rep (Some (RStr s)) (Some (RQty q)) u si ei = Err EType /\
  (~ (x == 0)%Q -> new_TimeInterval p o rep (Some (RNum x)) (Some (RQty q)) u si ei = Err EValue /\
                   new_TimeInterval p o rep (Some (RQty q)) (Some (RNum x)) u si ei = Err EValue).
Proof. exact mixed_args. Qed.
Print Assumptions C68_mixed.
(** TimeTermination(t, inclusive, unit) has the given time; an argument that stands for no time is
    rejected with ValueError or AttributeError. *)
Theorem C68_termination : forall p o t incl u, positive_units p u ->
  (forall x, means p u t x -> exists q, new_TimeTermination p o t incl u = Ok (CAtom o (ATimeTermination q incl)) /\ (q_val q == x)%Q) /\
  ((forall x, ~ means p u t x) -> exists e, new_TimeTermination p o t incl u = Err e /\ (e = EValue \/ e = EAttribute)).
Proof. exact termination_given. Qed.
Print Assumptions C68_termination.

(** a registry with seconds, milliseconds and microseconds that can read four strings *)
Definition ex_registry : registry :=
  mkRegistry
    (fun s => if String.eqb s "9ms" then Full (mkQuantity 9 (1 # 1000)) else if String.eqb s "10ms" then Full (mkQuantity 10 (1 # 1000))
              else if String.eqb s "3" then Plain (Some 3%Q) else if String.eqb s "nan" then Plain None else Undefined)
    (fun s => if String.eqb s "ms" then Some (1 # 1000)%Q else if String.eqb s "s" then Some 1%Q else None)
    [1%Q; (1 # 1000)%Q; (1 # 1000000)%Q].
(** Start and end may be equal; '3' with the unit ms are 3 ms; 0.5 ms are stored as 500
    microseconds; without arguments or with start after end there is no condition; a string or a
    unit that pint does not know is rejected. *)
Example ex_C68 :
  positive_units ex_registry (UName "ms") /\
  new_TimeInterval ex_registry 1 (Some (RStr "3")) (Some (RNum 4)) (Some (RNum 4)) (UName "ms") true true
    = Ok (CAtom 1 (ATimeInterval (Some (mkQuantity 3 (1 # 1000))) (Some (mkQuantity 4 (1 # 1000))) (Some (mkQuantity 4 (1 # 1000))) true true)) /\
  new_TimeInterval ex_registry 1 (Some (RNum (1 # 2))) (Some (RQty (mkQuantity 2 1))) None (UName "ms") false true
    = Ok (CAtom 1 (ATimeInterval (Some (mkQuantity 500 (1 # 1000000))) (Some (mkQuantity 2 1)) None false true)) /\
  new_TimeInterval ex_registry 1 None None None (UName "ms") true true = Err ECondition /\
  new_TimeInterval ex_registry 1 None (Some (RNum 5)) (Some (RNum 4)) (UName "ms") true true = Err ECondition /\
  new_TimeInterval ex_registry 1 (Some (RStr "nan")) None None (UName "ms") true true = Err EValue /\
  new_TimeInterval ex_registry 1 (Some (RStr "soon")) None None (UName "ms") true true = Err EAttribute /\
  new_TimeInterval ex_registry 1 (Some (RNum 1)) None None (UName "fortnights") true true = Err EAttribute /\
  new_TimeTermination ex_registry 1 (RStr "10ms") false (UName "s") = Ok (CAtom 1 (ATimeTermination (mkQuantity 10 (1 # 1000)) false)).
Proof.
  split. { split; [intros l H; simpl in H; destruct H as [<-|[<-|[<-|[]]]]; reflexivity|]. intros l H. apply get_unit_is in H. vm_compute in H. injection H as <-. reflexivity. }
  repeat (split; [vm_compute; reflexivity|]). vm_compute; reflexivity.
Qed.
