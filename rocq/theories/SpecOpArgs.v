(** Specification vocabulary for the arguments of structural conditions (C61). *)
From Verif Require Export OpArgs.

(** the names of the operations; UNION and MERGE compute the same *)
Definition op_names (o : operation) : list string :=
  match o with
  | KEEP => ["KEEP"] | REPLACE => ["REPLACE"] | DISCARD => ["DISCARD"] | INTERSECTION => ["INTERSECTION"] | UNION => ["UNION"; "MERGE"]
  | DIFFERENCE => ["DIFFERENCE"] | INVERSE_DIFFERENCE => ["INVERSE_DIFFERENCE"] | SYMMETRIC_DIFFERENCE => ["SYMMETRIC_DIFFERENCE"]
  end%string.
(** s is t with some of its capital letters A-Z (65-90) replaced by the small ones (97-122) *)
Inductive spelt : string -> string -> Prop :=
| sp_nil : spelt EmptyString EmptyString
| sp_same : forall c s t, spelt s t -> spelt (String c s) (String c t)
| sp_small : forall c d s t, 65 <= nat_of_ascii d <= 90 -> nat_of_ascii c = nat_of_ascii d + 32 -> spelt s t -> spelt (String c s) (String d t).
(** the object v stands for operation o: it is the member, or its name in any mixture of upper
    and lower case *)
Definition stands_for (v : op_arg) (o : operation) : Prop := v = VOp o \/ exists s name, v = VName s /\ In name (op_names o) /\ spelt s name.
(** the argument gives each of the nodes the operation that s gives it, and names no other node *)
Inductive stands_for_subjects (nodes : list node) : subject_arg -> subject_op -> Prop :=
| ss_one : forall v o, stands_for v o -> stands_for_subjects nodes (AOne v) (SOne o)
| ss_dict : forall d e, Forall2 (fun p q => fst p = fst q /\ stands_for (snd p) (snd q)) d e ->
    NoDup (akeys d) -> (forall n, In n (akeys d) <-> In n nodes) -> stands_for_subjects nodes (ADict d) (SDict e).
(** the keys of a dict argument are among the nodes *)
Definition keys_among (nodes : list node) (a : subject_arg) : Prop :=
  match a with AOne _ => True | ADict d => incl (akeys d) nodes end.
