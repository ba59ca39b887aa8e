(** Specification vocabulary for termination condition dicts. *)
From Verif Require Export SpecSched TermConds.
From Coq Require Import String.

(** dicts have no two equal keys *)
Definition wf_dict (d : tdict) : Prop := NoDup (map fst d).
(** the value a dict gives for the time scale t: that of the last key that names it (as a
    string), or else that of the key t *)
Definition own_values (t : timescale) (d : tdict) : list tval :=
  flat_map (fun p => match fst p with KScale s => if ts_eqb s t then [snd p] else [] | _ => [] end) d.
Definition named_values (attr : string -> option timescale) (t : timescale) (d : tdict) : list tval :=
  flat_map (fun p => match fst p with
                     | KStr s => match attr s with Some u => if ts_eqb u t then [snd p] else [] | None => [] end
                     | _ => []
                     end) d.
Definition last_value (l : list tval) : option tval := match rev l with [] => None | v :: _ => Some v end.
Definition entry (attr : string -> option timescale) (d : tdict) (t : timescale) : option tval :=
  last_value (own_values t d ++ named_values attr t d).
(** a string key names a time scale that is not itself a key *)
Definition names_missing (attr : string -> option timescale) (d : tdict) : Prop :=
  exists s t, In (KStr s) (map fst d) /\ attr s = Some t /\ ~ In (KScale t) (map fst d).
(** the same, if the time scales in l get a value from elsewhere *)
Definition names_missing_besides (attr : string -> option timescale) (l : list timescale) (d : tdict) : Prop :=
  exists s t, In (KStr s) (map fst d) /\ attr s = Some t /\ ~ In (KScale t) (map fst d) /\ ~ In t l.
(** every key is a time scale or names one, and every time scale gets a condition *)
Definition well_formed (attr : string -> option timescale) (d : tdict) : Prop :=
  (forall k, In k (map fst d) -> match k with KScale _ => True | KStr s => attr s <> None | KOther _ => False end) /\
  (forall t v, entry attr d t = Some v -> exists c, v = VCond c).
Definition entry_cond (attr : string -> option timescale) (d : tdict) (t : timescale) : option cond :=
  match entry attr d t with Some (VCond c) => Some c | _ => None end.

(** carrying out assignments to termination_conds, none of which raises *)
Fixpoint assigns (attr : string -> option timescale) (l : list (option tdict)) (d : sched) : option sched :=
  match l with
  | [] => Some d
  | a :: r => match assign_termination_conds attr a d with
              | (Ok _, d', _) => assigns attr r d'
              | _ => None
              end
  end.
(** the condition in force for t after assignments, the most recent first *)
Fixpoint in_force (attr : string -> option timescale) (initial : tconds) (recent : list (option tdict)) (t : timescale) : option cond :=
  match recent with
  | [] => initial t
  | None :: _ => initial t
  | Some a :: r => match entry_cond attr a t with Some c => Some c | None => in_force attr initial r t end
  end.
