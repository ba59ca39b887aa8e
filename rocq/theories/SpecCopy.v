(** Specification vocabulary: condition sets given to condition sets. *)
From Verif Require Export SpecSched Copying.

(** a use of a condition set: calls that change it, and looks at its [conditions] (None) *)
Fixpoint used (ks : list (option setcall)) (x : condset * owners_t) : option (condset * owners_t) :=
  match ks with
  | [] => Some x
  | Some k :: r => match set_perform k x with Some y => used r y | None => None end
  | None :: r => used r (snd (cs_conditions (fst x)), snd x)
  end.
Definition calls (ks : list (option setcall)) : list setcall := flat_map (fun k => match k with Some k => [k] | None => [] end) ks.

(** the structural conditions of an owner; those of two sets *)
Definition listed (l : option (list scond)) : list scond := match l with Some l => l | None => [] end.
Definition joined (a b : option (list scond)) : option (list scond) :=
  match a, b with Some x, Some y => Some (x ++ y) | Some x, None => Some x | None, y => y end.
(** the first one there is *)
Definition first_of {A} (a b : option A) : option A := match a with Some x => Some x | None => b end.
