(** ConditionSet (condition.py 622-924). *)
From Verif Require Export Cond GSC.
Open Scope nat_scope.

(** A GraphStructureCondition object *)
Record scond := mkS { sc_oid : oid; sc_gsc : gsc }.
(** Any ConditionBase object *)
Inductive anycond := Basic (c : cond) | Struct (s : scond).
Definition any_oid (a : anycond) : oid := match a with Basic c => cond_oid c | Struct s => sc_oid s end.

(** Value of one entry of the [conditions] property: a single condition or a list *)
Inductive centry := One (a : anycond) | Many (l : list anycond).

(** ConditionSet attributes (condition.py 660-671).  conditions_basic and
    conditions_structural are dicts in insertion order. *)
Record condset := mkCS {
  cs_basic : amap cond;
  cs_struct : amap (list scond);
  cs_order : list scond;
  cs_cache : amap centry;
  cs_rebuild : bool
}.
Definition cs_empty : condset := mkCS [] [] [] [] false.

Definition owners_t := oid -> option node.

(* list.remove(c): the first element that is the same object *)
Fixpoint remove_first (o : oid) (l : list scond) : list scond :=
  match l with
  | [] => []
  | s :: r => if Nat.eqb (sc_oid s) o then r else s :: remove_first o r
  end.
Definition has_oid (o : oid) (l : list scond) : bool := existsb (fun s => Nat.eqb (sc_oid s) o) l.

(** add_condition (condition.py 713-754).  [condition.owner = owner] may raise
    (_GSCUsingNodes._validate_owner) before anything is stored. *)
Definition cs_add (w : node) (a : anycond) (cs : condset) (ow : owners_t) : res (condset * owners_t) :=
  match a with
  | Struct s =>
      if gsc_owner_ok (sc_gsc s) w then
        let l := match aget w (cs_struct cs) with Some l => l | None => [] end in
        Ok (mkCS (cs_basic cs) (aset w (l ++ [s]) (cs_struct cs)) (cs_order cs ++ [s]) (cs_cache cs) true,
            upd ow (sc_oid s) (Some w))
      else Err ECondition
  | Basic c =>
      Ok (mkCS (aset w c (cs_basic cs)) (cs_struct cs) (cs_order cs) (cs_cache cs) true, set_owner (Some w) c ow)
  end.

(** remove_structural_condition (condition.py 782-791) for the object [o] at owner [w] *)
Definition cs_remove_struct (w : node) (o : oid) (cs : condset) : bool * condset :=
  match aget w (cs_struct cs) with
  | None => (false, cs)
  | Some l =>
      if has_oid o l then
        let l' := remove_first o l in
        if has_oid o (cs_order cs) then
          (true, mkCS (cs_basic cs) (match l' with [] => adel w (cs_struct cs) | _ => aset w l' (cs_struct cs) end)
                      (remove_first o (cs_order cs)) (cs_cache cs) (cs_rebuild cs))
        else (false, mkCS (cs_basic cs) (aset w l' (cs_struct cs)) (cs_order cs) (cs_cache cs) (cs_rebuild cs))
      else (false, cs)
  end.
Definition set_rebuild (cs : condset) : condset :=
  mkCS (cs_basic cs) (cs_struct cs) (cs_order cs) (cs_cache cs) true.

(** remove_condition(owner) (condition.py 756-848 with a non-condition argument).
    Returns [condition], which is None in this case, even when something was removed.
    Line 835 indexes the list from which the only element has just been removed: IndexError. *)
Definition cs_remove_owner (w : node) (cs : condset) (ow : owners_t) : res (option anycond) * condset * owners_t :=
  match aget w (cs_basic cs), aget w (cs_struct cs) with
  | Some _, Some _ => (Err ECondition, cs, ow)
  | Some c, None =>
      (Ok None, set_rebuild (mkCS (adel w (cs_basic cs)) (cs_struct cs) (cs_order cs) (cs_cache cs) (cs_rebuild cs)),
       set_owner None c ow)
  | None, Some l =>
      match l with
      | [] => (Ok None, cs, ow)
      | [s] => let (_, cs') := cs_remove_struct w (sc_oid s) cs in (Err EIndex, cs', ow)
      | _ => (Err ECondition, cs, ow)
      end
  | None, None => (Ok None, cs, ow)
  end.

(** remove_condition(condition) (condition.py 756-848 with a condition argument); returns the
    argument whether or not it was found *)
Definition cs_remove_cond (a : anycond) (cs : condset) (ow : owners_t) : res (option anycond) * condset * owners_t :=
  match ow (any_oid a) with
  | None => (Err ECondition, cs, ow)
  | Some w =>
      let is_basic := match aget w (cs_basic cs) with
                      | Some c => Nat.eqb (cond_oid c) (any_oid a)
                      | None => false
                      end in
      if is_basic then
        (Ok (Some a), set_rebuild (mkCS (adel w (cs_basic cs)) (cs_struct cs) (cs_order cs) (cs_cache cs) (cs_rebuild cs)),
         match a with Basic c => set_owner None c ow | Struct s => upd ow (sc_oid s) None end)
      else
        match cs_remove_struct w (any_oid a) cs with
        | (true, cs') => (Ok (Some a), set_rebuild cs', ow)
        | (false, cs') => (Ok (Some a), cs', ow)
        end
  end.

(** __setitem__ (condition.py 706-711): remove_condition takes one argument, so the loop body
    raises TypeError *)
Definition cs_setitem (w : node) (a : anycond) (cs : condset) (ow : owners_t) : res (condset * owners_t) :=
  match aget w (cs_struct cs) with
  | Some (_ :: _) => Err EType
  | _ => cs_add w a cs ow
  end.

(** add_condition_set (condition.py 850-882) on a dict whose values are conditions or
    lists of conditions; stops at the first error, keeping what was added *)
Fixpoint cs_add_list (w : node) (l : list anycond) (cs : condset) (ow : owners_t) : res unit * condset * owners_t :=
  match l with
  | [] => (Ok tt, cs, ow)
  | a :: r => match cs_add w a cs ow with
              | Ok (cs', ow') => cs_add_list w r cs' ow'
              | Err ex => (Err ex, cs, ow)
              end
  end.
Definition entry_list (c : centry) : list anycond := match c with One a => [a] | Many l => l end.
Fixpoint cs_add_set (d : amap centry) (cs : condset) (ow : owners_t) : res unit * condset * owners_t :=
  match d with
  | [] => (Ok tt, cs, ow)
  | (w, c) :: r =>
      match cs_add_list w (entry_list c) cs ow with
      | (Ok _, cs', ow') => cs_add_set r cs' ow'
      | x => x
      end
  end.

(** the [conditions] property (condition.py 884-924): rebuilt from both dicts when flagged.
    (A node with basic and structural conditions gets a list, so do several structural ones.) *)
Definition merge_struct (conds : amap centry) (p : node * list scond) : amap centry :=
  let (n, l) := p in
  let sl := map Struct l in
  match aget n conds with
  | Some c => aset n (Many (entry_list c ++ sl)) conds
  | None => match sl with
            | [a] => aset n (One a) conds
            | _ => aset n (Many sl) conds
            end
  end.
Definition build_conditions (cs : condset) : amap centry :=
  fold_left merge_struct (cs_struct cs) (map (fun p => (fst p, One (Basic (snd p)))) (cs_basic cs)).
Definition cs_conditions (cs : condset) : amap centry * condset :=
  if cs_rebuild cs then
    let c := build_conditions cs in
    (c, mkCS (cs_basic cs) (cs_struct cs) (cs_order cs) c false)
  else (cs_cache cs, cs).
(** __contains__, __getitem__ (condition.py 681-704) *)
Definition cs_contains (n : node) (cs : condset) : bool := ahas n (fst (cs_conditions cs)).
Definition cs_getitem (n : node) (cs : condset) : option centry := aget n (fst (cs_conditions cs)).
(** ConditionSet( *condition_sets ) (condition.py 660-679) *)
Definition cs_new (ds : list (amap centry)) (ow : owners_t) : res unit * condset * owners_t :=
  fold_left (fun acc d => match acc with
                          | (Ok _, cs, ow) => cs_add_set d cs ow
                          | x => x
                          end) ds (Ok tt, cs_empty, ow).
