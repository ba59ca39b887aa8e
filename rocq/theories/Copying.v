(** Adding one ConditionSet to another, and to itself. *)
From Verif Require Export CondSet.

(** add_condition_set (condition.py 850-882) with another ConditionSet as argument: iterating
    and indexing it (681-704) read its [conditions] (884-924), which does not change meanwhile *)
Definition cs_add_from (src dst : condset) (ow : owners_t) : res unit * condset * owners_t :=
  cs_add_set (fst (cs_conditions src)) dst ow.

(** the loop of lines 879-880 over the list conditions_structural[w], while line 742 appends
    to this list; [i] is the position of the iterator.  [None]: the fuel is used up *)
Fixpoint cs_add_live (fuel : nat) (w : node) (i : nat) (cs : condset) (ow : owners_t) : option (res unit * condset * owners_t) :=
  match fuel with
  | 0 => None
  | S f =>
      match nth_error (match aget w (cs_struct cs) with Some l => l | None => [] end) i with
      | None => Some (Ok tt, cs, ow)
      | Some s => match cs_add w (Struct s) cs ow with
                  | Ok (cs', ow') => cs_add_live f w (S i) cs' ow'
                  | Err ex => Some (Err ex, cs, ow)
                  end
      end
  end.
(** one round of the loop of lines 877-882 when the argument is the set itself.  The value of an
    owner is a list of its own if the owner has a basic condition (line 909), and otherwise the
    list in conditions_structural itself (line 919). *)
Definition cs_add_self_owner (fuel : nat) (w : node) (cs : condset) (ow : owners_t) : option (res unit * condset * owners_t) :=
  let (conds, cs1) := cs_conditions cs in
  match aget w conds with
  | None => Some (Err EKey, cs1, ow)
  | Some (One a) => match cs_add w a cs1 ow with
                    | Ok (cs', ow') => Some (Ok tt, cs', ow')
                    | Err ex => Some (Err ex, cs1, ow)
                    end
  | Some (Many l) => if ahas w (cs_basic cs1) then Some (cs_add_list w l cs1 ow) else cs_add_live fuel w 0 cs1 ow
  end.
Fixpoint cs_add_self_owners (fuel : nat) (ws : list node) (cs : condset) (ow : owners_t) : option (res unit * condset * owners_t) :=
  match ws with
  | [] => Some (Ok tt, cs, ow)
  | w :: r => match cs_add_self_owner fuel w cs ow with
              | Some (Ok _, cs', ow') => cs_add_self_owners fuel r cs' ow'
              | x => x
              end
  end.
(** cs.add_condition_set(cs): the owners are those of the dict that line 701 returns an iterator
    of; the loop adds no new ones *)
Definition cs_add_self (fuel : nat) (cs : condset) (ow : owners_t) : option (res unit * condset * owners_t) :=
  let (conds, cs1) := cs_conditions cs in cs_add_self_owners fuel (akeys conds) cs1 ow.
