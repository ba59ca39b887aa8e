(** Specification vocabulary for the constructor of Threshold (C55). *)
From Verif Require Export Thresh SpecCond.

(** the indices an argument stands for *)
Definition indices_of (a : indices_arg) : list Z :=
  match a with
  | INone => []
  | IScale CSE => [0%Z] | IScale PASS => [1%Z] | IScale ESU => [2%Z] | IScale ES => [3%Z] | IScale LIFE => [4%Z]
  | IOne i => [i]
  | IMany l => l
  end.
(** the comparison a string stands for *)
Inductive operator_string : string -> cmp -> Prop :=
| os_lt : operator_string "<" Lt | os_le : operator_string "<=" Le | os_gt : operator_string ">" Gt
| os_ge : operator_string ">=" Ge | os_eq : operator_string "==" Eq | os_ne : operator_string "!=" Ne.
(** the parameter is accepted: by the custom validator if there is one, else the node has it *)
Definition parameter_accepted (w : world) (d : node) (par : nat) (val : option validator) : Prop :=
  match val with Some f => f d par w = None | None => w_param w d par <> None end.
(** reading the parameter in state w gives r and leaves the state w' *)
Definition parameter_read (get : option getter) (e : eid) (w : world) (d : node) (par : nat) (r : res pval) (w' : world) : Prop :=
  match get with
  | Some f => f d par e w = (r, w')
  | None => w' = w /\ match w_param w d par with Some p => r = Ok p | None => r = Err EAttribute end
  end.
