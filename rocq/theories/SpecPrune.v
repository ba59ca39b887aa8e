(** Specification vocabulary for pruned calls. *)
From Verif Require Export Prune.
Open Scope nat_scope.

(** the function can be given the keyword k *)
Definition accepts_keyword (sig : signature) (k : nat) : Prop :=
  (exists p, In p sig /\ p_name p = k /\ (p_kind p = PosOrKw \/ p_kind p = KwOnly)) \/ exists p, In p sig /\ p_kind p = VarKw.

(** def f(req..., opt=..., *args, kwo=..., **kwargs): no positional-only parameters, and no
    keyword-only parameter without a default; *args and **kwargs may be missing *)
Record ordinary (sig req opt va kwo vk : signature) : Prop := {
  od_sig : sig = req ++ opt ++ va ++ kwo ++ vk;
  od_req : Forall (fun p => p_kind p = PosOrKw /\ p_default p = false) req;
  od_opt : Forall (fun p => p_kind p = PosOrKw /\ p_default p = true) opt;
  od_va : va = [] \/ exists p, va = [p] /\ p_kind p = VarPos;
  od_kwo : Forall (fun p => p_kind p = KwOnly /\ p_default p = true) kwo;
  od_vk : vk = [] \/ exists p, vk = [p] /\ p_kind p = VarKw;
  od_names : NoDup (map p_name sig)
}.
(** the parameters that positional arguments reach: the required ones, or all positional
    ones if there is a parameter *args *)
Definition reached (req opt va : signature) : signature := match va with [] => req | _ => req ++ opt end.
