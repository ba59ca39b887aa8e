(** Time scales, times, history trees and clocks (time.py). *)
From Verif Require Export Base.
From Coq Require Export QArith.
Open Scope nat_scope.

(** TimeScale (time.py 54-116); the enum values order the scales by granularity. *)
Inductive timescale := CSE | PASS | ESU | ES | LIFE.
(* time.py 86-90 *)
Definition ts_val (s : timescale) : nat :=
  match s with CSE => 0 | PASS => 1 | ESU => 2 | ES => 3 | LIFE => 4 end.
Definition ts_eqb (a b : timescale) : bool := Nat.eqb (ts_val a) (ts_val b).
Definition ts_ltb (a b : timescale) : bool := Nat.ltb (ts_val a) (ts_val b).
Definition ts_leb (a b : timescale) : bool := Nat.leb (ts_val a) (ts_val b).
Definition ts_of_nat (n : nat) : option timescale :=
  match n with
  | 0 => Some CSE | 1 => Some PASS | 2 => Some ESU | 3 => Some ES | 4 => Some LIFE
  | _ => None
  end.
Definition all_timescales : list timescale := [CSE; PASS; ESU; ES; LIFE].
(** get_parent / get_child (time.py 100-116); [None] is the ValueError of the enum call *)
Definition ts_parent (s : timescale) : option timescale := ts_of_nat (S (ts_val s)).
Definition ts_child (s : timescale) : option timescale :=
  match ts_val s with O => None | S n => ts_of_nat n end.

(** Time (time.py 202-362): one counter per scale, plus absolute time.  Absolute times are
    exact rationals in a fixed base unit (pint quantities and their rounding are not
    modelled); absolute_time_unit_scale is always CONSIDERATION_SET_EXECUTION (line 264). *)
Record Time := mkTime {
  t_val : timescale -> nat;
  t_abs : Q;
  t_interval : Q;
  t_abs_enabled : bool
}.
(** Time() (time.py 236-267): all zero, absolute 0, interval 1 (ms), disabled *)
Definition time0 : Time := mkTime (fun _ => 0) 0%Q 1%Q false.

Definition upd_ts {A} (f : timescale -> A) (s : timescale) (v : A) : timescale -> A :=
  fun s' => if ts_eqb s' s then v else f s'.

(** _reset_by_time_scale (time.py 350-362) *)
Definition time_reset (s : timescale) (t : Time) : Time :=
  mkTime (fun s' => if ts_ltb s' s then 0 else t_val t s') (t_abs t) (t_interval t) (t_abs_enabled t).
(** _increment_by_time_scale (time.py 330-348); the rounding of floats (341-348) is not
    modelled because absolute times are exact *)
Definition time_incr (s : timescale) (t : Time) : Time :=
  let t1 := time_reset s (mkTime (upd_ts (t_val t) s (S (t_val t s))) (t_abs t) (t_interval t) (t_abs_enabled t)) in
  if t_abs_enabled t1 && ts_eqb s CSE
  then mkTime (t_val t1) (t_abs t1 + t_interval t1)%Q (t_interval t1) (t_abs_enabled t1)
  else t1.

(** TimeHistoryTree (time.py 403-611).  [h_children] is stored latest first, so that
    children[-1] is the head and children[i] is the (length-1-i)-th element.  total_times has
    entries for finer scales only ([h_total] is read only there).  index and parent are
    determined by the position in the tree.  current_time/previous_time exist only at the
    root and live in [clock]. *)
Inductive tree := Tree (h_scale : timescale) (h_children : list tree) (h_total : timescale -> nat).
Definition h_scale (t : tree) := match t with Tree s _ _ => s end.
Definition h_children (t : tree) := match t with Tree _ c _ => c end.
Definition h_total (t : tree) := match t with Tree _ _ f => f end.

(** TimeHistoryTree.__init__ (time.py 450-481) with the given max_depth; structural
    recursion on the value of the scale.  [None] is the ValueError of get_child at the
    finest scale (only reached with max_depth = CONSIDERATION_SET_EXECUTION). *)
Fixpoint new_tree_n (md : timescale) (v : nat) : option tree :=
  match v with
  | O => None
  | S v' =>
      match ts_of_nat (S v'), ts_of_nat v' with
      | Some s, Some child =>
          if ts_leb md child
          then match new_tree_n md v' with
               | Some c => Some (Tree s [c] (fun _ => 0))
               | None => None
               end
          else Some (Tree s [] (fun _ => 0))
      | _, _ => None
      end
  end.
Definition new_tree (md s : timescale) : option tree := new_tree_n md (ts_val s).

(** increment_time (time.py 483-511) on the tree part.  total_times[time_scale] += 1 raises
    KeyError when time_scale is not finer than the node's scale. *)
Fixpoint tree_incr (md : timescale) (s : timescale) (t : tree) : res tree :=
  match t with
  | Tree sc ch tot =>
      match ts_child sc with
      | None => Err EValue
      | Some child =>
          let children' :=
            if ts_leb md child then
              if ts_eqb s child then
                match new_tree md child with
                | Some c => Ok (c :: ch)
                | None => Err EValue
                end
              else
                match ch with
                | [] => Err EIndex
                | c :: rest => match tree_incr md s c with Ok c' => Ok (c' :: rest) | Err e => Err e end
                end
            else Ok ch in
          match children' with
          | Err e => Err e
          | Ok ch' =>
              if ts_ltb s sc then Ok (Tree sc ch' (upd_ts tot s (S (tot s)))) else Err EKey
          end
      end
  end.

(** Root tree together with current_time / previous_time; this is what a Clock holds
    (Clock.__init__, time.py 132-134; Clock.time / previous_time 186-199). *)
Record clock := mkClock { k_tree : tree; k_md : timescale; k_time : Time; k_prev : option Time }.

(** Clock() : TimeHistoryTree() with max_depth = ENVIRONMENT_STATE_UPDATE *)
Definition clock_md (md : timescale) : option clock :=
  match new_tree md LIFE with Some t => Some (mkClock t md time0 None) | None => None end.
Definition new_clock : clock :=
  mkClock (Tree LIFE [Tree ES [Tree ESU [] (fun _ => 0)] (fun _ => 0)] (fun _ => 0)) ESU time0 None.

(** Clock._increment_time (time.py 139-143) = increment_time on the root *)
Definition clock_incr (s : timescale) (k : clock) : res clock :=
  match tree_incr (k_md k) s (k_tree k) with
  | Ok t => Ok (mkClock t (k_md k) (time_incr s (k_time k)) (Some (k_time k)))
  | Err e => Err e
  end.

(* children[i] with a non-negative index *)
Definition child_at (ch : list tree) (i : nat) : option tree :=
  if Nat.ltb i (length ch) then nth_error ch (length ch - 1 - i) else None.

(** the two loops of get_total_times_relative (time.py 587-611), which visit the same nodes:
    unspecified indices default to the latest child; IndexError becomes TimeScaleError *)
Fixpoint tree_walk (base : timescale) (idx : timescale -> option nat) (fuel : nat) (t : tree) : res tree :=
  if ts_ltb base (h_scale t) then
    match fuel with
    | O => Err ETimeScale
    | S f =>
        match ts_child (h_scale t) with
        | None => Err EValue
        | Some child =>
            let c := match idx child with
                     | None => hd_error (h_children t)
                     | Some i => child_at (h_children t) i
                     end in
            match c with
            | None => Err ETimeScale
            | Some c => tree_walk base idx f c
            end
        end
    end
  else Ok t.

(** get_total_times_relative (time.py 513-611) on the root: [idx] is base_indices.  The keys
    range over LIFE .. PASS (default dict, 553-558); base_time_scale is the finest specified
    scale coarser than the query (571-573). *)
Definition base_scale (q : timescale) (idx : timescale -> option nat) : timescale :=
  fold_left (fun b s => if isSome (idx s) && ts_ltb q s then s else b) [LIFE; ES; ESU; PASS] LIFE.
Definition tree_total_relative (q : timescale) (idx : timescale -> option nat) (t : tree) : res nat :=
  if ts_leb (h_scale t) q then Err ETimeScale
  else
    let b := base_scale q idx in
    if ts_ltb (h_scale t) b then Err ETimeScale
    else match tree_walk b idx 5 t with
         | Ok n => Ok (h_total n q)
         | Err e => Err e
         end.

(** Clock.get_total_times_relative (time.py 145-170) *)
Definition clock_total_relative_at (q b : timescale) (i : nat) (k : clock) : res nat :=
  tree_total_relative q (fun s => if ts_eqb s b then Some i
                                  else if ts_eqb s LIFE then Some 0 else None) (k_tree k).
Definition clock_total_relative (q b : timescale) (k : clock) : res nat :=
  clock_total_relative_at q b (t_val (k_time k) b) k.
