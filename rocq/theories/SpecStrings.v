(** Specification vocabulary for the string operations used for alias names (C41). *)
From Coq Require Export String Ascii List.
Export ListNotations.

Definition capital_letters : string := "ABCDEFGHIJKLMNOPQRSTUVWXYZ".
Definition small_letters : string := "abcdefghijklmnopqrstuvwxyz".
(** d is the letter at the place in [to] that c has in [from]; if c is not in [from], d = c *)
Definition translated (from to : string) (c d : ascii) : Prop :=
  (exists k, get k from = Some c /\ get k to = Some d) \/ ((forall k, get k from <> Some c) /\ d = c).
Definition lowered : ascii -> ascii -> Prop := translated capital_letters small_letters.
Definition raised : ascii -> ascii -> Prop := translated small_letters capital_letters.
(** the two strings are related character by character *)
Inductive pointwise (R : ascii -> ascii -> Prop) : string -> string -> Prop :=
| pw_nil : pointwise R EmptyString EmptyString
| pw_cons c d s t : R c d -> pointwise R s t -> pointwise R (String c s) (String d t).
(** sub in s *)
Definition occurs (sub s : string) : Prop := exists a b, s = (a ++ sub ++ b)%string.
(** s.replace(old, new): the leftmost occurrence is replaced, then what follows it is treated likewise *)
Inductive replaced (old new : string) : string -> string -> Prop :=
| rp_none s : ~ occurs old s -> replaced old new s s
| rp_first a b r : (forall a' b', (a ++ old ++ b = a' ++ old ++ b')%string -> String.length a <= String.length a') ->
    replaced old new b r -> replaced old new (a ++ old ++ b) (a ++ new ++ r).
(** words joined with underscores *)
Fixpoint joined (ws : list string) : string :=
  match ws with [] => EmptyString | [w] => w | w :: r => (w ++ "_" ++ joined r)%string end.
(** LIKE_THIS becomes LikeThis: every word begins with a capital and goes on in small letters *)
Inductive camel : list string -> string -> Prop :=
| cm_nil : camel [] EmptyString
| cm_word c d w v ws s : raised c d -> pointwise lowered w v -> camel ws s -> camel (String c w :: ws) (String d v ++ s).
Definition class_form (name seg : string) : Prop :=
  exists ws, ws <> [] /\ name = joined ws /\ (forall w, In w ws -> ~ occurs "_" w) /\ camel ws seg.
