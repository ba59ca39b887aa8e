(** The string functions used for alias names meet their specification. *)
From Verif Require Import SpecStrings Alias.
From Coq Require Import Lia.
Open Scope nat_scope.

Lemma get_bound : forall s k c, get k s = Some c -> k < String.length s.
Proof. induction s as [|x s IH]; intros k c E; [destruct k; discriminate|]. destruct k as [|k]; simpl; [lia|]. apply IH in E. lia. Qed.
Lemma all_ascii : forall P : ascii -> Prop, (forall n, n < 256 -> P (ascii_of_nat n)) -> forall c, P c.
Proof. intros P H c. rewrite <- (ascii_nat_embedding c). apply H. apply nat_ascii_bounded. Qed.
(** a decidable version, checked on all characters *)
Definition translatedb (from to : string) (c d : ascii) : bool :=
  match find (fun k => match get k from with Some x => Ascii.eqb x c | None => false end) (seq 0 (String.length from)) with
  | Some k => match get k to with Some y => Ascii.eqb y d | None => false end
  | None => Ascii.eqb d c
  end.
Lemma translatedb_sound : forall from to c d, translatedb from to c d = true -> translated from to c d.
Proof.
  intros from to c d. unfold translatedb, translated. destruct (find _ _) as [k|] eqn:E.
  - apply find_some in E. destruct E as (_ & E). destruct (get k from) as [x|] eqn:F; [|discriminate]. apply Ascii.eqb_eq in E. subst x.
    destruct (get k to) as [y|] eqn:G; [|discriminate]. intros X. apply Ascii.eqb_eq in X. subst y. left. eauto.
  - intros X. apply Ascii.eqb_eq in X. right. split; auto. intros k Ek. assert (B := get_bound _ _ _ Ek).
    assert (F := find_none _ _ E k). cbv beta in F. rewrite Ek, Ascii.eqb_refl in F. discriminate F. apply in_seq. lia.
Qed.
Lemma lowered_ok : forall c, lowered c (lower_char c).
Proof.
  intros c. apply translatedb_sound. destruct c as [[] [] [] [] [] [] [] []]; vm_compute; reflexivity.
Qed.
Lemma raised_ok : forall c, raised c (upper_char c).
Proof.
  intros c. apply translatedb_sound. destruct c as [[] [] [] [] [] [] [] []]; vm_compute; reflexivity.
Qed.
Lemma lower_ok : forall s, pointwise lowered s (lower s).
Proof. induction s; simpl; constructor; auto. apply lowered_ok. Qed.
Lemma append_assoc : forall a b c : string, ((a ++ b) ++ c = a ++ (b ++ c))%string.
Proof. induction a; intros; simpl; [auto|f_equal; auto]. Qed.
Lemma prefix_cons : forall x a y s, String.prefix (String x a) (String y s) = if ascii_dec x y then String.prefix a s else false.
Proof. reflexivity. Qed.
Lemma prefix_iff : forall a s, String.prefix a s = true <-> exists b, s = (a ++ b)%string.
Proof.
  induction a as [|x a IH]; intros s.
  - split; [simpl; eauto|]. destruct s; auto.
  - destruct s as [|y s]; [split; [discriminate|intros (b & E); discriminate]|]. rewrite prefix_cons.
    destruct (ascii_dec x y) as [->|N].
    + rewrite IH. split; intros (b & E); exists b; simpl in *; [congruence|injection E; auto].
    + split; [discriminate|]. intros (b & E). injection E as E _. congruence.
Qed.
Lemma contains_ok : forall sub s, contains sub s = true <-> occurs sub s.
Proof.
  intros sub. induction s as [|c s IH]; cbn [contains]; rewrite orb_true_iff, prefix_iff.
  - split; [intros [(b & E)|X]; [exists EmptyString, b; auto|discriminate]|]. intros (a & b & E). left. destruct a; [eauto|discriminate].
  - rewrite IH. split.
    + intros [(b & E)|(a & b & ->)]; [exists EmptyString, b; auto|]. exists (String c a), b. auto.
    + intros (a & b & E). destruct a as [|x a]; [left; eauto|]. right. injection E as _ E. exists a, b. auto.
Qed.
Lemma skip_drop : forall old new k s, replace_skip old new k s = replace_skip old new 0 (String.substring k (String.length s - k) s).
Proof.
  intros old new. assert (Sub : forall s, String.substring 0 (String.length s) s = s) by (induction s; simpl; congruence).
  induction k as [|k IH]; intros s.
  - rewrite Nat.sub_0_r, Sub. auto.
  - destruct s as [|c s]; [reflexivity|]. cbn [replace_skip String.length String.substring Nat.sub]. rewrite IH. auto.
Qed.
Lemma drop_app : forall a b, String.substring (String.length a) (String.length (a ++ b) - String.length a) (a ++ b) = b.
Proof.
  assert (Sub : forall s, String.substring 0 (String.length s) s = s) by (induction s; simpl; congruence).
  induction a as [|c a IH]; intros b; simpl; [rewrite Nat.sub_0_r; auto|auto].
Qed.
Lemma replace_at : forall old new b, old <> EmptyString -> replace old new (old ++ b) = (new ++ replace old new b)%string.
Proof.
  intros old new b N. unfold replace. destruct old as [|c o]; [congruence|]. cbn [append replace_skip].
  assert (P : String.prefix (String c o) (String c (o ++ b)) = true) by (apply prefix_iff; exists b; auto). rewrite P. f_equal.
  rewrite skip_drop. f_equal. cbn [String.length]. rewrite Nat.sub_succ, Nat.sub_0_r. apply drop_app.
Qed.
Lemma replaced_prefix : forall old new c s r, ~ (exists b, String c s = (old ++ b)%string) -> replaced old new s r -> replaced old new (String c s) (String c r).
Proof.
  intros old new c s r N H. inversion H; subst.
  - constructor. intros (a & b & E). destruct a as [|x a]; [apply N; eauto|]. injection E as _ E. apply H0. exists a, b. auto.
  - change (String c (a ++ old ++ b)) with ((String c a) ++ old ++ b)%string. change (String c (a ++ new ++ r0)) with ((String c a) ++ new ++ r0)%string.
    constructor; auto. intros a' b' E. destruct a' as [|x a']; [exfalso; apply N; exists b'; exact E|]. injection E as _ E. apply H0 in E. simpl. lia.
Qed.
Lemma replace_ok : forall old new s, old <> EmptyString -> replaced old new s (replace old new s).
Proof.
  intros old new s N. remember (String.length s) as n eqn:Ln. assert (L : String.length s <= n) by lia. clear Ln. revert s L.
  induction n as [|n IH]; intros s L.
  - destruct s; [|simpl in L; lia]. constructor. intros (a & b & E). destruct a; [|discriminate]. destruct old; [congruence|discriminate].
  - destruct (String.prefix old s) eqn:P.
    + apply prefix_iff in P. destruct P as (b & ->). rewrite replace_at by auto.
      apply (rp_first old new EmptyString b (replace old new b)); [intros; simpl; lia|]. apply IH.
      destruct old as [|x o]; [congruence|]. simpl in L. assert (X : forall a c : string, String.length (a ++ c) = String.length a + String.length c) by (induction a; intros; simpl; auto).
      rewrite X in L. lia.
    + destruct s as [|c s].
      * constructor. intros (a & b & E). destruct a; [|discriminate]. destruct old; [congruence|discriminate].
      * unfold replace. cbn [replace_skip]. rewrite P. apply replaced_prefix; [rewrite <- prefix_iff; congruence|]. apply IH. simpl in L. lia.
Qed.

(** ** class names *)
Lemma split_nonempty : forall sep s, split_on sep s <> [].
Proof. intros sep s. destruct s as [|c s]; simpl; [discriminate|]. destruct (Ascii.eqb c sep); [discriminate|]. destruct (split_on sep s); discriminate. Qed.
Lemma split_joined : forall s, joined (split_on "_" s) = s.
Proof.
  induction s as [|c s IH]; [reflexivity|]. cbn [split_on]. destruct (Ascii.eqb c "_") eqn:E.
  - apply Ascii.eqb_eq in E. subst c. pose proof (split_nonempty "_" s) as N. cbn [joined]. destruct (split_on "_" s) as [|w ws]; [congruence|].
    rewrite IH. reflexivity.
  - pose proof (split_nonempty "_" s) as N. destruct (split_on "_" s) as [|w ws]; [congruence|]. cbn [joined] in *. destruct ws; rewrite <- IH; reflexivity.
Qed.
Lemma occurs_char : forall s, occurs "_" s <-> exists k, get k s = Some "_"%char.
Proof.
  induction s as [|c s IH].
  - split; [intros (a & b & E); destruct a; discriminate|intros (k & E); destruct k; discriminate].
  - split.
    + intros (a & b & E). destruct a as [|x a]; [injection E as -> _; exists 0; auto|]. injection E as _ E. destruct (proj1 IH (ex_intro _ a (ex_intro _ b E))) as (k & Ek).
      exists (S k). auto.
    + intros (k & E). destruct k as [|k]; [injection E as ->; exists EmptyString, s; auto|].
      destruct (proj2 IH (ex_intro _ k E)) as (a & b & ->). exists (String c a), b. auto.
Qed.
Lemma occurs_cons : forall c s, occurs "_" (String c s) <-> c = "_"%char \/ occurs "_" s.
Proof.
  intros c s. rewrite !occurs_char. split.
  - intros (k & E). destruct k as [|k]; [injection E as ->; auto|right; eauto].
  - intros [->|(k & E)]; [exists 0; auto|exists (S k); auto].
Qed.
Lemma split_words : forall s w, In w (split_on "_" s) -> ~ occurs "_" w.
Proof.
  assert (Em : ~ occurs "_" EmptyString) by (intros (a & b & E); destruct a; discriminate).
  induction s as [|c s IH]; cbn [split_on]; intros w I.
  - destruct I as [<-|[]]. auto.
  - destruct (Ascii.eqb c "_") eqn:E; [destruct I as [<-|I]; auto|]. apply Ascii.eqb_neq in E.
    pose proof (split_nonempty "_" s) as N. destruct (split_on "_" s) as [|v ws]; [congruence|].
    destruct I as [<-|I]; [|apply IH; right; auto]. rewrite occurs_cons. intros [X|X]; [congruence|]. apply (IH v); [left|]; auto.
Qed.
Lemma split_unique : forall ws, ws <> [] -> (forall w, In w ws -> ~ occurs "_" w) -> split_on "_" (joined ws) = ws.
Proof.
  assert (One : forall w, ~ occurs "_" w -> split_on "_" w = [w]).
  { induction w as [|c w IH]; intros N; [reflexivity|]. rewrite occurs_cons in N. cbn [split_on]. destruct (Ascii.eqb c "_") eqn:E; [apply Ascii.eqb_eq in E; tauto|].
    rewrite IH by tauto. reflexivity. }
  assert (Two : forall w r, ~ occurs "_" w -> split_on "_" (w ++ "_" ++ r) = w :: split_on "_" r).
  { induction w as [|c w IH]; intros r N; [reflexivity|]. rewrite occurs_cons in N. cbn [append split_on]. destruct (Ascii.eqb c "_") eqn:E; [apply Ascii.eqb_eq in E; tauto|].
    change (w ++ String "_" r)%string with (w ++ "_" ++ r)%string. rewrite IH by tauto. reflexivity. }
  induction ws as [|w ws IH]; intros N H; [congruence|]. destruct ws as [|v ws].
  - apply One. apply H. left; auto.
  - change (joined (w :: v :: ws)) with (w ++ "_" ++ joined (v :: ws))%string. rewrite Two by (apply H; left; auto). f_equal. apply IH; [discriminate|].
    intros u I. apply H. right; auto.
Qed.
Lemma translated_unique : forall from to c d e, (forall i j x, get i from = Some x -> get j from = Some x -> i = j) ->
  translated from to c d -> translated from to c e -> d = e.
Proof.
  intros from to c d e U [(k & A & B)|(A & B)] [(j & C & D)|(C & D)].
  - assert (k = j) by (eapply U; eauto). subst j. congruence.
  - exfalso. eapply C; eauto.
  - exfalso. eapply A; eauto.
  - congruence.
Qed.
Lemma get_in : forall s i, get i s = nth_error (list_ascii_of_string s) i.
Proof. induction s as [|c s IH]; intros i; destruct i; simpl; auto. Qed.
Lemma letters_unique : forall s, NoDup (list_ascii_of_string s) -> forall i j x, get i s = Some x -> get j s = Some x -> i = j.
Proof.
  intros s N i j x A B. rewrite get_in in A, B. eapply (proj1 (NoDup_nth_error _) N); [apply nth_error_Some|]; congruence.
Qed.
Lemma capital_nodup : NoDup (list_ascii_of_string capital_letters) /\ NoDup (list_ascii_of_string small_letters).
Proof. split; vm_compute; repeat constructor; simpl; intuition discriminate. Qed.
Lemma lowered_unique : forall s t u, pointwise lowered s t -> pointwise lowered s u -> t = u.
Proof.
  intros s t u A. revert u. induction A as [|c d s t R A IH]; intros u B; inversion B; subst; auto. f_equal; auto.
  eapply translated_unique; [|exact R|eassumption]. apply letters_unique. apply capital_nodup.
Qed.
Lemma segments_ok : forall ws seg, class_segments ws = Some seg <-> camel ws seg.
Proof.
  induction ws as [|w ws IH]; intros seg; cbn [class_segments].
  - split; [intros E; injection E as <-; constructor|intros H; inversion H; auto].
  - destruct w as [|c w]; cbn [class_segment]; [split; [discriminate|intros H; inversion H]|].
    destruct (class_segments ws) as [b|] eqn:E.
    + split.
      * intros X. injection X as <-. change (String (upper_char c) (lower w ++ b)) with (String (upper_char c) (lower w) ++ b)%string.
        constructor; [apply raised_ok|apply lower_ok|apply IH; auto].
      * intros H. inversion H as [|c' d w' v ws' s R L C]; subst. apply IH in C. injection C as <-.
        assert (d = upper_char c). { eapply translated_unique; [|exact R|apply raised_ok]. apply letters_unique. apply capital_nodup. }
        assert (v = lower w) by (eapply lowered_unique; [exact L|apply lower_ok]). subst. reflexivity.
    + split; [discriminate|]. intros H. inversion H as [|c' d w' v ws' s R L C]; subst. apply IH in C. discriminate.
Qed.
Lemma class_ok : forall name seg, class_str name = Some seg <-> class_form name seg.
Proof.
  intros name seg. unfold class_str, class_form. rewrite segments_ok. split.
  - intros C. exists (split_on "_" name). split; [apply split_nonempty|]. split; [symmetry; apply split_joined|]. split; [apply split_words|auto].
  - intros (ws & N & -> & H & C). rewrite split_unique; auto.
Qed.
