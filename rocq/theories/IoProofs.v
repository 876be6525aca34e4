(** Proofs about number lists, data sets, keys and file types. *)
From Coq Require Import Reals ZArith List Arith Bool Ascii String Lia Lra.
From Coq Require DecimalString DecimalZ DecimalPos.
From Verif Require Import Vec UtilModel IoModel IoSpec.
Import ListNotations.
Open Scope list_scope.

(** ** Decimal numerals *)
Lemma to_int_pos : forall n, exists d, Z.to_int (Z.of_nat n) = Decimal.Pos d /\ d <> Decimal.Nil.
Proof.
  intros n. destruct n as [|n].
  - exists (Decimal.D0 Decimal.Nil). split; [reflexivity|discriminate].
  - exists (Pos.to_uint (Pos.of_succ_nat n)). split; [reflexivity|apply DecimalPos.Unsigned.to_uint_nonnil].
Qed.

Lemma int_of_str : forall n, int_of (str n) = Some (Z.of_nat n).
Proof.
  intros n. unfold int_of, str, txt. rewrite string_of_list_ascii_of_string.
  destruct (to_int_pos n) as [d [E N]].
  rewrite DecimalString.NilZero.isi.
  - rewrite DecimalZ.of_to. reflexivity.
  - rewrite E. intros X. injection X as X. exact (N X).
  - rewrite E. discriminate.
Qed.

Definition digit (c : ascii) : Prop := In c ["0"; "1"; "2"; "3"; "4"; "5"; "6"; "7"; "8"; "9"]%char.
Lemma digits_uint : forall d, Forall digit (list_ascii_of_string (DecimalString.NilEmpty.string_of_uint d)).
Proof. induction d; cbn; constructor; try assumption; unfold digit; cbn; tauto. Qed.
Lemma digits_str : forall n, Forall digit (str n) /\ str n <> [].
Proof.
  intros n. unfold str, txt. destruct (to_int_pos n) as [d [-> N]].
  assert (E : DecimalString.NilZero.string_of_int (Decimal.Pos d) = DecimalString.NilEmpty.string_of_uint d)
    by (destruct d; [contradiction (N eq_refl)|reflexivity..]).
  rewrite E. split; [apply digits_uint|]. destruct d; [contradiction (N eq_refl)|discriminate..].
Qed.
Lemma digit_plain : forall c, digit c -> is_space c = false /\ c <> ","%char /\ c <> "*"%char /\ c <> "d"%char.
Proof. intros c H. unfold digit in H. cbn in H. repeat (destruct H as [<-|H]; [cbn; repeat split; discriminate|]). contradiction. Qed.

(** ** Words *)
Definition unspaced (w : text) : Prop := Forall (fun c => is_space c = false) w.
Definition spaces (w : text) : Prop := Forall (fun c => is_space c = true) w.

Lemma words_spaces : forall a s, spaces a -> words (a ++ s) = words s.
Proof. induction 1 as [|c a H _ IH]; [reflexivity|]. cbn [app words]. rewrite H. exact IH. Qed.

Lemma words_word : forall w s, unspaced w -> w <> [] -> (s = [] \/ exists c r, s = c :: r /\ is_space c = true) ->
  words (w ++ s) = w :: words s.
Proof.
  intros w s U. induction U as [|c w Hc U IH]; intros N T; [contradiction (N eq_refl)|].
  destruct w as [|d w].
  - cbn [app words]. rewrite Hc. destruct T as [-> |[x [r [-> E]]]]; [reflexivity|]. rewrite E. reflexivity.
  - change ((c :: d :: w) ++ s) with (c :: d :: (w ++ s)). cbn [words]. rewrite Hc.
    apply Forall_inv in U as Hd. rewrite Hd.
    specialize (IH ltac:(discriminate) T). cbn [app words] in IH. rewrite Hd in IH. rewrite IH. reflexivity.
Qed.

Lemma words_unspaced : forall s, Forall (fun w => unspaced w /\ w <> []) (words s).
Proof.
  induction s as [|c s IH]; [constructor|]. cbn [words]. destruct (is_space c) eqn:E; [exact IH|].
  assert (C : unspaced [c] /\ [c] <> []) by (split; [constructor; [exact E|constructor]|discriminate]).
  destruct s as [|d s]; [constructor; [exact C|constructor]|].
  destruct (is_space d); [constructor; [exact C|exact IH]|].
  destruct (words (d :: s)) as [|w ws]; [constructor; [exact C|constructor]|].
  inversion IH as [|? ? [U _] IH']; subst. constructor; [split; [constructor; [exact E|exact U]|discriminate]|exact IH'].
Qed.

(** ** Stripping *)
Lemma lstrip_spaces : forall a s, spaces a -> lstrip (a ++ s) = lstrip s.
Proof. induction 1 as [|c a H _ IH]; [reflexivity|]. cbn [app lstrip]. rewrite H. exact IH. Qed.
Lemma lstrip_split : forall s, exists a, s = a ++ lstrip s /\ spaces a /\ (forall c r, lstrip s = c :: r -> is_space c = false).
Proof.
  induction s as [|c s [a [E [A F]]]].
  - exists []. repeat split; [constructor|discriminate].
  - cbn [lstrip]. destruct (is_space c) eqn:C.
    + exists (c :: a). repeat split; [cbn [app]; rewrite <- E; reflexivity|constructor; assumption|exact F].
    + exists []. repeat split; [constructor|]. intros x r X. injection X as <- _. exact C.
Qed.
Lemma lstrip_head : forall s, (forall c r, s = c :: r -> is_space c = false) -> lstrip s = s.
Proof. intros [|c s] H; [reflexivity|]. cbn [lstrip]. rewrite (H c s eq_refl). reflexivity. Qed.

Lemma spaces_rev : forall a, spaces a -> spaces (rev a).
Proof. intros a H. apply Forall_forall. intros c I. apply in_rev in I. exact (proj1 (Forall_forall _ _) H c I). Qed.

Lemma strip_content : forall l s, content l s -> strip l = s.
Proof.
  intros l s [a [b [-> [S [H T]]]]]. apply Forall_app in S as [A B]. unfold strip.
  rewrite lstrip_spaces by exact A. destruct s as [|c s].
  - cbn [app]. rewrite <- (app_nil_r b), lstrip_spaces by exact B. reflexivity.
  - assert (L : lstrip ((c :: s) ++ b) = (c :: s) ++ b) by (cbn [app lstrip]; rewrite (H c s eq_refl); reflexivity).
    rewrite L.
    rewrite rev_app_distr, lstrip_spaces by (apply spaces_rev; exact B).
    rewrite lstrip_head; [apply rev_involutive|].
    intros x r X. apply (T x (rev r)). rewrite <- (rev_involutive (c :: s)), X. reflexivity.
Qed.
Lemma content_strip : forall l, content l (strip l).
Proof.
  intros l. destruct (lstrip_split l) as [a [E [A F]]]. destruct (lstrip_split (rev (lstrip l))) as [b [E2 [B G]]].
  assert (L : lstrip l = strip l ++ rev b).
  { unfold strip. rewrite <- rev_app_distr, <- E2, rev_involutive. reflexivity. }
  exists a, (rev b). repeat split.
  - rewrite <- L. exact E.
  - apply Forall_app. split; [exact A|apply spaces_rev; exact B].
  - intros c r X. apply (F c (r ++ rev b)). rewrite L, X. reflexivity.
  - intros c r X. unfold strip in X. apply (G c (rev r)). rewrite <- (rev_involutive (lstrip (rev (lstrip l)))), X, rev_app_distr. reflexivity.
Qed.

Section Numbers.
Variable parse : text -> option R.

(** ** Fortran number lists *)
Lemma plain_char : forall c, c <> ","%char -> (if Ascii.eqb (if Ascii.eqb c "d" then "e" else c) "," then " " else (if Ascii.eqb c "d" then "e" else c))%char = (if ascii_dec c "d" then "e" else c)%char.
Proof.
  intros c H. destruct (ascii_dec c "d") as [-> |N]; [reflexivity|].
  destruct (Ascii.eqb_spec c "d"); [contradiction|]. destruct (Ascii.eqb_spec c ","); [contradiction|reflexivity].
Qed.
Definition cooked (s : text) : text := replace ","%char " "%char (replace "d"%char "e"%char s).
Lemma cooked_app : forall a b, cooked (a ++ b) = cooked a ++ cooked b.
Proof. intros. unfold cooked, replace. rewrite !map_app. reflexivity. Qed.
Lemma cooked_sep : forall s, separator s -> spaces (cooked s).
Proof.
  induction 1 as [|c s H _ IH]; [constructor|]. constructor; [|exact IH].
  destruct H as [H| ->]; [|reflexivity].
  destruct (Ascii.eqb_spec c "d") as [-> |]; [cbn in H; discriminate|]. destruct (Ascii.eqb_spec c ","); [reflexivity|exact H].
Qed.
Lemma cooked_word : forall w, Forall (fun c => is_space c = false /\ c <> ","%char /\ c <> "*"%char) w ->
  cooked w = plain_exponent w /\ unspaced (cooked w) /\ cut "*" (cooked w) = None.
Proof.
  induction 1 as [|c w [Hs [Hc Hx]] _ [IH1 [IH2 IH3]]]; [repeat split; constructor|].
  assert (E : cooked (c :: w) = (if ascii_dec c "d" then "e"%char else c) :: cooked w).
  { unfold cooked, replace. cbn [map]. rewrite plain_char by exact Hc. reflexivity. }
  rewrite E, IH1. repeat split.
  - constructor; [destruct (ascii_dec c "d"); [reflexivity|exact Hs]|]. rewrite <- IH1. exact IH2.
  - cbn [cut]. rewrite <- IH1, IH3. destruct (ascii_dec c "d"); [reflexivity|]. destruct (Ascii.eqb_spec c "*"); [contradiction|reflexivity].
Qed.
Lemma cooked_digits : forall s, Forall digit s -> cooked s = s.
Proof.
  induction 1 as [|c s H _ IH]; [reflexivity|]. destruct (digit_plain c H) as [_ [A [_ B]]].
  unfold cooked, replace in *. cbn [map]. rewrite IH, plain_char by exact A. destruct (ascii_dec c "d"); [contradiction|reflexivity].
Qed.
Lemma cut_at : forall c a b, ~ In c a -> cut c (a ++ c :: b) = Some (a, b).
Proof.
  intros c a b. induction a as [|d a IH]; intros N.
  - cbn [app cut]. rewrite Ascii.eqb_refl. reflexivity.
  - cbn [app cut]. destruct (Ascii.eqb_spec d c) as [-> |]; [contradiction (N (or_introl eq_refl))|].
    rewrite IH by (intros X; apply N; right; exact X). reflexivity.
Qed.
Lemma cut_none : forall c s, ~ In c s -> cut c s = None.
Proof.
  intros c s. induction s as [|d s IH]; intros N; [reflexivity|]. cbn [cut].
  destruct (Ascii.eqb_spec d c) as [-> |]; [contradiction (N (or_introl eq_refl))|].
  rewrite IH by (intros X; apply N; right; exact X). reflexivity.
Qed.
Lemma cut_some : forall c s a b, cut c s = Some (a, b) -> s = a ++ c :: b /\ ~ In c a.
Proof.
  intros c s. induction s as [|d s IH]; intros a b H; [discriminate|]. cbn [cut] in H.
  destruct (Ascii.eqb_spec d c) as [-> |N].
  - injection H as <- <-. split; [reflexivity|intros []].
  - destruct (cut c s) as [[a' b']|]; [|discriminate]. injection H as <- <-. destruct (IH a' b' eq_refl) as [-> J].
    split; [reflexivity|]. intros [X|X]; [exact (N X)|exact (J X)].
Qed.

Lemma cooked_item : forall i v, item_value parse i v ->
  unspaced (cooked (item_text i)) /\ cooked (item_text i) <> [] /\
  forall l, items parse (cooked (item_text i) :: l) = bind (items parse l) (fun s => Ok (v ++ s)).
Proof.
  intros i v H. destruct H as [w v [N [W P]]|n w v [N [W P]]]; destruct (cooked_word w W) as [E [U X]].
  - cbn [item_text]. repeat split; [exact U|rewrite E; destruct w; [contradiction (N eq_refl)|discriminate]|].
    intros l. cbn [items]. rewrite X, E, P. reflexivity.
  - destruct (digits_str n) as [D M]. cbn [item_text].
    replace (str n ++ "*"%char :: w) with (str n ++ ["*"%char] ++ w) by reflexivity.
    rewrite !cooked_app, (cooked_digits _ D). change (cooked ["*"%char]) with ["*"%char].
    repeat split.
    + apply Forall_app. split; [|apply Forall_app; split; [constructor; [reflexivity|constructor]|exact U]].
      eapply Forall_impl; [|exact D]. intros c Q. exact (proj1 (digit_plain c Q)).
    + destruct (str n); [contradiction (M eq_refl)|discriminate].
    + intros l. cbn [items app]. rewrite cut_at, int_of_str, E, P, Nat2Z.id; [reflexivity|].
      intros Q. exact (proj1 (proj2 (proj2 (digit_plain _ (proj1 (Forall_forall _ _) D _ Q)))) eq_refl).
Qed.

Lemma words_line : forall l trail, Forall (fun p => separator (fst p)) l -> Forall (fun p => fst p <> []) (tl l) ->
  separator trail -> Forall (fun p => unspaced (cooked (item_text (snd p))) /\ cooked (item_text (snd p)) <> []) l ->
  words (cooked (line_of l trail)) = map (fun p => cooked (item_text (snd p))) l.
Proof.
  intros l trail S N T. revert S N. induction l as [|[s i] l IH]; intros S N U.
  - cbn [line_of map]. rewrite <- (app_nil_r (cooked trail)), words_spaces by (apply cooked_sep; exact T). reflexivity.
  - cbn [line_of map snd]. rewrite !cooked_app, words_spaces by (apply cooked_sep; exact (Forall_inv S)).
    pose proof (Forall_inv U) as [U1 U2]. cbn [snd] in U1, U2. rewrite words_word; [f_equal|exact U1|exact U2|].
    + apply IH; [exact (Forall_inv_tail S)| |exact (Forall_inv_tail U)].
      cbn [tl] in N. destruct l as [|p l]; [constructor|]. exact (Forall_inv_tail N).
    + cbn [tl] in N. destruct l as [|[s2 i2] l].
      * cbn [line_of]. pose proof (cooked_sep trail T) as Q. destruct (cooked trail) as [|c r]; [left; reflexivity|right].
        exists c, r. split; [reflexivity|exact (Forall_inv Q)].
      * cbn [line_of]. rewrite !cooked_app. apply Forall_inv in N. cbn [fst] in N.
        pose proof (cooked_sep s2 (Forall_inv (Forall_inv_tail S))) as Q. right.
        destruct s2 as [|c s2]; [contradiction (N eq_refl)|]. change (cooked (c :: s2)) with (cooked [c] ++ cooked s2) in *.
        cbn in Q |- *. eexists; eexists; split; [reflexivity|exact (Forall_inv Q)].
Qed.
End Numbers.
