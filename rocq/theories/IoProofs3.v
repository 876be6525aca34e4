(** Proofs about keys and file types, and cases. *)
From Coq Require Import Reals ZArith List Arith Bool Ascii String Lia Lra.
From Verif Require Import Vec UtilModel IoModel IoSpec IoProofs IoProofs2.
Import ListNotations.
Open Scope list_scope.

(** ** Keys *)
Lemma text_eqb_spec : forall a b, text_eqb a b = true <-> a = b.
Proof. intros a b. unfold text_eqb. destruct (list_eq_dec ascii_dec a b); split; intros; try assumption; try reflexivity; try discriminate; contradiction. Qed.

Lemma key_value_names : forall key l a v, key_value l = Some (a, v) -> strip a = strip key -> names key l.
Proof.
  intros key l a v H E. unfold key_value in H. destruct (cut eq_char l) as [[a' b]|] eqn:C; [|discriminate].
  injection H as -> _. destruct (cut_some _ _ _ _ C) as [-> N]. exists a, b. repeat split; assumption.
Qed.
Lemma key_value_part : forall l v, value_part l v -> exists a, key_value l = Some (a, v) /\ exists b, l = a ++ "="%char :: b /\ ~ In "="%char a.
Proof.
  intros l v [a [Na [Nv H]]]. exists a. unfold key_value, eq_char. destruct H as [-> |[c ->]]; rewrite cut_at by exact Na.
  - rewrite cut_none by exact Nv. split; [reflexivity|]. eexists; split; [reflexivity|exact Na].
  - rewrite cut_at by exact Nv. split; [reflexivity|]. eexists; split; [reflexivity|exact Na].
Qed.
Lemma names_unique : forall a b a' b', a ++ "="%char :: b = a' ++ "="%char :: b' -> ~ In "="%char a -> ~ In "="%char a' -> a = a' /\ b = b'.
Proof.
  intros a b a' b' E N N'. pose proof (cut_at "=" a b N) as C. rewrite E, cut_at in C by exact N'. injection C as -> ->. split; reflexivity.
Qed.

Lemma find_first : forall key pre l v post, (forall x, In x pre -> ~ names key x) -> names key l -> value_part l v ->
  find_key key (pre ++ l :: post) = Some (v, post).
Proof.
  intros key pre l v post P [a [b [E [N K]]]] V. induction pre as [|x pre IH].
  - cbn [app find_key]. destruct (key_value_part l v V) as [a' [-> [b' [E' N']]]].
    rewrite E in E'. destruct (names_unique _ _ _ _ E' N N') as [<- _].
    destruct (text_eqb (strip a) (strip key)) eqn:T; [reflexivity|]. apply text_eqb_spec in K. congruence.
  - cbn [app find_key]. destruct (key_value x) as [[a' v']|] eqn:X; [|apply IH; intros y Y; apply P; right; exact Y].
    destruct (text_eqb (strip a') (strip key)) eqn:T; [|apply IH; intros y Y; apply P; right; exact Y].
    apply text_eqb_spec in T. contradiction (P x (or_introl eq_refl) (key_value_names _ _ _ _ X T)).
Qed.
Lemma find_nothing : forall key f, (forall x, In x f -> ~ names key x) -> find_key key f = None.
Proof.
  intros key f P. induction f as [|x f IH]; [reflexivity|]. cbn [find_key].
  destruct (key_value x) as [[a' v']|] eqn:X; [|apply IH; intros y Y; apply P; right; exact Y].
  destruct (text_eqb (strip a') (strip key)) eqn:T; [|apply IH; intros y Y; apply P; right; exact Y].
  apply text_eqb_spec in T. contradiction (P x (or_introl eq_refl) (key_value_names _ _ _ _ X T)).
Qed.

Lemma find_word : forall parse key pre l v w ws post d, (forall x, In x pre -> ~ names key x) -> names key l -> value_part l v ->
  words v = w :: ws -> find_value parse (pre ++ l :: post) key VDefault d = Ok (Word w).
Proof. intros parse key pre l v w ws post d P N V W. unfold find_value. rewrite (find_first key pre l v post P N V), W. reflexivity. Qed.
Lemma find_no_word : forall parse key pre l v post d, (forall x, In x pre -> ~ names key x) -> names key l -> value_part l v ->
  blank v -> find_value parse (pre ++ l :: post) key VDefault d = Raise IndexError.
Proof.
  intros parse key pre l v post d P N V B. unfold find_value. rewrite (find_first key pre l v post P N V).
  rewrite <- words_strip, (strip_content _ _ B). reflexivity.
Qed.
Lemma find_words : forall parse key pre l v post d, (forall x, In x pre -> ~ names key x) -> names key l -> value_part l v ->
  find_value parse (pre ++ l :: post) key VAll d = Ok (Words (words v)).
Proof. intros parse key pre l v post d P N V. unfold find_value. rewrite (find_first key pre l v post P N V). reflexivity. Qed.
Lemma find_one : forall parse key pre l v post d, (forall x, In x pre -> ~ names key x) -> names key l -> value_part l (v ++ [nl_char]) ->
  find_value parse (pre ++ l :: post) key VOnestr d = Ok (OneStr v).
Proof. intros parse key pre l v post d P N V. unfold find_value. rewrite (find_first key pre l _ post P N V), removelast_last. reflexivity. Qed.
Lemma find_test : forall parse key f d,
  find_value parse f key VTest d = Ok (Boolean true) <-> exists l, In l f /\ names key l.
Proof.
  intros parse key f d. unfold find_value. destruct (find_key key f) as [[v f']|] eqn:E; cbn [bind].
  - split; [intros _|reflexivity]. revert E. induction f as [|x f IH]; cbn [find_key]; [discriminate|]. intros E.
    destruct (key_value x) as [[a' v']|] eqn:X.
    + destruct (text_eqb (strip a') (strip key)) eqn:T.
      * apply text_eqb_spec in T. exists x. split; [left; reflexivity|exact (key_value_names _ _ _ _ X T)].
      * destruct (IH E) as [l [I N]]. exists l. split; [right; exact I|exact N].
    + destruct (IH E) as [l [I N]]. exists l. split; [right; exact I|exact N].
  - split; [discriminate|]. intros [l [I N]]. exfalso. apply in_split in I. destruct I as [p [q ->]].
    revert E. induction p as [|x p IH]; cbn [app find_key].
    + destruct N as [a [b [-> [Na K]]]]. unfold key_value, eq_char. rewrite cut_at by exact Na.
      destruct (text_eqb (strip a) (strip key)) eqn:T; [discriminate|]. apply text_eqb_spec in K. congruence.
    + destruct (key_value x) as [[a' v']|]; [destruct (text_eqb (strip a') (strip key)); [discriminate|]|]; exact IH.
Qed.
Lemma find_matrix : forall parse key pre l v set rows vals rest d, (forall x, In x pre -> ~ names key x) -> names key l -> value_part l v ->
  data_set set rows -> rows <> [] -> (rest = [] \/ exists l f, rest = l :: f /\ blank l) ->
  Forall2 (numbers parse) rows vals -> (forall a b, In a vals -> In b vals -> List.length a = List.length b) ->
  find_value parse (pre ++ l :: set ++ rest) key VMatrix d = Ok (Matrix vals).
Proof.
  intros parse key pre l v set rows vals rest d P N V D R E Q L. unfold find_value. rewrite (find_first key pre l v _ P N V).
  pose proof (read_set parse [] set rows vals rest ltac:(constructor) D R E Q L) as X. cbn [app] in X. rewrite X. reflexivity.
Qed.
Lemma find_strings : forall parse key pre l v set rows rest d, (forall x, In x pre -> ~ names key x) -> names key l -> value_part l v ->
  data_set set rows -> rows <> [] -> (rest = [] \/ exists l f, rest = l :: f /\ blank l) ->
  find_value parse (pre ++ l :: set ++ rest) key VStrings d = Ok (Strings rows).
Proof.
  intros parse key pre l v set rows rest d P N V D R E. unfold find_value. rewrite (find_first key pre l v _ P N V).
  pose proof (read_set_strings parse [] set rows rest ltac:(constructor) D R E) as X. cbn [app] in X. rewrite X. reflexivity.
Qed.
Lemma find_absent : forall parse key f fmt d, (forall x, In x f -> ~ names key x) -> fmt <> VTest ->
  find_value parse f key fmt d = match d with Some v => Ok v | None => Raise RuntimeError end.
Proof. intros parse key f fmt d P T. unfold find_value. rewrite (find_nothing key f P). destruct fmt; [..|contradiction (T eq_refl)]; destruct d; reflexivity. Qed.

(** a boolean: the four spellings of either value in any case, blanks apart *)
Lemma find_bool : forall parse key pre l v post d (b : bool), (forall x, In x pre -> ~ names key x) -> names key l -> value_part l v ->
  (exists s, content (lower v) (txt s) /\ In s (if b then ["true"; "t"; "yes"; "y"] else ["false"; "f"; "no"; "n"])%string) ->
  find_value parse (pre ++ l :: post) key VBool d = Ok (Boolean b).
Proof.
  intros parse key pre l v post d b P N V [s [C I]]. unfold find_value. rewrite (find_first key pre l v post P N V).
  unfold true_false. rewrite (strip_content _ _ C). destruct b; cbn in I; repeat (destruct I as [<-|I]; [reflexivity|]); contradiction.
Qed.

(** ** What the formats 'onestr' and 'all' do not do *)
Definition no_numbers (w : text) : option R := None.
Lemma onestr_loses : exists f key v, names key (txt "title=" ++ v ++ [nl_char]) /\ ~ In nl_char v /\
  f = [txt "title=" ++ v ++ [nl_char]] /\ find_value no_numbers f key VOnestr None <> Ok (OneStr v).
Proof.
  exists [txt "title=a=b" ++ [nl_char]], (txt "title"), (txt "a=b"). split; [|split; [|split; [reflexivity|]]].
  - exists (txt "title"), (txt "a=b" ++ [nl_char]). split; [reflexivity|split; [|reflexivity]]. cbn. intuition discriminate.
  - cbn. intuition discriminate.
  - cbn. discriminate.
Qed.
Lemma onestr_last_line : exists f key v, f = [txt "title=" ++ v] /\ names key (txt "title=" ++ v) /\ ~ In "="%char v /\
  find_value no_numbers f key VOnestr None <> Ok (OneStr v).
Proof.
  exists [txt "title=ab"], (txt "title"), (txt "ab"). split; [reflexivity|split; [|split]].
  - exists (txt "title"), (txt "ab"). split; [reflexivity|split; [|reflexivity]]. cbn. intuition discriminate.
  - cbn. intuition discriminate.
  - cbn. discriminate.
Qed.
Lemma all_loses : exists f key v, f = [txt "title=" ++ v] /\ names key (txt "title=" ++ v) /\
  find_value no_numbers f key VAll None <> Ok (Words (words v)).
Proof.
  exists [txt "title=a=b c"], (txt "title"), (txt "a=b c"). split; [reflexivity|split].
  - exists (txt "title"), (txt "a=b c"). split; [reflexivity|split; [|reflexivity]]. cbn. intuition discriminate.
  - cbn. discriminate.
Qed.

(** ** Parameter files *)
Lemma hs_from_par : forall parse si sj pre l v set rows vals rest,
  (forall x, In x (pre ++ l :: set ++ rest) -> ~ names (txt "X_X_table") x) ->
  (forall x, In x pre -> ~ names (si ++ txt "_" ++ sj ++ txt "_table") x) -> names (si ++ txt "_" ++ sj ++ txt "_table") l -> value_part l v ->
  data_set set rows -> rows <> [] -> (rest = [] \/ exists l f, rest = l :: f /\ blank l) ->
  Forall2 (numbers parse) rows (map (fun p => fst p :: snd p) vals) ->
  (forall a b, In a vals -> In b vals -> List.length (snd a) = List.length (snd b)) ->
  read_HS_from_par parse (pre ++ l :: set ++ rest) si sj = Ok (map fst vals, map snd vals).
Proof.
  intros parse si sj pre l v set rows vals rest X P N V D R E Q L. unfold read_HS_from_par.
  assert (T : find_value parse (pre ++ l :: set ++ rest) (txt "X_X_table") VTest None = Ok (Boolean false)).
  { unfold find_value. rewrite (find_nothing _ _ X). reflexivity. }
  rewrite T. cbn [bind]. rewrite (find_matrix parse _ pre l v set rows (map (fun p => fst p :: snd p) vals) rest None P N V D R E Q).
  - cbn [bind]. unfold column.
    assert (A : forallb (fun r => 0 <? List.length r)%nat (map (fun p => fst p :: snd p) vals) = true).
    { apply forallb_forall. intros r I. apply in_map_iff in I as [p [<- _]]. reflexivity. }
    rewrite A. cbn [bind]. rewrite !map_map. reflexivity.
  - intros a b A B. apply in_map_iff in A as [p [<- A]]. apply in_map_iff in B as [q [<- B]]. cbn [List.length]. f_equal. apply L; assumption.
Qed.
(** a table for all pairs is never read *)
Lemma xx_table : forall parse f si sj, (exists l, In l f /\ names (txt "X_X_table") l) -> read_HS_from_par parse f si sj = Raise TypeError.
Proof. intros parse f si sj H. apply (find_test parse _ f None) in H. unfold read_HS_from_par. rewrite H. reflexivity. Qed.

Lemma rep_from_par : forall parse pre l v set rows vals rest,
  (forall x, In x pre -> ~ names (txt "repulsion") x) -> names (txt "repulsion") l -> value_part l v ->
  data_set set rows -> rows <> [] -> (rest = [] \/ exists l f, rest = l :: f /\ blank l) ->
  Forall2 (numbers parse) rows (map (fun p => [fst p; snd p]) vals) ->
  read_repulsion_from_par parse (pre ++ l :: set ++ rest) = Ok (map fst vals, map snd vals).
Proof.
  intros parse pre l v set rows vals rest P N V D Nr E Q. unfold read_repulsion_from_par.
  rewrite (find_matrix parse _ pre l v set rows (map (fun p => [fst p; snd p]) vals) rest None P N V D Nr E Q).
  - unfold column.
    assert (A : forall k, (k < 2)%nat -> forallb (fun r => k <? List.length r)%nat (map (fun p => [fst p; snd p]) vals) = true).
    { intros k K. apply forallb_forall. intros r I. apply in_map_iff in I as [p [<- _]]. apply Nat.ltb_lt. exact K. }
    rewrite !A by lia. cbn [bind]. rewrite !map_map. reflexivity.
  - intros a b A B. apply in_map_iff in A as [p [<- A]]. apply in_map_iff in B as [q [<- B]]. reflexivity.
Qed.
(** a repulsion that is missing or cannot be read is a zero repulsion *)
Lemma silent_zero : forall parse f, (exists e, find_value parse f (txt "repulsion") VMatrix None = Raise e) ->
  read_repulsion_from_par parse f = Ok ([0; 1; 2; 3]%R, [0; 0; 0; 0]%R).
Proof. intros parse f [e E]. unfold read_repulsion_from_par. rewrite E. reflexivity. Qed.
Lemma bad_repulsion : forall parse pre l v set rows rest,
  (forall x, In x pre -> ~ names (txt "repulsion") x) -> names (txt "repulsion") l -> value_part l v ->
  data_set set rows -> (exists s, In s rows /\ forall r, ~ numbers parse s r) ->
  read_repulsion_from_par parse (pre ++ l :: set ++ rest) = Ok ([0; 1; 2; 3]%R, [0; 0; 0; 0]%R).
Proof.
  intros parse pre l v set rows rest P N V D B. apply silent_zero. exists ValueError. unfold find_value.
  rewrite (find_first _ pre l v _ P N V). pose proof (read_set_bad parse [] set rows rest ltac:(constructor) D B) as X. cbn [app] in X.
  rewrite X. reflexivity.
Qed.

(** ** File types *)
Lemma endswith_spec : forall s e, endswith s e = true <-> exists b, s = b ++ e.
Proof.
  intros s e. unfold endswith. rewrite text_eqb_spec. split.
  - intros H. exists (firstn (List.length s - List.length e) s). rewrite <- H at 2. symmetry. apply firstn_skipn.
  - intros [b ->]. rewrite app_length, Nat.add_sub, skipn_app, skipn_all, Nat.sub_diag. reflexivity.
Qed.
Lemma ext_exclusive : forall name a b, List.length a = List.length b -> ends_with name a -> a <> b -> endswith (lower name) b = false.
Proof.
  intros name a b L [p E] N. destruct (endswith (lower name) b) eqn:X; [|reflexivity]. apply endswith_spec in X as [q X].
  rewrite E in X. exfalso. apply N.
  assert (M : List.length p = List.length q) by (apply (f_equal (@List.length ascii)) in X; rewrite !app_length in X; lia).
  apply (f_equal (skipn (List.length p))) in X. rewrite skipn_app, skipn_all, Nat.sub_diag in X. rewrite M in X. rewrite skipn_app, skipn_all, Nat.sub_diag in X. exact X.
Qed.

Lemma type_of : forall name e, has_extension name e -> filetype name = wanted_type e.
Proof.
  intros name e H. unfold filetype. destruct e; cbn [has_extension wanted_type] in *.
  - rewrite (proj2 (endswith_spec _ _) H). reflexivity.
  - rewrite (ext_exclusive name (txt ".par") (txt ".elm")), (proj2 (endswith_spec _ _) H); [reflexivity|reflexivity|exact H|discriminate].
  - rewrite (ext_exclusive name (txt ".skf") (txt ".elm")), (ext_exclusive name (txt ".skf") (txt ".par")), (proj2 (endswith_spec _ _) H); try reflexivity; try exact H; discriminate.
  - rewrite (ext_exclusive name (txt ".spl") (txt ".elm")), (ext_exclusive name (txt ".spl") (txt ".par")), (ext_exclusive name (txt ".spl") (txt ".skf")); try reflexivity; try exact H; discriminate.
  - assert (A : forall x, In x [".elm"; ".par"; ".skf"; ".spl"]%string -> endswith (lower name) (txt x) = false).
    { intros x I. destruct (endswith (lower name) (txt x)) eqn:X; [|reflexivity]. apply endswith_spec in X. contradiction (H x I X). }
    rewrite !A by (cbn; tauto). reflexivity.
Qed.
Lemma dispatch : forall name e, has_extension name e -> In e [ExtElm; ExtPar; ExtSkf] ->
  read_element name None = match e with ExtElm => Ok ElmElement | ExtSkf => Ok SkfElement | _ => Raise RuntimeError end /\
  read_HS name None = match e with ExtPar => Ok ParHS | ExtSkf => Ok SkfHS | _ => Raise RuntimeError end /\
  read_repulsion name None = match e with ExtPar => Ok ParRepulsion | ExtSkf => Ok SkfRepulsion | _ => Raise RuntimeError end.
Proof.
  intros name e H I. unfold read_element, read_HS, read_repulsion, format_of. rewrite (type_of name e H).
  cbn in I. repeat (destruct I as [<-|I]; [repeat split|]). contradiction.
Qed.
(** .spl files, and every other name, end in an unrelated AttributeError *)
Lemma spl_fails : forall name e, has_extension name e -> e = ExtSpl \/ e = ExtOther ->
  read_element name None = Raise AttributeError /\ read_HS name None = Raise AttributeError /\ read_repulsion name None = Raise AttributeError.
Proof.
  intros name e H I. unfold read_element, read_HS, read_repulsion, format_of. rewrite (type_of name e H).
  destruct I as [-> | ->]; repeat split.
Qed.

(** ** Cases *)
(** integers in decimal *)
Definition zparse (w : text) : option R := option_map IZR (int_of w).
Example case_items : fortran_readline zparse (txt "3, 2*5 4,7") = Ok [3; 5; 5; 4; 7]%R.
Proof. reflexivity. Qed.
Example case_items_hyp : let l := [([], One (txt "3")); (txt ", ", Times 2 (txt "5")); (txt " ", One (txt "4"))] in
  separated l /\ separator (txt " ,") /\ Forall2 (item_value zparse) (map snd l) [[3]; [5; 5]; [4]]%R.
Proof.
  assert (A : forall c, digit c -> is_space c = false /\ c <> ","%char /\ c <> "*"%char) by (intros c H; destruct (digit_plain c H) as [? [? [? _]]]; auto).
  assert (N : forall d v, zparse [d] = Some v -> digit d -> plain_exponent [d] = [d] -> numeral zparse [d] v).
  { intros d v P H E. split; [discriminate|split; [constructor; [apply A; exact H|constructor]|rewrite E; exact P]]. }
  cbv zeta. split; [|split].
  - split; repeat constructor; cbn; try (left; reflexivity); try (right; reflexivity); discriminate.
  - repeat constructor; cbn; try (left; reflexivity); right; reflexivity.
  - cbn [map snd]. constructor; [apply one_value; apply N; [reflexivity|cbn; tauto|reflexivity]|].
    constructor; [apply (times_value zparse 2 (txt "5") 5%R); apply N; [reflexivity|cbn; tauto|reflexivity]|].
    constructor; [apply one_value; apply N; [reflexivity|cbn; tauto|reflexivity]|constructor].
Qed.
Definition sample : file :=
  [txt "# a table" ++ [nl_char]; txt " name = C_H " ++ [nl_char]; txt "table =" ++ [nl_char];
   txt " 1 2" ++ [nl_char]; txt "# note" ++ [nl_char]; txt "3 4" ++ [nl_char]; [nl_char]; txt "5 6"].
Example case_find : find_value zparse sample (txt "name") VDefault None = Ok (Word (txt "C_H")) /\
  find_value zparse sample (txt "table") VMatrix None = Ok (Matrix [[1; 2]; [3; 4]]%R) /\
  find_value zparse sample (txt "x") VTest None = Ok (Boolean false).
Proof. repeat split. Qed.
Example case_set : Forall (fun l => blank l \/ comment l) [[nl_char]; txt "# a" ++ [nl_char]] /\
  data_set [txt " 1 2" ++ [nl_char]; txt "# note" ++ [nl_char]] [txt "1 2"] /\ blank [nl_char] /\
  names (txt "table") (txt " table =" ++ [nl_char]) /\ value_part (txt " table =" ++ [nl_char]) [nl_char].
Proof.
  assert (C : forall l, content l (strip l)) by exact content_strip.
  split; [|split; [|split; [|split]]].
  - constructor; [left; exact (C _)|]. constructor; [right; exists (txt " a"); exact (C _)|constructor].
  - apply ds_data; [split; [exact (C _)|exists "1"%char, (txt " 2"); split; [reflexivity|discriminate]]|].
    apply ds_comment; [exists (txt " note"); exact (C _)|constructor].
  - exact (C _).
  - exists (txt " table "), [nl_char]. split; [reflexivity|split; [|reflexivity]]. cbn. intuition discriminate.
  - exists (txt " table "). split; [cbn; intuition discriminate|split; [cbn; intuition discriminate|left; reflexivity]].
Qed.
Example case_written : written zparse (fun v => str 7) (fun _ => 7%R) 7%R.
Proof.
  exists [], (txt "7"), []. repeat split; try constructor; try discriminate; try reflexivity. constructor.
Qed.
Example case_ext : has_extension (txt "C_H.PAR") ExtPar /\ has_extension (txt "C-H.spl") ExtSpl.
Proof. split; [exists (txt "c_h")|exists (txt "c-h")]; reflexivity. Qed.
