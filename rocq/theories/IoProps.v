From Coq Require Import Reals ZArith List Bool Arith Ascii String.
From Verif Require Import Vec UtilModel GeomModel IoModel IoSpec IoProofs IoProofs2 IoProofs3.
Import ListNotations.
Open Scope list_scope.

(** C99.  Cases: case_items, case_items_hyp in IoProofs3 *)
Theorem C99_items :
  forall parse l vs trail,
  separated l -> separator trail -> Forall2 (item_value parse) (map snd l) vs ->
  fortran_readline parse (line_of l trail) = Ok (List.concat vs).
Proof. exact fortran_items. Qed.
Theorem C99_rejects :
  forall parse l1 vs s w l2 trail,
  separated (l1 ++ (s, One w) :: map (fun p => (fst p, One (snd p))) l2) -> separator trail -> Forall2 (item_value parse) (map snd l1) vs ->
  Forall (fun w => w <> [] /\ Forall (fun c => is_space c = false /\ c <> ","%char /\ c <> "*"%char) w) (w :: map snd l2) ->
  parse (plain_exponent w) = None ->
  fortran_readline parse (line_of (l1 ++ (s, One w) :: map (fun p => (fst p, One (snd p))) l2) trail) = Raise ValueError.
Proof. exact fortran_rejects. Qed.
(** C100.  Cases: case_find, case_set *)
Theorem C100_word :
  forall parse key pre l v w ws post d, (forall x, In x pre -> ~ names key x) -> names key l -> value_part l v ->
  words v = w :: ws -> find_value parse (pre ++ l :: post) key VDefault d = Ok (Word w).
Proof. exact find_word. Qed.
Theorem C100_no_word :
  forall parse key pre l v post d, (forall x, In x pre -> ~ names key x) -> names key l -> value_part l v ->
  blank v -> find_value parse (pre ++ l :: post) key VDefault d = Raise IndexError.
Proof. exact find_no_word. Qed.
Theorem C100_words :
  forall parse key pre l v post d, (forall x, In x pre -> ~ names key x) -> names key l -> value_part l v ->
  find_value parse (pre ++ l :: post) key VAll d = Ok (Words (words v)).
Proof. exact find_words. Qed.
Theorem C100_one_string :
  forall parse key pre l v post d, (forall x, In x pre -> ~ names key x) -> names key l -> value_part l (v ++ [nl_char]) ->
  find_value parse (pre ++ l :: post) key VOnestr d = Ok (OneStr v).
Proof. exact find_one. Qed.
Theorem C100_test :
  forall parse key f d,
  find_value parse f key VTest d = Ok (Boolean true) <-> exists l, In l f /\ names key l.
Proof. exact find_test. Qed.
Theorem C100_matrix :
  forall parse key pre l v set rows vals rest d, (forall x, In x pre -> ~ names key x) -> names key l -> value_part l v ->
  data_set set rows -> rows <> [] -> (rest = [] \/ exists l f, rest = l :: f /\ blank l) ->
  Forall2 (numbers parse) rows vals -> (forall a b, In a vals -> In b vals -> List.length a = List.length b) ->
  find_value parse (pre ++ l :: set ++ rest) key VMatrix d = Ok (Matrix vals).
Proof. exact find_matrix. Qed.
Theorem C100_strings :
  forall parse key pre l v set rows rest d, (forall x, In x pre -> ~ names key x) -> names key l -> value_part l v ->
  data_set set rows -> rows <> [] -> (rest = [] \/ exists l f, rest = l :: f /\ blank l) ->
  find_value parse (pre ++ l :: set ++ rest) key VStrings d = Ok (Strings rows).
Proof. exact find_strings. Qed.
Theorem C100_boolean :
  forall parse key pre l v post d (b : bool), (forall x, In x pre -> ~ names key x) -> names key l -> value_part l v ->
  (exists s, content (lower v) (txt s) /\ In s (if b then ["true"; "t"; "yes"; "y"] else ["false"; "f"; "no"; "n"])%string) ->
  find_value parse (pre ++ l :: post) key VBool d = Ok (Boolean b).
Proof. exact find_bool. Qed.
Theorem C100_absent :
  forall parse key f fmt d, (forall x, In x f -> ~ names key x) -> fmt <> VTest ->
  find_value parse f key fmt d = match d with Some v => Ok v | None => Raise RuntimeError end.
Proof. exact find_absent. Qed.
Theorem C100_one_string_refuted :
  exists f key v, names key (txt "title=" ++ v ++ [nl_char]) /\ ~ In nl_char v /\
  f = [txt "title=" ++ v ++ [nl_char]] /\ find_value no_numbers f key VOnestr None <> Ok (OneStr v).
Proof. exact onestr_loses. Qed.
Theorem C100_last_line_refuted :
  exists f key v, f = [txt "title=" ++ v] /\ names key (txt "title=" ++ v) /\ ~ In "="%char v /\
  find_value no_numbers f key VOnestr None <> Ok (OneStr v).
Proof. exact onestr_last_line. Qed.
Theorem C100_words_refuted :
  exists f key v, f = [txt "title=" ++ v] /\ names key (txt "title=" ++ v) /\
  find_value no_numbers f key VAll None <> Ok (Words (words v)).
Proof. exact all_loses. Qed.
(** C101.  Cases: case_set, case_written *)
Theorem C101_read :
  forall parse pre set rows vals post,
  Forall (fun l => blank l \/ comment l) pre -> data_set set rows -> rows <> [] -> (post = [] \/ exists l f, post = l :: f /\ blank l) ->
  Forall2 (numbers parse) rows vals -> (forall a b, In a vals -> In b vals -> List.length a = List.length b) ->
  read_array parse (pre ++ set ++ post) = Ok (Some vals, tl post).
Proof. exact read_set. Qed.
Theorem C101_bad :
  forall parse pre set rows post,
  Forall (fun l => blank l \/ comment l) pre -> data_set set rows -> (exists s, In s rows /\ forall r, ~ numbers parse s r) ->
  read_array parse (pre ++ set ++ post) = Raise ValueError.
Proof. exact read_set_bad. Qed.
Theorem C101_none :
  forall parse f, Forall (fun l => blank l \/ comment l) f ->
  read_array parse f = Ok (None, []) /\ read_strings parse f = Ok (None, []).
Proof. exact read_none. Qed.
Theorem C101_strings :
  forall parse pre set rows post,
  Forall (fun l => blank l \/ comment l) pre -> data_set set rows -> rows <> [] -> (post = [] \/ exists l f, post = l :: f /\ blank l) ->
  read_strings parse (pre ++ set ++ post) = Ok (Some rows, tl post).
Proof. exact read_set_strings. Qed.
Theorem C101_write_read :
  forall parse fmt rnd a post,
  a <> [] -> Forall (fun r => r <> [] /\ Forall (written parse fmt rnd) r) a ->
  (forall r s, In r a -> In s a -> List.length r = List.length s) -> (post = [] \/ exists l f, post = l :: f /\ blank l) ->
  read_array parse (write fmt a ++ post) = Ok (Some (map (map rnd) a), tl post).
Proof. exact write_read. Qed.
Theorem C101_lines_refuted :
  forall parse pre l s post, Forall (fun l => blank l \/ comment l) pre -> data l s ->
  read_lines parse (pre ++ l :: post) = Raise AssertionError.
Proof. exact lines_raise. Qed.
(** C102.  Case: case_ext *)
Theorem C102_dispatch :
  forall name e, has_extension name e -> In e [ExtElm; ExtPar; ExtSkf] ->
  read_element name None = match e with ExtElm => Ok ElmElement | ExtSkf => Ok SkfElement | _ => Raise RuntimeError end /\
  read_HS name None = match e with ExtPar => Ok ParHS | ExtSkf => Ok SkfHS | _ => Raise RuntimeError end /\
  read_repulsion name None = match e with ExtPar => Ok ParRepulsion | ExtSkf => Ok SkfRepulsion | _ => Raise RuntimeError end.
Proof. exact dispatch. Qed.
Theorem C102_spl_refuted :
  forall name e, has_extension name e -> e = ExtSpl \/ e = ExtOther ->
  read_element name None = Raise AttributeError /\ read_HS name None = Raise AttributeError /\ read_repulsion name None = Raise AttributeError.
Proof. exact spl_fails. Qed.
(** C108.  Cases: case_find, case_set *)
Theorem C108_tables :
  forall parse si sj pre l v set rows vals rest,
  (forall x, In x (pre ++ l :: set ++ rest) -> ~ names (txt "X_X_table") x) ->
  (forall x, In x pre -> ~ names (si ++ txt "_" ++ sj ++ txt "_table") x) -> names (si ++ txt "_" ++ sj ++ txt "_table") l -> value_part l v ->
  data_set set rows -> rows <> [] -> (rest = [] \/ exists l f, rest = l :: f /\ blank l) ->
  Forall2 (numbers parse) rows (map (fun p => fst p :: snd p) vals) ->
  (forall a b, In a vals -> In b vals -> List.length (snd a) = List.length (snd b)) ->
  read_HS_from_par parse (pre ++ l :: set ++ rest) si sj = Ok (map fst vals, map snd vals).
Proof. exact hs_from_par. Qed.
Theorem C108_repulsion :
  forall parse pre l v set rows vals rest,
  (forall x, In x pre -> ~ names (txt "repulsion") x) -> names (txt "repulsion") l -> value_part l v ->
  data_set set rows -> rows <> [] -> (rest = [] \/ exists l f, rest = l :: f /\ blank l) ->
  Forall2 (numbers parse) rows (map (fun p => [fst p; snd p]) vals) ->
  read_repulsion_from_par parse (pre ++ l :: set ++ rest) = Ok (map fst vals, map snd vals).
Proof. exact rep_from_par. Qed.
Theorem C108_symmetric_table_refuted :
  forall parse f si sj, (exists l, In l f /\ names (txt "X_X_table") l) -> read_HS_from_par parse f si sj = Raise TypeError.
Proof. exact xx_table. Qed.
Theorem C108_bad_repulsion_refuted :
  forall parse pre l v set rows rest,
  (forall x, In x pre -> ~ names (txt "repulsion") x) -> names (txt "repulsion") l -> value_part l v ->
  data_set set rows -> (exists s, In s rows /\ forall r, ~ numbers parse s r) ->
  read_repulsion_from_par parse (pre ++ l :: set ++ rest) = Ok ([0; 1; 2; 3]%R, [0; 0; 0; 0]%R).
Proof. exact bad_repulsion. Qed.
Print Assumptions C99_items.
Print Assumptions C99_rejects.
Print Assumptions C100_word.
Print Assumptions C100_no_word.
Print Assumptions C100_words.
Print Assumptions C100_one_string.
Print Assumptions C100_test.
Print Assumptions C100_matrix.
Print Assumptions C100_strings.
Print Assumptions C100_boolean.
Print Assumptions C100_absent.
Print Assumptions C100_one_string_refuted.
Print Assumptions C100_last_line_refuted.
Print Assumptions C100_words_refuted.
Print Assumptions C101_read.
Print Assumptions C101_bad.
Print Assumptions C101_none.
Print Assumptions C101_strings.
Print Assumptions C101_write_read.
Print Assumptions C101_lines_refuted.
Print Assumptions C102_dispatch.
Print Assumptions C102_spl_refuted.
Print Assumptions C108_tables.
Print Assumptions C108_repulsion.
Print Assumptions C108_symmetric_table_refuted.
Print Assumptions C108_bad_repulsion_refuted.
