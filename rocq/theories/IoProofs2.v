(** Proofs about number lists, data sets, keys and file types, continued. *)
From Coq Require Import Reals ZArith List Arith Bool Ascii String Lia Lra.
From Verif Require Import Vec UtilModel IoModel IoSpec IoProofs.
Import ListNotations.
Open Scope list_scope.

Lemma clean_item : forall w, w <> [] -> Forall (fun c => is_space c = false /\ c <> ","%char /\ c <> "*"%char) w ->
  unspaced (cooked w) /\ cooked w <> [].
Proof.
  intros w N W. destruct (cooked_word w W) as [E [U _]]. split; [exact U|]. rewrite E. destruct w; [contradiction (N eq_refl)|discriminate].
Qed.

Lemma fortran_items : forall parse l vs trail,
  separated l -> separator trail -> Forall2 (item_value parse) (map snd l) vs ->
  fortran_readline parse (line_of l trail) = Ok (List.concat vs).
Proof.
  intros parse l vs trail [S N] T V. unfold fortran_readline. fold (cooked (line_of l trail)).
  rewrite words_line; [|exact S|exact N|exact T|].
  - clear S N. revert vs V. induction l as [|[s i] l IH]; intros vs V; inversion V as [|? v ? vs' V1 V2]; subst; [reflexivity|].
    cbn [map snd]. destruct (cooked_item parse i v V1) as [_ [_ E]]. rewrite E, (IH vs' V2). reflexivity.
  - clear S N T. revert vs V. induction l as [|[s i] l IH]; intros vs V; [constructor|]. inversion V as [|? v ? vs' V1 V2]; subst.
    constructor; [|exact (IH vs' V2)]. destruct (cooked_item parse i v V1) as [A [B _]]. split; assumption.
Qed.

(** a word that is not a number is an error, whatever stands around it *)
Lemma fortran_rejects : forall parse l1 vs s w l2 trail,
  separated (l1 ++ (s, One w) :: map (fun p => (fst p, One (snd p))) l2) -> separator trail -> Forall2 (item_value parse) (map snd l1) vs ->
  Forall (fun w => w <> [] /\ Forall (fun c => is_space c = false /\ c <> ","%char /\ c <> "*"%char) w) (w :: map snd l2) ->
  parse (plain_exponent w) = None ->
  fortran_readline parse (line_of (l1 ++ (s, One w) :: map (fun p => (fst p, One (snd p))) l2) trail) = Raise ValueError.
Proof.
  intros parse l1 vs s w l2 trail [S N] T V C P. unfold fortran_readline. set (l := l1 ++ _) in *. fold (cooked (line_of l trail)).
  rewrite words_line; [|exact S|exact N|exact T|]; unfold l; clear S N T l.
  - rewrite map_app. revert vs V. induction l1 as [|[s1 i] l1 IH]; intros vs V.
    + cbn [map app snd item_text]. destruct (Forall_inv C) as [_ W]. destruct (cooked_word w W) as [E [_ X]].
      cbn [items]. rewrite X, E, P. reflexivity.
    + inversion V as [|? v ? vs' V1 V2]; subst. specialize (IH vs' V2). cbn [map app snd] in IH |- *. destruct (cooked_item parse i v V1) as [_ [_ E]].
      rewrite E, IH. reflexivity.
  - apply Forall_app. split.
    + revert vs V. induction l1 as [|[s1 i] l1 IH]; intros vs V; [constructor|]. inversion V as [|? v ? vs' V1 V2]; subst.
      constructor; [|exact (IH vs' V2)]. destruct (cooked_item parse i v V1) as [A [B _]]. split; assumption.
    + inversion C as [|? ? [A B] C']; subst. constructor; [exact (clean_item w A B)|].
      clear - C'. induction l2 as [|[s2 w2] l2 IH]; [constructor|]. inversion C' as [|? ? [A B] C2]; subst.
      constructor; [exact (clean_item w2 A B)|exact (IH C2)].
Qed.

(** ** Data sets *)
Lemma skip_pre : forall parse fmt pre f, Forall (fun l => blank l \/ comment l) pre ->
  read_rows parse fmt true (pre ++ f) = read_rows parse fmt true f.
Proof.
  intros parse fmt pre f H. induction H as [|l pre [B|[s B]] _ IH]; [reflexivity|..]; cbn [app read_rows]; rewrite (strip_content _ _ B).
  - exact IH.
  - rewrite Ascii.eqb_refl. exact IH.
Qed.

Definition ends (post : file) : Prop := post = [] \/ exists l f, post = l :: f /\ blank l.
Lemma data_head : forall l s, data l s -> exists c r, strip l = c :: r /\ s = c :: r /\ Ascii.eqb c "#" = false.
Proof.
  intros l s [C [c [r [-> N]]]]. exists c, r. rewrite (strip_content _ _ C). repeat split. apply Ascii.eqb_neq. exact N.
Qed.

Lemma floats_numbers : forall parse l r, map parse l = map Some r -> floats parse l = Ok r.
Proof.
  intros parse l. induction l as [|w l IH]; intros [|x r] H; try discriminate; [reflexivity|].
  cbn [map] in H. injection H as H1 H2. cbn [floats]. rewrite H1, (IH r H2). reflexivity.
Qed.
Lemma floats_ok : forall parse l r, floats parse l = Ok r -> map parse l = map Some r.
Proof.
  intros parse l. induction l as [|w l IH]; intros r H; cbn [floats] in H; [injection H as <-; reflexivity|].
  destruct (parse w) as [x|] eqn:E; [|discriminate]. destruct (floats parse l) as [r'|] eqn:F; [|discriminate].
  injection H as <-. cbn [map]. rewrite E, (IH r' eq_refl). reflexivity.
Qed.
Lemma floats_fail : forall parse l e, floats parse l = Raise e -> e = ValueError.
Proof.
  intros parse l. induction l as [|w l IH]; intros e H; cbn [floats] in H; [discriminate|].
  destruct (parse w) as [x|]; [|injection H as <-; reflexivity]. destruct (floats parse l) as [r'|]; [discriminate|].
  injection H as <-. exact (IH _ eq_refl).
Qed.

Lemma rows_end : forall parse fmt post, ends post -> read_rows parse fmt false post = Ok ([], tl post).
Proof. intros parse fmt post [-> |[l [f [-> B]]]]; [reflexivity|]. cbn [read_rows tl]. rewrite (strip_content _ _ B). reflexivity. Qed.

Lemma rows_numbers : forall parse set rows vals post start, data_set set rows -> Forall2 (numbers parse) rows vals -> ends post ->
  rows <> [] \/ start = false ->
  read_rows parse FArray start (set ++ post) = Ok (map RNum vals, tl post).
Proof.
  intros parse set rows vals post start D. revert vals start.
  induction D as [|l f rows [s C] D IH|l s f rows D1 D IH]; intros vals start V E St.
  - inversion V; subst. destruct St as [X| ->]; [contradiction (X eq_refl)|]. apply rows_end. exact E.
  - cbn [app read_rows]. rewrite (strip_content _ _ C), Ascii.eqb_refl. apply IH; assumption.
  - inversion V as [|? v ? vs V1 V2]; subst. destruct (data_head l s D1) as [c [r [S [-> N]]]].
    cbn [app read_rows]. rewrite S, N, (floats_numbers _ _ _ V1). cbn [bind]. rewrite (IH vs false V2 E (or_intror eq_refl)). reflexivity.
Qed.
Lemma nums_map : forall vals, map nums (map RNum vals) = vals.
Proof. intros. rewrite map_map. cbn. apply map_id. Qed.

Lemma read_set : forall parse pre set rows vals post,
  Forall (fun l => blank l \/ comment l) pre -> data_set set rows -> rows <> [] -> (post = [] \/ exists l f, post = l :: f /\ blank l) ->
  Forall2 (numbers parse) rows vals -> (forall a b, In a vals -> In b vals -> List.length a = List.length b) ->
  read_array parse (pre ++ set ++ post) = Ok (Some vals, tl post).
Proof.
  intros parse pre set rows vals post P D N E V Q. unfold read_array. rewrite skip_pre by exact P.
  rewrite (rows_numbers parse set rows vals post true D V E (or_introl N)). cbn [bind fst snd].
  destruct vals as [|v vals]; [inversion V; subst; contradiction (N eq_refl)|].
  pose proof (nums_map (v :: vals)) as M. cbn [map] in M |- *. rewrite M.
  assert (X : rect (v :: vals) = true).
  { unfold rect. apply forallb_forall. intros b B. apply Nat.eqb_eq. apply Q; [right; exact B|left; reflexivity]. }
  rewrite X. reflexivity.
Qed.

Lemma rows_bad : forall parse set rows post start, data_set set rows -> (exists s, In s rows /\ forall r, ~ numbers parse s r) ->
  read_rows parse FArray start (set ++ post) = Raise ValueError.
Proof.
  intros parse set rows post start D. revert start.
  induction D as [|l f rows [s C] D IH|l s f rows D1 D IH]; intros start [b [I B]].
  - contradiction I.
  - cbn [app read_rows]. rewrite (strip_content _ _ C), Ascii.eqb_refl. apply IH. exists b. split; assumption.
  - destruct (data_head l s D1) as [c [r [S [-> N]]]]. cbn [app read_rows]. rewrite S, N.
    destruct (floats parse (words (c :: r))) as [v|e] eqn:F; cbn [bind].
    + destruct I as [<-|I]; [contradiction (B v (floats_ok _ _ _ F))|].
      rewrite (IH false) by (exists b; split; assumption). reflexivity.
    + rewrite (floats_fail _ _ _ F). reflexivity.
Qed.
Lemma read_set_bad : forall parse pre set rows post,
  Forall (fun l => blank l \/ comment l) pre -> data_set set rows -> (exists s, In s rows /\ forall r, ~ numbers parse s r) ->
  read_array parse (pre ++ set ++ post) = Raise ValueError.
Proof.
  intros parse pre set rows post P D B. unfold read_array. rewrite skip_pre by exact P. rewrite (rows_bad _ _ _ _ _ D B). reflexivity.
Qed.
Lemma read_none : forall parse f, Forall (fun l => blank l \/ comment l) f ->
  read_array parse f = Ok (None, []) /\ read_strings parse f = Ok (None, []).
Proof.
  intros parse f H. unfold read_array, read_strings. rewrite <- (app_nil_r f). rewrite !skip_pre by exact H. split; reflexivity.
Qed.
Lemma rows_strings : forall parse set rows post start, data_set set rows -> ends post -> rows <> [] \/ start = false ->
  read_rows parse FString start (set ++ post) = Ok (map RStr rows, tl post).
Proof.
  intros parse set rows post start D. revert start.
  induction D as [|l f rows [s C] D IH|l s f rows D1 D IH]; intros start E St.
  - destruct St as [X| ->]; [contradiction (X eq_refl)|]. apply rows_end. exact E.
  - cbn [app read_rows]. rewrite (strip_content _ _ C), Ascii.eqb_refl. apply IH; assumption.
  - destruct (data_head l s D1) as [c [r [S [-> N]]]].
    cbn [app read_rows]. rewrite S, N. cbn [bind]. rewrite (IH false E (or_intror eq_refl)). reflexivity.
Qed.
Lemma read_set_strings : forall parse pre set rows post,
  Forall (fun l => blank l \/ comment l) pre -> data_set set rows -> rows <> [] -> (post = [] \/ exists l f, post = l :: f /\ blank l) ->
  read_strings parse (pre ++ set ++ post) = Ok (Some rows, tl post).
Proof.
  intros parse pre set rows post P D N E. unfold read_strings. rewrite skip_pre by exact P.
  rewrite (rows_strings parse set rows post true D E (or_introl N)). cbn [bind fst snd].
  destruct rows as [|s rows]; [contradiction (N eq_refl)|].
  cbn [map]. rewrite map_map. cbn. rewrite map_id. reflexivity.
Qed.
(** the documented format 'lines' never returns a data set *)
Lemma lines_raise : forall parse pre l s post, Forall (fun l => blank l \/ comment l) pre -> data l s ->
  read_lines parse (pre ++ l :: post) = Raise AssertionError.
Proof.
  intros parse pre l s post P D. unfold read_lines. rewrite skip_pre by exact P. destruct (data_head l s D) as [c [r [S [-> N]]]].
  cbn [read_rows]. rewrite S, N. reflexivity.
Qed.

(** ** Writing and reading back *)
Lemma space_tab : is_space tab_char = true. Proof. reflexivity. Qed.
Lemma space_nl : is_space nl_char = true. Proof. reflexivity. Qed.

Lemma words_blanks : forall a b, spaces b -> words (a ++ b) = words a.
Proof.
  intros a b B. induction a as [|c a IH].
  - cbn [app]. rewrite <- (app_nil_r b), words_spaces by exact B. reflexivity.
  - cbn [app words]. rewrite IH. destruct (is_space c); [reflexivity|]. destruct a as [|d a]; [|reflexivity].
    cbn [app]. destruct b as [|x b]; [reflexivity|]. rewrite (Forall_inv B). reflexivity.
Qed.
Lemma words_strip : forall l, words (strip l) = words l.
Proof.
  intros l. destruct (content_strip l) as [a [b [E [S _]]]]. rewrite E at 2. apply Forall_app in S as [A B].
  rewrite words_spaces by exact A. rewrite words_blanks by exact B. reflexivity.
Qed.
Lemma written_words : forall parse fmt rnd r t, Forall (written parse fmt rnd) r -> spaces t ->
  map parse (words (flat_map (fun v => fmt v ++ [tab_char]) r ++ t)) = map Some (map rnd r).
Proof.
  intros parse fmt rnd r t W T. induction W as [|v r [a [w [b [E [S [N [U [_ P]]]]]]]] W IH].
  - cbn [flat_map app]. rewrite <- (app_nil_r t), words_spaces by exact T. reflexivity.
  - cbn [flat_map map]. rewrite E. apply Forall_app in S as [A B].
    rewrite <- !app_assoc. rewrite words_spaces by exact A. rewrite words_word; [|exact U|exact N|].
    + rewrite words_spaces by exact B. cbn [map app]. rewrite P. f_equal.
      transitivity (map parse (words (flat_map (fun v0 => fmt v0 ++ [tab_char]) r ++ t))); [|exact IH].
      cbn [words]. rewrite space_tab. reflexivity.
    + right. destruct b as [|c b]; [exists tab_char; eexists; split; reflexivity|].
      exists c. eexists. split; [reflexivity|exact (Forall_inv B)].
Qed.
Lemma row_data : forall parse fmt rnd r, Forall (written parse fmt rnd) r -> r <> [] -> data (write_row fmt r) (strip (write_row fmt r)).
Proof.
  intros parse fmt rnd r W N. split; [apply content_strip|].
  destruct r as [|v r]; [contradiction (N eq_refl)|]. destruct (Forall_inv W) as [a [w [b [E [S [Nw [U [Hd _]]]]]]]].
  apply Forall_app in S as [A B]. destruct w as [|c w]; [contradiction (Nw eq_refl)|]. cbn [hd] in Hd.
  destruct (content_strip (write_row fmt (v :: r))) as [a' [b' [E' [S' [H' _]]]]]. apply Forall_app in S' as [A' B'].
  assert (L : lstrip (write_row fmt (v :: r)) = c :: (w ++ b ++ [tab_char] ++ flat_map (fun v => fmt v ++ [tab_char]) r ++ [nl_char])).
  { unfold write_row. cbn [flat_map]. rewrite E, <- !app_assoc. rewrite lstrip_spaces by exact A. cbn [app lstrip]. rewrite (Forall_inv U). reflexivity. }
  assert (M : strip (write_row fmt (v :: r)) <> []).
  { intros Z. rewrite Z in E'. cbn [app] in E'. rewrite E' in L.
    assert (Q : spaces (a' ++ b')) by (apply Forall_app; split; assumption).
    rewrite <- (app_nil_r (a' ++ b')), lstrip_spaces in L by exact Q. discriminate. }
  destruct (strip (write_row fmt (v :: r))) as [|x y]; [contradiction (M eq_refl)|]. exists x, y. split; [reflexivity|].
  rewrite E' in L. rewrite lstrip_spaces in L by exact A'. cbn [app lstrip] in L. rewrite (H' x y eq_refl) in L. injection L as -> _. exact Hd.
Qed.

Lemma write_read : forall parse fmt rnd a post,
  a <> [] -> Forall (fun r => r <> [] /\ Forall (written parse fmt rnd) r) a ->
  (forall r s, In r a -> In s a -> List.length r = List.length s) -> (post = [] \/ exists l f, post = l :: f /\ blank l) ->
  read_array parse (write fmt a ++ post) = Ok (Some (map (map rnd) a), tl post).
Proof.
  intros parse fmt rnd a post N W L E.
  apply (read_set parse [] (write fmt a) (map (fun r => strip (write_row fmt r)) a)); [constructor| | |exact E| |].
  - clear N L E. induction W as [|r a [Nr Wr] W IH]; [constructor|]. unfold write. cbn [map]. apply ds_data; [|exact IH].
    exact (row_data parse fmt rnd r Wr Nr).
  - destruct a; [contradiction (N eq_refl)|discriminate].
  - clear N L E. induction W as [|r a [Nr Wr] W IH]; [constructor|]. cbn [map]. constructor; [|exact IH].
    unfold numbers. rewrite words_strip. unfold write_row. apply written_words; [exact Wr|constructor; [reflexivity|constructor]].
  - intros x y X Y. apply in_map_iff in X as [r [<- X]]. apply in_map_iff in Y as [s [<- Y]]. rewrite !map_length. apply L; assumption.
Qed.
